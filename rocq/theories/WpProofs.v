(** Proofs for C10 and C11: propagation of weight constraints. *)
From Coq Require Import List Bool Arith ZArith Lia Permutation.
From Verif Require Import Base WcModel WcSpec WcProofs WpModel WpSpec.
Import ListNotations.
Local Open Scope Z_scope.
#[local] Arguments Z.add : simpl never.
#[local] Arguments Z.sub : simpl never.
#[local] Arguments Nat.eqb : simpl nomatch.
#[local] Arguments clit : simpl never.
#[local] Arguments entry : simpl never.
#[local] Arguments size : simpl never.
#[local] Arguments weight : simpl never.

(** ** Sums over index lists *)
Fixpoint sumf (g : nat -> Z) (l : list nat) : Z := match l with [] => 0 | i :: t => g i + sumf g t end.
Lemma sumf_app g l r : sumf g (l ++ r) = sumf g l + sumf g r.
Proof. induction l; cbn; lia. Qed.
Lemma sumf_ext g h l : (forall i, In i l -> g i = h i) -> sumf g l = sumf h l.
Proof. induction l; cbn; intros H; [reflexivity|]. rewrite H, IHl by auto. reflexivity. Qed.
Lemma sumf_nonneg g l : (forall i, 0 <= g i) -> 0 <= sumf g l.
Proof. intros H. induction l; cbn; [lia|]. specialize (H a). lia. Qed.
Lemma sumf_incl g : (forall i, 0 <= g i) -> forall R S, NoDup R -> incl R S -> sumf g R <= sumf g S.
Proof.
  intros Hg. induction R as [|i R IH]; intros S ND HI; cbn.
  - now apply sumf_nonneg.
  - inversion_clear ND as [|? ? N1 N2]. destruct (in_split i S) as (S1 & S2 & ->); [apply HI; now left|].
    rewrite sumf_app. cbn. specialize (IH (S1 ++ S2) N2). rewrite sumf_app in IH.
    enough (incl R (S1 ++ S2)) by (specialize (IH H); lia).
    intros j Hj. assert (In j (S1 ++ i :: S2)) by (apply HI; now right).
    apply in_app_or in H as [H|[->|H]]; [apply in_or_app; auto|contradiction|apply in_or_app; auto].
Qed.

Lemma nodup_app_l {A} (a b : list A) : NoDup (a ++ b) -> NoDup a.
Proof.
  induction a as [|x t IH]; cbn; intros H; [constructor|]. inversion_clear H as [|? ? N1 N2]. constructor; [|auto].
  intros G. apply N1. apply in_or_app. auto.
Qed.

Section Con.
Variable k : wcon.
Hypothesis GC : good_con k.

Definition b0 (c : bool) : Z := if c then k_bound k else (k_reach k - k_bound k) + 1.
Lemma k_reach_total : k_reach k = total (k_lits k).
Proof. unfold k_reach. induction (k_lits k) as [|[x w] t IH]; cbn; lia. Qed.

Lemma b0_pos c : watched k c = true -> 0 < b0 c.
Proof.
  destruct (gc_open k GC) as [O1 O2]. unfold watched, b0. rewrite k_reach_total.
  destruct (k_act k) as [[]|], c; cbn; try discriminate; intros _; try (specialize (O1 ltac:(discriminate)));
    try (specialize (O2 ltac:(discriminate))); lia.
Qed.
Lemma watched_two c : watched k c = true \/ watched k (negb c) = true.
Proof. unfold watched. destruct (k_act k) as [[]|], c; cbn; auto. Qed.

Lemma nodup_all : NoDup (map (fun e : wlit => fst (fst e)) (k_all k)).
Proof. exact (gc_distinct k GC). Qed.
Lemma weight_pos i : (i < size k)%nat -> 1 <= weight k i.
Proof.
  intros H. unfold weight, entry. assert (In (nth i (k_all k) (0%nat, false, 0)) (k_all k)) as Hi by now apply nth_In.
  destruct Hi as [<-|Hi]; [cbn; lia|]. now apply (gc_positive k GC).
Qed.
Lemma weight_nonneg i : 0 <= weight k i.
Proof.
  destruct (lt_dec i (size k)) as [H|H]; [pose proof (weight_pos i H); lia|].
  unfold weight, entry. rewrite nth_overflow by (unfold size in H; lia). cbn. lia.
Qed.
Lemma weight_0 : weight k 0 = 1. Proof. reflexivity. Qed.
Lemma sorted_nth l : sorted_desc l -> forall i j d, (i <= j)%nat -> (j < length l)%nat -> snd (nth j l d) <= snd (nth i l d).
Proof.
  induction l as [|[x w] t IH]; intros Hs i j d Hij Hj; [cbn in Hj; lia|]. destruct Hs as [H1 H2].
  destruct i as [|i], j as [|j]; cbn [nth]; try lia.
  - cbn [snd]. apply H1. apply nth_In. cbn in Hj; lia.
  - apply IH; auto; cbn in Hj; lia.
Qed.
Lemma weight_sorted i j : (1 <= i)%nat -> (i <= j)%nat -> (j < size k)%nat -> weight k j <= weight k i.
Proof.
  intros H1 H2 H3. destruct i as [|i]; [lia|]. destruct j as [|j]; [lia|]. unfold weight, entry. cbn [k_all nth].
  apply sorted_nth; [apply (gc_sorted k GC)|lia|]. unfold size in H3. cbn in H3. lia.
Qed.
Lemma weight_card i : isWeight k = false -> (i < size k)%nat -> weight k i = 1.
Proof.
  intros H Hi. destruct i as [|i]; [reflexivity|].
  pose proof (weight_sorted 1 (S i) ltac:(lia) ltac:(lia) Hi). pose proof (weight_pos (S i) Hi).
  assert (weight k 1 <= 1); [|lia].
  unfold isWeight in H. unfold weight, entry. cbn [k_all nth]. destruct (k_lits k) as [|[x w] t] eqn:E; cbn; [lia|].
  lia.
Qed.

Lemma clit_var i c : fst (clit k i c) = fst (fst (entry k i)).
Proof. unfold clit, xorl. destruct c; reflexivity. Qed.
Lemma clit_negb i c : clit k i (negb c) = neg (clit k i c).
Proof. unfold clit, xorl. destruct c; cbn; [now rewrite neg_neg|reflexivity]. Qed.
Lemma clit_inj i j c c' : (i < size k)%nat -> (j < size k)%nat -> fst (clit k i c) = fst (clit k j c') -> i = j.
Proof.
  rewrite !clit_var. intros Hi Hj E. unfold size in *.
  pose proof nodup_all as ND. rewrite (NoDup_nth _ 0%nat) in ND. rewrite map_length in ND. apply (ND i j Hi Hj).
  pose proof (map_nth (fun e : wlit => fst (fst e)) (k_all k) ((0%nat, false), 0)) as M. cbn [fst] in M. rewrite !M. exact E.
Qed.
Lemma neg_ne x : neg x <> x.
Proof. destruct x as [v []]; cbn; discriminate. Qed.

Lemma find_idx_some : forall (l : list wlit) n (p : lit) i c, find_idx l n p = Some (i, c) ->
  (n <= i)%nat /\ (i < n + length l)%nat /\ p = neg (xorl (fst (nth (i - n) l ((0%nat, false), 0))) c).
Proof.
  induction l as [|e t IH]; cbn [find_idx]; intros n p i c H; [discriminate|].
  destruct (Nat.eqb (fst (fst e)) (fst p)) eqn:E.
  - injection H as <- <-. cbn [length]. rewrite Nat.sub_diag. cbn [nth]. split; [lia|]. split; [lia|].
    apply Nat.eqb_eq in E. destruct (lit_eqb (fst e) p) eqn:L; cbn.
    + apply lit_eqb_eq in L. now rewrite L, neg_neg.
    + apply lit_eqb_neq in L. apply same_var in E as [E|E]; congruence.
  - apply IH in H as (H1 & H2 & H3). cbn [length]. split; [lia|]. split; [lia|]. rewrite H3.
    replace (i - n)%nat with (S (i - S n)) by lia. reflexivity.
Qed.
Lemma watch_of_some p i c : watch_of k p = Some (i, c) -> (i < size k)%nat /\ watched k c = true /\ p = neg (clit k i c).
Proof.
  unfold watch_of. destruct (find_idx (k_all k) 0 p) as [[i' c']|] eqn:E; [|discriminate].
  destruct (watched k c') eqn:W; [|discriminate]. intros [= <- <-].
  apply find_idx_some in E as (_ & E1 & E2). rewrite Nat.sub_0_r in E2. auto.
Qed.
Lemma find_idx_hit : forall (l : list wlit) n (p : lit) i, (i < length l)%nat -> fst (fst (nth i l ((0%nat, false), 0))) = fst p -> exists r, find_idx l n p = Some r.
Proof.
  induction l as [|e t IH]; cbn [length find_idx]; intros n p i Hi E; [lia|].
  destruct (Nat.eqb (fst (fst e)) (fst p)) eqn:F; [eexists; reflexivity|]. destruct i as [|i]; cbn [nth] in E.
  - apply Nat.eqb_neq in F. congruence.
  - apply (IH (S n) p i); [lia|assumption].
Qed.
Lemma watch_of_hit i c : (i < size k)%nat -> watched k c = true -> watch_of k (neg (clit k i c)) = Some (i, c).
Proof.
  intros Hi W. unfold watch_of. destruct (find_idx_hit (k_all k) 0 (neg (clit k i c)) i Hi) as [[i' c'] E].
  { cbn [neg fst]. rewrite clit_var. reflexivity. }
  rewrite E. apply find_idx_some in E as (_ & E1 & E2). rewrite Nat.sub_0_r in E2.
  fold (entry k i') in E2. fold (clit k i' c') in E2.
  assert (EE : clit k i c = clit k i' c').
  { rewrite <- (neg_neg (clit k i c)), E2, neg_neg. reflexivity. }
  assert (i = i') by (apply (clit_inj i i' c c'); [assumption|exact E1|now rewrite EE]). subst i'.
  assert (c' = c).
  { destruct c, c'; auto; exfalso; unfold clit in EE; cbn in EE; [now apply (neg_ne (fst (entry k i)))|now apply (neg_ne (fst (entry k i)))]. }
  subst c'. now rewrite W.
Qed.

(** ** Values *)
Definition tv (tr : list tent) : list nat := map (fun e => fst (t_lit e)) tr.
Definition tl (tr : list tent) : list lit := map t_lit tr.
Lemma tv_tl tr : tv tr = map fst (tl tr). Proof. unfold tv, tl. now rewrite map_map. Qed.
Lemma tl_app a b : tl (a ++ b) = tl a ++ tl b. Proof. apply map_app. Qed.
Lemma tv_app a b : tv (a ++ b) = tv a ++ tv b. Proof. apply map_app. Qed.
Lemma in_tl_tv tr x : In x (tl tr) -> In (fst x) (tv tr).
Proof. rewrite tv_tl. apply in_map. Qed.

Lemma find_var tr (x : lit) : match find (fun e => Nat.eqb (fst (t_lit e)) (fst x)) tr with
  | Some e => In e tr /\ fst (t_lit e) = fst x | None => ~ In (fst x) (tv tr) end.
Proof.
  induction tr as [|e t IH]; cbn; [auto|]. destruct (Nat.eqb (fst (t_lit e)) (fst x)) eqn:E.
  - apply Nat.eqb_eq in E. auto.
  - apply Nat.eqb_neq in E. destruct (find _ t); [tauto|]. intros [H|H]; auto.
Qed.
Lemma value_free tr x : value tr x = None <-> ~ In (fst x) (tv tr).
Proof.
  unfold value. pose proof (find_var tr x). destruct (find _ tr) as [e|]; [|tauto].
  split; [discriminate|]. intros N. exfalso. apply N. destruct H as [H1 H2]. rewrite <- H2. unfold tv. now apply (in_map (fun e => fst (t_lit e))).
Qed.
Lemma nodup_fst_inj (l : list lit) x y : NoDup (map fst l) -> In x l -> In y l -> fst x = fst y -> x = y.
Proof.
  induction l as [|z t IH]; cbn; [easy|]. intros ND Hx Hy E. inversion_clear ND as [|? ? N1 N2].
  destruct Hx as [->|Hx], Hy as [->|Hy]; auto.
  - exfalso. apply N1. rewrite E. now apply in_map.
  - exfalso. apply N1. rewrite <- E. now apply in_map.
Qed.
Lemma tl_unique tr x y : NoDup (tv tr) -> In x (tl tr) -> In y (tl tr) -> fst x = fst y -> x = y.
Proof. rewrite tv_tl. apply nodup_fst_inj. Qed.
Lemma tl_no_neg tr x : NoDup (tv tr) -> In x (tl tr) -> ~ In (neg x) (tl tr).
Proof. intros ND H1 H2. apply (neg_ne x). eapply tl_unique; eauto. Qed.
Lemma value_true tr x : NoDup (tv tr) -> (value tr x = Some true <-> In x (tl tr)).
Proof.
  intros ND. unfold value. pose proof (find_var tr x) as F. destruct (find _ tr) as [e|].
  - destruct F as [F1 F2]. assert (Fe : In (t_lit e) (tl tr)) by now apply in_map. split.
    + intros [= E]. apply eqb_prop in E. destruct x as [v s], (t_lit e) as [v' s'] eqn:L; cbn in *. subst. exact Fe.
    + intros H. assert (t_lit e = x) by (eapply tl_unique; eauto). subst x. now rewrite Bool.eqb_reflx.
  - split; [discriminate|]. intros H. exfalso. apply F. now apply in_tl_tv.
Qed.
Lemma value_false tr x : NoDup (tv tr) -> (value tr x = Some false <-> In (neg x) (tl tr)).
Proof.
  intros ND. rewrite <- (value_true tr (neg x) ND). unfold value. cbn [neg fst].
  destruct (find _ tr) as [e|]; [|split; discriminate].
  destruct (snd (t_lit e)), x as [v []]; cbn; split; congruence.
Qed.
Lemma is_true_In tr x : NoDup (tv tr) -> (is_true tr x = true <-> In x (tl tr)).
Proof. intros ND. rewrite <- (value_true tr x ND). unfold is_true. destruct (value tr x) as [[]|]; split; congruence. Qed.
Lemma level_In tr e x : NoDup (tv tr) -> In e tr -> fst (t_lit e) = fst x -> level tr x = t_lvl e.
Proof.
  intros ND H E. unfold level. pose proof (find_var tr x) as F. destruct (find _ tr) as [e'|].
  - destruct F as [F1 F2]. f_equal.
    assert (G : forall t, NoDup (tv t) -> In e t -> In e' t -> e' = e).
    { induction t as [|z t IH]; cbn; [easy|]. intros N He He'. inversion_clear N as [|? ? N1 N2].
      destruct He as [->|He], He' as [->|He']; auto; exfalso; apply N1; unfold tv.
      - replace (fst (t_lit e)) with (fst (t_lit e')) by congruence. now apply (in_map (fun e => fst (t_lit e))).
      - replace (fst (t_lit e')) with (fst (t_lit e)) by congruence. now apply (in_map (fun e => fst (t_lit e))). }
    now apply (G tr).
  - exfalso. apply F. rewrite <- E. unfold tv. now apply (in_map (fun e => fst (t_lit e))).
Qed.

(** ** Sub-constraints and their meaning *)
Definition sumc (c : bool) (st : list (nat * bool)) : Z :=
  sumf (weight k) (map fst (filter (fun u => Bool.eqb (snd u) c) st)).
Lemma sumc_app c a b : sumc c (a ++ b) = sumc c a + sumc c b.
Proof. unfold sumc. now rewrite filter_app, map_app, sumf_app. Qed.
Lemma sumc_one c i c' : sumc c [(i, c')] = if Bool.eqb c' c then weight k i else 0.
Proof. unfold sumc. cbn. destruct (Bool.eqb c' c); cbn; lia. Qed.

(** falsified weight of sub-constraint [c] under a total assignment *)
Definition fw (c : bool) (a : asg) (i : nat) : Z := if holds a (clit k i c) then 0 else weight k i.
Lemma fw_nonneg c a i : 0 <= fw c a i.
Proof. unfold fw. pose proof (weight_nonneg i). destruct (holds a (clit k i c)); lia. Qed.
Definition fsum (c : bool) (a : asg) : Z := sumf (fw c a) (seq 1 (length (k_lits k))).

Lemma fsum_gen a c : forall l n, (forall j, (j < length l)%nat -> entry k (n + j) = nth j l ((0%nat, false), 0)) ->
  sumf (fw c a) (seq n (length l)) = if c then wsum a l else total l - wsum a l.
Proof.
  induction l as [|[x w] t IH]; intros n H; cbn [length seq sumf wsum total]; [destruct c; lia|].
  rewrite IH.
  2: { intros j Hj. specialize (H (S j) ltac:(cbn; lia)). rewrite Nat.add_succ_r in H. exact H. }
  specialize (H 0%nat ltac:(cbn; lia)). rewrite Nat.add_0_r in H. cbn [nth] in H.
  unfold fw, clit, weight. rewrite H. cbn [fst snd]. rewrite holds_xorl. destruct c, (holds a x); cbn [xorb]; lia.
Qed.
Lemma fsum_eq a c : fsum c a = if c then wsum a (k_lits k) else total (k_lits k) - wsum a (k_lits k).
Proof. unfold fsum. apply fsum_gen. reflexivity. Qed.

Definition sub (c : bool) (a : asg) : Prop := holds a (clit k 0 c) = true \/ fsum c a < b0 c.
Lemma sub_meaning a : (forall c, watched k c = true -> sub c a) <-> con_meaning k a.
Proof.
  unfold con_meaning, sub, watched, b0. rewrite k_reach_total.
  assert (H0 : holds a (clit k 0 false) = negb (holds a (k_W k))).
  { unfold clit, entry. cbn [k_all nth fst xorl]. apply holds_neg. }
  assert (H1 : holds a (clit k 0 true) = holds a (k_W k)).
  { unfold clit, entry. cbn [k_all nth fst xorl]. now rewrite neg_neg. }
  pose proof (fsum_eq a false) as F0. pose proof (fsum_eq a true) as F1. cbn in F0, F1.
  destruct (k_act k) as [[]|].
  - split.
    + intros H. specialize (H true eq_refl). cbn in H. rewrite H1 in H. intros G. destruct H; [assumption|]. lia.
    + intros H [] E; [|discriminate]. rewrite H1. destruct (holds a (k_W k)); [auto|]. right.
      destruct (Z_le_dec (k_bound k) (wsum a (k_lits k))); [specialize (H l); discriminate|lia].
  - split.
    + intros H. specialize (H false eq_refl). cbn in H. rewrite H0 in H. intros G. rewrite G in H. destruct H; [discriminate|]. lia.
    + intros H [] E; [discriminate|]. rewrite H0. destruct (holds a (k_W k)); [|auto]. right. specialize (H eq_refl). lia.
  - split.
    + intros H. pose proof (H true eq_refl) as T. pose proof (H false eq_refl) as F. cbn in T, F. rewrite H1 in T. rewrite H0 in F.
      split.
      * intros G. rewrite G in F. destruct F; [discriminate|]. lia.
      * intros G. destruct T; [assumption|]. lia.
    + intros H [] _; cbn; rewrite ?H0, ?H1; destruct (holds a (k_W k)); auto; right.
      * destruct (Z_le_dec (k_bound k) (wsum a (k_lits k))); [destruct H as [_ H]; specialize (H l); discriminate|lia].
      * destruct H as [H _]. specialize (H eq_refl). lia.
Qed.

Lemma b0_sum : b0 true + b0 false = total (k_lits k) + 1.
Proof. unfold b0. rewrite k_reach_total. lia. Qed.

(** ** Justified literals *)
Definition stop_of (w : wst) (d : nat) : nat := if isWeight k then d else length (stack_ w).
Record just (w : wst) (L : list lit) (x : lit) (d : nat) (c : bool) (i : nat) : Prop := {
  j_idx : (i < size k)%nat;
  j_lit : x = clit k i c;
  j_watched : watched k c = true;
  j_active : active_ w = Some c;
  j_stop : (stop_of w d <= length (stack_ w))%nat;
  j_before : forall j, In (j, c) (firstn (stop_of w d) (stack_ w)) -> In (neg (clit k j c)) L;
  j_new : ~ In (i, c) (firstn (stop_of w d) (stack_ w));
  j_sum : (i = 0%nat /\ b0 c <= sumc c (firstn (stop_of w d) (stack_ w))) \/
          ((1 <= i)%nat /\ In (0%nat, c) (firstn (stop_of w d) (stack_ w)) /\
           b0 c < sumc c (firstn (stop_of w d) (stack_ w)) + weight k i) }.

Lemma filter_idx_In c (S : list (nat * bool)) j : In j (map fst (filter (fun u => Bool.eqb (snd u) c) S)) <-> In (j, c) S.
Proof.
  rewrite in_map_iff. split.
  - intros ([j' c'] & <- & H). apply filter_In in H as [H E]. cbn in *. apply eqb_prop in E. now subst.
  - intros H. exists (j, c). split; [reflexivity|]. apply filter_In. split; [assumption|]. cbn. apply Bool.eqb_reflx.
Qed.
Lemma filter_idx_nodup c (S : list (nat * bool)) : NoDup (map fst S) -> NoDup (map fst (filter (fun u => Bool.eqb (snd u) c) S)).
Proof.
  induction S as [|[i c'] t IH]; cbn; intros H; [constructor|]. inversion_clear H as [|? ? N1 N2].
  destruct (Bool.eqb c' c); cbn; [|auto]. constructor; [|auto]. intros G. apply N1.
  apply in_map_iff in G as (u & E & G). apply filter_In in G as [G _]. rewrite <- E. now apply in_map.
Qed.

Lemma just_sound w L x d c i a : NoDup (map fst (stack_ w)) -> (forall j c', In (j, c') (stack_ w) -> (j < size k)%nat) ->
  just w L x d c i ->
  (forall r, In r (wc_reason k w d) -> In r L) /\
  (con_meaning k a -> (forall r, In r (wc_reason k w d) -> holds a r = true) -> holds a x = true).
Proof.
  intros ND Hs J. destruct J as [Ji Jx Jw Ja Js Jb Jn Jsum]. unfold wc_reason. fold (stop_of w d). rewrite Ja.
  set (S := firstn (stop_of w d) (stack_ w)) in *.
  assert (NDS : NoDup (map fst S)).
  { unfold S. rewrite <- (firstn_skipn (stop_of w d) (stack_ w)), map_app in ND. now apply nodup_app_l in ND. }
  assert (InS : forall u, In u S -> In u (stack_ w)).
  { intros u Hu. rewrite <- (firstn_skipn (stop_of w d) (stack_ w)). apply in_or_app. auto. }
  split.
  - intros r Hr. apply in_map_iff in Hr as ([j c'] & <- & Hr). apply filter_In in Hr as [Hr E]. cbn [fst snd] in *.
    apply eqb_prop in E. subst c'. now apply Jb.
  - intros Hm Hr. apply sub_meaning with (c := c) in Hm; [|assumption].
    assert (Hf : forall j, In (j, c) S -> holds a (clit k j c) = false).
    { intros j Hj. assert (Hn : holds a (neg (clit k j c)) = true).
      { apply Hr. apply in_map_iff. exists (j, c). split; [reflexivity|]. apply filter_In. split; [assumption|]. cbn. apply Bool.eqb_reflx. }
      rewrite holds_neg in Hn. now destruct (holds a (clit k j c)). }
    subst x. destruct (holds a (clit k i c)) eqn:Hx; [reflexivity|exfalso].
    set (R := map fst (filter (fun u => Bool.eqb (snd u) c) S)) in *.
    assert (NDR : NoDup R) by now apply filter_idx_nodup.
    assert (InR : forall j, In j R <-> In (j, c) S) by (intros; apply filter_idx_In).
    assert (Fw : forall l, (forall j, In j l -> holds a (clit k j c) = false) -> sumf (weight k) l = sumf (fw c a) l).
    { intros l Hl. apply sumf_ext. intros j Hj. unfold fw. now rewrite (Hl j Hj). }
    change (sumc c S) with (sumf (weight k) R) in Jsum.
    destruct Jsum as [[-> Jsum]|(J1 & J0 & Jsum)].
    + destruct Hm as [Hm|Hm]; [congruence|].
      rewrite Fw in Jsum by (intros j Hj; apply Hf; now apply InR).
      enough (sumf (fw c a) R <= fsum c a) by lia. apply sumf_incl; [apply fw_nonneg|assumption|].
      intros j Hj. assert (j <> 0%nat) by (intros ->; apply Jn; now apply InR).
      assert (j < size k)%nat by (apply (Hs j c), InS, InR; assumption). apply in_seq. unfold size in *. cbn in *. lia.
    + destruct Hm as [Hm|Hm]; [rewrite (Hf 0%nat J0) in Hm; discriminate|].
      assert (E : sumf (weight k) R + weight k i = sumf (fw c a) (i :: R)).
      { cbn [sumf]. rewrite Fw by (intros j Hj; apply Hf; now apply InR). assert (Fi : fw c a i = weight k i) by (unfold fw; now rewrite Hx). lia. }
      assert (LE : sumf (fw c a) (i :: R) <= sumf (fw c a) (seq 0 (size k))).
      { apply sumf_incl; [apply fw_nonneg| |].
        - constructor; [|assumption]. rewrite InR. assumption.
        - intros j [<-|Hj]; apply in_seq; [lia|]. assert (j < size k)%nat by (apply (Hs j c), InS, InR; assumption). lia. }
      unfold size in LE. cbn [k_all length seq sumf] in LE. fold (fsum c a) in LE.
      assert (F0 : fw c a 0 = 1) by (unfold fw; rewrite (Hf 0%nat J0); reflexivity). cbn [sumf] in E. lia.
Qed.


(** ** The invariant *)
Definition T (m : mach) (x : lit) : Prop := In x (tl (m_tr m)).
Definition P (m : mach) (x : lit) : Prop := In x (tl (firstn (m_front m) (m_tr m))).
Lemma P_T m x : P m x -> T m x.
Proof. unfold P, T, tl. intros H. rewrite <- (firstn_skipn (m_front m) (m_tr m)), map_app. apply in_or_app. auto. Qed.

Record Inv (m : mach) : Prop := {
  v_nodup : NoDup (tv (m_tr m));
  v_front : (m_front m <= length (m_tr m))%nat;
  v_stk : forall i c, In (i, c) (stack_ (m_w m)) -> (i < size k)%nat /\ watched k c = true /\ P m (neg (clit k i c));
  v_stknd : NoDup (map fst (stack_ (m_w m)));
  v_seen : forall i, seen_ (m_w m) i = true <-> In i (map fst (stack_ (m_w m)));
  v_bound : forall c, bound_ (m_w m) c = b0 c - sumc c (stack_ (m_w m));
  v_active : m_conf m = None -> forall c, active_ (m_w m) = Some c -> watched k c = true /\
     (watched k (negb c) = true -> In (0%nat, c) (stack_ (m_w m)) \/
        (~ In 0%nat (map fst (stack_ (m_w m))) /\ bound_ (m_w m) c <= 0 /\ T m (clit k 0 c)));
  v_cover : forall i c, (i < size k)%nat -> watched k c = true -> P m (neg (clit k i c)) ->
     In (i, c) (stack_ (m_w m)) \/ T m (clit k 0 c) \/ active_ (m_w m) = Some (negb c);
  v_reason : forall pre e post d, m_tr m = pre ++ e :: post -> t_reason e = Some d ->
     exists c i, just (m_w m) (tl pre) (t_lit e) d c i;
  v_conf : forall x d, m_conf m = Some (x, d) -> T m (neg x) /\ exists c i, just (m_w m) (trail_lits m) x d c i;
  v_fwd : m_conf m = None -> forall c, watched k c = true -> ~ In 0%nat (map fst (stack_ (m_w m))) ->
     bound_ (m_w m) c <= 0 -> T m (clit k 0 c);
  v_bp0 : ~ In 0%nat (map fst (stack_ (m_w m))) -> getBpIndex k (m_w m) = 1%nat;
  v_bpge : (1 <= getBpIndex k (m_w m))%nat;
  v_bp : m_conf m = None -> forall c, In (0%nat, c) (stack_ (m_w m)) ->
     0 <= bound_ (m_w m) c /\
     (forall i, (1 <= i)%nat -> (i < size k)%nat -> seen_ (m_w m) i = false -> bound_ (m_w m) c < weight k i -> T m (clit k i c)) /\
     (forall i, (1 <= i)%nat -> (i < getBpIndex k (m_w m))%nat -> seen_ (m_w m) i = true \/ T m (clit k i c)) }.

Lemma inv_init : Inv (m_init k).
Proof.
  split; cbn; try (intros; contradiction); try easy.
  - constructor.
  - constructor.
  - intros c. unfold sumc. cbn. unfold b0. destruct c; lia.
  - intros _ c E. split.
    + unfold watched. rewrite E. apply Bool.eqb_reflx.
    + unfold watched. rewrite E. destruct c; discriminate.
  - intros [] ? ? ? E; discriminate.
  - intros _ c W _ H. pose proof (b0_pos c W). unfold b0 in *. destruct c; lia.
  - intros _. unfold getBpIndex. cbn. now destruct (isWeight k).
  - unfold getBpIndex. cbn. destruct (isWeight k); lia.
Qed.

(** Only part of the invariant depends on the trail: extending the trail. *)
Lemma inv_assign m x : Inv m -> m_conf m = None -> is_free (m_tr m) x = true ->
  Inv (Mach (m_tr m ++ [TEnt x (m_dl m) None]) (m_front m) (m_starts m) (m_w m) (m_undo m) None).
Proof.
  intros I C F. destruct I as [V1 V2 V3 V4 V5 V6 V7 V8 V9 V10 V11 V12 V12' V13].
  assert (N : ~ In (fst x) (tv (m_tr m))).
  { apply value_free. unfold is_free in F. now destruct (value (m_tr m) x). }
  assert (Pq : forall y, P (Mach (m_tr m ++ [TEnt x (m_dl m) None]) (m_front m) (m_starts m) (m_w m) (m_undo m) None) y <-> P m y).
  { intros y. unfold P. cbn [m_front m_tr]. rewrite firstn_app. replace (m_front m - length (m_tr m))%nat with 0%nat by lia.
    cbn. rewrite app_nil_r. reflexivity. }
  assert (Tq : forall y, T m y -> T (Mach (m_tr m ++ [TEnt x (m_dl m) None]) (m_front m) (m_starts m) (m_w m) (m_undo m) None) y).
  { intros y. unfold T. cbn [m_tr]. rewrite tl_app, in_app_iff. auto. }
  split; cbn [m_tr m_front m_w m_conf].
  - rewrite tv_app. cbn. apply NoDup_Add with (a := fst x) (l := tv (m_tr m)).
    { rewrite <- (app_nil_r (tv (m_tr m))) at 1. apply Add_app. } auto.
  - rewrite app_length. lia.
  - intros i c H. rewrite Pq. auto.
  - assumption.
  - assumption.
  - assumption.
  - intros _ c E. destruct (V7 C c E) as [A B]. split; [assumption|]. intros W. destruct (B W) as [?|(? & ? & ?)]; auto.
  - intros i c H1 H2 H3. apply Pq in H3. destruct (V8 i c H1 H2 H3) as [?|[?|?]]; auto.
  - intros pre e post d E R. destruct post as [|p post _] using rev_ind.
    + apply app_inj_tail in E as [<- <-]. discriminate.
    + rewrite app_comm_cons, app_assoc in E. apply app_inj_tail in E as [E <-]. eapply V9; eauto.
  - discriminate.
  - intros _ c W Z B. apply Tq. now apply V11.
  - assumption.
  - assumption.
  - intros _ c H. destruct (V13 C c H) as (A & B & D). split; [assumption|]. split.
    + intros i H1 H2 H3 H4. apply Tq. auto.
    + intros i H1 H2. destruct (D i H1 H2); auto.
Qed.

Lemma firstn_S_nth {A} (l : list A) n e : nth_error l n = Some e -> firstn (S n) l = firstn n l ++ [e].
Proof.
  revert n. induction l as [|x t IH]; intros [|n] H; cbn in *; try discriminate.
  - now injection H as ->.
  - f_equal. now apply IH.
Qed.
Lemma P_S m e y st w u cf : nth_error (m_tr m) (m_front m) = Some e ->
  (P (Mach (m_tr m) (S (m_front m)) st w u cf) y <-> P m y \/ y = t_lit e).
Proof.
  intros H. unfold P. cbn [m_tr m_front]. rewrite (firstn_S_nth _ _ _ H), tl_app, in_app_iff. cbn. intuition.
Qed.

(** An event that leaves the constraint's state alone. *)
Lemma inv_noop m e st u : Inv m -> m_conf m = None -> nth_error (m_tr m) (m_front m) = Some e ->
  (forall i c, watch_of k (t_lit e) = Some (i, c) -> T m (clit k 0 c) \/ active_ (m_w m) = Some (negb c)) ->
  Inv (Mach (m_tr m) (S (m_front m)) st (m_w m) u None).
Proof.
  intros I C H Hw. destruct I as [V1 V2 V3 V4 V5 V6 V7 V8 V9 V10 V11 V12 V12' V13].
  split; cbn [m_tr m_front m_w m_conf]; auto; try discriminate.
  - assert (m_front m < length (m_tr m))%nat by (apply nth_error_Some; congruence). lia.
  - intros i c Hi. destruct (V3 i c Hi) as (A & B & D). split; [assumption|]. split; [assumption|]. apply (P_S m e); auto.
  - exact (fun _ => V7 C).
  - intros i c H1 H2 H3. apply (P_S m e) in H3 as [H3|H3]; [apply V8; assumption| |assumption].
    right. apply (Hw i c). rewrite <- H3. now apply watch_of_hit.
  - exact (fun _ => V11 C).
  - exact (fun _ => V13 C).
Qed.

(** The literal behind an event has not been processed before. *)
Lemma nth_split_tr {A} (l : list A) n e : nth_error l n = Some e -> l = firstn n l ++ e :: skipn (S n) l.
Proof.
  revert n. induction l as [|x t IH]; intros [|n] H; cbn in *; try discriminate.
  - now injection H as ->.
  - f_equal. now apply IH.
Qed.
Lemma event_fresh m e : NoDup (tv (m_tr m)) -> nth_error (m_tr m) (m_front m) = Some e ->
  ~ In (fst (t_lit e)) (tv (firstn (m_front m) (m_tr m))).
Proof.
  intros ND H G. pose proof (nth_split_tr _ _ _ H) as E. rewrite E, tv_app in ND. cbn in ND.
  apply NoDup_remove_2 in ND. apply ND. apply in_or_app. auto.
Qed.

Lemma event_unseen m e i c : Inv m -> nth_error (m_tr m) (m_front m) = Some e -> t_lit e = neg (clit k i c) ->
  ~ In i (map fst (stack_ (m_w m))).
Proof.
  intros I H E G. apply in_map_iff in G as ([i' c'] & Ei & G). cbn in Ei. subst i'.
  destruct (v_stk m I i c' G) as (_ & _ & Pc). apply (event_fresh m e (v_nodup m I) H).
  apply in_tl_tv in Pc. rewrite E. cbn [neg fst] in *. rewrite clit_var in *. exact Pc.
Qed.

(** The sub-constraint of the body literal on the stack. *)
Lemma body_side m c c' : Inv m -> ~ T m (clit k 0 c) -> In (0%nat, c') (stack_ (m_w m)) -> c' = c.
Proof.
  intros I NT H. destruct (v_stk m I _ _ H) as (_ & _ & Pc). destruct (Bool.bool_dec c' c) as [->|N]; [reflexivity|].
  exfalso. apply NT. apply P_T. replace c with (negb c') by (destruct c, c'; cbn; congruence). now rewrite clit_negb.
Qed.

Definition push (w : wst) (i : nat) (c : bool) (bp : nat) (act : option bool) : wst :=
  WSt (upd (bound_ w) c (bound_ w c - weight k i)) (stack_ w ++ [(i, c)]) (updn (seen_ w) i (negb (seen_ w i))) bp act.

(** Reasons survive a push. *)
Lemma just_push m e i c x d c' j L bp act : Inv m -> m_conf m = None -> nth_error (m_tr m) (m_front m) = Some e ->
  t_lit e = neg (clit k i c) -> (i < size k)%nat -> ~ T m (clit k 0 c) -> active_ (m_w m) <> Some (negb c) ->
  (act = active_ (m_w m) \/ act = Some c) ->
  T m x -> just (m_w m) L x d c' j -> just (push (m_w m) i c bp act) L x d c' j.
Proof.
  intros I C H E Hi NT NA Ha Hx [J1 J2 J3 J4 J5 J6 J7 J8].
  assert (c' = c). { destruct (Bool.bool_dec c' c) as [|N]; [assumption|]. exfalso. apply NA. rewrite J4. f_equal. destruct c, c'; cbn; congruence. }
  subst c'.
  assert (S1 : firstn (stop_of (push (m_w m) i c bp act) d) (stack_ (push (m_w m) i c bp act)) = firstn (stop_of (m_w m) d) (stack_ (m_w m))
     /\ (stop_of (push (m_w m) i c bp act) d <= length (stack_ (push (m_w m) i c bp act)))%nat).
  { unfold stop_of in *. destruct (isWeight k) eqn:W.
    - cbn [push stack_]. rewrite firstn_app. replace (d - length (stack_ (m_w m)))%nat with 0%nat by lia. cbn [firstn].
      rewrite app_nil_r, app_length. split; [reflexivity|lia].
    - exfalso. rewrite firstn_all in J8. destruct J8 as [[-> J8]|(K1 & K0 & J8)].
      + apply NT. now rewrite <- J2.
      + rewrite (weight_card j W J1) in J8.
        destruct (v_bp m I C c K0) as (B0 & B1 & _). pose proof (v_bound m I c) as VB.
        assert (bound_ (m_w m) c = 0) by lia.
        pose proof (event_unseen m e i c I H E) as U.
        assert (Si : seen_ (m_w m) i = false).
        { destruct (seen_ (m_w m) i) eqn:Q; [|reflexivity]. exfalso. apply U. now apply (v_seen m I). }
        assert (i <> 0%nat). { intros ->. apply U. apply in_map_iff. exists (0%nat, c). auto. }
        assert (Tc : T m (clit k i c)). { apply B1; auto; [lia|]. rewrite (weight_card i W Hi). lia. }
        apply (tl_no_neg _ _ (v_nodup m I) Tc). rewrite <- E. apply in_map. eapply nth_error_In; eauto. }
  destruct S1 as [S1 S2]. split; auto; try rewrite S1; auto.
  cbn [push active_]. destruct Ha as [-> | ->]; auto.
Qed.

Lemma sumc_same c l i : sumc c (l ++ [(i, c)]) = sumc c l + weight k i.
Proof. rewrite sumc_app, sumc_one, Bool.eqb_reflx. reflexivity. Qed.
Lemma sumc_other c c' l i : c' <> c -> sumc c' (l ++ [(i, c)]) = sumc c' l.
Proof. intros N. rewrite sumc_app, sumc_one. destruct (Bool.eqb c c') eqn:E; [apply eqb_prop in E; congruence|lia]. Qed.

Lemma snoc_split {A} (l ext pre post : list A) e : l ++ ext = pre ++ e :: post ->
  (exists q, l = pre ++ e :: q /\ post = q ++ ext) \/ (exists p, pre = l ++ p /\ ext = p ++ e :: post).
Proof.
  revert pre. induction l as [|x l IH]; intros pre H; cbn in H.
  - right. exists pre. auto.
  - destruct pre as [|y pre]; cbn in H.
    + injection H as -> <-. left. exists l. auto.
    + injection H as -> H. destruct (IH pre H) as [(q & -> & ->)|(p & -> & ->)]; [left; exists q|right; exists p]; auto.
Qed.

(** The event pushes (i,c), forces the literals of [ext] and possibly changes [active_]. *)
Lemma inv_push m e i c ext act bp st u cf :
  Inv m -> m_conf m = None -> nth_error (m_tr m) (m_front m) = Some e -> watch_of k (t_lit e) = Some (i, c) ->
  ~ T m (clit k 0 c) -> active_ (m_w m) <> Some (negb c) ->
  let w' := push (m_w m) i c bp act in
  let m' := Mach (m_tr m ++ ext) (S (m_front m)) st w' u cf in
  (act = active_ (m_w m) \/ act = Some c) ->
  (cf = None -> act = Some c -> watched k (negb c) = true -> In (0%nat, c) (stack_ w') \/
     (~ In 0%nat (map fst (stack_ w')) /\ bound_ w' c <= 0 /\ T m' (clit k 0 c))) ->
  NoDup (tv (m_tr m ++ ext)) ->
  (forall e', In e' ext -> act = Some c /\ t_reason e' = Some (length (stack_ w')) /\ exists j, just w' (tl (m_tr m)) (t_lit e') (length (stack_ w')) c j) ->
  (~ In 0%nat (map fst (stack_ w')) -> getBpIndex k w' = 1%nat) ->
  (1 <= getBpIndex k w')%nat ->
  (forall x d, cf = Some (x, d) -> T m' (neg x) /\ exists c i, just w' (tl (m_tr m)) x d c i) ->
  (cf = None -> forall c', watched k c' = true -> ~ In 0%nat (map fst (stack_ w')) -> bound_ w' c' <= 0 -> T m' (clit k 0 c')) ->
  (cf = None -> forall c', In (0%nat, c') (stack_ w') ->
     0 <= bound_ w' c' /\
     (forall i, (1 <= i)%nat -> (i < size k)%nat -> seen_ w' i = false -> bound_ w' c' < weight k i -> T m' (clit k i c')) /\
     (forall i, (1 <= i)%nat -> (i < getBpIndex k w')%nat -> seen_ w' i = true \/ T m' (clit k i c'))) ->
  Inv m'.
Proof.
  intros I C H W NT NA w' m' Ha HA ND HE HB HBge HC HF HBP.
  destruct (watch_of_some _ _ _ W) as (Hi & Wc & E). pose proof (event_unseen m e i c I H E) as U.
  assert (Pq : forall y, P m' y <-> P m y \/ y = t_lit e).
  { intros y. unfold P, m'. cbn [m_front m_tr]. rewrite firstn_app.
    assert (m_front m < length (m_tr m))%nat by (apply nth_error_Some; congruence).
    replace (S (m_front m) - length (m_tr m))%nat with 0%nat by lia. rewrite firstn_O, app_nil_r.
    rewrite (firstn_S_nth _ _ _ H), tl_app, in_app_iff. cbn. intuition. }
  assert (Tq : forall y, T m y -> T m' y).
  { intros y. unfold T, m'. cbn [m_tr]. rewrite tl_app, in_app_iff. auto. }
  assert (JL : forall x d c j L L', (forall y, In y L -> In y L') -> just w' L x d c j -> just w' L' x d c j).
  { intros x d c' j L L' HL [J1 J2 J3 J4 J5 J6 J7 J8]. split; auto. }
  assert (Sk : stack_ w' = stack_ (m_w m) ++ [(i, c)]) by reflexivity.
  split; unfold m'; cbn [m_tr m_front m_w m_conf].
  - exact ND.
  - assert (m_front m < length (m_tr m))%nat by (apply nth_error_Some; congruence). rewrite app_length. lia.
  - intros j c' Hj. rewrite Sk in Hj. fold m'. rewrite Pq. apply in_app_iff in Hj as [Hj|[[= <- <-]|[]]].
    + destruct (v_stk m I j c' Hj) as (A & B & D). auto.
    + auto.
  - rewrite Sk, map_app. cbn. apply NoDup_Add with (a := i) (l := map fst (stack_ (m_w m))).
    { rewrite <- (app_nil_r (map fst (stack_ (m_w m)))) at 1. apply Add_app. } split; [apply (v_stknd m I)|exact U].
  - intros j. rewrite Sk, map_app, in_app_iff. cbn [w' push seen_ map fst In]. unfold updn.
    destruct (Nat.eqb_spec i j) as [->|N].
    + destruct (seen_ (m_w m) j) eqn:Q; [exfalso; apply U; now apply (v_seen m I)|]. cbn. intuition.
    + rewrite (v_seen m I j). intuition.
  - intros c'. rewrite Sk. cbn [w' push bound_]. unfold upd. destruct (Bool.eqb c c') eqn:Q.
    + apply eqb_prop in Q. subst c'. rewrite sumc_same, (v_bound m I c). lia.
    + rewrite sumc_other by (intros ->; now rewrite Bool.eqb_reflx in Q). apply (v_bound m I).
  - intros Hcf c' Hc'. cbn [w' push active_] in Hc'. destruct (Bool.bool_dec c' c) as [->|N].
    + split; [assumption|]. now apply HA.
    + exfalso. destruct Ha as [-> | ->]; [|congruence]. apply NA. rewrite Hc'. f_equal. destruct c, c'; cbn; congruence.
  - intros j c' H1 H2 H3. fold m' in H3 |- *. rewrite Pq in H3. rewrite Sk, in_app_iff. destruct H3 as [H3|H3].
    + destruct (v_cover m I j c' H1 H2 H3) as [?|[?|Q]]; auto. right. right. cbn [w' push active_].
      destruct Ha as [-> | ->]; [assumption|]. destruct (Bool.bool_dec (negb c') c) as [->|N]; [reflexivity|].
      exfalso. apply NA. rewrite Q. f_equal. destruct c, c'; cbn in *; congruence.
    + left. right. left. assert (Q : watch_of k (t_lit e) = Some (j, c')) by (rewrite <- H3; now apply watch_of_hit). congruence.
  - intros pre e' post d Q R. apply snoc_split in Q as [(q & Q & ->)|(p & -> & Q)].
    + destruct (v_reason m I pre e' q d Q R) as (c' & j & J). exists c', j. eapply just_push; eauto.
      unfold T. rewrite Q, tl_app. apply in_or_app. right. now left.
    + destruct (HE e') as (_ & R2 & j & J). { rewrite Q. apply in_or_app. right. now left. }
      exists c, j. rewrite R in R2. injection R2 as ->. eapply JL; [|exact J]. intros y Hy. rewrite tl_app. apply in_or_app. auto.
  - intros x d Q. destruct (HC x d Q) as (A & c' & j & J). split; [exact A|]. exists c', j.
    eapply JL; [|exact J]. intros y Hy. unfold trail_lits. cbn [m_tr]. change (map t_lit) with tl. rewrite tl_app. apply in_or_app. auto.
  - exact HF.
  - exact HB.
  - exact HBge.
  - exact HBP.
Qed.

(** ** Backward propagation *)
Record bp_post (dl : nat) (c : bool) (data : nat) (w : wst) (n : nat) (tr : list tent) (tr' : list tent) (w' : wst) (cf : option (lit * nat)) : Prop := {
  bp_ext : exists ext, tr' = tr ++ ext /\ NoDup (tv tr') /\
     (forall e, In e ext -> active_ w' = Some c /\ t_reason e = Some data /\ t_lvl e = dl /\
        exists j, (1 <= j)%nat /\ (j < size k)%nat /\ t_lit e = clit k j c /\ seen_ w j = false /\ bound_ w c < weight k j);
  bp_same : bound_ w' = bound_ w /\ stack_ w' = stack_ w /\ seen_ w' = seen_ w /\ (active_ w' = active_ w \/ active_ w' = Some c);
  bp_conf : forall x d, cf = Some (x, d) -> d = data /\ active_ w' = Some c /\ In (neg x) (tl tr') /\
     exists j, (1 <= j)%nat /\ (j < size k)%nat /\ x = clit k j c /\ seen_ w j = false /\ bound_ w c < weight k j;
  bp_done : cf = None -> 
     (forall j, (1 <= j)%nat -> (j < size k)%nat -> seen_ w j = false -> bound_ w c < weight k j -> In (clit k j c) (tl tr')) /\
     (forall j, (1 <= j)%nat -> (j < getBpIndex k w')%nat -> seen_ w j = true \/ In (clit k j c) (tl tr'));
  bp_ge : (1 <= getBpIndex k w)%nat -> (1 <= getBpIndex k w')%nat }.

Lemma bp_fix_spec dl c data : forall idxs w n tr tr' w' cf,
  idxs = seq n (size k - n) -> (1 <= n)%nat -> NoDup (tv tr) ->
  (forall j, (1 <= j)%nat -> (j < n)%nat -> seen_ w j = true \/ In (clit k j c) (tl tr)) ->
  bp_fix k dl c data w idxs n tr = (tr', w', cf) -> bp_post dl c data w n tr tr' w' cf.
Proof.
  assert (STOP : forall w n tr tr' w' cf, (1 <= n)%nat -> NoDup (tv tr) ->
    (forall j, (1 <= j)%nat -> (j < n)%nat -> seen_ w j = true \/ In (clit k j c) (tl tr)) ->
    ((size k <= n)%nat \/ weight k n <= bound_ w c) ->
    (tr, WSt (bound_ w) (stack_ w) (seen_ w) (if isWeight k then n else bp_ w) (active_ w), None) = (tr', w', cf) ->
    bp_post dl c data w n tr tr' w' cf).
  { intros w n tr tr' w' cf Hn ND HP Hst [= <- <- <-]. split.
    - exists []. rewrite app_nil_r. split; [reflexivity|]. split; [assumption|]. intros e [].
    - cbn. auto.
    - discriminate.
    - intros _. split.
      + intros j H1 H2 H3 H4. destruct (lt_dec j n) as [L|L].
        * destruct (HP j H1 L); [congruence|assumption].
        * destruct Hst as [Hst|Hst]; [lia|]. pose proof (weight_sorted n j Hn ltac:(lia) H2). lia.
      + intros j H1 H2. apply HP; [assumption|]. unfold getBpIndex in H2. cbn in H2. destruct (isWeight k); lia.
    - unfold getBpIndex. cbn. destruct (isWeight k); lia. }
  induction idxs as [|i rest IH]; intros w n tr tr' w' cf Hq Hn ND HP H.
  - cbn in H. apply (STOP w n tr tr' w' cf); auto. left. destruct (size k - n)%nat eqn:Q; [lia|discriminate].
  - destruct (size k - n)%nat as [|q] eqn:Q; [discriminate|]. cbn [seq] in Hq. injection Hq as -> Hq.
    assert (Hq' : rest = seq (S n) (size k - S n)) by (rewrite Hq; f_equal; lia).
    cbn [bp_fix] in H. destruct (bound_ w c - weight k n <? 0) eqn:B.
    2: { apply (STOP w n tr tr' w' cf); auto. right. lia. }
    destruct (seen_ w n) eqn:Sn; cbn [negb] in H.
    + apply (IH w (S n) tr tr' w' cf Hq' ltac:(lia) ND) in H.
      * destruct H as [A B' C' D D']. split; auto.
      * intros j H1 H2. destruct (Nat.eq_dec j n) as [->|N]; [auto|]. apply HP; lia.
    + set (w1 := WSt (bound_ w) (stack_ w) (seen_ w) (bp_ w) (Some c)) in *. unfold force in H.
      destruct (value tr (clit k n c)) as [[]|] eqn:V.
      * apply (value_true tr _ ND) in V.
        apply (IH w1 (S n) tr tr' w' cf Hq' ltac:(lia) ND) in H.
        -- destruct H as [A (B1 & B2 & B3 & B4) C' D D']. split; auto. repeat split; auto. cbn in B4. tauto.
        -- intros j H1 H2. destruct (Nat.eq_dec j n) as [->|N]; [auto|]. apply HP; lia.
      * apply (value_false tr _ ND) in V. injection H as <- <- <-. split.
        -- exists []. rewrite app_nil_r. split; [reflexivity|]. split; [assumption|]. intros e [].
        -- cbn. auto.
        -- intros x d [= <- <-]. cbn. repeat split; auto. exists n. repeat split; auto; lia.
        -- discriminate.
        -- auto.
      * apply (value_free tr) in V.
        assert (ND' : NoDup (tv (tr ++ [TEnt (clit k n c) dl (Some data)]))).
        { rewrite tv_app. cbn. apply NoDup_Add with (a := fst (clit k n c)) (l := tv tr); [|auto].
          rewrite <- (app_nil_r (tv tr)) at 1. apply Add_app. }
        apply (IH w1 (S n) _ tr' w' cf Hq' ltac:(lia) ND') in H.
        -- destruct H as [(ext & A1 & A2 & A3) (B1 & B2 & B3 & B4) C' D D']. cbn in B4. split; auto.
           ++ exists (TEnt (clit k n c) dl (Some data) :: ext). rewrite <- app_assoc in A1. split; [exact A1|]. split; [assumption|].
              intros e [<-|He]; [|now apply A3]. cbn. repeat split; [tauto|]. exists n. repeat split; auto; lia.
           ++ repeat split; auto. tauto.
        -- intros j H1 H2. rewrite tl_app, in_app_iff. destruct (Nat.eq_dec j n) as [->|N]; [right; right; now left|].
           destruct (HP j H1 ltac:(lia)); auto.
Qed.

(** ** Propagation keeps the invariant *)
Definition pushes (m : mach) (c : bool) : Prop := ~ T m (clit k 0 c) /\ active_ (m_w m) <> Some (negb c).
Record prop_effect (m : mach) (i : nat) (c : bool) (lvl : nat) (tr : list tent) (w : wst) (b : bool) : Prop := {
  pe_push : pushes m c;
  pe_stack : stack_ w = stack_ (m_w m) ++ [(i, c)];
  pe_watch : b = negb (Nat.eqb (highestUndoLevel k (m_tr m) (m_w m)) lvl);
  pe_act : active_ w = active_ (m_w m) \/ active_ w = Some c;
  pe_ext : exists ext, tr = m_tr m ++ ext /\ forall e, In e ext -> t_lvl e = m_dl m }.

Lemma inv_prop m e i c tr w b cf u st : Inv m -> m_conf m = None -> nth_error (m_tr m) (m_front m) = Some e ->
  watch_of k (t_lit e) = Some (i, c) -> wc_propagate k (m_dl m) (m_tr m) (m_w m) i c = (tr, w, b, cf) ->
  Inv (Mach tr (S (m_front m)) st w u cf) /\
  ((tr = m_tr m /\ w = m_w m /\ b = false /\ cf = None) \/ prop_effect m i c (level (m_tr m) (t_lit e)) tr w b).
Proof.
  intros I C H W HP. destruct (watch_of_some _ _ _ W) as (Hi & Wc & E).
  pose proof (event_unseen m e i c I H E) as U. pose proof (v_nodup m I) as ND.
  unfold wc_propagate in HP.
  destruct ((match active_ (m_w m) with Some a => Bool.eqb a (negb c) | None => false end) || is_true (m_tr m) (clit k 0 c)) eqn:Skip.
  { injection HP as <- <- <- <-. split; [|auto]. apply (inv_noop m e); auto. intros i' c' W'. rewrite W in W'. injection W' as <- <-.
    apply orb_true_iff in Skip as [Q|Q].
    - right. destruct (active_ (m_w m)); [|discriminate]. apply eqb_prop in Q. now subst.
    - left. now apply is_true_In. }
  apply orb_false_iff in Skip as [Q1 Q2].
  assert (NT : ~ T m (clit k 0 c)). { intros G. apply (is_true_In _ _ ND) in G. congruence. }
  assert (NA : active_ (m_w m) <> Some (negb c)). { intros G. rewrite G, Bool.eqb_reflx in Q1. discriminate. }
  clear Q1 Q2.
  assert (Lv : level (m_tr m) (clit k i c) = level (m_tr m) (t_lit e)).
  { rewrite E. unfold level. reflexivity. }
  rewrite Lv in HP. unfold updateConstraint in HP. fold (push (m_w m) i c (bp_ (m_w m)) (active_ (m_w m))) in HP.
  set (w1 := push (m_w m) i c (bp_ (m_w m)) (active_ (m_w m))) in HP.
  assert (Si : seen_ (m_w m) i = false).
  { destruct (seen_ (m_w m) i) eqn:Q; [|reflexivity]. exfalso. apply U. now apply (v_seen m I). }
  assert (Te : In (neg (clit k i c)) (tl (m_tr m))). { rewrite <- E. apply in_map. eapply nth_error_In; eauto. }
  assert (S0 : seen_ w1 0%nat = true <-> In 0%nat (map fst (stack_ w1))).
  { cbn [w1 push seen_ stack_]. rewrite map_app, in_app_iff. unfold updn. cbn [map fst In].
    destruct (Nat.eqb_spec i 0) as [->|N].
    - rewrite Si. cbn. intuition.
    - rewrite (v_seen m I). intuition. }
  assert (Sj : forall j, seen_ w1 j = false -> ~ In j (map fst (stack_ w1))).
  { intros j. cbn [w1 push seen_ stack_]. rewrite map_app, in_app_iff. unfold updn. cbn [map fst In].
    destruct (Nat.eqb_spec i j) as [->|N]; [rewrite Si; discriminate|]. intros Q [G|[G|[]]]; [|congruence].
    apply (v_seen m I) in G. congruence. }
  assert (Stk : forall j c', In (j, c') (stack_ w1) -> In (neg (clit k j c')) (tl (m_tr m))).
  { intros j c' G. cbn [w1 push stack_] in G. apply in_app_iff in G as [G|[[= <- <-]|[]]]; [|assumption].
    destruct (v_stk m I j c' G) as (_ & _ & G'). now apply P_T in G'. }
  assert (Bd : bound_ w1 c = b0 c - sumc c (stack_ w1)).
  { cbn [w1 push bound_ stack_]. unfold upd. rewrite Bool.eqb_reflx, sumc_same, (v_bound m I c). lia. }
  assert (Bd' : forall c', c' <> c -> bound_ w1 c' = bound_ (m_w m) c').
  { intros c' N. cbn [w1 push bound_]. unfold upd. destruct (Bool.eqb c c') eqn:Q; [apply eqb_prop in Q; congruence|reflexivity]. }
  assert (Z0 : forall c', In (0%nat, c') (stack_ w1) -> c' = c).
  { intros c' G. cbn [w1 push stack_] in G. apply in_app_iff in G as [G|[G|[]]]; [|congruence].
    eapply body_side; eauto. }
  assert (ZM : forall l : list (nat * bool), In 0%nat (map fst l) -> exists c', In (0%nat, c') l).
  { intros l G. apply in_map_iff in G as ([z c'] & Ez & G). cbn in Ez. subst. eauto. }
  assert (Stop : forall w' d, stack_ w' = stack_ w1 -> d = length (stack_ w1) -> firstn (stop_of w' d) (stack_ w') = stack_ w1 /\ (stop_of w' d <= length (stack_ w'))%nat).
  { intros w' d G ->. unfold stop_of. rewrite G. destruct (isWeight k); rewrite firstn_all; auto. }
  destruct ((bound_ w1 c <=? 0) || (isWeight k && seen_ w1 0%nat)) eqn:Fire.
  2: { (* nothing to propagate *)
    apply orb_false_iff in Fire as [F1 F2]. injection HP as <- <- <- <-. split.
    - pose proof (inv_push m e i c [] (active_ (m_w m)) (bp_ (m_w m)) st u None I C H W NT NA) as L. cbv zeta in L.
      fold w1 in L. rewrite app_nil_r in L. apply L; clear L; auto.
      + intros _ Q Wn. destruct (v_active m I C c Q) as [_ G]. destruct (G Wn) as [G'|(_ & _ & G')]; [|contradiction].
        left. cbn [w1 push stack_]. apply in_or_app. auto.
      + intros e' [].
      + intros Q. change (getBpIndex k w1) with (getBpIndex k (m_w m)). apply (v_bp0 m I). intros G. apply Q.
        cbn [w1 push stack_]. rewrite map_app, in_app_iff. auto.
      + exact (v_bpge m I).
      + discriminate.
      + intros _ c' Wc' Q B. destruct (Bool.bool_dec c' c) as [->|N]; [lia|].
        rewrite (Bd' c' N) in B. apply (v_fwd m I C c' Wc'); [|assumption]. intros G. apply Q. cbn [w1 push stack_]. rewrite map_app, in_app_iff. auto.
      + intros _ c' G. pose proof (Z0 c' G). subst c'.
        assert (IW : isWeight k = false).
        { destruct (isWeight k); [|reflexivity]. assert (seen_ w1 0%nat = true) by (apply S0, in_map_iff; exists (0%nat, c); auto). rewrite H0 in F2. discriminate. }
        split; [lia|]. split.
        * intros j J1 J2 _ J3. rewrite (weight_card j IW J2) in J3. lia.
        * intros j J1 J2. unfold getBpIndex in J2. rewrite IW in J2. lia.
    - right. split; auto.
      + now split.
      + exists []. rewrite app_nil_r. split; [reflexivity|]. intros e' []. }
  destruct (seen_ w1 0%nat) eqn:Sn; cbn [negb] in HP.
  2: { (* forward *)
    assert (B : bound_ w1 c <= 0). { rewrite andb_false_r, orb_false_r in Fire. lia. }
    assert (Z : ~ In 0%nat (map fst (stack_ w1))) by (intros G; apply S0 in G; congruence).
    set (w2 := WSt (bound_ w1) (stack_ w1) (seen_ w1) (bp_ w1) (Some c)) in HP.
    assert (Ew : w2 = push (m_w m) i c (bp_ (m_w m)) (Some c)) by reflexivity.
    assert (J : just w2 (tl (m_tr m)) (clit k 0 c) (length (stack_ w1)) c 0).
    { destruct (Stop w2 (length (stack_ w1)) eq_refl eq_refl) as [St1 St2]. split; auto.
      - unfold size. cbn. lia.
      - rewrite St1. auto.
      - rewrite St1. intros G. apply Z. apply in_map_iff. exists (0%nat, c). auto.
      - left. split; [reflexivity|]. rewrite St1. lia. }
    assert (BP : getBpIndex k w2 = 1%nat).
    { change (getBpIndex k w2) with (getBpIndex k (m_w m)). apply (v_bp0 m I). intros G. apply Z.
      cbn [w1 push stack_]. rewrite map_app, in_app_iff. auto. }
    assert (VF : forall c', watched k c' = true -> bound_ w2 c' <= 0 -> c' = c \/ T m (clit k 0 c')).
    { intros c' Wc' G. destruct (Bool.bool_dec c' c) as [->|N]; [auto|]. right.
      change (bound_ w2) with (bound_ w1) in G. rewrite (Bd' c' N) in G. apply (v_fwd m I C c' Wc'); [|assumption].
      intros G'. apply Z. cbn [w1 push stack_]. rewrite map_app, in_app_iff. auto. }
    unfold force in HP. destruct (value (m_tr m) (clit k 0 c)) as [[]|] eqn:V.
    - exfalso. apply NT. now apply value_true.
    - apply (value_false _ _ ND) in V. injection HP as <- <- <- <-. split.
      + pose proof (inv_push m e i c [] (Some c) (bp_ (m_w m)) st u (Some (clit k 0 c, length (stack_ w1))) I C H W NT NA) as L. cbv zeta in L.
        rewrite <- Ew in L. rewrite app_nil_r in L. apply L; clear L; auto; try discriminate.
        * intros e' [].
        * rewrite BP. lia.
        * intros x d [= <- <-]. split; [exact V|]. exists c, 0%nat. exact J.
      + right. split; auto.
        * now split.
        * exists []. rewrite app_nil_r. split; [reflexivity|]. intros e' []. 
    - apply value_free in V. injection HP as <- <- <- <-. split.
      + pose proof (inv_push m e i c [TEnt (clit k 0 c) (m_dl m) (Some (length (stack_ w1)))] (Some c) (bp_ (m_w m)) st u None I C H W NT NA) as L. cbv zeta in L.
        rewrite <- Ew in L.
        assert (Tb : T (Mach (m_tr m ++ [TEnt (clit k 0 c) (m_dl m) (Some (length (stack_ w1)))]) (S (m_front m)) st w2 u None) (clit k 0 c)).
        { unfold T. cbn [m_tr]. rewrite tl_app, in_app_iff. right. now left. }
        apply L; clear L; auto; try discriminate.
        * rewrite tv_app. cbn. apply NoDup_Add with (a := fst (clit k 0 c)) (l := tv (m_tr m)); [|auto].
          rewrite <- (app_nil_r (tv (m_tr m))) at 1. apply Add_app.
        * intros e' [<-|[]]. cbn [t_reason t_lit]. split; [reflexivity|]. split; [reflexivity|]. exists 0%nat. exact J.
        * rewrite BP. lia.
        * intros _ c' Wc' _ G. destruct (VF c' Wc' G) as [->|G']; [assumption|]. unfold T. cbn [m_tr]. rewrite tl_app, in_app_iff. auto.
        * intros _ c' G. exfalso. apply Z. apply in_map_iff. exists (0%nat, c'). auto.
      + right. split; auto.
        * now split.
        * eexists. split; [reflexivity|]. intros e' [<-|[]]. reflexivity. }
  (* backward *)
  destruct (bp_fix k (m_dl m) c (length (stack_ w1)) w1 (seq (getBpIndex k w1) (size k - getBpIndex k w1)) (getBpIndex k w1) (m_tr m))
    as [[tr' w2] cf'] eqn:BP. injection HP as <- <- <- <-.
  assert (Z : In (0%nat, c) (stack_ w1)).
  { assert (G : In 0%nat (map fst (stack_ w1))) by now apply S0. apply ZM in G as [c' G]. now rewrite <- (Z0 c' G). }
  assert (Old : i = 0%nat \/ (i <> 0%nat /\ In (0%nat, c) (stack_ (m_w m)))).
  { cbn [w1 push stack_] in Z. apply in_app_iff in Z as [Z|[Z|[]]]; [|left; congruence]. right. split; [|assumption].
    intros ->. apply U. apply in_map_iff. exists (0%nat, c). auto. }
  assert (B0 : 0 <= bound_ w1 c).
  { cbn [w1 push bound_]. unfold upd. rewrite Bool.eqb_reflx. destruct Old as [->|[N O]].
    - rewrite weight_0. destruct (Z_le_dec (bound_ (m_w m) c) 0); [|lia]. exfalso. apply NT. now apply (v_fwd m I C).
    - destruct (v_bp m I C c O) as (A & B & _). destruct (Z_lt_dec (bound_ (m_w m) c) (weight k i)); [|lia].
      exfalso. apply (tl_no_neg _ (clit k i c) ND); [|assumption]. apply B; auto. lia. }
  assert (Up : forall j, seen_ (m_w m) j = true -> seen_ w1 j = true).
  { intros j G. cbn [w1 push seen_]. unfold updn. destruct (Nat.eqb_spec i j) as [->|N]; [now rewrite Si|assumption]. }
  assert (NB : (1 <= getBpIndex k w1)%nat /\ forall j, (1 <= j)%nat -> (j < getBpIndex k w1)%nat -> seen_ w1 j = true \/ In (clit k j c) (tl (m_tr m))).
  { change (getBpIndex k w1) with (getBpIndex k (m_w m)). destruct Old as [->|[N O]].
    - rewrite (v_bp0 m I U). split; [lia|]. intros; lia.
    - split; [apply (v_bpge m I)|]. destruct (v_bp m I C c O) as (_ & _ & G). intros j J1 J2. destruct (G j J1 J2); auto. }
  destruct NB as [NB1 NB2].
  apply (bp_fix_spec _ _ _ _ _ _ _ _ _ _ eq_refl NB1 ND NB2) in BP.
  destruct BP as [(ext & E1 & E2 & E3) (S1 & S2 & S3 & S4) Cf Dn NBp]. subst tr'.
  assert (Ew : w2 = push (m_w m) i c (bp_ w2) (active_ w2)).
  { unfold push. destruct w2 as [b2 k2 s2 p2 a2]; cbn [bound_ stack_ seen_ bp_ active_] in *. now rewrite S1, S2, S3. }
  assert (J : forall j, (1 <= j)%nat -> (j < size k)%nat -> seen_ w1 j = false -> bound_ w1 c < weight k j -> active_ w2 = Some c ->
     just w2 (tl (m_tr m)) (clit k j c) (length (stack_ w1)) c j).
  { intros j J1 J2 J3 J4 J5. destruct (Stop w2 (length (stack_ w1)) S2 eq_refl) as [St1 St2]. split; auto.
    - rewrite St1. auto.
    - rewrite St1. intros G. apply (Sj j J3). apply in_map_iff. exists (j, c). auto.
    - right. rewrite St1. repeat split; auto. lia. }
  split.
  - pose proof (inv_push m e i c ext (active_ w2) (bp_ w2) st u cf' I C H W NT NA) as L. cbv zeta in L.
    rewrite <- Ew in L. rewrite S1, S2, S3 in L. apply L; clear L; auto.
    + intros e' He. destruct (E3 e' He) as (A1 & A2 & A3 & j & J1 & J2 & J3 & J4 & J5). split; [assumption|]. split; [assumption|].
      exists j. rewrite J3. now apply J.
    + intros G. exfalso. apply G. apply in_map_iff. exists (0%nat, c). auto.
    + intros x d Q. destruct (Cf x d Q) as (-> & A2 & A3 & j & J1 & J2 & -> & J4 & J5). split; [exact A3|].
      exists c, j. now apply J.
    + intros _ c' _ G. exfalso. apply G. apply in_map_iff. exists (0%nat, c). auto.
    + intros Q c' G. pose proof (Z0 c' G). subst c'. destruct (Dn Q) as [D1 D2]. split; [assumption|]. split; [exact D1|exact D2].
  - right. split; auto.
    + now split.
    + exists ext. split; [reflexivity|]. intros e' He. now destruct (E3 e' He) as (_ & _ & ? & _).
Qed.

(** ** Undo *)
Record wok (w : wst) : Prop := {
  o_nd : NoDup (map fst (stack_ w));
  o_seen : forall i, seen_ w i = true <-> In i (map fst (stack_ w));
  o_bound : forall c, bound_ w c = b0 c - sumc c (stack_ w) }.
Lemma inv_wok m : Inv m -> wok (m_w m).
Proof. intros I. split; apply I. Qed.

Lemma is_free_iff tr x : is_free tr x = true <-> ~ In (fst x) (tv tr).
Proof. rewrite <- value_free. unfold is_free. destruct (value tr x); split; congruence. Qed.

Lemma pop_ok tr S : (forall i c, In (i, c) S -> is_free tr (clit k i false) = false) ->
  forall rs n w, stack_ w = S ++ rs -> (length rs <= n)%nat -> wok w ->
  (forall i c, In (i, c) rs -> is_free tr (clit k i false) = true) ->
  let w' := pop_fix k tr n w in stack_ w' = S /\ wok w' /\ bp_ w' = bp_ w /\ active_ w' = active_ w.
Proof.
  intros HS. induction rs as [|[i c] rs IH] using rev_ind; intros n w E Hn O HF; cbv zeta.
  - rewrite app_nil_r in E. assert (Q : pop_fix k tr n w = w).
    { destruct n as [|n]; [reflexivity|]. cbn [pop_fix]. rewrite E. destruct (rev S) as [|[j c'] r] eqn:R; [reflexivity|].
      rewrite (HS j c'); [reflexivity|]. apply in_rev. rewrite R. now left. }
    rewrite Q. auto.
  - rewrite app_length in Hn. cbn in Hn. destruct n as [|n]; [lia|]. cbn [pop_fix]. rewrite E, app_assoc, rev_app_distr. cbn [rev app].
    rewrite (HF i c) by (apply in_or_app; right; now left). rewrite rev_involutive.
    assert (N1 : ~ In i (map fst (S ++ rs)) /\ NoDup (map fst (S ++ rs))).
    { pose proof (o_nd w O) as ND. rewrite E, app_assoc, map_app in ND. cbn in ND. apply NoDup_remove in ND. rewrite app_nil_r in ND. tauto. }
    destruct N1 as [N1 N2].
    set (w1 := WSt _ _ _ _ _).
    destruct (IH n w1) as (A & B & D & F); auto.
    + lia.
    + split.
      * exact N2.
      * intros j. cbn [w1 seen_ stack_]. unfold updn. destruct (Nat.eqb_spec i j) as [->|N].
        -- assert (Q : seen_ w j = true). { apply (o_seen w O). rewrite E, app_assoc, map_app. apply in_or_app. right. now left. }
           rewrite Q. cbn. split; [discriminate|contradiction].
        -- rewrite (o_seen w O), E, app_assoc, !map_app, !in_app_iff. cbn. intuition.
      * intros c'. cbn [w1 bound_ stack_]. unfold upd. pose proof (o_bound w O) as OB. rewrite E, app_assoc in OB.
        destruct (Bool.eqb c c') eqn:Q.
        -- apply eqb_prop in Q. subst c'. rewrite OB, sumc_same. lia.
        -- rewrite OB, sumc_other by (intros ->; now rewrite Bool.eqb_reflx in Q). reflexivity.
    + intros j c' G. apply (HF j c'). apply in_or_app. auto.
Qed.

(** Two states of the constraint that behave the same on trail [tr]. *)
Record weq (tr : list tent) (w w' : wst) : Prop := {
  e_stack : stack_ w' = stack_ w;
  e_bound : forall c, bound_ w' c = bound_ w c;
  e_seen : forall i, seen_ w' i = seen_ w i;
  e_bp : getBpIndex k w' = getBpIndex k w \/ getBpIndex k w' = 1%nat;
  e_active : active_ w' = active_ w \/
    (active_ w = None /\ exists c, active_ w' = Some c /\ In (0%nat, c) (stack_ w)) \/
    (active_ w' = None /\ (forall e, In e tr -> t_reason e = None) /\ ~ In 0%nat (map fst (stack_ w)) /\
     (active_ w = None \/ k_act k <> None)) }.
Lemma weq_refl tr w : weq tr w w. Proof. split; auto. Qed.
Lemma weq_trans tr w1 w2 w3 : weq tr w1 w2 -> weq tr w2 w3 -> weq tr w1 w3.
Proof.
  intros [A1 A2 A3 A4 A5] [B1 B2 B3 B4 B5]. split; try congruence.
  - intuition congruence.
  - rewrite A1 in B5.
    destruct A5 as [A5|[(A5 & c & A6 & A7)|(A5 & A6 & A7 & A8)]], B5 as [B5|[(B5 & c' & B6 & B7)|(B5 & B6 & B7 & B8)]].
    + left. congruence.
    + right. left. split; [congruence|]. eauto.
    + right. right. repeat split; auto. destruct B8; auto. left. congruence.
    + right. left. split; [assumption|]. exists c. split; [congruence|assumption].
    + congruence.
    + exfalso. apply B7. apply in_map_iff. exists (0%nat, c). auto.
    + right. right. repeat split; auto. congruence.
    + exfalso. apply A7. apply in_map_iff. exists (0%nat, c'). auto.
    + right. right. auto.
Qed.

Lemma weq_inv m w f st u : Inv m -> m_conf m = None -> weq (m_tr m) (m_w m) w -> f = m_front m ->
  Inv (Mach (m_tr m) f st w u None).
Proof.
  intros I C [A1 A2 A3 A4 A5] ->. destruct I as [V1 V2 V3 V4 V5 V6 V7 V8 V9 V10 V11 V12 V12' V13].
  assert (RE : active_ w = active_ (m_w m) \/ forall e, In e (m_tr m) -> t_reason e = None).
  { destruct A5 as [A5|[(A5 & c & A6 & A7)|(A5 & A6 & A7 & A8)]]; auto. right. intros e He.
    destruct (t_reason e) as [d|] eqn:R; [|reflexivity]. exfalso. apply in_split in He as (pre & post & He).
    destruct (V9 pre e post d He R) as (c' & i & J). pose proof (j_active _ _ _ _ _ _ J). congruence. }
  split; cbn [m_tr m_front m_w m_conf]; auto.
  - intros i c. rewrite A1. apply V3.
  - now rewrite A1.
  - intros i. rewrite A3, A1. apply V5.
  - intros c. rewrite A2, A1. apply V6.
  - intros _ c E. rewrite A1, A2. destruct A5 as [A5|[(A5 & c' & A6 & A7)|(A5 & A6 & A7 & A8)]].
    + apply V7; auto. congruence.
    + assert (c' = c) by congruence. subst c'. destruct (V3 _ _ A7) as (_ & ? & _). auto.
    + congruence.
  - intros i c H1 H2 H3. rewrite A1. destruct (V8 i c H1 H2 H3) as [?|[?|Q]]; auto.
    destruct A5 as [A5|[(A5 & c' & A6 & A7)|(A5 & A6 & A7 & A8)]].
    + right. right. congruence.
    + congruence.
    + exfalso. destruct A8 as [A8|A8]; [congruence|]. destruct (V7 C _ Q) as [Wn _]. unfold watched in *.
      destruct (k_act k) as [a|]; [|congruence]. destruct a, c; discriminate.
  - intros pre e post d E R. destruct RE as [RE|RE].
    2: { assert (t_reason e = None) by (apply RE; rewrite E; apply in_or_app; right; now left). congruence. }
    destruct (V9 pre e post d E R) as (c & i & [J1 J2 J3 J4 J5 J6 J7 J8]). exists c, i.
    assert (SS : stop_of w d = stop_of (m_w m) d) by (unfold stop_of; now rewrite A1).
    split; auto; try rewrite SS; try rewrite A1; auto. congruence.
  - discriminate.
  - intros _ c. rewrite A1, A2. apply V11; auto.
  - rewrite A1. intros G. specialize (V12 G). destruct A4; congruence.
  - destruct A4 as [-> | ->]; [assumption|lia].
  - intros _ c. rewrite A1, A2. intros G. destruct (V13 C c G) as (D1 & D2 & D3). split; [assumption|]. split.
    + intros i. rewrite A3. apply D2.
    + intros i H1 H2. rewrite A3. destruct A4 as [A4|A4]; [|lia]. apply D3; [assumption|lia].
Qed.

Definition pushed_ok (s m : mach) : Prop :=
  (exists c, In (0%nat, c) (stack_ (m_w s)) /\ (active_ (m_w s) = None \/ active_ (m_w s) = Some c) /\
     (active_ (m_w m) = None \/ active_ (m_w m) = Some c) /\ (active_ (m_w s) = Some c -> active_ (m_w m) = Some c)) \/
  (~ In 0%nat (map fst (stack_ (m_w s))) /\ (forall e, In e (m_tr s) -> t_reason e = None) /\
     (active_ (m_w s) = None \/ k_act k <> None)).

Record over (s m : mach) : Prop := {
  g_conf : m_conf s = None;
  g_front : m_front s = length (m_tr s);
  g_starts : m_starts m = length (m_tr s) :: m_starts s;
  g_frontm : (length (m_tr s) <= m_front m)%nat;
  g_rest : exists rest rs, m_tr m = m_tr s ++ rest /\ (forall e, In e rest -> t_lvl e = m_dl m) /\
     stack_ (m_w m) = stack_ (m_w s) ++ rs /\ (forall i c, In (i, c) rs -> In (neg (clit k i c)) (tl rest)) /\
     ((rs = [] /\ weq (m_tr s) (m_w s) (m_w m) /\ m_undo m = m_undo s) \/
      (rs <> [] /\ m_undo m = m_dl m :: m_undo s /\ pushed_ok s m)) }.
Fixpoint good (hs : list mach) (m : mach) : Prop := Inv m /\
  match hs with
  | [] => m_starts m = [] /\ m_undo m = [] /\ (forall e, In e (m_tr m) -> t_lvl e = 0%nat)
  | s :: hs' => good hs' s /\ over s m
  end.
Lemma good_inv hs m : good hs m -> Inv m. Proof. destruct hs; intros H; apply H. Qed.
Lemma over_dl s m : over s m -> m_dl m = S (m_dl s).
Proof. intros O. unfold m_dl. rewrite (g_starts s m O). reflexivity. Qed.
Lemma good_levels hs : forall m, good hs m -> (forall e, In e (m_tr m) -> (t_lvl e <= m_dl m)%nat) /\ (forall l, In l (m_undo m) -> (1 <= l <= m_dl m)%nat).
Proof.
  induction hs as [|s hs IH]; intros m (I & G).
  - destruct G as (A & B & D). split; intros x Hx; [rewrite (D x Hx); lia|rewrite B in Hx; contradiction].
  - destruct G as [G O]. destruct (IH s G) as [L1 L2]. pose proof (over_dl s m O) as DL.
    destruct (g_rest s m O) as (rest & rs & A1 & A2 & A3 & A4 & A5). split.
    + intros e He. rewrite A1, in_app_iff in He. destruct He as [He|He]; [specialize (L1 e He); lia|rewrite (A2 e He); lia].
    + intros l Hl. destruct A5 as [(_ & _ & U)|(_ & U & _)]; rewrite U in Hl.
      * specialize (L2 l Hl). lia.
      * destruct Hl as [<-|Hl]; [lia|]. specialize (L2 l Hl). lia.
Qed.

Lemma tv_In_disjoint a b v : NoDup (tv (a ++ b)) -> In v (tv b) -> ~ In v (tv a).
Proof.
  rewrite tv_app. induction a as [|x a IH]; cbn; intros ND Hb; [auto|]. inversion_clear ND as [|? ? N1 N2].
  intros [<-|Ha]; [apply N1, in_or_app; auto|]. now apply (IH N2 Hb).
Qed.

(** Undoing the current level restores the state in which it was opened. *)
Lemma undo_over s m n st : Inv s -> Inv m -> over s m -> (forall l, In l (m_undo s) -> (1 <= l <= m_dl s)%nat) ->
  m_starts m = n :: st ->
  let w' := if existsb (Nat.eqb (m_dl m)) (m_undo m) then wc_undoLevel k (firstn n (m_tr m)) (m_w m) else m_w m in
  n = length (m_tr s) /\ st = m_starts s /\ firstn n (m_tr m) = m_tr s /\
  weq (m_tr s) (m_w s) w' /\ filter (fun l => negb (Nat.eqb l (m_dl m))) (m_undo m) = m_undo s.
Proof.
  intros Is I O LU ST w'. pose proof (over_dl s m O) as DL. rewrite (g_starts s m O) in ST. injection ST as <- <-.
  destruct (g_rest s m O) as (rest & rs & A1 & A2 & A3 & A4 & A5).
  assert (F : firstn (length (m_tr s)) (m_tr m) = m_tr s).
  { rewrite A1, firstn_app, firstn_all, Nat.sub_diag. cbn. apply app_nil_r. }
  assert (NU : existsb (Nat.eqb (m_dl m)) (m_undo s) = false).
  { apply not_true_is_false. intros G. apply existsb_exists in G as (l & G1 & G2). apply Nat.eqb_eq in G2. specialize (LU l G1). lia. }
  assert (FU : filter (fun l => negb (Nat.eqb l (m_dl m))) (m_undo s) = m_undo s).
  { clear - LU DL. induction (m_undo s) as [|l t IH]; cbn; [reflexivity|].
    assert (Q : Nat.eqb l (m_dl m) = false) by (apply Nat.eqb_neq; specialize (LU l ltac:(now left)); lia).
    rewrite Q. cbn. f_equal. apply IH. intros l' Hl. apply LU. now right. }
  split; [reflexivity|]. split; [reflexivity|]. split; [exact F|].
  destruct A5 as [(-> & E & U)|(Rn & U & PO)]; unfold w'; rewrite U.
  - rewrite NU. auto.
  - cbn [existsb filter]. rewrite Nat.eqb_refl. cbn [orb negb]. split; [|exact FU]. rewrite F.
    pose proof (v_nodup m I) as ND. rewrite A1 in ND.
    unfold wc_undoLevel. set (w1 := WSt (bound_ (m_w m)) (stack_ (m_w m)) (seen_ (m_w m)) _ (active_ (m_w m))).
    destruct (pop_ok (m_tr s) (stack_ (m_w s))) with (rs := rs) (n := length (stack_ w1)) (w := w1) as (P1 & P2 & P3 & P4).
    + intros i c G. destruct (v_stk s Is i c G) as (_ & _ & G'). apply not_true_is_false. rewrite is_free_iff. intros Q. apply Q.
      apply P_T, in_tl_tv in G'. cbn [neg fst] in G'. rewrite clit_var in *. exact G'.
    + exact A3.
    + cbn [w1 stack_]. rewrite A3, app_length. lia.
    + destruct (inv_wok m I) as [? ? ?]. split; assumption.
    + intros i c G. apply is_free_iff. specialize (A4 i c G). apply in_tl_tv in A4. cbn [neg fst] in A4.
      apply (tv_In_disjoint _ rest _ ND). rewrite clit_var in *. exact A4.
    + set (w2 := pop_fix k (m_tr s) (length (stack_ w1)) w1) in *.
      assert (BP : getBpIndex k w2 = 1%nat).
      { unfold getBpIndex. rewrite P3. cbn [w1 bp_]. now destruct (isWeight k). }
      assert (E2 : stack_ w2 = stack_ (m_w s)) by exact P1.
      assert (E3 : forall c, bound_ w2 c = bound_ (m_w s) c). { intros c. rewrite (o_bound _ P2), E2, (v_bound s Is). reflexivity. }
      assert (E4 : forall i, seen_ w2 i = seen_ (m_w s) i).
      { intros i. apply eq_true_iff_eq. rewrite (o_seen _ P2), E2, (v_seen s Is). reflexivity. }
      destruct (seen_ w2 0%nat) eqn:S0; cbn [negb].
      * split; auto. rewrite P4. cbn [w1 active_].
        destruct PO as [(c & C1 & C2 & C3 & C4)|(C1 & _)].
        -- destruct C2 as [C2|C2]; [|left; rewrite C2; auto].
           destruct C3 as [C3|C3]; [left; congruence|]. right. left. split; [assumption|]. eauto.
        -- exfalso. apply C1. rewrite <- E2. now apply (o_seen _ P2).
      * split; auto. cbn [active_]. right. right.
        assert (Z : ~ In 0%nat (map fst (stack_ (m_w s)))).
        { rewrite <- E2. intros G. apply (o_seen _ P2) in G. congruence. }
        destruct PO as [(c & C1 & _)|(C1 & C2 & C3)].
        -- exfalso. apply Z. apply in_map_iff. exists (0%nat, c). auto.
        -- auto.
Qed.

(** ** Steps *)
Lemma good_dl hs : forall m, good hs m -> m_dl m = length hs.
Proof.
  induction hs as [|s hs IH]; intros m (I & G).
  - destruct G as (A & _). unfold m_dl. now rewrite A.
  - destruct G as [G O]. rewrite (over_dl s m O), (IH s G). reflexivity.
Qed.

Lemma over_same s m m' : over s m -> m_starts m' = m_starts m -> m_w m' = m_w m -> m_undo m' = m_undo m ->
  (m_front m <= m_front m')%nat -> (exists ext, m_tr m' = m_tr m ++ ext /\ forall e, In e ext -> t_lvl e = m_dl m) -> over s m'.
Proof.
  intros [G1 G2 G3 G4 (rest & rs & A1 & A2 & A3 & A4 & A5)] ES EW EU F (ext & EE & EL).
  assert (D : m_dl m' = m_dl m) by (unfold m_dl; now rewrite ES). split; auto.
  - now rewrite ES.
  - lia.
  - exists (rest ++ ext), rs. rewrite EE, A1, app_assoc, EW, EU, D. split; [reflexivity|]. split.
    { intros e He. apply in_app_iff in He as [He|He]; auto. }
    split; [assumption|]. split.
    { intros i c H. rewrite tl_app, in_app_iff. auto. }
    destruct A5 as [A5|(B1 & B2 & B3)]; [auto|]. right. split; [assumption|]. split; [assumption|].
    unfold pushed_ok in *. now rewrite EW.
Qed.

Lemma top_level s m e : Inv s -> Inv m -> over s m -> (forall e, In e (m_tr s) -> (t_lvl e <= m_dl s)%nat) ->
  forall rest rs, m_tr m = m_tr s ++ rest -> (forall e, In e rest -> t_lvl e = m_dl m) ->
  stack_ (m_w m) = stack_ (m_w s) ++ rs -> (forall i c, In (i, c) rs -> In (neg (clit k i c)) (tl rest)) ->
  In e rest ->
  level (m_tr m) (t_lit e) = m_dl m /\ (highestUndoLevel k (m_tr m) (m_w m) = m_dl m <-> rs <> []).
Proof.
  intros Is I O LL rest rs A1 A2 A3 A4 He. pose proof (over_dl s m O) as DL. pose proof (v_nodup m I) as ND.
  assert (Hr : forall x, In x rest -> In x (m_tr m)) by (intros; rewrite A1; apply in_or_app; auto).
  split.
  - rewrite (level_In (m_tr m) e (t_lit e) ND (Hr e He) eq_refl). auto.
  - unfold highestUndoLevel. rewrite A3, rev_app_distr.
    destruct rs as [|[j c] rs' _] using rev_ind.
    + cbn [rev app]. split; [|congruence]. destruct (rev (stack_ (m_w s))) as [|[j c] q] eqn:R; [lia|].
      assert (G : In (j, c) (stack_ (m_w s))) by (apply in_rev; rewrite R; now left).
      destruct (v_stk s Is j c G) as (_ & _ & G'). apply P_T in G'. unfold T, tl in G'. apply in_map_iff in G' as (e' & E1 & E2).
      rewrite (level_In (m_tr m) e' (clit k j false) ND).
      * specialize (LL e' E2). lia.
      * rewrite A1. apply in_or_app. auto.
      * rewrite E1. cbn [neg fst]. now rewrite !clit_var.
    + rewrite rev_app_distr. cbn [rev app]. split; [intros _; destruct rs'; discriminate|]. intros _.
      specialize (A4 j c ltac:(apply in_or_app; right; now left)). apply in_map_iff in A4 as (e' & E1 & E2).
      rewrite (level_In (m_tr m) e' (clit k j false) ND (Hr e' E2)); [auto|].
      rewrite E1. cbn [neg fst]. now rewrite !clit_var.
Qed.

Lemma over_push s m e i c tr w b cf : Inv s -> Inv m -> m_conf m = None -> over s m -> (forall e, In e (m_tr s) -> (t_lvl e <= m_dl s)%nat) ->
  nth_error (m_tr m) (m_front m) = Some e -> watch_of k (t_lit e) = Some (i, c) ->
  prop_effect m i c (level (m_tr m) (t_lit e)) tr w b ->
  over s (Mach tr (S (m_front m)) (m_starts m) w (if b then level (m_tr m) (t_lit e) :: m_undo m else m_undo m) cf).
Proof.
  intros Is I C O LL H W [[NT NA] PS PW PA (ext & PE & PL)].
  pose proof (g_rest s m O) as (rest & rs & A1 & A2 & A3 & A4 & A5).
  destruct (watch_of_some _ _ _ W) as (Hi & Wc & E).
  assert (He : In e rest).
  { pose proof (g_frontm s m O) as F. rewrite A1, nth_error_app2 in H by assumption. eapply nth_error_In; eauto. }
  destruct (top_level s m e Is I O LL rest rs A1 A2 A3 A4 He) as [L1 L2].
  split; cbn [m_starts m_front m_tr m_w m_undo].
  - apply (g_conf s m O).
  - apply (g_front s m O).
  - apply (g_starts s m O).
  - pose proof (g_frontm s m O). lia.
  - exists (rest ++ ext), (rs ++ [(i, c)]). split; [rewrite PE, A1; symmetry; apply app_assoc|]. split.
    { intros e' He'. change (m_dl _) with (m_dl m). apply in_app_iff in He' as [He'|He']; auto. }
    split. { rewrite PS, A3. symmetry. apply app_assoc. }
    split. { intros j c' G. rewrite tl_app, in_app_iff. apply in_app_iff in G as [G|[[= <- <-]|[]]]; [auto|].
             left. rewrite <- E. now apply in_map. }
    right. split; [destruct rs; discriminate|]. change (m_dl _) with (m_dl m). rewrite PW. rewrite L1.
    assert (TS : forall x, In x (tl (m_tr s)) -> T m x).
    { intros x G. unfold T. rewrite A1, tl_app, in_app_iff. auto. }
    destruct A5 as [(-> & EQ & U)|(Rn & U & PO)].
    + assert (Q : Nat.eqb (highestUndoLevel k (m_tr m) (m_w m)) (m_dl m) = false) by (apply Nat.eqb_neq; tauto).
      rewrite Q. cbn [negb]. rewrite U. split; [reflexivity|].
      rewrite app_nil_r in A3. unfold pushed_ok. cbn [m_w].
      destruct (in_dec Nat.eq_dec 0%nat (map fst (stack_ (m_w s)))) as [Z|Z].
      * left. apply in_map_iff in Z as ([z c'] & Ez & Z). cbn in Ez. subst z.
        assert (c' = c). { apply (body_side m c c' I NT). now rewrite A3. } subst c'.
        exists c. split; [assumption|]. destruct (e_active _ _ _ EQ) as [F|[(F1 & c' & F2 & F3)|(_ & _ & F & _)]].
        -- assert (Q1 : active_ (m_w m) = None \/ active_ (m_w m) = Some c).
           { destruct (active_ (m_w m)) as [a|]; [|auto]. right. f_equal. destruct (Bool.bool_dec a c); [assumption|].
             exfalso. apply NA. f_equal. destruct a, c; cbn; congruence. }
           rewrite F in *. split; [assumption|]. split; [destruct PA as [-> | ->]; auto|]. intros Q2. destruct PA as [-> | ->]; auto.
        -- split; [auto|]. split; [|congruence].
           assert (c' = c). { apply (body_side m c c' I NT). now rewrite A3. } subst c'.
           destruct PA as [-> | ->]; auto.
        -- exfalso. apply F. apply in_map_iff. exists (0%nat, c). auto.
      * right. split; [assumption|]. destruct (e_active _ _ _ EQ) as [F|[(F1 & c' & F2 & F3)|(_ & F1 & _ & F2)]].
        -- split.
           ++ intros e' He'. destruct (t_reason e') as [d|] eqn:R; [|reflexivity]. exfalso.
              apply in_split in He' as (pre & post & He'). destruct (v_reason s Is pre e' post d He' R) as (c' & j & [J1 J2 J3 J4 J5 J6 J7 J8]).
              assert (c' = c). { destruct (Bool.bool_dec c' c) as [|N]; [assumption|]. exfalso. apply NA. rewrite F, J4. f_equal. destruct c, c'; cbn; congruence. }
              subst c'. destruct J8 as [[-> _]|(_ & J8 & _)].
              ** apply NT, TS. rewrite <- J2, He', tl_app. apply in_or_app. right. now left.
              ** apply Z. apply in_map_iff. exists (0%nat, c). split; [reflexivity|].
                 rewrite <- (firstn_skipn (stop_of (m_w s) d)). apply in_or_app. auto.
           ++ destruct (active_ (m_w s)) as [a|] eqn:Q2; [|auto]. right. intros KN.
              assert (a = c). { destruct (Bool.bool_dec a c) as [|N]; [assumption|]. exfalso. apply NA. rewrite F. f_equal. destruct c, a; cbn; congruence. }
              subst a. destruct (v_active m I C c F) as [_ G]. destruct G as [G|(_ & _ & G)].
              ** unfold watched. now rewrite KN.
              ** apply Z. apply in_map_iff. exists (0%nat, c). rewrite A3 in G. auto.
              ** contradiction.
        -- exfalso. apply Z. apply in_map_iff. exists (0%nat, c'). auto.
        -- auto.
    + assert (Q : Nat.eqb (highestUndoLevel k (m_tr m) (m_w m)) (m_dl m) = true) by (apply Nat.eqb_eq; tauto).
      rewrite Q. cbn [negb]. split; [assumption|]. unfold pushed_ok in *. cbn [m_w].
      destruct PO as [(c' & C1 & C2 & C3 & C4)|PO]; [left|right; assumption].
      assert (c' = c). { apply (body_side m c c' I NT). rewrite A3. apply in_or_app. auto. } subst c'.
      exists c. split; [assumption|]. split; [assumption|]. split.
      * destruct PA as [-> | ->]; auto.
      * intros G. destruct PA as [-> | ->]; auto.
Qed.

Lemma good_step hs m m' : good hs m -> mstep k m m' ->
  (good hs m' /\ m_dl m' = m_dl m) \/ (good (m :: hs) m' /\ m_dl m' = S (m_dl m)) \/
  (exists s hs', hs = s :: hs' /\ good hs' m' /\ m_dl m = S (m_dl m') /\
     m_tr m' = m_tr s /\ m_front m' = m_front s /\ m_starts m' = m_starts s /\ m_undo m' = m_undo s /\
     m_conf m' = None /\ weq (m_tr s) (m_w s) (m_w m')).
Proof.
  intros G ST. pose proof (good_inv hs m G) as I. destruct ST.
  - left. split; [|reflexivity]. destruct hs as [|s hs].
    + split; [now apply inv_assign|]. destruct G as (_ & A & B & D). split; [assumption|]. split; [assumption|].
      intros e He. cbn [m_tr] in He. apply in_app_iff in He as [He|[<-|[]]]; [auto|]. cbn. unfold m_dl. now rewrite A.
    + split; [now apply inv_assign|]. destruct G as (_ & G & O). split; [assumption|].
      eapply over_same; eauto. exists [TEnt x (m_dl m) None]. split; [reflexivity|]. intros e [<-|[]]. reflexivity.
  - right. left. split; [|reflexivity]. split.
    + destruct m as [tr0 f0 s0 w0 u0 c0]; cbn in H; subst c0. destruct I. split; assumption.
    + split; [assumption|]. split; auto; cbn [m_tr m_front m_w m_undo]; [lia|]. exists [], []. rewrite !app_nil_r.
      split; [reflexivity|]. split; [intros e []|]. split; [reflexivity|]. split; [intros i c []|]. left. split; [reflexivity|].
      split; [apply weq_refl|reflexivity].
  - left. split; [|reflexivity].
    assert (I' : Inv (Mach (m_tr m) (S (m_front m)) (m_starts m) (m_w m) (m_undo m) None)).
    { apply (inv_noop m e); auto. intros i c Q. congruence. }
    destruct hs as [|s hs].
    + split; [assumption|]. destruct G as (_ & A & B & D). auto.
    + split; [assumption|]. destruct G as (_ & G & O). split; [assumption|]. eapply over_same; eauto; cbn [m_front m_tr]; [lia|].
      exists []. rewrite app_nil_r. split; [reflexivity|]. intros e' [].
  - left. split; [|reflexivity].
    pose proof (inv_prop m e i c tr w b cf (if b then level (m_tr m) (t_lit e) :: m_undo m else m_undo m) (m_starts m) I H H0 H1 H2) as [I' PE].
    destruct hs as [|s hs].
    + split; [assumption|]. destruct G as (_ & A & B & D). split; [assumption|]. cbn [m_undo m_tr].
      destruct PE as [(-> & -> & -> & ->)|PE]; [auto|].
      assert (L : level (m_tr m) (t_lit e) = 0%nat /\ forall x, level (m_tr m) x = 0%nat).
      { assert (Q : forall x, level (m_tr m) x = 0%nat); [|auto]. intros x. unfold level. pose proof (find_var (m_tr m) x) as F.
        destruct (find _ (m_tr m)) as [e'|]; [|reflexivity]. now apply D. }
      destruct L as [L1 L2]. destruct PE as [_ _ PW _ (ext & PE & PL)]. split.
      * rewrite PW, L1. unfold highestUndoLevel. destruct (rev (stack_ (m_w m))) as [|[j c'] q]; [|rewrite L2]; cbn; assumption.
      * intros e' He'. rewrite PE in He'. apply in_app_iff in He' as [He'|He']; [auto|]. rewrite (PL e' He'). unfold m_dl. now rewrite A.
    + split; [assumption|]. destruct G as (_ & G & O). split; [assumption|].
      destruct PE as [(-> & -> & -> & ->)|PE].
      * eapply over_same; eauto; cbn [m_front m_tr]; [lia|]. exists []. rewrite app_nil_r. split; [reflexivity|]. intros e' [].
      * eapply over_push; eauto. { now apply good_inv in G. } now apply (good_levels hs).
  - right. right. destruct hs as [|s hs]; [destruct G as (_ & A & _); congruence|]. destruct G as (_ & G & O).
    pose proof (good_inv hs s G) as Is. destruct (good_levels hs s G) as [_ LU].
    destruct (undo_over s m n st Is I O LU H) as (E1 & E2 & E3 & E4 & E5).
    exists s, hs. split; [reflexivity|]. cbn [m_tr m_front m_starts m_undo m_conf m_w]. rewrite E3, E5. rewrite E3 in E4. subst n st.
    set (w' := if existsb (Nat.eqb (m_dl m)) (m_undo m) then wc_undoLevel k (m_tr s) (m_w m) else m_w m) in *.
    assert (I' : Inv (Mach (m_tr s) (length (m_tr s)) (m_starts s) w' (m_undo s) None)).
    { apply (weq_inv s); auto; [apply (g_conf s m O)|symmetry; apply (g_front s m O)]. }
    split.
    + destruct hs as [|s' hs].
      * split; [assumption|]. destruct G as (_ & A & B & D). auto.
      * split; [assumption|]. destruct G as (_ & G & O'). split; [assumption|].
        destruct O' as [G1 G2 G3 G4 (rest & rs & A1 & A2 & A3 & A4 & A5)]. split; auto; cbn [m_tr m_front m_w m_undo].
        -- rewrite A1, app_length. lia.
        -- exists rest, rs. split; [assumption|]. split; [assumption|]. rewrite (e_stack _ _ _ E4). split; [assumption|]. split; [assumption|].
           destruct A5 as [(-> & EQ & U)|(Rn & U & PO)].
           ++ left. split; [reflexivity|]. split; [|assumption]. eapply weq_trans; [exact EQ|].
              destruct E4 as [B1 B2 B3 B4 B5]. split; auto. destruct B5 as [B5|[B5|(B5 & B6 & B7 & B8)]]; auto.
              right. right. repeat split; auto. intros e' He'. apply B6. rewrite A1. apply in_or_app. auto.
           ++ right. split; [assumption|]. split; [assumption|]. unfold pushed_ok in *. cbn [m_w].
              destruct PO as [(c & C1 & C2 & C3 & C4)|PO]; [left|right; assumption].
              exists c. split; [assumption|]. split; [assumption|].
              assert (Z : In (0%nat, c) (stack_ (m_w s))) by (rewrite A3; apply in_or_app; auto).
              destruct (e_active _ _ _ E4) as [B5|[(B5 & c' & B6 & B7)|(B5 & B6 & B7 & B8)]].
              ** rewrite B5. auto.
              ** assert (c' = c).
                 { assert (Q : forall l : list (nat * bool), NoDup (map fst l) -> In (0%nat, c) l -> In (0%nat, c') l -> c' = c).
                   { induction l as [|[z c2] t IH]; cbn; [easy|]. intros N [Q1|Q1] [Q2|Q2]; inversion_clear N as [|? ? N1 N2]; try congruence; auto; exfalso; apply N1;
                     apply in_map_iff; [exists (0%nat, c')|exists (0%nat, c)]; split; auto; cbn; congruence. }
                   apply (Q _ (v_stknd s Is) Z B7). }
                 subst c'. split; [auto|]. auto.
              ** exfalso. apply B7. apply in_map_iff. exists (0%nat, c). auto.
    + split; [apply (over_dl s m O)|]. repeat split; auto; try apply E4. symmetry. apply (g_front s m O).
Qed.

Lemma reach_good m : reach k m -> exists hs, good hs m.
Proof.
  induction 1 as [|m m' R [hs IH] ST].
  - exists []. split; [apply inv_init|]. cbn. repeat split; auto. intros e [].
  - destruct (good_step hs m m' IH ST) as [[G _]|[[G _]|(s & hs' & _ & G & _)]]; eauto.
Qed.
Lemma reach_inv m : reach k m -> Inv m.
Proof. intros R. destruct (reach_good m R) as [hs G]. now apply good_inv in G. Qed.

(** Runs above a level keep the snapshots below it. *)
Lemma run_above_good n m m1 : run_above k n m m1 -> forall hs, good hs m -> length hs = n ->
  exists l, good (l ++ hs) m1.
Proof.
  induction 1 as [m Hn|m m1 m2 R IH ST Hn]; intros hs G L.
  - exists []. exact G.
  - destruct (IH hs G L) as [l G1]. destruct (good_step _ _ _ G1 ST) as [[G2 _]|[[G2 _]|(s & hs' & E & G2 & D & _)]].
    + eauto.
    + exists (m1 :: l). exact G2.
    + destruct l as [|s' l].
      * exfalso. pose proof (good_dl _ _ G1) as D1. cbn in D1. lia.
      * cbn in E. injection E as <- <-. eauto.
Qed.
Lemma undo_restores m m0 m1 m2 : reach k m -> m_conf m = None -> m_front m = length (m_tr m) ->
  m0 = Mach (m_tr m) (m_front m) (length (m_tr m) :: m_starts m) (m_w m) (m_undo m) None ->
  run_above k (S (m_dl m)) m0 m1 -> mstep k m1 m2 -> m_dl m2 = m_dl m ->
  m_tr m2 = m_tr m /\ m_front m2 = m_front m /\ m_starts m2 = m_starts m /\ m_undo m2 = m_undo m /\
  stack_ (m_w m2) = stack_ (m_w m) /\ (forall c, bound_ (m_w m2) c = bound_ (m_w m) c) /\
  (forall i, seen_ (m_w m2) i = seen_ (m_w m) i).
Proof.
  intros R C F -> RA ST D. destruct (reach_good m R) as [hs G].
  assert (S0 : mstep k m (Mach (m_tr m) (m_front m) (length (m_tr m) :: m_starts m) (m_w m) (m_undo m) None)) by now constructor.
  set (m0 := Mach _ _ _ _ _ _) in *.
  assert (G0 : good (m :: hs) m0).
  { destruct (good_step hs m m0 G S0) as [[G0 D0]|[[G0 _]|(s & hs' & E & G0 & D0 & _)]]; [|assumption|].
    - exfalso. cbn in D0. unfold m_dl in D0. cbn in D0. lia.
    - exfalso. unfold m_dl in D0. cbn in D0. lia. }
  destruct (run_above_good _ _ _ RA (m :: hs) G0) as [l G1]. { cbn. now rewrite (good_dl _ _ G). }
  pose proof (good_dl _ _ G) as DL. pose proof (good_dl _ _ G1) as DL1. rewrite app_length in DL1. cbn in DL1.
  destruct (good_step _ _ _ G1 ST) as [[G2 D2]|[[G2 D2]|(s & hs' & E & G2 & D2 & Q1 & Q2 & Q3 & Q4 & Q5 & Q6)]]; [exfalso; lia|exfalso; lia|].
  destruct l as [|s' l]; [|exfalso; cbn in DL1; lia].
  cbn in E. injection E as <- <-. destruct Q6. repeat split; auto.
Qed.

(** ** The propagation rules at a fixpoint *)
Notation memb := mem_lit (only parsing).
Lemma memb_In x l : memb x l = true <-> In x l.
Proof.
  unfold mem_lit. rewrite existsb_exists. split.
  - intros (y & H & E). apply lit_eqb_eq in E. now subst.
  - intros H. exists x. split; [assumption|]. now apply lit_eqb_eq.
Qed.
(** falsified weight of sub-constraint [c] on the trail *)
Definition gw (m : mach) (c : bool) (i : nat) : Z := if memb (neg (clit k i c)) (tl (m_tr m)) then weight k i else 0.
Definition gsum (m : mach) (c : bool) : Z := sumf (gw m c) (seq 1 (length (k_lits k))).
Lemma gw_nonneg m c i : 0 <= gw m c i.
Proof. unfold gw. pose proof (weight_nonneg i). destruct (memb _ _); lia. Qed.

Lemma sumf_weight_total : sumf (weight k) (seq 1 (length (k_lits k))) = total (k_lits k).
Proof.
  assert (G : forall l n, (forall j, (j < length l)%nat -> entry k (n + j) = nth j l ((0%nat, false), 0)) ->
     sumf (weight k) (seq n (length l)) = total l).
  { induction l as [|[x w] t IH]; intros n H; cbn [length seq sumf total]; [reflexivity|]. rewrite IH.
    - specialize (H 0%nat ltac:(cbn; lia)). rewrite Nat.add_0_r in H. unfold weight. rewrite H. reflexivity.
    - intros j Hj. specialize (H (S j) ltac:(cbn; lia)). rewrite Nat.add_succ_r in H. exact H. }
  apply G. reflexivity.
Qed.
Lemma sumf_le g h l : (forall i, In i l -> g i <= h i) -> sumf g l <= sumf h l.
Proof. induction l as [|x t IH]; cbn; intros H; [lia|]. pose proof (H x ltac:(auto)). specialize (IH ltac:(auto)). lia. Qed.
Lemma sumf_plus g h l : sumf (fun i => g i + h i) l = sumf g l + sumf h l.
Proof. induction l; cbn; lia. Qed.
Lemma sumf_single w j l : NoDup l -> In j l -> sumf (fun i => if Nat.eqb i j then w else 0) l = w.
Proof.
  induction l as [|x t IH]; cbn; [easy|]. intros ND H. inversion_clear ND as [|? ? N1 N2].
  destruct (Nat.eqb_spec x j) as [->|N].
  - assert (Z : sumf (fun i => if Nat.eqb i j then w else 0) t = 0); [|lia]. clear - N1. induction t as [|y t IH]; cbn; [reflexivity|].
    destruct (Nat.eqb_spec y j) as [->|N]; [exfalso; apply N1; now left|]. rewrite IH; [lia|]. intros G. apply N1. now right.
  - destruct H as [H|H]; [congruence|]. rewrite IH; auto.
Qed.

(** both sides and one free literal fit into the total *)
Lemma gsum_two m j : Inv m -> (1 <= j)%nat -> (j < size k)%nat -> ~ In (fst (clit k j true)) (tv (m_tr m)) ->
  gsum m true + gsum m false + weight k j <= total (k_lits k).
Proof.
  intros I H1 H2 F. rewrite <- sumf_weight_total. unfold gsum.
  rewrite <- (sumf_single (weight k j) j (seq 1 (length (k_lits k)))).
  2: apply seq_NoDup. 2: { apply in_seq. unfold size in H2. cbn in H2. lia. }
  rewrite <- !sumf_plus. apply sumf_le. intros i Hi. unfold gw. pose proof (weight_nonneg i).
  destruct (memb (neg (clit k i true)) (tl (m_tr m))) eqn:A, (memb (neg (clit k i false)) (tl (m_tr m))) eqn:B.
  - exfalso. apply memb_In in A, B. apply (tl_no_neg _ _ (v_nodup m I) B).
    change true with (negb false) in A. rewrite clit_negb in A. exact A.
  - destruct (Nat.eqb_spec i j) as [->|N]; [|lia]. exfalso. apply F. apply memb_In, in_tl_tv in A. exact A.
  - destruct (Nat.eqb_spec i j) as [->|N]; [|lia]. exfalso. apply F. apply memb_In, in_tl_tv in B. cbn [neg fst] in B. rewrite clit_var in *. exact B.
  - destruct (Nat.eqb_spec i j) as [->|N]; lia.
Qed.
Lemma gsum_both m : Inv m -> gsum m true + gsum m false <= total (k_lits k).
Proof.
  intros I. rewrite <- sumf_weight_total. unfold gsum. rewrite <- sumf_plus. apply sumf_le. intros i Hi. unfold gw. pose proof (weight_nonneg i).
  destruct (memb (neg (clit k i true)) (tl (m_tr m))) eqn:A, (memb (neg (clit k i false)) (tl (m_tr m))) eqn:B; try lia.
  exfalso. apply memb_In in A, B. apply (tl_no_neg _ _ (v_nodup m I) B).
  change true with (negb false) in A. rewrite clit_negb in A. exact A.
Qed.

Section Fix.
Variable m : mach.
Hypothesis I : Inv m.
Hypothesis C : m_conf m = None.
Hypothesis Q : m_front m = length (m_tr m).

Lemma P_iff x : P m x <-> T m x.
Proof. unfold P, T. rewrite Q, firstn_all. reflexivity. Qed.
Lemma stack_le c : ~ In 0%nat (map fst (stack_ (m_w m))) -> sumc c (stack_ (m_w m)) <= gsum m c.
Proof.
  intros Z. unfold sumc, gsum.
  assert (E : sumf (weight k) (map fst (filter (fun u => Bool.eqb (snd u) c) (stack_ (m_w m)))) =
              sumf (gw m c) (map fst (filter (fun u => Bool.eqb (snd u) c) (stack_ (m_w m))))).
  { apply sumf_ext. intros i Hi. apply filter_idx_In in Hi. destruct (v_stk m I i c Hi) as (_ & _ & G). apply P_T in G.
    unfold gw. unfold T in G. apply memb_In in G. now rewrite G. }
  rewrite E. apply sumf_incl; [apply gw_nonneg| |].
  - apply filter_idx_nodup. apply (v_stknd m I).
  - intros i Hi. apply filter_idx_In in Hi. destruct (v_stk m I i c Hi) as (G & _ & _). apply in_seq. unfold size in G. cbn in G.
    assert (i <> 0%nat). { intros ->. apply Z. apply in_map_iff. exists (0%nat, c). auto. } lia.
Qed.
Lemma stack_ge c : (forall i, (1 <= i)%nat -> (i < size k)%nat -> T m (neg (clit k i c)) -> In (i, c) (stack_ (m_w m))) ->
  gsum m c + (if in_dec Nat.eq_dec 0%nat (map fst (filter (fun u => Bool.eqb (snd u) c) (stack_ (m_w m)))) then 1 else 0) <= sumc c (stack_ (m_w m)).
Proof.
  intros Hall. unfold gsum.
  assert (E : sumf (gw m c) (seq 1 (length (k_lits k))) = sumf (weight k) (filter (fun i => memb (neg (clit k i c)) (tl (m_tr m))) (seq 1 (length (k_lits k))))).
  { generalize (seq 1 (length (k_lits k))). induction l as [|x t IH]; cbn; [reflexivity|]. unfold gw at 1. rewrite IH. destruct (memb _ _); cbn; lia. }
  rewrite E. clear E. set (F := filter _ (seq 1 (length (k_lits k)))).
  assert (NF : NoDup F) by (apply NoDup_filter, seq_NoDup).
  assert (IF : forall i, In i F -> (1 <= i)%nat /\ In (i, c) (stack_ (m_w m))).
  { intros i Hi. apply filter_In in Hi as [Hi1 Hi2]. apply in_seq in Hi1. split; [lia|]. apply Hall; [lia|unfold size; cbn; lia|]. now apply memb_In. }
  unfold sumc. destruct (in_dec _ _ _) as [Z|Z].
  - assert (G : sumf (weight k) (0%nat :: F) <= sumf (weight k) (map fst (filter (fun u => Bool.eqb (snd u) c) (stack_ (m_w m))))).
    { apply sumf_incl; [apply weight_nonneg| |].
      - constructor; [|assumption]. intros G. apply IF in G. lia.
      - intros i [<-|Hi]; [assumption|]. apply filter_idx_In. now apply IF. }
    cbn [sumf] in G. rewrite weight_0 in G. lia.
  - rewrite Z.add_0_r. apply sumf_incl; [apply weight_nonneg|assumption|]. intros i Hi. apply filter_idx_In. now apply IF.
Qed.

(** the other sub-constraint being active *)
Lemma other_active c : watched k c = true -> active_ (m_w m) = Some (negb c) -> ~ T m (clit k 0 c) ->
  ~ In 0%nat (map fst (stack_ (m_w m))) /\ b0 (negb c) <= gsum m (negb c).
Proof.
  intros W A NT. destruct (v_active m I C _ A) as [_ G]. rewrite negb_involutive in G. destruct (G W) as [G'|(G1 & G2 & _)].
  - exfalso. apply NT. destruct (v_stk m I _ _ G') as (_ & _ & G2). apply P_T in G2. rewrite clit_negb, neg_neg in G2. exact G2.
  - split; [assumption|]. pose proof (stack_le (negb c) G1). rewrite (v_bound m I) in G2. lia.
Qed.
Lemma b0_both c : b0 c + b0 (negb c) = total (k_lits k) + 1.
Proof. pose proof b0_sum. destruct c; cbn [negb] in *; lia. Qed.
Lemma gsum_both' c : gsum m c + gsum m (negb c) <= total (k_lits k).
Proof. pose proof (gsum_both m I). destruct c; cbn [negb] in *; lia. Qed.

Lemma cover_all c : watched k c = true -> ~ T m (clit k 0 c) -> active_ (m_w m) <> Some (negb c) ->
  forall i, (i < size k)%nat -> T m (neg (clit k i c)) -> In (i, c) (stack_ (m_w m)).
Proof.
  intros W NT NA i Hi G. apply P_iff in G. destruct (v_cover m I i c Hi W G) as [?|[?|?]]; tauto.
Qed.

Lemma forward_rule c : watched k c = true -> b0 c <= gsum m c -> T m (clit k 0 c).
Proof.
  intros W H. destruct (memb (clit k 0 c) (tl (m_tr m))) eqn:M; [now apply memb_In|]. exfalso.
  assert (NT : ~ T m (clit k 0 c)) by (intros G; apply memb_In in G; congruence).
  assert (NA : active_ (m_w m) <> Some (negb c)).
  { intros A. destruct (other_active c W A NT) as [_ G]. pose proof (b0_both c). pose proof (gsum_both' c). lia. }
  pose proof (stack_ge c (fun i _ => cover_all c W NT NA i)) as SG. destruct (in_dec _ _ _) as [Z|Z].
  - apply filter_idx_In in Z. destruct (v_bp m I C c Z) as [G _]. rewrite (v_bound m I) in G. lia.
  - destruct (in_dec Nat.eq_dec 0%nat (map fst (stack_ (m_w m)))) as [Z'|Z'].
    + apply in_map_iff in Z' as ([z c'] & Ez & Z'). cbn in Ez. subst z. apply Z. apply filter_idx_In. now rewrite <- (body_side m c c' I NT Z').
    + apply NT. apply (v_fwd m I C c W Z'). rewrite (v_bound m I). lia.
Qed.

Lemma backward_rule c i : watched k c = true -> T m (neg (clit k 0 c)) -> (1 <= i)%nat -> (i < size k)%nat ->
  ~ In (fst (clit k i c)) (tv (m_tr m)) -> gsum m c + weight k i < b0 c.
Proof.
  intros W TN H1 H2 Fr.
  assert (NT : ~ T m (clit k 0 c)). { intros G. apply (tl_no_neg _ _ (v_nodup m I) G TN). }
  assert (Fr' : ~ In (fst (clit k i true)) (tv (m_tr m))) by (rewrite clit_var in *; exact Fr).
  destruct (in_dec Nat.eq_dec 0%nat (map fst (stack_ (m_w m)))) as [Z'|Z'].
  - apply in_map_iff in Z' as ([z c'] & Ez & Z). cbn in Ez. subst z. pose proof (body_side m c c' I NT Z). subst c'.
    assert (NA : active_ (m_w m) <> Some (negb c)).
    { intros A. destruct (other_active c W A NT) as [G _]. apply G. apply in_map_iff. exists (0%nat, c). auto. }
    pose proof (stack_ge c (fun i _ => cover_all c W NT NA i)) as SG.
    destruct (in_dec _ _ _) as [Z'|Z']; [|exfalso; apply Z'; now apply filter_idx_In].
    destruct (v_bp m I C c Z) as (_ & G & _). destruct (Z_lt_dec (gsum m c + weight k i) (b0 c)); [assumption|]. exfalso.
    apply Fr. assert (T m (clit k i c)); [|now apply in_tl_tv]. apply G; auto.
    + destruct (seen_ (m_w m) i) eqn:Se; [|reflexivity]. exfalso. apply (v_seen m I), in_map_iff in Se as ([i' c'] & Ei & Se). cbn in Ei. subst i'.
      destruct (v_stk m I _ _ Se) as (_ & _ & Pc). apply P_T, in_tl_tv in Pc. apply Fr. cbn [neg fst] in Pc. rewrite clit_var in *. exact Pc.
    + rewrite (v_bound m I). lia.
  - destruct (v_cover m I 0%nat c) as [G|[G|G]]; auto.
    + unfold size. cbn. lia.
    + now apply P_iff.
    + exfalso. apply Z'. apply in_map_iff. exists (0%nat, c). auto.
    + contradiction.
    + destruct (other_active c W G NT) as [_ G']. pose proof (b0_both c). pose proof (gsum_two m i I H1 H2 Fr'). destruct c; cbn [negb] in *; lia.
Qed.
End Fix.

(** ** The statements of WpThms *)
Lemma gsum_true m : gsum m true = sum_true (trail_lits m) (k_lits k).
Proof.
  unfold gsum.
  assert (G : forall l n, (forall j, (j < length l)%nat -> entry k (n + j) = nth j l ((0%nat, false), 0)) ->
     sumf (gw m true) (seq n (length l)) = sum_true (trail_lits m) l).
  { induction l as [|[x w] t IH]; intros n H; cbn [length seq sumf sum_true]; [reflexivity|]. rewrite IH.
    - specialize (H 0%nat ltac:(cbn; lia)). rewrite Nat.add_0_r in H. unfold gw, clit, weight. rewrite H. cbn [fst snd nth xorl].
      now rewrite neg_neg.
    - intros j Hj. specialize (H (S j) ltac:(cbn; lia)). rewrite Nat.add_succ_r in H. exact H. }
  apply G. reflexivity.
Qed.
Lemma gsum_false m : gsum m false = total (k_lits k) - sum_reach (trail_lits m) (k_lits k).
Proof.
  unfold gsum.
  assert (G : forall l n, (forall j, (j < length l)%nat -> entry k (n + j) = nth j l ((0%nat, false), 0)) ->
     sumf (gw m false) (seq n (length l)) = total l - sum_reach (trail_lits m) l).
  { induction l as [|[x w] t IH]; intros n H; cbn [length seq sumf sum_reach total]; [reflexivity|]. rewrite IH.
    - specialize (H 0%nat ltac:(cbn; lia)). rewrite Nat.add_0_r in H. unfold gw, clit, weight. rewrite H. cbn [fst snd nth xorl].
      change (tl (m_tr m)) with (trail_lits m). destruct (mem_lit (neg x) (trail_lits m)); lia.
    - intros j Hj. specialize (H (S j) ltac:(cbn; lia)). rewrite Nat.add_succ_r in H. exact H. }
  apply G. reflexivity.
Qed.

Lemma reasons_sound m pre e post d : reach k m -> m_tr m = pre ++ e :: post -> t_reason e = Some d ->
  (forall r, In r (wc_reason k (m_w m) d) -> In r (map t_lit pre)) /\
  (forall a, con_meaning k a -> (forall r, In r (wc_reason k (m_w m) d) -> holds a r = true) -> holds a (t_lit e) = true).
Proof.
  intros R E H. pose proof (reach_inv m R) as I. destruct (v_reason m I pre e post d E H) as (c & i & J).
  assert (HS : forall j c', In (j, c') (stack_ (m_w m)) -> (j < size k)%nat) by (intros j c' G; apply (v_stk m I j c' G)).
  split.
  - destruct (just_sound _ _ _ _ _ _ (fun _ => false) (v_stknd m I) HS J) as [A _]. exact A.
  - intros a. apply (just_sound _ _ _ _ _ _ a (v_stknd m I) HS J).
Qed.
Lemma conflicts_sound m x d : reach k m -> m_conf m = Some (x, d) ->
  on_trail m (neg x) /\ (forall r, In r (wc_reason k (m_w m) d) -> on_trail m r) /\
  (forall a, con_meaning k a -> (forall r, In r (wc_reason k (m_w m) d) -> holds a r = true) -> holds a x = true).
Proof.
  intros R H. pose proof (reach_inv m R) as I. destruct (v_conf m I x d H) as (A & c & i & J).
  assert (HS : forall j c', In (j, c') (stack_ (m_w m)) -> (j < size k)%nat) by (intros j c' G; apply (v_stk m I j c' G)).
  split; [exact A|]. split.
  - destruct (just_sound _ _ _ _ _ _ (fun _ => false) (v_stknd m I) HS J) as [B _]. exact B.
  - intros a. apply (just_sound _ _ _ _ _ _ a (v_stknd m I) HS J).
Qed.

Lemma index_of x w : In (x, w) (k_lits k) -> exists i, (1 <= i)%nat /\ (i < size k)%nat /\ clit k i false = x /\ weight k i = w.
Proof.
  intros H. destruct (In_nth _ _ ((0%nat, false), 0) H) as (j & Hj & E). exists (S j).
  split; [lia|]. split; [exact (proj1 (Nat.succ_lt_mono _ _) Hj)|]. assert (En : entry k (S j) = (x, w)) by exact E. unfold clit, weight. rewrite En. auto.
Qed.
Lemma free_var m (x : lit) : unassigned m x -> ~ In (fst x) (tv (m_tr m)).
Proof.
  intros [U1 U2] G. rewrite tv_tl in G. apply in_map_iff in G as (y & E & G). destruct (same_var x y) as [-> | ->]; [now rewrite E| |]; auto.
Qed.
Lemma rules m : reach k m -> quiescent m ->
  (k_act k <> Some false ->
     (k_bound k <= sum_true (trail_lits m) (k_lits k) -> on_trail m (k_W k)) /\
     (on_trail m (neg (k_W k)) -> forall x w, In (x, w) (k_lits k) -> unassigned m x -> sum_true (trail_lits m) (k_lits k) + w < k_bound k)) /\
  (k_act k <> Some true ->
     (sum_reach (trail_lits m) (k_lits k) < k_bound k -> on_trail m (neg (k_W k))) /\
     (on_trail m (k_W k) -> forall x w, In (x, w) (k_lits k) -> unassigned m x -> k_bound k <= sum_reach (trail_lits m) (k_lits k) - w)).
Proof.
  intros R [C Q]. pose proof (reach_inv m R) as I.
  assert (B1 : clit k 0 true = k_W k). { unfold clit, entry. cbn [k_all nth fst xorl]. apply neg_neg. }
  assert (B0 : clit k 0 false = neg (k_W k)) by reflexivity.
  split; intros K.
  - assert (W : watched k true = true) by (unfold watched; destruct (k_act k) as [[]|]; cbn; congruence).
    split.
    + intros H. rewrite <- gsum_true in H. pose proof (forward_rule m I C Q true W H) as G. now rewrite B1 in G.
    + intros H x w Hx U. apply index_of in Hx as (i & H1 & H2 & H3 & H4).
      pose proof (backward_rule m I C Q true i W) as G. rewrite B1, H4, gsum_true in G. apply G; auto.
      rewrite clit_var, <- (clit_var i false), H3. now apply free_var.
  - assert (W : watched k false = true) by (unfold watched; destruct (k_act k) as [[]|]; cbn; congruence).
    assert (BB : b0 false = total (k_lits k) - k_bound k + 1) by (unfold b0; rewrite k_reach_total; lia).
    split.
    + intros H. pose proof (forward_rule m I C Q false W) as G. rewrite B0, gsum_false, BB in G. apply G. lia.
    + intros H x w Hx U. apply index_of in Hx as (i & H1 & H2 & H3 & H4).
      pose proof (backward_rule m I C Q false i W) as G. rewrite B0, neg_neg, H4, gsum_false, BB in G. 
      enough (total (k_lits k) - sum_reach (trail_lits m) (k_lits k) + w < total (k_lits k) - k_bound k + 1) by lia.
      apply G; auto. rewrite H3. now apply free_var.
Qed.

Lemma sum_true_total m a : extends_trail a m -> forall l : list wlit, (forall x w, In (x, w) l -> on_trail m x \/ on_trail m (neg x)) ->
  sum_true (trail_lits m) l = wsum a l /\ sum_reach (trail_lits m) l = wsum a l.
Proof.
  intros HE. induction l as [|[x w] t IH]; intros H; cbn [sum_true sum_reach wsum]; [auto|].
  destruct IH as [IH1 IH2]; [intros y v Hy; apply (H y v); now right|]. rewrite IH1, IH2.
  assert (M1 : mem_lit x (trail_lits m) = holds a x /\ mem_lit (neg x) (trail_lits m) = negb (holds a x)).
  { destruct (H x w ltac:(now left)) as [G|G]; pose proof (HE _ G) as Hx; unfold on_trail in G.
    - rewrite Hx. split; [now apply memb_In|]. apply not_true_is_false. intros G'. apply memb_In, HE in G'. rewrite holds_neg, Hx in G'. discriminate.
    - rewrite holds_neg in Hx. apply negb_true_iff in Hx. rewrite Hx. split; [|now apply memb_In].
      apply not_true_is_false. intros G'. apply memb_In, HE in G'. congruence. }
  destruct M1 as [-> ->]. destruct (holds a x); cbn; lia.
Qed.
Lemma models_ok m a : reach k m -> quiescent m -> extends_trail a m ->
  (forall x w, In (x, w) ((k_W k, 1) :: k_lits k) -> on_trail m x \/ on_trail m (neg x)) -> con_meaning k a.
Proof.
  intros R Q HE HA. destruct (sum_true_total m a HE (k_lits k)) as [S1 S2].
  { intros x w H. apply (HA x w). now right. }
  destruct (rules m R Q) as [R1 R2]. rewrite S1, S2 in *.
  assert (WT : k_act k <> Some false -> k_bound k <= wsum a (k_lits k) -> holds a (k_W k) = true).
  { intros K H. apply HE. now apply (proj1 (R1 K)). }
  assert (WF : k_act k <> Some true -> holds a (k_W k) = true -> k_bound k <= wsum a (k_lits k)).
  { intros K H. destruct (Z_le_dec (k_bound k) (wsum a (k_lits k))); [assumption|]. exfalso.
    assert (G : on_trail m (neg (k_W k))) by (apply (proj1 (R2 K)); lia). apply HE in G. rewrite holds_neg, H in G. discriminate. }
  unfold con_meaning. destruct (k_act k) as [[]|]; [apply WT; discriminate|apply WF; discriminate|].
  split; [apply WF; discriminate|apply WT; discriminate].
Qed.
End Con.
