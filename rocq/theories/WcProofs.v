From Coq Require Import List Bool Arith ZArith Lia ZifyBool ZifyNat Permutation.
From Verif Require Import Base WcModel WcSpec.
Import ListNotations.
Local Open Scope Z_scope.
#[local] Arguments Z.add : simpl never.
#[local] Arguments Z.sub : simpl never.
#[local] Arguments Z.mul : simpl never.
#[local] Arguments Z.opp : simpl never.
#[local] Arguments Z.min : simpl never.
#[local] Arguments Z.max : simpl never.
#[local] Arguments Z.leb : simpl never.
#[local] Arguments Z.ltb : simpl never.
#[local] Arguments Z.geb : simpl never.
#[local] Arguments Z.gtb : simpl never.
#[local] Arguments Z.eqb : simpl never.

Ltac inv_do H :=
  repeat match type of H with
  | bind ?r _ = Ok _ => let x := fresh "x" in let E := fresh "E" in
      apply bind_ok in H as (x & E & H)
  end.

Lemma wsum_app a l r : wsum a (l ++ r) = wsum a l + wsum a r.
Proof. induction l as [|[x w] t IH]; cbn; [reflexivity|]. rewrite IH. lia. Qed.
Lemma total_app l r : total (l ++ r) = total l + total r.
Proof. induction l as [|[x w] t IH]; cbn; [reflexivity|]. rewrite IH. lia. Qed.
Lemma split_at_spec x k l m r : split_at x k = Some (l, m, r) -> k = l ++ m :: r /\ fst m = x.
Proof.
  revert l m r. induction k as [|e t IH]; cbn; [discriminate|]. intros l m r.
  destruct (lit_eqb (fst e) x) eqn:E.
  - intros [= <- <- <-]. split; [reflexivity|]. now apply lit_eqb_eq.
  - destruct (split_at x t) as [[[l' m'] r']|] eqn:F; [|discriminate].
    intros [= <- <- <-]. destruct (IH _ _ _ eq_refl) as [-> H]. split; auto.
Qed.
Lemma split_at_In x k : In x (map fst k) -> exists p, split_at x k = Some p.
Proof.
  induction k as [|e t IH]; cbn; [easy|]. intros [H|H].
  - subst x. rewrite lit_eqb_refl. eauto.
  - destruct (lit_eqb (fst e) x); [eauto|]. destruct (IH H) as [[[l m] r] ->]. eauto.
Qed.

Record inv1 (top : pasg) (s : st1) : Prop := {
  i_pos : forall e, In e (kept s) -> 1 <= snd e;
  i_free : forall e, In e (kept s) -> top (fst (fst e)) = None;
  i_nodup : NoDup (map (fun e => fst (fst e)) (kept s));
  i_seen : forall l, In l (seen s) <-> In l (map fst (kept s)) }.

Definition vars (k : list wlit) := map (fun e : wlit => fst (fst e)) k.
Lemma vars_app k k' : vars (k ++ k') = vars k ++ vars k'. Proof. apply map_app. Qed.
Lemma vars_In v k : In v (vars k) <-> exists l, In l (map fst k) /\ fst l = v.
Proof.
  unfold vars. rewrite in_map_iff. split.
  - intros (e & <- & H). exists (fst e). split; auto. now apply in_map.
  - intros (l & H & <-). apply in_map_iff in H as (e & <- & H). eauto.
Qed.
Lemma seenLit_In s x : seenLit s x = true <-> In x s.
Proof. unfold seenLit. rewrite existsb_exists. split.
  - intros (y & H & E). apply lit_eqb_eq in E. now subst.
  - intros H. exists x. split; auto. apply lit_eqb_refl. Qed.
Lemma seenVar_In s v : seenVar s v = true <-> exists y, In y s /\ fst y = v.
Proof. unfold seenVar. rewrite existsb_exists. split; intros (y & H & E); exists y; split; auto; now apply Nat.eqb_eq. Qed.
Lemma clearSeen_In s v l : In l (clearSeen s v) <-> In l s /\ fst l <> v.
Proof. unfold clearSeen. rewrite filter_In. rewrite negb_true_iff, Nat.eqb_neq. tauto. Qed.

Definition val (a : asg) (e : wlit) : Z := if holds a (fst e) then snd e else 0.

Lemma step1_spec top s e s' : step1 top s e = Ok s' -> inv1 top s ->
  inv1 top s' /\ forall a, extends a top -> wsum a (kept s') - bnd s' = wsum a (kept s) - bnd s + val a e.
Proof.
  destruct e as [x0 w0]. unfold step1. intros H I. unfold val; cbn [fst snd].
  destruct (negb (w0 =? 0) && isFree top (fst x0)) eqn:C.
  2: { destruct (isTrue top x0) eqn:T.
       - inv_do H. apply i32_ok in E as [-> _]. injection H as <-. split; [destruct I; split; auto|].
         intros a Ha. cbn. rewrite (extends_true a top x0 Ha T). lia.
       - injection H as <-. split; [assumption|]. intros a Ha.
         apply andb_false_iff in C as [C|C].
         + replace w0 with 0 by lia. destruct (holds a x0); lia.
         + destruct (holds a x0) eqn:Hh; [exfalso|lia].
           unfold isFree in C. destruct (top (fst x0)) as [b|] eqn:E; [|discriminate].
           unfold isTrue, pval in T. rewrite E in T. cbn in T. unfold holds in Hh. rewrite (Ha _ _ E) in Hh.
           rewrite Hh in T. discriminate. }
  apply andb_true_iff in C as [C1 C2]. inv_do H. destruct x as [[x w] b].
  assert (P : 1 <= w /\ fst x = fst x0 /\ forall a, (if holds a x then w else 0) - b = (if holds a x0 then w0 else 0) - bnd s).
  { destruct (w0 <? 0) eqn:Wn.
    - inv_do E. apply i32_ok in E0 as [-> R].
      destruct ((bnd s <? 0) || (int_max - bnd s >=? - w0)); [|discriminate].
      inv_do E. apply i32_ok in E0 as [-> R2]. injection E as <- <- <-.
      split; [lia|]. split; [reflexivity|]. intros a. rewrite holds_neg. destruct (holds a x0); cbn; lia.
    - injection E as <- <- <-. split; [lia|]. split; [reflexivity|]. intros a. destruct (holds a x0); lia. }
  destruct P as (Pw & Pv & Pa). clear E.
  assert (Fx : top (fst x) = None).
  { rewrite Pv. unfold isFree in C2. destruct (top (fst x0)); [discriminate|reflexivity]. }
  destruct I as [Ip If In_ Is].
  destruct (seenVar (seen s) (fst x)) eqn:SV; cbn [negb] in H.
  - destruct (seenLit (seen s) (neg x)) eqn:SL; cbn [negb] in H.
    + (* complementary *)
      apply seenLit_In in SL. apply Is in SL.
      destruct (split_at_In _ _ SL) as [[[l m] r] Es]. rewrite Es in H. destruct m as [m wo].
      apply split_at_spec in Es as [Ek Em]. cbn in Em. subst m.
      assert (Hwo : 1 <= wo). { specialize (Ip (neg x, wo)). rewrite Ek in Ip. cbn in Ip. apply Ip, in_or_app. right; now left. }
      assert (NDk : NoDup (vars (l ++ (neg x, wo) :: r))) by (rewrite Ek in In_; exact In_).
      rewrite vars_app in NDk. cbn in NDk.
      assert (Hnotl : ~ In (fst x) (vars l ++ vars r)) by (apply NoDup_remove_2 in NDk; exact NDk).
      assert (NDlr : NoDup (vars l ++ vars r)) by (apply NoDup_remove_1 in NDk; exact NDk).
      assert (InS : forall y, In y (seen s) <-> (In y (map fst l) \/ y = neg x \/ In y (map fst r))).
      { intros y. rewrite Is, Ek, map_app, in_app_iff. cbn. split; intros [?|[?|?]]; auto. }
      assert (NotV : forall y, In y (map fst l) \/ In y (map fst r) -> fst y <> fst x).
      { intros y Hy E. apply Hnotl. apply in_or_app. rewrite !vars_In. destruct Hy; [left|right]; eauto. }
      inv_do H. apply i32_ok in E as [-> R1]. apply i32_ok in E0 as [-> R2].
      destruct (wo - w <? 0) eqn:Q1.
      * inv_do H. apply i32_ok in E as [-> R3]. apply i32_ok in E0 as [-> R4]. injection H as <-.
        split.
        -- split; cbn [kept seen bnd].
           ++ intros e He. apply in_app_or in He as [He|[<-|He]]; cbn; [|lia|]; apply Ip; rewrite Ek; apply in_or_app; cbn; auto.
           ++ intros e He. apply in_app_or in He as [He|[<-|He]]; cbn; [|assumption|]; apply If; rewrite Ek; apply in_or_app; cbn; auto.
           ++ change (NoDup (vars (l ++ (x, - (wo - w)) :: r))). rewrite vars_app. cbn. exact NDk.
           ++ intros y. rewrite map_app, in_app_iff. cbn. rewrite clearSeen_In, InS.
              split.
              ** intros [<-|[[?|[->|?]] ?]]; auto. exfalso; now cbn in *.
              ** intros [?|[<-|?]]; auto; right; split; auto.
        -- intros a Ha. cbn [kept bnd]. rewrite Ek, !wsum_app. cbn. rewrite holds_neg. specialize (Pa a).
           destruct (holds a x); cbn; lia.
      * destruct (wo - w =? 0) eqn:Q2.
        -- injection H as <-. split.
           ++ split; cbn [kept seen bnd].
              ** intros e He. apply Ip. rewrite Ek. apply in_app_or in He. apply in_or_app. cbn. tauto.
              ** intros e He. apply If. rewrite Ek. apply in_app_or in He. apply in_or_app. cbn. tauto.
              ** change (NoDup (vars (l ++ r))). now rewrite vars_app.
              ** intros y. rewrite map_app, in_app_iff, clearSeen_In, InS. split.
                 --- intros [[?|[->|?]] ?]; auto. exfalso; now cbn in *.
                 --- intros Hy. split; [tauto|now apply NotV].
           ++ intros a Ha. cbn [kept bnd]. rewrite Ek, !wsum_app. cbn. rewrite holds_neg. specialize (Pa a).
              destruct (holds a x); cbn; lia.
        -- injection H as <-. split.
           ++ split; cbn [kept seen bnd].
              ** intros e He. apply in_app_or in He as [He|[<-|He]]; cbn; [|lia|]; apply Ip; rewrite Ek; apply in_or_app; cbn; auto.
              ** intros e He. apply in_app_or in He as [He|[<-|He]]; cbn; [|assumption|]; apply If; rewrite Ek; apply in_or_app; cbn; auto.
              ** change (NoDup (vars (l ++ (neg x, wo - w) :: r))). rewrite vars_app. exact NDk.
              ** intros y. rewrite map_app, in_app_iff. cbn. rewrite InS. split; intros [?|[?|?]]; auto.
           ++ intros a Ha. cbn [kept bnd]. rewrite Ek, !wsum_app. cbn. rewrite holds_neg. specialize (Pa a).
              destruct (holds a x); cbn; lia.
    + (* merge *)
      assert (SX : In x (map fst (kept s))).
      { apply seenVar_In in SV as (y & Hy & Ev). symmetry in Ev. apply same_var in Ev as [->| ->].
        - now apply Is.
        - exfalso. apply (proj2 (seenLit_In _ _)) in Hy. congruence. }
      destruct (split_at_In _ _ SX) as [[[l m] r] Es]. rewrite Es in H. destruct m as [m wo].
      apply split_at_spec in Es as [Ek Em]. cbn in Em. subst m.
      inv_do H. apply i32_ok in E as [-> R1]. injection H as <-.
      assert (Hwo : 1 <= wo). { specialize (Ip (x, wo)). rewrite Ek in Ip. cbn in Ip. apply Ip, in_or_app. right; now left. }
      split.
      * split; cbn [kept seen bnd].
        -- intros e He. apply in_app_or in He as [He|[<-|He]]; cbn; [|lia|]; apply Ip; rewrite Ek; apply in_or_app; cbn; auto.
        -- intros e He. apply in_app_or in He as [He|[<-|He]]; cbn; [|assumption|]; apply If; rewrite Ek; apply in_or_app; cbn; auto.
        -- change (NoDup (vars (l ++ (x, wo + w) :: r))). change (NoDup (vars (kept s))) in In_. rewrite Ek in In_.
           rewrite vars_app in *. exact In_.
        -- intros y. rewrite Is, Ek, !map_app. cbn. tauto.
      * intros a Ha. cbn [kept bnd]. rewrite Ek, !wsum_app. cbn. specialize (Pa a). destruct (holds a x); lia.
  - (* first *)
    injection H as <-. split.
    + split; cbn [kept seen bnd].
      * intros e He. apply in_app_or in He as [He|[<-|[]]]; auto.
      * intros e He. apply in_app_or in He as [He|[<-|[]]]; auto.
      * change (NoDup (vars (kept s ++ [(x, w)]))). rewrite vars_app. cbn.
        apply NoDup_Add with (a := fst x) (l := vars (kept s)).
        { rewrite <- (app_nil_r (vars (kept s))) at 1. apply Add_app. }
        split; [exact In_|]. intros Hv. apply vars_In in Hv as (l & Hl & El). apply Is in Hl.
        assert (seenVar (seen s) (fst x) = true) by (apply seenVar_In; eauto). congruence.
      * intros y. rewrite map_app, in_app_iff. cbn. rewrite Is. tauto.
    + intros a Ha. cbn [kept bnd]. rewrite wsum_app. cbn. specialize (Pa a). lia.
Qed.

Lemma run1_spec top : forall lits s s', run1 top s lits = Ok s' -> inv1 top s ->
  inv1 top s' /\ forall a, extends a top -> wsum a (kept s') - bnd s' = wsum a (kept s) - bnd s + wsum a lits.
Proof.
  induction lits as [|e t IH]; cbn; intros s s' H I.
  - injection H as <-. split; auto. intros. lia.
  - inv_do H. destruct (step1_spec _ _ _ _ E I) as [I1 S1]. destruct (IH _ _ H I1) as [I2 S2].
    split; auto. intros a Ha. rewrite (S2 a Ha). specialize (S1 a Ha). destruct e as [y w]. unfold val in S1. cbn [fst snd wsum] in *. lia.
Qed.

Lemma inv1_init top b : inv1 top (St1 [] [] b).
Proof. split; cbn; try easy. constructor. Qed.

(** ** Step 2 *)
Definition clamp (B : Z) (e : wlit) : wlit := (fst e, Z.min (snd e) B).
Lemma run2_spec B : 1 <= B -> forall lits s ls s',
  run2 B s lits = Ok (ls, s') -> (forall e, In e lits -> 1 <= snd e) -> 1 <= maxW s <= B ->
  ls = map (clamp B) lits /\ sumW s' = sumW s + total ls /\
  (forall e, In e ls -> minW s' <= snd e <= maxW s') /\ minW s' <= minW s /\ maxW s <= maxW s' <= B /\
  (maxW s' = maxW s \/ In (maxW s') (map snd ls)) /\ (minW s' = minW s \/ In (minW s') (map snd ls)).
Proof.
  intros HB. induction lits as [|[x w] t IH]; cbn; intros s ls s' H Hp Hm.
  - injection H as <- <-. cbn; repeat split; auto; try lia; try (intros; contradiction).
  - set (w' := if w >? maxW s then Z.min w B else w) in *.
    assert (Ew : w' = Z.min w B).
    { unfold w'. destruct (w >? maxW s) eqn:E; lia. }
    destruct (negb (int_max - sumW s >=? w')); [discriminate|]. inv_do H. destruct x0 as [t' s2]. injection H as <- <-.
    assert (1 <= w) by (apply (Hp (x, w)); auto).
    apply IH in E as (E1 & E2 & E3 & E4 & E5 & E6 & E7); [| intros e He; apply Hp; auto | cbn; destruct (w >? maxW s) eqn:G; lia].
    cbn [sumW minW maxW] in *.
    split; [unfold clamp at 1; cbn [fst snd]; now rewrite E1, Ew|].
    split; [cbn; lia|].
    split.
    { intros e [<-|He]; [cbn; destruct (w >? maxW s) eqn:G1, (w' <? minW s) eqn:G2; lia|auto]. }
    split; [destruct (w' <? minW s) eqn:G2; lia|].
    split; [destruct (w >? maxW s) eqn:G1; lia|].
    split.
    + destruct E6 as [E6|E6]; [|right; cbn; auto]. destruct (w >? maxW s) eqn:G; [right; cbn; left; now rewrite E6|left; lia].
    + destruct E7 as [E7|E7]; [|right; cbn; auto]. destruct (w' <? minW s) eqn:G; [right; cbn; left; now rewrite E7|left; lia].
Qed.

Lemma wsum_nonneg a l : (forall e, In e l -> 0 <= snd e) -> 0 <= wsum a l <= total l.
Proof.
  induction l as [|[x w] t IH]; cbn; intros H; [lia|].
  assert (0 <= w) by (apply (H (x, w)); auto). specialize (IH ltac:(auto)). destruct (holds a x); lia.
Qed.
Lemma wsum_clamp a B l b : 0 <= B -> b <= B -> (forall e, In e l -> 1 <= snd e) ->
  (b <=? wsum a (map (clamp B) l)) = (b <=? wsum a l) .
Proof.
  intros HB Hb Hp.
  assert (G : wsum a (map (clamp B) l) = wsum a l \/ (b <= wsum a (map (clamp B) l) /\ b <= wsum a l)).
  { induction l as [|[x w] t IH]; [cbn; auto|].
    assert (1 <= w) by (apply (Hp (x, w)); cbn; auto).
    assert (Ht : forall e, In e t -> 1 <= snd e) by (intros; apply Hp; cbn; auto).
    pose proof (wsum_nonneg a t ltac:(intros e He; specialize (Ht e He); lia)).
    pose proof (wsum_nonneg a (map (clamp B) t)) as N2.
    assert (0 <= wsum a (map (clamp B) t)).
    { apply N2. intros e He. apply in_map_iff in He as (e' & <- & He'). specialize (Ht e' He'). cbn. lia. }
    change (map (clamp B) ((x, w) :: t)) with ((x, Z.min w B) :: map (clamp B) t). cbn [wsum].
    destruct (holds a x); [|destruct (IH Ht) as [IH1|IH1]; lia].
    destruct (Z.min_spec w B) as [[? ->]|[? ->]]; [|right; lia].
    destruct (IH Ht) as [IH1|IH1]; lia. }
  destruct G as [G|G]; [rewrite G; reflexivity|lia].
Qed.

(** ** Step 3 *)
Lemma ins_perm e l : Permutation (e :: l) (ins e l).
Proof.
  induction l as [|h t IH]; cbn; [reflexivity|]. destruct (snd h <? snd e); [reflexivity|].
  rewrite perm_swap. now constructor.
Qed.
Lemma sort_perm l : Permutation l (sort_desc l).
Proof.
  unfold sort_desc. enough (forall acc, Permutation (l ++ acc) (fold_left (fun acc e => ins e acc) l acc)) as H
    by (rewrite <- (H []), app_nil_r; reflexivity).
  induction l as [|e t IH]; intros acc; cbn; [reflexivity|].
  rewrite <- IH, <- ins_perm. apply Permutation_middle.
Qed.
Lemma sorted_ins e l : sorted_desc l -> sorted_desc (ins e l).
Proof.
  induction l as [|[x w] t IH]; intros H.
  - cbn. destruct e. split; [intros e' []|exact I].
  - cbn [ins snd]. destruct (w <? snd e) eqn:E.
    + destruct e as [y v]. destruct H as [H1 H2]. cbn [snd] in E. split; [|split; assumption].
      intros e' [<-|He']; cbn; [lia|]. specialize (H1 e' He'). lia.
    + destruct H as [H1 H2]. split; [|now apply IH].
      intros e' He'. apply (Permutation_in _ (Permutation_sym (ins_perm e t))) in He' as [<-|He']; [lia|auto].
Qed.
Lemma sort_sorted l : sorted_desc (sort_desc l).
Proof.
  unfold sort_desc. enough (forall acc, sorted_desc acc -> sorted_desc (fold_left (fun acc e => ins e acc) l acc)) by (apply H; exact I).
  induction l as [|e t IH]; intros acc H; cbn; [assumption|]. apply IH. now apply sorted_ins.
Qed.
Lemma wsum_perm a l l' : Permutation l l' -> wsum a l = wsum a l'.
Proof. induction 1 as [|[x w]|[x w] [y v]|]; cbn; lia. Qed.
Lemma total_perm l l' : Permutation l l' -> total l = total l'.
Proof. induction 1 as [|[x w]|[x w] [y v]|]; cbn; lia. Qed.

Definition unit_weights (l : list wlit) : list wlit := map (fun e => (fst e, 1)) l.
Lemma wsum_const a m l : (forall e, In e l -> snd e = m) -> wsum a l = m * wsum a (unit_weights l).
Proof.
  induction l as [|[x w] t IH]; intros H; [cbn; lia|].
  assert (w = m) by (apply (H (x, w)); cbn; auto). subst w.
  change (unit_weights ((x, m) :: t)) with ((x, 1) :: unit_weights t). cbn [wsum].
  rewrite IH by (intros; apply H; cbn; auto). destruct (holds a x); lia.
Qed.
Lemma total_const m l : (forall e, In e l -> snd e = m) -> total l = m * total (unit_weights l).
Proof.
  induction l as [|[x w] t IH]; intros H; [cbn; lia|].
  assert (w = m) by (apply (H (x, w)); cbn; auto). subst w.
  change (unit_weights ((x, m) :: t)) with ((x, 1) :: unit_weights t). cbn [total].
  rewrite IH by (intros; apply H; cbn; auto). lia.
Qed.
Lemma total_unit l : total (unit_weights l) = Z.of_nat (length l).
Proof. induction l as [|[x w] t IH]; cbn [unit_weights map total length]; [reflexivity|].
  fold (unit_weights t). rewrite IH. lia. Qed.
Lemma sorted_const m l : (forall e, In e l -> snd e = m) -> sorted_desc l.
Proof.
  induction l as [|[x w] t IH]; cbn; intros H; [exact I|].
  split; [|auto]. intros e He. rewrite (H e) by auto. rewrite <- (H (x, w)) by auto. cbn. lia.
Qed.
Lemma ceil_div_spec b m : 1 <= m -> forall q, ceil_div b m = Ok q -> forall n, 0 <= n -> (q <=? n) = (b <=? m * n).
Proof.
  intros Hm q H n Hn. unfold ceil_div in H. inv_do H. apply i32_ok in E as [-> _]. injection H as <-.
  destruct (Z_lt_dec (b + (m - 1)) 0).
  - assert (Z.quot (b + (m - 1)) m <= 0).
    { rewrite <- (Z.opp_involutive (b + (m - 1))). rewrite Z.quot_opp_l by lia.
      pose proof (Z.quot_pos (- (b + (m - 1))) m). lia. }
    assert (b <= m * n) by nia. lia.
  - rewrite Z.quot_div_nonneg by lia.
    destruct (b <=? m * n) eqn:G.
    + apply Z.leb_le. apply Z.lt_succ_r. apply Z.div_lt_upper_bound; [lia|]. nia.
    + apply Z.leb_gt. apply Z.lt_le_trans with (n + 1); [lia|]. apply Z.div_le_lower_bound; [lia|]. nia.
Qed.
Lemma ceil_div_exact m n q : 1 <= m -> 0 <= n -> ceil_div (m * n) m = Ok q -> q = n.
Proof.
  intros Hm Hn H. pose proof (ceil_div_spec _ _ Hm _ H n Hn) as H1.
  unfold ceil_div in H. inv_do H. apply i32_ok in E as [-> _]. injection H as <-.
  rewrite Z.quot_div_nonneg in * by nia. 
  assert (n <= (m * n + (m - 1)) / m) by (apply Z.div_le_lower_bound; nia). lia.
Qed.

Lemma create_rep_spec top lits bound r : create_rep top lits bound = Ok r ->
  normal_form top r /\
  forall a, extends a top -> (r_bound r <=? wsum a (r_lits r)) = (bound <=? wsum a lits).
Proof.
  unfold create_rep. intros H. apply bind_ok in H as (s & E & H).
  destruct (run1_spec _ _ _ _ E (inv1_init _ _)) as [[Ip If In_ Is] Sem]. cbn [kept bnd wsum] in Sem.
  set (B := Z.max (bnd s) 1) in *.
  apply bind_ok in H as ([ls m] & E2 & H).
  destruct (run2_spec B ltac:(lia) _ _ _ _ E2 Ip ltac:(cbn; lia)) as (L & S & Rg & _ & Mx & Mx' & Mn').
  cbn [sumW maxW minW] in *.
  assert (Sem2 : forall a, extends a top -> (bnd s <=? wsum a ls) = (bound <=? wsum a lits)).
  { intros a Ha. rewrite L, wsum_clamp by (auto; lia). specialize (Sem a Ha). lia. }
  assert (Hv : map (fun e : wlit => fst (fst e)) ls = vars (kept s)).
  { rewrite L, map_map. reflexivity. }
  assert (Hin : forall e, In e ls -> exists e', In e' (kept s) /\ e = clamp B e').
  { intros e He. rewrite L in He. apply in_map_iff in He as (e' & <- & He'). eauto. }
  assert (Hpos : forall e, In e ls -> 1 <= snd e <= B).
  { intros e He. apply Hin in He as (e' & He' & ->). specialize (Ip e' He'). cbn. lia. }
  assert (Hfree : forall e, In e ls -> top (fst (fst e)) = None).
  { intros e He. apply Hin in He as (e' & He' & ->). apply (If e' He'). }
  destruct (maxW m =? minW m) eqn:M; cbn [negb] in H.
  - assert (C : forall e, In e ls -> snd e = minW m) by (intros e He; specialize (Rg e He); lia).
    destruct (minW m =? 1) eqn:M1; cbn [negb] in H.
    + injection H as <-. cbn. split; [|exact Sem2].
      split; cbn; auto.
      * intros e He. apply Hpos in He. lia.
      * try rewrite Hv; exact In_.
      * now apply sorted_const with (minW m).
      * intros e He. apply Hpos in He. fold B. lia.
    + apply bind_ok in H as (b & Eb & H). apply bind_ok in H as (sm & Esm & H). injection H as <-. cbn [r_lits r_bound r_reach].
      assert (Hm : 1 <= minW m) by lia.
      split.
      * split; cbn [r_lits r_bound r_reach]; fold (unit_weights ls).
        -- intros e He. apply in_map_iff in He as (e' & <- & _). cbn. lia.
        -- intros e He. apply in_map_iff in He as (e' & <- & He'). apply (Hfree e' He').
        -- unfold unit_weights. rewrite map_map. change (NoDup (map (fun e : wlit => fst (fst e)) ls)). rewrite Hv. exact In_.
        -- apply sorted_const with 1. intros e He. apply in_map_iff in He as (e' & <- & _). reflexivity.
        -- rewrite S in Esm. cbn in Esm. rewrite (total_const (minW m) ls C) in Esm.
           apply ceil_div_exact in Esm; auto. rewrite total_unit. lia.
        -- intros e He. apply in_map_iff in He as (e' & <- & _). cbn. lia.
      * intros a Ha. rewrite <- Sem2 by assumption. fold (unit_weights ls).
        rewrite (ceil_div_spec _ _ Hm _ Eb).
        -- now rewrite (wsum_const a (minW m) ls C).
        -- apply wsum_nonneg. intros e He. apply in_map_iff in He as (e' & <- & _). cbn. lia.
  - injection H as <-. cbn [r_lits r_bound r_reach]. pose proof (sort_perm ls) as P. split.
    + assert (Q : forall e, In e (sort_desc ls) -> In e ls) by (intros e; apply Permutation_in; now symmetry).
      split; cbn [r_lits r_bound r_reach].
      * intros e He. specialize (Hpos e (Q e He)). lia.
      * intros e He. auto.
      * apply (Permutation_NoDup (l := map (fun e : wlit => fst (fst e)) ls)); [now apply Permutation_map|]. try rewrite Hv; exact In_.
      * apply sort_sorted.
      * rewrite <- (total_perm _ _ P). lia.
      * intros e He. specialize (Hpos e (Q e He)). fold B. lia.
    + intros a Ha. rewrite <- (wsum_perm a _ _ P). auto.
Qed.

(** * Top-level propagation and creation *)
Lemma total_pos l : (forall e, In e l -> 1 <= snd e) -> 0 <= total l.
Proof.
  induction l as [|[x w] t IH]; cbn; intros H; [lia|].
  assert (1 <= w) by (apply (H (x, w)); auto). specialize (IH ltac:(auto)). lia.
Qed.
Lemma wsum_bounds a l : (forall e, In e l -> 1 <= snd e) -> 0 <= wsum a l <= total l.
Proof. intros H. apply wsum_nonneg. intros e He. specialize (H e He). lia. Qed.

Definition cond (bpTrue : bool) (a : asg) (b : Z) (l : list wlit) : Prop :=
  (b <=? wsum a l) = bpTrue.

Record wf (r : rep) : Prop := {
  wf_pos : forall e, In e (r_lits r) -> 1 <= snd e;
  wf_sorted : sorted_desc (r_lits r);
  wf_reach : r_reach r = total (r_lits r) }.

Lemma forces_false top l a : extends a top -> forces top l = false -> holds a l = false.
Proof. unfold forces. intros H E. apply negb_false_iff in E. eapply extends_false; eauto. Qed.

Lemma all_hold_app a f g : all_hold a (f ++ g) <-> all_hold a f /\ all_hold a g.
Proof. unfold all_hold. setoid_rewrite in_app_iff. firstorder. Qed.
Lemma all_hold_1 a l : all_hold a [l] <-> holds a l = true.
Proof. unfold all_hold. cbn. split; [auto|]. intros H ? [<-|[]]. exact H. Qed.
Lemma all_hold_nil a : all_hold a []. Proof. intros l []. Qed.

(** Result of the backward propagation loop. *)
Definition bp_ok (top : pasg) (bpTrue : bool) (lits : list wlit) (bound reach : Z) (f : list lit) (o : bp_out) : Prop :=
  match o with
  | BpFail => forall a, extends a top -> ~ cond bpTrue a bound lits
  | BpDone f' r' => exists g, f' = f ++ g /\
      (forall a, extends a top -> (cond bpTrue a bound lits <-> all_hold a g)) /\
      (if bpTrue then r_bound r' <= 0 /\ r_reach r' - r_bound r' = reach - bound /\
         (forall e, In e (r_lits r') -> 1 <= snd e) /\
         exists x w t, r_lits r' = (x, w) :: t /\ r_reach r' = total t /\ In x g /\ sorted_desc (r_lits r')
       else r_bound r' = bound /\ r_reach r' = 0 /\ r_lits r' = [])
  | BpMore f' r' => exists g, f' = f ++ g /\ wf r' /\ r_lits r' <> [] /\
      (forall a, extends a top -> (cond bpTrue a bound lits <-> all_hold a g /\ cond bpTrue a (r_bound r') (r_lits r'))) /\
      (if bpTrue then 0 < r_bound r' /\ r_reach r' - r_bound r' = reach - bound else r_bound r' = bound)
  end.

Lemma bp_loop_spec top bpTrue B : forall lits bound reach f,
  (forall e, In e lits -> 1 <= snd e) -> sorted_desc lits -> reach = total lits -> 0 < bound -> lits <> [] ->
  bound <= reach \/ bpTrue = false ->
  B = (if bpTrue then reach - bound + 1 else bound) ->
  bp_ok top bpTrue lits bound reach f (bp_loop top bpTrue B lits bound reach f).
Proof.
  induction lits as [|[x w] t IH]; intros bound reach f Hp Hs Hr Hb Hne Hge HB; [congruence|].
  cbn [bp_loop].
  assert (Hw : 1 <= w) by (apply (Hp (x, w)); cbn; auto).
  assert (Hpt : forall e, In e t -> 1 <= snd e) by (intros; apply Hp; cbn; auto).
  assert (Ht0 : 0 <= total t) by now apply total_pos.
  cbn [total] in Hr. destruct Hs as [Hs1 Hs2].
  destruct (w >=? B) eqn:E.
  2: { cbn. exists []. rewrite app_nil_r. split; [reflexivity|]. split; [split; cbn; auto|]. split; [discriminate|].
       split; [|destruct bpTrue; [split; lia|reflexivity]].
       intros a Ha. split; [intros; split; [apply all_hold_nil|assumption]|tauto]. }
  destruct bpTrue.
  - (* all weights at least reach - bound + 1 must be true *)
    assert (Must : forall a, cond true a bound ((x, w) :: t) <-> holds a x = true /\ cond true a (bound - w) t).
    { intros a. unfold cond. cbn [wsum]. pose proof (wsum_bounds a t Hpt).
      destruct (holds a x); lia. }
    destruct (forces top x) eqn:F; cbn [negb].
    2: { cbn. intros a Ha C. apply Must in C as [C _]. rewrite (forces_false _ _ _ Ha F) in C. discriminate. }
    cbn [andb]. destruct (bound - w <=? 0) eqn:E2.
    + cbn. exists [x]. split; [reflexivity|]. split.
      * intros a Ha. rewrite Must, all_hold_1. unfold cond. pose proof (wsum_bounds a t Hpt). split; [tauto|]. intros ->. split; [reflexivity|lia].
      * split; [lia|]. split; [lia|]. split; [assumption|]. exists x, w, t. cbn. repeat split; auto. lia.
    + destruct t as [|e2 t2].
      * exfalso. cbn [total] in *. destruct Hge as [Hge|]; [|discriminate]. lia.
      * assert (Hge' : bound - w <= reach - w \/ true = false) by (destruct Hge; [lia|discriminate]).
        specialize (IH (bound - w) (reach - w) (f ++ [x]) Hpt Hs2 ltac:(lia) ltac:(lia) ltac:(discriminate) Hge' ltac:(lia)).
        destruct (bp_loop top true B (e2 :: t2) (bound - w) (reach - w) (f ++ [x])) as [|f' r'|f' r']; cbn in IH |- *.
        -- intros a Ha C. apply Must in C as [_ C]. exact (IH a Ha C).
        -- destruct IH as (g & -> & Sem & R). exists (x :: g). split; [now rewrite <- app_assoc|]. split.
           ++ intros a Ha. rewrite Must, (Sem a Ha). change (x :: g) with ([x] ++ g). rewrite all_hold_app, all_hold_1. tauto.
           ++ destruct R as (R1 & R2 & R3 & x' & w' & t' & R4 & R5 & R6 & R7). repeat split; auto; try lia.
              exists x', w', t'. repeat split; auto. cbn; auto.
        -- destruct IH as (g & -> & W & N & Sem & R1 & R2). exists (x :: g). split; [now rewrite <- app_assoc|].
           split; [assumption|]. split; [assumption|]. split; [|lia].
           intros a Ha. rewrite Must, (Sem a Ha). change (x :: g) with ([x] ++ g). rewrite all_hold_app, all_hold_1. tauto.
  - assert (Must : forall a, cond false a bound ((x, w) :: t) <-> holds a (neg x) = true /\ cond false a bound t).
    { intros a. unfold cond. rewrite holds_neg. cbn [wsum]. pose proof (wsum_bounds a t Hpt).
      destruct (holds a x); cbn; lia. }
    destruct (forces top (neg x)) eqn:F; cbn [negb].
    2: { cbn. intros a Ha C. apply Must in C as [C _]. rewrite (forces_false _ _ _ Ha F) in C. discriminate. }
    cbn [andb]. destruct t as [|e2 t2].
    + cbn. exists [neg x]. split; [reflexivity|]. split.
      * intros a Ha. rewrite Must, all_hold_1. unfold cond. cbn. split; [tauto|]. intros ->. split; [reflexivity|lia].
      * cbn [total] in Hr. repeat split; lia.
    + specialize (IH bound (reach - w) (f ++ [neg x]) Hpt Hs2 ltac:(lia) Hb ltac:(discriminate) ltac:(auto) ltac:(lia)).
      destruct (bp_loop top false B (e2 :: t2) bound (reach - w) (f ++ [neg x])) as [|f' r'|f' r']; cbn in IH |- *.
      * intros a Ha C. apply Must in C as [_ C]. exact (IH a Ha C).
      * destruct IH as (g & -> & Sem & R). exists (neg x :: g). split; [now rewrite <- app_assoc|]. split; [|assumption].
        intros a Ha. rewrite Must, (Sem a Ha). change (neg x :: g) with ([neg x] ++ g). rewrite all_hold_app, all_hold_1. tauto.
      * destruct IH as (g & -> & W & N & Sem & R). exists (neg x :: g). split; [now rewrite <- app_assoc|].
        split; [assumption|]. split; [assumption|]. split; [|assumption].
        intros a Ha. rewrite Must, (Sem a Ha). change (neg x :: g) with ([neg x] ++ g). rewrite all_hold_app, all_hold_1. tauto.
Qed.

Lemma sorted_last l x w : sorted_desc ((x, w) :: l) -> w = last_weight ((x, w) :: l) ->
  forall e, In e ((x, w) :: l) -> snd e = w.
Proof.
  unfold last_weight. revert x w. induction l as [|[y v] t IH]; intros x w Hs Hl e He.
  - destruct He as [<-|[]]. reflexivity.
  - destruct Hs as [H1 H2].
    assert (El : w = snd (last ((y, v) :: t) (0%nat, false, 0))) by exact Hl.
    assert (v <= w) by (apply (H1 (y, v)); cbn; auto).
    assert (L : In (last ((y, v) :: t) (0%nat, false, 0)) ((y, v) :: t)).
    { clear. generalize (y, v) as e0. induction t as [|e1 t IH]; intros e0; [now left|]. right. apply IH. }
    assert (w <= v).
    { rewrite El. destruct L as [<-|L]; [cbn; lia|]. destruct H2 as [H2 _]. auto. }
    assert (w = v) by lia. subst v.
    destruct He as [<-|He]; [reflexivity|]. now apply (IH y w).
Qed.

Lemma renorm_spec r r' : wf r -> renorm r = Ok r' -> wf r' /\
  (forall a b, cond b a (r_bound r') (r_lits r') <-> cond b a (r_bound r) (r_lits r)) /\
  (0 < r_bound r -> 0 < r_bound r') /\ (r_bound r <= r_reach r -> r_bound r' <= r_reach r').
Proof.
  intros Wf H. unfold renorm in H. destruct (r_lits r) as [|[x w] t] eqn:L in H.
  { injection H as <-. split; [assumption|]. tauto. }
  match type of H with (if ?b then _ else _) = _ => destruct b eqn:C end.
  2: { injection H as <-. split; [assumption|]. tauto. }
  destruct Wf as [Wp Ws Wr].
  apply andb_true_iff in C as [C1 C2]. rewrite <- L in H, C2.
  apply bind_ok in H as (b & Eb & H). apply bind_ok in H as (re & Er & H). injection H as <-. cbn [r_lits r_bound r_reach].
  assert (Hc : forall e, In e (r_lits r) -> snd e = w).
  { rewrite L in *. apply sorted_last; [exact Ws|apply Z.eqb_eq; exact C2]. }
  set (l := r_lits r) in *. change (map (fun e : wlit => (fst e, 1)) l) with (unit_weights l).
  assert (Hu : forall e, In e (unit_weights l) -> snd e = 1).
  { intros e He. apply in_map_iff in He as (e' & <- & _). reflexivity. }
  assert (Hu1 : forall e, In e (unit_weights l) -> 1 <= snd e) by (intros e He; rewrite (Hu e He); lia).
  assert (Hre : re = total (unit_weights l)).
  { rewrite Wr, (total_const w l Hc) in Er. apply ceil_div_exact in Er; [assumption|lia|]. rewrite total_unit. lia. }
  split; [split; cbn [r_lits r_bound r_reach]; auto; now apply sorted_const with 1|].
  assert (K : forall n, 0 <= n -> (b <=? n) = (r_bound r <=? w * n)) by (apply ceil_div_spec; [lia|exact Eb]).
  split; [|split].
  - intros a bb. unfold cond. rewrite K by (apply wsum_bounds; exact Hu1). rewrite (wsum_const a w l Hc). reflexivity.
  - intros Hb. specialize (K 0 ltac:(lia)). lia.
  - intros Hb. specialize (K re). rewrite Hre in K |- *. rewrite total_unit in *.
    specialize (K ltac:(lia)). rewrite Wr, (total_const w l Hc), total_unit in Hb. lia.
Qed.

Lemma rep_propagate_spec top W r p : wf r -> rep_propagate top W r = Ok p ->
  match p with
  | None => forall a, extends a top -> holds a W <> (r_bound r <=? wsum a (r_lits r))
  | Some (f, r') =>
     (forall a, extends a top -> (holds a W = (r_bound r <=? wsum a (r_lits r)) <->
        all_hold a f /\ (holds a W = (r_bound r' <=? wsum a (r_lits r'))))) /\
     (wf r' \/ (r_bound r' <= 0 /\ exists x w t, r_lits r' = (x, w) :: t /\ 0 <= r_reach r' /\
                 r_reach r' = total t /\ (forall e, In e (r_lits r') -> 1 <= snd e) /\ In x f /\ isTrue top W = true) \/
        (0 < r_bound r' /\ r_reach r' = 0)) /\
     (r_sat r' = true -> forall a, extends a top -> all_hold a f -> holds a W = true /\ (r_bound r' <=? wsum a (r_lits r')) = true) /\
     (r_unsat r' = true -> forall a, extends a top -> all_hold a f -> (holds a W = (r_bound r <=? wsum a (r_lits r))))
  end.
Proof.
  intros Wf H. pose proof Wf as [Wp Ws Wr]. unfold rep_propagate in H.
  destruct (r_sat r) eqn:Es.
  { injection H as <-. unfold r_sat in Es. destruct (forces top W) eqn:F.
    - split; [|split; [|split]].
      + intros a Ha. rewrite all_hold_1. pose proof (wsum_bounds a _ Wp). destruct (holds a W); lia.
      + left. exact Wf.
      + intros _ a Ha Hf. apply all_hold_1 in Hf. split; [assumption|]. pose proof (wsum_bounds a _ Wp). lia.
      + intros Hu a Ha Hf. apply all_hold_1 in Hf. unfold r_unsat in Hu. pose proof (wsum_bounds a _ Wp). rewrite Hf. lia.
    - intros a Ha. rewrite (forces_false _ _ _ Ha F). pose proof (wsum_bounds a _ Wp). lia. }
  destruct (r_unsat r) eqn:Eu.
  { injection H as <-. unfold r_unsat in Eu. destruct (forces top (neg W)) eqn:F.
    - split; [|split; [|split]].
      + intros a Ha. rewrite all_hold_1, holds_neg. pose proof (wsum_bounds a _ Wp). destruct (holds a W); cbn; lia.
      + left. exact Wf.
      + congruence.
      + intros _ a Ha Hf. apply all_hold_1 in Hf. rewrite holds_neg in Hf. pose proof (wsum_bounds a _ Wp). destruct (holds a W); cbn in *; [discriminate|lia].
    - intros a Ha. pose proof (forces_false _ _ _ Ha F) as Hn. rewrite holds_neg in Hn. pose proof (wsum_bounds a _ Wp). destruct (holds a W); cbn in *; lia. }
  destruct (isFree top (fst W)) eqn:Ef.
  { injection H as <-. split; [|split; [|split]].
    - intros a Ha. split; [intros; split; [apply all_hold_nil|assumption]|tauto].
    - left; exact Wf.
    - congruence.
    - congruence. }
  unfold r_sat, r_unsat in Es, Eu.
  assert (Hne : r_lits r <> []) by (intros E; rewrite E in *; cbn in *; lia).
  set (bp := isTrue top W) in *.
  assert (HW : forall a, extends a top -> holds a W = bp).
  { intros a Ha. unfold bp. destruct (isTrue top W) eqn:T; [eapply extends_true; eauto|].
    unfold isFree in Ef. destruct (top (fst W)) as [v|] eqn:E; [|discriminate].
    unfold isTrue, pval in T. rewrite E in T. cbn in T. unfold holds. rewrite (Ha _ _ E).
    destruct (xorb v (snd W)); congruence. }
  pose proof (bp_loop_spec top bp (if bp then r_reach r - r_bound r + 1 else r_bound r) (r_lits r) (r_bound r) (r_reach r) []
     Wp Ws Wr ltac:(lia) Hne ltac:(lia) eq_refl) as S.
  destruct (bp_loop top bp (if bp then r_reach r - r_bound r + 1 else r_bound r) (r_lits r) (r_bound r) (r_reach r) []) as [|f r'|f r'];
    cbn [bp_ok app] in S.
  - injection H as <-. intros a Ha E. rewrite (HW a Ha) in E. apply (S a Ha). unfold cond. congruence.
  - injection H as <-. destruct S as (g & -> & Sem & R).
    destruct bp eqn:Eb.
    + destruct R as (R1 & R2 & R3 & x & w & t & R4 & R5 & R6 & R7).
      assert (Ht : 0 <= total t) by (apply total_pos; intros; apply R3; rewrite R4; cbn; auto).
      split; [|split; [|split]].
      * intros a Ha. rewrite (HW a Ha). pose proof (wsum_bounds a _ R3). specialize (Sem a Ha). unfold cond in Sem. 
        split; [intros E; split; [now apply Sem|lia]|]. intros [Hg _]. symmetry. now apply Sem.
      * right. left. split; [assumption|]. exists x, w, t. repeat split; auto. lia.
      * intros _ a Ha Hg. split; [now apply HW|]. pose proof (wsum_bounds a _ R3). lia.
      * intros Hu a Ha Hg. unfold r_unsat in Hu. lia.
    + destruct R as (R1 & R2 & R3). split; [|split; [|split]].
      * intros a Ha. rewrite (HW a Ha). specialize (Sem a Ha). unfold cond in Sem. 
        rewrite R3. cbn [wsum]. rewrite <- Sem. split; [intros E; split; [auto|lia]|]. intros [E _]. auto.
      * right. right. split; lia.
      * intros Hs. unfold r_sat in Hs. lia.
      * intros _ a Ha Hg. rewrite (HW a Ha). symmetry. now apply Sem.
  - apply bind_ok in H as (r'' & Er & H). injection H as <-. destruct S as (g & -> & W' & N & Sem & R).
    destruct (renorm_spec _ _ W' Er) as (W'' & C & P1 & P2).
    split; [|split; [|split]].
    + intros a Ha. rewrite (HW a Ha). specialize (Sem a Ha). rewrite <- (C a bp) in Sem. unfold cond in Sem.
      split; [intros E|intros [E1 E2]].
      * symmetry in E. apply Sem in E as [E1 E2]. auto.
      * symmetry. apply Sem. auto.
    + left. exact W''.
    + intros Hs. unfold r_sat in Hs. destruct bp; [destruct R|]; lia.
    + intros Hu a Ha Hg. rewrite (HW a Ha). unfold r_unsat in Hu. destruct bp.
      * destruct R. lia.
      * symmetry. apply (Sem a Ha). split; [assumption|]. apply C. unfold cond.
        destruct W'' as [Wp2 Ws2 Wr2]. pose proof (wsum_bounds a _ Wp2). lia.
Qed.

(** The two clausal encodings say [c0 <-> all xorl x disj]. *)
Lemma sat_cnf_app a c1 c2 : sat_cnf a (c1 ++ c2) = sat_cnf a c1 && sat_cnf a c2.
Proof. unfold sat_cnf. now rewrite forallb_app. Qed.
Lemma lit_eqb_eq a b : lit_eqb a b = true <-> a = b.
Proof.
  unfold lit_eqb. rewrite andb_true_iff, Nat.eqb_eq. destruct a, b; cbn. rewrite eqb_true_iff.
  split; [intros [-> ->]|intros [= -> ->]]; auto.
Qed.
Lemma small_clauses_spec a W d l :
  sat_cnf a (small_clauses W d l) = true <->
  holds a (xorl W d) = forallb (fun e : wlit => holds a (xorl (fst e) d)) l.
Proof.
  unfold small_clauses. set (c0 := xorl W d). rewrite sat_cnf_app, andb_true_iff.
  set (P := map (fun e : wlit => small_lit c0 d (fst e)) l).
  assert (A : sat_cnf a (flat_map (fun p => fst (fst p)) P) = true <->
              (holds a c0 = true -> forallb (fun e : wlit => holds a (xorl (fst e) d)) l = true)).
  { unfold P. induction l as [|[x w] t IH]; [cbn; tauto|]. cbn [map flat_map forallb fst].
    rewrite sat_cnf_app, !andb_true_iff. cbn [map flat_map] in IH. rewrite IH. 
    enough (sat_cnf a (fst (fst (small_lit c0 d x))) = true <-> (holds a c0 = true -> holds a (xorl x d) = true)) by tauto.
    unfold small_lit. destruct (lit_eqb (neg c0) (neg (xorl x d))) eqn:E; cbn.
    - apply lit_eqb_eq in E. apply (f_equal (holds a)) in E. rewrite !holds_neg in E.
      destruct (holds a c0), (holds a (xorl x d)); cbn in *; try discriminate; tauto.
    - rewrite holds_neg. destruct (holds a c0), (holds a (xorl x d)); cbn; intuition congruence. }
  assert (B : (sat_cnf a (if existsb (fun p => snd p) P then [] else [c0 :: flat_map (fun p => snd (fst p)) P]) = true /\
               sat_cnf a (flat_map (fun p => fst (fst p)) P) = true) <->
              (holds a c0 = forallb (fun e : wlit => holds a (xorl (fst e) d)) l)).
  { rewrite A. clear A.
    assert (X : existsb (fun p => snd p) P = true -> exists e, In e l /\ xorl (fst e) d = c0).
    { intros X. apply existsb_exists in X as (p & Hp & Hs). apply in_map_iff in Hp as (e & <- & He). exists e. split; [assumption|].
      unfold small_lit in Hs. destruct (lit_eqb (neg c0) (neg (xorl (fst e) d))) eqn:E; cbn in Hs; [|discriminate].
      apply lit_eqb_eq in E. now rewrite <- (neg_neg c0), E, neg_neg. }
    destruct (existsb (fun p => snd p) P) eqn:Ex.
    - destruct (X eq_refl) as (e & He & Ee). cbn.
      destruct (holds a c0) eqn:Hc; [intuition congruence|].
      assert (forallb (fun e : wlit => holds a (xorl (fst e) d)) l = false).
      { apply not_true_is_false. intros F. rewrite forallb_forall in F. specialize (F e He). cbn in F. congruence. }
      intuition congruence.
    - cbn. rewrite andb_true_r. destruct (holds a c0) eqn:Hc; cbn; [intuition congruence|].
      assert (Y : existsb (holds a) (flat_map (fun p => snd (fst p)) P) = negb (forallb (fun e : wlit => holds a (xorl (fst e) d)) l)).
      { assert (N : forall e, In e l -> snd (small_lit c0 d (fst e)) = false).
        { intros e He. apply not_true_is_false. intros T. rewrite <- not_true_iff_false in Ex. apply Ex.
          apply existsb_exists. exists (small_lit c0 d (fst e)). split; [|assumption].
          unfold P. apply in_map_iff. eauto. }
        unfold P. clear - Hc N. induction l as [|[x w] t IH]; [reflexivity|]. cbn [map flat_map forallb fst].
        rewrite existsb_app, IH by (intros; apply N; cbn; auto). specialize (N (x, w) (or_introl eq_refl)). cbn [fst] in N.
        unfold small_lit in N |- *. destruct (lit_eqb (neg c0) (neg (xorl x d))) eqn:E; cbn in N; [discriminate|]. cbn [negb].
        destruct (lit_eqb (neg c0) (xorl x d)) eqn:E2; cbn.
        - apply lit_eqb_eq in E2. apply (f_equal (holds a)) in E2. rewrite holds_neg, Hc in E2. rewrite <- E2. reflexivity.
        - rewrite holds_neg. destruct (holds a (xorl x d)); reflexivity. }
      rewrite Y. destruct (forallb _ l); cbn; intuition congruence. }
  rewrite <- B. tauto.
Qed.

Lemma disj_sum a l : (forall e, In e l -> 1 <= snd e) ->
  (1 <=? wsum a l) = negb (forallb (fun e : wlit => holds a (xorl (fst e) true)) l).
Proof.
  induction l as [|[x w] t IH]; intros H; [reflexivity|]. cbn [wsum forallb fst].
  assert (1 <= w) by (apply (H (x, w)); cbn; auto).
  specialize (IH ltac:(intros; apply H; cbn; auto)). pose proof (wsum_bounds a t ltac:(intros; apply H; cbn; auto)).
  rewrite holds_xorl. destruct (holds a x); cbn; [lia|]. etransitivity; [|exact IH]. reflexivity.
Qed.
Lemma conj_sum a l : (forall e, In e l -> 1 <= snd e) ->
  (total l <=? wsum a l) = forallb (fun e : wlit => holds a (xorl (fst e) false)) l.
Proof.
  induction l as [|[x w] t IH]; intros H; [reflexivity|]. cbn [wsum forallb fst total].
  assert (1 <= w) by (apply (H (x, w)); cbn; auto).
  specialize (IH ltac:(intros; apply H; cbn; auto)). pose proof (wsum_bounds a t ltac:(intros; apply H; cbn; auto)).
  rewrite holds_xorl. destruct (holds a x); cbn; [etransitivity; [|exact IH]; lia|lia].
Qed.

Lemma doCreate_spec top W r fl f r' c : wf r -> doCreate top W r fl = Ok (f, r', c) ->
  forall a, extends a top ->
    (holds a W = (r_bound r <=? wsum a (r_lits r)) <-> all_hold a f /\ den a c).
Proof.
  intros Wf H a Ha. unfold doCreate in H. apply bind_ok in H as (p & Ep & H).
  pose proof (rep_propagate_spec _ _ _ _ Wf Ep) as S. destruct p as [[f0 r0]|].
  2: { injection H as <- <- <-. cbn. specialize (S a Ha). tauto. }
  destruct S as (Sem & Shape & SatI & UnsatI). rewrite (Sem a Ha).
  match type of H with (if ?b then _ else _) = _ => destruct b eqn:E1 end.
  { injection H as <- <- <-. cbn. split; [tauto|]. intros [Hf _]. split; [assumption|].
    apply orb_true_iff in E1 as [E|E].
    - specialize (UnsatI E a Ha Hf). now apply (Sem a Ha) in UnsatI.
    - apply andb_true_iff in E as [E _]. destruct (SatI E a Ha Hf) as [-> ->]. reflexivity. }
  match type of H with (if ?b then _ else _) = _ => destruct b eqn:E2 end.
  2: { injection H as <- <- <-. cbn. tauto. }
  injection H as <- <- <-. cbn [den]. rewrite small_clauses_spec.
  apply orb_false_iff in E1 as [E1 _]. unfold r_unsat in E1. apply andb_true_iff in E2 as [E2 _].
  destruct Shape as [[Wp Ws Wr]|[(N & x & w & t & El & R0 & Rt & Wp & Ix & T)|[? ?]]]; [| |lia].
  - destruct (r_bound r0 =? 1) eqn:B1.
    + apply Z.eqb_eq in B1. rewrite B1, (disj_sum a _ Wp), holds_xorl.
      destruct (holds a W), (forallb _ (r_lits r0)); cbn; intuition congruence.
    + cbn in E2. apply Z.eqb_eq in E2. rewrite E2, Wr, (conj_sum a _ Wp), holds_xorl, xorb_false_r. tauto.
  - destruct (r_bound r0 =? 1) eqn:B1; [lia|]. cbn in E2. apply Z.eqb_eq in E2.
    destruct t as [|[y v] t].
    + rewrite El. cbn [forallb wsum fst snd]. rewrite !holds_xorl, !xorb_false_r, andb_true_r. split; [|intros [Hf _]].
      * intros [Hf E]. split; [assumption|]. rewrite (Hf x Ix). now apply extends_true with top.
      * split; [assumption|]. destruct (SatI ltac:(unfold r_sat; lia) a Ha Hf) as [-> S2].
        rewrite El in S2. cbn in S2. now rewrite S2.
    + exfalso. cbn in Rt. assert (1 <= v) by (apply (Wp (y, v)); rewrite El; cbn; auto).
      assert (0 <= total t) by (apply total_pos; intros; apply Wp; rewrite El; cbn; auto). lia.
Qed.

Lemma nf_wf top r : normal_form top r -> wf r.
Proof. intros []. split; auto. Qed.

Lemma wc_create_ge top W lits bound fl f cs : wc_create top W lits bound false fl = Ok (f, cs) ->
  forall a, extends a top ->
    (holds a W = (bound <=? wsum a lits) <-> all_hold a f /\ forall c, In c cs -> den a c).
Proof.
  unfold wc_create. intros H a Ha. cbn [bind] in H. apply bind_ok in H as (r & Er & H).
  destruct (create_rep_spec _ _ _ _ Er) as [N S]. apply bind_ok in H as ([[f1 r1] c1] & E1 & H). injection H as <- <-.
  rewrite <- (S a Ha). rewrite (doCreate_spec _ _ _ _ _ _ _ (nf_wf _ _ N) E1 a Ha).
  split; intros [H1 H2]; (split; [assumption|]).
  - intros c [<-|[]]. exact H2.
  - apply H2. now left.
Qed.

(** ** Equality: the case of a hard constraint with a literal of weight one *)
Definition unit_in (x : nat) (k : list wlit) : Prop := exists e, In e k /\ fst (fst e) = x /\ snd e = 1.

Lemma step1_other top s e s' v : step1 top s e = Ok s' -> inv1 top s -> fst (fst e) <> v ->
  (unit_in v (kept s) -> unit_in v (kept s')) /\ (~ In v (vars (kept s)) -> ~ In v (vars (kept s'))).
Proof.
  destruct e as [x0 w0]. cbn [fst]. unfold step1. intros H I Hv.
  destruct (negb (w0 =? 0) && isFree top (fst x0)) eqn:C.
  2: { destruct (isTrue top x0); [inv_do H|]; injection H as <-; cbn; auto. }
  inv_do H. destruct x as [[x w] b].
  assert (Pv : fst x <> v).
  { destruct (w0 <? 0); [|injection E as <- <- <-; assumption]. inv_do E.
    destruct ((bnd s <? 0) || (int_max - bnd s >=? x1)); [|discriminate]. inv_do E. injection E as <- <- <-. exact Hv. }
  clear E. destruct (negb (seenVar (seen s) (fst x))).
  { injection H as <-. cbn [kept]. split.
    - intros (e & He & Hr). exists e. split; [apply in_or_app; auto|assumption].
    - intros N. rewrite vars_app, in_app_iff. cbn. tauto. }
  assert (Q : forall y l wo r k', fst y = fst x -> kept s = l ++ (y, wo) :: r ->
     (k' = l ++ r \/ exists y' w', fst y' = fst x /\ k' = l ++ (y', w') :: r) ->
     (unit_in v (kept s) -> unit_in v k') /\ (~ In v (vars (kept s)) -> ~ In v (vars k'))).
  { intros y l wo r k' Ey -> Hk. split.
    - intros (e & He & E1 & E2). assert (In e (l ++ r)).
      { apply in_app_or in He as [He|[<-|He]]; [apply in_or_app; auto| |apply in_or_app; auto]. cbn in E1. congruence. }
      exists e. repeat split; auto. destruct Hk as [->|(y' & w' & _ & ->)]; [assumption|].
      apply in_app_or in H0. apply in_or_app. cbn. tauto.
    - intros N N2. apply N. rewrite vars_app, in_app_iff. cbn.
      destruct Hk as [->|(y' & w' & Ey' & ->)]; rewrite vars_app, in_app_iff in N2; cbn in N2; intuition congruence. }
  destruct (negb (seenLit (seen s) (neg x))).
  - destruct (split_at x (kept s)) as [[[l [m wo]] r]|] eqn:Es; [|discriminate].
    apply split_at_spec in Es as [Ek Em]. cbn in Em. subst m. inv_do H. injection H as <-. cbn [kept].
    apply (Q x l wo r); auto. right. eauto.
  - destruct (split_at (neg x) (kept s)) as [[[l [m wo]] r]|] eqn:Es; [|discriminate].
    apply split_at_spec in Es as [Ek Em]. cbn in Em. subst m. inv_do H.
    destruct (x2 <? 0); [inv_do H; injection H as <-; cbn [kept]; apply (Q (neg x) l wo r); auto; right; exists x; eauto|].
    destruct (x2 =? 0); injection H as <-; cbn [kept]; apply (Q (neg x) l wo r); auto; right; exists (neg x); eauto.
Qed.

Lemma step1_unit top s x w s' : step1 top s (x, w) = Ok s' -> inv1 top s -> ~ In (fst x) (vars (kept s)) ->
  Z.abs w = 1 -> top (fst x) = None -> unit_in (fst x) (kept s').
Proof.
  unfold step1. intros H I N Hw Ht.
  assert (C : negb (w =? 0) && isFree top (fst x) = true).
  { unfold isFree. rewrite Ht. destruct (w =? 0) eqn:E; [lia|reflexivity]. }
  rewrite C in H. inv_do H. destruct x0 as [[y u] b].
  assert (P : fst y = fst x /\ u = 1).
  { destruct (w <? 0) eqn:S; [|injection E as <- <- <-; split; [reflexivity|lia]]. inv_do E.
    apply i32_ok in E0 as [-> _].
    destruct ((bnd s <? 0) || (int_max - bnd s >=? - w)); [|discriminate]. inv_do E. injection E as <- <- <-. split; [reflexivity|lia]. }
  destruct P as [Py ->].
  assert (SV : seenVar (seen s) (fst y) = false).
  { apply not_true_is_false. intros T. apply seenVar_In in T as (z & Hz & Ez). apply N. apply vars_In. exists z. split; [|congruence].
    now apply (i_seen _ _ I). }
  rewrite SV in H. cbn [negb] in H. injection H as <-. cbn [kept]. exists (y, 1). rewrite in_app_iff. cbn. auto.
Qed.

Lemma run1_other top v : forall lits s s', run1 top s lits = Ok s' -> inv1 top s ->
  (forall e, In e lits -> fst (fst e) <> v) ->
  (unit_in v (kept s) -> unit_in v (kept s')) /\ (~ In v (vars (kept s)) -> ~ In v (vars (kept s'))).
Proof.
  induction lits as [|e t IH]; cbn; intros s s' H I Hv; [injection H as <-; auto|].
  inv_do H. destruct (step1_spec _ _ _ _ E I) as [I1 _].
  destruct (step1_other _ _ _ _ v E I ltac:(auto)). destruct (IH _ _ H I1 ltac:(auto)). auto.
Qed.
Lemma run1_app top : forall l1 l2 s, run1 top s (l1 ++ l2) = bind (run1 top s l1) (fun s' => run1 top s' l2).
Proof. induction l1 as [|e t IH]; cbn; intros; [reflexivity|]. destruct (step1 top s e); cbn; auto. Qed.

Lemma run1_unit top lits b s : run1 top (St1 [] [] b) lits = Ok s -> lone_unit top lits -> exists v, unit_in v (kept s).
Proof.
  intros H (l1 & x & w & l2 & -> & Hw & Ht & Hv). exists (fst x). rewrite run1_app in H.
  apply bind_ok in H as (s1 & E1 & H). cbn [run1] in H. apply bind_ok in H as (s2 & E2 & H).
  destruct (run1_spec _ _ _ _ E1 (inv1_init _ _)) as [I1 _]. destruct (step1_spec _ _ _ _ E2 I1) as [I2 _].
  destruct (run1_other _ (fst x) _ _ _ E1 (inv1_init _ _)) as [_ N]; [intros; apply Hv, in_or_app; auto|].
  destruct (run1_other _ (fst x) _ _ _ H I2) as [U _]; [intros; apply Hv, in_or_app; auto|].
  apply U. eapply step1_unit; eauto.
Qed.

(** With such a literal the bound is never divided: the representation also
    decides the next lower threshold. *)
Lemma create_rep_unit top lits bound r : create_rep top lits bound = Ok r -> lone_unit top lits ->
  (exists v, unit_in v (r_lits r)) /\
  forall a, extends a top -> (r_bound r - 1 <=? wsum a (r_lits r)) = (bound - 1 <=? wsum a lits).
Proof.
  unfold create_rep. intros H U. apply bind_ok in H as (s & E & H).
  destruct (run1_spec _ _ _ _ E (inv1_init _ _)) as [[Ip If In_ Is] Sem]. cbn [kept bnd wsum] in Sem.
  destruct (run1_unit _ _ _ _ E U) as (v & e & He & Ev & E1).
  set (B := Z.max (bnd s) 1) in *.
  apply bind_ok in H as ([ls m] & E2 & H).
  destruct (run2_spec B ltac:(lia) _ _ _ _ E2 Ip ltac:(cbn; lia)) as (L & S & Rg & _ & Mx & Mx' & Mn').
  cbn [sumW maxW minW] in *.
  assert (Sem2 : forall a, extends a top -> (bnd s - 1 <=? wsum a ls) = (bound - 1 <=? wsum a lits)).
  { intros a Ha. rewrite L, wsum_clamp by (auto; lia). specialize (Sem a Ha). lia. }
  assert (Hu : In (fst e, 1) ls).
  { rewrite L. apply in_map_iff. exists e. split; [|assumption]. unfold clamp. f_equal. lia. }
  assert (Hm : maxW m = minW m -> minW m = 1) by (specialize (Rg _ Hu); cbn in Rg; lia).
  destruct (maxW m =? minW m) eqn:M; cbn [negb] in H.
  - destruct (minW m =? 1) eqn:M1; [|lia]. cbn [negb] in H. injection H as <-. cbn [r_lits r_bound].
    split; [|assumption]. exists v, (fst e, 1). cbn. auto.
  - injection H as <-. cbn [r_lits r_bound]. pose proof (sort_perm ls) as P. split.
    + exists v, (fst e, 1). split; [|cbn; auto]. now apply (Permutation_in _ P).
    + intros a Ha. rewrite <- (wsum_perm a _ _ P). auto.
Qed.

Lemma bp_loop_false top B : forall lits bound reach f,
  match bp_loop top false B lits bound reach f with
  | BpFail => True
  | BpDone f' r' => exists g, f' = f ++ g /\ r_bound r' = bound /\ r_lits r' = [] /\
      forall a, all_hold a g -> wsum a lits = 0
  | BpMore f' r' => exists g p, f' = f ++ g /\ r_bound r' = bound /\ lits = p ++ r_lits r' /\
      (forall e, In e p -> B <= snd e) /\ (exists e, In e (r_lits r') /\ snd e < B) /\
      forall a, all_hold a g -> wsum a (r_lits r') = wsum a lits
  end.
Proof.
  induction lits as [|[x w] t IH]; intros bound reach f; cbn [bp_loop].
  { exists []. rewrite app_nil_r. cbn. auto. }
  destruct (w >=? B) eqn:E.
  2: { exists [], []. rewrite app_nil_r. cbn. repeat split; auto; [intros ? []|]. exists (x, w). cbn. split; [auto|lia]. }
  destruct (negb (forces top (neg x))); [exact I|]. cbn [andb]. destruct t as [|e2 t2].
  { exists [neg x]. cbn. repeat split; auto. intros a Hg. apply all_hold_1 in Hg. rewrite holds_neg in Hg. destruct (holds a x); cbn in *; [discriminate|lia]. }
  specialize (IH bound (reach - w) (f ++ [neg x])).
  destruct (bp_loop top false B (e2 :: t2) bound (reach - w) (f ++ [neg x])) as [|f' r'|f' r']; [exact I| |].
  - destruct IH as (g & -> & E1 & E2 & S). exists (neg x :: g). rewrite <- app_assoc. repeat split; auto.
    intros a Hg. change (neg x :: g) with ([neg x] ++ g) in Hg. apply all_hold_app in Hg as [H1 H2]. apply all_hold_1 in H1. rewrite holds_neg in H1.
    specialize (S a H2). change (wsum a ((x, w) :: e2 :: t2)) with ((if holds a x then w else 0) + wsum a (e2 :: t2)).
    destruct (holds a x); cbn in H1; [discriminate|lia].
  - destruct IH as (g & p & -> & E1 & E2 & S1 & S2 & S). exists (neg x :: g), ((x, w) :: p). rewrite <- app_assoc. repeat split; auto.
    + rewrite E2. reflexivity.
    + intros e [<-|He]; [cbn; lia|auto].
    + intros a Hg. change (neg x :: g) with ([neg x] ++ g) in Hg. apply all_hold_app in Hg as [H1 H2]. apply all_hold_1 in H1. rewrite holds_neg in H1.
      specialize (S a H2). change (wsum a ((x, w) :: e2 :: t2)) with ((if holds a x then w else 0) + wsum a (e2 :: t2)).
      destruct (holds a x); cbn in H1; [discriminate|lia].
Qed.

Lemma sorted_min l : sorted_desc l -> (exists v, unit_in v l) -> (forall e, In e l -> 1 <= snd e) -> last_weight l = 1.
Proof.
  intros Hs (v & e & He & _ & E1) Hp. unfold last_weight.
  assert (forall d, l <> [] -> In (last l d) l /\ forall e, In e l -> snd (last l d) <= snd e).
  { clear - Hs. intros d. induction l as [|[x w] t IH]; [congruence|]. intros _. destruct Hs as [H1 H2].
    destruct t as [|e2 t].
    - cbn. split; auto. intros e [<-|[]]. cbn. lia.
    - change (last ((x, w) :: e2 :: t) d) with (last (e2 :: t) d). destruct (IH H2 ltac:(discriminate)) as [I1 I2].
      split; [now right|]. intros e [<-|He]; [cbn [snd]; now apply H1|auto]. }
  destruct (H (0%nat, false, 0)) as [I1 I2]; [intros ->; destruct He|].
  specialize (I2 e He). specialize (Hp _ I1). lia.
Qed.

Lemma sorted_app_r l p : sorted_desc (p ++ l) -> sorted_desc l.
Proof. induction p as [|[x w] t IH]; cbn; [auto|]. intros [_ H]. auto. Qed.

Lemma redo_spec b : forall l re, sorted_desc l ->
  redo b l re = (map (clamp b) l, re - total l + total (map (clamp b) l)).
Proof.
  induction l as [|[x w] t IH]; intros re Hs; [cbn; f_equal; lia|]. cbn [redo]. destruct Hs as [H1 H2].
  change (map (clamp b) ((x, w) :: t)) with ((x, Z.min w b) :: map (clamp b) t). cbn [total].
  destruct (w >? b) eqn:E.
  - rewrite (IH _ H2). rewrite Z.min_r by lia. f_equal. lia.
  - rewrite Z.min_l by lia.
    assert (M : map (clamp b) t = t).
    { rewrite <- (map_id t) at 2. apply map_ext_in. intros [y v] He. specialize (H1 _ He). cbn in *. unfold clamp. cbn. f_equal. lia. }
    rewrite M. f_equal. lia.
Qed.
Lemma sorted_clamp b l : sorted_desc l -> sorted_desc (map (clamp b) l).
Proof.
  induction l as [|[x w] t IH]; cbn; [auto|]. intros [H1 H2]. split; [|auto].
  intros e He. apply in_map_iff in He as (e' & <- & He'). specialize (H1 e' He'). cbn. lia.
Qed.
Lemma extends_force a f : forall top, extends a top -> all_hold a f -> extends a (force_all top f).
Proof.
  unfold force_all. induction f as [|l t IH]; intros top Ha Hf; cbn; [assumption|].
  apply IH; [|intros x Hx; apply Hf; now right].
  intros v b. unfold force1. destruct (Nat.eqb v (fst l)) eqn:E; [|apply Ha].
  destruct (top v) eqn:T; [intros [= <-]; now apply Ha|]. intros [= <-].
  apply Nat.eqb_eq in E. subst v. specialize (Hf l (or_introl eq_refl)). unfold holds in Hf.
  destruct (a (fst l)), (snd l); cbn in *; congruence.
Qed.

Lemma rep_propagate_false top W r f r' : wf r -> (exists v, unit_in v (r_lits r)) -> isFalse top W = true ->
  rep_propagate top W r = Ok (Some (f, r')) ->
  r_bound r' = r_bound r /\ sorted_desc (r_lits r') /\ (r_lits r' <> [] -> 1 < r_bound r) /\ 1 <= r_bound r /\
  (forall e, In e (r_lits r') -> 1 <= snd e) /\ r_reach r' = total (r_lits r') /\
  forall a, extends a top -> all_hold a f -> wsum a (r_lits r') = wsum a (r_lits r).
Proof.
  intros Wf U HF H. pose proof Wf as [Wp Ws Wr]. unfold rep_propagate in H.
  destruct (r_sat r) eqn:Es.
  { unfold forces in H. rewrite HF in H. cbn in H. discriminate. }
  unfold r_sat in Es.
  assert (T1 : 1 <= total (r_lits r)).
  { destruct U as (v & e & He & _ & E1). clear - He E1 Wp. induction (r_lits r) as [|[x w] t IH]; [destruct He|].
    assert (0 <= total t) by (apply total_pos; intros; apply Wp; now right).
    assert (1 <= w) by (apply (Wp (x, w)); now left). cbn. lia. }
  destruct (r_unsat r) eqn:Eu.
  { destruct (forces top (neg W)); [|discriminate]. injection H as <- <-. unfold r_unsat in Eu.
    repeat split; auto; lia. }
  assert (isFree top (fst W) = false /\ isTrue top W = false) as [HFr HT].
  { unfold isFree, isFalse, isTrue, pval in *. destruct (top (fst W)) as [b|]; [|discriminate]. cbn in *.
    split; [reflexivity|]. destruct (xorb b (snd W)); congruence. }
  rewrite HFr, HT in H.
  pose proof (bp_loop_false top (r_bound r) (r_lits r) (r_bound r) (r_reach r) []) as L.
  assert (Hne : r_lits r <> []) by (intros E; rewrite E in T1; cbn in T1; lia).
  pose proof (bp_loop_spec top false (r_bound r) (r_lits r) (r_bound r) (r_reach r) [] Wp Ws Wr ltac:(lia) Hne ltac:(auto) eq_refl) as S.
  destruct (bp_loop top false (r_bound r) (r_lits r) (r_bound r) (r_reach r) []) as [|f0 r0|f0 r0]; [discriminate| |].
  - injection H as <- <-. destruct L as (g & -> & E1 & E2 & L). destruct S as (g' & Eg & _ & E3 & E4 & E5).
    rewrite E2. split; [assumption|]. split; [exact I|]. split; [congruence|]. split; [lia|]. split; [intros ? []|]. split; [assumption|].
    intros a _ Hg. cbn. symmetry. now apply L.
  - apply bind_ok in H as (r2 & Er & H). injection H as <- <-. destruct L as (g & p & -> & E1 & E2 & L1 & L2 & L).
    destruct S as (g' & Eg & W0 & N & _ & E3). destruct W0 as [Wp0 Ws0 Wr0].
    assert (B1 : 1 < r_bound r).
    { destruct L2 as (e & He & Hlt). specialize (Wp0 e He). lia. }
    assert (U0 : exists v, unit_in v (r_lits r0)).
    { destruct U as (v & e & He & E4 & E5). exists v, e. split; [|auto]. rewrite E2 in He.
      apply in_app_or in He as [He|He]; [|assumption]. specialize (L1 _ He). lia. }
    assert (r2 = r0).
    { unfold renorm in Er. destruct (r_lits r0) as [|[x w] t] eqn:El in Er; [now injection Er|].
      match type of Er with (if ?b then _ else _) = _ => destruct b eqn:C end; [|now injection Er].
      apply andb_true_iff in C as [C1 C2]. rewrite <- El in C2. rewrite (sorted_min _ Ws0 U0 Wp0) in C2. lia. }
    subst r2. repeat split; auto; try lia. 
Qed.

Lemma wc_create_eq top W lits bound fl f cs :
  wc_create top W lits bound true fl = Ok (f, cs) -> isTrue top W = true -> lone_unit top lits ->
  forall a, extends a top ->
    (wsum a lits = bound <-> all_hold a f /\ forall c, In c cs -> den a c).
Proof.
  unfold wc_create. intros H HT U a Ha. apply bind_ok in H as (b & Eb & H). apply i32_ok in Eb as [-> _].
  apply bind_ok in H as (r & Er & H).
  destruct (create_rep_spec _ _ _ _ Er) as [N S]. destruct (create_rep_unit _ _ _ _ Er U) as [U1 S1].
  pose proof (nf_wf _ _ N) as Wf.
  apply bind_ok in H as ([[f1 r1] c1] & E1 & H).
  pose proof (doCreate_spec _ _ _ _ _ _ _ Wf E1 a Ha) as D1.
  assert (HF : isFalse top (neg W) = true).
  { unfold isFalse, isTrue, pval, neg in *. cbn. destruct (top (fst W)) as [v|]; [|discriminate]. cbn in *.
    destruct v, (snd W); cbn in *; congruence. }
  assert (HW : holds a W = true) by (eapply extends_true; eauto).
  rewrite holds_neg, HW, (S a Ha) in D1. cbn in D1.
  assert (Main : c1 <> CConflict -> forall b1 ls re f2 r2 c2,
     redo b1 (r_lits r1) (r_reach r1) = (ls, re) -> b1 = r_bound r1 - 1 ->
     doCreate (force_all top f1) W (Rep ls b1 re) fl = Ok (f2, r2, c2) ->
     (wsum a lits = bound <-> all_hold a (f1 ++ f2) /\ forall c, In c [c1; c2] -> den a c)).
  { intros Hc b1 ls re f2 r2 c2 Hre Eb1 E2.
    assert (P : rep_propagate top (neg W) r = Ok (Some (f1, r1))).
    { unfold doCreate in E1. apply bind_ok in E1 as ([[f0 r0]|] & Ep & E1); [|injection E1; congruence].
      rewrite Ep. destruct (r_unsat r0 || _); [injection E1 as <- <- _; reflexivity|].
      destruct ((_ || _) && _); injection E1 as <- <- _; reflexivity. }
    destruct (rep_propagate_false _ _ _ _ _ Wf U1 HF P) as (Q1 & Q2 & Q3 & Q4 & Q5 & Q6 & Q7).
    rewrite (redo_spec b1 _ _ Q2) in Hre. injection Hre as <- Ere.
    assert (W2 : wf (Rep (map (clamp b1) (r_lits r1)) b1 re)).
    { split; cbn [r_lits r_bound r_reach]; [|now apply sorted_clamp|lia].
      intros e He. apply in_map_iff in He as (e' & <- & He'). specialize (Q5 e' He').
      assert (1 < r_bound r) by (apply Q3; intros E; rewrite E in He'; destruct He'). cbn. lia. }
    assert (D2 : all_hold a f1 -> (bound <= wsum a lits <-> all_hold a f2 /\ den a c2)).
    { intros Hf. rewrite <- (doCreate_spec _ _ _ _ _ _ _ W2 E2 a (extends_force _ _ _ Ha Hf)). cbn [r_lits r_bound].
      rewrite HW. destruct (Z_le_dec 0 b1) as [Hb|Hb]; [|lia].
      rewrite wsum_clamp by (auto; lia). rewrite (Q7 a Ha Hf), Eb1, Q1, (S1 a Ha).
      replace (bound + 1 - 1) with bound by lia. split; intros; [symmetry|]; lia. }
    rewrite all_hold_app. split.
    - intros E. assert (F : all_hold a f1 /\ den a c1) by (apply D1; lia). destruct F as [F1 F2].
      destruct (proj1 (D2 F1)) as [F3 F4]; [lia|]. split; [auto|]. intros c [<-|[<-|[]]]; assumption.
    - intros [[F1 F2] F3]. assert (bound <= wsum a lits) by (apply D2; [assumption|]; split; [assumption|]; apply F3; cbn; auto).
      assert (false = (bound + 1 <=? wsum a lits)) by (apply D1; split; [assumption|]; apply F3; cbn; auto). lia. }
  destruct c1.
  - injection H as <- <-. cbn in D1. split; [|intros [_ Hd]; destruct (Hd _ (or_introl eq_refl))].
    intros E. exfalso. destruct D1 as [D1 _]. apply D1. lia.
  - apply bind_ok in H as (b1 & Eb & H). apply i32_ok in Eb as [-> _]. destruct (redo (r_bound r1 - 1) (r_lits r1) (r_reach r1)) as [ls re] eqn:R.
    apply bind_ok in H as ([[f2 r2] c2] & E2 & H). injection H as <- <-. apply (Main ltac:(discriminate) _ _ _ _ _ _ R eq_refl E2).
  - apply bind_ok in H as (b1 & Eb & H). apply i32_ok in Eb as [-> _]. destruct (redo (r_bound r1 - 1) (r_lits r1) (r_reach r1)) as [ls re] eqn:R.
    apply bind_ok in H as ([[f2 r2] c2] & E2 & H). injection H as <- <-. apply (Main ltac:(discriminate) _ _ _ _ _ _ R eq_refl E2).
  - apply bind_ok in H as (b1 & Eb & H). apply i32_ok in Eb as [-> _]. destruct (redo (r_bound r1 - 1) (r_lits r1) (r_reach r1)) as [ls re] eqn:R.
    apply bind_ok in H as ([[f2 r2] c2] & E2 & H). injection H as <- <-. apply (Main ltac:(discriminate) _ _ _ _ _ _ R eq_refl E2).
Qed.

(** ** The verdict of the representation *)
Lemma exists_assignment (top : pasg) (l : list wlit) (v : bool) :
  NoDup (map (fun e : wlit => fst (fst e)) l) -> (forall e, In e l -> top (fst (fst e)) = None) ->
  exists a, extends a top /\ forall e, In e l -> holds a (fst e) = v.
Proof.
  revert top. induction l as [|[x w] t IH]; intros top ND Hf.
  - exists (fun v => match top v with Some b => b | None => false end). split; [intros u b E; now rewrite E|intros ? []].
  - inversion_clear ND as [|? ? N1 N2].
    set (top' := fun u => if Nat.eqb u (fst x) then Some (xorb v (snd x)) else top u).
    destruct (IH top' N2) as (a & Ha & Hl).
    { intros e He. unfold top'. destruct (Nat.eqb (fst (fst e)) (fst x)) eqn:E.
      - exfalso. apply Nat.eqb_eq in E. apply N1. cbn [fst]. rewrite <- E. now apply (in_map (fun e : wlit => fst (fst e))).
      - apply Hf. now right. }
    exists a. split.
    + intros u b E. apply Ha. unfold top'. destruct (Nat.eqb u (fst x)) eqn:F; [|assumption].
      apply Nat.eqb_eq in F. subst u. pose proof (Hf (x, w) (or_introl eq_refl)) as Hx. cbn in Hx. congruence.
    + intros e [<-|He]; [|auto]. cbn [fst]. unfold holds. rewrite (Ha (fst x) (xorb v (snd x))).
      * destruct v, (snd x); reflexivity.
      * unfold top'. now rewrite Nat.eqb_refl.
Qed.
Lemma wsum_all a l : (forall e, In e l -> holds a (fst e) = true) -> wsum a l = total l.
Proof. induction l as [|[x w] t IH]; cbn; intros H; [reflexivity|]. rewrite IH by auto. pose proof (H (x, w) (or_introl eq_refl)) as Hx. cbn in Hx. now rewrite Hx. Qed.
Lemma wsum_none a l : (forall e, In e l -> holds a (fst e) = false) -> wsum a l = 0.
Proof. induction l as [|[x w] t IH]; cbn; intros H; [reflexivity|]. rewrite IH by auto. pose proof (H (x, w) (or_introl eq_refl)) as Hx. cbn in Hx. now rewrite Hx. Qed.

Lemma create_rep_verdict top lits bound r : create_rep top lits bound = Ok r ->
  (r_sat r = true <-> forall a, extends a top -> bound <= wsum a lits) /\
  (r_unsat r = true <-> forall a, extends a top -> wsum a lits < bound) /\
  (r_open r = true <-> (exists a, extends a top /\ bound <= wsum a lits) /\ (exists a, extends a top /\ wsum a lits < bound)).
Proof.
  intros H. destruct (create_rep_spec _ _ _ _ H) as [[N1 N2 N3 N4 N5 N6] S].
  destruct (exists_assignment top _ true N3 N2) as (at_ & T1 & T2).
  destruct (exists_assignment top _ false N3 N2) as (af & F1 & F2).
  pose proof (S _ T1) as ST. rewrite (wsum_all _ _ T2), <- N5 in ST.
  pose proof (S _ F1) as SF. rewrite (wsum_none _ _ F2) in SF.
  assert (Bd : forall a, 0 <= wsum a (r_lits r) <= r_reach r) by (intros a; rewrite N5; now apply wsum_bounds).
  unfold r_sat, r_unsat, r_open. split; [|split].
  - split.
    + intros E a Ha. specialize (S a Ha). specialize (Bd a). lia.
    + intros G. specialize (G af F1). lia.
  - split.
    + intros E a Ha. specialize (S a Ha). specialize (Bd a). lia.
    + intros G. specialize (G at_ T1). lia.
  - split.
    + intros E. split; [exists at_|exists af]; (split; [assumption|lia]).
    + intros [(a & A1 & A2) (b & B1 & B2)]. pose proof (S a A1). pose proof (S b B1). pose proof (Bd a). pose proof (Bd b). lia.
Qed.

(** ** Inputs whose weights are small enough never overflow *)
Lemma abs_total_nonneg l : 0 <= abs_total l.
Proof. induction l as [|[x w] t IH]; cbn; lia. Qed.
Lemma i32_in z : int_min <= z <= int_max -> i32 z = Ok z.
Proof. intros H. unfold i32. replace ((int_min <=? z) && (z <=? int_max)) with true by lia. reflexivity. Qed.

Lemma step1_total top s e : inv1 top s -> total (kept s) + Z.abs (snd e) <= int_max -> Z.abs (bnd s) + Z.abs (snd e) <= int_max ->
  exists s', step1 top s e = Ok s' /\ total (kept s') <= total (kept s) + Z.abs (snd e) /\ Z.abs (bnd s') <= Z.abs (bnd s) + Z.abs (snd e).
Proof.
  destruct e as [x0 w0]. cbn [snd]. intros I Ht Hb. unfold step1. assert (int_min = - int_max - 1) as Im by reflexivity.
  pose proof (total_pos _ (i_pos _ _ I)) as T0.
  destruct (negb (w0 =? 0) && isFree top (fst x0)) eqn:C.
  2: { destruct (isTrue top x0).
       - rewrite i32_in by lia. cbn [bind]. eexists. split; [reflexivity|]. cbn. lia.
       - eexists. split; [reflexivity|]. lia. }
  set (fl := if w0 <? 0 then _ else _).
  assert (P : exists x w b, fl = Ok (x, w, b) /\ w = Z.abs w0 /\ fst x = fst x0 /\ ((b = bnd s /\ x = x0) \/ (b = bnd s + w /\ x = neg x0))).
  { unfold fl. destruct (w0 <? 0) eqn:E.
    - rewrite i32_in by lia. cbn [bind]. replace ((bnd s <? 0) || (int_max - bnd s >=? - w0)) with true by lia.
      rewrite i32_in by lia. cbn [bind]. exists (neg x0), (-w0), (bnd s + - w0). repeat split; auto. lia.
    - exists x0, w0, (bnd s). repeat split; auto. lia. }
  destruct P as (x & w & b & -> & Ew & Ev & Eb). cbn [bind].
  assert (Bb : Z.abs b <= Z.abs (bnd s) + Z.abs w0) by lia.
  destruct (seenVar (seen s) (fst x)) eqn:SV; cbn [negb].
  2: { eexists. split; [reflexivity|]. cbn [kept bnd]. rewrite total_app. cbn. lia. }
  destruct I as [Ip If In_ Is].
  destruct (seenLit (seen s) (neg x)) eqn:SL; cbn [negb].
  - apply seenLit_In in SL. apply Is in SL. destruct (split_at_In _ _ SL) as [[[l m] r] Es]. rewrite Es. destruct m as [m wo].
    apply split_at_spec in Es as [Ek Em]. cbn in Em. subst m.
    assert (Hl : forall e, In e l -> 1 <= snd e) by (intros; apply Ip; rewrite Ek; apply in_or_app; auto).
    assert (Hr : forall e, In e r -> 1 <= snd e) by (intros; apply Ip; rewrite Ek; apply in_or_app; cbn; auto).
    assert (Hwo : 1 <= wo) by (apply (Ip (neg x, wo)); rewrite Ek; apply in_or_app; cbn; auto).
    apply total_pos in Hl, Hr. rewrite Ek, total_app in *. cbn [total] in *.
    rewrite (i32_in (b - w)) by lia. rewrite (i32_in (wo - w)) by lia. cbn [bind].
    destruct (wo - w <? 0) eqn:Q1.
    + rewrite i32_in by lia. cbn [bind]. rewrite i32_in by lia. cbn [bind]. eexists. split; [reflexivity|]. cbn [kept bnd]. rewrite total_app. cbn [total]. lia.
    + destruct (wo - w =? 0) eqn:Q2; eexists; (split; [reflexivity|]); cbn [kept bnd]; rewrite total_app; cbn [total]; lia.
  - assert (SX : In x (map fst (kept s))).
    { apply seenVar_In in SV as (y & Hy & Ev'). symmetry in Ev'. apply same_var in Ev' as [->| ->].
      - now apply Is.
      - exfalso. apply (proj2 (seenLit_In _ _)) in Hy. congruence. }
    destruct (split_at_In _ _ SX) as [[[l m] r] Es]. rewrite Es. destruct m as [m wo].
    apply split_at_spec in Es as [Ek Em]. cbn in Em. subst m.
    assert (Hl : forall e, In e l -> 1 <= snd e) by (intros; apply Ip; rewrite Ek; apply in_or_app; auto).
    assert (Hr : forall e, In e r -> 1 <= snd e) by (intros; apply Ip; rewrite Ek; apply in_or_app; cbn; auto).
    assert (Hwo : 1 <= wo) by (apply (Ip (x, wo)); rewrite Ek; apply in_or_app; cbn; auto).
    apply total_pos in Hl, Hr. rewrite Ek, total_app in *. cbn [total] in *.
    rewrite i32_in by lia. cbn [bind]. eexists. split; [reflexivity|]. cbn [kept bnd]. rewrite total_app. cbn [total]. lia.
Qed.

Lemma run1_total top : forall lits s, inv1 top s -> total (kept s) + abs_total lits <= int_max -> Z.abs (bnd s) + abs_total lits <= int_max ->
  exists s', run1 top s lits = Ok s' /\ total (kept s') <= total (kept s) + abs_total lits /\ Z.abs (bnd s') <= Z.abs (bnd s) + abs_total lits.
Proof.
  induction lits as [|[x w] t IH]; cbn [run1 abs_total]; intros s I H1 H2.
  - exists s. repeat split; lia.
  - pose proof (abs_total_nonneg t). destruct (step1_total top s (x, w) I) as (s' & E & A & B); cbn [snd] in *; try lia.
    rewrite E. cbn [bind]. destruct (step1_spec _ _ _ _ E I) as [I' _].
    destruct (IH s' I') as (s2 & E2 & A2 & B2); try lia. exists s2. repeat split; auto; lia.
Qed.

Lemma run2_total B : 1 <= B -> forall lits s, (forall e, In e lits -> 1 <= snd e) -> 1 <= maxW s <= B ->
  0 <= sumW s -> sumW s + total lits <= int_max -> exists p, run2 B s lits = Ok p.
Proof.
  intros HB. induction lits as [|[x w] t IH]; intros s Hp Hm H0 H; cbn [run2]; [eauto|].
  assert (1 <= w) by (apply (Hp (x, w)); cbn; auto).
  assert (Ht : forall e, In e t -> 1 <= snd e) by (intros; apply Hp; cbn; auto).
  pose proof (total_pos t Ht). cbn [total] in H.
  set (w' := if w >? maxW s then Z.min w B else w) in *.
  assert (Ew : 1 <= w' <= w) by (unfold w'; destruct (w >? maxW s); lia).
  replace (negb (int_max - sumW s >=? w')) with false by lia.
  destruct (IH (St2 (sumW s + w') (if w' <? minW s then w' else minW s) (if w >? maxW s then w' else maxW s)) Ht) as [[t' s'] ->]; cbn [sumW maxW].
  - unfold w'. destruct (w >? maxW s) eqn:E; lia.
  - lia.
  - lia.
  - cbn [bind]. eauto.
Qed.

Lemma create_rep_total top lits bound : Z.abs bound + 2 * abs_total lits <= int_max -> exists r, create_rep top lits bound = Ok r.
Proof.
  intros H. unfold create_rep. pose proof (abs_total_nonneg lits).
  destruct (run1_total top lits (St1 [] [] bound) (inv1_init _ _)) as (s & E & A & B); cbn [kept bnd total] in *; try lia.
  rewrite E. cbn [bind]. destruct (run1_spec _ _ _ _ E (inv1_init _ _)) as [[Ip _ _ _] _].
  destruct (run2_total (Z.max (bnd s) 1) ltac:(lia) (kept s) (St2 0 int_max 1) Ip) as [[ls m] E2]; cbn [sumW maxW]; try lia.
  rewrite E2. cbn [bind].
  destruct (run2_spec (Z.max (bnd s) 1) ltac:(lia) _ _ _ _ E2 Ip ltac:(cbn; lia)) as (L & S & Rg & _ & Mx & Mx' & Mn').
  cbn [sumW maxW minW] in *.
  destruct (maxW m =? minW m) eqn:M; cbn [negb]; [|eauto].
  destruct (minW m =? 1) eqn:M1; cbn [negb]; [eauto|].
  assert (Hls : forall e, In e ls -> 1 <= snd e).
  { intros e He. rewrite L in He. apply in_map_iff in He as (e' & <- & He'). specialize (Ip _ He'). cbn. lia. }
  assert (Tl : total ls <= total (kept s)).
  { rewrite L. clear. induction (kept s) as [|[x w] t IH]; cbn; lia. }
  assert (Mt : minW m <= total ls).
  { destruct Mx' as [Q|Q]; [cbn in Q; lia|]. replace (maxW m) with (minW m) in Q by lia.
    apply in_map_iff in Q as (e & <- & He). clear - He Hls. induction ls as [|[x w] t IH]; [destruct He|].
    assert (0 <= total t) by (apply total_pos; intros; apply Hls; now right).
    assert (1 <= w) by (apply (Hls (x, w)); now left).
    destruct He as [<-|He]; cbn; [lia|]. specialize (IH He ltac:(intros; apply Hls; now right)). lia. }
  assert (1 <= minW m) by lia.
  assert (int_min = - int_max - 1) as Im by reflexivity.
  unfold ceil_div. rewrite i32_in by lia. cbn [bind]. rewrite i32_in by (cbn in S; lia). cbn [bind]. eauto.
Qed.
Lemma create_rep_same top lits bound r : create_rep top lits bound = Ok r ->
  forall a, extends a top -> (r_bound r <= wsum a (r_lits r) <-> bound <= wsum a lits).
Proof. intros H a Ha. pose proof (proj2 (create_rep_spec _ _ _ _ H) a Ha). lia. Qed.
