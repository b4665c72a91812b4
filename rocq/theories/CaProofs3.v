(** Proofs: minimisation loop, reverse arcs. *)
From Coq Require Import List Bool Arith Lia Permutation.
From Verif Require Import Base ClModel CaModel CaSpec CaProofs CaProofs2.
Import ListNotations.

Lemma swap1 : forall (c0 : lit) (l : list lit) k, k < length l -> exists l' : list lit,
  (if Nat.eqb (S k) 1 then c0 :: l else swap 1 (S k) (c0 :: l)) = c0 :: l' /\ Permutation l l' /\ nth 0 l' lit_true = nth k l lit_true.
Proof.
  intros c0 l k Hk. destruct k as [|k].
  - exists l. cbn. auto.
  - destruct l as [|a l]; [cbn in Hk; lia|]. cbn [length] in Hk. cbn [Nat.eqb].
    assert (N : k < length l) by lia. destruct (nth_split l lit_true N) as [l1 [l2 [H1 H2]]].
    exists (nth k l lit_true :: l1 ++ a :: l2). sp; [|rewrite H1 at 1; eapply perm_trans; [apply perm_skip, Permutation_sym, Permutation_middle|]; eapply perm_trans; [apply perm_swap|]; apply perm_skip; apply Permutation_middle|reflexivity].
    unfold swap. cbn [nth]. unfold set_nth at 2. cbn [firstn skipn app]. unfold set_nth. cbn [firstn skipn app]. do 2 f_equal.
    assert (F1 : firstn k l = l1). { rewrite H1 at 1. rewrite firstn_app, H2, Nat.sub_diag. cbn [firstn]. rewrite app_nil_r, <- H2. apply firstn_all. }
    assert (F2 : skipn (S k) l = l2). { rewrite H1 at 1. rewrite skipn_app, <- H2. replace (S (length l1) - length l1) with 1 by lia. rewrite skipn_all2 by lia. reflexivity. }
    change (match l with [] => [] | _ :: l0 => skipn k l0 end) with (skipn (S k) l). rewrite F1, F2. reflexivity.
Qed.

Section R.
Variable G : asg -> Prop.
Variable E : env.
Hypothesis TO : trail_ok G E.
Variable f0 : fl.
Hypothesis FO : flags_ok E f0.
Hypothesis DL : 0 < dl E.
Variable f : fl.
Variable C : list lit.
Hypothesis M : marked E f0 f [] C.
Variable o : opt.

(** What is removed *)
Definition rem (x : lit) : Prop :=
  if Nat.eqb (o_antes o) 3 then False else if o_rec o then redundant E (o_antes o) C x else locally E (o_antes o) C x.
Lemma locally_red : forall x, locally E (o_antes o) C x -> redundant E (o_antes o) C x.
Proof. intros x [r [A [B D]]]. apply (Redundant _ _ _ x r); auto; intros q Hq N; elim N; auto. Qed.
Lemma rem_red : forall x, rem x -> redundant E (o_antes o) C x.
Proof. intros x. unfold rem. destruct (Nat.eqb _ 3); [easy|]. destruct (o_rec o); auto. apply locally_red. Qed.

Lemma ccRemovable_spec : forall p ep, In p C -> o_antes o <> 3 -> epOk E f C o ep -> exists b ep', ccRemovable E o f p ep = Ok (b, ep') /\
  (b = true <-> rem p) /\ epOk E f C o ep'.
Proof.
  intros p ep Hp A3 EO. assert (Pt : In p (v_trail E)) by (apply (mk_tr _ _ _ _ _ M); cbn; auto).
  assert (Ps : seen f p = true) by (apply (marked_seen E f0 f [] C p M); cbn; auto).
  unfold ccRemovable, rem. rewrite (proj2 (Nat.eqb_neq (o_antes o) 3) A3).
  destruct (usable E o p) as [r|] eqn:U.
  - destruct (o_rec o) eqn:R.
    + destruct (dfs_spec G E TO f0 FO DL f C M o p Pt Ps (fuelFor E) ep [(p, false)] true) as [b [ep' H]].
      * constructor; auto; [constructor| |discriminate]. intros _ l1 y l2 H. destruct l1 as [|e l1]; [discriminate|]. injection H as _ H. now destruct l1.
      * unfold cost, fuelFor. cbn [length]. assert (list_sum (map (cost1 E ep [(p, false)]) (v_trail E)) <= list_sum (map (fun x => 2 + rsize E x) (v_trail E))); [|lia].
        apply (sum_le E DL). intros x Hx. unfold cost1. destruct (isOpen (ep (fst x)) && negb (flagged [(p, false)] x)); lia.
      * exists b, ep'. exact H.
    + exists (localRemovable E o f p), ep. sp; auto. unfold localRemovable. rewrite U.
      assert (RI : forall q, In q r -> (seen f q = true <-> top E q \/ In q C)).
      { intros q Hq. apply (seen_iff G E TO f0 FO DL f C M). eapply (reason_in G E TO DL o); eauto. }
      apply (usable_spec E DL o) in U as [U1 U2]. rewrite forallb_forall. unfold locally. split.
      * intros H. exists r. sp; auto. intros q Hq. apply RI; auto.
      * intros [r' [H1 [H2 H3]]] q Hq. assert (r' = r) by congruence. subst r'. apply RI; auto.
  - exists false, ep. sp; auto. split; [discriminate|]. intros H. exfalso.
    assert (H' : redundant E (o_antes o) C p). { destruct (o_rec o); auto. now apply locally_red. }
    inversion H' as [x r R1 R2 R3 R4]; subst. unfold usable in U. rewrite R1 in U. rewrite (proj2 (Nat.leb_le _ _) R2) in U. discriminate.
Qed.

(** Asserting level, position and number of literals on it *)
Definition cntl (l : nat) (K : list lit) : nat := length (filter (fun q => Nat.eqb (lv E q) l) K).
Definition posOk (K : list lit) (level pos on : nat) : Prop :=
  (forall q, In q K -> lv E q <= level) /\ on = cntl level K /\
  (K = [] /\ level = 0 /\ pos = 1 \/ exists k, pos = S k /\ k < length K /\ lv E (nth k K lit_true) = level).
Lemma lv_neg : forall q, lv E (neg q) = lv E q. Proof. reflexivity. Qed.
Lemma cntl_app : forall l A B, cntl l (A ++ B) = cntl l A + cntl l B.
Proof. intros. unfold cntl. now rewrite filter_app, app_length. Qed.
Lemma cntl_zero : forall l K, (forall q, In q K -> lv E q < l) -> cntl l K = 0.
Proof.
  intros l K. induction K as [|q K IH]; intros H; auto. unfold cntl. cbn [filter]. pose proof (H q (or_introl eq_refl)).
  rewrite (proj2 (Nat.eqb_neq (lv E q) l)) by lia. apply IH. intros; apply H; cbn; auto.
Qed.
Lemma keep_spec : forall K m x, m_kept m = map neg K -> posOk K (m_level m) (m_pos m) (m_on m) -> 0 < lv E x ->
  m_kept (keep E m (neg x)) = map neg (K ++ [x]) /\ m_rem (keep E m (neg x)) = m_rem m /\ m_ep (keep E m (neg x)) = m_ep m /\
  posOk (K ++ [x]) (m_level (keep E m (neg x))) (m_pos (keep E m (neg x))) (m_on (keep E m (neg x))).
Proof.
  intros K m x HK [P1 [P2 P3]] Lx. unfold keep. rewrite lv_neg. rewrite HK, map_length, map_app. cbn [map].
  destruct (Nat.ltb (m_level m) (lv E x)) eqn:L; cbn [m_kept m_rem m_ep m_level m_pos m_on]; sp; auto.
  - apply Nat.ltb_lt in L. rewrite Nat.eqb_refl. unfold posOk. sp.
    + intros q. rewrite in_app_iff. intros [Hq|[<-|[]]]; auto. apply P1 in Hq. lia.
    + rewrite cntl_app, cntl_zero. { unfold cntl. cbn. rewrite Nat.eqb_refl. reflexivity. } intros q Hq. apply P1 in Hq. lia.
    + right. exists (length K). sp; auto; [rewrite app_length; cbn; lia|]. rewrite app_nth2, Nat.sub_diag by lia. reflexivity.
  - apply Nat.ltb_ge in L. unfold posOk. sp.
    + intros q. rewrite in_app_iff. intros [Hq|[<-|[]]]; auto.
    + rewrite cntl_app. unfold cntl at 2. cbn [filter]. destruct (Nat.eqb (lv E x) (m_level m)); cbn [length]; lia.
    + destruct P3 as [[-> [P3 _]]|[k [P3 [P4 P5]]]]; [lia|]. right. exists k. sp; auto; [rewrite app_length; lia|]. rewrite app_nth1 by auto. auto.
Qed.
Lemma minLoop_spec : forall Cs m K, (forall x, In x Cs -> In x C) -> m_kept m = map neg K -> posOk K (m_level m) (m_pos m) (m_on m) -> epOk E f C o (m_ep m) ->
  exists m' K' R', minLoop E o f (map neg Cs) m = Ok m' /\ m_kept m' = map neg (K ++ K') /\ m_rem m' = m_rem m ++ map neg R' /\
    Permutation (K' ++ R') Cs /\ (forall x, In x K' -> ~ rem x) /\ (forall x, In x R' -> rem x) /\ posOk (K ++ K') (m_level m') (m_pos m') (m_on m').
Proof.
  induction Cs as [|x Cs IH]; intros m K HC HK HP HE; cbn [map minLoop].
  - exists m, [], []. rewrite !app_nil_r. sp; auto; easy.
  - assert (Hx : In x C) by (apply HC; cbn; auto).
    assert (Lx : 0 < lv E x) by (apply (mk_C _ _ _ _ _ M) in Hx; lia).
    destruct (Nat.eqb (o_antes o) 3) eqn:A3.
    + destruct (keep_spec K m x HK HP Lx) as [Q1 [Q2 [Q3 Q4]]].
      destruct (IH (keep E m (neg x)) (K ++ [x])) as [m' [K' [R' [W1 [W2 [W3 [W4 [W5 [W6 W7]]]]]]]]]; auto.
      { intros; apply HC; cbn; auto. } { now rewrite Q3. }
      exists m', (x :: K'), R'. rewrite <- app_assoc in W2, W7. cbn [app] in *. sp; auto.
      * rewrite W3, Q2. auto.
      * intros y [<-|Hy]; auto. unfold rem. rewrite A3. auto.
    + apply Nat.eqb_neq in A3. destruct (ccRemovable_spec x (m_ep m) Hx A3 HE) as [b [ep' [B1 [B2 B3]]]].
      rewrite neg_neg, B1. cbn [bind]. destruct b.
      * match goal with |- context [minLoop E o f _ ?mm] => destruct (IH mm K) as [m' [K' [R' [W1 [W2 [W3 [W4 [W5 [W6 W7]]]]]]]]] end; auto.
        { intros; apply HC; cbn; auto. }
        exists m', K', (x :: R'). cbn [m_rem] in W3. sp; auto.
        -- rewrite W3, <- app_assoc. reflexivity.
        -- eapply perm_trans; [apply Permutation_sym, Permutation_middle|]. now apply perm_skip.
        -- intros y [<-|Hy]; auto. now apply B2.
      * set (m0 := Min (m_kept m) (m_rem m) (m_level m) (m_pos m) (m_on m) ep').
        destruct (keep_spec K m0 x HK HP Lx) as [Q1 [Q2 [Q3 Q4]]].
        destruct (IH (keep E m0 (neg x)) (K ++ [x])) as [m' [K' [R' [W1 [W2 [W3 [W4 [W5 [W6 W7]]]]]]]]]; auto.
        { intros; apply HC; cbn; auto. } { now rewrite Q3. }
        exists m', (x :: K'), R'. rewrite <- app_assoc in W2, W7. cbn [app] in *. sp; auto.
        -- rewrite W3, Q2. auto.
        -- intros y [<-|Hy]; auto. intros Z. apply B2 in Z. discriminate.
Qed.
Lemma epOk_init : epOk E f C o (fun _ => Open).
Proof. unfold epOk. sp; congruence. Qed.

Lemma ccMinimize_spec : forall c0, exists K R, ccMinimize E o f c0 (map neg C) = Ok (c0 :: map neg K, map neg R, cntl (lv E (nth 0 K lit_true)) K) /\
  Permutation (K ++ R) C /\ (forall x, In x K -> ~ rem x) /\ (forall x, In x R -> rem x) /\
  (forall q, In q K -> lv E q <= lv E (nth 0 K lit_true)).
Proof.
  intros c0. unfold ccMinimize.
  destruct (minLoop_spec C (Min [] [] 0 1 0 (fun _ => Open)) []) as [m' [K' [R' [W1 [W2 [W3 [W4 [W5 [W6 W7]]]]]]]]]; auto.
  { unfold posOk. cbn. sp; auto. easy. } { cbn [m_ep]. apply epOk_init. }
  rewrite W1. cbn [bind]. cbn [app m_rem] in *. rewrite W2, W3. destruct W7 as [P1 [P2 P3]].
  destruct P3 as [[-> [P3 P4]]|[k [P3 [P4 P5]]]].
  - exists [], R'. rewrite P4, P2. cbn. sp; auto; easy.
  - rewrite P3. destruct (swap1 c0 (map neg K') k) as [l' [S1 [S2 S3]]]; [now rewrite map_length|].
    rewrite S1. assert (SN : exists K, l' = map neg K). { exists (map neg l'). rewrite map_map. rewrite <- (map_id l') at 1. apply map_ext. intros. now rewrite neg_neg. }
    destruct SN as [K ->]. assert (PK : Permutation K' K).
    { apply (Permutation_map neg) in S2. rewrite !map_map in S2.
      rewrite !(map_ext (fun x => neg (neg x)) (fun x => x) neg_neg), !map_id in S2. exact S2. }
    assert (LK : K <> []). { intros ->. apply Permutation_sym, Permutation_nil in PK. subst. cbn in P4. lia. }
    assert (HK : lv E (nth 0 K lit_true) = m_level m').
    { destruct K as [|h K]; [congruence|]. cbn [nth map] in *. rewrite <- P5. change (lv E (neg h) = lv E (nth k K' lit_true)). rewrite S3.
      rewrite <- (lv_neg (nth k K' lit_true)). f_equal. rewrite (nth_indep _ _ (neg lit_true)) by (now rewrite map_length). apply map_nth. }
    exists K, R'. sp; auto.
    + f_equal. f_equal. rewrite HK, P2. unfold cntl. clear - PK. induction PK; cbn; auto.
      * destruct (Nat.eqb (lv E x) (m_level m')); cbn; congruence.
      * destruct (Nat.eqb (lv E x) (m_level m')), (Nat.eqb (lv E y) (m_level m')); reflexivity.
      * congruence.
    + eapply perm_trans; [apply Permutation_app_tail, Permutation_sym, PK|auto].
    + intros x Hx. apply W5. eapply Permutation_in; [apply Permutation_sym, PK|auto].
    + intros x Hx. rewrite HK. apply P1. eapply Permutation_in; [apply Permutation_sym, PK|auto].
Qed.

(** The kept literals still form a nogood *)
Lemma min_refutes : forall p K R, In p (v_trail E) -> refutes G (p :: C) -> Permutation (K ++ R) C -> (forall x, In x R -> rem x) -> refutes G (p :: K).
Proof.
  intros p K R Pt RF PM HR a Ga.
  destruct (existsb (fun q => negb (holds a q)) (p :: K)) eqn:EX.
  { apply existsb_exists in EX as [q [A B]]. exists q. split; auto. now apply negb_true_iff in B. }
  exfalso. assert (HK : forall q, In q (p :: K) -> holds a q = true).
  { intros q Hq. destruct (holds a q) eqn:H; auto. enough (false = true) by discriminate. rewrite <- EX. apply existsb_exists. exists q. rewrite H. auto. }
  assert (AL : forall x, In x (v_trail E) -> In x C \/ redundant E (o_antes o) C x -> holds a x = true).
  { apply (trail_ind G E TO (fun x => In x C \/ redundant E (o_antes o) C x -> holds a x = true)). intros x Xt IH Hx.
    assert (CS : redundant E (o_antes o) C x \/ In x K).
    { destruct Hx as [Hx|Hx]; auto. apply (Permutation_in x (Permutation_sym PM)) in Hx. apply in_app_iff in Hx as [Hx|Hx]; auto. left. apply rem_red. auto. }
    destruct CS as [Rx|Rx]; [|apply HK; cbn; auto].
    destruct (red_inv G E TO f0 FO DL f C M o x Xt Rx) as [r [U1 U2]].
    pose proof (proj1 (usable_spec E DL o x r) U1) as [U3 _].
    apply (to_valid _ _ TO x r a Xt U3 Ga). intros q Hq.
    pose proof (to_reason _ _ TO x r q Xt U3 Hq) as Ea. destruct (lit_eq_dec q lit_true) as [->|Nq]; [now apply (to_lit0 _ _ TO)|].
    destruct (U2 q Hq) as [Sq|[_ Rq]]; [|apply IH; auto].
    apply (seen_iff G E TO f0 FO DL f C M q) in Sq; [|eapply earlier_in; eauto].
    destruct Sq as [Tq|Cq]; [now apply (top_holds G E TO)|apply IH; auto]. }
  destruct (RF a Ga) as [q [[<-|Hq] Hf]].
  - rewrite HK in Hf; [discriminate|cbn; auto].
  - rewrite AL in Hf; [discriminate| |auto]. apply (mk_tr _ _ _ _ _ M). auto.
Qed.
End R.
