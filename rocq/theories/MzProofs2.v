(** The invariant of the minimize constraint and undoing levels. *)
From Coq Require Import List Bool Arith ZArith Lia Permutation Sorted.
From Verif Require Import Base MnModel MnSpec MnProofs MnProofs2 MnProofs3 MnProofs4 MnProofs5 MnProofs6 MzModel MzProofs.
Import ListNotations.
Open Scope Z_scope.

Section P.
Variable d : data.
Hypothesis DO : DOk d.
Notation n := (numRules d).
Notation len := (length (lits d)).

(** * Sums *)
Fixpoint sumI (l : list nat) (j : nat) : Z := match l with [] => 0 | i :: l => Wt d i j + sumI l j end.
Lemma sumI_app : forall l1 l2 j, sumI (l1 ++ l2) j = sumI l1 j + sumI l2 j.
Proof. induction l1 as [|i l1 IH]; intros; cbn [sumI app]; auto. rewrite IH. lia. Qed.
Lemma sumI_perm : forall l1 l2 j, Permutation l1 l2 -> sumI l1 j = sumI l2 j.
Proof. intros l1 l2 j H. induction H; cbn [sumI]; lia. Qed.
Definition nneg (f : nat -> Z) : Prop := ~ lexGt n (fun _ => 0) f.
Lemma nneg_add : forall f g, nneg f -> nneg g -> nneg (fun j => f j + g j).
Proof.
  intros f g F G [l [L [A B]]]. destruct (lex_tri n f (fun _ => 0)) as [[x [X1 [X2 X3]]]|[X|X]]; [|destruct (F X)|].
  - destruct (lex_tri n g (fun _ => 0)) as [[y [Y1 [Y2 Y3]]]|[Y|Y]]; [|destruct (G Y)|].
    + assert (Lx : (l < x)%nat \/ (x <= l)%nat) by lia. assert (Ly : (l < y)%nat \/ (y <= l)%nat) by lia.
      assert (GX : forall i, (i <= x)%nat -> f i >= 0) by (intros i I; destruct (Nat.eq_dec i x) as [->|]; [lia|rewrite X2 by lia; lia]).
      assert (GY : forall i, (i <= y)%nat -> g i >= 0) by (intros i I; destruct (Nat.eq_dec i y) as [->|]; [lia|rewrite Y2 by lia; lia]).
      destruct (Nat.le_gt_cases l (Nat.min x y)) as [Q|Q].
      * pose proof (GX l ltac:(lia)). pose proof (GY l ltac:(lia)). lia.
      * specialize (A _ Q). pose proof (GX (Nat.min x y) ltac:(lia)). pose proof (GY (Nat.min x y) ltac:(lia)). destruct (Nat.min_spec x y) as [[_ E]|[_ E]]; rewrite E in *; lia.
    + apply F. exists l. sp; auto; [intros i I; specialize (A i I); rewrite (Y i) in A by lia; lia|]. rewrite (Y l) in B by lia. lia.
  - apply G. exists l. sp; auto; [intros i I; specialize (A i I); rewrite (X i) in A by lia; lia|]. rewrite (X l) in B by lia. lia.
Qed.
Lemma wt_nneg : forall i, (i < len)%nat -> nneg (Wt d i).
Proof.
  intros i L [l [X [A B]]]. pose proof (d_high d DO i L) as H. destruct (Nat.lt_trichotomy l (levelAt d i)) as [Q|[Q|Q]].
  - rewrite (d_low d DO i l L Q) in B. lia.
  - subst l. lia.
  - specialize (A _ Q). lia.
Qed.
Lemma sumI_nneg : forall l, (forall i, In i l -> (i < len)%nat) -> nneg (sumI l).
Proof.
  induction l as [|i l IH]; intros H; [intros [k [_ [_ B]]]; cbn in B; lia|]. apply (nneg_add (Wt d i) (sumI l)); [apply wt_nneg, H; cbn; auto|apply IH; intros; apply H; cbn; auto].
Qed.
(** Adding a nonnegative vector keeps an excess. *)
Lemma gt_add : forall f g h, nneg g -> lexGt n f h -> lexGt n (fun j => f j + g j) h.
Proof.
  intros f g h G F. destruct (lex_tri n (fun j => f j + g j) h) as [X|[X|X]]; auto; exfalso.
  - assert (Y : lexGt n f (fun j => f j + g j)) by (apply (lex_trans n f h); auto). apply G. eapply lex_ext; [|exact Y]. intros i I. cbn beta. lia.
  - apply G. eapply lex_ext; [|exact F]. intros i I. cbn beta. specialize (X i I). cbn beta in X. lia.
Qed.
Lemma gt_ext : forall f f' h, (forall j, (j < n)%nat -> f j = f' j) -> lexGt n f h -> lexGt n f' h.
Proof. intros f f' h E. apply lex_ext. intros i I. rewrite (E i I). auto. Qed.
Lemma sub_split : forall l1 l2 : list nat, NoDup l1 -> NoDup l2 -> incl l1 l2 -> exists r, Permutation l2 (l1 ++ r).
Proof.
  induction l1 as [|x l1 IH]; intros l2 N1 N2 I; [exists l2; auto|]. inversion N1 as [|? ? X1 X2]; subst. destruct (in_split x l2 (I x ltac:(cbn; auto))) as [p [q ->]]. pose proof (NoDup_remove_1 _ _ _ N2) as N3. pose proof (NoDup_remove_2 _ _ _ N2) as N4.
  destruct (IH (p ++ q) X2 N3) as [r R].
  - intros y Y. specialize (I y ltac:(cbn; auto)). apply in_app_or in I. apply in_or_app. destruct I as [I|[<- |I]]; auto. destruct (X1 Y).
  - exists r. cbn. rewrite <- R. symmetry. apply Permutation_middle.
Qed.
Lemma sub_gt : forall l1 l2 g h, NoDup l1 -> NoDup l2 -> incl l1 l2 -> (forall i, In i l2 -> (i < len)%nat) -> lexGt n (fun j => sumI l1 j + g j) h -> lexGt n (fun j => sumI l2 j + g j) h.
Proof.
  intros l1 l2 g h N1 N2 I R H. destruct (sub_split l1 l2 N1 N2 I) as [r P]. eapply gt_ext; [|apply (gt_add (fun j => sumI l1 j + g j) (sumI r)); [|exact H]].
  - intros j _. cbn beta. rewrite (sumI_perm _ _ j P), sumI_app. lia.
  - apply sumI_nneg. intros i X. apply R. apply (Permutation_in i (Permutation_sym P)). apply in_or_app; auto.
Qed.
(** A larger weight keeps an excess. *)
Lemma le_gt : forall f g g' h, ~ lexGt n g g' -> lexGt n (fun j => f j + g j) h -> lexGt n (fun j => f j + g' j) h.
Proof.
  intros f g g' h L H. eapply gt_ext; [|apply (gt_add (fun j => f j + g j) (fun j => g' j - g j)); [|exact H]]; [intros j _; cbn beta; lia|].
  intros X. apply L. eapply lex_ext; [|exact X]. intros i I. cbn beta. lia.
Qed.
Lemma sumI_max : forall l j, (forall i, In i l -> (i < len)%nat) -> sumI l j <= Z.of_nat (length l) * int_max.
Proof. induction l as [|i l IH]; intros j H; [cbn; lia|]. cbn [sumI length]. specialize (IH j ltac:(intros; apply H; cbn; auto)). pose proof (d_max d DO i j (H i ltac:(cbn; auto))). unfold int_max in *. lia. Qed.

(** * Invariant *)
Definition lv (e : env) (i : nat) : nat := levelOf e (fst (litAt d i)).
Definition idxs (c : mc) : list nat := map fst (c_undo c).
Definition valOf (e : env) (x : lit) : Prop := isTrue (pv e) x = true.
(** Literal [x] is false and known to be implied on level [k]. *)
Definition falseAt (e : env) (x : lit) (k : nat) : Prop := exists m, v_asn e (fst x) = Some m /\ e_val m = snd x /\ (e_eff m <= k)%nat.
Definition topLev (e : env) (st : list (nat * bool)) : nat := match st with [] => 0 | (i, _) :: _ => lv e i end.
Definition Saved (e : env) (base p : nat) (st : list (nat * bool)) (L : nat) : Prop :=
  forall j, (j < p)%nat -> (j < len)%nat -> In j (map fst st) \/ falseAt e (litAt d j) (Nat.max (topLev e st) (if Nat.leb base L then base else 0)).
Fixpoint UOk (e : env) (base : nat) (st : list (nat * bool)) (ps us : list nat) : Prop :=
  match st with
  | [] => ps = [] /\ us = []
  | (i, true) :: st => match ps, us with p :: ps, L :: us => lv e i = L /\ (topLev e st < L)%nat /\ (p <= len)%nat /\ Saved e base p st L /\ UOk e base st ps us | _, _ => False end
  | (i, false) :: st => lv e i = topLev e st /\ UOk e base st ps us
  end.
Record CI (e : env) (c : mc) (uw : list nat) (base : nat) : Prop := {
  i_nd : NoDup (idxs c);
  i_seen : forall i, c_seen c i = true <-> In i (idxs c);
  i_in : forall i, In i (idxs c) -> (i < len)%nat /\ valOf e (litAt d i);
  i_uok : UOk e base (c_undo c) (c_posSt c) uw;
  i_olen : length (c_opt c) = n;
  i_slen : length (c_sum c) = n;
  i_sum : forall j, nth j (c_sum c) 0 = sumI (idxs c) j;
  i_act : (c_act c < n)%nat;
  i_eq : eqUpTo (c_act c) (c_sum c) (c_opt c);
  i_pos : (c_pos c <= len)%nat;
  i_posok : forall j, (j < c_pos c)%nat -> In j (idxs c) \/ falseAt e (litAt d j) (Nat.max (topLev e (c_undo c)) base) }.
(** Reasons of the literals forced by the constraint *)
Definition Why (e : env) (c : mc) (v : nat) (m : ent) (stop : nat) (B : list Z) : Prop :=
  exists i, (i < len)%nat /\ fst (litAt d i) = v /\ e_val m = snd (litAt d i) /\ (stop <= length (c_undo c))%nat /\
    (forall u, In u (map fst (bottom stop (c_undo c))) -> (lv e u <= e_eff m)%nat) /\ lexGt n (fun j => sumI (map fst (bottom stop (c_undo c))) j + Wt d i j) (fun j => nth j B 0).
Record Inv (e : env) (c : mc) (base : nat) : Prop := {
  n_ci : CI e c (v_uw e) base;
  n_lev : forall v m, v_asn e v = Some m -> (e_lev m <= v_dl e)%nat /\ (e_eff m <= e_lev m)%nat;
  n_why : forall v m stop B, v_asn e v = Some m -> e_why m = Some (stop, B) -> Why e c v m stop B;
  n_base : (base <= v_dl e)%nat }.
Definition Sk (e : env) (c : mc) (k : nat) (j : nat) : Z := sumI (filter (fun i => Nat.leb (lv e i) k) (idxs c)) j.
Definition TightI (e : env) (c : mc) (k i : nat) : Prop :=
  (In i (idxs c) -> (k < lv e i)%nat) -> lexGt n (fun j => Sk e c k j + Wt d i j) (fun j => nth j (c_opt c) 0) -> falseAt e (litAt d i) k.

Lemma idx_range : forall e c uw b i, CI e c uw b -> In i (idxs c) -> (i < len)%nat.
Proof. intros e c uw b i I X. apply (i_in _ _ _ _ I i X). Qed.
Lemma uok_top : forall e b st ps us i, UOk e b st ps us -> In i (map fst st) -> (lv e i <= topLev e st)%nat.
Proof.
  induction st as [|[u nd] st IH]; intros ps us i U I; [destruct I|]. cbn [map fst topLev] in *. destruct I as [<- |I]; auto. cbn [UOk] in U. destruct nd.
  - destruct ps as [|p ps]; [destruct U|]. destruct us as [|L us]; [destruct U|]. destruct U as [U1 [U2 [_ [_ U3]]]]. specialize (IH _ _ i U3 I). lia.
  - destruct U as [U1 U2]. specialize (IH _ _ i U2 I). lia.
Qed.
Lemma uok_uw : forall e b st ps us l, UOk e b st ps us -> In l us -> (0 < l <= topLev e st)%nat.
Proof.
  induction st as [|[u nd] st IH]; intros ps us l U I; cbn [UOk] in U; [destruct U as [_ ->]; destruct I|]. cbn [topLev]. destruct nd.
  - destruct ps as [|p ps]; [destruct U|]. destruct us as [|L us]; [destruct U|]. destruct U as [U1 [U2 [_ [_ U3]]]]. destruct I as [<- |I]; [lia|]. specialize (IH _ _ l U3 I). lia.
  - destruct U as [U1 U2]. specialize (IH _ _ l U2 I). lia.
Qed.
Lemma uok_wit : forall e b st ps us, UOk e b st ps us -> (0 < topLev e st)%nat -> exists us', us = topLev e st :: us'.
Proof.
  induction st as [|[u nd] st IH]; intros ps us U T; [cbn in T; lia|]. cbn [UOk topLev] in *. destruct nd.
  - destruct ps as [|p ps]; [destruct U|]. destruct us as [|L us]; [destruct U|]. destruct U as [U1 _]. exists us. subst. auto.
  - destruct U as [U1 U2]. rewrite U1 in *. apply (IH ps us); auto.
Qed.
(** Popping one level *)
Lemma pop_spec : forall e uw b c st, c_undo c = st -> CI e c uw b -> (0 < topLev e st)%nat -> exists p ps us pre nd i st', 
  c_posSt c = p :: ps /\ uw = topLev e st :: us /\ c_undo (popLoop d st c) = st' /\ st = pre ++ (i, nd) :: st' /\ (forall u, In u (map fst (pre ++ [(i, nd)])) -> lv e u = topLev e st) /\ (topLev e st' < topLev e st)%nat /\
  Saved e b p st' (topLev e st) /\ (p <= len)%nat /\ UOk e b st' ps us /\ c_opt (popLoop d st c) = c_opt c /\ c_pos (popLoop d st c) = c_pos c /\ c_posSt (popLoop d st c) = c_posSt c /\
  (forall j, nth j (c_sum (popLoop d st c)) 0 = sumI (map fst st') j) /\ length (c_sum (popLoop d st c)) = n /\ (c_act (popLoop d st c) <= c_act c)%nat /\ eqUpTo (c_act (popLoop d st c)) (c_sum (popLoop d st c)) (c_opt c) /\
  (forall j, c_seen (popLoop d st c) j = true <-> In j (map fst st')).
Proof.
  intros e uw b c st ES I. revert c ES I. induction st as [|[i nd] st IH]; intros c ES I T; [cbn in T; lia|].
  pose proof (i_uok _ _ _ _ I) as U. rewrite ES in U. cbn [UOk topLev] in *. cbn [popLoop].
  assert (IL : (i < len)%nat) by (apply (idx_range _ _ _ _ i I); unfold idxs; rewrite ES; cbn; auto).
  destruct (d_sub d DO i (c_sum c) (c_act c) IL (i_slen _ _ _ _ I)) as [S1 [S2 [S3 S4]]]. destruct (subW d (c_sum c) (wAt d i) (c_act c)) as [sm ac] eqn:SW. cbn [fst snd] in *.
  pose proof (i_nd _ _ _ _ I) as ND. pose proof (i_sum _ _ _ _ I) as SM. pose proof (i_seen _ _ _ _ I) as SE. unfold idxs in ND, SM, SE. rewrite ES in ND, SM, SE. cbn [map fst] in ND, SM, SE. inversion ND as [|? ? N1 N2]; subst.
  assert (Q1 : forall j, nth j sm 0 = sumI (map fst st) j) by (intros j; rewrite S2, SM; cbn [sumI]; lia).
  assert (Q2 : eqUpTo ac sm (c_opt c)).
  { intros j J. rewrite S2. rewrite (i_eq _ _ _ _ I j) by lia. rewrite (d_low d DO i j IL); [lia|]. specialize (S4 (i_act _ _ _ _ I)). lia. }
  assert (Q3 : forall j, upd (c_seen c) i false j = true <-> In j (map fst st)).
  { intros j. unfold upd. destruct (Nat.eqb_spec j i) as [->|NE]; [split; [discriminate|intros X; destruct (N1 X)]|]. rewrite SE. cbn. split; [intros [X|X]; [congruence|auto]|auto]. }
  destruct nd.
  - destruct (c_posSt c) as [|p ps] eqn:EP; [destruct U|]. destruct uw as [|L us]; [destruct U|]. destruct U as [U1 [U2 [U3 [U4 U5]]]]. subst L.
    exists p, ps, us, [], true, i, st. cbn [c_undo c_opt c_sum c_posSt c_seen c_pos c_act app]. sp; auto. intros u [<- |[]]. auto.
  - destruct U as [U1 U2].
    assert (I' : CI e (M (c_opt c) sm st (c_posSt c) (upd (c_seen c) i false) 0 ac) uw b).
    { constructor; unfold idxs; cbn [c_undo c_opt c_sum c_posSt c_seen c_pos c_act]; auto; try lia.
      - intros j J. apply (i_in _ _ _ _ I). unfold idxs. rewrite ES. cbn; auto.
      - apply (i_olen _ _ _ _ I).
      - pose proof (i_act _ _ _ _ I). lia. }
    rewrite U1 in T. 
    destruct (IH (M (c_opt c) sm st (c_posSt c) (upd (c_seen c) i false) 0 ac) eq_refl I' T) as [p [ps [us [pre [nd [i' [st' H]]]]]]]. cbn [c_undo c_opt c_sum c_posSt c_seen c_pos c_act] in H. destruct H as [H1 [H2 [H3 [H4 [H5 [H6 [H7 [H7' [H8 [H9 [H10 [H11 [H12 [H13 [H14 [H15 H16]]]]]]]]]]]]]]]].
    assert (PE : forall st0 c1 p0, popLoop d st0 (M (c_opt c1) (c_sum c1) (c_undo c1) (c_posSt c1) (c_seen c1) p0 (c_act c1)) = setPos (popLoop d st0 c1) p0).
    { clear. induction st0 as [|[i0 nd0] st0 IH]; intros c1 p0; cbn [popLoop c_opt c_sum c_undo c_posSt c_seen c_pos c_act]; [reflexivity|]. destruct (subW d (c_sum c1) (wAt d i0) (c_act c1)) as [sm0 ac0]. destruct nd0; [reflexivity|]. 
      exact (IH (M (c_opt c1) sm0 st0 (c_posSt c1) (upd (c_seen c1) i0 false) (c_pos c1) ac0) p0). }
    pose proof (PE st (M (c_opt c) sm st (c_posSt c) (upd (c_seen c) i false) 0 ac) (c_pos c)) as PQ. cbn [c_undo c_opt c_sum c_posSt c_seen c_pos c_act] in PQ. rewrite PQ. unfold setPos. cbn [c_undo c_opt c_sum c_posSt c_seen c_pos c_act].
    exists p, ps, us, ((i, false) :: pre), nd, i', st'. rewrite U1. sp; auto; try lia.
    + cbn [app]. rewrite <- H4. auto.
    + intros u X. cbn [app map fst] in X. destruct X as [<- |X]; auto.
Qed.
End P.
