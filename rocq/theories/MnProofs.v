From Coq Require Import List Bool Arith ZArith Lia Permutation Sorted.
From Verif Require Import Base MnModel MnSpec.
Import ListNotations.
Open Scope Z_scope.
Ltac sp := repeat match goal with |- _ /\ _ => split end.
(** * Stable sort *)
Section Sort.
Context {A : Type} (lt : A -> A -> bool).
Lemma insert_perm : forall x l, Permutation (x :: l) (insert lt x l).
Proof. intros x. induction l as [|y l IH]; cbn; auto. destruct (lt y x); auto. rewrite perm_swap. auto. Qed.
Lemma sort_perm : forall l, Permutation l (stableSort lt l).
Proof. induction l as [|x l IH]; cbn; auto. rewrite <- insert_perm. auto. Qed.
Variable ok : A -> Prop.
Definition le (x y : A) : Prop := lt y x = false.
Hypothesis asym : forall x y, ok x -> ok y -> lt x y = true -> lt y x = false.
Hypothesis trans : forall x y z, ok x -> ok y -> ok z -> le x y -> le y z -> le x z.
Lemma insert_sorted : forall x l, ok x -> Forall ok l -> StronglySorted le l -> StronglySorted le (insert lt x l).
Proof.
  intros x l OX. induction l as [|y l IH]; intros OL S; cbn; [repeat constructor|]. inversion OL; subst. inversion S; subst. destruct (lt y x) eqn:E.
  - constructor; auto. apply Forall_forall. intros z Z. apply (Permutation_in z (Permutation_sym (insert_perm x l))) in Z. destruct Z as [<- |Z]; [unfold le; auto|].
    match goal with H : Forall (le y) l |- _ => rewrite Forall_forall in H; auto end.
  - constructor; auto. constructor; auto. match goal with H : Forall (le y) l |- _ => rewrite Forall_forall in H; rename H into HF end.
    apply Forall_forall. intros z Z. apply trans with y; auto. match goal with H : Forall ok l |- _ => rewrite Forall_forall in H; auto end.
Qed.
Lemma sort_sorted : forall l, Forall ok l -> StronglySorted le (stableSort lt l).
Proof.
  induction l as [|x l IH]; intros O; cbn; [constructor|]. inversion O; subst. apply insert_sorted; auto.
  apply Forall_forall. intros z Z. apply (Permutation_in z (Permutation_sym (sort_perm l))) in Z. match goal with H : Forall ok l |- _ => rewrite Forall_forall in H; auto end.
Qed.
End Sort.

(** * Costs *)
Lemma stmtCost_app : forall l1 l2 p a, stmtCost (l1 ++ l2) p a = stmtCost l1 p a + stmtCost l2 p a.
Proof. induction l1 as [|x l1 IH]; intros; cbn [stmtCost app]; auto. rewrite IH. lia. Qed.
Lemma stmtCost_perm : forall l1 l2 p a, Permutation l1 l2 -> stmtCost l1 p a = stmtCost l2 p a.
Proof. intros l1 l2 p a H. induction H; cbn [stmtCost]; lia. Qed.
Lemma stmtCost_none : forall l p a, (forall x, In x l -> m_prio x <> p) -> stmtCost l p a = 0.
Proof. induction l as [|x l IH]; intros p a H; auto. cbn [stmtCost]. rewrite IH; [|intros; apply H; cbn; auto]. destruct (Z.eqb_spec (m_prio x) p); [exfalso; apply (H x); cbn; auto|]. reflexivity. Qed.

Lemma scan_spec : forall x P a l w R w' R' l', scan x P w R l = (w', R', l') ->
  exists pre, l = pre ++ l' /\ (forall k, In k pre -> fst (m_lit k) = fst x /\ m_prio k = P) /\
    (match l' with k :: _ => ~ (fst (m_lit k) = fst x /\ m_prio k = P) | [] => True end) /\
    (if holds a x then w else 0) + R + stmtCost pre P a = (if holds a x then w' else 0) + R'.
Proof.
  intros x P a. induction l as [|k l IH]; intros w R w' R' l' E; cbn [scan] in E.
  - injection E as <- <- <-. exists []. sp; auto; [intros k []|cbn; lia].
  - destruct (Nat.eqb_spec (fst (m_lit k)) (fst x)) as [V|V]; cbn [andb] in E; [destruct (Z.eqb_spec (m_prio k) P) as [Q|Q]|].
    + destruct (lit_eqb (m_lit k) x) eqn:LE.
      * apply IH in E. destruct E as [pre [-> [A [B C]]]]. exists (k :: pre). sp; auto; [intros z [<- |Z]; auto|]. cbn [stmtCost]. rewrite (proj2 (Z.eqb_eq _ _) Q). apply lit_eqb_eq in LE. rewrite LE. cbn [andb]. destruct (holds a x); lia.
      * apply IH in E. destruct E as [pre [-> [A [B C]]]]. exists (k :: pre). sp; auto; [intros z [<- |Z]; auto|]. cbn [stmtCost]. rewrite (proj2 (Z.eqb_eq _ _) Q). apply lit_eqb_neq in LE.
        destruct (same_var _ _ V) as [X|X]; [congruence|]. assert (Y : m_lit k = neg x) by (rewrite X, neg_neg; auto). rewrite Y, holds_neg. cbn [andb]. destruct (holds a x); cbn [negb]; lia.
    + injection E as <- <- <-. exists []. sp; auto; [intros z []|tauto|cbn; lia].
    + injection E as <- <- <-. exists []. sp; auto; [intros z []|tauto|cbn; lia].
Qed.

(** What one level of prepareLevels yields. *)
Definition goodNew (s : pasg) (L : Z) (y : mlit) : Prop := m_prio y = L /\ 0 < m_w y <= int_max /\ s (fst (m_lit y)) = None.
Definition varLt (x y : mlit) : Prop := (fst (m_lit x) < fst (m_lit y))%nat.
Definition varLe (x y : mlit) : Prop := (fst (m_lit x) <= fst (m_lit y))%nat.
Lemma ss_app_l : forall (A : Type) (R : A -> A -> Prop) l1 l2, StronglySorted R (l1 ++ l2) -> StronglySorted R l2.
Proof. induction l1 as [|x l1 IH]; intros l2 H; auto. inversion H; subst. auto. Qed.
Lemma ss_snoc : forall (A : Type) (R : A -> A -> Prop) l x, StronglySorted R l -> Forall (fun y => R y x) l -> StronglySorted R (l ++ [x]).
Proof. induction l as [|y l IH]; intros x H F; cbn; [repeat constructor|]. inversion H; inversion F; subst. constructor; auto. rewrite Forall_app. split; auto. Qed.
Lemma level_spec : forall fuel s P L a, topOk s -> extends a s -> forall l R out R' l' out', (length l < fuel)%nat ->
  StronglySorted (fun x y => m_prio x = m_prio y -> varLe x y) l ->
  levelLoop fuel s P L R l out = Ok (R', l', out') ->
  exists pre new, l = pre ++ l' /\ out' = out ++ new /\ (forall k, In k pre -> m_prio k = P) /\ (match l' with k :: _ => m_prio k <> P | [] => True end) /\
    Forall (goodNew s L) new /\ StronglySorted varLt new /\ (forall y, In y new -> exists k, In k pre /\ fst (m_lit k) = fst (m_lit y)) /\
    R + stmtCost pre P a = R' + stmtCost new L a.
Proof.
  induction fuel as [|fuel IH]; intros s P L a TO EX l R out R' l' out' LEN SO E; [lia|]. cbn [levelLoop] in E. destruct l as [|it k].
  { injection E as <- <- <-. exists [], []. rewrite (app_nil_r out). sp; auto; try (intros x []); constructor. }
  destruct (Z.eqb_spec (m_prio it) P) as [Q|Q]; [|injection E as <- <- <-; exists [], []; rewrite (app_nil_r out); sp; auto; try (intros x []); constructor].
  destruct (scan (m_lit it) P (m_w it) R k) as [[w R1] k'] eqn:SC. pose proof SC as SC'. apply (scan_spec _ _ a) in SC. destruct SC as [pre [-> [S1 [S2 S3]]]].
  set (xw := if w <? 0 then (neg (m_lit it), - w, R1 + w) else (m_lit it, w, R1)) in *.
  assert (X : let '(x, w', R2) := xw in fst x = fst (m_lit it) /\ 0 <= w' /\ (if holds a (m_lit it) then w else 0) + R1 = (if holds a x then w' else 0) + R2).
  { unfold xw. destruct (Z.ltb_spec w 0); sp; try lia; auto. rewrite holds_neg. destruct (holds a (m_lit it)); cbn [negb]; lia. }
  destruct xw as [[x w'] R2]. destruct X as [X1 [X2 X3]].
  assert (SO' : StronglySorted (fun x y => m_prio x = m_prio y -> varLe x y) k') by (inversion SO; subst; eapply ss_app_l; eauto).
  assert (LEN' : (length k' < fuel)%nat) by (cbn in LEN; rewrite app_length in LEN; lia).
  assert (COST : (if (m_prio it =? P) && holds a (m_lit it) then m_w it else 0) + R + stmtCost pre P a = (if holds a x then w' else 0) + R2).
  { rewrite (proj2 (Z.eqb_eq _ _) Q). cbn [andb]. lia. }
  assert (PP : forall z, In z (it :: pre) -> m_prio z = P) by (intros z [<- |Z]; auto; apply S1; auto).
  destruct (negb (w' =? 0) && isFree s (fst x)) eqn:FR.
  - apply andb_true_iff in FR. destruct FR as [F1 F2]. apply negb_true_iff, Z.eqb_neq in F1. unfold isFree in F2. destruct (s (fst x)) eqn:SX; [discriminate|]. destruct (fits w') eqn:FT; [|discriminate].
    apply IH with (a := a) in E; auto. destruct E as [pre2 [new2 [-> [-> [A [B [C [D [V F]]]]]]]]].
    exists ((it :: pre) ++ pre2), (ML x L w' :: new2). sp.
    + cbn [app]. rewrite <- app_assoc. auto.
    + rewrite <- app_assoc. auto.
    + intros z Z. apply in_app_or in Z. destruct Z as [Z|Z]; auto.
    + auto.
    + constructor; auto. unfold goodNew, fits in *. cbn. apply andb_true_iff in FT. destruct FT as [_ FT]. apply Z.leb_le in FT. sp; auto; lia.
    + constructor; auto. apply Forall_forall. intros y Y. destruct (V y Y) as [z [Z1 Z2]]. unfold varLt. cbn [m_lit]. rewrite X1, <- Z2.
      (* the first element of pre2 has another variable, and variables increase *)
      destruct pre2 as [|z0 pre2]; [destruct Z1|]. cbn [app] in S2.
      assert (P0 : m_prio z0 = P) by (apply A; cbn; auto).
      inversion SO as [|? ? SS FF]; subst. rewrite Forall_forall in FF.
      assert (L0 : varLe it z0) by (apply FF; [apply in_or_app; right; cbn; auto|congruence]).
      assert (N0 : fst (m_lit z0) <> fst (m_lit it)) by (intro; apply S2; auto).
      assert (L1 : (fst (m_lit z0) <= fst (m_lit z))%nat).
      { destruct Z1 as [<- |Z1]; auto. inversion SO' as [|? ? SS1 FF1]; subst. rewrite Forall_forall in FF1. apply FF1; [apply in_or_app; auto|]. rewrite P0. symmetry. apply A. cbn; auto. }
      unfold varLe in L0. lia.
    + intros y [<- |Y]; [exists it; cbn; auto|]. destruct (V y Y) as [z [Z1 Z2]]. exists z. split; auto. apply in_or_app; auto.
    + rewrite stmtCost_app. cbn [stmtCost m_prio m_lit m_w]. rewrite Z.eqb_refl. cbn [andb]. lia.
  - apply IH with (a := a) in E; auto. destruct E as [pre2 [new2 [-> [-> [A [B [C [D [V F]]]]]]]]].
    exists ((it :: pre) ++ pre2), new2. sp; auto.
    + cbn [app]. rewrite <- app_assoc. auto.
    + intros z Z. apply in_app_or in Z. destruct Z as [Z|Z]; auto.
    + intros y Y. destruct (V y Y) as [z [Z1 Z2]]. exists z. split; auto. apply in_or_app; auto.
    + rewrite stmtCost_app. cbn [stmtCost].
      assert (G : (if holds a x then w' else 0) = (if isTrue s x then w' else 0)).
      { destruct (Z.eqb_spec w' 0) as [->|W]; [destruct (holds a x), (isTrue s x); auto|]. cbn [negb andb] in FR. unfold isFree in FR. destruct (s (fst x)) as [b|] eqn:SX; [|discriminate].
        unfold isTrue, pval, holds. rewrite SX. cbn [option_map]. rewrite (EX _ _ SX). destruct (xorb b (snd x)); auto. }
      destruct (isTrue s x); lia.
Qed.
Lemma level_total : forall fuel s P L l R out, (length l < fuel)%nat -> levelLoop fuel s P L R l out <> UB.
Proof.
  induction fuel as [|fuel IH]; intros s P L l R out LEN; [lia|]. cbn [levelLoop]. destruct l as [|it k]; [discriminate|]. destruct (m_prio it =? P); [|discriminate].
  destruct (scan (m_lit it) P (m_w it) R k) as [[w R1] k'] eqn:SC. apply (scan_spec _ _ (fun _ => true)) in SC. destruct SC as [pre [-> _]]. cbn in LEN. rewrite app_length in LEN.
  destruct (if w <? 0 then (neg (m_lit it), - w, R1 + w) else (m_lit it, w, R1)) as [[x w'] R2]. destruct (negb (w' =? 0) && isFree s (fst x)); [destruct (fits w'); [|discriminate]|]; apply IH; lia.
Qed.

(** * prepareLevels *)
Lemma cmpPrio_asym : forall x y, cmpPrio x y = true -> cmpPrio y x = false.
Proof.
  intros x y. unfold cmpPrio, litLt. rewrite (Z.eqb_sym (m_prio y)), (Nat.eqb_sym (fst (m_lit y))). destruct (Z.eqb_spec (m_prio x) (m_prio y)); cbn [negb]; [|intros E; apply Z.ltb_lt in E; apply Z.ltb_ge; lia].
  destruct (Nat.eqb_spec (fst (m_lit x)) (fst (m_lit y))); cbn [negb]; [intros E; apply Z.ltb_lt in E; apply Z.ltb_ge; lia|]. cbn [andb]. rewrite !orb_false_r. intros E. apply Nat.ltb_lt in E. apply Nat.ltb_ge. lia.
Qed.
Lemma cmpPrio_iff : forall x y, cmpPrio y x = false <-> m_prio y < m_prio x \/ (m_prio y = m_prio x /\ ((fst (m_lit x) < fst (m_lit y))%nat \/ (fst (m_lit x) = fst (m_lit y) /\ m_w y <= m_w x))).
Proof.
  intros x y. unfold cmpPrio, litLt. destruct (Z.eqb_spec (m_prio y) (m_prio x)); cbn [negb]; [|rewrite Z.ltb_ge; lia].
  destruct (Nat.eqb_spec (fst (m_lit y)) (fst (m_lit x))); cbn [negb]; [rewrite Z.ltb_ge; lia|]. cbn [andb]. rewrite orb_false_r, Nat.ltb_ge. lia.
Qed.
Lemma cmpPrio_trans : forall x y z, cmpPrio y x = false -> cmpPrio z y = false -> cmpPrio z x = false.
Proof. intros x y z. rewrite !cmpPrio_iff. lia. Qed.

Definition lits_ok (s : pasg) (n : nat) (ls : list mlit) : Prop :=
  Forall (fun y => 0 <= m_prio y < Z.of_nat n /\ goodNew s (m_prio y) y) ls /\ NoDup (map (fun y => (fst (m_lit y), m_prio y)) ls).
Lemma nodup_app : forall (A : Type) (l1 l2 : list A), NoDup l1 -> NoDup l2 -> (forall x, In x l1 -> ~ In x l2) -> NoDup (l1 ++ l2).
Proof. induction l1 as [|x l1 IH]; intros l2 A1 A2 D; auto. cbn. inversion A1; subst. constructor; [|apply IH; auto; intros; apply D; cbn; auto]. rewrite in_app_iff. intros [H|H]; auto. apply (D x); cbn; auto. Qed.
Lemma ss_le_prio : forall l, StronglySorted (le cmpPrio) l -> StronglySorted (fun x y => m_prio x = m_prio y -> varLe x y) l.
Proof.
  induction l as [|x l IH]; intros S; constructor; inversion S; subst; auto. match goal with H : Forall _ _ |- _ => revert H end. apply Forall_impl. intros y Y E. apply cmpPrio_iff in Y. unfold varLe. lia.
Qed.
Lemma prep_spec : forall fuel s a, topOk s -> extends a s -> forall l out adjust prios out' adjust' prios', (length l < fuel)%nat -> StronglySorted (le cmpPrio) l ->
  length adjust = length prios -> lits_ok s (length prios) out ->
  StronglySorted (fun x y => y < x) prios -> (forall p k, In p prios -> In k l -> m_prio k < p) ->
  prepLoop fuel s l out adjust prios = Ok (out', adjust', prios') ->
  length adjust' = length prios' /\ lits_ok s (length prios') out' /\ StronglySorted (fun x y => y < x) prios' /\
  (forall p, In p prios' <-> In p prios \/ exists k, In k l /\ m_prio k = p) /\ (length prios <= length prios')%nat /\
  (forall i, (i < length prios)%nat -> nth i prios' 0 = nth i prios 0 /\ nth i adjust' 0 + stmtCost out' (Z.of_nat i) a = nth i adjust 0 + stmtCost out (Z.of_nat i) a) /\
  (forall i, (length prios <= i < length prios')%nat -> nth i adjust' 0 + stmtCost out' (Z.of_nat i) a = stmtCost l (nth i prios' 0) a).
Proof.
  induction fuel as [|fuel IH]; intros s a TO EX l out adjust prios out' adjust' prios' LEN SO LA LO SP LT E; [lia|]. cbn [prepLoop] in E. destruct l as [|it k].
  { injection E as <- <- <-. sp; auto; try lia; intros; try lia. split; auto. intros [H|[z [[] _]]]; auto. }
  destruct (levelLoop (S (length (it :: k))) s (m_prio it) (Z.of_nat (length prios)) 0 (it :: k) out) as [[[R l'] out1]| |] eqn:LV; try discriminate. cbn [bind] in E.
  apply (level_spec _ _ _ _ a TO EX) in LV; [|lia|apply ss_le_prio; auto]. destruct LV as [pre [new [EL [-> [A [B [C [D [V F]]]]]]]]].
  assert (pre <> []) by (intros ->; cbn in EL; rewrite <- EL in B; auto).
  assert (SO' : StronglySorted (le cmpPrio) l') by (rewrite EL in SO; eapply ss_app_l; eauto).
  assert (PL : forall z, In z l' -> m_prio z < m_prio it).
  { destruct l' as [|z0 l']; [intros z []|]. assert (Q : m_prio z0 < m_prio it).
    { assert (In z0 (it :: k)) by (rewrite EL; apply in_or_app; right; cbn; auto). destruct H0 as [<- |H0]; [congruence|]. inversion SO; subst. rewrite Forall_forall in H4. specialize (H4 _ H0). apply cmpPrio_iff in H4. lia. }
    intros z [<- |Z]; auto. inversion SO'; subst. rewrite Forall_forall in H3. specialize (H3 _ Z). apply cmpPrio_iff in H3. lia. }
  apply (IH s a TO EX) in E; auto.
  - destruct E as [E1 [E2 [E3 [E4 [E5 [E6 E7]]]]]]. rewrite app_length in *. cbn [length] in *. sp; auto; try lia.
    + intros p. rewrite E4, in_app_iff. split.
      * intros [[H1|[<- |[]]]|[z [Z1 Z2]]]; auto; right; [exists it; cbn; auto|]. exists z. split; auto. rewrite EL. apply in_or_app; auto.
      * intros [H1|[z [Z1 Z2]]]; auto. rewrite EL in Z1. apply in_app_or in Z1. destruct Z1 as [Z1|Z1]; [|right; eauto]. left; right; left. rewrite (A _ Z1) in Z2. auto.
    + intros i L. destruct (E6 i ltac:(lia)) as [G1 G2]. rewrite app_nth1 in G1 by lia. split; auto. rewrite G2, stmtCost_app, app_nth1 by lia.
      rewrite (stmtCost_none new); [lia|]. intros x X Y. rewrite Forall_forall in C. destruct (C x X) as [C1 _]. lia.
    + intros i L. destruct (Nat.eq_dec i (length prios)) as [->|N].
      * destruct (E6 (length prios) ltac:(lia)) as [G1 G2]. rewrite app_nth2, Nat.sub_diag in G1 by lia. cbn in G1. rewrite G2, G1, stmtCost_app, app_nth2, LA, Nat.sub_diag by lia. cbn [nth].
        rewrite (stmtCost_none out); [|intros x X Y; destruct LO as [LO _]; rewrite Forall_forall in LO; destruct (LO x X) as [C1 _]; lia].
        rewrite EL, stmtCost_app, (stmtCost_none l'); [lia|]. intros x X Y. specialize (PL x X). lia.
      * rewrite E7 by lia. rewrite EL, stmtCost_app, (stmtCost_none pre); [lia|]. intros x X Y. rewrite (A x X) in Y.
        (* priorities are distinct *)
        assert (Z0 : nth (length prios) prios' 0 = m_prio it). { destruct (E6 (length prios) ltac:(lia)) as [G1 _]. rewrite app_nth2, Nat.sub_diag in G1 by lia. auto. }
        assert (forall l (i j : nat), StronglySorted (fun x y => y < x) l -> (i < j < length l)%nat -> nth j l 0 < nth i l 0) as SSN.
        { clear. induction l as [|y l IH]; intros i j S L; [cbn in L; lia|]. inversion S; subst. cbn in L. destruct j; [lia|]. destruct i; cbn; [rewrite Forall_forall in H2; apply H2, nth_In; lia|apply IH; auto; lia]. }
        specialize (SSN prios' (length prios) i E3 ltac:(lia)). lia.
  - cbn [length] in LEN. assert (length (it :: k) = length (pre ++ l')) by (rewrite EL; auto). cbn in H0. rewrite app_length in H0. destruct pre; [congruence|]. cbn in H0. lia.
  - rewrite !app_length. cbn. lia.
  - destruct LO as [LO1 LO2]. split.
    + rewrite Forall_app. rewrite app_length. cbn [length]. split; [revert LO1; apply Forall_impl; intros y [Y1 Y2]; split; auto; lia|].
      apply Forall_forall. intros y Y. rewrite Forall_forall in C. pose proof (C y Y) as G. pose proof G as [G1 _]. rewrite G1. split; auto; lia.
    + rewrite map_app. apply nodup_app; auto.
      * clear - D C. induction new as [|y new IH]; cbn; [constructor|]. inversion D; inversion C; subst. constructor; auto. intros X. apply in_map_iff in X. destruct X as [z [Z1 Z2]]. rewrite Forall_forall in H2. specialize (H2 z Z2). unfold varLt in H2. injection Z1 as Z1 _. lia.
      * intros [v p] X Y. apply in_map_iff in X, Y. destruct X as [x [X1 X2]], Y as [y [Y1 Y2]]. rewrite Forall_forall in LO1, C. destruct (LO1 x X2) as [Q1 _], (C y Y2) as [Q2 _]. injection X1 as _ X1. injection Y1 as _ Y1. lia.
  - clear - SP LT. induction prios as [|q prios IH]; cbn; [repeat constructor|]. inversion SP; subst. constructor; [apply IH; auto; intros; apply LT; cbn; auto|]. rewrite Forall_app. split; auto. constructor; auto. apply (LT q it); cbn; auto.
  - intros p z P Z. apply in_app_or in P. destruct P as [P|[<- |[]]]; auto. apply LT; auto. rewrite EL. apply in_or_app; auto.
Qed.
Lemma prep_total : forall fuel s l out adjust prios, (length l < fuel)%nat -> prepLoop fuel s l out adjust prios <> UB.
Proof.
  induction fuel as [|fuel IH]; intros s l out adjust prios LEN; [lia|]. cbn [prepLoop]. destruct l as [|it k]; [discriminate|].
  assert (Q : forall R l' o, levelLoop (S (length (it :: k))) s (m_prio it) (Z.of_nat (length prios)) 0 (it :: k) out = Ok (R, l', o) -> (length l' < length (it :: k))%nat).
  { intros R l' o. cbn [levelLoop]. rewrite Z.eqb_refl.
    assert (G : forall fuel R l out R' l' o, levelLoop fuel s (m_prio it) (Z.of_nat (length prios)) R l out = Ok (R', l', o) -> (length l' <= length l)%nat).
    { clear. induction fuel as [|fuel IH]; intros R l out R' l' o E; [discriminate|]. cbn [levelLoop] in E. destruct l as [|z l]; [injection E as _ <- _; auto|]. destruct (m_prio z =? m_prio it); [|injection E as _ <- _; auto].
      destruct (scan (m_lit z) (m_prio it) (m_w z) R l) as [[w R1] k'] eqn:SC. apply (scan_spec _ _ (fun _ => true)) in SC. destruct SC as [pre [-> _]]. cbn. rewrite app_length.
      destruct (if w <? 0 then (neg (m_lit z), - w, R1 + w) else (m_lit z, w, R1)) as [[x w'] R2]. destruct (negb (w' =? 0) && isFree s (fst x)); [destruct (fits w'); [|discriminate]|]; apply IH in E; lia. }
    destruct (scan (m_lit it) (m_prio it) (m_w it) 0 k) as [[w R1] k'] eqn:SC. apply (scan_spec _ _ (fun _ => true)) in SC. destruct SC as [pre [-> _]]. cbn [length]. rewrite app_length.
    destruct (if w <? 0 then (neg (m_lit it), - w, R1 + w) else (m_lit it, w, R1)) as [[x w'] R2]. destruct (negb (w' =? 0) && isFree s (fst x)); [destruct (fits w'); [|discriminate]|]; intros E; apply G in E; lia. }
  destruct (levelLoop _ _ _ _ _ _ _) as [[[R l'] o]| |] eqn:LV; cbn [bind]; [|discriminate|exfalso; revert LV; apply level_total; lia].
  apply IH. specialize (Q _ _ _ eq_refl). lia.
Qed.
Lemma prepare_spec : forall s lits a ls adjust prios, topOk s -> extends a s -> prepareLevels s lits = Ok (ls, adjust, prios) ->
  length adjust = length prios /\ lits_ok s (length prios) ls /\ StronglySorted (fun x y => y < x) prios /\
  (forall p, In p prios <-> exists k, In k lits /\ m_prio k = p) /\
  (forall i, (i < length prios)%nat -> nth i adjust 0 + stmtCost ls (Z.of_nat i) a = stmtCost lits (nth i prios 0) a).
Proof.
  intros s lits a ls adjust prios TO EX E. unfold prepareLevels in E. pose proof (sort_perm cmpPrio lits) as PM.
  apply (prep_spec _ _ a TO EX) in E; auto.
  - destruct E as [A [B [C [D [_ [_ F]]]]]]. sp; auto.
    + intros p. rewrite D. split; [intros [[]|[k [K1 K2]]]|intros [k [K1 K2]]; right]; exists k; split; auto; [apply (Permutation_in k (Permutation_sym PM)); auto|apply (Permutation_in k PM); auto].
    + intros i L. rewrite F by (cbn; lia). symmetry. apply stmtCost_perm; auto.
  - rewrite <- (Permutation_length PM). auto.
  - apply (sort_sorted _ (fun _ => True)); [intros; apply cmpPrio_asym; auto|intros x y z _ _ _; apply cmpPrio_trans|apply Forall_forall; auto].
  - split; constructor.
  - constructor.
  - intros p k [].
Qed.
