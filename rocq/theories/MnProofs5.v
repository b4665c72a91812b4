From Coq Require Import List Bool Arith ZArith Lia Permutation Sorted.
From Verif Require Import Base MnModel MnSpec MnProofs MnProofs2 MnProofs3 MnProofs4.
Import ListNotations.
Open Scope Z_scope.

(** * Overflow *)
Lemma net_app : forall l1 l2 p x, netWeight (l1 ++ l2) p x = netWeight l1 p x + netWeight l2 p x.
Proof. induction l1 as [|y l1 IH]; intros; cbn [netWeight app]; auto. rewrite IH. lia. Qed.
Lemma net_perm : forall l1 l2 p x, Permutation l1 l2 -> netWeight l1 p x = netWeight l2 p x.
Proof. intros l1 l2 p x H. induction H; cbn [netWeight]; lia. Qed.
Lemma net_none : forall l p x, (forall y, In y l -> m_prio y = p -> fst (m_lit y) <> fst x) -> netWeight l p x = 0.
Proof.
  induction l as [|y l IH]; intros p x H; auto. cbn [netWeight]. rewrite IH by (intros; apply H; cbn; auto). destruct (Z.eqb_spec (m_prio y) p) as [E|]; auto.
  assert (N : fst (m_lit y) <> fst x) by (apply H; cbn; auto).
  rewrite (proj2 (lit_eqb_neq (m_lit y) x)) by (intros X; apply N; rewrite X; auto). rewrite (proj2 (lit_eqb_neq (m_lit y) (neg x))) by (intros X; apply N; rewrite X; auto). lia.
Qed.
Lemma net_neg : forall l p x, netWeight l p (neg x) = - netWeight l p x.
Proof.
  induction l as [|y l IH]; intros p x; auto. cbn [netWeight]. rewrite IH, neg_neg. destruct (m_prio y =? p); [|lia]. destruct (lit_eqb (m_lit y) x) eqn:A, (lit_eqb (m_lit y) (neg x)) eqn:B; try lia.
  apply lit_eqb_eq in A, B. rewrite A in B. symmetry in B. apply neg_neq in B. destruct B.
Qed.
Lemma scan_net : forall x P l w R w' R' l', scan x P w R l = (w', R', l') -> exists pre, l = pre ++ l' /\ (forall k, In k pre -> fst (m_lit k) = fst x /\ m_prio k = P) /\
  (match l' with k :: _ => ~ (fst (m_lit k) = fst x /\ m_prio k = P) | [] => True end) /\ w' = w + netWeight pre P x.
Proof.
  intros x P. induction l as [|k l IH]; intros w R w' R' l' E; cbn [scan] in E.
  - injection E as <- <- <-. exists []. sp; auto; [intros k []|cbn; lia].
  - destruct (Nat.eqb_spec (fst (m_lit k)) (fst x)) as [V|V]; cbn [andb] in E; [destruct (Z.eqb_spec (m_prio k) P) as [Q|Q]|].
    + destruct (lit_eqb (m_lit k) x) eqn:LE.
      * apply IH in E. destruct E as [pre [-> [A [B ->]]]]. exists (k :: pre). sp; auto; [intros z [<- |Z]; auto|]. cbn [netWeight]. rewrite (proj2 (Z.eqb_eq _ _) Q), LE. lia.
      * apply IH in E. destruct E as [pre [-> [A [B ->]]]]. exists (k :: pre). sp; auto; [intros z [<- |Z]; auto|]. cbn [netWeight]. rewrite (proj2 (Z.eqb_eq _ _) Q), LE. apply lit_eqb_neq in LE.
        destruct (same_var _ _ V) as [X|X]; [congruence|]. assert (Y : m_lit k = neg x) by (rewrite X, neg_neg; auto). rewrite Y, lit_eqb_refl. lia.
    + injection E as <- <- <-. exists []. sp; auto; [intros z []|tauto|cbn; lia].
    + injection E as <- <- <-. exists []. sp; auto; [intros z []|tauto|cbn; lia].
Qed.
Lemma level_throws : forall fuel s P L l R out, StronglySorted (MnProofs.le cmpPrio) l -> levelLoop fuel s P L R l out = Throws ->
  exists x, s (fst x) = None /\ int_max < netWeight l P x /\ exists k, In k l /\ m_prio k = P /\ fst (m_lit k) = fst x.
Proof.
  induction fuel as [|fuel IH]; intros s P L l R out SO E; [discriminate|]. cbn [levelLoop] in E. destruct l as [|it k]; [discriminate|]. destruct (Z.eqb_spec (m_prio it) P) as [Q|Q]; [|discriminate].
  destruct (scan (m_lit it) P (m_w it) R k) as [[w R1] k'] eqn:SC. apply scan_net in SC. destruct SC as [pre [-> [S1 [S2 S3]]]].
  assert (REST : forall z, In z k' -> m_prio z = P -> fst (m_lit z) <> fst (m_lit it)).
  { destruct k' as [|z0 k']; [intros z []|]. intros z Z PZ V. inversion SO as [|? ? SS FF]; subst. rewrite Forall_forall in FF. apply ss_app_l in SS.
    assert (A0 : cmpPrio z0 it = false) by (apply FF, in_or_app; right; cbn; auto). apply cmpPrio_iff in A0.
    assert (A1 : z = z0 \/ cmpPrio z z0 = false) by (destruct Z as [<- |Z]; auto; right; apply (ss_head _ _ _ _ SS z Z)).
    destruct A1 as [->|A1]; [apply S2; auto|]. apply cmpPrio_iff in A1. apply S2. split; lia. }
  assert (NW : netWeight (it :: pre ++ k') P (m_lit it) = w).
  { cbn [netWeight]. rewrite net_app, (net_none k') by auto. rewrite (proj2 (Z.eqb_eq _ _) Q), lit_eqb_refl. lia. }
  assert (REC : forall R out, levelLoop fuel s P L R k' out = Throws -> exists x, s (fst x) = None /\ int_max < netWeight (it :: pre ++ k') P x /\ exists k, In k (it :: pre ++ k') /\ m_prio k = P /\ fst (m_lit k) = fst x).
  { intros R2 out2 E2. apply IH in E2; [|inversion SO; subst; eapply ss_app_l; eauto]. destruct E2 as [x [X1 [X2 [z [Z1 [Z2 Z3]]]]]]. exists x. sp; auto.
    - change (it :: pre ++ k') with ((it :: pre) ++ k'). rewrite net_app, (net_none (it :: pre)); [lia|]. intros y Y _ V. apply (REST z Z1 Z2). rewrite Z3, <- V. destruct Y as [<- |Y]; auto. apply S1; auto.
    - exists z. sp; auto. right. apply in_or_app; auto. }
  destruct (Z.ltb_spec w 0) as [W|W].
  - destruct (negb (- w =? 0) && isFree s (fst (neg (m_lit it)))) eqn:FR; [|eauto]. destruct (fits (- w)) eqn:FT; [eauto|]. apply andb_true_iff in FR. destruct FR as [_ FR]. exists (neg (m_lit it)). sp.
    + unfold isFree in FR. destruct (s _); [discriminate|auto].
    + rewrite net_neg, NW. unfold fits in FT. apply andb_false_iff in FT. unfold int_min, int_max in *. destruct FT as [FT|FT]; [apply Z.leb_gt in FT; lia|apply Z.leb_gt in FT; lia].
    + exists it. cbn; auto.
  - destruct (negb (w =? 0) && isFree s (fst (m_lit it))) eqn:FR; [|eauto]. destruct (fits w) eqn:FT; [eauto|]. apply andb_true_iff in FR. destruct FR as [_ FR]. exists (m_lit it). sp.
    + unfold isFree in FR. destruct (s _); [discriminate|auto].
    + rewrite NW. unfold fits in FT. apply andb_false_iff in FT. unfold int_min, int_max in *. destruct FT as [FT|FT]; [apply Z.leb_gt in FT; lia|apply Z.leb_gt in FT; lia].
    + exists it. cbn; auto.
Qed.
Lemma prep_throws : forall fuel s l0 l out adjust prios, StronglySorted (MnProofs.le cmpPrio) (l0 ++ l) -> (forall y z, In y l0 -> In z l -> m_prio y <> m_prio z) -> prepLoop fuel s l out adjust prios = Throws ->
  exists p x, s (fst x) = None /\ int_max < netWeight (l0 ++ l) p x.
Proof.
  induction fuel as [|fuel IH]; intros s l0 l out adjust prios SO DJ E; [discriminate|]. cbn [prepLoop] in E. destruct l as [|it k]; [discriminate|].
  pose proof (ss_app_l _ _ _ _ SO) as SO'. pose proof (ss_head _ _ _ _ SO') as HS.
  destruct (levelLoop _ _ _ _ _ _ _) as [[[R l'] o]| |] eqn:LV; [|clear E|discriminate].
  - cbn [bind] in E.
    assert (SPL : exists pre, it :: k = pre ++ l' /\ (forall z, In z pre -> m_prio z = m_prio it) /\ (match l' with z :: _ => m_prio z <> m_prio it | [] => True end)).
    { clear - LV. revert LV. generalize (S (length (it :: k))) as fuel. generalize (it :: k) as l. generalize out as out1. generalize 0 as R0. intros R0 out1 l fuel. revert R0 out1 l. generalize (m_prio it) as P. intros P. 
      induction fuel as [|fuel IH]; intros R0 out1 l LV; [discriminate|]. cbn [levelLoop] in LV. destruct l as [|z l]; [injection LV as _ <- _; exists []; sp; auto; intros ? []|].
      destruct (Z.eqb_spec (m_prio z) P) as [Q|Q]; [|injection LV as _ <- _; exists []; sp; auto; intros ? []].
      destruct (scan (m_lit z) P (m_w z) R0 l) as [[w R1] k'] eqn:SC. apply scan_net in SC. destruct SC as [pre [-> [S1 _]]].
      assert (X : exists R2 out2, levelLoop fuel s P (Z.of_nat (length prios)) R2 k' out2 = Ok (R, l', o)).
      { destruct (if w <? 0 then _ else _) as [[x w'] R2]. destruct (negb (w' =? 0) && isFree s (fst x)); [destruct (fits w'); [eauto|discriminate]|eauto]. }
      destruct X as [R2 [out2 X]]. apply IH in X. destruct X as [pre2 [-> [A B]]]. exists ((z :: pre) ++ pre2). cbn [app]. rewrite <- app_assoc. sp; auto. intros y [<- |Y]; auto. apply in_app_or in Y. destruct Y as [Y|Y]; auto. apply S1; auto. }
    destruct SPL as [pre [EL [PP HD]]]. rewrite EL, app_assoc in *. apply (IH s (l0 ++ pre) l') in E; auto.
    intros y z Y Z. apply in_app_or in Y. destruct Y as [Y|Y]; [apply DJ; auto; apply in_or_app; auto|]. rewrite (PP y Y). destruct l' as [|z0 l']; [destruct Z|].
    destruct Z as [<- |Z]; [auto|]. apply ss_app_l in SO'. pose proof (ss_head _ _ _ _ SO' z Z) as Q. apply cmpPrio_iff in Q.
    assert (Q0 : m_prio z0 < m_prio it).
    { assert (IZ : In z0 (it :: k)) by (rewrite EL; apply in_or_app; right; cbn; auto). destruct IZ as [<- |IZ]; [congruence|]. pose proof (HS z0 IZ) as Q2. apply cmpPrio_iff in Q2. lia. }
    lia.
  - apply level_throws in LV; auto. destruct LV as [x [X1 [X2 _]]]. exists (m_prio it), x. split; auto. rewrite net_app, (net_none l0); [lia|]. intros y Y P. exfalso. apply (DJ y it); cbn; auto.
Qed.
Lemma build_throws : forall s lits, topOk s -> (exists a, extends a s) -> build s lits = Throws -> exists p x, s (fst x) = None /\ int_max < netWeight lits p x.
Proof.
  intros s lits TO [a0 EX0] E. unfold build in E. destruct lits as [|l0 lits0]; [discriminate|]. set (lits := l0 :: lits0) in *.
  destruct (prepareLevels s lits) as [[[ls adjust] prios]| |] eqn:PR; [exfalso; cbn [bind] in E| |discriminate].
  - destruct (prepare_spec _ _ _ _ _ _ TO EX0 PR) as [P1 [P2 [P3 [P4 _]]]].
    assert (NE : prios <> []). { intros ->. assert (In (m_prio l0) []); [|auto]. apply P4. exists l0. cbn; auto. }
    destruct (Nat.ltb_spec 1 (length prios)) as [G|G].
    + rewrite <- P1 in P2. destruct (mergeLevels_spec s a0 ls adjust P2) as [ls' [adj' [ws [M1 [M2 [_ [M4 M5]]]]]]]. rewrite M1 in E. cbn [bind] in E.
      destruct (multi_spec s ls' adj' ws prios TO) as [d' [vl [C1 _]]]; [lia|lia|rewrite M2; auto|auto|]. rewrite C1 in E. discriminate.
    + destruct prios as [|p [|q prios]]; [congruence| |cbn in G; lia]. cbn [length] in *. destruct adjust as [|adj [|q adjust]]; try discriminate.
      destruct (single_spec s ls adj [p] TO eq_refl P2) as [d' [vl [C1 _]]]. rewrite C1 in E. discriminate.
  - unfold prepareLevels in PR. apply (prep_throws _ _ []) in PR; [| |intros y z []].
    + destruct PR as [p [x [A B]]]. exists p, x. split; auto. rewrite (net_perm _ _ p x (sort_perm cmpPrio lits)). auto.
    + cbn [app]. apply (sort_sorted _ (fun _ => True)); [intros; apply cmpPrio_asym; auto|intros x y z _ _ _; apply cmpPrio_trans|apply Forall_forall; auto].
Qed.

(** * Adding the literals of a constraint again *)
Lemma addAdjust_spec : forall fuel P w, (Z.to_nat (Z.abs w) < fuel)%nat -> exists l, addAdjust fuel P w = Ok l /\ (forall y, In y l -> m_prio y = P /\ m_lit y = lit_true /\ int_min <= m_w y <= int_max) /\ forall a, a 0%nat = true -> stmtCost l P a = w.
Proof.
  induction fuel as [|fuel IH]; intros P w L; [lia|]. cbn [addAdjust]. unfold weightMin, weightMax, int_min, int_max in *.
  destruct (Z.ltb_spec w (-2147483648)) as [A|A]; [|destruct (Z.ltb_spec 2147483647 w) as [B|B]].
  - destruct (IH P (w - -2147483648) ltac:(lia)) as [l [E1 [E2 E3]]]. rewrite E1. cbn [bind]. exists (ML lit_true P (-2147483648) :: l). sp; auto.
    + intros y [<- |Y]; auto. cbn [m_prio m_lit m_w]. sp; auto; lia.
    + intros a TR. cbn [stmtCost m_prio m_lit m_w]. rewrite Z.eqb_refl, E3 by auto. unfold holds, lit_true. cbn [fst snd]. rewrite TR. cbn [xorb andb]. lia.
  - destruct (IH P (w - 2147483647) ltac:(lia)) as [l [E1 [E2 E3]]]. rewrite E1. cbn [bind]. exists (ML lit_true P 2147483647 :: l). sp; auto.
    + intros y [<- |Y]; auto. cbn [m_prio m_lit m_w]. sp; auto; lia.
    + intros a TR. cbn [stmtCost m_prio m_lit m_w]. rewrite Z.eqb_refl, E3 by auto. unfold holds, lit_true. cbn [fst snd]. rewrite TR. cbn [xorb andb]. lia.
  - exists [ML lit_true P w]. sp; auto.
    + intros y [<- |[]]. cbn [m_prio m_lit m_w]. sp; auto; lia.
    + intros a TR. cbn [stmtCost m_prio m_lit m_w]. rewrite Z.eqb_refl. unfold holds, lit_true. cbn [fst snd]. rewrite TR. cbn [xorb andb]. lia.
Qed.
Lemma prioAt_nth : forall d i, (i < length (d_prios d))%nat -> prioAt d i = nth i (d_prios d) 0.
Proof. intros d i L. unfold prioAt. rewrite (nth_error_nth' _ 0 L). auto. Qed.
Lemma prios_inj : forall l i j, StronglySorted (fun x y => y < x) l -> (i < length l)%nat -> (j < length l)%nat -> nth i l 0 = nth j l 0 -> i = j.
Proof.
  assert (SSN : forall l (i j : nat), StronglySorted (fun x y => y < x) l -> (i < j < length l)%nat -> nth j l 0 < nth i l 0).
  { induction l as [|y l IH]; intros i j S L; [cbn in L; lia|]. inversion S; subst. cbn in L. destruct j; [lia|]. destruct i; cbn; [rewrite Forall_forall in H2; apply H2, nth_In; lia|apply IH; auto; lia]. }
  intros l i j S I J E. destruct (lt_eq_lt_dec i j) as [[X|X]|X]; auto; [specialize (SSN l i j S ltac:(lia))|specialize (SSN l j i S ltac:(lia))]; lia.
Qed.
Lemma addAdjusts_spec : forall d l n, StronglySorted (fun x y => y < x) (d_prios d) -> length (d_prios d) = (n + length l)%nat -> exists r, addAdjusts d n l = Ok r /\
  (forall y, In y r -> m_lit y = lit_true /\ int_min <= m_w y <= int_max) /\
  forall a i, a 0%nat = true -> (i < length (d_prios d))%nat -> stmtCost r (nth i (d_prios d) 0) a = if Nat.ltb i n then 0 else nth (i - n) l 0.
Proof.
  intros d. induction l as [|w l IH]; intros n SO LE; cbn [addAdjusts].
  { exists []. split; [reflexivity|]. split; [intros y []|]. intros a i TR L. cbn [stmtCost length] in *. rewrite (proj2 (Nat.ltb_lt i n)) by lia. reflexivity. }
  cbn [length] in LE. destruct (IH (S n) SO ltac:(lia)) as [r [E1 [E2 E3]]].
  assert (W : exists q, (if w =? 0 then Ok [] else addAdjust (S (Z.to_nat (Z.abs w))) (prioAt d n) w) = Ok q /\ (forall y, In y q -> m_prio y = prioAt d n /\ m_lit y = lit_true /\ int_min <= m_w y <= int_max) /\ forall a, a 0%nat = true -> stmtCost q (prioAt d n) a = w).
  { destruct (Z.eqb_spec w 0) as [->|].
    - exists []. split; [reflexivity|]. split; [intros y []|intros a _; reflexivity].
    - apply addAdjust_spec. lia. }
  destruct W as [q [Q1 [Q2 Q3]]]. rewrite Q1, E1. cbn [bind]. exists (q ++ r). sp; auto.
  - intros y Y. apply in_app_or in Y. destruct Y as [Y|Y]; auto. destruct (Q2 y Y) as [_ X]. auto.
  - intros a i TR L. rewrite stmtCost_app, E3 by auto. rewrite prioAt_nth in Q2, Q3 by lia. destruct (Nat.eq_dec i n) as [->|N].
    + rewrite Q3 by auto. rewrite Nat.ltb_irrefl, Nat.sub_diag. rewrite (proj2 (Nat.ltb_lt n (S n))) by lia. cbn. lia.
    + rewrite stmtCost_none; [|intros y Y P; apply Q2 in Y; destruct Y as [Y _]; rewrite Y in P; apply N; symmetry; apply (prios_inj (d_prios d)); auto; lia].
      destruct (Nat.ltb_spec i (S n)) as [A|A], (Nat.ltb_spec i n) as [B|B]; try lia; auto. replace (i - n)%nat with (S (i - S n)) by lia. cbn. lia.
Qed.
Lemma vec_cost : forall d v x i a, StronglySorted (fun x y => y < x) (d_prios d) -> StronglySorted svLt v -> (forall e, In e v -> (fst e < length (d_prios d))%nat) -> (i < length (d_prios d))%nat ->
  stmtCost (map (fun lw => ML x (prioAt d (fst lw)) (snd lw)) v) (nth i (d_prios d) 0) a = if holds a x then vecWeight v i else 0.
Proof.
  intros d v x i a SO. induction v as [|[l w] v IH]; intros SV LV L; cbn [map stmtCost]; [destruct (holds a x); auto|]. rewrite IH; auto; [|inversion SV; auto|intros; apply LV; cbn; auto].
  cbn [m_prio m_lit m_w fst snd vecWeight]. rewrite prioAt_nth by (apply (LV (l, w)); cbn; auto). destruct (Nat.eqb_spec l i) as [->|N].
  - rewrite Z.eqb_refl. cbn [andb]. rewrite (zero_tail i w v i) by auto. destruct (holds a x); lia.
  - rewrite (proj2 (Z.eqb_neq _ _)); [cbn; auto|]. intros P. apply N. apply (prios_inj (d_prios d)); auto. apply (LV (l, w)); cbn; auto.
Qed.
Lemma addShared_spec : forall s d vl, Built s d vl -> StronglySorted (fun x y => y < x) (d_prios d) -> exists r, addShared d = Ok r /\
  (forall y, In y r -> int_min <= m_w y <= int_max) /\
  forall a i, a 0%nat = true -> (i < numRules d)%nat -> stmtCost r (nth i (d_prios d) 0) a = dataCost d i a.
Proof.
  intros s d vl B SO. unfold addShared. destruct (addAdjusts_spec d (d_adjust d) 0 SO (b_prios _ _ _ B)) as [q [Q1 [Q2 Q3]]]. rewrite Q1. cbn [bind]. eexists. split; [reflexivity|].
  pose proof (b_rep _ _ _ B) as RP. unfold rep in RP. pose proof (b_ok _ _ _ B) as OKV. split.
  - intros y Y. apply in_app_or in Y. destruct Y as [Y|Y]; [|apply Q2; auto]. destruct (Nat.eqb_spec (numRules d) 1) as [N|N].
    + apply in_map_iff in Y. destruct Y as [x [<- X]]. cbn [m_w]. destruct (forall2_in_l _ _ _ _ _ _ RP X) as [[z v] [Z1 [_ Z3]]]. rewrite Forall_forall in OKV. destruct (OKV _ Z1) as [_ [V1 [V2 V3]]]. cbn [snd] in *.
      specialize (Z3 0%nat). unfold weight in Z3. rewrite N in Z3. cbn in Z3. rewrite Z3. destruct v as [|[l w] v]; [destruct V3|]. inversion V2 as [|? ? [W1 [W2 W3]] _]; subst. cbn [snd fst] in *. rewrite N in W1. assert (l = 0%nat) by lia. subst. cbn. unfold int_min, int_max in *. lia.
    + apply in_flat_map in Y. destruct Y as [x [X Y]]. apply in_map_iff in Y. destruct Y as [e [<- E]]. cbn [m_w]. destruct (b_end _ _ _ B x X N) as [v [[V1 [V2 V3]] V4]]. rewrite (good_vec _ _ _ V4) in E. rewrite Forall_forall in V2. destruct (V2 e E) as [_ [_ W]]. unfold int_min, int_max in *. lia.
  - intros a i TR L. rewrite stmtCost_app, Q3 by (auto; rewrite (b_prios _ _ _ B); auto). rewrite Nat.sub_0_r. cbn [Nat.ltb Nat.leb]. unfold dataCost, dataSum. rewrite Z.add_comm. f_equal.
    destruct (Nat.eqb_spec (numRules d) 1) as [N|N].
    + assert (i = 0%nat) by lia. subst i. pose proof (b_prios _ _ _ B) as LP. rewrite N in LP. destruct (d_prios d) as [|p [|? ?]]; try discriminate. cbn [nth]. clear - N. generalize (litsOf (d_lits d)) as l. induction l as [|x l IH]; auto. cbn [map stmtCost sumOf m_prio m_lit m_w]. rewrite IH, Z.eqb_refl. unfold weight. rewrite N. cbn. auto.
    + pose proof (fun x X => b_end _ _ _ B x X N) as EN. clear Q1 Q2 Q3. induction (litsOf (d_lits d)) as [|x l IH] in EN |- *; auto. cbn [flat_map sumOf]. rewrite stmtCost_app, IH by (intros; apply EN; cbn; auto). f_equal.
      destruct (EN x ltac:(cbn; auto)) as [v [[V1 [V2 V3]] V4]]. unfold weight. rewrite (proj2 (Nat.eqb_neq _ _) N). rewrite (good_vec _ _ _ V4). apply vec_cost; auto; [|rewrite (b_prios _ _ _ B); auto]. intros e E. rewrite Forall_forall in V2. rewrite (b_prios _ _ _ B). apply V2; auto.
Qed.

(** * Bounds *)
Lemma lex_S : forall n f g, lexGt (S n) f g <-> g 0%nat < f 0%nat \/ (f 0%nat = g 0%nat /\ lexGt n (fun i => f (S i)) (fun i => g (S i))).
Proof.
  intros n f g. split.
  - intros [l [L [A B]]]. destruct l as [|l]; auto. right. split; [apply A; lia|]. exists l. sp; auto; [lia|]. intros i I. apply A. lia.
  - intros [H|[H [l [L [A B]]]]]; [exists 0%nat; sp; auto; lia|]. exists (S l). sp; auto; [lia|]. intros [|i] I; auto. apply A. lia.
Qed.
Lemma lex_0 : forall f g, ~ lexGt 0 f g.
Proof. intros f g [l [L _]]. lia. Qed.
Lemma bound_ok : forall adjust lower bound, length lower = length adjust -> boundLoop bound adjust lower true <> None.
Proof.
  induction adjust as [|a adjust IH]; intros [|l lower] bound L; cbn in L; try discriminate. cbn [boundLoop]. destruct bound as [|b bound]; [destruct (boundLoop [] adjust lower true) eqn:E; [discriminate|]; exfalso; revert E; apply IH; lia|].
  cbn [negb]. rewrite andb_false_r. cbn [orb]. destruct (boundLoop bound adjust lower true) eqn:E; [discriminate|]. exfalso. revert E. apply IH. lia.
Qed.
Lemma bound_none : forall adjust lower bound f, length lower = length adjust -> (forall i, (i < length adjust)%nat -> nth i lower 0 <= f i < maxBound) -> boundLoop bound adjust lower false = None ->
  lexGt (Nat.min (length bound) (length adjust)) (fun i => nth i adjust 0 + f i) (fun i => nth i bound 0).
Proof.
  induction adjust as [|a adjust IH]; intros [|l lower] bound f LL LO E; cbn in LL; try discriminate. cbn [boundLoop] in E.
  destruct bound as [|b bound]; [|].
  - exfalso. assert (Q : forall adj low, boundLoop [] adj low false <> None). { clear. induction adj as [|x adj IH]; intros [|y low]; try discriminate. cbn [boundLoop]. destruct (boundLoop [] adj low false) eqn:E; [discriminate|]. exfalso. eapply IH; eauto. } destruct (boundLoop [] adjust lower false) eqn:E2; [discriminate|]. eapply Q; eauto.
  - cbn [length Nat.min]. apply lex_S. cbn [nth]. pose proof (LO 0%nat ltac:(cbn; lia)) as L0. cbn [nth] in L0. rewrite andb_true_r in E. cbn [orb] in E.
    set (B := if (0 <=? a) || (b <=? maxBound + a) then b - a else maxBound) in *.
    assert (BB : B < maxBound \/ B = b - a -> B = b - a) by (unfold B; destruct ((0 <=? a) || (b <=? maxBound + a)); lia).
    destruct (Z.ltb_spec (B - l) 0) as [D|D].
    + left. rewrite BB in D by lia. lia.
    + destruct (Z.ltb_spec 0 (B - l)) as [D'|D'].
      * exfalso. destruct (boundLoop bound adjust lower true) eqn:E2; [discriminate|]. revert E2. apply bound_ok. lia.
      * destruct (boundLoop bound adjust lower false) eqn:E2; [discriminate|]. assert (EB : B = l) by lia. rewrite BB in EB by lia.
        destruct (Z.eq_dec (a + f 0%nat) b); [right; split; auto|left; lia].
        apply (IH lower bound (fun i => f (S i))); auto; try lia. intros i I. apply (LO (S i)). cbn; lia.
Qed.
Lemma bound_some : forall adjust lower bound ok up, length lower = length adjust -> boundLoop bound adjust lower ok = Some up -> length up = length adjust /\
  forall f, (forall i, (i < length adjust)%nat -> f i < maxBound) -> (lexGt (length adjust) f (fun i => nth i up 0) <-> lexGt (Nat.min (length bound) (length adjust)) (fun i => nth i adjust 0 + f i) (fun i => nth i bound 0)).
Proof.
  induction adjust as [|a adjust IH]; intros [|l lower] bound ok up LL E; cbn in LL; try discriminate; cbn [boundLoop] in E.
  { injection E as <-. split; auto. intros f _. rewrite Nat.min_0_r. split; intros H; destruct (lex_0 _ _ H). }
  destruct bound as [|b bound].
  - destruct (boundLoop [] adjust lower ok) as [up'|] eqn:E2; [|discriminate]. cbn in E. injection E as <-. destruct (IH lower [] ok up' ltac:(lia) E2) as [A B]. split; [cbn; lia|]. intros f F. cbn [length Nat.min] in *. split; [|intros H; destruct (lex_0 _ _ H)].
    intros H. apply lex_S in H. cbn [nth] in H. pose proof (F 0%nat ltac:(lia)). destruct H as [H|[H1 H2]]; [lia|]. lia.
  - set (B := if (0 <=? a) || (b <=? maxBound + a) then b - a else maxBound) in *. destruct ((B - l <? 0) && negb ok); [discriminate|]. destruct (boundLoop bound adjust lower _) as [up'|] eqn:E2; [|discriminate]. cbn in E. injection E as <-.
    destruct (IH lower bound _ up' ltac:(lia) E2) as [A C]. split; [cbn; lia|]. intros f F. cbn [length Nat.min]. rewrite !lex_S. cbn [nth]. specialize (C (fun i => f (S i)) (fun i I => F (S i) ltac:(cbn; lia))). rewrite C. pose proof (F 0%nat ltac:(cbn; lia)) as F0.
    unfold B. destruct (Z.leb_spec 0 a); cbn [orb]; [|destruct (Z.leb_spec b (maxBound + a))]; split; intros [H1|[H1 H2]]; try lia; try (left; lia); try (right; split; [lia|exact H2]).
Qed.
