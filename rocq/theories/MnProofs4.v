From Coq Require Import List Bool Arith ZArith Lia Permutation Sorted.
From Verif Require Import Base MnModel MnSpec MnProofs MnProofs2 MnProofs3.
Import ListNotations.
Open Scope Z_scope.

(** [vl] lists the literals of [d] with their weight vectors. *)
Definition rep (d : data) (vl : list (lit * sv)) : Prop :=
  Forall2 (fun e xv => fst e = fst xv /\ forall lev, weight d e lev = vecWeight (snd xv) lev) (litsOf (d_lits d)) vl.
Definition desc (n : nat) (x y : lit * sv) : Prop := ~ lexGt n (vecWeight (snd y)) (vecWeight (snd x)).
Record Built (s : pasg) (d : data) (vl : list (lit * sv)) : Prop := {
  b_rep : rep d vl;
  b_pos : (0 < numRules d)%nat;
  b_prios : length (d_prios d) = numRules d;
  b_ok : Forall (fun xv => s (fst (fst xv)) = None /\ vecOk (numRules d) (snd xv)) vl;
  b_nd : NoDup (map (fun xv => fst (fst xv)) vl);
  b_desc : StronglySorted (desc (numRules d)) vl;
  b_lowlen : length (d_lower d) = numRules d;
  b_lower : forall j, nth j (d_lower d) 0 = vmin vl j;
  b_end : forall x, In x (litsOf (d_lits d)) -> (numRules d <> 1)%nat -> exists v, vecOk (numRules d) v /\ good (d_weights d) (snd x) v;
  b_shape : (numRules d = 1%nat /\ d_weights d = [] /\ d_lits d = litsOf (d_lits d) ++ [(lit_true, 0)]) \/
    ((2 <= numRules d)%nat /\ exists ws, d_weights d = ws ++ [LW (numRules d - 1) false 0] /\ d_lits d = litsOf (d_lits d) ++ [(lit_true, Z.of_nat (length ws))]) }.
Lemma litsOf_app : forall l e, (forall x, In x l -> fst (fst x) <> 0%nat) -> fst (fst e) = 0%nat -> litsOf (l ++ [e]) = l.
Proof.
  induction l as [|x l IH]; intros e H E; cbn [litsOf app]; [destruct e as [[ve se] ze]; cbn in *; subst; auto|]. rewrite (proj2 (Nat.eqb_neq _ _)) by (apply H; cbn; auto). f_equal. apply IH; auto. intros; apply H; cbn; auto.
Qed.
Lemma ss_map : forall (A B : Type) (f : A -> B) (R : A -> A -> Prop) (R' : B -> B -> Prop) l, (forall x y, In x l -> In y l -> R x y -> R' (f x) (f y)) -> StronglySorted R l -> StronglySorted R' (map f l).
Proof.
  induction l as [|x l IH]; intros H S; cbn; constructor; inversion S; subst; [apply IH; auto; intros; apply H; cbn; auto|]. apply Forall_forall. intros y Y. apply in_map_iff in Y. destruct Y as [z [<- Z]]. rewrite Forall_forall in *. apply H; cbn; auto.
Qed.
Lemma forall2_in_l : forall (A B : Type) (R : A -> B -> Prop) l1 l2 x, Forall2 R l1 l2 -> In x l1 -> exists y, In y l2 /\ R x y.
Proof. intros A B R l1 l2 x F. induction F as [|a b l1 l2 H F IH]; intros I; [destruct I|]. destruct I as [<- |I]; [exists b; cbn; auto|]. destruct (IH I) as [y [Y1 Y2]]. exists y. cbn; auto. Qed.
Lemma forall2_impl : forall (A B : Type) (R R' : A -> B -> Prop) l1 l2, (forall x y, R x y -> R' x y) -> Forall2 R l1 l2 -> Forall2 R' l1 l2.
Proof. intros A B R R' l1 l2 H F. induction F; constructor; auto. Qed.
Lemma multi_spec : forall s ls adjust ws prios, topOk s -> (2 <= length adjust)%nat -> length prios = length adjust ->
  Forall (fun y => s (fst (m_lit y)) = None /\ exists v, vecOk (length adjust) v /\ good ws (m_w y) v) ls -> NoDup (map (fun y => fst (m_lit y)) ls) ->
  exists d vl, createShared ls adjust (Some ws) prios = Ok d /\ d_adjust d = adjust /\ d_prios d = prios /\ Permutation (map (withVec ws) ls) vl /\ Built s d vl.
Proof.
  intros s ls adjust ws prios TO LA LP FO ND. set (n := length adjust) in *. unfold createShared. pose proof (sort_perm (cmpWeight (Some ws)) ls) as PM. set (sl := stableSort (cmpWeight (Some ws)) ls) in *.
  assert (OKV : forall x y, (exists v, vecOk n v /\ good ws (m_w x) v) -> (exists v, vecOk n v /\ good ws (m_w y) v) -> (cmpWeight (Some ws) x y = true <-> lexGt n (vecWeight (vec ws (m_w x))) (vecWeight (vec ws (m_w y))))).
  { intros x y [v [V1 V2]] [w [W1 W2]]. cbn [cmpWeight]. rewrite (good_vec _ _ _ V2), (good_vec _ _ _ W2). destruct (vecOk_okv _ _ V1), (vecOk_okv _ _ W1). apply cmpVec_iff; auto. }
  assert (GD : forall y, In y sl -> exists v, vecOk n v /\ good ws (m_w y) v). { intros y Y. rewrite Forall_forall in FO. apply FO. apply (Permutation_in y (Permutation_sym PM)); auto. }
  assert (SO : StronglySorted (MnProofs.le (cmpWeight (Some ws))) sl).
  { apply (sort_sorted _ (fun y => exists v, vecOk n v /\ good ws (m_w y) v)).
    - intros x y X Y E. apply (OKV x y X Y) in E. apply not_true_is_false. intros F. apply (OKV y x Y X) in F. exact (lex_asym _ _ _ E F).
    - intros x y z X Y Z A B. unfold MnProofs.le in *. apply not_true_is_false. intros C. apply (OKV z x Z X) in C. revert C. apply lex_le_trans with (vecWeight (vec ws (m_w y))); intros Q; [apply (OKV y x Y X) in Q|apply (OKV z y Z Y) in Q]; congruence.
    - revert FO. apply Forall_impl. intros y [_ H]. auto. }
  destruct (share_spec n ws sl [] None 0 GD SO) as [gs [E1 [E2 E3]]]; [constructor|reflexivity|]. cbn [wsOf flat_map lsOf] in E1. rewrite E1.
  destruct (lower_groups n gs 0 [] (repeat 0 n) (n - 1) 0) as [low [L1 [L2 L3]]]; [apply repeat_length|auto|intros e []|]. cbn [app Z.of_nat Nat.add] in L1. fold n. rewrite L1. cbn [bind].
  cbn [flat flat_map app] in E2. fold (flat gs) in E2.
  pose proof (lsOf_corr n gs [] [LW (n - 1) false 0] E3) as CO. cbn [app length] in CO.
  assert (FV : forall xv, In xv (flat gs) -> s (fst (fst xv)) = None /\ vecOk n (snd xv)).
  { intros xv I. rewrite E2 in I. apply in_map_iff in I. destruct I as [y [<- Y]]. rewrite Forall_forall in FO. destruct (FO y) as [F1 [v [F2 F3]]]; [apply (Permutation_in y (Permutation_sym PM)); auto|]. unfold withVec. cbn [fst snd]. rewrite (good_vec _ _ _ F3). auto. }
  assert (LL : litsOf (lsOf 0 gs ++ [(lit_true, Z.of_nat (length (wsOf gs)))]) = lsOf 0 gs).
  { apply litsOf_app; auto. intros x X Q. destruct (forall2_in_l _ _ _ _ _ _ CO X) as [xv [I [I1 I2]]]. destruct (FV xv I) as [G _]. rewrite <- I1 in G. unfold topOk in TO. change (s (fst (fst x)) = None) in G. change (fst (fst x) = 0%nat) in Q. rewrite Q in G. congruence. }
  eexists. exists (flat gs). split; [reflexivity|]. cbn [d_adjust d_prios]. sp; auto.
  - rewrite E2. apply Permutation_map. auto.
  - constructor; cbn [d_adjust d_prios d_lits d_weights d_lower numRules]; unfold numRules; cbn [d_adjust]; fold n; auto; try lia.
    + unfold rep. cbn [d_lits]. rewrite LL. clear -CO LA. eapply forall2_impl; [|exact CO]. cbn beta. intros e xv [A B]. split; auto. intros lev. unfold weight, numRules. cbn [d_adjust d_weights]. fold n. rewrite (proj2 (Nat.eqb_neq n 1)) by lia. rewrite (good_vec _ _ _ B). auto.
    + apply Forall_forall. auto.
    + rewrite E2, map_map. unfold withVec. cbn [fst]. apply (Permutation_NoDup (Permutation_map _ PM)). auto.
    + rewrite E2. apply ss_map with (R := MnProofs.le (cmpWeight (Some ws))); auto. intros x y X Y H. unfold desc, withVec. cbn [snd]. intros Q. apply (OKV y x (GD y Y) (GD x X)) in Q. unfold MnProofs.le in H. congruence.
    + intros j. rewrite L3. assert (Q : nth j (repeat 0 n) 0 = 0); [|lia]. clear. revert j. induction n as [|n IH]; intros [|j]; cbn; auto.
    + rewrite LL. intros x X _. destruct (forall2_in_l _ _ _ _ _ _ CO X) as [xv [I [I1 I2]]]. exists (snd xv). split; auto. apply FV. auto.
    + right. split; [lia|]. exists (wsOf gs). split; auto. rewrite LL. auto.
Qed.
Lemma share_none : forall l last i ws out, shareLoop None l last i ws out = (ws, out ++ map (fun y => (m_lit y, m_w y)) l).
Proof. induction l as [|x l IH]; intros; cbn [shareLoop map]; [rewrite app_nil_r; auto|]. rewrite IH, <- app_assoc. auto. Qed.
Definition single (y : mlit) : lit * sv := (m_lit y, [(0%nat, m_w y)]).
Lemma single_spec : forall s ls adj prios, topOk s -> length prios = 1%nat -> lits_ok s 1 ls ->
  exists d vl, createShared ls [adj] None prios = Ok d /\ d_adjust d = [adj] /\ d_prios d = prios /\ Permutation (map single ls) vl /\ Built s d vl.
Proof.
  intros s ls adj prios TO LP [FO ND]. unfold createShared. pose proof (sort_perm (cmpWeight None) ls) as PM. set (sl := stableSort (cmpWeight None) ls) in *. rewrite share_none. cbn [app length lowerLoop bind repeat].
  assert (FO' : forall y, In y sl -> m_prio y = 0 /\ 0 < m_w y <= int_max /\ s (fst (m_lit y)) = None).
  { intros y Y. rewrite Forall_forall in FO. destruct (FO y) as [A [B [C D]]]; [apply (Permutation_in y (Permutation_sym PM)); auto|]. sp; auto; lia. }
  assert (SO : StronglySorted (MnProofs.le (cmpWeight None)) sl).
  { apply (sort_sorted _ (fun _ => True)); [| |apply Forall_forall; auto]; intros x y; cbn [cmpWeight]; unfold MnProofs.le; cbn [cmpWeight].
    - intros _ _ E. apply Z.ltb_lt in E. apply Z.ltb_ge. lia.
    - intros z _ _ _. rewrite !Z.ltb_ge. lia. }
  assert (LL : litsOf (map (fun y => (m_lit y, m_w y)) sl ++ [(lit_true, 0)]) = map (fun y => (m_lit y, m_w y)) sl).
  { apply litsOf_app; auto. intros x X Q. apply in_map_iff in X. destruct X as [y [<- Y]]. destruct (FO' y Y) as [_ [_ G]]. cbn [fst] in Q. rewrite Q in G. unfold topOk in TO. congruence. }
  eexists. exists (map single sl). split; [reflexivity|]. cbn [d_adjust d_prios]. sp; auto; [apply Permutation_map; auto|].
  constructor; unfold numRules; cbn [d_adjust d_prios d_lits d_weights d_lower length]; auto; try lia.
  - unfold rep. cbn [d_lits Z.of_nat]. rewrite LL. clear. induction sl as [|y sl IH]; cbn [map]; constructor; auto. cbn. split; auto. intros [|lev]; auto.
  - apply Forall_forall. intros xv X. apply in_map_iff in X. destruct X as [y [<- Y]]. destruct (FO' y Y) as [A [B C]]. cbn. split; auto. split; [repeat constructor|]. split; [constructor; [cbn [fst snd]; sp; lia|constructor]|cbn [snd]; lia].
  - rewrite map_map. unfold single. cbn [fst]. apply (Permutation_NoDup (Permutation_map _ PM)).
    assert (F2 : forall y, In y ls -> m_prio y = 0) by (intros y Y; apply FO'; apply (Permutation_in y PM); auto). clear - ND F2. induction ls as [|y ls IH]; cbn in *; constructor; inversion ND; subst; auto.
    intros X. apply in_map_iff in X. destruct X as [z [Z1 Z2]]. apply H1. apply in_map_iff. exists z. split; auto. rewrite Z1, (F2 y), (F2 z); auto.
  - apply ss_map with (R := MnProofs.le (cmpWeight None)); auto. intros x y X Y H. unfold MnProofs.le in H. cbn [cmpWeight] in H. apply Z.ltb_ge in H. unfold desc. intros [l [L [_ B]]]. destruct l; [|lia]. cbn in B. lia.
  - intros j. assert (V : vmin (map single sl) j = 0); [|rewrite V; destruct j as [|[|j]]; auto]. clear - FO'. induction sl as [|y sl IH]; auto. cbn [map vmin single]. rewrite IH by (intros; apply FO'; cbn; auto). destruct (FO' y) as [_ [B _]]; [cbn; auto|]. cbn. destruct j; lia.
  - left. cbn [Z.of_nat]. rewrite LL. auto.
Qed.
Lemma vsum_single : forall ls a, (forall y, In y ls -> m_prio y = 0) -> vsum (map single ls) 0 a = stmtCost ls 0 a.
Proof. induction ls as [|y ls IH]; intros a H; auto. cbn [map single vsum stmtCost vecWeight]. rewrite IH by (intros; apply H; cbn; auto). rewrite (H y) by (cbn; auto). cbn. auto. Qed.
Lemma rep_sum : forall d ls vl lev a, Forall2 (fun e xv => fst e = fst xv /\ forall lev, weight d e lev = vecWeight (snd xv) lev) ls vl -> sumOf d ls lev a = vsum vl lev a.
Proof. intros d ls vl lev a F. induction F as [|e [x v] ls vl [A B] F IH]; auto. cbn [sumOf vsum]. rewrite IH, A, B. auto. Qed.

Lemma build_spec : forall s lits d, topOk s -> (exists a, extends a s) -> build s lits = Ok (Some d) -> exists vl, Built s d vl /\
  StronglySorted (fun x y => y < x) (d_prios d) /\ (forall p, In p (d_prios d) <-> exists k, In k lits /\ m_prio k = p) /\
  (forall a, extends a s -> forall i, (i < numRules d)%nat -> nth i (d_adjust d) 0 + vsum vl i a = stmtCost lits (nth i (d_prios d) 0) a).
Proof.
  intros s lits d TO [a0 EX0] E. unfold build in E. destruct lits as [|l0 lits0]; [discriminate|]. set (lits := l0 :: lits0) in *.
  destruct (prepareLevels s lits) as [[[ls adjust] prios]| |] eqn:PR; try discriminate. cbn [bind] in E.
  destruct (prepare_spec _ _ _ _ _ _ TO EX0 PR) as [P1 [P2 [P3 [P4 _]]]].
  assert (COST : forall a, extends a s -> forall i, (i < length prios)%nat -> nth i adjust 0 + stmtCost ls (Z.of_nat i) a = stmtCost lits (nth i prios 0) a).
  { intros a EX. destruct (prepare_spec _ _ _ _ _ _ TO EX PR) as [_ [_ [_ [_ Q]]]]. auto. }
  assert (NE : prios <> []). { intros ->. assert (In (m_prio l0) []); [|auto]. apply P4. exists l0. cbn; auto. }
  destruct (Nat.ltb_spec 1 (length prios)) as [G|G].
  - rewrite <- P1 in P2. destruct (mergeLevels_spec s a0 ls adjust P2) as [ls' [adj' [ws [M1 [M2 [_ [M4 M5]]]]]]]. rewrite M1 in E. cbn [bind] in E.
    assert (M3 : forall a i, vsum (map (withVec ws) ls') i a + nth i adj' 0 = nth i adjust 0 + stmtCost ls (Z.of_nat i) a).
    { intros a. destruct (mergeLevels_spec s a ls adjust P2) as [ls2 [adj2 [ws2 [N1 [_ [N3 _]]]]]]. rewrite N1 in M1. injection M1 as -> -> ->. auto. }
    destruct (multi_spec s ls' adj' ws prios TO) as [d' [vl [C1 [C2 [C3 [C4 C5]]]]]]; [lia|lia|rewrite M2; auto|auto|]. rewrite C1 in E. cbn [bind] in E. injection E as <-. exists vl. rewrite C3. sp; auto.
    intros a EX i L. unfold numRules in L. rewrite C2 in L. rewrite C2, <- (vsum_perm _ _ i a C4). rewrite <- COST by (auto; lia). specialize (M3 a i). lia.
  - destruct prios as [|p [|q prios]]; [congruence| |cbn in G; lia]. cbn [length] in *. destruct adjust as [|adj [|q adjust]]; try discriminate. 
    destruct (single_spec s ls adj [p] TO eq_refl P2) as [d' [vl [C1 [C2 [C3 [C4 C5]]]]]]. rewrite C1 in E. cbn [bind] in E. injection E as <-. exists vl. rewrite C3. sp; auto.
    intros a EX i L. unfold numRules in L. rewrite C2 in L |- *. cbn in L. assert (i = 0%nat) by lia. subst i. rewrite <- (vsum_perm _ _ 0 a C4). rewrite <- COST by auto. rewrite vsum_single; auto. intros y Y. destruct P2 as [P2 _]. rewrite Forall_forall in P2. destruct (P2 y Y). lia.
Qed.

(** * Success *)
Lemma build_no_ub : forall s lits, topOk s -> (exists a, extends a s) -> build s lits <> UB.
Proof.
  intros s lits TO [a0 EX0]. unfold build. destruct lits as [|l0 lits0]; [discriminate|]. set (lits := l0 :: lits0) in *.
  destruct (prepareLevels s lits) as [[[ls adjust] prios]| |] eqn:PR; cbn [bind]; [|discriminate|exfalso; revert PR; apply prep_total; rewrite <- (Permutation_length (sort_perm cmpPrio lits)); lia].
  destruct (prepare_spec _ _ _ _ _ _ TO EX0 PR) as [P1 [P2 [P3 [P4 _]]]].
  assert (NE : prios <> []). { intros ->. assert (In (m_prio l0) []); [|auto]. apply P4. exists l0. cbn; auto. }
  destruct (Nat.ltb_spec 1 (length prios)) as [G|G].
  - rewrite <- P1 in P2. destruct (mergeLevels_spec s a0 ls adjust P2) as [ls' [adj' [ws [M1 [M2 [_ [M4 M5]]]]]]]. rewrite M1. cbn [bind].
    destruct (multi_spec s ls' adj' ws prios TO) as [d' [vl [C1 _]]]; [lia|lia|rewrite M2; auto|auto|]. rewrite C1. discriminate.
  - destruct prios as [|p [|q prios]]; [congruence| |cbn in G; lia]. cbn [length] in *. destruct adjust as [|adj [|q adjust]]; try discriminate.
    destruct (single_spec s ls adj [p] TO eq_refl P2) as [d' [vl [C1 _]]]. rewrite C1. discriminate.
Qed.
