(** C22: building a minimize constraint. *)
From Coq Require Import List Bool Arith ZArith Lia Permutation Sorted.
From Verif Require Import Base MnModel MnSpec MnProofs MnProofs2 MnProofs3 MnProofs4 MnProofs5 MnProofs6.
Import ListNotations.
Open Scope Z_scope.

(** The levels are the priorities of the statements, highest first, and on each level every total assignment that extends the top-level assignment costs
    what the statements with that priority cost. *)
Theorem c22_costs : forall s lits d a i, topOk s -> build s lits = Ok (Some d) -> extends a s -> (i < numRules d)%nat -> dataCost d i a = stmtCost lits (nth i (d_prios d) 0) a.
Proof.
  intros s lits d a i T B EX L. destruct (build_spec s lits d T (ex_intro _ a EX) B) as [vl [BU [_ [_ CO]]]]. rewrite <- (CO a EX i L). unfold dataCost, dataSum. f_equal. apply rep_sum. apply (b_rep _ _ _ BU).
Qed.
Print Assumptions c22_costs.
Theorem c22_levels : forall s lits d, topOk s -> (exists a, extends a s) -> build s lits = Ok (Some d) ->
  length (d_prios d) = numRules d /\ StronglySorted (fun p q => q < p) (d_prios d) /\ forall p, In p (d_prios d) <-> exists x, In x lits /\ m_prio x = p.
Proof. intros s lits d T E B. destruct (build_spec s lits d T E B) as [vl [BU [A [C _]]]]. split; [apply (b_prios _ _ _ BU)|auto]. Qed.
Print Assumptions c22_levels.
(** No constraint is built only if there are no statements. *)
Theorem c22_none : forall s lits, build s lits = Ok None <-> lits = [].
Proof.
  intros s lits. split; [|intros ->; auto]. intros E. destruct lits as [|x lits]; auto. unfold build in E. destruct (prepareLevels s (x :: lits)) as [[[ls adj] pr]| |]; [|discriminate|discriminate]. cbn [bind] in E.
  destruct (Nat.ltb 1 (length pr)); [destruct (mergeLevels ls adj) as [[[? ?] ?]| |]; [|discriminate|discriminate]; cbn [bind] in E; destruct (createShared _ _ _ _); discriminate|]. destruct pr; cbn [bind] in E; destruct (createShared _ _ _ _); discriminate.
Qed.
Print Assumptions c22_none.
(** Construction never has undefined behaviour, and fails only if the net weight of an unassigned literal at some priority exceeds the range of a weight. *)
Theorem c22_no_error : forall s lits, topOk s -> (exists a, extends a s) -> build s lits <> UB /\ (build s lits = Throws -> exists p x, s (fst x) = None /\ int_max < netWeight lits p x).
Proof. intros s lits T E. split; [apply build_no_ub; auto|apply build_throws; auto]. Qed.
Print Assumptions c22_no_error.
(** The literals of the constraint are unassigned, on different variables, and the first nonzero weight of each of them is positive. *)
Theorem c22_form : forall s lits d, topOk s -> (exists a, extends a s) -> build s lits = Ok (Some d) ->
  NoDup (map (fun x => fst (fst x)) (litsOf (d_lits d))) /\
  forall x, In x (litsOf (d_lits d)) -> s (fst (fst x)) = None /\ lexGt (numRules d) (weight d x) (fun _ => 0) /\ forall i, - int_max <= weight d x i <= int_max.
Proof.
  intros s lits d T E B. destruct (build_spec s lits d T E B) as [vl [BU _]]. split; [rewrite (rep_vars _ _ (b_rep _ _ _ BU)); apply (b_nd _ _ _ BU)|].
  intros x X. destruct (built_in _ _ _ x BU X) as [A [v [V1 V2]]]. sp; auto.
  - eapply lex_ext; [|apply (vecOk_pos _ _ V1)]. intros i I. cbn beta. rewrite V2. auto.
  - intros i. rewrite V2. apply (vecOk_le _ _ i V1).
Qed.
Print Assumptions c22_form.
(** The literals are ordered by their weights, largest first. *)
Theorem c22_order : forall s lits d, topOk s -> (exists a, extends a s) -> build s lits = Ok (Some d) ->
  StronglySorted (fun x y => ~ lexGt (numRules d) (weight d y) (weight d x)) (litsOf (d_lits d)).
Proof. intros s lits d T E B. destruct (build_spec s lits d T E B) as [vl [BU _]]. eapply rep_sorted; eauto. Qed.
Print Assumptions c22_order.
(** The initial lower bound of each level is the least sum any assignment has on that level. *)
Theorem c22_lower : forall s lits d i, topOk s -> (exists a, extends a s) -> build s lits = Ok (Some d) ->
  length (d_lower d) = numRules d /\ (forall a, nth i (d_lower d) 0 <= dataSum d i a) /\ exists a, extends a s /\ dataSum d i a = nth i (d_lower d) 0.
Proof.
  intros s lits d i T E B. destruct (build_spec s lits d T E B) as [vl [BU _]]. sp; [apply (b_lowlen _ _ _ BU)|intros a; eapply vmin_le; eauto|]. destruct E as [a0 EX]. eapply vmin_attained; eauto.
Qed.
Print Assumptions c22_lower.
(** Adding a constraint to a builder again yields statements with the same costs and weights that are in range. *)
Theorem c22_readd : forall s lits d, topOk s -> (exists a, extends a s) -> build s lits = Ok (Some d) -> exists r, addShared d = Ok r /\
  (forall y, In y r -> int_min <= m_w y <= int_max) /\ forall a i, extends a s -> (i < numRules d)%nat -> stmtCost r (nth i (d_prios d) 0) a = stmtCost lits (nth i (d_prios d) 0) a.
Proof.
  intros s lits d T E B. destruct (build_spec s lits d T E B) as [vl [BU [SO _]]]. destruct (addShared_spec s d vl BU SO) as [r [R1 [R2 R3]]]. exists r. sp; auto. intros a i EX L. assert (T0 : a 0%nat = true) by (apply EX; exact T). rewrite R3 by auto. eapply c22_costs; eauto.
Qed.
Print Assumptions c22_readd.
(** Setting a bound: a bound is rejected only if every assignment exceeds it, and otherwise an assignment exceeds the stored bound iff it exceeds the given one.
    Missing components of the given bound do not restrict the costs. (The number of literals is a 32-bit number.) *)
Theorem c22_bound : forall s lits d bound, topOk s -> (exists a, extends a s) -> build s lits = Ok (Some d) -> Z.of_nat (length (d_lits d)) <= 4294967296 ->
  let exceeds a := lexGt (Nat.min (length bound) (numRules d)) (fun i => stmtCost lits (nth i (d_prios d) 0) a) (fun i => nth i bound 0) in
  match setBound d bound with
  | None => forall a, extends a s -> exceeds a
  | Some up => length up = numRules d /\ forall a, extends a s -> (lexGt (numRules d) (fun i => dataSum d i a) (fun i => nth i up 0) <-> exceeds a)
  end.
Proof.
  intros s lits d bound T E B L. cbn zeta. destruct (build_spec s lits d T E B) as [vl [BU _]]. pose proof (b_lowlen _ _ _ BU) as LL. unfold numRules in LL.
  assert (EQ : forall a, extends a s -> (lexGt (Nat.min (length bound) (numRules d)) (fun i => nth i (d_adjust d) 0 + dataSum d i a) (fun i => nth i bound 0) <-> lexGt (Nat.min (length bound) (numRules d)) (fun i => stmtCost lits (nth i (d_prios d) 0) a) (fun i => nth i bound 0))).
  { intros a EX. split; apply lex_ext; intros i I; cbn beta; rewrite <- (c22_costs s lits d a i T B EX ltac:(lia)); unfold dataCost; auto. }
  unfold setBound. destruct (boundLoop bound (d_adjust d) (d_lower d) false) as [up|] eqn:BL.
  - destruct (bound_some _ _ _ _ _ LL BL) as [A C]. split; auto. intros a EX. rewrite <- EQ by auto. apply (C (fun i => dataSum d i a)). intros i I. eapply sum_bound; eauto.
  - intros a EX. apply EQ; auto. apply (bound_none _ _ _ (fun i => dataSum d i a) LL); auto. intros i I. split; [eapply vmin_le; eauto|eapply sum_bound; eauto].
Qed.
Print Assumptions c22_bound.

(** A bound is rejected iff the vector of initial lower bounds exceeds it. *)
Theorem c22_bound_rejected : forall s lits d bound, topOk s -> (exists a, extends a s) -> build s lits = Ok (Some d) -> Z.of_nat (length (d_lits d)) <= 4294967296 ->
  (setBound d bound = None <-> lexGt (Nat.min (length bound) (numRules d)) (fun i => nth i (d_adjust d) 0 + nth i (d_lower d) 0) (fun i => nth i bound 0)).
Proof.
  intros s lits d bound T E B L. destruct (build_spec s lits d T E B) as [vl [BU _]]. pose proof (b_lowlen _ _ _ BU) as LL. unfold numRules in LL. unfold numRules, setBound.
  assert (LM : forall i, (i < length (d_adjust d))%nat -> nth i (d_lower d) 0 < maxBound).
  { intros i _. destruct E as [a0 EX]. destruct (vmin_attained s d vl i a0 BU EX) as [a [_ <-]]. eapply sum_bound; eauto. }
  split.
  - intros H. apply (bound_none _ _ _ (fun i => nth i (d_lower d) 0) LL); auto. intros i I. specialize (LM i I). lia.
  - intros H. destruct (boundLoop bound (d_adjust d) (d_lower d) false) as [up|] eqn:BL; auto. exfalso. apply (bound_some_low _ _ _ _ LL BL LM). apply (proj2 (bound_some _ _ _ _ _ LL BL)); auto.
Qed.
Print Assumptions c22_bound_rejected.

(** Two priorities, duplicates, complementary literals, a negative weight and an assigned literal. *)
Definition exTop : pasg := fun v => if Nat.eqb v 0 then Some true else if Nat.eqb v 4 then Some true else None.
Definition exLits : list mlit := [ML (1%nat, false) 1 2; ML (2%nat, false) 5 3; ML (1%nat, true) 1 5; ML (2%nat, false) 5 1; ML (3%nat, false) 5 (-2); ML (3%nat, true) 1 4; ML (4%nat, false) 1 7; ML (2%nat, true) 1 6].
Example c22_nonvacuous : topOk exTop /\ (exists a, extends a exTop) /\ (exists d, build exTop exLits = Ok (Some d) /\ length (litsOf (d_lits d)) = 3%nat /\ setBound d [-3] = None /\ (exists up, setBound d [2; 10] = Some up)) /\
  build (fun v => if Nat.eqb v 0 then Some true else None) [ML (1%nat, false) 0 2147483647; ML (1%nat, false) 0 1] = Throws.
Proof.
  sp.
  - reflexivity.
  - exists (fun _ => true). intros v b H. unfold exTop in H. destruct (Nat.eqb v 0); [congruence|]. destruct (Nat.eqb v 4); congruence.
  - eexists. split; [vm_compute; reflexivity|]. split; [vm_compute; reflexivity|]. split; [vm_compute; reflexivity|]. eexists. vm_compute. reflexivity.
  - vm_compute. reflexivity.
Qed.
