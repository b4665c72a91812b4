(** Theorems on the assignment and its trail (C14). *)
From Coq Require Import List Bool Arith NArith Lia.
From Verif Require Import Base AsModel AsSpec AsProofs.
Import ListNotations.

(** C14: after any sequence of calls the trail, the values and the levels agree. *)
Theorem c14_trail_agrees : forall ops s, reach init_sol ops s -> agrees s.
Proof. intros ops s R. apply Inv_agrees. exact (reach_Inv _ _ _ Inv_init R). Qed.
Print Assumptions c14_trail_agrees.

(** Levels never decrease along the trail. *)
Theorem c14_levels_monotone : forall ops s i j p q, reach init_sol ops s -> (i <= j)%nat ->
  nth_error (a_trail (so_as s)) i = Some p -> nth_error (a_trail (so_as s)) j = Some q ->
  (level (so_as s) (fst p) <= level (so_as s) (fst q) <= N.of_nat (decisionLevel s))%N.
Proof.
  intros ops s i j p q R L P Q. pose proof (Inv_agrees s (reach_Inv _ _ _ Inv_init R)) as A.
  rewrite (ag_level s A _ _ P), (ag_level s A _ _ Q).
  pose proof (pos_level_le (so_levels s) j).
  assert (pos_level (so_levels s) i <= pos_level (so_levels s) j)%nat.
  { unfold pos_level. clear -L. induction (so_levels s) as [|a l IH]; cbn; [lia|].
    destruct (Nat.leb_spec a i), (Nat.leb_spec a j); cbn; lia. }
  unfold decisionLevel. lia.
Qed.
Print Assumptions c14_levels_monotone.

(** No permitted call reads outside the trail or the level stack. *)
Theorem c14_no_undefined : forall ops s o, reach init_sol ops s -> op_ok s o -> exists s', run_op s o = Ok s'.
Proof. intros ops s o R H. destruct (run_op_Inv s o (reach_Inv _ _ _ Inv_init R) H) as [s' [E _]]. eauto. Qed.
Print Assumptions c14_no_undefined.

(** Undoing to the level that was current when a decision was made restores the
    trail and the level stack of that moment, and the value, level and reason of
    every variable (variables eliminated in between have no value). *)
Theorem c14_undo_exact : forall ops0 s0 p ops s sp ok,
  reach init_sol ops0 s0 -> value (so_as s0) (fst p) = 0%N ->
  (forall l b1 b2, In (OUndo l b1 b2) ops -> (decisionLevel s0 < l)%nat) ->
  reach s0 (OAssume p :: ops) s ->
  exists s', undoUntil s (decisionLevel s0) sp ok = Ok s' /\
    so_levels s' = so_levels s0 /\ a_trail (so_as s') = a_trail (so_as s0) /\
    (forall v, valid (so_as s') v = true -> value (so_as s') v = value (so_as s0) v /\
       (value (so_as s0) v <> 0%N -> v <> 0%nat ->
          level (so_as s') v = level (so_as s0) v /\ a_reason (so_as s') v = a_reason (so_as s0) v)).
Proof.
  intros ops0 s0 p ops s sp ok R0 F A R. apply (undo_exact s0 p ops s sp ok); auto.
  - exact (reach_Inv _ _ _ Inv_init R0).
  - apply Forall_forall. intros o Ho. destruct o; cbn; auto. eapply A; eauto.
Qed.
Print Assumptions c14_undo_exact.

(** Saved phases: undoing stores, for exactly the variables it unassigns and only
    if asked to, their last value; on the top level only if no conflict was
    pending.  All other fields of the phase byte are kept. *)
Theorem c14_phases_saved : forall ops s k sp ok s', reach init_sol ops s -> (k < decisionLevel s)%nat ->
  undoUntil s k sp ok = Ok s' ->
  forall v f, v <> 0%nat -> valid (so_as s) v = true -> (a_pref (so_as s) v < 256)%N -> (f < 4)%N ->
  pref_field (a_pref (so_as s') v) f =
    if (f =? 1)%N && sp && negb (value (so_as s) v =? 0)%N && (N.of_nat k <? level (so_as s) v)%N &&
       (ok || (level (so_as s) v <? N.of_nat (decisionLevel s))%N)
    then value (so_as s) v else pref_field (a_pref (so_as s) v) f.
Proof.
  intros ops s k sp ok s' R K E v f N0 V B F.
  rewrite (phases s k sp ok s' (reach_Inv _ _ _ Inv_init R) K E v N0 V).
  destruct (negb (value (so_as s) v =? 0)%N), (N.of_nat k <? level (so_as s) v)%N, sp, (ok || (level (so_as s) v <? N.of_nat (decisionLevel s))%N);
    cbn [andb]; rewrite ?andb_false_r; cbn [andb]; auto.
  rewrite save_pref_fields by (auto; unfold value; change 3%N with (N.ones 2); rewrite N.land_ones; apply N.mod_lt; discriminate).
  rewrite !andb_true_r. reflexivity.
Qed.
Print Assumptions c14_phases_saved.

(** Example: two decisions with a consequence each, then undoing to level 1. *)
Definition ex_ops : list op :=
  [OForce (5, false) 1; OAssume (1, false); OForce (2, true) 7; OAssume (3, true); OForce (4, false) 9; OPop; OSetSeen 2 1].
Definition run_all (s : sol) (ops : list op) : res sol :=
  fold_left (fun r o => do x <- r; run_op x o) ops (Ok s).
Example c14_nonvacuous : exists s, reach init_sol ex_ops s /\ decisionLevel s = 2%nat /\
  a_trail (so_as s) = [(5, false); (1, false); (2, true); (3, true); (4, false)] /\
  map (fun v => level (so_as s) v) [5; 1; 2; 3; 4]%nat = [0; 1; 1; 2; 2]%N /\
  map (fun v => value (so_as s) v) [5; 1; 2; 3; 4; 6]%nat = [1; 1; 2; 2; 1; 0]%N.
Proof.
  eexists. split.
  - unfold ex_ops. repeat (eapply reach_step; [cbn; try (split; [reflexivity|try discriminate; intros; reflexivity]); try reflexivity; try lia|reflexivity|]).
    apply reach_refl.
  - cbv. repeat split.
Qed.
Example c14_undo_nonvacuous : exists s0 s s',
  reach init_sol (firstn 3 ex_ops) s0 /\ value (so_as s0) 3 = 0%N /\ reach s0 (OAssume (3, true) :: skipn 4 ex_ops) s /\
  undoUntil s (decisionLevel s0) true true = Ok s' /\ a_trail (so_as s') = [(5, false); (1, false); (2, true)] /\
  decisionLevel s' = 1%nat /\ pref_field (a_pref (so_as s') 3) 1 = 2%N.
Proof.
  eexists. eexists. eexists. split; [|split; [|split; [|split]]].
  - cbn [firstn ex_ops]. repeat (eapply reach_step; [cbn; try (split; [reflexivity|try discriminate; intros; reflexivity]); try reflexivity; try lia|reflexivity|]).
    apply reach_refl.
  - reflexivity.
  - cbn [skipn ex_ops]. repeat (eapply reach_step; [cbn; try (split; [reflexivity|try discriminate; intros; reflexivity]); try reflexivity; try lia|reflexivity|]).
    apply reach_refl.
  - reflexivity.
  - cbv. repeat split.
Qed.
