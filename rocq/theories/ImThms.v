(** C15: implied literals hold exactly as long as the level they depend on. *)
From Coq Require Import List Bool Arith Lia.
From Verif Require Import Base ImModel ImSpec ImProofs.
Import ListNotations.

(** In every reachable state without an unresolved violated nogood, the true literals are
    exactly those implied on a level that has not been removed since. *)
Theorem c15_true_iff_live : forall s live, reach s live -> t_conf s <> Conf ->
  forall p, isT s p = true <-> exists l, In (p, l) live.
Proof.
  exact (fun s live R C p =>
    let I := proj1 (reach_Inv s live R) in
    conj (fun T => match proj1 (live_true s live I) p T with ex_intro _ l (conj A _) => ex_intro _ l A end)
         (fun H => match H with ex_intro _ l J => proj2 (live_true s live I) C p l J end)).
Qed.
Print Assumptions c15_true_iff_live.

(** In every reachable state, also one with a conflict, no literal is true whose
    levels are all gone, and none is true on a level below the one it depends on. *)
Theorem c15_never_outlives : forall s live, reach s live ->
  forall p, isT s p = true -> exists l, In (p, l) live /\ l <= lev s p /\ l <= DL s.
Proof.
  exact (fun s live R p T => let I := proj1 (reach_Inv s live R) in
    match proj1 (live_true s live I) p T with
    | ex_intro _ l (conj A B) => ex_intro _ l (conj A (conj B (proj1 (i_b _ _ I p l A)))) end).
Qed.
Print Assumptions c15_never_outlives.

(** A literal forced on level [l] is true after any continuation that does not remove
    level [l], however often higher levels are removed and new ones added. *)
Theorem c15_survives : forall s live p l n, reach s live -> op_ok s (OForce p l n) ->
  forall s', keeps l (run s (OForce p l n)) s' -> t_conf s' <> Conf -> isT s' p = true.
Proof. exact survives. Qed.
Print Assumptions c15_survives.

(** A literal all of whose implications are on level [l] or higher is never true again once
    the solver has been below [l], unless it is implied anew. *)
Theorem c15_retracted : forall s live p l, reach s live -> (forall l', In (p, l') live -> l <= l') ->
  forall s1, without p s s1 -> DL s1 < l -> forall s2, without p s1 s2 -> isT s2 p = false.
Proof. exact retracted. Qed.
Print Assumptions c15_retracted.

(** Non-vacuous: with backtrack level 2, a literal is forced on level 1 from level 3, then
    the solver backtracks below 2: the literal is still there, on level 1. *)
Definition runs (ops : list op) : st * list (lit * nat) :=
  fold_left (fun x o => let s' := run (fst x) o in (s', live_step (fst x) (snd x) o s')) ops (init, []).
Lemma runs_snoc : forall ops o, runs (ops ++ [o]) =
  (run (fst (runs ops)) o, live_step (fst (runs ops)) (snd (runs ops)) o (run (fst (runs ops)) o)).
Proof. intros. unfold runs. rewrite fold_left_app. reflexivity. Qed.
Lemma reach_snoc : forall ops o, reach (fst (runs ops)) (snd (runs ops)) -> op_ok (fst (runs ops)) o ->
  reach (fst (runs (ops ++ [o]))) (snd (runs (ops ++ [o]))).
Proof. intros. rewrite runs_snoc. constructor; auto. Qed.
Lemma reachW_snoc : forall ops o, reachW (fst (runs ops)) (snd (runs ops)) -> op_okW (fst (runs ops)) o ->
  reachW (fst (runs (ops ++ [o]))) (snd (runs (ops ++ [o]))).
Proof. intros. rewrite runs_snoc. constructor; auto. Qed.

Definition v (n : nat) : lit := (n, false).
Definition h1 : list op := [OAssume (v 1); OAssume (v 2); OAssume (v 3); OSetBt 2 1; OForce (v 9) 1 false; OAssume (v 4); OConflict; OBacktrack; OConflict].
Ltac ok_tac := vm_compute; repeat split; try lia; try (intros; discriminate); auto.
Ltac h_tac := repeat (match goal with
  | |- reach (fst (runs ?h)) _ => let h' := eval cbv in (removelast h) in let o := eval cbv in (last h OBacktrack) in
       change h with (h' ++ [o]); apply reach_snoc; [|now ok_tac] end); try apply reach_init.
Example c15_nonvacuous : reach (fst (runs h1)) (snd (runs h1)) /\
  isT (fst (runs h1)) (v 9) = true /\ op_ok (fst (runs h1)) OBacktrack /\
  let s := run (fst (runs h1)) OBacktrack in
  DL s = 1 /\ isT s (v 9) = true /\ lev s (v 9) = 1 /\ isT s (neg (v 2)) = true /\ isT s (neg (v 3)) = false.
Proof.
  split; [|vm_compute; repeat split; auto; try lia; intros; discriminate].
  unfold h1. h_tac.
Qed.

(** Not in general: without learning, [OBacktrack] above a projective backtrack level (as
    set by projected enumeration) keeps an implied literal without moving the
    backtrack level. Undoing below it by a plain [OUndo] and going on leaves the literal behind: it is made true
    again under different decisions. *)
Definition h2 : list op := [OAssume (v 1); OAssume (v 2); OAssume (v 3); OSetBt 1 2; OConflict; OBacktrack; OUndo 1;
  OAssume (v 4); OAssume (v 5); OAssume (v 6); OConflict; OBacktrack; OConflict; OBacktrack].
Theorem c15_above_projective_level_refuted :
  ~ (forall s live, reachW s live -> t_conf s <> Conf -> forall p, isT s p = true -> exists l, In (p, l) live).
Proof.
  intros H.
  assert (R : reachW (fst (runs h2)) (snd (runs h2))).
  { unfold h2. repeat (match goal with
    | |- reachW (fst (runs ?h)) _ => let h' := eval cbv in (removelast h) in let o := eval cbv in (last h OBacktrack) in
         change h with (h' ++ [o]); apply reachW_snoc; [|now ok_tac] end); try apply reachW_init. }
  destruct (H _ _ R ltac:(vm_compute; discriminate) (neg (v 3)) ltac:(vm_compute; reflexivity)) as [l J].
  vm_compute in J. repeat destruct J as [J|J]; try discriminate; auto.
Qed.
Print Assumptions c15_above_projective_level_refuted.
