(** The unfounded set checker inside the solver: all histories of assignments, checks, conflicts and backtracking.

    What other propagators assign is left open: any literal may be assigned at any time.  A literal is assigned and its watches are
    processed in one step (the code processes them when the literal leaves the propagation queue, in any case before the checker runs again or the literal is undone);
    the order of the watches is arbitrary.  The unit propagation that precedes each run of the checker is represented by the condition [upClosed]. *)
From Coq Require Import List Bool Arith ZArith Permutation.
From Verif Require Import Base UfModel.
Import ListNotations.

Definition assign (A : pasg) (l : lit) : pasg := fun v => if Nat.eqb v (fst l) then Some (negb (snd l)) else A v.
(** Where the checker stands: atoms still to be forced in init(); waiting for propagation; falsifying an unfounded set (with the common reason, if
    already computed); no unfounded set left; conflict *)
Inductive phase := Forcing (xs : list nat) | Open | Falsify (u : list nat) (r : option (list lit)) | Fix | Conf.
(** Assignments at the end of the completed decision levels (last one first), current assignment, checker, nogoods found *)
Record st := St { s_lev : list pasg; s_cur : pasg; s_k : ck; s_ph : phase; s_ng : list (list lit) }.

Section Run.
Variable g : graph.
(** strategy_ == distinct_reason *)
Variable distinct : bool.
(** The completion of a normal body: it is false if a predecessor is false *)
Definition upClosed (A : pasg) : Prop := forall b p, isExt g b = false -> In p (preds g b) -> isFalse A (alit g p) = true -> isFalse A (blit g b) = true.
(** propagate: watches of a literal that has become true *)
Inductive assigned (A : pasg) (k : ck) (l : lit) : pasg -> ck -> Prop :=
  assigned_i : forall evs, A (fst l) = None -> Permutation evs (events g k l) -> assigned A k l (assign A l) (setInv k (k_inv k ++ evs)).
Definition afterAssign (p : phase) : phase := match p with Fix => Open | _ => p end.
(** The reason used for the next atom (assertAtom, 576-590) *)
Definition reasonFor (A : pasg) (k : ck) (u : list nat) (r : option (list lit)) : list lit :=
  match r with Some r => if distinct then computeReason g A k u else r | None => computeReason g A k u end.
Definition giveUp (p : phase) (k : ck) : ck := resetTodo (match p with Falsify u _ => resetUfs u k | _ => k end).

Inductive step : st -> st -> Prop :=
(** another propagator or the search assigns a literal *)
| step_assign : forall L A k p n l A' k', p <> Conf -> assigned A k l A' k' -> step (St L A k p n) (St L A' k' (afterAssign p) n)
(** init: force(~a, 0) (139-142) *)
| step_force_false : forall L A k x xs n, isFalse A (alit g x) = true -> step (St L A k (Forcing (x :: xs)) n) (St L A k (Forcing xs) n)
| step_force_true : forall L A k x xs n, isTrue A (alit g x) = true -> step (St L A k (Forcing (x :: xs)) n) (St L A k Conf ([neg (alit g x)] :: n))
| step_force : forall L A k x xs n A' k', assigned A k (neg (alit g x)) A' k' -> step (St L A k (Forcing (x :: xs)) n) (St L A' k' (Forcing xs) ([neg (alit g x)] :: n))
| step_init_done : forall L A k n, step (St L A k (Forcing []) n) (St L A k Open n)
(** propagateFixpoint (223-232): findUfs *)
| step_check_none : forall L A k n k', upClosed A -> findUfs g A k = Ok ([], k') -> step (St L A k Open n) (St L A k' Fix n)
| step_check_ufs : forall L A k n x u k', upClosed A -> findUfs g A k = Ok (x :: u, k') -> step (St L A k Open n) (St L A k' (Falsify (x :: u) None) n)
(** falsifyUfs (559-579) and assertAtom (582-606) *)
| step_pop : forall L A k x u r n, upClosed A -> isFalse A (alit g x) = true -> step (St L A k (Falsify (x :: u) r) n) (St L A (setUf k x false) (Falsify u r) n)
| step_assert : forall L A k x u r n A' k', upClosed A -> assigned A k (neg (alit g x)) A' k' ->
    step (St L A k (Falsify (x :: u) r) n) (St L A' k' (Falsify (x :: u) (Some (reasonFor A k (x :: u) r))) ((neg (alit g x) :: reasonFor A k (x :: u) r) :: n))
| step_assert_conflict : forall L A k x u r n, upClosed A -> isTrue A (alit g x) = true ->
    step (St L A k (Falsify (x :: u) r) n) (St L A (giveUp (Falsify (x :: u) r) k) Conf ((neg (alit g x) :: computeReason g A k (x :: u)) :: n))
| step_again : forall L A k r n, step (St L A k (Falsify [] r) n) (St L A k Open n)
(** a conflict somewhere else *)
| step_conflict : forall L A k p n, p <> Conf -> step (St L A k p n) (St L A (giveUp p k) Conf n)
(** a new decision level after complete propagation; backtracking (and reset()) after a conflict or complete propagation *)
| step_level : forall L A k n, step (St L A k Fix n) (St (A :: L) A k Fix n)
| step_back : forall L1 B L2 A k p n, p = Fix \/ p = Conf -> step (St (L1 ++ B :: L2) A k p n) (St L2 B (setInv k []) Fix n).
Inductive steps : st -> st -> Prop := steps_nil : forall s, steps s s | steps_cons : forall s t u, steps s t -> step t u -> steps s u.
(** init() under the assignment [A] *)
Definition start (A : pasg) : res st := do k <- init g A; Ok (St [] A k (Forcing (unsourced g k)) []).
End Run.
