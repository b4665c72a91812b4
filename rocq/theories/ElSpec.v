(** Specification vocabulary of the preprocessor, independent of how it works. *)
From Coq Require Import List Bool Arith.
Import ListNotations.
From Verif Require Import Base ElModel.

(** The other constraints of the problem are any set [R] of assignments that depends on frozen
    variables only ... *)
Definition onlyOn (fz : nat -> bool) (R : asg -> Prop) : Prop :=
  forall a b, (forall v, fz v = true -> a v = b v) -> R a -> R b.
(** ... and the solver infers from them, and from the literals [t] it already knows, only what
    follows, about frozen variables. *)
Definition soundWorld (R : asg -> Prop) (fz : nat -> bool) (w : world) : Prop :=
  forall k t,
    match w_prop w k t with
    | None => forall a, R a -> ~ (forall p, In p t -> holds a p = true)
    | Some ps => forall p, In p ps ->
        fz (fst p) = true /\ forall a, R a -> (forall q, In q t -> holds a q = true) -> holds a p = true
    end.

(** Clauses as they may be added: at least two literals, over problem variables, no variable
    twice (shared_context.h:161-165). *)
Definition properClause (c : list lit) : Prop :=
  2 <= length c /\ NoDup (map fst c) /\ (forall p, In p c -> fst p <> 0).

(** An assignment satisfies all literals of [t] and all clauses of [cs]. *)
Definition satAll (a : asg) (t : list lit) (cs : list (list lit)) : Prop :=
  (forall p, In p t -> holds a p = true) /\ sat_cnf a cs = true.

(** A vector of values in which every variable is true (1) or false (2), and the assignment it
    stands for. *)
Definition totalVec (m : nat -> nat) : Prop := forall v, m v = 1 \/ m v = 2.
Definition asgOf (m : nat -> nat) : asg := fun v => m v =? 1.
