(** What the assignment of a solver must look like from outside. *)
From Coq Require Import List Bool Arith NArith Sorted.
From Verif Require Import Base AsModel.
Import ListNotations.

(** Level of the trail position [i]: the number of levels opened at or before it. *)
Definition pos_level (starts : list nat) (i : nat) : nat := length (filter (fun st => Nat.leb st i) starts).

(** The trail and the three-valued assignment agree.  Variable 0 is the constant
    and eliminated (invalid) variables have no value. *)
Record agrees (s : sol) : Prop := {
  ag_nodup : NoDup (map fst (a_trail (so_as s)));
  ag_vars : forall p, In p (a_trail (so_as s)) -> fst p <> 0%nat /\ valid (so_as s) (fst p) = true;
  ag_true : forall v, v <> 0%nat -> valid (so_as s) v = true -> (value (so_as s) v = 1%N <-> In (v, false) (a_trail (so_as s)));
  ag_false : forall v, v <> 0%nat -> valid (so_as s) v = true -> (value (so_as s) v = 2%N <-> In (v, true) (a_trail (so_as s)));
  ag_values : forall v, value (so_as s) v = 0%N \/ value (so_as s) v = 1%N \/ value (so_as s) v = 2%N;
  ag_const : value (so_as s) 0 = 1%N;
  ag_level : forall i p, nth_error (a_trail (so_as s)) i = Some p ->
               level (so_as s) (fst p) = N.of_nat (pos_level (so_levels s) i);
  (* no level is empty; a level starts with its decision *)
  ag_starts : StronglySorted lt (so_levels s) /\ forall st, In st (so_levels s) -> (st < length (a_trail (so_as s)))%nat;
  ag_front : (a_front (so_as s) <= length (a_trail (so_as s)))%nat }.

(** Fields of the saved-phase byte: user, saved, preferred and default value. *)
Definition pref_field (rep : N) (k : N) : N := N.land (N.shiftr rep (2 * k)) 3.
