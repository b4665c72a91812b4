(** What the propagator list means. *)
From Coq Require Import List Bool Arith Sorted.
From Verif Require Import Base PlModel.
Import ListNotations.

(** Following next from [o] visits exactly [xs] and ends. *)
Inductive chain (l : plist) : option nat -> list nat -> Prop :=
| ch_nil : chain l None []
| ch_cons : forall x xs, chain l (n_next l x) xs -> chain l (Some x) (x :: xs).
(** Histories; the list of members is kept in order of insertion.  Each call may use any fuel that is enough. *)
Inductive hist (prio : nat -> nat) : plist -> list nat -> Prop :=
| h_new : hist prio new []
| h_add : forall l ms p f l', hist prio l ms -> ~ In p ms -> add prio f l p = Ok l' -> hist prio l' (ms ++ [p])
| h_remove : forall l ms p f l', hist prio l ms -> remove f l p = Ok l' -> hist prio l' (List.remove Nat.eq_dec p ms)
| h_clear : forall l ms f l' ds, hist prio l ms -> clear f l = Ok (l', ds) -> hist prio l' [].
(** The order in which propagators are visited: by priority, those of equal priority in order of insertion. *)
Record order (prio : nat -> nat) (ms xs : list nat) : Prop := {
  o_sorted : StronglySorted (fun a b => prio a <= prio b) xs;
  o_stable : forall k, filter (fun x => Nat.eqb (prio x) k) xs = filter (fun x => Nat.eqb (prio x) k) ms }.
