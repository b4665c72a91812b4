(** Textbook definitions the schedule theorems are stated against. *)
From Coq Require Import NArith.
Local Open Scope N_scope.

(** The i-th element (i >= 1) of the Luby sequence 1,1,2,1,1,2,4,1,...
    (Luby, Sinclair, Zuckerman 1993): [2^(k-1)] if [i = 2^k - 1], and the element
    at [i - 2^(k-1) + 1] if [2^(k-1) <= i < 2^k - 1]. *)
Inductive LubySeq : N -> N -> Prop :=
| luby_end k : 1 <= k -> LubySeq (2 ^ k - 1) (2 ^ (k - 1))
| luby_rec k i v : 1 <= k -> 2 ^ (k - 1) <= i -> i < 2 ^ k - 1 ->
    LubySeq (i - 2 ^ (k - 1) + 1) v -> LubySeq i v.

(** Pascal's triangle. *)
Fixpoint binom (n k : nat) : N :=
  match k, n with
  | O, _ => 1
  | S _, O => 0
  | S k', S n' => binom n' k' + binom n' k
  end.

Fixpoint iter {A} (n : nat) (f : A -> A) (x : A) : A :=
  match n with O => x | S m => f (iter m f x) end.
