(** Nogood deletion: what is protected, what std heaps guarantee, what the caller expects. *)
From Coq Require Import List Bool Arith ZArith Permutation.
From Verif Require Import RdModel.
Import ListNotations.
Local Open Scope Z_scope.

(** Constraints that must not be deleted: in use as a reason, low lbd, or recently improved lbd *)
Definition protected (t : settings) (c : con) : Prop := k_lock c = true \/ k_lbd c <= t_glue t \/ (k_bump c = true /\ k_lbd c <= t_protect t).
(** Lexicographic score: which of two constraints is less valuable *)
Definition worse (sc : score) (a b : con) : Prop :=
  let both c := (k_act c + 1) * (128 - k_lbd c) in
  match sc with
  | ScAct => k_act a < k_act b \/ (k_act a = k_act b /\ both a < both b)
  | ScLbd => k_lbd b < k_lbd a \/ (k_lbd a = k_lbd b /\ both a < both b)
  | ScBoth => both a < both b
  end.
(** Heaps as in the C++ standard: no element is greater than its parent (a max heap for [lt]) *)
Definition isHeap (lt : con -> con -> bool) (l : list con) : Prop :=
  forall i p c, nth_error l (S i) = Some c -> nth_error l (i / 2) = Some p -> lt p c = false.
(** make_heap, pop_heap, push_heap *)
Definition heapOps (lt : con -> con -> bool) (mk pop push : list con -> list con) : Prop :=
  (forall l, Permutation (mk l) l /\ isHeap lt (mk l)) /\
  (forall x l, isHeap lt (x :: l) -> exists l', pop (x :: l) = l' ++ [x] /\ Permutation l' l /\ isHeap lt l') /\
  (forall l c, isHeap lt l -> Permutation (push (l ++ [c])) (l ++ [c]) /\ isHeap lt (push (l ++ [c]))).
(** The kept constraints with halved activities *)
Definition aged (c d : con) : Prop := k_id d = k_id c /\ k_act d = k_act c / 2 /\ k_lbd d = k_lbd c /\ k_lock d = k_lock c /\ k_bump d = false.
(** Subsequence *)
Inductive subseq {A : Type} : list A -> list A -> Prop :=
| sub_nil : subseq [] []
| sub_skip : forall x l m, subseq l m -> subseq l (x :: m)
| sub_take : forall x l m, subseq l m -> subseq (x :: l) (x :: m).
