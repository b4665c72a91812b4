(** When a model counts as enumerated. *)
From Coq Require Import List Bool Arith ZArith.
From Verif Require Import Base ClModel BpModel BpSpec SeModel SeSpec EnModel.
Import ListNotations.

(** [m] stands for [a]: without projection they are the same; with projection they agree on the projected variables; with
    domain recording, [a] has no preferred literal that [m] lacks. *)
Definition covers (n : nat) (md : mode) (m a : asg) : Prop :=
  match md with
  | Decisions => forall v, 1 <= v <= n -> m v = a v
  | Project proj dom _ => forall v, 1 <= v <= n -> proj v = true ->
      match dom v with
      | None => m v = a v
      | Some sg => holds a (v, sg) = true -> holds m (v, sg) = true
      end
  end.
(** The step literal is an assumption on a variable that is not projected. *)
Definition mode_ok (n : nat) (md : mode) (A : list (lit * nat)) : Prop :=
  match md with
  | Decisions | Project _ _ None => True
  | Project proj _ (Some p) => proj (fst p) = false /\ exists l, In (p, l) A
  end.
(** How many models can be distinguished *)
Definition width (n : nat) (md : mode) : nat :=
  match md with Decisions => n | Project proj _ _ => length (filter proj (seq 1 n)) end.
