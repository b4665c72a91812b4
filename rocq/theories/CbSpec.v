(** Brave and cautious consequences. *)
From Coq Require Import List Bool Arith.
From Verif Require Import Base ClModel CbModel.
Import ListNotations.

(** Brave: true in some model; cautious: true in all models. *)
Definition conseq (models : asg -> Prop) (t : ctype) (p : lit) : Prop :=
  match t with
  | Brave => exists a, models a /\ holds a p = true
  | Cautious => forall a, models a -> holds a p = true
  end.
(** All solvers have given up. *)
Definition exhausted (g : gst) : Prop := forall s, In s (g_sol g) -> s_on s = false.
(** Literals reported, and literals still subject to change *)
Definition inAnswer (m : values) (p : lit) : bool := fst (m p).
Definition isEstimate (m : values) (p : lit) : bool := snd (m p).
(** The number of literals with flag [b] *)
Definition flagged (b : bool) (g : gst) : nat := length (filter (fun x => eqb (snd x) b) (g_cons g)).
(** A solver has the latest constraint. *)
Definition current (g : gst) (s : solver) : Prop := fst (g_cur g) = 0 \/ In (snd (g_cur g)) (s_act s).
