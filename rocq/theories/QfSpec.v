(** Cautious consequences and what is reported about them. *)
From Coq Require Import List Bool Arith ZArith.
From Verif Require Import Base ClModel BpModel BpSpec SeModel SeSpec QfModel.
Import ListNotations.

(** [p] is true in all models of the clauses [F] under the assumptions [A]. *)
Definition consequence (F : list clause) (A : list (lit * nat)) (p : lit) : Prop :=
  forall a, holds a lit_true = true -> isModel a F A -> holds a p = true.
(** The last values reported *)
Definition report (e : list event) : option cells :=
  fold_left (fun r x => match x with EModel m | EUp m => Some m | EPush _ => r end) e None.
(** Each query was assumed on a root level of its own. *)
Definition ownLevels (e : list event) : Prop := forall g, In (EPush g) e -> g = true.
(** Queries are selected among the given literals. *)
Definition selects (h : st -> list lit -> lit) : Prop := forall s l, l <> [] -> In (h s l) l.
