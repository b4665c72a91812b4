(** The part of the search space a solver still has to visit. *)
From Coq Require Import List Bool Arith.
From Verif Require Import Base ImModel ImSpec.
Import ListNotations.

(** What is known to hold, and why: a literal, the level on which it holds, and whether it is a decision, was flipped by
    backtracking, or follows from the constraints. *)
Inductive kind := Dec | Flip | Forced.
Definition kindOf (o : op) : kind := match o with OAssume _ => Dec | OBacktrack => Flip | _ => Forced end.
Definition fact := (lit * nat * kind)%type.
(** [T]: the models of the constraints.  A literal is forced on level [l] only if it holds in all models satisfying what holds on levels up to [l]. *)
Definition justified (T : asg -> Prop) (fs : list fact) (o : op) : Prop :=
  match o with
  | OForce p l _ => forall a, T a -> (forall q m k, In (q, m, k) fs -> m <= l -> holds a q = true) -> holds a p = true
  | _ => True
  end.
Inductive hist (T : asg -> Prop) : st -> list fact -> Prop :=
| h_init : hist T init []
| h_op : forall s fs o, hist T s fs -> op_ok s o -> justified T fs o ->
    hist T (run s o) (filter (fun f => snd (fst f) <=? DL (run s o)) fs ++ map (fun x => (x, kindOf o)) (made s o (run s o))).

(** [a] satisfies the decisions of levels 1..l. *)
Definition under (s : st) (l : nat) (a : asg) : Prop := forall i, i < l -> holds a (nth i (t_dec s) (0, false)) = true.
(** [a] satisfies the decisions of the root levels, and is in no part of the search space that the solver has left by
    flipping a decision: where the decisions up to the level of a flipped literal hold, the flipped literal holds. *)
Definition remaining (s : st) (fs : list fact) (a : asg) : Prop :=
  under s (t_root s) a /\ forall p l, In (p, l, Flip) fs -> under s l a -> holds a p = true.
Definition sat (gp : list lit) (a : asg) : Prop := forall p, In p gp -> holds a p = true.
