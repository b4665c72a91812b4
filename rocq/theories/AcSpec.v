(** What acyclicity checking promises (C54): edges of a graph are enabled by literals; enabled edges must not form a cycle. *)
From Coq Require Import List Bool Arith.
From Verif Require Import Base.
Import ListNotations.

Record arc := Arc { a_lit : lit; a_tail : nat; a_head : nat }.
(** A walk along arcs of a set, from a node to a node *)
Inductive walk (on : arc -> Prop) : nat -> list arc -> nat -> Prop :=
| W0 x : walk on x [] x
| WS a w y : on a -> walk on (a_head a) w y -> walk on (a_tail a) (a :: w) y.
Definition cyclic (on : arc -> Prop) : Prop := exists x a w, walk on x (a :: w) x.
Definition enabled (G : list arc) (s : pasg) (a : arc) : Prop := In a G /\ isTrue s (a_lit a) = true.
(** The literals [why], literal [p] and literals that are true at top level enable all arcs of a cycle. *)
Definition explains (G : list arc) (top : lit -> bool) (p : lit) (why : list lit) : Prop :=
  exists x a w, walk (fun a => In a G) x (a :: w) x /\ forall b, In b (a :: w) -> a_lit b = p \/ In (a_lit b) why \/ top (a_lit b) = true.
(** Total assignments that disable a cycle *)
Definition enabledT (G : list arc) (A : asg) (a : arc) : Prop := In a G /\ holds A (a_lit a) = true.
Definition pext (s' s : pasg) : Prop := forall v b, s v = Some b -> s' v = Some b.
