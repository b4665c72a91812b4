(** What minimize statements mean. *)
From Coq Require Import List Bool Arith ZArith.
From Verif Require Import Base MnModel.
Import ListNotations.
Open Scope Z_scope.

(** The sum of the weights of the true literals among the statements with priority [p]. *)
Fixpoint stmtCost (ls : list mlit) (p : Z) (a : asg) : Z :=
  match ls with
  | [] => 0
  | x :: ls => (if (m_prio x =? p) && holds a (m_lit x) then m_w x else 0) + stmtCost ls p a
  end.
(** The sum of the weights on level [lev] of the true literals of a minimize constraint, without and with the adjustment. *)
Fixpoint sumOf (d : data) (ls : list (lit * Z)) (lev : nat) (a : asg) : Z :=
  match ls with [] => 0 | x :: ls => (if holds a (fst x) then weight d x lev else 0) + sumOf d ls lev a end.
Definition dataSum (d : data) (lev : nat) (a : asg) : Z := sumOf d (litsOf (d_lits d)) lev a.
Definition dataCost (d : data) (lev : nat) (a : asg) : Z := nth lev (d_adjust d) 0 + dataSum d lev a.
(** Lexicographic comparison of the first [n] components. *)
Definition lexGt (n : nat) (f g : nat -> Z) : Prop := exists l, (l < n)%nat /\ (forall i, (i < l)%nat -> f i = g i) /\ g l < f l.
(** Variable 0 is assigned true on the top level of every solver. *)
Definition topOk (s : pasg) : Prop := s 0%nat = Some true.
(** The net weight of a literal among the statements with priority [p]: what making it true instead of false costs. *)
Fixpoint netWeight (ls : list mlit) (p : Z) (x : lit) : Z :=
  match ls with
  | [] => 0
  | y :: ls => (if m_prio y =? p then if lit_eqb (m_lit y) x then m_w y else if lit_eqb (m_lit y) (neg x) then - m_w y else 0 else 0) + netWeight ls p x
  end.
