(** Meaning of linear constraints over total assignments. *)
From Coq Require Import List Bool ZArith.
From Verif Require Import Base WcModel.
Import ListNotations.
Local Open Scope Z_scope.

(** The weight sum of the true literals (exact integers). *)
Fixpoint wsum (a : asg) (l : list wlit) : Z :=
  match l with [] => 0 | (x, w) :: t => (if holds a x then w else 0) + wsum a t end.
Fixpoint total (l : list wlit) : Z :=
  match l with [] => 0 | (_, w) :: t => w + total t end.

(** The normal form promised by weight_constraint.h:35-41. *)
Fixpoint sorted_desc (l : list wlit) : Prop :=
  match l with
  | [] => True
  | (_, w) :: t => (forall e, In e t -> snd e <= w) /\ sorted_desc t
  end.
Record normal_form (top : pasg) (r : rep) : Prop := {
  nf_positive : forall e, In e (r_lits r) -> 1 <= snd e;
  nf_unassigned : forall e, In e (r_lits r) -> top (fst (fst e)) = None;
  nf_distinct : NoDup (map (fun e : wlit => fst (fst e)) (r_lits r));
  nf_sorted : sorted_desc (r_lits r);
  nf_reach : r_reach r = total (r_lits r);
  nf_clamped : forall e, In e (r_lits r) -> snd e <= Z.max (r_bound r) 1 }.

(** What the solver holds after creation. *)
Definition den (a : asg) (c : created) : Prop :=
  match c with
  | CConflict => False
  | CNothing => True
  | CClauses cs => sat_cnf a cs = true
  | CCon W r => holds a W = (r_bound r <=? wsum a (r_lits r))
  end.
Definition all_hold (a : asg) (f : list lit) : Prop := forall l, In l f -> holds a l = true.
(** The sum of the absolute weights: bounds every intermediate value. *)
Fixpoint abs_total (l : list wlit) : Z :=
  match l with [] => 0 | (_, w) :: t => Z.abs w + abs_total t end.

(** A literal of weight one whose variable is free and occurs once. *)
Definition lone_unit (top : pasg) (lits : list wlit) : Prop :=
  exists l1 x w l2, lits = l1 ++ (x, w) :: l2 /\ Z.abs w = 1 /\ top (fst x) = None /\
    forall e, In e (l1 ++ l2) -> fst (fst e) <> fst x.
