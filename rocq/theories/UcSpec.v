(** Costs and optimal models, for core-guided optimisation. *)
From Coq Require Import List Bool Arith ZArith.
Import ListNotations.
From Verif Require Import Base.
Open Scope Z_scope.

(** Costs of an assignment: sum of the weights of the literals that hold *)
Definition costOf (obj : list (lit * Z)) (M : asg) : Z := fold_right (fun (x : lit * Z) z => (if holds M (fst x) then snd x else 0) + z) 0 obj.
Definition agree (n : nat) (M M' : asg) : Prop := forall v, (v < n)%nat -> M v = M' v.
(** The problem is over the first [n] variables *)
Definition over (n : nat) (G : asg -> Prop) : Prop := forall M M', agree n M M' -> G M -> G M'.
Definition litsBelow (n : nat) (ls : list lit) : Prop := forall p, In p ls -> (fst p < n)%nat.
(** Literals known to be true in all models *)
Definition implied (G : asg -> Prop) (val : lit -> bool) : Prop := forall p M, val p = true -> G M -> holds M p = true.
Definition objBelow (n : nat) (obj : list (lit * Z)) : Prop := forall p w, In (p, w) obj -> (fst p < n)%nat.
(** No model is cheaper *)
Definition optimal (G : asg -> Prop) (cost : asg -> Z) (M : asg) : Prop := G M /\ forall M', G M' -> cost M <= cost M'.
(** Comparing costs level by level, most important level first *)
Fixpoint lexLe (objs : list (list (lit * Z))) (M M' : asg) : Prop :=
  match objs with
  | [] => True
  | f :: r => costOf f M < costOf f M' \/ (costOf f M = costOf f M' /\ lexLe r M M')
  end.
(** Costs strictly better than a list of bounds, most important first *)
Fixpoint lexBelow (objs : list (list (lit * Z) * Z)) (M : asg) : Prop :=
  match objs with
  | [] => False
  | (f, u) :: r => costOf f M < u \/ (costOf f M = u /\ lexBelow r M)
  end.
Definition lexOptimal (G : asg -> Prop) (objs : list (list (lit * Z))) (M : asg) : Prop := G M /\ forall M', G M' -> lexLe objs M M'.
