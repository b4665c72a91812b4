(** (Max)SAT problems: what the clauses, sums and objectives handed to the builder mean. *)
From Coq Require Import List Bool Arith ZArith.
From Verif Require Import Base WcModel WcSpec SbModel.
Import ListNotations.

(** Everything in the solver's constraint store holds *)
Definition satDb (a : asg) (db : list created) : Prop := forall c, In c db -> den a c.
(** What is required of the solver: derived literals follow from the constraints, failure only if they are contradictory *)
Definition soundProp (prop : list created -> list lit -> list lit * bool) : Prop :=
  forall db tr, (forall l, In l tr -> forall a, satDb a db -> holds a l = true) ->
  exists ext, fst (prop db tr) = tr ++ ext /\ (forall l, In l (tr ++ ext) -> forall a, satDb a db -> holds a l = true) /\
    (snd (prop db tr) = false -> forall a, ~ satDb a db).
(** The hard part: clauses with the hard weight and sums; variable 0 is the constant true *)
Definition hardOp (hw : Z) (a : asg) (o : op) : Prop :=
  match o with
  | OClause c w => w = hw -> sat_clause a c = true
  | OSum l b => (b <= wsum a l)%Z
  | _ => True
  end.
Definition hard (hw : Z) (ops : list op) (a : asg) : Prop := a 0 = true /\ forall o, In o ops -> hardOp hw a o.
(** The cost: weights of violated soft clauses and the objectives *)
Definition costOp (hw : Z) (a : asg) (o : op) : Z :=
  match o with
  | OClause c w => if Z.eqb w hw then 0%Z else if sat_clause a c then 0%Z else w
  | OObj l => wsum a l
  | _ => 0%Z
  end.
Fixpoint cost (hw : Z) (ops : list op) (a : asg) : Z := match ops with [] => 0%Z | o :: ops => (costOp hw a o + cost hw ops a)%Z end.
(** Only declared variables are used *)
Definition inRange (n : nat) (o : op) : Prop :=
  match o with
  | OClause c _ => forall l, In l c -> fst l <= n
  | OSum l _ => forall e, In e l -> fst (fst e) <= n
  | OObj l => forall e, In e l -> fst (fst e) <= n
  | OAssume l => fst l <= n
  end.
Definition agree (n : nat) (a b : asg) : Prop := forall v, v <= n -> a v = b v.
Definition flip (a : asg) (v : nat) : asg := fun u => if Nat.eqb u v then negb (a u) else a u.
