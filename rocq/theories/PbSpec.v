(** Pseudo-Boolean problems: what products, hard and soft constraints mean. *)
From Coq Require Import List Bool Arith ZArith.
From Verif Require Import Base WcModel WcSpec SbModel SbSpec PbModel.
Import ListNotations.

Definition conHolds (a : asg) (lits : list wlit) (bound : Z) (eq : bool) : bool := if eq then (wsum a lits =? bound)%Z else (bound <=? wsum a lits)%Z.
(** A call and its result under an assignment: the literal of a product is true iff all its literals are; a hard constraint holds; the literal
    standing for a soft constraint is true iff it is satisfied *)
Definition evOk (a : asg) (e : pop * lit) : Prop :=
  match fst e with
  | PProd lits => holds a (snd e) = forallb (holds a) lits
  | PCon lits b eq cw => if (0 <? cw)%Z then holds a (snd e) = conHolds a lits b eq else conHolds a lits b eq = true
  | PObj _ => True
  end.
(** The cost: weights of violated soft constraints plus objectives *)
Definition evCost (a : asg) (e : pop * lit) : Z :=
  match fst e with
  | PProd _ => 0%Z
  | PCon lits b eq cw => if (0 <? cw)%Z && negb (conHolds a lits b eq) then cw else 0%Z
  | PObj l => wsum a l
  end.
Fixpoint evsCost (a : asg) (l : list (pop * lit)) : Z := match l with [] => 0%Z | e :: l => (evCost a e + evsCost a l)%Z end.
(** Hard constraints *)
Definition isHard (e : pop * lit) : bool := match fst e with PCon _ _ _ cw => negb (0 <? cw)%Z | _ => false end.
(** The calls covered: no equalities; a soft constraint with one literal must not be trivially satisfied *)
Definition plain (o : pop) : Prop :=
  match o with
  | PCon [(_, w)] b eq cw => eq = false /\ ((0 < cw)%Z -> (Z.min 0 w < b)%Z)
  | PCon _ _ eq _ => eq = false
  | _ => True
  end.
(** Calls only use problem variables and results of earlier calls *)
Definition opVars (o : pop) : list nat :=
  match o with PProd l => map fst l | PCon l _ _ _ => map (fun e => fst (fst e)) l | PObj l => map (fun e => fst (fst e)) l end.
Fixpoint scoped (known : list nat) (n : nat) (evs : list (pop * lit)) : Prop :=
  match evs with
  | [] => True
  | e :: evs => (forall v, In v (opVars (fst e)) -> v <= n \/ In v known) /\ scoped (fst (snd e) :: known) n evs
  end.
Definition sameLits (l m : list lit) : Prop := forall x, In x l <-> In x m.
