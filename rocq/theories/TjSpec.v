(** Strongly connected components, independent of the code *)
From Coq Require Import List Bool Arith Relations.
Import ListNotations.
From Verif Require Import Base LpSpec DsSpec.

Definition edge (succ : nat -> list nat) (a b : nat) : Prop := In b (succ a).
Definition reach (succ : nat -> list nat) : nat -> nat -> Prop := clos_refl_trans nat (edge succ).
Definition mutual (succ : nat -> list nat) (a b : nat) : Prop := reach succ a b /\ reach succ b a.

(** The positive dependency graph of a program over atoms below [nA]: atom [a] is node [a], the body
    of rule [k] is node [nA + k], the disjunction of rule [k] is node [nA + length P + k]. Edges lead
    from an atom to the bodies with a positive occurrence, from there to the head. *)
Definition isDisj (r : rule) : bool := negb (r_choice r) && (1 <? length (r_head r)).
Definition depSize (nA : nat) (P : prog) : nat := nA + length P + length P.
Definition depSucc (nA : nat) (P : prog) (v : nat) : list nat :=
  if v <? nA
  then map (fun k => nA + k) (filter (fun k => match nth_error P k with Some r => existsb (Nat.eqb v) (posAtoms (r_body r)) | None => false end) (seq 0 (length P)))
  else if v <? nA + length P
       then match nth_error P (v - nA) with Some r => if isDisj r then [nA + length P + (v - nA)] else r_head r | None => [] end
       else match nth_error P (v - nA - length P) with Some r => if isDisj r then r_head r else [] | None => [] end.
