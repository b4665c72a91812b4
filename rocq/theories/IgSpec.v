(** What the shared store of short learnt clauses promises (C52), in terms of what its clients see.

    Threads add clauses of two or three literals; a thread asking for the consequences of a literal [l] becoming true visits entries:
    [Bin q] (then [q] must be true) or [Ter q r] (then [q] or [r] must be true). *)
From Coq Require Import List Bool Arith.
From Verif Require Import Base.
Import ListNotations.

Inductive sclause := C2 (p q : lit) | C3 (p q r : lit).
Inductive entry := Bin (q : lit) | Ter (q r : lit).
Definition lits (c : sclause) : list lit := match c with C2 p q => [p; q] | C3 p q r => [p; q; r] end.
(** What a clause says once one of its literals is false: to be visited for the negation of this literal. *)
Definition entries (c : sclause) : list (lit * entry) :=
  match c with
  | C2 p q => [(neg p, Bin q); (neg q, Bin p)]
  | C3 p q r => [(neg p, Ter q r); (neg q, Ter p r); (neg r, Ter p q)]
  end.
(** Literals are over variables other than the reserved variable 0. *)
Definition wfc (c : sclause) : Prop := Forall (fun p => fst p <> 0) (lits c).
Definition subsumes (c d : sclause) : Prop := incl (lits c) (lits d).

(** Calls and results of the interface *)
Inductive ev :=
| Call (t : nat) (c : sclause)             (* a call to add the clause starts *)
| Ret (t : nat) (c : sclause) (b : bool)   (* it returns: was the clause added? *)
| Begin (t g : nat) (l : lit)              (* visit number [g], of the consequences of [l], starts *)
| Read (g : nat) (e : entry)               (* the visit yields the entry *)
| End_ (g : nat).                          (* it has seen everything *)

Definition lit_dec (a b : lit) : {a = b} + {a <> b}.
Proof. decide equality; [apply bool_dec | apply Nat.eq_dec]. Defined.
Definition entry_dec (a b : entry) : {a = b} + {a <> b}.
Proof. decide equality; apply lit_dec. Defined.
Definition le_dec (a b : lit * entry) : {a = b} + {a <> b}.
Proof. decide equality; [apply entry_dec | apply lit_dec]. Defined.
(** How often does the entry follow for [l] from the clauses? *)
Definition follows (l : lit) (e : entry) (cs : list sclause) : nat := count_occ le_dec (flat_map entries cs) (l, e).
Fixpoint called (tr : list ev) : list sclause := match tr with [] => [] | Call _ c :: r => c :: called r | _ :: r => called r end.
Fixpoint added (tr : list ev) : list sclause := match tr with [] => [] | Ret _ c true :: r => c :: added r | _ :: r => added r end.
Fixpoint seen (g : nat) (tr : list ev) : list entry := match tr with [] => [] | Read g' e :: r => if g' =? g then e :: seen g r else seen g r | _ :: r => seen g r end.
Definition times (e : entry) (es : list entry) : nat := count_occ entry_dec es e.
