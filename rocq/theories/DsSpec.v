(** Specification for component-wise shifting, independent of the code *)
From Coq Require Import List Bool Arith ZArith.
Import ListNotations.
From Verif Require Import Base LpSpec.

(** atoms that occur positively in a body *)
Definition posAtoms (b : body) : list nat :=
  match b with
  | Norm ls => map fst (filter (fun p : lit => negb (snd p)) ls)
  | Agg _ ls => map fst (filter (fun p : lit => negb (snd p)) (map fst ls))
  end.
(** Components of a program: a head atom depends positively on atoms of its own component and of
    components ranked below. Atoms without component ([None]) are on no cycle. *)
Definition components (P : prog) (sc : nat -> option nat) : Prop :=
  exists rank : nat -> nat,
    (forall a b, sc a = sc b -> sc a <> None -> rank a = rank b)
    /\ forall r h b, In r P -> In h (r_head r) -> In b (posAtoms (r_body r)) -> rank b < rank h \/ (sc b = sc h /\ sc h <> None).
(** a disjunction over an aggregate is a disjunction over an atom that names the aggregate (C41) *)
Definition normalDisj (P : prog) : Prop := forall r, In r P -> r_choice r = false -> 1 < length (r_head r) -> exists ls, r_body r = Norm ls.
Definition distinctHeads (P : prog) : Prop := forall r, In r P -> NoDup (r_head r).
