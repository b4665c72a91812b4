(** Specification of rule simplification, independent of the code: what is known must hold in every
    model of the program, given as a pair [N], [M] with [M] a model and [N] a model of the reduct. *)
From Coq Require Import List Bool Arith ZArith.
Import ListNotations.
From Verif Require Import Base LpSpec SrModel.

Definition knows (K : known) (N M : asg) : Prop :=
  forall a, (k_val K a = VFalse \/ k_rel K a = false \/ k_false K a = true -> M a = false)
         /\ (k_val K a = VTrue \/ k_fact K a = true -> N a = true)
         /\ (k_val K a = VWeak -> M a = true).
(** the knowledge follows from the program *)
Definition entailed (P : prog) (K : known) : Prop :=
  forall N M, sub N M -> progT M M P -> progT N M P -> knows K N M.
(** Nothing is known about a literal. (A weakly true atom is true in all models, but its derivation is not known.) *)
Definition unknown (K : known) (p : lit) : Prop :=
  (k_val K (fst p) = VFree /\ k_rel K (fst p) = true) \/ (k_val K (fst p) = VWeak /\ (k_rel K (fst p) = true -> snd p = false)).
(** Bodies in normal form: no duplicates, no complementary literals in a conjunction, no known
    literals, no weights that are zero or exceed the bound, a bound that is open. *)
Definition cleanBody (K : known) (b : body) : Prop :=
  match b with
  | Norm ls => NoDup ls /\ (forall p, In p ls -> ~ In (neg p) ls) /\ forall p, In p ls -> unknown K p
  | Agg b ls => NoDup (map fst ls) /\ (forall p w, In (p, w) ls -> unknown K p /\ (0 < w <= b)%Z) /\ (0 < b <= fold_right (fun x s => snd x + s) 0 ls)%Z
  end.
Definition cleanHead (K : known) (hs : list nat) : Prop := NoDup hs /\ forall a, In a hs -> k_fact K a = false /\ k_false K a = false.
