(** Logic programs and their answer sets, independent of the code.

    Rules as in aspif: a disjunctive or choice head over a list of atoms, and a body that is a
    conjunction of literals or a lower bound on a weighted sum of literals. A literal is an atom
    with a sign ([true]: default negation). *)
From Coq Require Import List Bool Arith ZArith.
Import ListNotations.
From Verif Require Import Base.

Inductive body := Norm (ls : list lit) | Agg (bound : Z) (ls : list (lit * Z)).
Record rule := Rule { r_choice : bool; r_head : list nat; r_body : body }.
Definition prog := list rule.

(** Truth of a rule in the reduct w.r.t. [M], evaluated in [N]: negative literals are evaluated in
    [M] (their truth is fixed by the reduct), positive ones in [N]; of a choice head only the atoms
    in [M] are left, and every one of them is to be derived. *)
Definition litT (N M : asg) (p : lit) : bool := if snd p then negb (M (fst p)) else N (fst p).
Definition sumT (N M : asg) (ls : list (lit * Z)) : Z :=
  fold_right (fun x s => if litT N M (fst x) then snd x + s else s)%Z 0%Z ls.
Definition bodyT (N M : asg) (b : body) : bool :=
  match b with
  | Norm ls => forallb (litT N M) ls
  | Agg bound ls => (bound <=? sumT N M ls)%Z
  end.
Definition ruleT (N M : asg) (r : rule) : Prop :=
  bodyT N M (r_body r) = true ->
  if r_choice r then forall h, In h (r_head r) -> M h = true -> N h = true
  else exists h, In h (r_head r) /\ N h = true.
Definition progT (N M : asg) (P : prog) : Prop := forall r, In r P -> ruleT N M r.
Definition sub (N M : asg) : Prop := forall a, N a = true -> M a = true.
(** [M] is an answer set: it satisfies the program and no smaller set satisfies the reduct. *)
Definition stable (P : prog) (M : asg) : Prop :=
  progT M M P /\ forall N, sub N M -> progT N M P -> forall a, N a = M a.

(** Atoms of a program *)
Definition batoms (b : body) : list nat :=
  match b with Norm ls => map fst ls | Agg _ ls => map (fun x => fst (fst x)) ls end.
Definition ratoms (r : rule) : list nat := r_head r ++ batoms (r_body r).
Definition below (k : nat) (P : prog) : Prop := forall r a, In r P -> In a (ratoms r) -> a < k.
(** Sums are of non-negative weights. *)
Definition posB (b : body) : Prop := match b with Norm _ => True | Agg _ ls => forall x, In x ls -> (0 <= snd x)%Z end.
Definition posP (P : prog) : Prop := forall r, In r P -> posB (r_body r).

(** [Q] has the answer sets of [P], up to atoms from [k] on: every answer set of [P] belongs to
    exactly one of [Q] and vice versa. *)
Definition agree (k : nat) (M M' : asg) : Prop := forall a, a < k -> M a = M' a.
Definition sameAS (k : nat) (P Q : prog) : Prop :=
  (forall M, stable P M -> exists M', stable Q M' /\ agree k M M')
  /\ (forall M', stable Q M' -> exists M, stable P M /\ agree k M M')
  /\ (forall M1 M2, stable Q M1 -> stable Q M2 -> agree k M1 M2 -> forall a, M1 a = M2 a).
