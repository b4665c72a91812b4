(** What the implication graph promises while one thread changes it (C53). Clauses and entries as in [IgSpec]. *)
From Coq Require Import List Bool Arith.
From Verif Require Import Base IgSpec.
Import ListNotations.

(** A total assignment satisfies a clause; an entry *)
Definition satc (A : asg) (c : sclause) : Prop := exists x, In x (lits c) /\ holds A x = true.
Definition elits (e : entry) : list lit := match e with Bin q => [q] | Ter q r => [q; r] end.
Definition sate (A : asg) (e : entry) : Prop := exists x, In x (elits e) /\ holds A x = true.
(** What is visited for literals says: whenever [l] is true, so are its entries. *)
Definition says (visit : lit -> list entry) (A : asg) : Prop := forall l, holds A l = true -> forall e, In e (visit l) -> sate A e.
Definition free (s : pasg) (x : lit) : Prop := s (fst x) = None.
(** Given the top-level assignment [s], the literals need no more propagation: one is true or two are free. *)
Definition settled (s : pasg) (c : list lit) : Prop :=
  (exists x, In x c /\ isTrue s x = true) \/ (exists x y, In x c /\ In y c /\ fst x <> fst y /\ free s x /\ free s y).
(** Propagation of [s] has come to its end without conflict. *)
Definition quiet (visit : lit -> list entry) (s : pasg) : Prop := forall l, isTrue s l = true -> forall e, In e (visit l) -> settled s (elits e).
(** The literals are over different variables. *)
Definition distinct (c : sclause) : Prop := NoDup (map fst (lits c)).
Definition pextends (s' s : pasg) : Prop := forall v b, s v = Some b -> s' v = Some b.
(** All literals of the entry but [x] are false. *)
Definition unit_ (s : pasg) (e : entry) (x : lit) : Prop := exists o, (elits e = x :: o \/ elits e = o ++ [x]) /\ Forall (fun y => isFalse s y = true) o.
(** [x] follows from the entry, visited for [p], and the literals [why], which contain [p] *)
Definition reason (p : lit) (e : entry) (x : lit) (why : list lit) : Prop :=
  In p why /\ forall A, (forall y, In y why -> holds A y = true) -> sate A e -> holds A x = true.
(** The literals set by a visit for [p], latest first, with their reasons: every reason was true when its literal was set. *)
Inductive derived (p : lit) (es : list entry) (s : pasg) : list (lit * list lit) -> Prop :=
| D0 : derived p es s []
| DS x why tr : derived p es s tr -> (forall y, In y why -> isTrue s y = true \/ In y (map fst tr)) -> (exists e, In e es /\ In x (elits e) /\ reason p e x why) -> derived p es s ((x, why) :: tr).
Definition isBinary (c : sclause) : bool := match c with C2 _ _ => true | C3 _ _ _ => false end.
Definition binaries (cs : list sclause) : nat := length (filter isBinary cs).
Definition ternaries (cs : list sclause) : nat := length (filter (fun c => negb (isBinary c)) cs).
