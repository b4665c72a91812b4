(** What the constraints are to say, independent of how they are built. *)
From Coq Require Import List Bool Arith ZArith.
Import ListNotations.
From Verif Require Import Base LpSpec SrModel CpModel.

(** An assignment satisfies a constraint. *)
Definition sumOf (A : asg) (ws : list (lit * Z)) : Z :=
  fold_right (fun x s => if holds A (fst x) then snd x + s else s)%Z 0%Z ws.
Definition sat (A : asg) (c : constr) : Prop :=
  match c with
  | CClause ls => exists l, In l ls /\ holds A l = true
  | CSum l ws bound => holds A l = true <-> (bound <= sumOf A ws)%Z
  end.
Definition satAll (A : asg) (cs : list constr) : Prop := forall c, In c cs -> sat A c.

(** The set of atoms an assignment stands for. *)
Definition atomsOf (pr : prep) (A : asg) : asg := fun a => holds A (p_lit pr a).

(** The rules of a prepared program: one for each plain head and one for each disjunction. The
    [EGamma] and [EGammaChoice] heads are not rules of the program. *)
Definition headRules (b : pbody) : list rule :=
  flat_map (fun h => match snd h with
                     | ENormal => [Rule false [fst h] (b_body b)]
                     | EChoice => [Rule true [fst h] (b_body b)]
                     | _ => []
                     end) (b_heads b)
  ++ map (fun hs => Rule false hs (b_body b)) (b_disj b).
Definition rulesOf (pr : prep) : prog := flat_map headRules (p_bodies pr).

(** The values that were fixed for bodies and atoms *)
Definition hasValue (v : value) (t : bool) : Prop := match v with VFree => True | VFalse => t = false | _ => t = true end.
Definition valuesOk (pr : prep) (M : asg) : Prop :=
  (forall b, In b (p_bodies pr) -> hasValue (b_val b) (bodyT M M (b_body b)))
  /\ (forall a, In a (p_atoms pr) -> hasValue (p_val pr a) (M a)).
(** Every body's literal is true iff the body is. *)
Definition bodiesOk (pr : prep) (A : asg) : Prop :=
  forall b, In b (p_bodies pr) -> holds A (b_lit b) = bodyT (atomsOf pr A) (atomsOf pr A) (b_body b).

(** Every true atom has a rule with a true body for it; if the rule is disjunctive and [strict], no
    other head atom of that rule is true. *)
Definition supported (strict : bool) (P : prog) (M : asg) : Prop :=
  forall a, M a = true -> exists r, In r P /\ In a (r_head r) /\ bodyT M M (r_body r) = true
    /\ (strict = true -> r_choice r = false -> forall h, In h (r_head r) -> M h = true -> h = a).

(** [U] has external support: some rule can derive an atom of [U] without using one of [U], and does
    not already have another true head atom. *)
Definition without (M U : asg) : asg := fun a => M a && negb (U a).
Definition derivable (P : prog) (M U : asg) : Prop :=
  exists r, In r P /\ (exists h, In h (r_head r) /\ U h = true) /\ bodyT (without M U) M (r_body r) = true
    /\ (r_choice r = false -> forall h, In h (r_head r) -> M h = true -> U h = true).
(** No non-empty set of true atoms is unfounded. *)
Definition foundedModel (P : prog) (M : asg) : Prop :=
  forall U, (forall a, U a = true -> M a = true) -> (exists a, U a = true) -> derivable P M U.

(** Conditions on a prepared program.
    Atoms in heads and the like are atoms of the program; others are false. The heads of the disjunctions
    have been given: in [EGammaChoice] form, with the same body, if [p_noGamma]; otherwise as [EGamma]
    (or plain) heads of bodies that add the negation of the other head atoms, unless that would be a
    contradiction. *)
Definition shiftOf (B : body) (hs : list nat) (h : nat) (B' : body) : Prop :=
  forall M, bodyT M M B' = true <-> bodyT M M B = true /\ forall o, In o hs -> o <> h -> M o = false.
Record prepared (pr : prep) : Prop := {
  pw_heads : forall b h, In b (p_bodies pr) -> In h (b_heads b) -> In (fst h) (p_atoms pr);
  pw_disj : forall b hs h, In b (p_bodies pr) -> In hs (b_disj b) -> In h hs -> In h (p_atoms pr);
  pw_other : forall a, ~ In a (p_atoms pr) -> p_lit pr a = litFalse;
  pw_shift : p_noGamma pr = false -> forall b hs h, In b (p_bodies pr) -> In hs (b_disj b) -> In h hs ->
     (exists b' t, In b' (p_bodies pr) /\ In (h, t) (b_heads b') /\ isNormal t = true /\ shiftOf (b_body b) hs h (b_body b'))
     \/ (forall M, bodyT M M (b_body b) = true -> exists o, In o hs /\ o <> h /\ M o = true);
  pw_gamma : p_noGamma pr = false -> forall b' h, In b' (p_bodies pr) -> In (h, EGamma) (b_heads b') ->
     exists b hs, In b (p_bodies pr) /\ In hs (b_disj b) /\ In h hs /\ shiftOf (b_body b) hs h (b_body b');
  pw_noShift : p_noGamma pr = true -> forall b h, In b (p_bodies pr) -> ~ In (h, EGamma) (b_heads b);
  pw_choice : p_noGamma pr = true -> forall b hs h, In b (p_bodies pr) -> In hs (b_disj b) -> In h hs -> In (h, EGammaChoice) (b_heads b);
  pw_noChoice : forall b h, In b (p_bodies pr) -> In (h, EGammaChoice) (b_heads b) -> p_noGamma pr = true /\ exists hs, In hs (b_disj b) /\ In h hs;
  pw_nonempty : forall b hs, In b (p_bodies pr) -> In hs (b_disj b) -> hs <> []
}.
