(** Model of PBBuilder (/repo/src/program_builder.cpp:212-336): pseudo-Boolean problems with products and soft constraints.

    Simplifications.  The solver behind the builder is as in SbModel.  A vector modified in place is its kept prefix, the stale part
    and the unread rest.  The hash of a product (abst) is determined by its literals, hence the index of products is a list of pairs searched by
    its key.  The clauses of a product are added in one step.  The bound on soft costs, projection, output and the parser are left out. *)
From Coq Require Import List Bool Arith ZArith.
From Verif Require Import Base WcModel SbModel.
Import ListNotations.

Record pb := Pb { p_db : list created; p_tr : list lit; p_ok : bool; p_idx : list (list lit * lit); p_aux : nat; p_max : nat; p_min : list wlit }.
Inductive pop := PProd (lits : list lit) | PCon (lits : list wlit) (bound : Z) (eq : bool) (cw : Z) | PObj (lits : list wlit).

(** Literal order (/repo/clasp/literal.h: operator<): by variable, then sign *)
Definition key (l : lit) : nat := 2 * fst l + if snd l then 1 else 0.
Fixpoint insertLit (x : lit) (l : list lit) : list lit := match l with [] => [x] | y :: r => if Nat.leb (key x) (key y) then x :: l else y :: insertLit x r end.
Definition sortLits (l : list lit) : list lit := fold_right insertLit [] l.
Inductive pout := PFalse | PUnsorted (v : list lit) | PDone (kept : list lit).
(** productSubsumed (283-309), the loop: the vector is kept ++ stale ++ rest *)
Fixpoint prodLoop (top : pasg) (kept stale rest : list lit) (last : lit) : pout :=
  match rest with
  | [] => PDone kept
  | x :: r =>
    if isFalse top x || lit_eqb (neg x) last then PFalse
    else if Nat.ltb (fst x) (fst last) then PUnsorted (kept ++ stale ++ rest)
    else if negb (isTrue top x) && negb (lit_eqb last x) then
      prodLoop top (kept ++ [x]) (match stale with [] => [] | _ :: s => s ++ [x] end) r x
    else prodLoop top kept (stale ++ [x]) r last
  end.
Inductive psub := Subsumed (l : lit) | Product (kept : list lit).
(** productSubsumed; [fuel]: number of calls *)
Fixpoint productSubsumed (fuel : nat) (top : pasg) (lits : list lit) : res psub :=
  match fuel with
  | O => UB
  | S fuel =>
    match prodLoop top [] [] lits (0, false) with
    | PFalse => Ok (Subsumed (0, true))
    | PUnsorted v => productSubsumed fuel top (sortLits v)
    | PDone [] => Ok (Subsumed (0, false))
    | PDone [l] => Ok (Subsumed l)
    | PDone kept => Ok (Product kept)
    end
  end.
Fixpoint lits_eqb (l m : list lit) : bool := match l, m with [], [] => true | x :: l, y :: m => lit_eqb x y && lits_eqb l m | _, _ => false end.
Definition lookup (idx : list (list lit * lit)) (k : list lit) : option lit := match find (fun e => lits_eqb (fst e) k) idx with Some e => Some (snd e) | None => None end.
Section Pb.
Variable prop : list created -> list lit -> list lit * bool.
(** prepareProblem (219-226): [n] problem variables, [m] auxiliary ones *)
Definition pinit (n m : nat) : pb := Pb [CClauses [[(0, false)]]] [] true [] (S n) (n + m) [].
(** getAuxVar (227-230) *)
Definition getAux (x : pb) : res (nat * pb) :=
  if Nat.leb (p_aux x) (p_max x) then Ok (p_aux x, Pb (p_db x) (p_tr x) (p_ok x) (p_idx x) (S (p_aux x)) (p_max x) (p_min x)) else Throws.
Definition padd (x : pb) (cs : list created) : pb :=
  let '(tr, ok) := prop (cs ++ p_db x) (p_tr x) in Pb (cs ++ p_db x) tr ok (p_idx x) (p_aux x) (p_max x) (p_min x).
Definition pmin (x : pb) (l : list wlit) : pb := Pb (p_db x) (p_tr x) (p_ok x) (p_idx x) (p_aux x) (p_max x) (p_min x ++ l).
Definition remember (x : pb) (k : list lit) (l : lit) : pb := Pb (p_db x) (p_tr x) (p_ok x) ((k, l) :: p_idx x) (p_aux x) (p_max x) (p_min x).
(** addProductConstraints (310-321) *)
Definition productClauses (eq : lit) (lits : list lit) : list created :=
  [CClauses (map (fun l => [neg eq; l]) lits ++ [map neg lits ++ [eq]])].
(** addProduct (269-282) *)
Definition addProduct (x : pb) (lits : list lit) : res (lit * pb) :=
  if negb (p_ok x) then Ok ((0, true), x)
  else
    do r <- productSubsumed 2 (topOf (p_tr x)) lits;
    match r with
    | Subsumed l => Ok (l, x)
    | Product kept =>
      match lookup (p_idx x) kept with
      | Some l => Ok (l, x)
      | None => do '(v, x) <- getAux x; Ok ((v, false), padd (remember x kept (v, false)) (productClauses (v, false) kept))
      end
    end.
Definition create (x : pb) (W : lit) (lits : list wlit) (bound : Z) (eq : bool) : res pb :=
  do '(f, cs) <- wc_create (topOf (p_tr x)) W lits bound eq (WFlags false false);
  Ok (padd x (map (fun l => CClauses [[l]]) f ++ cs)).
(** addConstraint (231-249); returns the literal that stands for the constraint *)
Definition paddConstraint (x : pb) (lits : list wlit) (bound : Z) (eq : bool) (cw : Z) : res (lit * pb) :=
  if negb (p_ok x) then Ok ((0, true), x)
  else if (0 <? cw)%Z then
    match lits with
    | [(l, w)] =>
      do '(l, w, bound) <- (if (w <? 0)%Z then do w' <- i32 (- w); do b' <- i32 (bound + w'); Ok (neg l, w', b') else Ok (l, w, bound));
      let l := if (w <? bound)%Z then (0, true) else l in
      Ok (l, pmin x [(neg l, cw)])
    | _ =>
      do '(v, x) <- getAux x;
      do x <- create (pmin x [((v, true), cw)]) (v, false) lits bound eq;
      Ok ((v, false), x)
    end
  else do x <- create x (0, false) lits bound eq; Ok ((0, false), x).
Definition pstep (x : pb) (o : pop) : res (lit * pb) :=
  match o with
  | PProd l => addProduct x l
  | PCon l b eq cw => paddConstraint x l b eq cw
  | PObj l => Ok ((0, false), pmin x l)
  end.
(** The calls of a client with the literals returned *)
Fixpoint psteps (x : pb) (ops : list pop) : res (list (pop * lit) * pb) :=
  match ops with
  | [] => Ok ([], x)
  | o :: ops => do '(l, y) <- pstep x o; do '(evs, z) <- psteps y ops; Ok ((o, l) :: evs, z)
  end.
(** doEndProgram (328-334): the remaining auxiliary variables are false; the loop ends at the first failure *)
Fixpoint closeAux (k : nat) (x : pb) : pb :=
  match k with
  | O => x
  | S k => match getAux x with
           | Ok (v, y) => let z := padd y [CClauses [[(v, true)]]] in if p_ok z then closeAux k z else z
           | _ => x
           end
  end.
Definition pend (x : pb) : pb := closeAux (S (p_max x) - p_aux x) x.
(** doStartProgram and prepareProblem for another problem (322-327): the index of products is kept *)
Definition prestart (x : pb) (n m : nat) : pb := Pb [CClauses [[(0, false)]]] [] true (p_idx x) (S n) (n + m) [].
End Pb.
