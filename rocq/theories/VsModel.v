(** Simple preprocessing (no equivalences): which atoms and bodies can be true at all, and which
    literals of the solver stand for them.

    Modelled: Preprocessor::preprocessSimple (asp_preprocessor.cpp:34-60), addHeadToUpper for atoms
    (62-69), addHeadsToUpper (245-281), propagateAtomVar (292-370) without equivalences,
    PrgHead::assignVar (logic_program_types.cpp:485-505), PrgBody::assignVar (1182-1200),
    PrgBody::propagateSupported (1202-1209), PrgBody::resetSupported (762-768), in the first step of a program.
    Not modelled: disjunctions; the simplification of bodies, heads and supports that goes along with it, and
    the propagation of values: bodies and values are taken to be simplified already. *)
From Coq Require Import List Bool Arith ZArith.
Import ListNotations.
From Verif Require Import Base LpSpec SrModel CpModel DgModel.

Definition upd {T} (f : nat -> T) (x : nat) (y : T) : nat -> T := fun z => if z =? x then y else f z.
Definition isVFalse (v : value) : bool := match v with VFalse => true | _ => false end.
Definition isVTrue (v : value) : bool := match v with VTrue => true | _ => false end.

(** Literals of atoms and bodies, the upper closure (PrgHead::inUpper), what a body still lacks to be
    supported (PrgBody::unsupp_), supported bodies still to be visited, the next variable, variables whose type
    includes Atom (Var_t::isAtom), atoms left out of the component search (ignoreScc), bodies of size one *)
Record vst := Vs { v_a : nat -> lit; v_b : nat -> lit; v_up : nat -> bool; v_un : nat -> Z; v_q : list nat; v_nx : nat;
  v_ty : nat -> bool; v_ign : nat -> bool; v_unit : list nat }.

Definition bsize (b : body) : nat := length (goalsW b).
(** PrgBody::unsupp_ of a new body, logic_program_types.cpp:667, 685-699, 762-768 *)
Definition unsupp0 (b : body) : Z :=
  match b with
  | Norm ls => Z.of_nat (length (filter (fun l : lit => negb (snd l)) ls))
  | Agg bound ls => fold_right (fun (x : lit * Z) s => if snd (fst x) then s - snd x else s)%Z bound ls
  end.

Section Prog.
Variable pr : prep.
Notation tb := (theBody pr).
Definition nBodies : nat := length (p_bodies pr).

(** Number of supports of an atom: bodies that are not false, each counted once
    (PrgHead::simplifySupports, logic_program_types.cpp:438-462) *)
Definition numS (a : nat) : nat :=
  length (filter (fun i => existsb (fun h => fst h =? a) (b_heads (tb i)) && negb (isVFalse (b_val (tb i)))) (seq 0 nBodies)).

(** PrgHead::assignVar, logic_program_types.cpp:485-505, for an atom [a] and the support by body [i] *)
Definition assignAtom (s : vst) (a i : nat) (t : etype) : vst :=
  let l := v_b s i in
  let newVar := (1 <? numS a) || v_ty s (fst l) in
  if isNormal t && hasVar l && (negb newVar || isVTrue (b_val (tb i)))
  then Vs (upd (v_a s) a l) (v_b s) (v_up s) (v_un s) (v_q s) (v_nx s) (upd (v_ty s) (fst l) true) (v_ign s) (v_unit s)
  else Vs (upd (v_a s) a (pos (v_nx s))) (v_b s) (v_up s) (v_un s) (v_q s) (S (v_nx s)) (upd (v_ty s) (v_nx s) true) (v_ign s) (v_unit s).

(** propagateAtomVar, asp_preprocessor.cpp:338-357, for one body: only a positive occurrence in a body that is
    not yet supported matters *)
Definition propBody (a : nat) (s : vst) (j : nat) : vst :=
  match find (fun x => lit_eqb (fst x) (pos a)) (goalsW (b_body (tb j))) with
  | None => s
  | Some (_, w) =>
    if (v_un s j <=? 0)%Z then s
    else
      let u := (v_un s j - w)%Z in
      Vs (v_a s) (v_b s) (v_up s) (upd (v_un s) j u) (if (u <=? 0)%Z then v_q s ++ [j] else v_q s) (v_nx s) (v_ty s) (v_ign s) (v_unit s)
  end.
Definition setUp (s : vst) (a : nat) : vst := Vs (v_a s) (v_b s) (upd (v_up s) a true) (v_un s) (v_q s) (v_nx s) (v_ty s) (v_ign s) (v_unit s).
Definition setIgn (s : vst) (a : nat) : vst := Vs (v_a s) (v_b s) (v_up s) (v_un s) (v_q s) (v_nx s) (v_ty s) (upd (v_ign s) a true) (v_unit s).
(** addHeadToUpper, asp_preprocessor.cpp:62-69 *)
Definition addHeadToUpper (s : vst) (a i : nat) (t : etype) : vst := fold_left (propBody a) (seq 0 nBodies) (setUp (assignAtom s a i t) a).
(** addHeadsToUpper, asp_preprocessor.cpp:245-281, for one head *)
Definition addHead (i : nat) (s : vst) (h : nat * etype) : vst :=
  if isVFalse (p_val pr (fst h)) then s
  else
    let s := if isVTrue (b_val (tb i)) then setIgn s (fst h) else s in
    if v_up s (fst h) then s else addHeadToUpper s (fst h) i (snd h).

Definition setB (s : vst) (i : nat) (l : lit) (nx : nat) (ty : nat -> bool) : vst := Vs (v_a s) (upd (v_b s) i l) (v_up s) (v_un s) (v_q s) nx ty (v_ign s) (v_unit s).
(** PrgBody::assignVar, logic_program_types.cpp:1182-1200 *)
Definition assignBody (s : vst) (i : nat) : vst :=
  let b := tb i in
  if hasVar (v_b s i) then s
  else if (bsize (b_body b) =? 0) || isVTrue (b_val b) then setB s i litTrue (v_nx s) (v_ty s)
  else
    let fresh := if isVFalse (b_val b) then setB s i litFalse (v_nx s) (v_ty s) else setB s i (pos (v_nx s)) (S (v_nx s)) (upd (v_ty s) (v_nx s) false) in
    match goalsW (b_body b) with
    | [(g, _)] => if hasVar (v_a s (fst g)) then let l := xorl (v_a s (fst g)) (snd g) in setB s i l (v_nx s) (upd (v_ty s) (fst l) true) else fresh
    | _ => fresh
    end.

(** One round of the loop in preprocessSimple, asp_preprocessor.cpp:40-54 *)
Definition visit (s : vst) (i : nat) : vst :=
  let s := if bsize (b_body (tb i)) =? 1
           then Vs (v_a s) (v_b s) (v_up s) (v_un s) (v_q s) (v_nx s) (v_ty s) (v_ign s) (v_unit s ++ [i])
           else assignBody s i in
  fold_left (addHead i) (b_heads (tb i)) s.
Fixpoint visitAll (fuel : nat) (s : vst) : res vst :=
  match v_q s with
  | [] => Ok s
  | i :: q =>
    match fuel with
    | 0 => UB
    | S f => visitAll f (visit (Vs (v_a s) (v_b s) (v_up s) (v_un s) q (v_nx s) (v_ty s) (v_ign s) (v_unit s)) i)
    end
  end.
(** A new program: no node has a literal, no variable but 0 exists; its type is Atom by default *)
Definition startV (init : list nat) : vst :=
  Vs (fun _ => litFalse) (fun _ => litFalse) (fun _ => false) (fun i => unsupp0 (b_body (tb i))) init 1 (fun v => v =? 0) (fun _ => false) [].
(** The program with the literals chosen *)
Definition withLits (s : vst) : prep :=
  Pr (map (fun i => Pb (b_body (tb i)) (b_val (tb i)) (v_b s i) (b_heads (tb i)) (b_disj (tb i))) (seq 0 nBodies)) (p_atoms pr) (v_a s) (p_val pr) (p_noGamma pr).
(** preprocessSimple: [init] are the bodies that are supported from the start (getSupportedBodies) *)
Definition preprocessSimple (fuel : nat) (init : list nat) : res vst :=
  match visitAll fuel (startV init) with
  | Ok s => Ok (fold_left assignBody (v_unit s) s)
  | Throws => Throws
  | UB => UB
  end.
End Prog.
