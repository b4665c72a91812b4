(** Model of SatBuilder (/repo/src/program_builder.cpp:97-211, /repo/clasp/program_builder.h:108-172): reading (weighted Max)SAT problems.

    Simplifications.  The solver behind the builder is a constraint store, a trail of top-level literals and a flag; [prop] stands for the effect
    of ClauseCreator::create, WeightConstraint::create and Solver::propagate on trail and flag, its specification is in SbSpec.  Linear
    constraints use the model of WeightConstraint::create (WcModel).  varState_ is a total map, split into the bits 0-1 (false literals) and 2-3
    (occurrences).  In the vector softClauses_ weights and literals are told apart; flags mark the end of an entry as in the code.  Projection,
    output, sign preferences and the parser are left out. *)
From Coq Require Import List Bool Arith ZArith.
From Verif Require Import Base WcModel.
Import ListNotations.

Inductive sword := SW (w : Z) | SL (l : lit) (flag : bool).
Record sb := Sb { b_db : list created; b_tr : list lit; b_ok : bool; b_pos : nat; b_st : nat -> nat; b_occ : nat -> nat;
  b_soft : list sword; b_vars : nat; b_n : nat; b_hw : Z; b_min : list wlit; b_assume : list lit }.
Inductive op := OClause (c : list lit) (cw : Z) | OSum (lits : list wlit) (bound : Z) | OObj (lits : list wlit) | OAssume (l : lit).

Definition bits (l : lit) : nat := if snd l then 2 else 1.
Definition upd (f : nat -> nat) (k x : nat) : nat -> nat := fun i => if Nat.eqb i k then x else f i.
(** markLit, markOcc (program_builder.h:162-163) *)
Definition markLit (st : nat -> nat) (x : lit) : nat -> nat := upd st (fst x) (Nat.lor (st (fst x)) (bits x)).
(** Top-level assignment of a trail; variable 0 is the sentinel, which is always true *)
Definition topOf (tr : list lit) : pasg := fun v => if Nat.eqb v 0 then Some true else match find (fun l => Nat.eqb (fst l) v) tr with Some l => Some (negb (snd l)) | None => None end.
Section Sb.
Variable prop : list created -> list lit -> list lit * bool.
(** markAssigned (101-108) *)
Definition markAssigned (x : sb) : sb :=
  if Nat.eqb (b_pos x) (length (b_tr x)) then x
  else
    let '(tr, ok) := if b_ok x then prop (b_db x) (b_tr x) else (b_tr x, false) in
    let st := fold_left (fun st p => markLit st (neg p)) (skipn (b_pos x) tr) (b_st x) in
    Sb (b_db x) tr ok (length tr) st (b_occ x) (b_soft x) (b_vars x) (b_n x) (b_hw x) (b_min x) (b_assume x).
(** startProgram and prepareProblem (109-119); lit_true holds in every solver *)
Definition init (n : nat) (cw : Z) : sb :=
  Sb [CClauses [[(0, false)]]] [] true 0 (fun _ => 0) (fun _ => 0) [] n n cw [] [].
(** satisfied (153-171), first loop: kept literals, marks, whether the clause is satisfied *)
Fixpoint satLoop (st : nat -> nat) (kept c : list lit) : bool * list lit * (nat -> nat) :=
  match c with
  | [] => (false, kept, st)
  | x :: c =>
    let m := bits x in
    let n := st (fst x) + m in
    if Nat.eqb n m then satLoop (upd st (fst x) (Nat.lor (st (fst x)) m)) (kept ++ [x]) c
    else if Nat.eqb n 3 then (true, kept, st)
    else satLoop st kept c
  end.
Definition satisfied (x : sb) (c : list lit) : bool * list lit * sb :=
  let '(s, cc, st) := satLoop (b_st x) [] c in
  let occ := if s then b_occ x else fold_left markLit cc (b_occ x) in
  let st := fold_left (fun st l => upd st (fst l) 0) cc st in
  (s, cc, Sb (b_db x) (b_tr x) (b_ok x) (b_pos x) st occ (b_soft x) (b_vars x) (b_n x) (b_hw x) (b_min x) (b_assume x)).
(** Adding constraints to the solver *)
Definition add (x : sb) (cs : list created) : sb :=
  let '(tr, ok) := prop (cs ++ b_db x) (b_tr x) in
  Sb (cs ++ b_db x) tr ok (b_pos x) (b_st x) (b_occ x) (b_soft x) (b_vars x) (b_n x) (b_hw x) (b_min x) (b_assume x).
Definition store (x : sb) (l : list sword) (v : nat) : sb :=
  Sb (b_db x) (b_tr x) (b_ok x) (b_pos x) (b_st x) (b_occ x) (b_soft x ++ l) v (b_n x) (b_hw x) (b_min x) (b_assume x).
Fixpoint flagLast (l : list lit) : list sword :=
  match l with [] => [] | [x] => [SL x true] | x :: r => SL x false :: flagLast r end.
(** addClause (135-152) *)
Definition addClause (x : sb) (c : list lit) (cw : Z) : res sb :=
  if negb (b_ok x) then Ok x
  else
    let '(s, cc, x) := satisfied x c in
    if s then Ok x
    else if negb ((0 <=? cw)%Z && ((cw <=? int_max)%Z || (cw =? b_hw x)%Z)) then Throws
    else if (cw =? b_hw x)%Z then
      let x := add x [CClauses [cc]] in
      Ok (if b_ok x then markAssigned x else x)
    else
      match cc with
      | [] => Ok (store x [SW cw; SL (0, false) true] (b_vars x))
      | [l] => Ok (store x [SW cw; SL (neg l) true] (b_vars x))
      | _ => Ok (store x (SW cw :: SL (S (b_vars x), false) false :: flagLast cc) (S (b_vars x)))
      end.
Definition withOcc (x : sb) (occ : nat -> nat) : sb :=
  Sb (b_db x) (b_tr x) (b_ok x) (b_pos x) (b_st x) occ (b_soft x) (b_vars x) (b_n x) (b_hw x) (b_min x) (b_assume x).
(** addConstraint (172-181) *)
Definition addConstraint (x : sb) (lits : list wlit) (bound : Z) : res sb :=
  if negb (b_ok x) then Ok x
  else
    do r <- create_rep (topOf (b_tr x)) lits bound;
    do '(f, cs) <- wc_create (topOf (b_tr x)) (0, false) lits bound false (WFlags false false);
    Ok (add (if r_open r then withOcc x (fold_left (fun o e => markLit o (fst e)) (r_lits r) (b_occ x)) else x) (map (fun l => CClauses [[l]]) f ++ cs)).
(** addObjective (120-126) *)
Definition addObjective (x : sb) (lits : list wlit) : sb :=
  Sb (b_db x) (b_tr x) (b_ok x) (b_pos x) (b_st x) (fold_left (fun o e => markLit o (neg (fst e))) lits (b_occ x)) (b_soft x) (b_vars x) (b_n x) (b_hw x) (b_min x ++ lits) (b_assume x).
(** addAssumption (130-134) *)
Definition addAssumption (x : sb) (l : lit) : sb :=
  Sb (b_db x) (b_tr x) (b_ok x) (b_pos x) (b_st x) (markLit (b_occ x) l) (b_soft x) (b_vars x) (b_n x) (b_hw x) (b_min x) (b_assume x ++ [l]).
Definition step (x : sb) (o : op) : res sb :=
  match o with
  | OClause c w => addClause x c w
  | OSum l b => addConstraint x l b
  | OObj l => Ok (addObjective x l)
  | OAssume l => Ok (addAssumption x l)
  end.
Fixpoint steps (x : sb) (l : list op) : res sb := match l with [] => Ok x | o :: l => do y <- step x o; steps y l end.

Definition minLit (x : sb) (e : wlit) : sb :=
  Sb (b_db x) (b_tr x) (b_ok x) (b_pos x) (b_st x) (b_occ x) (b_soft x) (b_vars x) (b_n x) (b_hw x) (b_min x ++ [e]) (b_assume x).
(** doEndProgram (188-211), the loop over softClauses_: what is read next *)
Inductive rd := RdW | RdRelax (w : Z) | RdLits (w : Z) (relax : lit) (cc : list lit).
Fixpoint readSoft (x : sb) (m : rd) (l : list sword) : sb :=
  match l with
  | [] => x
  | e :: l =>
    match m, e with
    | RdW, SW w => if b_ok x then readSoft x (RdRelax w) l else x
    | RdRelax w, SL p true => readSoft (minLit x (p, w)) RdW l
    | RdRelax w, SL p false => readSoft x (RdLits w p [p]) l
    | RdLits w p cc, SL q false => readSoft x (RdLits w p (cc ++ [q])) l
    | RdLits w p cc, SL q true => readSoft (minLit (add x [CClauses [cc ++ [q]]]) (p, w)) RdW l
    | _, _ => x
    end
  end.
(** doEndProgram; [pm]: preserveModels() as set by others; returns the eliminated variables *)
Definition endProgram (pm : bool) (x : sb) : sb * list nat :=
  let soft := negb (Nat.eqb (length (b_soft x)) 0) in
  let y := if soft && b_ok x then readSoft x RdW (b_soft x) else x in
  let elim := negb (pm || soft) in
  (y, if b_ok y && elim then filter (fun v => Nat.eqb (b_st y v) 0 && Nat.eqb (b_occ y v) 0) (seq 1 (b_n x)) else []).
End Sb.
