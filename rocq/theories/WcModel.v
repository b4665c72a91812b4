(** Model of the creation of weight constraints.
    C++ sources: /repo/src/weight_constraint.cpp, /repo/clasp/weight_constraint.h.
    Weights are int32 ([Z] with overflow as undefined behaviour). *)
From Coq Require Import List Bool Arith ZArith.
From Verif Require Import Base.
Import ListNotations.
Local Open Scope Z_scope.

Definition wlit : Type := (lit * Z)%type.

(** ** WeightLitsRep::create, step 1 (weight_constraint.cpp:47-88)

    The vector [lits] is processed in place: [kept] is [lits[0..j)], [seen] the
    literals marked in the solver ([markSeen]/[clearSeen], solver.h:585-587,
    791-793), [bound] the current bound.  [top] is the top-level assignment
    ([topValue], solver.h:563). *)
Record st1 := St1 { kept : list wlit; seen : list lit; bnd : Z }.

Definition seenLit (s : list lit) (x : lit) : bool := existsb (lit_eqb x) s.
Definition seenVar (s : list lit) (v : nat) : bool := existsb (fun y => Nat.eqb (fst y) v) s.
Definition clearSeen (s : list lit) (v : nat) : list lit := filter (fun y => negb (Nat.eqb (fst y) v)) s.

(** the search loops [for (other = 0; other != j && lits[other].first != x; ++other)]
    (lines 68, 72) split the kept part at the literal searched for; running off
    the end would access [lits[j]] *)
Fixpoint split_at (x : lit) (k : list wlit) : option (list wlit * wlit * list wlit) :=
  match k with
  | [] => None
  | e :: t => if lit_eqb (fst e) x then Some ([], e, t)
              else match split_at x t with Some (a, m, b) => Some (e :: a, m, b) | None => None end
  end.

(** lines 50-87, body of the loop *)
Definition step1 (top : pasg) (s : st1) (e : wlit) : res st1 :=
  let (x, w) := e in
  if negb (w =? 0) && isFree top (fst x) then
    (* 53-58: flip negative weights *)
    do '(x, w, b) <- (if w <? 0
                     then do w' <- i32 (- w);
                          if (bnd s <? 0) || (int_max - bnd s >=? w')
                          then do b' <- i32 (bnd s + w'); Ok (neg x, w', b')
                          else Throws
                     else Ok (x, w, bnd s));
    if negb (seenVar (seen s) (fst x)) then                                        (* 59-63 *)
      Ok (St1 (kept s ++ [(x, w)]) (x :: seen s) b)
    else if negb (seenLit (seen s) (neg x)) then                                   (* 64-67 *)
      match split_at x (kept s) with
      | None => UB
      | Some (l, (_, wo), r) => do w' <- i32 (wo + w); Ok (St1 (l ++ (x, w') :: r) (seen s) b)
      end
    else                                                                           (* 68-84 *)
      match split_at (neg x) (kept s) with
      | None => UB
      | Some (l, (_, wo), r) =>
        do b1 <- i32 (b - w);
        do w1 <- i32 (wo - w);
        if w1 <? 0 then
          do w2 <- i32 (- w1);
          do b2 <- i32 (b1 + w2);
          Ok (St1 (l ++ (x, w2) :: r) (x :: clearSeen (seen s) (fst x)) b2)
        else if w1 =? 0 then
          Ok (St1 (l ++ r) (clearSeen (seen s) (fst x)) b1)
        else Ok (St1 (l ++ (neg x, w1) :: r) (seen s) b1)
      end
  else if isTrue top x then                                                        (* 86 *)
    do b <- i32 (bnd s - w); Ok (St1 (kept s) (seen s) b)
  else Ok s.

Fixpoint run1 (top : pasg) (s : st1) (lits : list wlit) : res st1 :=
  match lits with [] => Ok s | e :: t => do s' <- step1 top s e; run1 top s' t end.

(** ** Step 2 (lines 89-100): clamp, minimum, maximum, reach *)
Record st2 := St2 { sumW : Z; minW : Z; maxW : Z }.
Fixpoint run2 (B : Z) (s : st2) (lits : list wlit) : res (list wlit * st2) :=
  match lits with
  | [] => Ok ([], s)
  | (x, w) :: t =>
    let w' := if w >? maxW s then Z.min w B else w in
    let mx := if w >? maxW s then w' else maxW s in
    let mn := if w' <? minW s then w' else minW s in
    if negb (int_max - sumW s >=? w') then Throws
    else do '(t', s') <- run2 B (St2 (sumW s + w') mn mx) t; Ok ((x, w') :: t', s')
  end.

(** ** Step 3 (lines 101-113): [std::stable_sort] by decreasing weight, as a
    stable insertion sort, or reduction of a disguised cardinality constraint *)
Fixpoint ins (e : wlit) (l : list wlit) : list wlit :=
  match l with
  | [] => [e]
  | h :: t => if snd h <? snd e then e :: l else h :: ins e t
  end.
Definition sort_desc (l : list wlit) : list wlit := fold_left (fun acc e => ins e acc) l [].

Record rep := Rep { r_lits : list wlit; r_bound : Z; r_reach : Z }.

(** int division truncates towards zero *)
Definition ceil_div (x w : Z) : res Z := do y <- i32 (x + (w - 1)); Ok (Z.quot y w).

Definition create_rep (top : pasg) (lits : list wlit) (bound : Z) : res rep :=
  do s <- run1 top (St1 [] [] bound) lits;
  let B := Z.max (bnd s) 1 in
  do '(ls, m) <- run2 B (St2 0 int_max 1) (kept s);
  if negb (maxW m =? minW m) then Ok (Rep (sort_desc ls) (bnd s) (sumW m))
  else if negb (minW m =? 1) then
    do b <- ceil_div (bnd s) (minW m);
    do sm <- ceil_div (sumW m) (minW m);
    Ok (Rep (map (fun e => (fst e, 1)) ls) b sm)
  else Ok (Rep ls (bnd s) (sumW m)).

(** ** WeightLitsRep::sat/unsat/open/hasWeights (weight_constraint.h:50-53) *)
Definition r_sat (r : rep) : bool := r_bound r <=? 0.
Definition r_unsat (r : rep) : bool := r_reach r <? r_bound r.
Definition r_open (r : rep) : bool := (r_bound r >? 0) && (r_bound r <=? r_reach r).

(** ** WeightLitsRep::propagate (lines 118-145).
    Literals forced in the solver are collected; forcing a literal that is false
    at the top level fails.  The literals of a representation are distinct and
    unassigned, so earlier forced literals of the same call do not matter. *)
Definition forces (top : pasg) (l : lit) : bool := negb (isFalse top l).

Inductive bp_out := BpFail | BpDone (f : list lit) (r : rep) | BpMore (f : list lit) (r : rep).
Fixpoint bp_loop (top : pasg) (bpTrue : bool) (B : Z) (lits : list wlit) (bound reach : Z) (f : list lit) : bp_out :=
  match lits with
  | [] => BpDone f (Rep [] bound reach)
  | (x, w) :: t =>
    if w >=? B then
      let reach' := reach - w in
      let l := if bpTrue then x else neg x in
      if negb (forces top l) then BpFail
      else
        let bound' := if bpTrue then bound - w else bound in
        if bpTrue && (bound' <=? 0) then BpDone (f ++ [l]) (Rep lits bound' reach')
        else match t with
             | [] => BpDone (f ++ [l]) (Rep [] bound' reach')
             | _ => bp_loop top bpTrue B t bound' reach' (f ++ [l])
             end
    else BpMore f (Rep lits bound reach)
  end.

Definition last_weight (l : list wlit) : Z := snd (last l ((0%nat, false), 0)).

(** lines 137-142: reduce to a cardinality constraint when all weights agree *)
Definition renorm (r : rep) : res rep :=
  match r_lits r with
  | (x, w) :: _ =>
    if (w >? 1) && (w =? last_weight (r_lits r)) then
      do b <- ceil_div (r_bound r) w;
      do re <- ceil_div (r_reach r) w;
      Ok (Rep (map (fun e => (fst e, 1)) (r_lits r)) b re)
    else Ok r
  | [] => Ok r
  end.

(** [None]: conflict; otherwise the forced literals and the new representation *)
Definition rep_propagate (top : pasg) (W : lit) (r : rep) : res (option (list lit * rep)) :=
  if r_sat r then Ok (if forces top W then Some ([W], r) else None)
  else if r_unsat r then Ok (if forces top (neg W) then Some ([neg W], r) else None)
  else if isFree top (fst W) then Ok (Some ([], r))
  else
    let bpTrue := isTrue top W in
    let B := if bpTrue then (r_reach r - r_bound r) + 1 else r_bound r in
    match bp_loop top bpTrue B (r_lits r) (r_bound r) (r_reach r) [] with
    | BpFail => Ok None
    | BpDone f r' => Ok (Some (f, r'))
    | BpMore f r' => do r'' <- renorm r'; Ok (Some (f, r''))
    end.

(** ** WeightConstraint::doCreate (lines 196-257) with both directions active
    (no create_only_btb/create_only_bfb).  Outcome: what is added to the solver. *)
Inductive created :=
| CConflict                      (** (WeightConstraint* )0x1 *)
| CNothing
| CClauses (cs : list clause)    (** disjunction/conjunction, lines 208-223 *)
| CCon (W : lit) (r : rep).      (** an explicit constraint W == (lits >= bound) *)

(** lines 213-221, one literal: clauses added, literal for the long clause, and
    whether the long clause is a tautology *)
Definition small_lit (c0 : lit) (disj : bool) (x : lit) : list clause * list lit * bool :=
  let b0 := neg c0 in
  let b1 := xorl x disj in
  if negb (lit_eqb b0 (neg b1))
  then ([[b0; b1]], if negb (lit_eqb b0 b1) then [neg b1] else [], false)
  else ([], [], true).
Definition small_clauses (W : lit) (disj : bool) (lits : list wlit) : list clause :=
  let c0 := xorl W disj in
  let parts := map (fun e => small_lit c0 disj (fst e)) lits in
  flat_map (fun p => fst (fst p)) parts ++
  (if existsb (fun p => snd p) parts then []
   else [c0 :: flat_map (fun p => snd (fst p)) parts]).

Record wflags := WFlags { f_explicit : bool; f_sat : bool }.

Definition doCreate (top : pasg) (W : lit) (r : rep) (fl : wflags) : res (list lit * rep * created) :=
  let addSat := f_sat fl && negb (match r_lits r with [] => true | _ => false end) in
  do p <- rep_propagate top W r;
  match p with
  | None => Ok ([], r, CConflict)
  | Some (f, r') =>
    if r_unsat r' || (r_sat r' && negb addSat) then Ok (f, r', CNothing)
    else if ((r_bound r' =? 1) || (r_bound r' =? r_reach r')) && negb (f_explicit fl)
    then Ok (f, r', CClauses (small_clauses W (r_bound r' =? 1) (r_lits r')))
    else Ok (f, r', CCon W r')
  end.

(** assignment after forcing literals *)
Definition force1 (p : pasg) (l : lit) : pasg :=
  fun v => if Nat.eqb v (fst l) then (match p v with None => Some (negb (snd l)) | x => x end) else p v.
Definition force_all (p : pasg) (f : list lit) : pasg := fold_left force1 f p.

(** lines 182-185: redo coefficient reduction *)
Fixpoint redo (b : Z) (lits : list wlit) (reach : Z) : list wlit * Z :=
  match lits with
  | (x, w) :: t => if w >? b then let '(t', re) := redo b t (reach - w + b) in ((x, b) :: t', re)
                   else (lits, reach)
  | [] => ([], reach)
  end.

(** ** WeightConstraint::create (lines 173-189).  The second part is created
    under the assignment extended by the literals forced by the first (implied
    literals of clauses added by the first part are not taken into account). *)
Definition wc_create (top : pasg) (W : lit) (lits : list wlit) (bound : Z) (eq : bool) (fl : wflags)
  : res (list lit * list created) :=
  do b <- (if eq then i32 (bound + 1) else Ok bound);
  do r <- create_rep top lits b;
  if eq then
    do '(f1, r1, c1) <- doCreate top (neg W) r fl;
    match c1 with
    | CConflict => Ok (f1, [c1])
    | _ =>
      do b1 <- i32 (r_bound r1 - 1);
      let '(ls, re) := redo b1 (r_lits r1) (r_reach r1) in
      do '(f2, _, c2) <- doCreate (force_all top f1) W (Rep ls b1 re) fl;
      Ok (f1 ++ f2, [c1; c2])
    end
  else
    do '(f1, _, c1) <- doCreate top W r fl;
    Ok (f1, [c1]).
