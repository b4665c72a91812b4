(** Model of search under assumptions: Solver::search (/repo/src/solver.cpp:1841-1882),
    resolveConflict (958-977), decideNextBranch (1625-1633), pushRoot (476-497), popRootLevel
    (505-528), restart (359-363), reduceLearnts (1650-1804) and the loop of BasicSolve
    (/repo/src/solve_algorithms.cpp:139-250), on top of unit propagation (BpModel) and
    conflict analysis (CaModel).

    Simplifications.  Constraints are clauses; there are no post propagators, so isModel() is true.
    simplify() on level 0 is left out, so are on-the-fly subsumption, stop conflicts, auxiliary variables and the
    tag literal's effect on clauses.  Search is with learning, so no decision is flipped.  Everything that depends on heuristics, limits or strategies
    is asked from an oracle; it may depend on the state and on the number of steps left, hence on
    the whole history of a run. *)
From Coq Require Import List Bool Arith ZArith.
From Verif Require Import Base ClModel BpModel CaModel.
Import ListNotations.

(** Clause::tail (clause.cpp:540-552), the literals other than p of a clause watching p: Clause::reason
    (523-538) and isReverseReason (556-570), SharedLitsClause::reason (783-791) *)
Definition tailOf (b : body) : list lit :=
  match b with
  | Small x y => if lit_eqb x lit_false then [] else if lit_eqb y lit_false then [x] else [x; y]
  | Large tl _ => tl
  | Shared ls => ls
  end.
Definition others (c : cls) (p : lit) : list lit :=
  match bd c with
  | Shared ls => filter (fun q => negb (lit_eqb q p)) ls
  | b => head c (lit_eqb p (h0 c)) :: if lit_eqb (h2 c) lit_false then [] else h2 c :: tailOf b
  end.
(** Antecedent::reason (/repo/clasp/constraint.h) and the type of an antecedent *)
Definition reasonOf (s : st) (p : lit) (w : why) : option (list lit) :=
  match w with
  | Dec | Ext => None
  | Fact => Some [lit_true]
  | By1 a => Some [a]
  | By2 a b => Some [a; b]
  | ByC i => match nth i (b_cls s) None with Some c => Some (map neg (others c p)) | None => None end
  end.
Definition typeOf (w : why) : nat := match w with By2 _ _ => 1 | By1 _ | Fact => 2 | _ => 0 end.

(** What conflict analysis sees of the solver: trail, levels, reasons, levels_[i].trailPos (the number
    of literals assigned before the level), implications and watches *)
Definition envOf (s : st) : env :=
  Env (map e_lit (b_trail s))
      (fun v => match entry s v with Some e => e_lev e | None => 0 end)
      (fun v => match entry s v with Some e => reasonOf s (e_lit e) (e_why e) | None => None end)
      (fun v => match entry s v with Some e => typeOf (e_why e) | None => 0 end)
      (map (fun i => length (filter (fun e => Nat.ltb (e_lev e) i) (b_trail s))) (seq 1 (b_dl s)))
      (b_root s)
      (fun p => map (fun q => [q]) (b_bin s p) ++ map (fun xy => [fst xy; snd xy]) (b_tern s p))
      (fun p => flat_map (fun i => match nth i (b_cls s) None with Some c => [others c (neg p)] | None => [] end) (b_wl s p)).
(** Flags between conflicts: markUnits has marked the variables of level 0 (solver.h:791-793) *)
Definition flagsOf (s : st) : fl :=
  Fl (fun v => match entry s v with Some e => Nat.eqb (e_lev e) 0 | None => false end) (fun _ => false).
(** setConflict (775-792) *)
Definition conflictLits (s : st) : list lit :=
  match b_conf s with
  | Some (p, w) => neg p :: match reasonOf s p w with Some r => r | None => [] end
  | None => []
  end.

(** Choices during search, with the number of steps left: options of conflict analysis; whether a learnt clause
    is stored explicitly or shared; the next decision; whether a limit is reached; learnt clauses to remove *)
Record oracle := Oracle {
  w_opt : nat -> st -> opt; w_expl : nat -> st -> bool; w_shared : nat -> st -> bool;
  w_pick : nat -> st -> lit; w_limit : nat -> st -> bool;
  w_restart : nat -> st -> bool; w_reduce : nat -> st -> list nat }.

(** A solver: the state of propagation and the numbers of the learnt clauses *)
Record sv := Sv { q_st : st; q_lrn : list nat }.

(** resolveConflict: analysis, backjump, and adding the clause without preparing it *)
Definition resolveConflict (w : oracle) (k : nat) (x : sv) : res (sv * bool) :=
  let s := q_st x in
  if Nat.ltb (b_root s) (b_dl s) then
    do r <- analyzeConflict (envOf s) (w_opt w k s) (conflictLits s) (flagsOf s);
    let s1 := undo s (r_level r) in
    let '(s2, ok) := createPrep s1 (Flags true (w_expl w k s) (w_shared w k s) 0 0) (r_cc r) in
    Ok (Sv s2 (if Nat.eqb (length (b_cls s2)) (length (b_cls s1)) then q_lrn x else length (b_cls s1) :: q_lrn x), ok)
  else Ok (x, false).

Inductive verdict := VTrue | VFalse | VFree | VFuel.
Definition hasFree (n : nat) (s : st) : bool := existsb (fun v => negb (isT s (v, false)) && negb (isT s (v, true))) (seq 1 n).
(** The loop of search; [conflict] as in the code.  Decision heuristics return false if no variable is free,
    else the value of assume (/repo/clasp/heuristics.h), which is false for a false literal. *)
Fixpoint loop (fuel : nat) (n : nat) (w : oracle) (x : sv) (conflict : bool) {struct fuel} : res (sv * verdict) :=
  match fuel with
  | O => Ok (x, VFuel)
  | S k =>
    let prop (s : st) (f : st -> bool -> res (sv * verdict)) :=
      match propagate (S (S n)) s with (s', Some ok) => f s' ok | (_, None) => UB end in
    let decide (x : sv) :=
      let s := q_st x in
      if negb (hasFree n s) then Ok (x, VTrue)
      else if isF s (w_pick w k s) then Ok (x, VTrue)
      else prop (assume s (w_pick w k s)) (fun s' ok => loop k n w (Sv s' (q_lrn x)) (negb ok)) in
    let resolved (x : sv) :=
      match b_conf (q_st x) with
      | Some _ => Ok (x, VFalse)
      | None => if hasFree n (q_st x) && w_limit w k (q_st x) then Ok (x, VFree) else decide x
      end in
    if conflict then
      do '(x1, ok) <- resolveConflict w k x;
      if ok then prop (q_st x1) (fun s' ok => if ok then resolved (Sv s' (q_lrn x1)) else loop k n w (Sv s' (q_lrn x1)) true)
      else resolved x1
    else decide x
  end.
Definition search (fuel : nat) (n : nat) (w : oracle) (x : sv) : res (sv * verdict) :=
  match b_conf (q_st x) with
  | Some _ => loop fuel n w x true
  | None =>
    match propagate (S (S n)) (q_st x) with
    | (s', Some ok) => loop fuel n w (Sv s' (q_lrn x)) (negb ok)
    | (_, None) => UB
    end
  end.

(** reduceLearnts: removes learnt clauses that are not locked; restart: undoUntil(0) *)
Definition dropOne (x : sv) (i : nat) : sv :=
  if existsb (Nat.eqb i) (q_lrn x) then
    let s := remove (q_st x) i in
    Sv s (match nth i (b_cls s) None with Some _ => q_lrn x | None => List.remove Nat.eq_dec i (q_lrn x) end)
  else x.
Definition reduce (x : sv) (l : list nat) : sv := fold_left dropOne l x.
Definition restart (x : sv) : sv := Sv (undo (q_st x) 0) (q_lrn x).

(** The loop of BasicSolve::State::solve: search, and on value_free restart and reduce as asked for; [rounds]: the
    limit on the number of searches *)
Fixpoint solve (rounds fuel n : nat) (w : oracle) (x : sv) : res (sv * verdict) :=
  match rounds with
  | O => Ok (x, VFree)
  | S rounds =>
    do '(x1, v) <- search fuel n w x;
    match v with
    | VFree =>
      let x2 := if w_restart w rounds (q_st x1) then restart x1 else x1 in
      solve rounds fuel n w (reduce x2 (w_reduce w rounds (q_st x2)))
    | _ => Ok (x1, v)
    end
  end.

(** pushRoot(x) (489-497), popRootLevel *)
Definition popRoot (x : sv) (k : nat) : sv := Sv (popRootLevel (q_st x) k) (q_lrn x).
Definition pushRoot (n : nat) (x : sv) (p : lit) : res (sv * bool) :=
  match b_conf (q_st x) with
  | Some _ => Ok (x, false)
  | None =>
    let s1 := if Nat.eqb (b_dl (q_st x)) (b_root (q_st x)) then q_st x else popRootLevel (q_st x) 0 in
    match propagate (S (S n)) s1 with
    | (_, None) => UB
    | (s2, Some false) => Ok (Sv s2 (q_lrn x), false)
    | (s2, Some true) =>
      if isT s2 p || isF s2 p then Ok (Sv s2 (q_lrn x), isT s2 p)
      else
        match propagate (S (S n)) (pushRootLevel (assume s2 p)) with
        | (_, None) => UB
        | (s3, Some ok) => Ok (Sv s3 (q_lrn x), ok)
        end
    end
  end.
(** Adding a problem clause on level 0 *)
Definition addClause (x : sv) (f : flags) (c : list lit) : sv * bool :=
  let '(s1, ok) := create (q_st x) f true c in (Sv s1 (q_lrn x), ok).
(** The core after a conflict under assumptions (CaModel) *)
Definition coreOf (x : sv) : res (list lit) :=
  do '(_, c) <- resolveToCore (envOf (q_st x)) false (conflictLits (q_st x)) (flagsOf (q_st x)); Ok c.
