(** Model of enumeration with solution recording: ModelEnumerator::RecordFinder (/repo/src/model_enumerators.cpp:41-107),
    EnumerationConstraint::update and commitModel (/repo/src/enumerator.cpp:104-124, 149-154) and the loop of
    SequentialSolve::doSolve (/repo/src/solve_algorithms.cpp:476-499), on top of search (SeModel).

    Simplifications.  One solver, so no nogood arrives from a queue (integrateNogoods) and none is shared; no minimize constraint and no
    auxiliary variables; no model heuristic.  The nogoods are kept by the enumeration constraint, not in the solver's
    database of learnt constraints, so they are never removed by reduceLearnts. *)
From Coq Require Import List Bool Arith ZArith.
From Verif Require Import Base ClModel BpModel CaModel SeModel SeSpec.
Import ListNotations.

(** What identifies a model: its decisions, or its projected variables; [dom v]: the sign of the literal preferred by a domain
    heuristic (project_dom_lits), used for variables with a user-defined value; [step]: the step literal, if there is one *)
Inductive mode :=
| Decisions
| Project (proj : nat -> bool) (dom : nat -> option bool) (step : option lit).

(** Solver::trueLit (/repo/clasp/solver.h:514-517) *)
Definition trueLit (s : st) (v : nat) : lit := if isT s (v, false) then (v, false) else (v, true).
(** addDecisionNogood (model_enumerators.cpp:62-76) *)
Definition decisionNogood (s : st) : list lit := map (fun i => neg (decision (envOf s) i)) (rev (seq 1 (b_dl s))).
(** addProjectNogood (77-86); without a step literal, stepLiteral() is lit_true and the literal pushed is lit_false, which is left out *)
Definition projectLit (dom : nat -> option bool) (s : st) (v : nat) : list lit :=
  match dom v with
  | None => [neg (trueLit s v)]
  | Some sg => if lit_eqb (v, sg) (trueLit s v) then [] else [(v, sg)]
  end.
Definition projectNogood (n : nat) (proj : nat -> bool) (dom : nat -> option bool) (step : option lit) (s : st) : list lit :=
  flat_map (fun v => if proj v then projectLit dom s v else []) (seq 1 n) ++ match step with Some p => [neg p] | None => [] end.
(** doCommitModel (87-107) *)
Definition nogood (n : nat) (md : mode) (s : st) : list lit :=
  let c := match md with Decisions => decisionNogood s | Project proj dom step => projectNogood n proj dom step s end in
  match c with [] => [lit_false] | _ => c end.
(** RecordFinder::doUpdate (52-61): the clause is prepared without simplification (its variables are distinct) and not
    added to the solver's database *)
Definition addNogood (x : sv) (f : flags) (c : list lit) : sv * bool :=
  let '(s, ok) := create (q_st x) f false c in (Sv s (q_lrn x), ok).
(** EnumerationConstraint::update after a model; [rst]: restartOnModel; a conflict is resolved if possible *)
Definition update (w : oracle) (k : nat) (x : sv) (rst : bool) (expl shared : bool) (c : list lit) : res (sv * bool) :=
  let x0 := if rst then restart x else x in
  let '(x1, ok) := addNogood x0 (Flags true expl shared 0 0) c in
  if ok then Ok (x1, true) else resolveConflict w k x1.
(** Settings of one round: the oracle for search, and whether the nogood is stored explicitly or shared *)
Record round := Round { r_w : oracle; r_expl : bool; r_shared : bool; r_rst : bool }.
(** The loop of doSolve: report models until [k] models were found, the search is stopped, or there are no more.  The result of
    update is ignored as in the code. *)
Fixpoint enum (k rounds fuel n : nat) (md : mode) (r : nat -> round) (x : sv) : res (list asg * verdict) :=
  match k with
  | O => Ok ([], VFree)
  | S k =>
    do '(x1, v) <- solve rounds fuel n (r_w (r k)) x;
    match v with
    | VTrue =>
      do '(x2, _) <- update (r_w (r k)) 0 x1 (r_rst (r k)) (r_expl (r k)) (r_shared (r k)) (nogood n md (q_st x1));
      do '(ms, v') <- enum k rounds fuel n md r x2;
      Ok (modelOf (q_st x1) :: ms, v')
    | _ => Ok ([], v)
    end
  end.
