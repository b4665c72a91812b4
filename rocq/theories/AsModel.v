(** Model of class Assignment (/repo/clasp/solver_types.h:492-646), of the saved
    phases in ValueSet (468-479), and of the functions of Solver that change the
    assignment (/repo/src/solver.cpp:813-821, 1014-1025, 1105-1116 and
    /repo/clasp/solver.h:351-356).

    Simplifications: [std::vector]s indexed by variables are functions; a reason is
    a number (0 = no reason) and the additional reason data (64-bit store) is
    not modelled; undo lists, the heuristic's callback and the conflict nogood are
    not modelled (a failed assignment is reported in the result only).
    Out-of-order implied literals and the backtrack level are modelled
    separately (ImModel.v). *)
From Coq Require Import List Bool Arith NArith.
From Verif Require Import Base.
Import ListNotations.
Local Open Scope N_scope.

Record asg_st := ASt {
  a_word : nat -> N;      (* assign_ : uint32 per variable *)
  a_reason : nat -> nat;  (* reason_ *)
  a_pref : nat -> N;      (* pref_[v].rep : uint8; absent entries are 0 *)
  a_trail : list lit;     (* trail, oldest first *)
  a_front : nat;          (* front *)
  a_elims : nat }.        (* elims_ *)

Definition upd {A} (f : nat -> A) (v : nat) (x : A) : nat -> A := fun u => if Nat.eqb u v then x else f u.

(** literal.h:213-226 *)
Definition trueValue (p : lit) : N := if snd p then 2 else 1.
(** value, level, valid, seen (lines 518-522, 606) *)
Definition value (s : asg_st) (v : nat) : N := N.land (a_word s v) 3.
Definition level (s : asg_st) (v : nat) : N := N.shiftr (a_word s v) 4.
Definition elim_mask : N := 0xFFFFFFF0.
Definition valid (s : asg_st) (v : nat) : bool := negb (N.land (a_word s v) elim_mask =? elim_mask).
Definition seen (s : asg_st) (v : nat) (m : N) : bool := negb (N.land (a_word s v) (N.shiftl m 2) =? 0).
(** setSeen, clearSeen (607-608); the complement ~uint32(12) within 32 bits *)
Definition setSeen (s : asg_st) (v : nat) (m : N) : asg_st :=
  ASt (upd (a_word s) v (N.lor (a_word s v) (N.shiftl m 2))) (a_reason s) (a_pref s) (a_trail s) (a_front s) (a_elims s).
Definition clearSeen (s : asg_st) (v : nat) : asg_st :=
  ASt (upd (a_word s) v (N.land (a_word s v) 0xFFFFFFF3)) (a_reason s) (a_pref s) (a_trail s) (a_front s) (a_elims s).
(** eliminate (550-553): the word becomes elim_mask|value_true *)
Definition eliminate (s : asg_st) (v : nat) : asg_st :=
  if valid s v then
    ASt (upd (a_word s) v (N.lor elim_mask 1)) (a_reason s) (a_pref s) (a_trail s) (a_front s) (S (a_elims s))
  else s.
(** assign (559-570); uint32 arithmetic *)
Definition assign (s : asg_st) (p : lit) (lev : N) (x : nat) : asg_st * bool :=
  let v := fst p in
  let val := value s v in
  if val =? 0 then
    (ASt (upd (a_word s) v ((N.shiftl lev 4 + trueValue p) mod 2 ^ 32)) (upd (a_reason s) v x) (a_pref s)
         (a_trail s ++ [p]) (a_front s) (a_elims s), true)
  else (s, val =? trueValue p).
(** clear, saveAndClear (621-622) with ValueSet::save (477) *)
Definition save_pref (rep x : N) : N := N.lor (N.land rep 0xF3) (N.land (N.shiftl x 2) 0xFF).
Definition clear_op (save : bool) (s : asg_st) (v : nat) : asg_st :=
  let s := if save then ASt (a_word s) (a_reason s) (upd (a_pref s) v (save_pref (a_pref s v) (value s v))) (a_trail s) (a_front s) (a_elims s) else s in
  ASt (upd (a_word s) v 0) (a_reason s) (a_pref s) (a_trail s) (a_front s) (a_elims s).
(** popUntil (628-635): pops at least one literal and stops after popping [stop];
    [rtrail] is the trail, newest first.  Popping from an empty trail would be
    undefined behaviour. *)
Fixpoint popUntil (save : bool) (stop : lit) (rtrail : list lit) (s : asg_st) : res asg_st :=
  match rtrail with
  | [] => UB
  | p :: rest =>
    let s1 := clear_op save s (fst p) in
    let s2 := ASt (a_word s1) (a_reason s1) (a_pref s1) (rev rest) (a_front s1) (a_elims s1) in
    if lit_eqb p stop then Ok s2 else popUntil save stop rest s2
  end.
(** undoTrail (589-593): reading trail[first] out of range is undefined *)
Definition undoTrail (s : asg_st) (first : nat) (save : bool) : res asg_st :=
  match nth_error (a_trail s) first with
  | None => UB
  | Some stop =>
    do s1 <- popUntil save stop (rev (a_trail s)) s;
    Ok (ASt (a_word s1) (a_reason s1) (a_pref s1) (a_trail s1) (length (a_trail s1)) (a_elims s1))
  end.
(** qPop (506), qReset (507) *)
Definition qPop (s : asg_st) : asg_st * lit :=
  (ASt (a_word s) (a_reason s) (a_pref s) (a_trail s) (S (a_front s)) (a_elims s), nth (a_front s) (a_trail s) (0%nat, false)).
Definition qReset (s : asg_st) : asg_st :=
  ASt (a_word s) (a_reason s) (a_pref s) (a_trail s) (length (a_trail s)) (a_elims s).

(** The solver: the assignment and, per decision level, the trail position of its
    first literal (levels_, oldest first). *)
Record sol := Sol { so_as : asg_st; so_levels : list nat }.
Definition decisionLevel (s : sol) : nat := length (so_levels s).

(** Solver::assume (solver.cpp:813-821); [maxLevel] is asserted *)
Definition maxLevel : N := 2 ^ 28 - 2.
Definition assume (s : sol) (p : lit) : res (sol * bool) :=
  if value (so_as s) (fst p) =? 0 then
    if N.of_nat (decisionLevel s) =? maxLevel then UB
    else let lv := so_levels s ++ [length (a_trail (so_as s))] in
         let '(a, ok) := assign (so_as s) p (N.of_nat (length lv)) 0 in Ok (Sol a lv, ok)
  else Ok (s, value (so_as s) (fst p) =? trueValue p).
(** Solver::force (solver.h:351-356) *)
Definition force (s : sol) (p : lit) (x : nat) : sol * bool :=
  let '(a, ok) := assign (so_as s) p (N.of_nat (decisionLevel s)) x in (Sol a (so_levels s), ok).
(** Solver::undoLevel (solver.cpp:1105-1116) *)
Definition undoLevel (s : sol) (sp : bool) : res sol :=
  match rev (so_levels s) with
  | [] => UB
  | pos :: rest => do a <- undoTrail (so_as s) pos sp; Ok (Sol a (rev rest))
  end.
(** [while (--n) undoLevel(sp)] *)
Fixpoint undoLevels (n : nat) (s : sol) (sp : bool) : res sol :=
  match n with O => Ok s | S n => do s1 <- undoLevel s sp; undoLevels n s1 sp end.
(** Solver::undoUntilImpl (solver.cpp:1014-1025) for a target level not below the
    backtrack level; [ok]: no conflict and level not frozen *)
Definition undoUntil (s : sol) (lev : nat) (sp ok : bool) : res sol :=
  if Nat.leb (decisionLevel s) lev then Ok s
  else do s1 <- undoLevel s (sp && ok); undoLevels (decisionLevel s - lev - 1) s1 sp.

(** Initial state: the sentinel variable 0 is true (and seen) without being on the
    trail (Solver constructor, solver.cpp:140-150). *)
Definition init_as : asg_st := ASt (fun v => if Nat.eqb v 0 then 13 else 0) (fun _ => 0%nat) (fun _ => 0) [] 0 0.
Definition init_sol : sol := Sol init_as [].

(** Calls made by a client of the solver. *)
Inductive op :=
| OAssume (p : lit) | OForce (p : lit) (reason : nat) | OUndo (lev : nat) (save ok : bool)
| OSetSeen (v : nat) (m : N) | OClearSeen (v : nat) | OEliminate (v : nat) | OPop | OReset.
(** Preconditions: variables are eliminated only while unassigned; seen masks have
    two bits; eliminated variables are not assigned. *)
Definition op_ok (s : sol) (o : op) : Prop :=
  match o with
  | OAssume p | OForce p _ => valid (so_as s) (fst p) = true /\ (o = OAssume p -> N.of_nat (decisionLevel s) < maxLevel)
  | OSetSeen _ m => m < 4
  | OEliminate v => value (so_as s) v = 0
  | OPop => (a_front (so_as s) < length (a_trail (so_as s)))%nat
  | _ => True
  end.
Definition on_as (s : sol) (a : asg_st) : sol := Sol a (so_levels s).
Definition run_op (s : sol) (o : op) : res sol :=
  match o with
  | OAssume p => do r <- assume s p; Ok (fst r)
  | OForce p x => Ok (fst (force s p x))
  | OUndo l sp ok => undoUntil s l sp ok
  | OSetSeen v m => Ok (on_as s (setSeen (so_as s) v m))
  | OClearSeen v => Ok (on_as s (clearSeen (so_as s) v))
  | OEliminate v => Ok (on_as s (eliminate (so_as s) v))
  | OPop => Ok (on_as s (fst (qPop (so_as s))))
  | OReset => Ok (on_as s (qReset (so_as s)))
  end.
Inductive reach : sol -> list op -> sol -> Prop :=
| reach_refl : forall s, reach s [] s
| reach_step : forall s o s1 ops s2, op_ok s o -> run_op s o = Ok s1 -> reach s1 ops s2 -> reach s (o :: ops) s2.
