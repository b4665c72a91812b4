(** Model of out-of-order implied literals and of the backtrack and root levels:
    ImpliedList (/repo/clasp/solver_types.h:644-681, /repo/src/solver.cpp:996-1011),
    Solver::force(ImpliedLiteral) (solver.cpp:793-811), undoUntilImpl, undoUntil
    (1015-1036), backtrack (979-994), pushRootLevel and setBacktrackLevel
    (/repo/clasp/solver.h:195-198, 269-274), popRootLevel (solver.cpp:499-520), setStopConflict
    and clearStopConflict (527-552).

    Simplifications: the trail is a list of literals with their levels and undoing
    to level l removes the literals of higher levels (that this is what truncating
    the trail does is C14); an antecedent is only the information whether it
    is null; phases, heuristic callbacks, activity and the removal of
    conditional clauses in popRootLevel are not modelled. *)
From Coq Require Import List Bool Arith.
From Verif Require Import Base.
Import ListNotations.

(** An entry of ImpliedList::lits (solver_types.h:644-654). *)
Record ent := Ent { e_lit : lit; e_lev : nat; e_null : bool }.
(** conflict_: empty, a violated nogood, or the stop conflict with the saved root
    and backtrack level *)
Inductive cfl := NoC | Conf | Stop (r f : nat).
Record st := St {
  t_trail : list (lit * nat);
  t_dec : list lit;          (* decisions, oldest first; levels_ *)
  t_root : nat; t_flip : nat; t_mode : nat;
  t_il : list ent; t_ill : nat; t_front : nat;  (* impliedLits_: lits, level, front *)
  t_conf : cfl }.

Definition DL (s : st) : nat := length (t_dec s).
(** isTrue, level *)
Definition isT (s : st) (p : lit) : bool := existsb (fun x => lit_eqb (fst x) p) (t_trail s).
Definition lev (s : st) (p : lit) : nat :=
  match find (fun x => lit_eqb (fst x) p) (t_trail s) with Some x => snd x | None => 0 end.
Definition hasConflict (s : st) : bool := match t_conf s with NoC => false | _ => true end.

Definition set_trail (s : st) t := St t (t_dec s) (t_root s) (t_flip s) (t_mode s) (t_il s) (t_ill s) (t_front s) (t_conf s).
Definition set_conf (s : st) c := St (t_trail s) (t_dec s) (t_root s) (t_flip s) (t_mode s) (t_il s) (t_ill s) (t_front s) c.
Definition set_il (s : st) il ill fr := St (t_trail s) (t_dec s) (t_root s) (t_flip s) (t_mode s) il ill fr (t_conf s).
Definition set_lev (s : st) r f m := St (t_trail s) (t_dec s) r f m (t_il s) (t_ill s) (t_front s) (t_conf s).

(** Solver::force(p, a) (solver.h:351-356) *)
Definition force1 (s : st) (p : lit) : st * bool :=
  if isT s p then (s, true)
  else if isT s (neg p) then (set_conf s Conf, false)
  else (set_trail s (t_trail s ++ [(p, DL s)]), true).
(** Solver::assume (solver.cpp:813-821) *)
Definition assume (s : st) (p : lit) : st * bool :=
  if isT s p then (s, true) else if isT s (neg p) then (s, false)
  else (St (t_trail s ++ [(p, S (DL s))]) (t_dec s ++ [p]) (t_root s) (t_flip s) (t_mode s) (t_il s) (t_ill s) (t_front s) (t_conf s), true).
(** undoUntilImpl (solver.cpp:1015-1025) *)
Definition undoImpl (s : st) (l : nat) : st :=
  let l := Nat.max l (t_flip s) in
  if Nat.leb (DL s) l then s
  else St (filter (fun x => Nat.leb (snd x) l) (t_trail s)) (firstn l (t_dec s))
          (t_root s) (t_flip s) (t_mode s) (t_il s) (t_ill s) (t_front s) NoC.
(** ImpliedList::add (solver_types.h:668-671) *)
Definition il_add (s : st) (e : ent) : st := set_il s (t_il s ++ [e]) (Nat.max (t_ill s) (DL s)) (t_front s).
(** ImpliedList::active (673) *)
Definition il_active (s : st) : bool := Nat.ltb (DL s) (t_ill s) && negb (Nat.eqb (t_front s) (length (t_il s))).
(** The loop of ImpliedList::assign (solver.cpp:1001-1006); returns the kept entries *)
Fixpoint il_loop (s : st) (ok : bool) (es : list ent) : st * list ent :=
  match es with
  | [] => (s, [])
  | e :: es =>
    if Nat.leb (e_lev e) (DL s) then
      let '(s1, ok1) := if ok then force1 s (e_lit e) else (s, false) in
      let '(s2, k) := il_loop s1 ok1 es in
      (s2, if Nat.ltb (e_lev e) (DL s) || e_null e then e :: k else k)
    else il_loop s ok es
  end.
(** ImpliedList::assign (996-1011) *)
Definition il_assign (s : st) : st :=
  let '(s1, k) := il_loop s (negb (hasConflict s)) (skipn (t_front s) (t_il s)) in
  let il := firstn (t_front s) (t_il s) ++ k in
  let ill := match il with [] => 0 | _ => DL s end in
  set_il s1 il ill (if Nat.ltb (t_root s) ill then t_front s else length il).
(** undoUntil with a mode (1027-1036) *)
Definition undo2 (s : st) (l mode : nat) : st :=
  let s1 := if Nat.ltb l (t_flip s) && Nat.leb (t_mode s) mode then set_lev s (t_root s) (Nat.max (t_root s) l) (t_mode s) else s in
  let s2 := undoImpl s1 l in
  if il_active s2 then il_assign s2 else s2.
(** setBacktrackLevel (solver.h:269-274) with mode 1 or 2 *)
Definition setBt (s : st) (l mode : nat) : st :=
  if Nat.leb (t_mode s) mode then set_lev s (t_root s) (Nat.max (Nat.min l (DL s)) (t_root s)) (Nat.max mode 1) else s.
(** pushRootLevel (solver.h:195-198) *)
Definition pushRoot (s : st) (n : nat) : st :=
  let r := Nat.min (DL s) (t_root s + n) in set_lev s r (Nat.max (t_flip s) r) (t_mode s).
(** setStopConflict, clearStopConflict (solver.cpp:527-552) *)
Definition setStop (s : st) : st :=
  let s1 := if hasConflict s then s else set_conf s (Stop (t_root s) (t_flip s)) in pushRoot s1 (DL s1).
Definition clearStop (s : st) : st :=
  match t_conf s with Stop r f => set_conf (set_lev s r f (t_mode s)) NoC | _ => s end.
(** popRootLevel (499-520) *)
Definition popRoot (s : st) (n : nat) : st :=
  let s := clearStop s in
  let r := t_root s - Nat.min n (t_root s) in
  undo2 (set_il (set_lev s r r 0) (t_il s) (t_ill s) 0) r 2.
(** Solver::force(const ImpliedLiteral&) (793-811) *)
Fixpoint replace_first (il : list ent) (e : ent) : list ent :=
  match il with
  | [] => []
  | x :: il => if lit_eqb (e_lit x) (e_lit e) then (if Nat.ltb (e_lev e) (e_lev x) then e else x) :: il
               else x :: replace_first il e
  end.
Definition forceIL (s : st) (e : ent) : st * bool :=
  if isT s (e_lit e) && Nat.leb (lev s (e_lit e)) (e_lev e) then (s, true)
  else if isT s (e_lit e) && existsb (fun x => lit_eqb (e_lit x) (e_lit e)) (t_il s)
  then (set_il s (replace_first (t_il s) e) (t_ill s) (t_front s), true)
  else
    let s1 := undoImpl s (e_lev e) in
    let s2 := if Nat.eqb (DL s1) (e_lev e) then s1 else il_add s1 e in
    force1 s2 (e_lit e).
(** Solver::force(p, dl, r) (solver.h:373-375) *)
Definition forceAt (s : st) (p : lit) (l : nat) (null : bool) : st * bool :=
  if Nat.eqb l (DL s) then force1 s p else forceIL s (Ent p l null).
(** Solver::backtrack (979-994); every round removes a level *)
Fixpoint backtrack_loop (fuel : nat) (s : st) : st * bool :=
  match fuel with
  | O => (s, false)
  | S fuel =>
    if Nat.eqb (DL s) (t_root s) then (setStop s, false)
    else
      let inv := neg (nth (DL s - 1) (t_dec s) (0, false)) in
      let s1 := undo2 s (DL s - 1) 2 in
      let s2 := setBt s1 (DL s1) 1 in
      if hasConflict s2 then backtrack_loop fuel s2
      else let '(s3, ok) := force1 s2 inv in
           if ok then (il_add s3 (Ent inv (DL s3) true), true) else backtrack_loop fuel s3
  end.
Definition backtrack (s : st) : st * bool := backtrack_loop (S (DL s)) s.

Definition init : st := St [] [] 0 0 0 [] 0 0 NoC.
