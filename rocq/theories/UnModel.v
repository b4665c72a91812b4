(** Model of how ClingoPropagator reports changes (/repo/src/clingo.cpp:197-291).

    Simplifications: locks, epoch_, front_ and clauses added by the user are left out (a call of check is possible whenever everything was
    reported); backtracking asked for by addClause is a sequence of steps back; encodeLit is the identity; a mark with the check bit holds the level
    of the decision variable that the code stores. *)
From Coq Require Import List Arith Bool.
From Verif Require Import Base UnSpec.
Import ListNotations.

(** An entry of undo_: an index into trail_, or the check bit with a decision variable, given by its level *)
Inductive mark := MLit (i : nat) | MChk (l : nat).
(** trail_ (with the level the solver has for the literal), undo_ (last first), prop_, level_; of the solver: decision level and levels with an undo watch (last first) *)
Record cp := Cp { trail : list (lit * nat); undo : list mark; prop : nat; level : nat; dl : nat; uw : list nat }.
Definition init : cp := Cp [] [] 0 0 0 [].
(** data < undo_.back(): indices are below 2^31, marks with the check bit are not *)
Definition before (m b : mark) : bool := match m, b with MLit i, MLit j => i <? j | MLit _, MChk _ => true | MChk _, MLit _ => false | MChk i, MChk j => i <? j end.
(** registerUndo, 203-216; [None]: POTASSCO_REQUIRE or POTASSCO_ASSERT fails *)
Definition registerUndo (s : cp) (m : mark) : option cp :=
  if negb (dl s =? level s) then
    (if dl s <? level s then None else Some (Cp (trail s) (m :: undo s) (prop s) (dl s) (dl s) (dl s :: uw s)))
  else match undo s with
  | [] => Some s
  | b :: r => if before m b then match b with MChk _ => Some (Cp (trail s) (m :: r) (prop s) (level s) (dl s) (uw s)) | MLit _ => None end else Some s
  end.
(** registerUndoCheck, 218-222 *)
Definition registerUndoCheck (s : cp) : option cp := if dl s =? 0 then Some s else registerUndo s (MChk (dl s)).
(** propagate, 224-228: a watched literal became true *)
Definition assign (s : cp) (p : lit) : option cp :=
  match registerUndo s (MLit (length (trail s))) with None => None | Some s => Some (Cp (trail s ++ [(p, dl s)]) (undo s) (prop s) (level s) (dl s) (uw s)) end.
(** One round of propagateFixpoint, 274-290 *)
Definition call (s : cp) : option (cp * list ev) :=
  if negb (prop s =? length (trail s)) then
    match skipn (prop s) (trail s) with
    | [] => None
    | x :: r => if snd x =? dl s then Some (Cp (trail s) (undo s) (length (trail s)) (level s) (dl s) (uw s), [EProp (map fst (x :: r))]) else None
    end
  else match registerUndoCheck s with None => None | Some s => Some (s, [ECheck]) end.
(** undoLevel, 230-268; [always]: undo mode *)
Definition undoLevel (always : bool) (s : cp) : option (cp * list ev) :=
  if negb (dl s =? level s) then None else
  match undo s with
  | [] => None
  | b :: r =>
      let '(pr, tr, e) := match b with
        | MChk _ => (prop s, trail s, if always then [EUndo []] else [])
        | MLit i => (if i <? prop s then i else prop s, firstn i (trail s), if i <? prop s then [EUndo (map fst (firstn (prop s - i) (skipn i (trail s))))] else [])
        end in
      match (match r with [] => Some 0 | MChk l :: _ => Some l | MLit i :: _ => match nth_error tr i with Some x => Some (snd x) | None => None end end) with
      | None => None
      | Some l => Some (Cp tr r pr l (dl s) (uw s), e)
      end
  end.
(** Solver::undoUntil for one level: undo watches of the level, then the level is left *)
Definition back (always : bool) (s : cp) : option (cp * list ev) :=
  let leave s := Cp (trail s) (undo s) (prop s) (level s) (pred (dl s)) (filter (fun l => negb (l =? dl s)) (uw s)) in
  if existsb (Nat.eqb (dl s)) (uw s) then match undoLevel always s with None => None | Some (s, e) => Some (leave s, e) end else Some (leave s, []).
(** The solver opens a level once everything was reported *)
Definition new (s : cp) : cp := Cp (trail s) (undo s) (prop s) (level s) (S (dl s)) (uw s).

(** Executions: calls of the user's functions, state, and the watched literals that are true in the solver, with their levels, oldest first *)
Inductive reach (always : bool) : list ev -> cp -> list (lit * nat) -> Prop :=
| R0 : reach always [] init []
| RNew tr s T : reach always tr s T -> prop s = length (trail s) -> reach always tr (new s) T
| RAssign tr s T p s' : reach always tr s T -> assign s p = Some s' -> reach always tr s' (T ++ [(p, dl s)])
| RCall tr s T s' e : reach always tr s T -> call s = Some (s', e) -> reach always (tr ++ e) s' T
| RMark tr s T s' : reach always tr s T -> registerUndoCheck s = Some s' -> reach always tr s' T
| RBack tr s T s' e : reach always tr s T -> 0 < dl s -> back always s = Some (s', e) -> reach always (tr ++ e) s' (filter (fun x => snd x <? dl s) T).
