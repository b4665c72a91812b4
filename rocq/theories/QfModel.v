(** Model of cautious consequences by queries: CBConsequences::QueryFinder (/repo/src/cb_enumerator.cpp:86-226), with
    EnumerationConstraint::update, commitModel, commitUnsat (/repo/src/enumerator.cpp:104-124, 149-168) and the loop of
    SequentialSolve::doSolve (/repo/src/solve_algorithms.cpp:476-499), on top of search (SeModel).

    Simplifications.  One solver, so the shared state is only changed by it, the path is not disjoint and no nogood arrives from a
    queue; no minimize constraint; no interrupts; simplify() is left out as in SeModel.  Assertions are not checked (release build). *)
From Coq Require Import List Bool Arith ZArith.
From Verif Require Import Base ClModel BpModel CaModel SeModel SeSpec.
Import ListNotations.

(** QueryFinder::State (88-112): value_[v] is 0, estMask|trueValue of a literal of v, or trueValue of a literal of v *)
Inductive cell := Out | Open (neg : bool) | Fixed (neg : bool).
Definition cells := nat -> cell.
Definition isOpen (m : cells) (p : lit) : bool := match m (fst p) with Open b => eqb b (snd p) | _ => false end.
Definition setCell (m : cells) (v : nat) (c : cell) : cells := fun u => if Nat.eqb u v then c else m u.
Definition push (m : cells) (p : lit) : cells := setCell m (fst p) (Open (snd p)).
Definition pop (m : cells) (p : lit) : cells := setCell m (fst p) Out.
Definition fix_ (m : cells) (p : lit) : cells := setCell m (fst p) (Fixed (snd p)).
(** Model::isTrue and Model::isDef of the reported values (/repo/clasp/enumerator.h:52-56) *)
Definition inEst (m : cells) (p : lit) : bool := match m (fst p) with Out => false | Open b | Fixed b => eqb b (snd p) end.
Definition inDef (m : cells) (p : lit) : bool := match m (fst p) with Fixed b => eqb b (snd p) | _ => false end.

(** The finder: state_, open_, query_ *)
Record qf := Qf { f_m : cells; f_open : list lit; f_q : lit }.
Definition sentinel (p : lit) : bool := Nat.eqb (fst p) 0.
(** Constructor (113-115) *)
Definition start (cons : list lit) : qf := Qf (push (fun _ => Out) lit_false) cons lit_false.
Definition isFr (s : st) (p : lit) : bool := negb (isT s p) && negb (isF s p).

(** initUpper (149-159) *)
Definition initUpper (s : st) (m : cells) (l : list lit) : cells * list lit :=
  fold_left (fun '(m, j) p => if isT s p then if Nat.eqb (lev s p) 0 then (fix_ m p, j) else (push m p, j ++ [p]) else (m, j)) l (m, []).
(** updateUpper (160-170) *)
Definition updateUpper (s : st) (root : nat) (m : cells) (l : list lit) : cells * list lit :=
  fold_left (fun '(m, j) p => if isOpen m p then
      if negb (isT s p) then (pop m p, j) else if Nat.ltb (lev s p) root then (fix_ m p, j) else (m, j ++ [p])
    else (m, j)) l (m, []).
(** updateOpen (171-185): [done] are the literals before position i; the removed literal is replaced with the last one *)
Fixpoint updOpen (k : nat) (s : st) (m : cells) (done l : list lit) : cells * list lit :=
  match k, l with
  | S k, q :: r =>
    if isFr s q && isOpen m q then updOpen k s m (done ++ [q]) r
    else
      let m' := if isT s q then fix_ m q else if isOpen m q then pop m q else m in
      updOpen k s m' done (match r with [] => [] | _ => last r q :: removelast r end)
  | _, _ => (m, done)
  end.
Definition updateOpen (s : st) (f : qf) : qf :=
  let '(m, l) := updOpen (length (f_open f)) s (f_m f) [] (f_open f) in Qf m l (f_q f).
(** popQuery (138-144) *)
Definition popQuery (x : sv) (f : qf) : sv :=
  let s := q_st x in
  if isF s (f_q f) && negb (lit_eqb (f_q f) lit_false) then popRoot x (b_root s - lev s (f_q f) + 1) else popRoot x 0.
(** doCommitModel (194-206) *)
Definition commitModel (s : st) (f : qf) : qf :=
  if sentinel (f_q f) then
    let '(m, l) := initUpper s (fix_ (f_m f) (neg (f_q f))) (f_open f) in Qf m l (f_q f)
  else
    let '(m, l) := updateUpper s (lev s (f_q f)) (pop (f_m f) (f_q f)) (f_open f) in Qf m l (f_q f).
(** doCommitUnsat (207-217) after a conflict; the second component tells whether a new model was set *)
Definition commitUnsat (x : sv) (f : qf) : sv * qf * bool :=
  let commit := negb (sentinel (f_q f)) && match b_conf (q_st x) with Some _ => true | None => false end in
  let x1 := popQuery x f in
  match b_conf (q_st x1) with
  | None => if commit && isOpen (f_m f) (f_q f) then (x1, updateOpen (q_st x1) (Qf (fix_ (f_m f) (f_q f)) (f_open f) (f_q f)), true) else (x1, f, false)
  | Some _ => (x1, f, false)
  end.

(** What a caller observes: models (doSolve: reportModel) and answers updated after a query failed (reportUnsat).  [EPush g]: an assumption was pushed
    by doUpdate; [g]: a root level was added (not observable, used to state when the algorithm works) *)
Inductive event := EModel (m : cells) | EUp (m : cells) | EPush (grew : bool).
(** selectOpen (186-193); [h]: selectRange of the decision heuristic *)
Definition select (h : st -> list lit -> lit) (s : st) (f : qf) : option qf :=
  let f' := updateOpen s f in
  match f_open f' with [] => None | l => Some (Qf (f_m f') l (h s l)) end.
Inductive upd := Done | Cont (x : sv) (f : qf) (e : list event).
(** doUpdate (218-226).  If no query is left, lit_false is forced on the root level: the next call of solve answers false, popQuery does nothing for
    lit_false, so the conflict stays, commitUnsat returns false and the search is complete ([Done]).
    [pre] = false is the code; with [pre] = true pending literals are propagated before a query is selected, which the code does not do. *)
Definition doUpdate (pre : bool) (h : st -> list lit -> lit) (n : nat) (x : sv) (f : qf) : res upd :=
  let newQ := negb (isOpen (f_m f) (f_q f)) in
  let go (x : sv) (f : qf) :=
    do '(x', _) <- pushRoot n x (neg (f_q f));
    Ok (Cont x' f [EPush (Nat.ltb (b_root (q_st x)) (b_root (q_st x')))]) in
  if newQ || isFr (q_st x) (f_q f) then
    let x1 := popQuery x f in
    match b_conf (q_st x1) with
    | Some _ => Ok (Cont x1 f [])
    | None =>
      if newQ then
        do '(x2, ok) <- (if pre then match propagate (S (S n)) (q_st x1) with (s, Some ok) => Ok (Sv s (q_lrn x1), ok) | (_, None) => UB end else Ok (x1, true));
        if ok then match select h (q_st x2) f with None => Ok Done | Some f' => go x2 f' end
        else Ok (Cont x2 f [])
      else go x1 f
    end
  else Ok (Cont x f []).
(** pushRoot with an empty path (476-487), the beginning of update after an unsatisfiable query *)
Definition settle (n : nat) (x : sv) : res (sv * bool) :=
  let x1 := popRoot x 0 in
  match b_conf (q_st x1) with
  | Some _ => Ok (x1, false)
  | None => match propagate (S (S n)) (q_st x1) with (s, Some ok) => Ok (Sv s (q_lrn x1), ok) | (_, None) => UB end
  end.
(** Settings of one round: search, selection of a query and restart on a model (update: undoUntil(0)) *)
Record qround := QRound { u_w : oracle; u_h : st -> list lit -> lit; u_rst : bool }.
Inductive answer := Complete | Stopped | NoRounds.
(** The loop of doSolve.  The result of update is ignored as in the code; a conflict after update is on the root level, so
    resolveConflict does nothing. *)
Fixpoint query (k : nat) (pre : bool) (rounds fuel n : nat) (u : nat -> qround) (x : sv) (f : qf) : res (list event * answer) :=
  match k with
  | O => Ok ([], NoRounds)
  | S k =>
    let continue (e : list event) (x : sv) (f : qf) :=
      do r <- doUpdate pre (u_h (u k)) n x f;
      match r with
      | Done => Ok (e, Complete)
      | Cont x' f' e' => do '(e2, a) <- query k pre rounds fuel n u x' f'; Ok (e ++ e' ++ e2, a)
      end in
    do '(x1, v) <- solve rounds fuel n (u_w (u k)) x;
    match v with
    | VTrue =>
      let f1 := commitModel (q_st x1) f in
      continue [EModel (f_m f1)] (if u_rst (u k) then restart x1 else x1) f1
    | VFalse =>
      let '(x2, f2, up) := commitUnsat x1 f in
      match b_conf (q_st x2) with
      | Some _ => Ok ([], Complete)
      | None =>
        let e := if up then [EUp (f_m f2)] else [] in
        do '(x3, ok) <- settle n x2;
        if ok then continue e x3 f2
        else do '(e2, a) <- query k pre rounds fuel n u x3 f2; Ok (e ++ e2, a)
      end
    | _ => Ok ([], Stopped)
    end
  end.
