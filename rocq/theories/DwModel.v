(** Model of deferred watch removal: Solver::Dirty (/repo/src/solver.cpp:65-124), Solver::removeWatch and removeUndoWatch (637-667), as used by
    destroyDB (668-682) and popAuxVar (400-410).

    Simplifications.  A pointer is an address and its lowest bit (set_bit, test_bit, clear_bit on bit 0).  Watches are left entries (clause heads) and right
    entries (generic constraints) of a list, with a data word.  A constraint set is a list; the cache of the last element (last) is kept. *)
From Coq Require Import List Bool Arith.
Import ListNotations.

Record watch := W { w_con : nat; w_tag : bool; w_data : nat }.
(** Watch lists by literal id, valid ids, undo lists by level, number of levels *)
Record wst := Ws { s_left : nat -> list watch; s_right : nat -> list watch; s_max : nat; s_undo : nat -> list watch; s_lev : nat }.
(** dirty: left entries (literal ids), right entries (levels); cons; last *)
Record dirty := D { d_lits : list nat; d_levs : list nat; d_cons : list nat; d_last : option nat }.
Definition upd (f : nat -> list watch) (k : nat) (l : list watch) : nat -> list watch := fun i => if Nat.eqb i k then l else f i.
Definition minSize : nat := 4.
(** erase of the first entry for [c] (erase_left/erase_right of find_if) *)
Fixpoint erase (c : nat) (l : list watch) : list watch :=
  match l with [] => [] | x :: r => if Nat.eqb (w_con x) c then r else x :: erase c r end.
(** removal from an undo list: overwritten with the last entry *)
Fixpoint swapOut (c : nat) (l : list watch) : list watch :=
  match l with [] => [] | x :: r => if Nat.eqb (w_con x) c then match r with [] => [] | _ => last r x :: removelast r end else x :: swapOut c r end.
Definition tagged (l : list watch) : bool := match l with [] => false | x :: _ => w_tag x end.
Definition setTag (b : bool) (l : list watch) : list watch := match l with [] => [] | x :: r => W (w_con x) b (w_data x) :: r end.
(** add(T*&, other, c): 88-93 *)
Definition addCon (d : dirty) (c : nat) : dirty :=
  if match d_last d with Some x => Nat.eqb x c | None => false end then d else D (d_lits d) (d_levs d) (if existsb (Nat.eqb c) (d_cons d) then d_cons d else c :: d_cons d) (Some c).

Inductive rem := RemLeft (p c : nat) | RemRight (p c : nat) | RemUndo (dl c : nat).
(** removeWatch/removeUndoWatch with lazyRem_ set; RemUndo dl is the list of levels_[dl] (the code passes dl + 1) *)
Definition lazyRem (x : wst * dirty) (o : rem) : wst * dirty :=
  let '(s, d) := x in
  match o with
  | RemLeft p c =>
    if Nat.leb (s_max s) p then x
    else if Nat.leb (length (s_left s p)) minSize then (Ws (upd (s_left s) p (erase c (s_left s p))) (s_right s) (s_max s) (s_undo s) (s_lev s), d)
    else
      let first := negb (tagged (s_right s p) || tagged (s_left s p)) in
      let d := addCon d c in
      (Ws (upd (s_left s) p (setTag true (s_left s p))) (s_right s) (s_max s) (s_undo s) (s_lev s), if first then D (d_lits d ++ [p]) (d_levs d) (d_cons d) (d_last d) else d)
  | RemRight p c =>
    if Nat.leb (s_max s) p then x
    else if Nat.leb (length (s_right s p)) minSize then (Ws (s_left s) (upd (s_right s) p (erase c (s_right s p))) (s_max s) (s_undo s) (s_lev s), d)
    else
      let first := negb (tagged (s_left s p) || tagged (s_right s p)) in
      let d := addCon d c in
      (Ws (s_left s) (upd (s_right s) p (setTag true (s_right s p))) (s_max s) (s_undo s) (s_lev s), if first then D (d_lits d ++ [p]) (d_levs d) (d_cons d) (d_last d) else d)
  | RemUndo dl c =>
    if Nat.leb (length (s_undo s dl)) minSize then (Ws (s_left s) (s_right s) (s_max s) (upd (s_undo s) dl (swapOut c (s_undo s dl))) (s_lev s), d)
    else
      let first := negb (tagged (s_undo s dl)) in
      let d := addCon d c in
      (Ws (s_left s) (s_right s) (s_max s) (upd (s_undo s) dl (setTag true (s_undo s dl))) (s_lev s), if first then D (d_lits d) (d_levs d ++ [dl]) (d_cons d) (d_last d) else d)
  end.
(** The same without lazyRem_ *)
Definition nowRem (s : wst) (o : rem) : wst :=
  match o with
  | RemLeft p c => if Nat.leb (s_max s) p then s else Ws (upd (s_left s) p (erase c (s_left s p))) (s_right s) (s_max s) (s_undo s) (s_lev s)
  | RemRight p c => if Nat.leb (s_max s) p then s else Ws (s_left s) (upd (s_right s) p (erase c (s_right s p))) (s_max s) (s_undo s) (s_lev s)
  | RemUndo dl c => Ws (s_left s) (s_right s) (s_max s) (upd (s_undo s) dl (swapOut c (s_undo s dl))) (s_lev s)
  end.
(** cleanup (99-119): test_and_clear, then remove_if *)
Definition clean (cons : list nat) (l : list watch) : list watch :=
  if tagged l then filter (fun x => negb (existsb (Nat.eqb (w_con x)) cons)) (setTag false l) else l.
Definition cleanup (x : wst * dirty) : wst :=
  let '(s, d) := x in
  let s1 := fold_left (fun s p => if Nat.leb (s_max s) p then s else
      Ws (upd (s_left s) p (clean (d_cons d) (s_left s p))) (upd (s_right s) p (clean (d_cons d) (s_right s p))) (s_max s) (s_undo s) (s_lev s)) (d_lits d) s in
  fold_left (fun s dl => if Nat.ltb dl (s_lev s) then Ws (s_left s) (s_right s) (s_max s) (upd (s_undo s) dl (clean (d_cons d) (s_undo s dl))) (s_lev s) else s) (d_levs d) s1.
Definition deferred (s : wst) (l : list rem) : wst := cleanup (fold_left lazyRem l (s, D [] [] [] None)).
Definition immediate (s : wst) (l : list rem) : wst := fold_left nowRem l s.
