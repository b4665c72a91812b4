(** Model of bk_lib::indexed_priority_queue (/repo/clasp/util/indexed_priority_queue.h:47-220).

    Keys and positions are natural numbers; [None] stands for noKey (38), so sizes are not bounded by
    2^64.  The capacity of vectors is not modelled.  Accesses outside a vector and violated assertions are UB.
    The comparator is an argument of each operation, because the priorities it looks up
    change between calls. *)
From Coq Require Import List Bool Arith.
From Verif Require Import Base.
Import ListNotations.

Record queue := Q { q_idx : list (option nat); q_heap : list nat }.
Definition cmp := nat -> nat -> bool.
Definition get {A : Type} (l : list A) (i : nat) : res A := match nth_error l i with Some x => Ok x | None => UB end.
Fixpoint put {A : Type} (l : list A) (i : nat) (x : A) : list A :=
  match l, i with [], _ => [] | _ :: l, O => x :: l | y :: l, S i => y :: put l i x end.
Definition set {A : Type} (l : list A) (i : nat) (x : A) : res (list A) := if Nat.ltb i (length l) then Ok (put l i x) else UB.
(** heap_left, heap_right, heap_parent (40-42) *)
Definition left (i : nat) : nat := 2 * i + 1.
Definition right (i : nat) : nat := 2 * (i + 1).
Definition parent (i : nat) : nat := (i - 1) / 2.

(** siftup (167-179); [n] decreases *)
Fixpoint upLoop (fuel : nat) (c : cmp) (q : queue) (x n : nat) : res queue :=
  match fuel with
  | O => UB
  | S fuel =>
    let done := do h <- set (q_heap q) n x; do i <- set (q_idx q) x (Some n); Ok (Q i h) in
    if Nat.eqb n 0 then done
    else
      do y <- get (q_heap q) (parent n);
      if c x y then
        do h <- set (q_heap q) n y; do i <- set (q_idx q) y (Some n);
        upLoop fuel c (Q i h) x (parent n)
      else done
  end.
Definition siftup (c : cmp) (q : queue) (n : nat) : res queue := do x <- get (q_heap q) n; upLoop (S n) c q x n.
(** smaller_child (197-202), siftdown (181-195) *)
Definition smallerChild (c : cmp) (q : queue) (n : nat) : res nat :=
  if Nat.ltb (right n) (length (q_heap q)) then
    do r <- get (q_heap q) (right n); do l <- get (q_heap q) (left n); Ok (if c r l then right n else left n)
  else Ok (left n).
Fixpoint downLoop (fuel : nat) (c : cmp) (q : queue) (x n : nat) : res queue :=
  match fuel with
  | O => UB
  | S fuel =>
    let done := do h <- set (q_heap q) n x; do i <- set (q_idx q) x (Some n); Ok (Q i h) in
    if Nat.ltb (left n) (length (q_heap q)) then
      do ch <- smallerChild c q n; do y <- get (q_heap q) ch;
      if negb (c y x) then done
      else do h <- set (q_heap q) n y; do i <- set (q_idx q) y (Some n); downLoop fuel c (Q i h) x ch
    else done
  end.
Definition siftdown (c : cmp) (q : queue) (n : nat) : res queue := do x <- get (q_heap q) n; downLoop (S (length (q_heap q))) c q x n.

(** is_in_queue (140-143), size (111-113), top (115-118) *)
Definition isIn (q : queue) (k : nat) : bool := match nth_error (q_idx q) k with Some (Some _) => true | _ => false end.
Definition size (q : queue) : nat := length (q_heap q).
Definition top (q : queue) : res nat := get (q_heap q) 0.
(** the position of a key in the heap, UB for noKey *)
Definition pos (q : queue) (k : nat) : res nat := do o <- get (q_idx q) k; match o with Some i => Ok i | None => UB end.
(** push (78-87) *)
Definition push (c : cmp) (q : queue) (k : nat) : res queue :=
  if isIn q k then UB
  else
    let idx := if Nat.leb (length (q_idx q)) k then q_idx q ++ repeat None (S k - length (q_idx q)) else q_idx q in
    do idx <- set idx k (Some (length (q_heap q)));
    let q := Q idx (q_heap q ++ [k]) in
    do n <- pos q k; siftup c q n.
(** pop (89-97) *)
Definition pop (c : cmp) (q : queue) : res queue :=
  do x <- get (q_heap q) 0;
  do b <- get (q_heap q) (length (q_heap q) - 1);
  do h <- set (q_heap q) 0 b;
  do y <- get h 0;
  do i <- set (q_idx q) y (Some 0);
  do i <- set i x None;
  let q := Q i (removelast h) in
  if Nat.ltb 1 (length (q_heap q)) then siftdown c q 0 else Ok q.
(** update (120-128), increase (130-133), decrease (135-138) *)
Definition increase (c : cmp) (q : queue) (k : nat) : res queue := if isIn q k then do n <- pos q k; siftup c q n else UB.
Definition decrease (c : cmp) (q : queue) (k : nat) : res queue := if isIn q k then do n <- pos q k; siftdown c q n else UB.
Definition update (c : cmp) (q : queue) (k : nat) : res queue :=
  if negb (isIn q k) then push c q k
  else do n <- pos q k; do q <- siftup c q n; do n <- pos q k; siftdown c q n.
(** remove (145-157), clear (99-102) *)
Definition remove (c : cmp) (q : queue) (k : nat) : res queue :=
  if isIn q k then
    do n <- pos q k;
    do b <- get (q_heap q) (length (q_heap q) - 1);
    do h <- set (q_heap q) n b;
    do b' <- get h (length h - 1);
    do i <- set (q_idx q) b' (Some n);
    let h := removelast h in
    do i <- set i k None;
    let q := Q i h in
    if Nat.ltb 1 (length h) && negb (Nat.eqb n (length h)) then do q <- siftup c q n; siftdown c q n else Ok q
  else Ok q.
Definition clear : queue := Q [] [].
