(** Model of bk_lib::left_right_sequence (/repo/clasp/util/left_right_sequence.h): two sequences in one memory block, used for watch lists (solver_types.h:411), short
    implications (shared_context.h:406, 427), occurrence lists of the preprocessor (satelite.h:73) and others.
    Memory is modelled by bytes, for any sizes of the two element types. Any number of objects shares one heap; every access is checked against the bounds of its buffer.
    Simplifications: elements are values of a fixed number of bytes (the container requires trivially copyable types); the argument of push is a value, i.e. no reference to
    an element of the container itself; allocation does not fail; the content of fresh memory is one arbitrary byte value. *)
From Coq Require Import List Arith NArith Bool.
From Verif Require Import Base.
Import ListNotations.

Section Lr.
Variable byte : Type.
Variable junk : byte.
(** sizeof(left_type), sizeof(right_type), sizeof(align_type); template argument i and size_with_pad (select_base, 221-239) *)
Variables sL sR al i pad : nat.

(** block_size (154) *)
Definition bs : nat := ((Nat.max sL sR + (al - 1)) / al) * al.
(** select_base (232-233): bytes stored inside the object *)
Definition ic : nat := if (pad <? i) && (bs <=? i - pad) then ((i - pad) / bs) * bs else 0.

(** unsigned 32-bit arithmetic and the 31-bit member cap_ (170) *)
Definition u32 (x : nat) : nat := N.to_nat (N.of_nat x mod 4294967296).
Definition u31 (x : nat) : nat := N.to_nat (N.of_nat x mod 2147483648).
Definition sub32 (a b : nat) : nat := if b <=? a then a - b else N.to_nat (N.of_nat a + 4294967296 - N.of_nat b).

(** A pointer to a buffer: null, the buffer inside of object o, a block on the heap. *)
Inductive ptr := Null | Inl (o : nat) | Heap (b : nat).
Definition ptr_eqb (p q : ptr) : bool :=
  match p, q with Null, Null => true | Inl a, Inl b => Nat.eqb a b | Heap a, Heap b => Nat.eqb a b | _, _ => false end.

(** Members of left_right_rep (169-173). *)
Record rep := Rep { r_buf : ptr; r_cap : nat; r_left : nat; r_right : nat; r_free : bool }.
(** Live objects, their inline buffers, heap blocks (None: not allocated), number of the next block. *)
Record st := St { s_obj : nat -> option rep; s_inl : nat -> list byte; s_heap : nat -> option (list byte); s_next : nat }.

Definition upd {B} (f : nat -> B) (k : nat) (v : B) : nat -> B := fun x => if Nat.eqb x k then v else f x.
Definition setObj s o r := St (upd (s_obj s) o r) (s_inl s) (s_heap s) (s_next s).
Definition setInl s o m := St (s_obj s) (upd (s_inl s) o m) (s_heap s) (s_next s).
Definition setHeap s b m := St (s_obj s) (s_inl s) (upd (s_heap s) b m) (s_next s).

Definition mem (s : st) (p : ptr) : option (list byte) :=
  match p with
  | Null => None
  | Inl o => match s_obj s o with Some _ => Some (s_inl s o) | None => None end
  | Heap b => s_heap s b
  end.
(** Reading and writing n bytes. *)
Definition read (s : st) (p : ptr) (off n : nat) : res (list byte) :=
  match n with
  | 0 => Ok []
  | _ => match mem s p with
         | Some m => if off + n <=? length m then Ok (firstn n (skipn off m)) else UB
         | None => UB
         end
  end.
Definition write (s : st) (p : ptr) (off : nat) (x : list byte) : res st :=
  match x with
  | [] => Ok s
  | _ => match mem s p with
         | Some m =>
             if off + length x <=? length m
             then let m' := firstn off m ++ x ++ skipn (off + length x) m in
                  match p with Null => UB | Inl o => Ok (setInl s o m') | Heap b => Ok (setHeap s b (Some m')) end
             else UB
         | None => UB
         end
  end.
(** ::operator new *)
Definition alloc (s : st) (n : nat) : st * ptr :=
  (St (s_obj s) (s_inl s) (upd (s_heap s) (s_next s) (Some (repeat junk n))) (S (s_next s)), Heap (s_next s)).
(** release (167): deleting anything but an allocated block is undefined *)
Definition release (s : st) (r : rep) : res st :=
  if r_free r then
    match r_buf r with
    | Heap b => match s_heap s b with Some _ => Ok (setHeap s b None) | None => UB end
    | _ => UB
    end
  else Ok s.

(** Queries (68-73), capacity and raw_size (165-166) *)
Definition empty (r : rep) : bool := Nat.eqb (r_left r) 0 && Nat.eqb (r_right r) (r_cap r).
Definition leftSize (r : rep) : nat := r_left r / sL.
Definition rightSize (r : rep) : nat := sub32 (r_cap r) (r_right r) / sR.
Definition capacity (r : rep) : nat := r_cap r / bs.
Definition rawSize (r : rep) : nat := u32 (r_left r + sub32 (r_cap r) (r_right r)).

(** extra() (202, 211) *)
Definition extra (o : nat) : ptr := if Nat.eqb ic 0 then Null else Inl o.

(** realloc (177-196) *)
Definition realloc (s : st) (r : rep) : res (st * rep) :=
  let nc := u32 ((u32 (capacity r * 3) / 2) * bs) in
  let mc := u32 (4 * bs) in
  let nc := if nc <? mc then mc else nc in
  let '(s, p) := alloc s nc in
  let k := sub32 (r_cap r) (r_right r) in
  do s <- (if empty r then Ok s
           else do a <- read s (r_buf r) 0 (leftSize r * sL); do s <- write s p 0 a;
                do b <- read s (r_buf r) (r_right r) (rightSize r * sR); write s p (sub32 nc k) b);
  do s <- release s r;
  Ok (s, Rep p (u31 nc) (r_left r) (sub32 nc k) true).

(** push_left (95-101) *)
Definition pushLeft (s : st) (r : rep) (x : list byte) : res (st * rep) :=
  do '(s, r) <- (if r_right r <? r_left r + sL then realloc s r else Ok (s, r));
  do s <- write s (r_buf r) (r_left r) x;
  Ok (s, Rep (r_buf r) (r_cap r) (u32 (r_left r + sL)) (r_right r) (r_free r)).
(** push_right (103-109) *)
Definition pushRight (s : st) (r : rep) (x : list byte) : res (st * rep) :=
  do '(s, r) <- (if r_right r <? r_left r + sR then realloc s r else Ok (s, r));
  let rt := sub32 (r_right r) sR in
  do s <- write s (r_buf r) rt x;
  Ok (s, Rep (r_buf r) (r_cap r) (r_left r) rt (r_free r)).
(** pop_left, pop_right (110-117) with their assertions *)
Definition popLeft (r : rep) : res rep :=
  if Nat.eqb (leftSize r) 0 then UB else Ok (Rep (r_buf r) (r_cap r) (r_left r - sL) (r_right r) (r_free r)).
Definition popRight (r : rep) : res rep :=
  if Nat.eqb (rightSize r) 0 then UB else Ok (Rep (r_buf r) (r_cap r) (r_left r) (r_right r + sR) (r_free r)).
(** erase_left (119-125); the iterator is left_begin() + k *)
Definition eraseLeft (s : st) (r : rep) (k : nat) : res (st * rep) :=
  if Nat.eqb (k * sL) (r_left r) then Ok (s, r)
  else if r_left r <? S k * sL then UB
  else do a <- read s (r_buf r) (S k * sL) (r_left r - S k * sL);
       do s <- write s (r_buf r) (k * sL) a;
       Ok (s, Rep (r_buf r) (r_cap r) (r_left r - sL) (r_right r) (r_free r)).
(** erase_left_unordered (126-131) *)
Definition eraseLeftU (s : st) (r : rep) (k : nat) : res (st * rep) :=
  if Nat.eqb (k * sL) (r_left r) then Ok (s, r)
  else let lf := sub32 (r_left r) sL in
       do a <- read s (r_buf r) lf sL;
       do s <- write s (r_buf r) (k * sL) a;
       Ok (s, Rep (r_buf r) (r_cap r) lf (r_right r) (r_free r)).
(** erase_right (132-140); the iterator is right_begin() + k; the pointer r is its element *)
Definition eraseRight (s : st) (r : rep) (k : nat) : res (st * rep) :=
  if Nat.eqb (sub32 (r_cap r) (k * sR)) (r_right r) then Ok (s, r)
  else let q := sub32 (r_cap r) (S k * sR) in
       if q <? r_right r then UB
       else do a <- read s (r_buf r) (r_right r) (q - r_right r);
            do s <- write s (r_buf r) (r_right r + sR) a;
            Ok (s, Rep (r_buf r) (r_cap r) (r_left r) (r_right r + sR) (r_free r)).
(** erase_right_unordered (141-146) *)
Definition eraseRightU (s : st) (r : rep) (k : nat) : res (st * rep) :=
  if Nat.eqb (sub32 (r_cap r) (k * sR)) (r_right r) then Ok (s, r)
  else do a <- read s (r_buf r) (r_right r) sR;
       do s <- write s (r_buf r) (sub32 (r_cap r) (S k * sR)) a;
       Ok (s, Rep (r_buf r) (r_cap r) (r_left r) (r_right r + sR) (r_free r)).
(** shrink_left, shrink_right (147-153) *)
Definition shrinkLeft (r : rep) (k : nat) : rep := Rep (r_buf r) (r_cap r) (k * sL) (r_right r) (r_free r).
Definition shrinkRight (r : rep) (k : nat) : rep := Rep (r_buf r) (r_cap r) (r_left r) (sub32 (r_cap r) (k * sR)) (r_free r).
(** clear (85-94) *)
Definition clear (s : st) (r : rep) (rel : bool) : res (st * rep) :=
  do '(s, r) <- (if rel then do s <- release s r; Ok (s, Rep Null 0 (r_left r) (r_right r) false) else Ok (s, r));
  Ok (s, Rep (r_buf r) (r_cap r) 0 (r_cap r) (r_free r)).
(** try_shrink (282-297) *)
Definition tryShrink (s : st) (o : nat) (r : rep) : res (st * rep) :=
  if (rawSize r <=? ic) && negb (ptr_eqb (r_buf r) (extra o)) then
    let e := extra o in
    let rt := sub32 ic (rightSize r * sR) in
    do s <- (if empty r then Ok s
             else do a <- read s (r_buf r) 0 (leftSize r * sL); do s <- write s e 0 a;
                  do b <- read s (r_buf r) (r_right r) (rightSize r * sR); write s e rt b);
    do s <- release s r;
    Ok (s, Rep e ic (r_left r) rt false)
  else Ok (s, r).
(** copy (322-341): sets all members of this (object o) *)
Definition copy (s : st) (o : nat) (q : rep) : res (st * rep) :=
  let os := rawSize q in
  let '(s, p, c, f) :=
    if os <=? ic then (s, extra o, ic, false)
    else let os := u32 ((u32 (os + (bs - 1)) / bs) * bs) in
         let '(s, p) := alloc s os in (s, p, u31 os, true) in
  let rt := sub32 c (rightSize q * sR) in
  do s <- (if empty q then Ok s
           else do a <- read s (r_buf q) 0 (leftSize q * sL); do s <- write s p 0 a;
                do b <- read s (r_buf q) (r_right q) (rightSize q * sR); write s p rt b);
  Ok (s, Rep p c (r_left q) rt f).
(** the default constructor (271-277) *)
Definition fresh (o : nat) : rep := Rep (extra o) ic 0 ic false.

(** The operations of the interface, on objects o (and q). *)
Inductive op :=
| ONew (o : nat) | OPushL (o : nat) (x : list byte) | OPushR (o : nat) (x : list byte) | OPopL (o : nat) | OPopR (o : nat)
| OEraseL (o k : nat) | OEraseLU (o k : nat) | OEraseR (o k : nat) | OEraseRU (o k : nat) | OShrinkL (o k : nat) | OShrinkR (o k : nat)
| OClear (o : nat) (rel : bool) | OTryShrink (o : nat) | OCopy (o q : nat) | OAssign (o q : nat) | OMove (o q : nat) | ODestroy (o : nat).

Definition obj (s : st) (o : nat) : res rep := match s_obj s o with Some r => Ok r | None => UB end.
Definition put (o : nat) (x : res (st * rep)) : res st := do '(s, r) <- x; Ok (setObj s o (Some r)).
(** Storage of a new object. *)
Definition birth (s : st) (o : nat) : res st :=
  match s_obj s o with Some _ => UB | None => Ok (setInl (setObj s o (Some (fresh o))) o (repeat junk ic)) end.

Definition apply (s : st) (x : op) : res st :=
  match x with
  | ONew o => birth s o
  | OPushL o x => do r <- obj s o; put o (pushLeft s r x)
  | OPushR o x => do r <- obj s o; put o (pushRight s r x)
  | OPopL o => do r <- obj s o; do r <- popLeft r; Ok (setObj s o (Some r))
  | OPopR o => do r <- obj s o; do r <- popRight r; Ok (setObj s o (Some r))
  | OEraseL o k => do r <- obj s o; put o (eraseLeft s r k)
  | OEraseLU o k => do r <- obj s o; put o (eraseLeftU s r k)
  | OEraseR o k => do r <- obj s o; put o (eraseRight s r k)
  | OEraseRU o k => do r <- obj s o; put o (eraseRightU s r k)
  | OShrinkL o k => do r <- obj s o; Ok (setObj s o (Some (shrinkLeft r k)))
  | OShrinkR o k => do r <- obj s o; Ok (setObj s o (Some (shrinkRight r k)))
  | OClear o b => do r <- obj s o; put o (clear s r b)
  | OTryShrink o => do r <- obj s o; put o (tryShrink s o r)
  (* copy construction (344-346) *)
  | OCopy o q => do r <- obj s q; do s <- birth s o; put o (copy s o r)
  (* operator= (349-355) *)
  | OAssign o q => do r <- obj s o; do t <- obj s q; if Nat.eqb o q then Ok s else do s <- release s r; put o (copy s o t)
  (* move (298-316); this and other must be different objects *)
  | OMove o q =>
      do r <- obj s o; do t <- obj s q;
      if Nat.eqb o q then UB
      else do '(s, _) <- clear s r true;
           if rawSize t <=? ic
           then do s <- put o (copy s o t); put q (clear s t true)
           else Ok (setObj (setObj s o (Some t)) q (Some (fresh q)))
  | ODestroy o => do r <- obj s o; do s <- release s r; Ok (setObj s o None)
  end.
Definition init : st := St (fun _ => None) (fun _ => []) (fun _ => None) 0.
Fixpoint run (s : st) (l : list op) : res st := match l with [] => Ok s | x :: r => do s <- apply s x; run s r end.

(** What iteration over the two sequences yields (74-83). *)
Fixpoint reads (s : st) (p : ptr) (n : nat) (offs : list nat) : res (list (list byte)) :=
  match offs with [] => Ok [] | a :: r => do x <- read s p a n; do l <- reads s p n r; Ok (x :: l) end.
Definition lefts (s : st) (r : rep) : res (list (list byte)) := reads s (r_buf r) sL (map (fun j => j * sL) (seq 0 (leftSize r))).
Definition rights (s : st) (r : rep) : res (list (list byte)) := reads s (r_buf r) sR (map (fun j => sub32 (r_cap r) (S j * sR)) (seq 0 (rightSize r))).
End Lr.
