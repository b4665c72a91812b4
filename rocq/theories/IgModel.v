(** Model of the learnt part of ShortImplicationsGraph while it is shared between threads: add (/repo/src/shared_context.cpp:217-248),
    hasLearnt (173-184), addLearnt (143-171), Block::tryLock and addUnlock (97-108) and the visit of the learnt clauses in forEach
    (/repo/clasp/shared_context.h:365-374).

    Every access to memory that other threads can reach is one step; steps of different threads interleave in any order.
    Simplifications: memory is sequentially consistent (the atomics of the code have their default order; cells of a block are plain memory
    that is only read below the published size); allocation never fails and returns fresh addresses; initialising a new block is part of
    the step that publishes it; the two cells of an entry are read in one step; the immutable part of the lists (problem clauses) is left out
    here; the visitor of a propagation is any client, which may stop before the end. *)
From Coq Require Import List Arith Bool.
From Verif Require Import Base IgSpec.
Import ListNotations.

(** block_cap, shared_context.h:393, with 4 bytes for the size and 8 for the pointer *)
Definition cap : nat := 13.
(** A literal with its flag *)
Definition cell : Type := (lit * bool)%type.
Definition lit_false : lit := (0, true).
(** literal.h:174 *)
Definition isSentinel (p : lit) : bool := fst p =? 0.
(** The calls of addLearnt made by add, 238-242: list, p, q *)
Definition calls (c : sclause) : list (lit * (lit * lit)) :=
  match c with
  | C2 p q => [(neg p, (q, lit_false)); (neg q, (p, lit_false))]
  | C3 p q r => [(neg p, (q, r)); (neg q, (p, r)); (neg r, (p, q))]
  end.
(** nc[0..ns), 144-146 *)
Definition nc (pq : lit * lit) : list cell := if isSentinel (snd pq) then [(fst pq, true)] else [(fst pq, false); (snd pq, false)].
(** The test of hasLearnt for one entry, 176-181: the entry (its second literal is only looked at if the first is not flagged), q, r *)
Definition hasTest (imp0 imp1 : cell) (qr : lit * lit) : bool :=
  let '(q, r) := qr in
  (lit_eqb (fst imp0) q || lit_eqb (fst imp0) r) && (snd imp0 || negb (isSentinel r) && (lit_eqb (fst imp1) q || lit_eqb (fst imp1) r)).

(** Why a thread reads a list *)
Inductive purpose := KProp (g : nat) | KHas (c : sclause).
(** Where a thread is; [c]: the clause it adds; [j]: number of addLearnt calls done *)
Inductive pc :=
| Idle
| R0 (l : lit) (k : purpose)                       (* about to read learnt of the list *)
| R1 (l : lit) (k : purpose) (b : nat)             (* about to read b->size_lock, or at the end if b is null *)
| R2 (l : lit) (k : purpose) (b i n : nat)         (* about to read data[i] of b, or b->next if i = n *)
| A0 (c : sclause) (j : nat)                       (* about to read learnt, 148 *)
| A1 (c : sclause) (j x : nat)                     (* about to lock x, 150 *)
| A2 (c : sclause) (j x n z : nat)                 (* has locked x, whose size is n, and has copied z cells *)
| A3 (c : sclause) (j : nat)                       (* about to compare and swap learnt with a new block, 166 *)
| S0 (c : sclause)                                 (* about to read the counter, 243 *)
| S1 (c : sclause) (v : nat).                      (* about to write the counter, 243 *)

(** Lists: first block; blocks: next, size, lock, data; first free address; the counters of learnt clauses by length; number of visits *)
Record st := St { s_head : lit -> nat; s_next : nat -> nat; s_size : nat -> nat; s_lock : nat -> bool; s_data : nat -> nat -> cell; s_brk : nat; s_stat : nat -> nat; s_vis : nat; s_pc : nat -> pc }.
Definition fset {A} (f : nat -> A) (k : nat) (v : A) : nat -> A := fun x => if x =? k then v else f x.
Definition lset {A} (f : lit -> A) (k : lit) (v : A) : lit -> A := fun x => if lit_eqb x k then v else f x.
Definition goto (s : st) (t : nat) (p : pc) : st := St (s_head s) (s_next s) (s_size s) (s_lock s) (s_data s) (s_brk s) (s_stat s) (s_vis s) (fset (s_pc s) t p).
Definition w_lock (s : st) (x : nat) (b : bool) : st := St (s_head s) (s_next s) (s_size s) (fset (s_lock s) x b) (s_data s) (s_brk s) (s_stat s) (s_vis s) (s_pc s).
Definition w_size (s : st) (x n : nat) (b : bool) : st := St (s_head s) (s_next s) (fset (s_size s) x n) (fset (s_lock s) x b) (s_data s) (s_brk s) (s_stat s) (s_vis s) (s_pc s).
Definition w_data (s : st) (x i : nat) (v : cell) : st := St (s_head s) (s_next s) (s_size s) (s_lock s) (fset (s_data s) x (fset (s_data s x) i v)) (s_brk s) (s_stat s) (s_vis s) (s_pc s).
Definition w_stat (s : st) (k v : nat) : st := St (s_head s) (s_next s) (s_size s) (s_lock s) (s_data s) (s_brk s) (fset (s_stat s) k v) (s_vis s) (s_pc s).
(** Block(), 92-96 *)
Definition blank : nat -> cell := fun _ => ((0, false), false).
Definition over (f : nat -> cell) (cs : list cell) : nat -> cell := fun i => nth i cs (f i).
(** A new block holding [cs], followed by [nx], becomes the first of list [l], 155-158 and 165-166 *)
Definition newHead (s : st) (l : lit) (nx : nat) (cs : list cell) : st :=
  let b := s_brk s in
  St (lset (s_head s) l b) (fset (s_next s) b nx) (fset (s_size s) b (length cs)) (fset (s_lock s) b false) (fset (s_data s) b (over blank cs)) (S b) (s_stat s) (s_vis s) (s_pc s).

(** Is there a block at this address? *)
Definition ok (s : st) (b : nat) : bool := (0 <? b) && (b <? s_brk s).
Definition at_ {A} (s : st) (b : nat) (x : A) : res A := if ok s b then Ok x else UB.
(** Call number [j] of addLearnt *)
Definition jth (c : sclause) (j : nat) : lit * (lit * lit) := nth j (calls c) (lit_false, (lit_false, lit_false)).
(** An addLearnt call returns: the next one or, after the last, the counter *)
Definition nextCall (c : sclause) (j : nat) : pc := if S j <? length (calls c) then A0 c (S j) else S0 c.
(** The end of a list *)
Definition endOf (s : st) (t : nat) (k : purpose) : st * list ev :=
  match k with KProp g => (goto s t Idle, [End_ g]) | KHas c => (goto s t (A0 c 0), []) end.

(** Next step of thread [t] within its call *)
Definition run1 (t : nat) (s : st) : res (st * list ev) :=
  match s_pc s t with
  | Idle => Ok (s, [])
  | R0 l k => Ok (goto s t (R1 l k (s_head s l)), [])
  | R1 l k b => if b =? 0 then Ok (endOf s t k) else at_ s b (goto s t (R2 l k b 0 (s_size s b)), [])
  | R2 l k b i n =>
      if negb (ok s b) then UB else
      if i =? n then Ok (goto s t (R1 l k (s_next s b)), []) else
      if cap <=? i then UB else
      let x := s_data s b i in
      if negb (snd x) && (cap <=? S i) then UB else
      let y := s_data s b (S i) in
      let d := if snd x then 1 else 2 in
      match k with
      | KProp g => Ok (goto s t (R2 l k b (i + d) n), [Read g (if snd x then Bin (fst x) else Ter (fst x) (fst y))])
      | KHas c => if hasTest x y (snd (jth c 0)) then Ok (goto s t Idle, [Ret t c false]) else Ok (goto s t (R2 l k b (i + d) n), [])
      end
  | A0 c j => let x := s_head s (fst (jth c j)) in if x =? 0 then Ok (goto s t (A3 c j), []) else Ok (goto s t (A1 c j x), [])
  | A1 c j x => at_ s x (if s_lock s x then (goto s t (A0 c j), []) else (goto (w_lock s x true) t (A2 c j x (s_size s x) 0), []))
  | A2 c j x n z =>
      let cs := nc (snd (jth c j)) in
      if n + length cs <=? cap then
        (if z =? length cs then at_ s x (goto (w_size s x (n + length cs) false) t (nextCall c j), [])
         else if cap <=? n + z then UB else at_ s x (goto (w_data s x (n + z) (nth z cs (lit_false, false))) t (A2 c j x n (S z)), []))
      else Ok (goto (newHead s (fst (jth c j)) x cs) t (nextCall c j), [])
  | A3 c j => if s_head s (fst (jth c j)) =? 0 then Ok (goto (newHead s (fst (jth c j)) 0 []) t (A0 c j), []) else Ok (goto s t (A0 c j), [])
  | S0 c => Ok (goto s t (S1 c (s_stat s (length (lits c)))), [])
  | S1 c v => Ok (goto (w_stat s (length (lits c)) (S v)) t Idle, [Ret t c true])
  end.
(** A visit starts, shared_context.h:365 *)
Definition begin (s : st) (t : nat) (l : lit) : st :=
  St (s_head s) (s_next s) (s_size s) (s_lock s) (s_data s) (s_brk s) (s_stat s) (S (s_vis s)) (fset (s_pc s) t (R0 l (KProp (s_vis s)))).
Definition init : st := St (fun _ => 0) (fun _ => 0) (fun _ => 0) (fun _ => false) (fun _ => blank) 1 (fun _ => 0) 0 (fun _ => Idle).

Section Exec.
Variable m : nat. (* number of threads *)
Inductive step (s : st) : list ev -> st -> Prop :=
| Run t s' e : t < m -> s_pc s t <> Idle -> run1 t s = Ok (s', e) -> step s e s'
| Add t c : t < m -> s_pc s t = Idle -> wfc c -> step s [Call t c] (goto s t (R0 (fst (jth c 0)) (KHas c)))
| Visit t l : t < m -> s_pc s t = Idle -> step s [Begin t (s_vis s) l] (begin s t l)
| Stop t l g b i n : t < m -> s_pc s t = R2 l (KProp g) b i n -> step s [] (goto s t Idle).
Inductive exec : list ev -> st -> Prop :=
| E0 : exec [] init
| ES tr s e s' : exec tr s -> step s e s' -> exec (tr ++ e) s'.
End Exec.
(** Thread [t] runs alone for at most [n] steps, until its call returns. *)
Fixpoint alone (n t : nat) (s : st) : res (st * list ev) :=
  match n with
  | O => Ok (s, [])
  | S n => match s_pc s t with Idle => Ok (s, []) | _ => do '(s1, e) <- run1 t s; do '(s2, e') <- alone n t s1; Ok (s2, e ++ e') end
  end.
