(** Model of mt::MultiQueue (/repo/clasp/util/multi_queue.h:68-215): a queue by which each of at most [m] threads broadcasts items to all threads, with its
    lock-free stack of free nodes (36-58), as used by the distribution of learnt nogoods (/repo/src/parallel_solve.cpp:993-1040, concurrent publish) and by the
    exchange of nogoods between enumerators (/repo/src/enumerator.cpp:32-48, serialised unsafePublish).
    Every access to a shared variable is one step; steps of different threads interleave in any order.
    Simplifications: memory is sequentially consistent (the code uses std::atomic with its default order); [operator new] always returns a fresh address and never
    fails; the item type is arbitrary and each item carries, as ghost data, the number of the publish call; pointers are naturals, 0 is null and 1 is [&head_]. *)
From Coq Require Import List Arith Bool.
From Verif Require Import Base.
Import ListNotations.

Section Queue.
Variable A : Type.

(** An item: the (ghost) number of the call that publishes it and the value. *)
Definition item : Type := (nat * A)%type.

(** The kind of a publication: [publish] (156-178) or [unsafePublish] (153-154). *)
Inductive kind := Safe | Unsafe.

(** Where a thread is. *)
Inductive pc :=
| Idle
(* RawStack::tryPop (39-49), called by allocate (186-198) *)
| Pop0 (k : kind) (i : item)                     (* about to read top (42) *)
| Pop1 (k : kind) (i : item) (n : nat)           (* about to read n->next (46) *)
| Pop2 (k : kind) (i : item) (n nx : nat)        (* about to do the compare_and_swap (47) *)
(* allocate: a node from the stack is initialised again *)
| Ini0 (k : kind) (i : item) (n : nat)           (* about to write n->next (192) *)
| Ini1 (k : kind) (i : item) (n : nat)           (* about to write n->refs (193) *)
| Ini2 (k : kind) (i : item) (n : nat)           (* about to construct n->data (194) *)
(* publish (157-178) *)
| Pub0 (i : item) (n : nat)                      (* about to read tail_ (161) *)
| Pub1 (i : item) (n at_ : nat)                  (* about to read assumedTail->next (162) *)
| Pub2 (i : item) (n at_ an : nat)               (* about to compare with tail_ (163) *)
| Pub3 (i : item) (n at_ an : nat)               (* about to assist: compare_and_swap of tail_ (170) *)
| Pub4 (i : item) (n at_ : nat)                  (* about to evaluate the condition of the loop (173) *)
| Pub5 (i : item) (n at_ : nat)                  (* about to move tail_ (177) *)
(* publishRelaxed (181-184) *)
| Rel0 (i : item) (n : nat)                      (* about to read tail_ (182) *)
| Rel1 (i : item) (n at_ : nat)                  (* about to write tail_->next (182) *)
| Rel2 (i : item) (n : nat)                      (* about to write tail_ (183) *)
(* tryConsume (126-136) *)
| Con0                                           (* about to compare cId with tail_ (127) *)
| Con1                                           (* about to read cId->next (129) *)
(* release (203-209) *)
| Con2 (n : nat)                                 (* about to compare with &head_ and to decrement n->refs (204) *)
| Con3 (n : nat)                                 (* about to read n->next (205) *)
| Con4 (n nx : nat)                              (* about to write head_.next (205) *)
| Con5 (n : nat)                                 (* about to call the deleter (206) *)
(* RawStack::push (50-56), called by release (207) *)
| Psh0 (n : nat)                                 (* about to read top (53) *)
| Psh1 (n a : nat)                               (* about to write n->next (54) *)
| Psh2 (n a : nat)                               (* about to do the compare_and_swap (55) *)
| Rd.                                            (* about to copy the item (132) *)

(** What a thread's client observes, and calls of the deleter. *)
Inductive ev :=
| Call (t id : nat) (v : A)     (* thread t calls publish; this is call number id *)
| Ret (t id : nat)              (* that call returns *)
| Ask (t : nat)                 (* thread t calls tryConsume *)
| Got (t id : nat) (v : A)      (* it returns true with an item *)
| Empty (t : nat)               (* it returns false *)
| Del (id : nat) (v : A).       (* the deleter is called for an item *)

(** Shared memory (RawNode 33-35, Node 80-84, members 210-214), the consumer handles and the control states of the threads.
    [s_brk]: all addresses below have been allocated; [s_cnt]: number of publish calls so far (ghost). *)
Record st := St {
  s_next : nat -> nat;  s_refs : nat -> nat;  s_data : nat -> option item;
  s_tail : nat;  s_top : nat;  s_brk : nat;
  s_cid : nat -> nat;  s_pc : nat -> pc;  s_cnt : nat }.

Definition upd {B} (f : nat -> B) (k : nat) (v : B) : nat -> B := fun x => if Nat.eqb x k then v else f x.

Definition setNext a v s := St (upd (s_next s) a v) (s_refs s) (s_data s) (s_tail s) (s_top s) (s_brk s) (s_cid s) (s_pc s) (s_cnt s).
Definition setRefs a v s := St (s_next s) (upd (s_refs s) a v) (s_data s) (s_tail s) (s_top s) (s_brk s) (s_cid s) (s_pc s) (s_cnt s).
Definition setData a v s := St (s_next s) (s_refs s) (upd (s_data s) a v) (s_tail s) (s_top s) (s_brk s) (s_cid s) (s_pc s) (s_cnt s).
Definition setTail v s := St (s_next s) (s_refs s) (s_data s) v (s_top s) (s_brk s) (s_cid s) (s_pc s) (s_cnt s).
Definition setTop v s := St (s_next s) (s_refs s) (s_data s) (s_tail s) v (s_brk s) (s_cid s) (s_pc s) (s_cnt s).
Definition setBrk v s := St (s_next s) (s_refs s) (s_data s) (s_tail s) (s_top s) v (s_cid s) (s_pc s) (s_cnt s).
Definition setCid t v s := St (s_next s) (s_refs s) (s_data s) (s_tail s) (s_top s) (s_brk s) (upd (s_cid s) t v) (s_pc s) (s_cnt s).
Definition goto t p s := St (s_next s) (s_refs s) (s_data s) (s_tail s) (s_top s) (s_brk s) (s_cid s) (upd (s_pc s) t p) (s_cnt s).
Definition setCnt v s := St (s_next s) (s_refs s) (s_data s) (s_tail s) (s_top s) (s_brk s) (s_cid s) (s_pc s) v.

(** Dereferencing null or an address that was never allocated is undefined; so is treating [&head_] as a Node. *)
Definition ptr (s : st) (a : nat) : bool := (1 <=? a) && (a <? s_brk s).
Definition node (s : st) (a : nat) : bool := (2 <=? a) && (a <? s_brk s).

(** After allocate: publish or publishRelaxed. *)
Definition enter (k : kind) (i : item) (n : nat) : pc := match k with Safe => Pub0 i n | Unsafe => Rel0 i n end.

(** One step of thread [t], which is inside an operation. [m] is maxQ_. *)
Definition run1 (m t : nat) (s : st) : res (st * list ev) :=
  let go p := Ok (goto t p s, []) in
  match s_pc s t with
  | Idle => UB
  (* tryPop: if ((n = top) == 0) return 0; then allocate constructs a new node (197) *)
  | Pop0 k i => if Nat.eqb (s_top s) 0
                then let n := s_brk s in
                     Ok (goto t (enter k i n) (setData n (Some i) (setRefs n m (setNext n 0 (setBrk (S n) s)))), [])
                else go (Pop1 k i (s_top s))
  | Pop1 k i n => if ptr s n then go (Pop2 k i n (s_next s n)) else UB
  | Pop2 k i n nx => if Nat.eqb (s_top s) n then Ok (goto t (Ini0 k i n) (setTop nx s), []) else go (Pop0 k i)
  | Ini0 k i n => if ptr s n then Ok (goto t (Ini1 k i n) (setNext n 0 s), []) else UB
  | Ini1 k i n => if node s n then Ok (goto t (Ini2 k i n) (setRefs n m s), []) else UB
  (* constructing over an item that was not destroyed is undefined *)
  | Ini2 k i n => if node s n then match s_data s n with None => Ok (goto t (enter k i n) (setData n (Some i) s), []) | Some _ => UB end else UB
  | Pub0 i n => go (Pub1 i n (s_tail s))
  | Pub1 i n a => if ptr s a then go (Pub2 i n a (s_next s a)) else UB
  (* both [continue] statements jump to the condition of the do-while loop, i.e. to the compare_and_swap *)
  | Pub2 i n a an => if negb (Nat.eqb a (s_tail s)) then go (Pub4 i n a)
                     else if negb (Nat.eqb an 0) then go (Pub3 i n a an)
                     else go (Pub4 i n a)
  | Pub3 i n a an => Ok (goto t (Pub4 i n a) (if Nat.eqb (s_tail s) a then setTail an s else s), [])
  | Pub4 i n a => if ptr s a
                  then if Nat.eqb (s_next s a) 0 then Ok (goto t (Pub5 i n a) (setNext a n s), []) else go (Pub0 i n)
                  else UB
  | Pub5 i n a => Ok (goto t Idle (if Nat.eqb (s_tail s) a then setTail n s else s), [Ret t (fst i)])
  | Rel0 i n => go (Rel1 i n (s_tail s))
  | Rel1 i n a => if ptr s a then Ok (goto t (Rel2 i n) (setNext a n s), []) else UB
  | Rel2 i n => Ok (goto t Idle (setTail n s), [Ret t (fst i)])
  | Con0 => if Nat.eqb (s_cid s t) (s_tail s) then Ok (goto t Idle s, [Empty t]) else go Con1
  (* the assertion cId != 0 (130) *)
  | Con1 => if ptr s (s_cid s t)
            then let c := s_next s (s_cid s t) in
                 if Nat.eqb c 0 then UB else Ok (goto t (Con2 (s_cid s t)) (setCid t c s), [])
            else UB
  (* the counter never gets negative *)
  | Con2 n => if Nat.eqb n 1 then go Rd
              else if node s n
              then match s_refs s n with
                   | 0 => UB
                   | S r => Ok (goto t (if Nat.eqb r 0 then Con3 n else Rd) (setRefs n r s), [])
                   end
              else UB
  | Con3 n => if ptr s n then go (Con4 n (s_next s n)) else UB
  | Con4 n nx => Ok (goto t (Con5 n) (setNext 1 nx s), [])
  | Con5 n => if node s n
              then match s_data s n with Some i => Ok (goto t (Psh0 n) (setData n None s), [Del (fst i) (snd i)]) | None => UB end
              else UB
  | Psh0 n => go (Psh1 n (s_top s))
  | Psh1 n a => if ptr s n then Ok (goto t (Psh2 n a) (setNext n a s), []) else UB
  | Psh2 n a => if Nat.eqb (s_top s) a then Ok (goto t Rd (setTop n s), []) else go (Psh0 n)
  (* reading an item that was destroyed is undefined *)
  | Rd => if node s (s_cid s t)
          then match s_data s (s_cid s t) with Some i => Ok (goto t Idle s, [Got t (fst i) (snd i)]) | None => UB end
          else UB
  end.

(** Threads that are publishing; unsafePublish must not run concurrently with another publication (148-152). *)
Definition publishing (p : pc) : bool :=
  match p with
  | Pop0 _ _ | Pop1 _ _ _ | Pop2 _ _ _ _ | Ini0 _ _ _ | Ini1 _ _ _ | Ini2 _ _ _ | Pub0 _ _ | Pub1 _ _ _ | Pub2 _ _ _ _ | Pub3 _ _ _ _ | Pub4 _ _ _ | Pub5 _ _ _
  | Rel0 _ _ | Rel1 _ _ _ | Rel2 _ _ => true
  | _ => false
  end.
Definition relaxed (p : pc) : bool :=
  match p with
  | Pop0 Unsafe _ | Pop1 Unsafe _ _ | Pop2 Unsafe _ _ _ | Ini0 Unsafe _ _ | Ini1 Unsafe _ _ | Ini2 Unsafe _ _ | Rel0 _ _ | Rel1 _ _ _ | Rel2 _ _ => true
  | _ => false
  end.

(** Steps of the system: an idle thread calls an operation, or a thread inside an operation makes its next step. *)
Inductive step (m : nat) : st -> list ev -> st -> Prop :=
| SPublish t v s : t < m -> s_pc s t = Idle -> (forall u, u < m -> relaxed (s_pc s u) = false) ->
    step m s [Call t (s_cnt s) v] (goto t (Pop0 Safe (s_cnt s, v)) (setCnt (S (s_cnt s)) s))
| SUnsafe t v s : t < m -> s_pc s t = Idle -> (forall u, u < m -> publishing (s_pc s u) = false) ->
    step m s [Call t (s_cnt s) v] (goto t (Pop0 Unsafe (s_cnt s, v)) (setCnt (S (s_cnt s)) s))
| SConsume t s : t < m -> s_pc s t = Idle -> step m s [Ask t] (goto t Con0 s)
| SRun t s s' e : t < m -> s_pc s t <> Idle -> run1 m t s = Ok (s', e) -> step m s e s'.

(** The constructor (88-91), [m] calls of addThread (116-118: all handles are [&head_]), and reserve(c) (93-98): [c] free nodes. *)
Definition init (c : nat) : st :=
  St (fun a => if (3 <=? a) && (a <? 2 + c) then a - 1 else 0) (fun _ => 0) (fun _ => None) 1 (if Nat.eqb c 0 then 0 else 1 + c) (2 + c) (fun _ => 1) (fun _ => Idle) 0.

(** Executions with their events. *)
Inductive exec (m c : nat) : list ev -> st -> Prop :=
| exec_init : exec m c [] (init c)
| exec_step tr s e s' : exec m c tr s -> step m s e s' -> exec m c (tr ++ e) s'.

(** The destructor (99-110): destroys the remaining items and frees all nodes. Result: destroyed items and freed addresses, in order. Fuel bounds the two loops;
    [Throws] stands for running out of it. *)
Fixpoint destroyItems (fuel : nat) (s : st) (x : nat) : res (list item * list nat) :=
  match fuel with
  | 0 => Throws
  | S f => if Nat.eqb x 0 then Ok ([], [])
           else if node s x
           then match s_data s x with
                | Some i => do '(is, fr) <- destroyItems f s (s_next s x); Ok (i :: is, x :: fr)
                | None => UB
                end
           else UB
  end.
Fixpoint destroyFree (fuel : nat) (s : st) (x : nat) : res (list nat) :=
  match fuel with
  | 0 => Throws
  | S f => if Nat.eqb x 0 then Ok []
           else if ptr s x then do fr <- destroyFree f s (s_next s x); Ok (x :: fr) else UB
  end.
Definition destroy (fuel : nat) (s : st) : res (list item * list nat) :=
  do '(is, fr) <- destroyItems fuel s (s_next s 1); do fr2 <- destroyFree fuel s (s_top s); Ok (is, fr ++ fr2).

End Queue.

Arguments Idle {A}. Arguments Con0 {A}. Arguments Con1 {A}. Arguments Rd {A}. Arguments Con2 {A}. Arguments Con3 {A}. Arguments Con4 {A}. Arguments Con5 {A}.
Arguments Psh0 {A}. Arguments Psh1 {A}. Arguments Psh2 {A}. Arguments Pop0 {A}. Arguments Pop1 {A}. Arguments Pop2 {A}. Arguments Ini0 {A}. Arguments Ini1 {A}.
Arguments Ini2 {A}. Arguments Pub0 {A}. Arguments Pub1 {A}. Arguments Pub2 {A}. Arguments Pub3 {A}. Arguments Pub4 {A}. Arguments Pub5 {A}. Arguments Rel0 {A}.
Arguments Rel1 {A}. Arguments Rel2 {A}. Arguments Call {A}. Arguments Ret {A}. Arguments Ask {A}. Arguments Got {A}. Arguments Empty {A}. Arguments Del {A}.
Arguments St {A}. Arguments s_next {A}. Arguments s_refs {A}. Arguments s_data {A}. Arguments s_tail {A}. Arguments s_top {A}. Arguments s_brk {A}.
Arguments s_cid {A}. Arguments s_pc {A}. Arguments s_cnt {A}. Arguments setNext {A}. Arguments setRefs {A}. Arguments setData {A}. Arguments setTail {A}.
Arguments setTop {A}. Arguments setBrk {A}. Arguments setCid {A}. Arguments goto {A}. Arguments setCnt {A}. Arguments ptr {A}. Arguments node {A}.
Arguments enter {A}. Arguments run1 {A}. Arguments publishing {A}. Arguments relaxed {A}. Arguments step {A}. Arguments init {A}. Arguments exec {A}.
Arguments destroyItems {A}. Arguments destroyFree {A}. Arguments destroy {A}.
