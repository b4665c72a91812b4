(** Model of mt::LocalDistribution (/repo/src/parallel_solve.cpp:1043-1125, /repo/clasp/mt/parallel_solve.h:347-366) with its queues,
    mt::MPSCPtrQueue (/repo/clasp/util/multi_queue.h:222-257), its stack of memory blocks (RawStack::push, 50-56) and the reference
    counts of nogoods (SharedLiterals, /repo/src/clause.cpp:60-104; Solver::distribute, /repo/src/solver.cpp:365-374).

    Every access to memory that other threads can reach is one step; steps of different threads interleave in any order.
    Simplifications: memory is sequentially consistent (the atomics of the code have their default order); allocation never fails and
    returns fresh addresses; addresses are naturals: 0 is null, [S t] is the sentinel of thread [t]; a call of receive for up to n
    nogoods (1116-1125) is a sequence of calls for one; the literals of a nogood are only its number. *)
From Coq Require Import List Arith Bool.
From Verif Require Import Base LdSpec.
Import ListNotations.

(** parallel_solve.cpp:1088 *)
Definition nNodes : nat := 128.
(** Local variables of publish, 1101-1115: n, i, decRef *)
Record pub := Pb { p_it : item; p_i : nat; p_dec : nat }.
(** Where a thread is *)
Inductive pc :=
| Idle
| Loop (b : pub)                       (* head of the loop, 1106-1108 *)
| Al0 (b : pub)                        (* about to read td->free, 1082 *)
| Al1 (b : pub) (n : nat)              (* about to read n->next, 1083 *)
| Al2 (b : pub) (n nx : nat)           (* about to write td->free, 1083 *)
| Al3 (b : pub) (n : nat)              (* about to write n->data, 1084 *)
| Bl0 (b : pub) (a : nat)              (* about to read blocks_.top, multi_queue.h:53 *)
| Bl1 (b : pub) (a top : nat)          (* about to write a->next, 54 *)
| Bl2 (b : pub) (a top : nat)          (* about to compare and swap blocks_.top, 55 *)
| Pu0 (b : pub) (n : nat)              (* about to write n->next, 237 *)
| Pu1 (b : pub) (n : nat)              (* about to exchange head_, 238 *)
| Pu2 (b : pub) (n p : nat)            (* about to write p->next, 239 *)
| Dec (b : pub)                        (* about to release decRef references, 1114 *)
| Po0                                  (* about to read tail_->next, 242-244 *)
| Po1 (t n : nat)                      (* about to write tail_, 245 *)
| Po2 (t n : nat)                      (* about to write t->data, 246 *)
| Po3 (t n : nat)                      (* about to write n->data, 247 *)
| Po4 (t : nat)                        (* about to read t->data, parallel_solve.cpp:1121 *)
| Fr0 (t : nat) (x : item)             (* about to write t->next unless it is the sentinel, 1074-1075 *)
| Fr1 (t : nat) (x : item).            (* about to write free, 1076 *)

(** Nodes; per thread: queue and free list; top of the stack of blocks; first free address; per nogood: references; per thread: nogoods its
    client holds; number of publish calls *)
Record st := St { s_next : nat -> nat; s_data : nat -> option item; s_head : nat -> nat; s_tail : nat -> nat; s_free : nat -> nat; s_top : nat; s_brk : nat;
  s_refs : nat -> nat; s_hold : nat -> list item; s_num : nat; s_pc : nat -> pc }.
Definition fset {A} (f : nat -> A) (k : nat) (v : A) : nat -> A := fun x => if x =? k then v else f x.
Definition w_next (s : st) (a v : nat) : st := St (fset (s_next s) a v) (s_data s) (s_head s) (s_tail s) (s_free s) (s_top s) (s_brk s) (s_refs s) (s_hold s) (s_num s) (s_pc s).
Definition w_data (s : st) (a : nat) (v : option item) : st := St (s_next s) (fset (s_data s) a v) (s_head s) (s_tail s) (s_free s) (s_top s) (s_brk s) (s_refs s) (s_hold s) (s_num s) (s_pc s).
Definition w_head (s : st) (a v : nat) : st := St (s_next s) (s_data s) (fset (s_head s) a v) (s_tail s) (s_free s) (s_top s) (s_brk s) (s_refs s) (s_hold s) (s_num s) (s_pc s).
Definition w_tail (s : st) (a v : nat) : st := St (s_next s) (s_data s) (s_head s) (fset (s_tail s) a v) (s_free s) (s_top s) (s_brk s) (s_refs s) (s_hold s) (s_num s) (s_pc s).
Definition w_free (s : st) (a v : nat) : st := St (s_next s) (s_data s) (s_head s) (s_tail s) (fset (s_free s) a v) (s_top s) (s_brk s) (s_refs s) (s_hold s) (s_num s) (s_pc s).
Definition w_top (s : st) (v : nat) : st := St (s_next s) (s_data s) (s_head s) (s_tail s) (s_free s) v (s_brk s) (s_refs s) (s_hold s) (s_num s) (s_pc s).
Definition w_refs (s : st) (a v : nat) : st := St (s_next s) (s_data s) (s_head s) (s_tail s) (s_free s) (s_top s) (s_brk s) (fset (s_refs s) a v) (s_hold s) (s_num s) (s_pc s).
Definition w_hold (s : st) (t : nat) (v : list item) : st := St (s_next s) (s_data s) (s_head s) (s_tail s) (s_free s) (s_top s) (s_brk s) (s_refs s) (fset (s_hold s) t v) (s_num s) (s_pc s).
Definition goto (s : st) (t : nat) (p : pc) : st := St (s_next s) (s_data s) (s_head s) (s_tail s) (s_free s) (s_top s) (s_brk s) (s_refs s) (s_hold s) (s_num s) (fset (s_pc s) t p).

Section Ld.
Variables (m : nat) (peers : nat -> nat -> bool).
(** Is there a node at this address? *)
Definition ok (s : st) (a : nat) : bool := (0 <? a) && (a <? s_brk s).
(** An access to the node at [a] *)
Definition at_ {A} (s : st) (a : nat) (x : A) : res A := if ok s a then Ok x else UB.
(** SharedLiterals::release, clause.cpp:95-100 *)
Definition release (s : st) (x : item) (d : nat) : res (st * list ev) :=
  if s_refs s (it_id x) <? d then UB else
  let r := s_refs s (it_id x) - d in Ok (w_refs s (it_id x) r, if r =? 0 then [Del x] else []).
(** A new block: its nodes except the first are linked and become the free list of [t], 1088-1096 *)
Definition newBlock (s : st) (t : nat) : st :=
  let a := s_brk s in
  St (fun x => if (a <? x) && (x <? a + (nNodes - 1)) then S x else if x =? a + (nNodes - 1) then 0 else s_next s x)
     (s_data s) (s_head s) (s_tail s) (fset (s_free s) t (S a)) (s_top s) (a + nNodes) (s_refs s) (s_hold s) (s_num s) (s_pc s).
Definition inc (b : pub) : pub := Pb (p_it b) (S (p_i b)) (p_dec b).
(** publish returns; distribute hands the nogood to the caller if a reference was added for it (solver.cpp:367-371) *)
Definition fin (s : st) (t : nat) (x : item) : st := goto (if it_keep x then w_hold s t (x :: s_hold s t) else s) t Idle.

(** Next step of thread [t] within publish or receive *)
Definition run1 (t : nat) (s : st) : res (st * list ev) :=
  match s_pc s t with
  | Idle => Ok (s, [])
  | Loop b =>
      if p_i b =? m then (if p_dec b =? 0 then Ok (fin s t (p_it b), [Ret t (p_it b)]) else Ok (goto s t (Dec b), []))
      else if p_i b =? t then Ok (goto s t (Loop (inc b)), [])
      else if negb (it_unit (p_it b)) && negb (peers (p_i b) t) then Ok (goto s t (Loop (Pb (p_it b) (S (p_i b)) (S (p_dec b)))), [])
      else Ok (goto s t (Al0 b), [])
  | Al0 b => if s_free s t =? 0 then Ok (goto (newBlock s t) t (Bl0 b (s_brk s)), [Mem (s_brk s)]) else Ok (goto s t (Al1 b (s_free s t)), [])
  | Al1 b n => at_ s n (goto s t (Al2 b n (s_next s n)), [])
  | Al2 b n nx => Ok (goto (w_free s t nx) t (Al3 b n), [])
  | Al3 b n => at_ s n (goto (w_data s n (Some (p_it b))) t (Pu0 b n), [])
  | Bl0 b a => Ok (goto s t (Bl1 b a (s_top s)), [])
  | Bl1 b a top => at_ s a (goto (w_next s a top) t (Bl2 b a top), [])
  | Bl2 b a top => if s_top s =? top then Ok (goto (w_top s a) t (Al0 b), []) else Ok (goto s t (Bl0 b a), [])
  | Pu0 b n => at_ s n (goto (w_next s n 0) t (Pu1 b n), [])
  | Pu1 b n => Ok (goto (w_head s (p_i b) n) t (Pu2 b n (s_head s (p_i b))), [])
  | Pu2 b n p => at_ s p (goto (w_next s p n) t (Loop (inc b)), [])
  | Dec b => do '(s', e) <- release s (p_it b) (p_dec b); Ok (fin s' t (p_it b), e ++ [Ret t (p_it b)])
  | Po0 => at_ s (s_tail s t) (if s_next s (s_tail s t) =? 0 then (goto s t Idle, [Empty t]) else (goto s t (Po1 (s_tail s t) (s_next s (s_tail s t))), []))
  | Po1 a n => Ok (goto (w_tail s t n) t (Po2 a n), [])
  | Po2 a n => if ok s a && ok s n then Ok (goto (w_data s a (s_data s n)) t (Po3 a n), []) else UB
  | Po3 a n => at_ s n (goto (w_data s n None) t (Po4 a), [])
  | Po4 a => match (if ok s a then s_data s a else None) with Some x => Ok (goto s t (Fr0 a x), []) | None => UB end
  | Fr0 a x =>
      if a =? S t then Ok (goto (w_hold s t (x :: s_hold s t)) t Idle, [Recv t x])
      else at_ s a (goto (w_next s a (s_free s t)) t (Fr1 a x), [])
  | Fr1 a x => Ok (goto (w_hold (w_free s t a) t (x :: s_hold s t)) t Idle, [Recv t x])
  end.

(** Solver::distribute, solver.cpp:367-369: a new nogood, one reference for each other thread and one more if the caller keeps it *)
Definition newCall (s : st) (t : nat) (u k : bool) : item * st :=
  let x := It (s_num s) t u k in
  (x, St (s_next s) (s_data s) (s_head s) (s_tail s) (s_free s) (s_top s) (s_brk s) (fset (s_refs s) (s_num s) (Nat.max 1 (if k then m else m - 1))) (s_hold s) (S (s_num s))
        (fset (s_pc s) t (Loop (Pb x 0 0)))).
Inductive step (s : st) : list ev -> st -> Prop :=
| Run t s' e : t < m -> s_pc s t <> Idle -> run1 t s = Ok (s', e) -> step s e s'
| Publish t u k : t < m -> s_pc s t = Idle -> step s [Call t (fst (newCall s t u k))] (snd (newCall s t u k))
| Receive t : t < m -> s_pc s t = Idle -> step s [] (goto s t Po0)
(** the client of [t] gives a reference back *)
| Release t h1 x h2 s' e : t < m -> s_pc s t = Idle -> s_hold s t = h1 ++ x :: h2 -> release (w_hold s t (h1 ++ h2)) x 1 = Ok (s', e) -> step s (Rel t x :: e) s'.

(** The constructor, 1043-1056, with MPSCPtrQueue::init, multi_queue.h:229-234 *)
Definition init : st := St (fun _ => 0) (fun _ => None) S S (fun _ => 0) 0 (S m) (fun _ => 0) (fun _ => []) 0 (fun _ => Idle).
Inductive exec : list ev -> st -> Prop :=
| E0 : exec [] init
| ES tr s e s' : exec tr s -> step s e s' -> exec (tr ++ e) s'.

(** Thread [t] runs alone for at most [n] steps, until its call returns. *)
Fixpoint alone (n t : nat) (s : st) : res (st * list ev) :=
  match n with
  | O => Ok (s, [])
  | S n => match s_pc s t with Idle => Ok (s, []) | _ => do '(s1, e) <- run1 t s; do '(s2, e') <- alone n t s1; Ok (s2, e ++ e') end
  end.

(** The destructor, 1057-1071: empty the queue of [t] (at most [n] nogoods); all queues; free the blocks *)
Fixpoint drain (n t : nat) (s : st) : res (st * list ev) :=
  match n with
  | O => Ok (s, [])
  | S n => let a := s_tail s t in let b := s_next s a in
      if negb (ok s a) then UB else if b =? 0 then Ok (s, []) else
      if negb (ok s b) then UB else
      match s_data s b with
      | None => UB
      | Some x => do '(s1, e) <- release (w_data (w_data (w_tail s t b) a (Some x)) b None) x 1; do '(s2, e') <- drain n t s1; Ok (s2, Rel t x :: e ++ e')
      end
  end.
Fixpoint drainAll (n k : nat) (s : st) : res (st * list ev) :=
  match k with O => Ok (s, []) | S k => do '(s1, e) <- drain n k s; do '(s2, e') <- drainAll n k s1; Ok (s2, e ++ e') end.
Fixpoint freeAll (n a : nat) (s : st) : list nat := match n with O => [] | S n => if a =? 0 then [] else a :: freeAll n (s_next s a) s end.
End Ld.
