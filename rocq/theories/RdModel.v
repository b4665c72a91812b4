(** Model of nogood deletion: Solver::reduceLearnts, reduceLinear, reduceSort, reduceSortInPlace (/repo/src/solver.cpp:1646-1812), CmpScore
    (/repo/clasp/solver.h:824-839), ReduceStrategy::compare and the scores (/repo/clasp/solver_strategies.h:439-452), ConstraintScore::reduce
    (/repo/clasp/constraint.h:544).

    Simplifications.  The number of constraints to remove (a product of floats, 1650) and the test against the average score of reduceLinear
    (1668-1690, doubles) are parameters.  Constraint::locked does not change during the call: destroying a constraint that is not locked does not change
    the assignment.  std::make_heap, pop_heap and push_heap are parameters; their specification is in RdSpec.  std::stable_sort is insertion sort, which
    has the same result as every stable sort.  The counters pinned and locked of DBInfo are left out. *)
From Coq Require Import List Bool Arith ZArith.
Import ListNotations.
Local Open Scope Z_scope.

(** A learnt constraint: address, activity(), lbd(), bumped(), locked(s) *)
Record con := Con { k_id : nat; k_act : Z; k_lbd : Z; k_bump : bool; k_lock : bool }.
Inductive score := ScAct | ScLbd | ScBoth.
Inductive algo := Linear | Stable | Sort | Heap.
(** LBD_MAX = 127 (/repo/clasp/constraint.h:525) *)
Definition scoreAct (c : con) : Z := k_act c.
Definition scoreLbd (c : con) : Z := 127 + 1 - k_lbd c.
Definition scoreBoth (c : con) : Z := (k_act c + 1) * scoreLbd c.
Definition compare (sc : score) (a b : con) : Z :=
  let fs := match sc with ScAct => scoreAct a - scoreAct b | ScLbd => scoreLbd a - scoreLbd b | ScBoth => 0 end in
  if negb (fs =? 0) then fs else scoreBoth a - scoreBoth b.
(** Settings: score, glue limit, protect limit *)
Record settings := Set_ { t_score : score; t_glue : Z; t_protect : Z }.
Definition less (t : settings) (a b : con) : bool := compare (t_score t) a b <? 0.
Definition isFrozen (t : settings) (c : con) : bool := k_bump c && (k_lbd c <=? t_protect t).
Definition isGlue (t : settings) (c : con) : bool := k_lbd c <=? t_glue t.
(** decreaseActivity *)
Definition dec (c : con) : con := Con (k_id c) (k_act c / 2) (k_lbd c) false (k_lock c).

(** Each function returns the constraints kept, in their new order, and the constraints destroyed *)
(** reduceLinear; [active]: the score is above the threshold *)
Fixpoint reduceLinear (t : settings) (active : con -> bool) (maxR : nat) (l : list con) : list con * list con :=
  match l with
  | [] => ([], [])
  | c :: l =>
    if Nat.eqb maxR 0 || k_lock c || (active c || isGlue t c) || isFrozen t c then let '(k, r) := reduceLinear t active maxR l in (dec c :: k, r)
    else let '(k, r) := reduceLinear t active (pred maxR) l in (k, c :: r)
  end.
Section Heap.
Variables (mk pop push : list con -> list con).
(** reduceSort, first loop: the heap holds the candidates *)
Fixpoint collect (t : settings) (maxR : nat) (l heap : list con) : list con :=
  match l with
  | [] => heap
  | c :: l =>
    if negb (k_lock c) && negb (isGlue t c) && negb (isFrozen t c) then
      match maxR with
      | S m => let h := heap ++ [c] in collect t m l (if Nat.eqb m 0 then mk h else h)
      | O => match heap with
             | x :: _ => if less t c x then collect t O l (push (removelast (pop heap) ++ [c])) else collect t O l heap
             | [] => collect t O l heap
             end
      end
    else collect t maxR l heap
  end.
Definition reduceSort (t : settings) (maxR : nat) (l : list con) : list con * list con :=
  let heap := collect t (Nat.min maxR (length l)) l [] in
  (map dec (filter (fun c => negb (existsb (fun d => Nat.eqb (k_id c) (k_id d)) heap)) l), heap).
(** reduceSortInPlace, not partial: sort unless nothing or everything is to be removed, then remove from the front *)
Fixpoint insert (t : settings) (c : con) (l : list con) : list con :=
  match l with
  | [] => [c]
  | d :: r => if less t d c then d :: insert t c r else c :: l
  end.
Definition stableSort (t : settings) (l : list con) : list con := fold_right (insert t) [] l.
Definition reduceSorted (t : settings) (maxR : nat) (l : list con) : list con * list con :=
  let maxR := Nat.min maxR (length l) in
  reduceLinear t (fun _ => false) maxR (if negb (Nat.eqb maxR 0) && negb (Nat.eqb maxR (length l)) then stableSort t l else l).
(** reduceSortInPlace, partial: the vector is heap ++ others ++ [c] ++ rest; a new candidate takes the place of the first one after the heap,
    a replaced maximum goes to the place of the new candidate *)
Fixpoint collectIn (t : settings) (maxR : nat) (heap others l : list con) : list con * list con :=
  match l with
  | [] => (heap, others)
  | c :: l =>
    if k_lock c || isGlue t c || isFrozen t c then collectIn t maxR heap (others ++ [c]) l
    else match maxR with
         | S m =>
           let h := heap ++ [c] in
           let o := match others with [] => [] | x :: r => r ++ [x] end in
           collectIn t m (if Nat.eqb m 0 then mk h else h) o l
         | O => match heap with
                | x :: _ => if less t c x then let h := pop heap in collectIn t O (push (removelast h ++ [c])) (others ++ [last h c]) l
                            else collectIn t O heap (others ++ [c]) l
                | [] => collectIn t O heap (others ++ [c]) l
                end
         end
  end.
Definition reduceHeap (t : settings) (maxR : nat) (l : list con) : list con * list con :=
  let '(heap, others) := collectIn t (Nat.min maxR (length l)) [] [] l in (map dec others, heap).
(** reduceLearnts (1648-1662); [remM]: number of constraints to remove *)
Definition reduceLearnts (t : settings) (al : algo) (active : con -> bool) (remM : nat) (l : list con) : list con * list con :=
  if Nat.leb (length l) remM || Nat.eqb remM 0 then reduceSorted t remM l
  else match al with
       | Sort => reduceSorted t remM l
       | Stable => reduceSort t remM l
       | Heap => reduceHeap t remM l
       | Linear => reduceLinear t active remM l
       end.
End Heap.
