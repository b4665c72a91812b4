(** Model of the topologies for distribution (C51): ParallelSolveOptions::initPeerMask, /repo/src/parallel_solve.cpp:963-988, and
    Distributor::mask, initSet, inSet, /repo/clasp/shared_context.h:455-457.
    Simplification: numbers are unbounded; the code has at most 64 threads, and its words of 64 and 32 bits hold all that is computed then. *)
From Coq Require Import NArith List Bool.
Import ListNotations.
Local Open Scope N_scope.

Inductive topology := Tall | Tring | Tcube | Tcubex.
(** shared_context.h:455-457 *)
Definition mask (i : N) : N := N.shiftl 1 i.
Definition initSet (sz : N) : N := N.shiftl 1 sz - 1.
Definition inSet (s id : N) : bool := negb (N.land s (mask id) =? 0).
(** The powers of two 2^0 .. 2^(c-1), as the loops of 975 and 981 visit them *)
Definition powers (c : nat) : list N := map (fun b => 2 ^ N.of_nat b) (seq 0 c).
(** parallel_solve.cpp:963-988 *)
Definition initPeerMask (id : N) (t : topology) (n : N) : N :=
  match t with
  | Tall => N.lxor (initSet n) (mask id)
  | Tring => N.lor (mask (if 0 <? id then id - 1 else n - 1)) (mask ((id + 1) mod n))
  | _ =>
    let lg := N.to_nat (N.log2 n) in
    let k := 2 ^ N.log2 n in
    let s := N.lxor k id in
    let ext := match t with Tcubex => true | _ => false end in
    let res := fold_left (fun res m => let i := N.lxor m id in
      if i <? n then N.lor res (mask i) else if ext && negb (k =? m) then N.lor res (mask (N.lxor i k)) else res) (powers (S lg)) 0 in
    if ext && (n <=? s) then fold_left (fun res m => let i := N.lxor m s in if i <? n then N.lor res (mask i) else res) (powers lg) res
    else res
  end.
(** Thread [i] listens to thread [j]. *)
Definition listens (t : topology) (n i j : N) : bool := inSet (initPeerMask i t n) j.
