(** Model of [SccChecker] (logic_program_types.cpp:297-399, logic_program_types.h:590-622).

    Nodes (atoms, bodies, disjunctions) are numbered [0 .. n-1] in the order in which the constructor
    visits them (299-304; disjunctions, which are reached from bodies only, come last and are visited
    again as roots without effect). [succ v] lists the nodes [recurse] looks at from [v] (355-384):
    the bodies in which an atom occurs positively, the heads of a body, the atoms of a disjunction,
    in each case those that pass [doVisit]. Components are recorded for all nodes, not for atoms
    only. *)
From Coq Require Import List Bool Arith.
Import ListNotations.
From Verif Require Import Base.

(** node, min, next *)
Definition call := (nat * nat * nat)%type.
Record ts := Ts { t_id : nat -> nat; t_seen : nat -> bool; t_calls : list call; t_nodes : list nat;
                  t_count : nat; t_sccs : nat; t_scc : nat -> option nat }.
Definition upd {A} (f : nat -> A) (v : nat) (x : A) : nat -> A := fun w => if w =? v then x else f w.

Section Tj.
Context (noNode : nat) (succ : nat -> list nat).
(** the loops of [recurse] with [onNode] (355-399): the new minimum, and the first node not yet seen
    with its place *)
Fixpoint scan (s : ts) (l : list nat) (i mn : nat) : nat * option (nat * nat) :=
  match l with
  | [] => (mn, None)
  | u :: l => if t_seen s u then scan s l (S i) (if t_id s u <? mn then t_id s u else mn) else (mn, Some (u, i))
  end.
(** entering a node (350-354); the call on top is updated as well *)
Definition enter (s : ts) (v mn i : nat) (cs : list call) : ts * nat :=
  if t_seen s v then (Ts (t_id s) (t_seen s) cs (t_nodes s) (t_count s) (t_sccs s) (t_scc s), mn)
  else (Ts (upd (t_id s) v (t_count s)) (upd (t_seen s) v true) cs (v :: t_nodes s) (S (t_count s)) (t_sccs s) (t_scc s), t_count s).
(** popping a component (331-343); [None] if the stack runs empty *)
Fixpoint popTo (v : nat) (nodes : list nat) (id : nat -> nat) (scc : nat -> option nat) (c : nat) : option (list nat * (nat -> nat) * (nat -> option nat)) :=
  match nodes with
  | [] => None
  | w :: nodes =>
      let id := upd id w noNode in
      let scc := upd scc w (Some c) in
      if w =? v then Some (nodes, id, scc) else popTo v nodes id scc c
  end.
(** one turn of the loop of [visitDfs] (315-345) *)
Definition step (s : ts) : res ts :=
  match t_calls s with
  | [] => UB
  | (v, mn, i) :: cs =>
      let '(s, mn) := enter s v mn i cs in
      match scan s (skipn i (succ v)) i mn with
      | (mn, Some (u, j)) => Ok (Ts (t_id s) (t_seen s) ((u, 0, 0) :: (v, mn, j) :: cs) (t_nodes s) (t_count s) (t_sccs s) (t_scc s))
      | (mn, None) =>
          if mn <? t_id s v
          then Ok (Ts (upd (t_id s) v mn) (t_seen s) cs (t_nodes s) (t_count s) (t_sccs s) (t_scc s))
          else match t_nodes s with
               | [] => UB
               | w :: r =>
                   if w =? v then Ok (Ts (upd (t_id s) v noNode) (t_seen s) cs r (t_count s) (t_sccs s) (upd (t_scc s) v None))
                   else match popTo v (t_nodes s) (t_id s) (t_scc s) (t_sccs s) with
                        | Some (r, id, scc) => Ok (Ts id (t_seen s) cs r (t_count s) (S (t_sccs s)) scc)
                        | None => UB
                        end
               end
      end
  end.
Fixpoint loop (fuel : nat) (s : ts) : res ts :=
  match t_calls s with
  | [] => Ok s
  | _ => match fuel with 0 => Throws | S fuel => do s <- step s; loop fuel s end
  end.
(** [visitDfs] (307-346) *)
Definition visitDfs (fuel : nat) (s : ts) (v : nat) : res ts :=
  if t_seen s v then Ok s
  else loop fuel (Ts (t_id s) (t_seen s) [(v, 0, 0)] [] 0 (t_sccs s) (t_scc s)).
(** constructor (297-305) *)
Fixpoint visitAll (fuel : nat) (s : ts) (vs : list nat) : res ts :=
  match vs with
  | [] => Ok s
  | v :: vs => do s <- visitDfs fuel s v; visitAll fuel s vs
  end.
Definition sccChecker (fuel : nat) (id0 : nat -> nat) (scc0 : nat -> option nat) (startScc n : nat) : res ts :=
  visitAll fuel (Ts id0 (fun _ => false) [] [] 0 startScc scc0) (seq 0 n).
End Tj.
