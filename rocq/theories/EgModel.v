(** Model of ExtDepGraph (/repo/src/dependency_graph.cpp:784-837, /repo/clasp/dependency_graph.h:336-405).

    Simplifications: node ids are unbounded (the code shifts them by one bit in Inv::rep and reserves UINT32_MAX); the arc that marks a frozen graph
    is a flag; the result of std::sort is any ordered permutation; pointers into an array are the rest of the list; setFrozen on the variables and
    reserve are left out. *)
From Coq Require Import List Arith Bool Permutation Sorting.Sorted.
From Verif Require Import Base AcSpec.
Import ListNotations.

(** dependency_graph.h:346-350: literal, tail and whether the next entry belongs to the same node *)
Definition inve : Type := (lit * nat * bool)%type.
(** fwdArcs_ (without the mark), frozen(), invArcs_, offsets of nodes_ (no value: UINT32_MAX), number of nodes_, maxNode_, comEdge_, genCnt_ *)
Record eg := Eg { arcs : list arc; frozen : bool; invs : list inve; fo : nat -> option nat; io : nat -> option nat; nN : nat; mx : nat; com : nat; gen : nat }.
(** ExtDepGraph(), 784 *)
Definition empty : eg := Eg [] false [] (fun _ => None) (fun _ => None) 0 0 0 0.
(** addEdge, 786-795; [None]: POTASSCO_REQUIRE fails *)
Definition addEdge (g : eg) (p : lit) (x y : nat) : option eg :=
  if frozen g then None else
  let l := arcs g ++ [Arc p x y] in
  let m := Nat.max (S (Nat.max x y)) (mx g) in
  if (0 <? com g) && (Nat.min x y <? nN g) then Some (Eg l false [] (fo g) (io g) (nN g) m 0 (S (gen g)))
  else Some (Eg l false (invs g) (fo g) (io g) (nN g) m (com g) (gen g)).
(** update, 799-803 *)
Definition update (g : eg) : eg := Eg (arcs g) false (invs g) (fo g) (io g) (nN g) (mx g) (com g) (gen g).
(** CmpArc, dependency_graph.h:351-359: [x] before [y] *)
Definition cmpArc (k k' : arc -> nat) (x y : arc) : bool := (k x <? k y) || ((k x =? k y) && (k' x <? k' y)).
(** A result of std::sort, 809 and 828 *)
Definition sorts (k k' : arc -> nat) (l l' : list arc) : Prop := Permutation l l' /\ StronglySorted (fun a b => cmpArc k k' b a = false) l'.
Definition isSome {A} (o : option A) : bool := match o with Some _ => true | None => false end.
Definition isPrev (prev : option nat) (n : nat) : bool := match prev with Some p => p =? n | None => false end.
(** Offsets set by the loops 813-826 and 829-834: the first arc of a node, whose arcs are skipped by do-while and by lower_bound;
    [chk]: comEdge_ is not 0; [None]: POTASSCO_REQUIRE fails *)
Fixpoint offs (k : arc -> nat) (chk : bool) (i : nat) (prev : option nat) (l : list arc) (f : nat -> option nat) : option (nat -> option nat) :=
  match l with
  | [] => Some f
  | a :: r =>
      if isPrev prev (k a) then offs k chk (S i) prev r f
      else if chk && isSome (f (k a)) then None
      else offs k chk (S i) (Some (k a)) r (fun n => if n =? k a then Some i else f n)
  end.
(** Entries pushed by 818-825 *)
Fixpoint entries (l : list arc) : list inve :=
  match l with
  | [] => []
  | a :: r => (a_lit a, a_tail a, match r with b :: _ => a_head b =? a_head a | [] => false end) :: entries r
  end.
(** finalize, 804-837, with the results of both sorts *)
Definition finalize (g : eg) (l1 l2 : list arc) : option eg :=
  if frozen g then Some g else
  match offs a_head (0 <? com g) (length (invs g)) None l1 (io g) with
  | None => None
  | Some io' => match offs a_tail (0 <? com g) (com g) None l2 (fo g) with
      | None => None
      | Some fo' => let l := firstn (com g) (arcs g) ++ l2 in Some (Eg l true (invs g ++ entries l1) fo' io' (mx g) (mx g) (length l) (gen g))
      end
  end.
Definition sortedBy (g : eg) (l1 l2 : list arc) : Prop := sorts a_head a_tail (skipn (com g) (arcs g)) l1 /\ sorts a_tail a_head l1 l2.
(** fwdBegin, fwdNext, dependency_graph.h:370-374; from a pointer *)
Fixpoint runF (l : list arc) : list arc :=
  match l with [] => [] | a :: r => a :: match r with b :: _ => if a_tail a =? a_tail b then runF r else [] | [] => [] end end.
Definition fwdOf (g : eg) (n : nat) : list arc := match fo g n with None => [] | Some i => runF (skipn i (arcs g)) end.
(** invBegin, invNext, dependency_graph.h:375-379; the value is [None] if a pointer leaves the array *)
Fixpoint runI (l : list inve) : option (list (lit * nat)) :=
  match l with [] => None | (p, t, f) :: r => if f then match runI r with Some x => Some ((p, t) :: x) | None => None end else Some [(p, t)] end.
Definition invOf (g : eg) (n : nat) : option (list (lit * nat)) := match io g n with None => Some [] | Some i => runI (skipn i (invs g)) end.

(** Steps of a graph and the arcs they add *)
Inductive gstep (g : eg) : list arc -> eg -> Prop :=
| GAdd p x y g' : addEdge g p x y = Some g' -> gstep g [Arc p x y] g'
| GUpd : gstep g [] (update g)
| GFin l1 l2 g' : sortedBy g l1 l2 -> finalize g l1 l2 = Some g' -> gstep g [] g'.
Inductive gsteps : eg -> list arc -> eg -> Prop :=
| G0 g : gsteps g [] g
| GS g A g' B g'' : gsteps g A g' -> gstep g' B g'' -> gsteps g (A ++ B) g''.
