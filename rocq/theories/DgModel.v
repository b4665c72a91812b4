(** Construction of the dependency graph for the unfounded set checker from a prepared program.

    Modelled: PrgDepGraph::addSccs (dependency_graph.cpp:83-168), createAtom, initAtom (171-195),
    createBody, addBody (198-216), addPreds (226-250), addHeads (254-272) and initBody (289-312) for atoms,
    BodyNode (dependency_graph.h:184-193), PrgBody::scc (logic_program_types.cpp:1307-1345).
    Not modelled: disjunctions, components that are not head-cycle free, further steps of an
    incremental program, freezing of variables. The graph is that of UfModel, where adjacency lists
    are kept in separate fields. Bodies are numbered when they are first met, as in the code, but
    the adjacency lists of atoms are filled in with the numbers at the end. *)
From Coq Require Import List Bool Arith ZArith.
Import ListNotations.
From Verif Require Import Base LpSpec SrModel CpModel UfModel.

(** position of an element *)
Fixpoint idx (x : nat) (l : list nat) : nat := match l with [] => 0 | y :: r => if x =? y then 0 else S (idx x r) end.
Definition mem (x : nat) (l : list nat) : bool := existsb (Nat.eqb x) l.
Definition isGamma (t : etype) : bool := match t with EGamma | EGammaChoice => true | _ => false end.

Section Build.
Variable pr : prep.
Variable sc : nat -> option nat.    (** component of an atom, None: PrgNode::noScc *)
Variable ign : nat -> bool.         (** PrgNode::ignoreScc *)
Variable fls : lit -> bool.         (** literals that are false on the solver's top level *)
Variable noScc : nat.               (** the number PrgNode::noScc *)

Definition theBody (i : nat) : pbody := nth i (p_bodies pr) (Pb (Norm []) VFree litFalse [] []).
(** PrgDepGraph::relevantPrgAtom and relevantPrgBody, dependency_graph.cpp:70-75. Atoms that are not in
    the upper closure have no variable, i.e. a false literal. *)
Definition relAtom (a : nat) : bool := negb (ign a) && match sc a with Some _ => true | None => false end && negb (fls (p_lit pr a)).
Definition relBody (i : nat) : bool := negb (fls (b_lit (theBody i))).

(** The subgoals of a body with their weights; positive ones come first in the code. *)
Definition goalsW (b : body) : list (lit * Z) := match b with Norm ls => map (fun l => (l, 1%Z)) ls | Agg _ ls => ls end.
Definition posGoals (b : body) : list (nat * Z) := map (fun x => (fst (fst x), snd x)) (filter (fun x : lit * Z => negb (snd (fst x))) (goalsW b)).

(** PrgBody::scc, logic_program_types.cpp:1311-1345: the bit mask is kept as the list of the bits set. *)
Definition goalSccs (b : body) : list nat := flat_map (fun p => match sc (fst p) with Some s => [s] | None => [] end) (posGoals b).
Fixpoint headScc (mask : list nat) (large : bool) (gs : list nat) (hs : list (nat * etype)) : option nat :=
  match hs with
  | [] => None
  | h :: r =>
    match sc (fst h) with
    | Some s =>
      if mem (s mod 64) mask && (negb large || mem s gs) then Some s else headScc mask large gs r
    | None => headScc mask large gs r
    end
  end.
Definition bodyScc (b : pbody) : option nat :=
  let gs := goalSccs (b_body b) in
  headScc (map (fun s => s mod 64) gs) (existsb (fun s => 63 <? s) gs) gs (b_heads b).

(** Pass 1, dependency_graph.cpp:84-97: the atoms of the graph; number 0 is the sentinel. *)
Definition gAtoms (sccAtoms : list nat) : list nat := filter relAtom sccAtoms.
Section Numbered.
Variable gas : list nat.
Definition aid (a : nat) : nat := S (idx a gas).

(** addPreds, dependency_graph.cpp:226-250 *)
Definition bPreds (b : pbody) (s : nat) : list (nat * Z) :=
  map (fun p => (aid (fst p), snd p)) (filter (fun p => relAtom (fst p) && match sc (fst p) with Some k => k =? s | None => false end) (posGoals (b_body b))).
Definition bExts (b : pbody) (s : nat) : list (lit * Z) :=
  map (fun x => (goalLit pr (fst x), snd x))
    (filter (fun x => (snd (fst x) || negb (match sc (fst (fst x)) with Some k => k =? s | None => false end)) && negb (fls (goalLit pr (fst x)))) (goalsW (b_body b))).
(** addHeads, dependency_graph.cpp:254-272 *)
Definition bHeads (b : pbody) : list nat := map fst (filter (fun h => negb (isGamma (snd h)) && relAtom (fst h)) (b_heads b)).
(** initBody, dependency_graph.cpp:289-312: heads of the same component first, the others from the back *)
Definition headOrder (s : option nat) (hs : list nat) : list nat :=
  let same a := match s, sc a with Some k, Some j => k =? j | _, _ => false end in
  filter same hs ++ rev (filter (fun a => negb (same a)) hs).
Definition mkBody (i : nat) : bnode :=
  let b := theBody i in
  let s := bodyScc b in
  let hs := map aid (headOrder s (bHeads b)) in
  match s with
  | None => BNode (b_lit b) noScc hs None [] []
  | Some k =>
    match b_body b with
    | Norm _ => BNode (b_lit b) k hs None (bPreds b k) []
    | Agg bound _ => BNode (b_lit b) k hs (Some bound) (bPreds b k) (bExts b k)
    end
  end.
End Numbered.

(** addBody: number of a body, a new one if it has none, dependency_graph.cpp:205-216 *)
Definition addB (o : list nat) (i : nat) : list nat := if mem i o then o else o ++ [i].
Definition addAll (o : list nat) (l : list nat) : list nat := fold_left addB l o.
(** Supporting bodies of an atom, dependency_graph.cpp:106-128; a body met before is skipped *)
Fixpoint distinct (l seen : list nat) : list nat :=
  match l with [] => [] | i :: r => if mem i seen then distinct r seen else i :: distinct r (i :: seen) end.
Definition supBodies (a : nat) : list nat :=
  distinct (filter relBody (flat_map (fun i => map (fun _ => i) (filter (fun h => (fst h =? a) && negb (isGamma (snd h))) (b_heads (theBody i)))) (seq 0 (length (p_bodies pr))))) [].
(** Bodies of the same component the atom occurs in, dependency_graph.cpp:129-146 *)
Definition sameAs (a : nat) (s : option nat) : bool := match s, sc a with Some k, Some j => k =? j | _, _ => false end.
Definition depBodies (a : nat) : list nat :=
  filter (fun i => mem a (map fst (posGoals (b_body (theBody i)))) && relBody i && sameAs a (bodyScc (theBody i))) (seq 0 (length (p_bodies pr))).
Definition isExtB (i : nat) : bool := match b_body (theBody i), bodyScc (theBody i) with Agg _ _, Some _ => true | _, _ => false end.

(** Pass 2: the order in which bodies get their numbers *)
Definition bodyOrder (gas : list nat) : list nat := fold_left (fun o a => addAll (addAll o (supBodies a)) (depBodies a)) gas [].

Section Final.
Variables (gas o : list nat).
Definition bid (i : nat) : nat := idx i o.
(** initAtom, dependency_graph.cpp:180-195: bodies of other components first *)
Definition adjOrder (a : nat) (l : list nat) : list nat :=
  filter (fun i => negb (sameAs a (bodyScc (theBody i)))) l ++ filter (fun i => sameAs a (bodyScc (theBody i))) l.
Definition mkAtom (a : nat) : anode :=
  ANode (p_lit pr a) (match sc a with Some k => k | None => noScc end)
    (existsb (fun i => relBody i && existsb (fun h => (fst h =? a) && negb (isGamma (snd h)) && negb (isNormal (snd h))) (b_heads (theBody i))) (seq 0 (length (p_bodies pr))))
    (map bid (adjOrder a (supBodies a)))
    (map bid (filter (fun i => negb (isExtB i)) (depBodies a)))
    (map (fun i => (bid i, idx (aid gas a) (map fst (n_preds (mkBody gas i))))) (filter isExtB (depBodies a))).
End Final.

(** addSccs on an empty graph, with its sentinel atom (dependency_graph.cpp:46-55) *)
Definition addSccs (sccAtoms : list nat) : graph :=
  let gas := gAtoms sccAtoms in
  let o := bodyOrder gas in
  Graph (ANode litFalse noScc false [] [] [] :: map (mkAtom gas o) gas) (map (mkBody gas) o).
End Build.
