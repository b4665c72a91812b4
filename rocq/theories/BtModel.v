(** Model of ShortImplicationsGraph while it is used by one thread: add (/repo/src/shared_context.cpp:217-248), remove_bin and remove_tern
    (250-257), removeTrue (269-317), simplifyLearnt (128-142), forEach (/repo/clasp/shared_context.h:354-378), propagate with its visitor
    (318-328, 347), reverseArc (329-343, 348; isRevLit, /repo/clasp/solver.h:902-904).

    Simplifications: lists are functional and erase keeps the order of the others (the order in a list is not part of any claim); one flag for
    both literals of a ternary entry (add sets them together); the learnt blocks of a list are the list of their entries; counters are
    naturals; loops run over the list as it is when they start (they change it only if a clause has a variable twice). *)
From Coq Require Import List Arith Bool.
From Verif Require Import Base IgSpec BtSpec.
Import ListNotations.

(** ImplicationList, shared_context.h:409-425: left: binary, right: ternary, learnt; bin_, tern_, 434-435 *)
Record graph := Gr { g_l : lit -> list (lit * bool); g_r : lit -> list (lit * lit * bool); g_b : lit -> list entry; g_bin : bool -> nat; g_tern : bool -> nat }.
Definition empty : graph := Gr (fun _ => []) (fun _ => []) (fun _ => []) (fun _ => 0) (fun _ => 0).
Definition upd {A} (f : lit -> A) (k : lit) (h : A -> A) : lit -> A := fun x => if lit_eqb x k then h (f x) else f x.
Definition cnt (f : bool -> nat) (k : bool) (h : nat -> nat) : bool -> nat := fun x => if Bool.eqb x k then h (f x) else f x.
Definition push {A} (f : lit -> list A) (k : lit) (x : A) : lit -> list A := upd f k (fun l => l ++ [x]).
(** add for an unshared graph, 221-234 *)
Definition add (g : graph) (learnt : bool) (c : sclause) : graph :=
  match c with
  | C2 p q => Gr (push (push (g_l g) (neg p) (q, learnt)) (neg q) (p, learnt)) (g_r g) (g_b g) (cnt (g_bin g) learnt S) (g_tern g)
  | C3 p q r => Gr (g_l g) (push (push (push (g_r g) (neg p) (q, r, learnt)) (neg q) (p, r, learnt)) (neg r) (p, q, learnt)) (g_b g) (g_bin g) (cnt (g_tern g) learnt S)
  end.
(** hasLearnt, 173-184 *)
Definition hasLearnt (l : list entry) (q : lit) (r : option lit) : bool :=
  let is x := lit_eqb x q || match r with Some r => lit_eqb x r | None => false end in
  existsb (fun e => match e with Bin x => is x | Ter x y => is x && (match r with Some _ => true | None => false end) && is y end) l.
(** add for a shared graph, 236-247, by a thread alone; learnt clauses only *)
Definition addShared (g : graph) (c : sclause) : graph * bool :=
  match c with
  | C2 p q => if hasLearnt (g_b g (neg p)) q None then (g, false) else
      (Gr (g_l g) (g_r g) (push (push (g_b g) (neg p) (Bin q)) (neg q) (Bin p)) (cnt (g_bin g) true S) (g_tern g), true)
  | C3 p q r => if hasLearnt (g_b g (neg p)) q (Some r) then (g, false) else
      (Gr (g_l g) (g_r g) (push (push (push (g_b g) (neg p) (Ter q r)) (neg q) (Ter p r)) (neg r) (Ter p q)) (g_bin g) (cnt (g_tern g) true S), true)
  end.
(** std::find and erase *)
Fixpoint rmFirst {A} (P : A -> bool) (l : list A) : list A := match l with [] => [] | x :: r => if P x then r else x :: rmFirst P r end.
Definition isB (p : lit) (x : lit * bool) : bool := lit_eqb (fst x) p.
(** PairContains, misc_types.h:245-251 *)
Definition isT (p : lit) (x : lit * lit * bool) : bool := lit_eqb (fst (fst x)) p || lit_eqb (snd (fst x)) p.
Definition remove_bin (g : graph) (l p : lit) : graph := Gr (upd (g_l g) l (rmFirst (isB p))) (g_r g) (g_b g) (g_bin g) (g_tern g).
Definition remove_tern (g : graph) (l p : lit) : graph := Gr (g_l g) (upd (g_r g) l (rmFirst (isT p))) (g_b g) (g_bin g) (g_tern g).
Definition decBin (g : graph) (f : bool) : graph := Gr (g_l g) (g_r g) (g_b g) (cnt (g_bin g) f pred) (g_tern g).
Definition decTern (g : graph) (f : bool) : graph := Gr (g_l g) (g_r g) (g_b g) (g_bin g) (cnt (g_tern g) f pred).
Definition notTrue (s : pasg) (e : entry) : bool := forallb (fun x => negb (isTrue s x)) (elits e).
(** simplifyLearnt of the list of [l] *)
Definition simplifyLearnt (s : pasg) (g : graph) (l : lit) : graph := Gr (g_l g) (g_r g) (upd (g_b g) l (filter (notTrue s))) (g_bin g) (g_tern g).
Definition isFreeL (s : pasg) (x : lit) : bool := isFree s (fst x).
(** The loops of removeTrue: 275-278, 280-284, 286-293, 296-308 *)
Definition loop1 (p : lit) (g : graph) (it : lit * bool) : graph := remove_bin (decBin g (snd it)) (neg (fst it)) p.
Definition loop2 (p : lit) (g : graph) (it : lit * lit * bool) : graph := remove_tern (remove_tern (decTern g (snd it)) (neg (fst (fst it))) p) (neg (snd (fst it))) p.
Definition loop3 (s : pasg) (g : graph) (imp : entry) : graph :=
  match imp with
  | Bin x => decBin (simplifyLearnt s g (neg x)) true
  | Ter x y => simplifyLearnt s (decTern (simplifyLearnt s g (neg x)) true) (neg y)
  end.
Definition loop4 (s : pasg) (p : lit) (g : graph) (it : lit * lit * bool) : graph :=
  let '(q, r, f) := it in
  let g' := remove_tern (remove_tern (decTern g f) (neg q) (neg p)) (neg r) (neg p) in
  if isFreeL s q && isFreeL s r then add g' f (C2 q r) else g'.
Definition clear (g : graph) (l : lit) : graph := Gr (upd (g_l g) l (fun _ => [])) (upd (g_r g) l (fun _ => [])) (upd (g_b g) l (fun _ => [])) (g_bin g) (g_tern g).
Definition removeTrue (s : pasg) (g : graph) (p : lit) : graph :=
  let g1 := fold_left (loop1 p) (g_l g (neg p)) g in
  let g2 := fold_left (loop2 p) (g_r g1 (neg p)) g1 in
  let g3 := fold_left (loop3 s) (g_b g2 (neg p)) g2 in
  let g4 := fold_left (loop4 s p) (g_r g3 p) g3 in
  clear (clear g4 (neg p)) p.

(** What forEach passes to the visitor *)
Definition visit (g : graph) (l : lit) : list entry := map (fun x => Bin (fst x)) (g_l g l) ++ map (fun x => Ter (fst (fst x)) (snd (fst x))) (g_r g l) ++ g_b g l.

(** Solver::force on the values: conflict if the literal is false. The trail: literals set with their reasons, latest first *)
Definition put (s : pasg) (x : lit) : pasg := fun v => if v =? fst x then Some (negb (snd x)) else s v.
Definition force (s : pasg) (tr : list (lit * list lit)) (x : lit) (why : list lit) : bool * pasg * list (lit * list lit) :=
  if isFalse s x then (false, s, (x, why) :: tr) else if isTrue s x then (true, s, tr) else (true, put s x, (x, why) :: tr).
(** Propagate::unary and binary, 320-327 *)
Definition propE (p : lit) (s : pasg) (tr : list (lit * list lit)) (e : entry) : bool * pasg * list (lit * list lit) :=
  match e with
  | Bin x => if isTrue s x then (true, s, tr) else force s tr x [p]
  | Ter x y => if negb (isTrue s x) && negb (isTrue s y) && (negb (isFreeL s x) || negb (isFreeL s y))
      then (if negb (isFreeL s x) then force s tr y [p; neg x] else force s tr x [p; neg y]) else (true, s, tr)
  end.
Fixpoint propL (p : lit) (s : pasg) (tr : list (lit * list lit)) (es : list entry) : bool * pasg * list (lit * list lit) :=
  match es with
  | [] => (true, s, tr)
  | e :: es => let '(b, s', tr') := propE p s tr e in if b then propL p s' tr' es else (false, s', tr')
  end.
(** propagate, 347 *)
Definition propagate (g : graph) (s : pasg) (p : lit) : bool * pasg * list (lit * list lit) := propL p s [] (visit g p).
(** Solver::unitPropagate (/repo/src/solver.cpp:878-892) with short clauses only: literals in the order in which they became true; [n]: bound of the steps *)
Fixpoint unitPropagate (n : nat) (g : graph) (s : pasg) (q : list lit) : option (bool * pasg) :=
  match q with
  | [] => Some (true, s)
  | l :: q => match n with
      | O => None
      | S n => let '(b, s', tr) := propagate g s l in if b then unitPropagate n g s' (q ++ rev (map fst tr)) else Some (false, s')
      end
  end.
(** ReverseArc; [rev x]: isRevLit *)
Definition revE (rev : lit -> bool) (e : entry) : option (list lit) :=
  match e with Bin x => if rev x then Some [neg x] else None | Ter x y => if rev x && rev y then Some [neg x; neg y] else None end.
Fixpoint revL (rev : lit -> bool) (es : list entry) : option (list lit) := match es with [] => None | e :: es => match revE rev e with Some a => Some a | None => revL rev es end end.
Definition reverseArc (g : graph) (rev : lit -> bool) (p : lit) : option (list lit) := revL rev (visit g p).

(** A history of the graph: the graph, the top-level assignment, the literals removed, and all clauses given to it;
    [sh]: whether clauses are also added while the graph is shared *)
Inductive hist (sh : bool) : graph -> pasg -> list lit -> list sclause -> Prop :=
| H0 : hist sh empty (fun _ => None) [] []
| HAdd g s P cs f c : hist sh g s P cs -> distinct c -> settled s (lits c) -> (forall x p, In x (lits c) -> In p P -> fst x <> fst p) -> hist sh (add g f c) s P (c :: cs)
| HShared g s P cs c : sh = true -> hist sh g s P cs -> distinct c -> settled s (lits c) -> (forall x p, In x (lits c) -> In p P -> fst x <> fst p) -> hist sh (fst (addShared g c)) s P (c :: cs)
| HAssign g s P cs s' : hist sh g s P cs -> pextends s' s -> quiet (visit g) s' -> hist sh g s' P cs
| HRemove g s P cs p : hist sh g s P cs -> isTrue s p = true -> ~ In p P -> hist sh (removeTrue s g p) s (p :: P) cs.
