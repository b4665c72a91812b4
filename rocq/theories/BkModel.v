(** Model of enumeration by backtracking, with and without projection: ModelEnumerator::BacktrackFinder
    (/repo/src/model_enumerators.cpp:111-225) with the backtrack level of the solver
    (/repo/clasp/solver.h:262-276, /repo/src/solver.cpp:956-993, 1014-1035).

    The search around it is a transition system: decisions, unit propagation, conflict analysis, restarts and the
    deletion of learnt clauses may happen in any order and with any outcome that C13 and C16 allow. One solver, no
    minimize constraint, no auxiliary variables. *)
From Coq Require Import List Bool Arith ZArith.
Import ListNotations.
From Verif Require Import Base ClModel EnModel.

(** Decisions in order; the other true literals with their level, marked if forced by the finder; root level, backtrack
    level and its mode (levels_.root, flip, mode); learnt clauses; projection nogoods with the literal they are attached to
    (projNogoods); whether there is a conflict; the models reported so far *)
Record bst := B { dec : list lit; imp : list (lit * nat * bool); root : nat; flip : nat; bmode : nat; lrn : list clause;
  pn : list (lit * clause); cfl : bool; rep : list asg }.

Definition dl (s : bst) : nat := length (dec s).
(** true literals of level at most [k] *)
Definition lits (s : bst) (k : nat) : list lit := firstn k (dec s) ++ map (fun e => fst (fst e)) (filter (fun e => snd (fst e) <=? k) (imp s)).
Definition tr (s : bst) (p : lit) : bool := existsb (lit_eqb p) (lits s (dl s)).
Definition fl (s : bst) (p : lit) : bool := tr s (neg p).
Definition decAt (s : bst) (k : nat) : lit := nth (k - 1) (dec s) lit_false.

Definition setImp (s : bst) i := B (dec s) i (root s) (flip s) (bmode s) (lrn s) (pn s) (cfl s) (rep s).
Definition setCfl (s : bst) b := B (dec s) (imp s) (root s) (flip s) (bmode s) (lrn s) (pn s) b (rep s).
Definition setFlip (s : bst) k m := B (dec s) (imp s) (root s) k m (lrn s) (pn s) (cfl s) (rep s).
Definition setLrn (s : bst) l := B (dec s) (imp s) (root s) (flip s) (bmode s) l (pn s) (cfl s) (rep s).
Definition setPn (s : bst) l := B (dec s) (imp s) (root s) (flip s) (bmode s) (lrn s) l (cfl s) (rep s).
Definition setRep (s : bst) l := B (dec s) (imp s) (root s) (flip s) (bmode s) (lrn s) (pn s) (cfl s) l.

(** Solver::force on the current level (/repo/clasp/solver.h:349-354); [b]: the reason is the finder *)
Definition force (s : bst) (p : lit) (b : bool) : bst :=
  if tr s p then s else if fl s p then setCfl s true else setImp s ((p, dl s, b) :: imp s).
(** Solver::assume (/repo/src/solver.cpp:813-821) *)
Definition assume (s : bst) (p : lit) : bst :=
  if tr s p || fl s p then s else B (dec s ++ [p]) (imp s) (root s) (flip s) (bmode s) (lrn s) (pn s) (cfl s) (rep s).
(** Solver::setBacktrackLevel (/repo/clasp/solver.h:269-274) *)
Definition setBt (s : bst) (k m : nat) : bst :=
  if bmode s <=? m then setFlip s (max (min k (dl s)) (root s)) (max m 1) else s.
(** Solver::undoUntilImpl (/repo/src/solver.cpp:1014-1025) *)
Definition undoImpl (s : bst) (k : nat) : bst :=
  let k := max k (flip s) in
  if dl s <=? k then s
  else B (firstn k (dec s)) (filter (fun e => snd (fst e) <=? k) (imp s)) (root s) (flip s) (bmode s) (lrn s) (pn s) false (rep s).

Section Prob.
Variables (n : nat) (F : list clause) (proj : option (nat -> bool)) (step : lit).

Definition clauses (s : bst) : list clause := F ++ lrn s ++ map snd (pn s).
Definition unit (s : bst) (p : lit) : bool :=
  existsb (fun c => existsb (lit_eqb p) c && forallb (fun q => lit_eqb q p || fl s q) c) (clauses s).
(** ImpliedList::assign (/repo/src/solver.cpp:995-1010): literals implied on an earlier level are assigned again. Any literals
    that are implied by a clause after going back may be among them. *)
Definition reimply (s : bst) (ps : list lit) : bst :=
  fold_left (fun s p => if negb (cfl s) && unit s p then force s p false else s) ps s.
(** Solver::undoUntil with a mode (/repo/src/solver.cpp:1026-1035) *)
Definition undoUntil (s : bst) (k m : nat) (ps : list lit) : bst :=
  let s1 := if (k <? flip s) && (bmode s <=? m) then setFlip s (max (root s) k) (bmode s) else s in
  reimply (undoImpl s1 k) ps.

(** Solver::backtrack (/repo/src/solver.cpp:978-993) *)
Fixpoint backtrack (fuel : nat) (o : nat -> list lit) (s : bst) : res bst :=
  match fuel with
  | O => UB
  | S f =>
    if dl s =? root s then Ok (setCfl s true)
    else
      let p := neg (decAt s (dl s)) in
      let s1 := undoUntil s (dl s - 1) 2 (o (dl s)) in
      let s2 := setBt s1 (dl s1) 1 in
      if cfl s2 || fl s2 p then backtrack f o s2 else Ok (force s2 p false)
  end.

(** Initial decisions on projection variables (model_enumerators.cpp:215-217) *)
Fixpoint prefixLen (P : nat -> bool) (ds : list lit) : nat :=
  match ds with d :: r => if P (fst d) then S (prefixLen P r) else 0 | [] => 0 end.
(** Solver::trueLit (/repo/clasp/solver.h:514-517) *)
Definition trueLitB (s : bst) (v : nat) : lit := if tr s (pos v) then pos v else ngt v.
(** BacktrackFinder::doCommitModel (model_enumerators.cpp:201-224): nogood and backtrack level *)
Definition solution (s : bst) : list lit :=
  match proj with
  | None => [if dl s =? 0 then lit_false else neg (decAt s (dl s))]
  | Some P => map (fun v => neg (trueLitB s v)) (filter P (seq 1 n)) ++ [neg step]
  end.
Definition commitLevel (s : bst) : bst :=
  match proj with
  | None => setBt s (dl s) 1
  | Some P => setBt s (root s + prefixLen P (skipn (root s) (dec s))) 2
  end.
(** BacktrackFinder::doUpdate after a model (model_enumerators.cpp:162-200). ClauseCreator::prepare puts literals that are not
    false first (C12); [x]: the literal chosen by the heuristic; [sp]: phases are saved, which raises the mode passed *)
Definition doUpdate (o : nat -> list lit) (x : lit) (sp : bool) (s : bst) (sol : list lit) : res bst :=
  let s1 := undoUntil s (flip s) (if sp then 5 else 1) (o 0) in
  let nf := filter (fun p => negb (fl s1 p)) sol in
  match nf with
  | [] => backtrack (S (dl s1)) o s1
  | [p] => Ok (force s1 p true)
  | p :: _ =>
    if existsb (tr s1) nf then Ok s1
    else
      let x := if existsb (lit_eqb x) nf then x else p in
      let s2 := assume s1 (neg x) in
      let s3 := setBt s2 (dl s2) 2 in
      Ok (setPn s3 (pn s3 ++ [(x, sol)]))
  end.
(** EnumerationConstraint::update (/repo/src/enumerator.cpp:104-124); [rst]: restartOnModel *)
Definition update (o : nat -> list lit) (x : lit) (sp rst : bool) (s : bst) (sol : list lit) : res bst :=
  doUpdate o x sp (if rst then undoImpl s 0 else s) sol.
Definition modelB (s : bst) : asg := fun v => tr s (pos v).

(** What a clause may be learnt from: the clauses, and the reasons given by the finder (model_enumerators.cpp:118-122) *)
Definition finderReason (s : bst) (e : lit * nat * bool) : clause := fst (fst e) :: map neg (firstn (snd (fst e)) (dec s)).
Definition base (s : bst) : list clause := clauses s ++ map (finderReason s) (filter snd (imp s)).

(** Solver::search (/repo/src/solver.cpp:1841-1882) and resolveConflict (956-976), one step at a time *)
Inductive bstep : bst -> bst -> Prop :=
| Decide s p : cfl s = false -> 1 <= fst p <= n -> tr s p = false -> fl s p = false -> bstep s (assume s p)
| Propagate s p : cfl s = false -> unit s p = true -> bstep s (force s p false)
(** BacktrackFinder::propagate (model_enumerators.cpp:149-161) *)
| DropNogood s a x c b : pn s = a ++ (x, c) :: b -> tr s x = true -> bstep s (setPn s (a ++ b))
| Learn s c k : cfl s = true -> root s < dl s -> dl s <> flip s -> (forall A, sat_cnf A (base s) = true -> sat_clause A c = true) -> k < dl s ->
    bstep s (setLrn (undoImpl s k) (c :: lrn s))
| Backtrack s o s' : cfl s = true -> root s < dl s -> backtrack (S (dl s)) o s = Ok s' -> bstep s s'
| Restart s k : cfl s = false -> bstep s (undoImpl s k)
| Forget s a c b : lrn s = a ++ c :: b -> bstep s (setLrn s (a ++ b))
| Model s o x sp rst s' : cfl s = false -> (forall v, 1 <= v <= n -> tr s (pos v) = true \/ tr s (ngt v) = true) ->
    (forall c, In c (clauses s) -> sat_clause (modelB s) c = true) ->
    update o x sp rst (commitLevel (setRep s (rep s ++ [modelB s]))) (solution s) = Ok s' -> bstep s s'.
Inductive bsteps : bst -> bst -> Prop :=
| BRefl s : bsteps s s
| BTrans s s1 s2 : bsteps s s1 -> bstep s1 s2 -> bsteps s s2.
End Prob.
