(** Model of brave and cautious consequences, default algorithm: CBConsequences::addCurrent (/repo/src/cb_enumerator.cpp:294-324), CBFinder
    (doCommitModel, doUpdate, pushLocked: 66-81, 335-363) and SharedConstraint (fetch_if_neq, release: 38-59), for any number of solvers.

    The solvers' search is not modelled here (SeModel): a solver may report any model of the problem on its guiding path that satisfies the constraints
    it has, and give up its path only if there is none.  One step of the model is one call that holds the lock on models (ParallelSolve::commitModel,
    /repo/src/parallel_solve.cpp:651-686), one fetch of the shared constraint (which has its own lock), or one change of guiding paths; steps of
    different solvers interleave in any order.  Reference counts are left out: a pointer is modelled by the number of the release that set it;
    as the solver holds a reference to the constraint fetched last, its address is not used again while it is compared. *)
From Coq Require Import List Bool Arith.
From Verif Require Import Base ClModel.
Import ListNotations.

Inductive ctype := Brave | Cautious.
(** cons_: literals with their flags; doInit (249-285) flags all of them for cautious consequences *)
Definition initCons (t : ctype) (l : list lit) : list (lit * bool) := map (fun p => (p, match t with Brave => false | Cautious => true end)) l.
(** Values of a model: for each literal its true bit and its estimate bit (trueValue(p) and estMask(p), /repo/clasp/enumerator.h:44-56) *)
Definition values := lit -> bool * bool.
Definition addBits (m : values) (p : lit) (t e : bool) : values := fun q => if lit_eqb q p then (fst (m q) || t, snd (m q) || e) else m q.
(** One iteration of addCurrent: flags, constraint, values *)
Definition oneLit (t : ctype) (root : nat) (a : asg) (dl : nat -> nat) (p : lit) (fl : bool) : bool * list lit * bool :=
  let est := Nat.ltb root (dl (fst p)) in
  match t with
  | Brave => if fl || holds a p then (true, [], false) else (fl, if Nat.eqb (dl (fst p)) 0 then [] else [p], est)
  | Cautious => if negb fl || holds a (neg p) then (false, [], false) else (fl, if Nat.eqb (dl (fst p)) 0 then [] else [neg p], est)
  end.
Fixpoint addLits (t : ctype) (root : nat) (a : asg) (dl : nat -> nat) (l : list (lit * bool)) (m : values) : list (lit * bool) * list lit * values :=
  match l with
  | [] => ([], [], m)
  | (p, fl) :: l =>
    let '(fl', c, est) := oneLit t root a dl p fl in
    let '(l', c', m') := addLits t root a dl l (addBits m p fl' est) in
    ((p, fl') :: l', c ++ c', m')
  end.
Definition addCurrent (t : ctype) (step : lit) (root : nat) (a : asg) (dl : nat -> nat) (l : list (lit * bool)) : list (lit * bool) * list lit * values :=
  let '(l', c, m) := addLits t root a dl l (fun _ => (false, false)) in (l', neg step :: c, m).

(** A solver: whether it has a guiding path, the path (as the set of assignments on it), its constraints, the number of the one fetched last *)
Record solver := Sol { s_on : bool; s_path : asg -> Prop; s_act : list clause; s_last : nat }.
(** The enumerator: flags; the shared constraint with its number; the last values reported.  [g_pub]: all constraints released so far
    (not in the code, used to say what a solver may have derived on level 0) *)
Record gst := G { g_cons : list (lit * bool); g_cur : nat * list lit; g_out : option values; g_sol : list solver; g_pub : list clause }.
Definition setSol (l : list solver) (i : nat) (s : solver) : list solver := firstn i l ++ s :: skipn (S i) l.

Section Steps.
(** The models of the problem under the assumptions, the step literal, the kind of consequences *)
Variables (models : asg -> Prop) (t : ctype) (step : lit).

Inductive stp : gst -> gst -> Prop :=
(** a solver reports a model; literals on levels up to [root] (the root level without the guiding path) are implied by the problem and the
    constraints released so far *)
| t_model : forall g i s a dl root l' c m, nth_error (g_sol g) i = Some s -> s_on s = true -> s_path s a -> models a -> (forall c, In c (s_act s) -> sat_clause a c = true) ->
    (forall v b, dl v <= root -> models b -> (forall c, In c (g_pub g) -> sat_clause b c = true) -> b v = a v) ->
    addCurrent t step root a dl (g_cons g) = (l', c, m) ->
    stp g (G l' (S (fst (g_cur g)), c) (Some m) (g_sol g) (c :: g_pub g))
(** doUpdate: a constraint other than the one fetched last is added; older ones may be removed *)
| t_update : forall g i s keep, nth_error (g_sol g) i = Some s -> fst (g_cur g) <> s_last s -> incl keep (s_act s) ->
    stp g (G (g_cons g) (g_cur g) (g_out g) (setSol (g_sol g) i (Sol (s_on s) (s_path s) (snd (g_cur g) :: keep) (fst (g_cur g)))) (g_pub g))
(** a solver finds its path exhausted *)
| t_unsat : forall g i s, nth_error (g_sol g) i = Some s -> s_on s = true -> (forall a, s_path s a -> models a -> ~ forall c, In c (s_act s) -> sat_clause a c = true) ->
    stp g (G (g_cons g) (g_cur g) (g_out g) (setSol (g_sol g) i (Sol false (s_path s) (s_act s) (s_last s))) (g_pub g))
(** a solver without path takes over a part of another one's *)
| t_split : forall g i j s r P Q, i <> j -> nth_error (g_sol g) i = Some s -> nth_error (g_sol g) j = Some r -> s_on s = true -> s_on r = false -> (forall a, s_path s a -> P a \/ Q a) ->
    stp g (G (g_cons g) (g_cur g) (g_out g) (setSol (setSol (g_sol g) i (Sol true P (s_act s) (s_last s))) j (Sol true Q (s_act r) (s_last r))) (g_pub g)).
Inductive run (g0 : gst) : gst -> Prop :=
| r_refl : run g0 g0
| r_step : forall g g', run g0 g -> stp g g' -> run g0 g'.
End Steps.
(** The start: [k] solvers, the first of them has the whole search space *)
Definition startOf (t : ctype) (l : list lit) (k : nat) : gst :=
  G (initCons t l) (0, []) None (Sol true (fun _ => True) [] 0 :: repeat (Sol false (fun _ => False) [] 0) k) [].
