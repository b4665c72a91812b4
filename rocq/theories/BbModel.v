(** Model of branch and bound: the bounds shared between solvers (SharedMinimizeData, src/minimize_constraint.cpp:50-135) and how a DefaultMinimize constraint
    moves its tentative bound (commitUpperBound .. updateBounds, src/minimize_constraint.cpp:416-553), run by any number of solvers at the same time.
    Cost vectors are the sums without the constant adjustments (as everywhere inside the class).
    Simplifications:
    - wsum_t is unbounded, but subtracting bounds that are further apart than a wsum_t can hold is reported ([Crash]); step_.size is a 32-bit unsigned number;
    - generations are unbounded (the code wraps them after 2^32 improvements);
    - setOptimum is one atomic action (its callers hold a lock; readers do not), each other access to shared data is an action of its own;
    - the solver is represented by the set of cost vectors of the models on its search path: it can find any of them that does not exceed the bound of the
      constraint, and it can report unsat if there is none (propagation with the bound is the subject of MzModel.v);
    - the test in integrateBound that turns a step type into 0 if the tag literal is assigned on level 0 is not modelled. *)
From Coq Require Import List Bool Arith ZArith.
From Verif Require Import Base.
Import ListNotations.
Open Scope Z_scope.

Definition cost := list Z.
(** SharedMinimizeData::maxBound(), clasp/minimize_constraint.h:80 *)
Definition bMax : Z := 9223372036854775807.
Definition u32 (z : Z) : Z := z mod 4294967296.
Definition at_ (v : cost) (i : nat) : Z := nth i v 0.
Fixpoint put (v : cost) (i : nat) (x : Z) : cost := match v, i with [], _ => [] | _ :: v, O => x :: v | y :: v, S i => y :: put v i x end.

(** ** Shared data *)
(** up_[2], lower_, gCount_ and optGen_; the mode is optimize or enumOpt ([s_enum] = false) or enumerate *)
Record shared := Sh { s_up0 : cost; s_up1 : cost; s_lower : cost; s_gen : nat; s_optGen : nat; s_enum : bool }.
(** upper(): clasp/minimize_constraint.h:89 *)
Definition buf (s : shared) (p : bool) : cost := if p then s_up1 s else s_up0 s.
Definition upper (s : shared) : cost := buf s (Nat.odd (s_gen s)).
(** checkNext(), optimize(): clasp/minimize_constraint.h:104, 84 *)
Definition checkNext (s : shared) : bool := negb (s_enum s) && negb (Nat.eqb (s_gen s) (s_optGen s)).
Definition optimize (s : shared) : bool := if Nat.eqb (s_optGen s) 0 then negb (s_enum s) else checkNext s.
(** setOptimum(newOpt): src/minimize_constraint.cpp:103-115 *)
Definition setOptimum (s : shared) (c : cost) : shared :=
  if negb (Nat.eqb (s_optGen s) 0) then s
  else
    let n := negb (Nat.odd (s_gen s)) in
    let g := if s_enum s then s_gen s else S (s_gen s) in
    if n then Sh (s_up0 s) c (s_lower s) g (s_optGen s) (s_enum s) else Sh c (s_up1 s) (s_lower s) g (s_optGen s) (s_enum s).
(** incLower(at, low): src/minimize_constraint.cpp:119-128; the loop around compare_and_swap is one atomic action *)
Definition incLower (s : shared) (i : nat) (low : Z) : Z * shared :=
  if low <=? at_ (s_lower s) i then (at_ (s_lower s) i, s) else (low, Sh (s_up0 s) (s_up1 s) (put (s_lower s) i low) (s_gen s) (s_optGen s) (s_enum s)).
(** markOptimal(): src/minimize_constraint.cpp:136-138 *)
Definition markOptimal (s : shared) : shared := Sh (s_up0 s) (s_up1 s) (s_lower s) (s_gen s) (s_gen s) (s_enum s).

(** ** The constraint *)
(** bounds_ (opt and, if step_.type is not 0, lower) and step_; types bb_lin, bb_hier, bb_inc and bb_dec: clasp/solver_strategies.h:207-212 *)
Inductive stype := Lin | Hier | Inc | Dec.
Definition isLin (t : stype) : bool := match t with Lin => true | _ => false end.
Record dm := DM { m_opt : cost; m_low : cost; m_type : stype; m_size : Z; m_lev : nat }.
Definition setOpt (d : dm) (v : cost) : dm := DM v (m_low d) (m_type d) (m_size d) (m_lev d).
Definition setLow (d : dm) (v : cost) : dm := DM (m_opt d) v (m_type d) (m_size d) (m_lev d).
Definition setSize (d : dm) (z : Z) : dm := DM (m_opt d) (m_low d) (m_type d) z (m_lev d).
Definition setLev (d : dm) (k : nat) : dm := DM (m_opt d) (m_low d) (m_type d) (m_size d) k.
(** active(): clasp/minimize_constraint.h:341 *)
Definition active (d : dm) : bool := negb (at_ (m_opt d) 0 =? bMax).

Section Con.
(** size_, the number of levels *)
Variable n : nat.
(** stepInit(k): src/minimize_constraint.cpp:458-462 *)
Definition stepInit (k : nat) (d : dm) : dm :=
  let d := setSize d (match m_type d with Dec => 0 | _ => 1 end) in
  if isLin (m_type d) then setLev d (n - 1) else
  let d := setLev d k in
  if Nat.eqb k n then d else setLow d (put (m_low d) k (0 - bMax)).
(** relaxBound(full): src/minimize_constraint.cpp:449-456 *)
Definition relaxBound (full : bool) (s : shared) (d : dm) : dm :=
  let d := if active d then setOpt d (repeat bMax n) else d in
  if full || negb (optimize s) then stepInit 0 d else d.
(** commitUpperBound: src/minimize_constraint.cpp:418-421 (with the shared part) *)
Definition doubleStep (d : dm) : dm := match m_type d with Inc => setSize d (u32 (m_size d * 2)) | _ => d end.
(** "more" in commitLowerBound: src/minimize_constraint.cpp:424 *)
Definition more (d : dm) : bool := Nat.ltb (m_lev d) n && ((1 <? m_size d) || negb (Nat.eqb (m_lev d) (n - 1))).
(** commitLowerBound(s, upShared): src/minimize_constraint.cpp:422-437.  The second component is the bound that is reported. *)
Definition commitLower (upShared : bool) (s : shared) (d : dm) : option (nat * Z) * shared * dm :=
  if active d && checkNext s && negb (isLin (m_type d)) && Nat.ltb (m_lev d) n then
    let x := m_lev d in
    let L := at_ (m_opt d) x + 1 in
    let '(rep, s, L) := if upShared then let '(sv, s) := incLower s x L in if sv =? L then (Some (x, sv), s, L) else (None, s, sv) else (None, s, L) in
    let d := setLow d (put (m_low d) x L) in
    (rep, s, match m_type d with Inc => setSize d 1 | _ => d end)
  else (None, s, d).
(** handleUnsat: src/minimize_constraint.cpp:438-447; the result says whether search goes on (with a step type the tag literal is on a root level above 0,
    so the path can be restored; without step types "more" is false) *)
Definition handleUnsat (upShared : bool) (s : shared) (d : dm) : bool * option (nat * Z) * shared * dm :=
  if optimize s then let m := more d in let '(rep, s, d) := commitLower upShared s d in (m, rep, s, relaxBound false s d) else (false, None, s, relaxBound false s d).
(** One iteration of the loop in updateBounds (src/minimize_constraint.cpp:505-549) for level i, where U = upper[i] and L0 = shared_->lower(i) *)
Inductive pass := Cont (d : dm) (appLev : nat) | Ret (r : bool) (d : dm) | Over.
Definition nextStep (d : dm) (diff : Z) : Z :=
  let half := u32 (Z.lor (Z.shiftr diff 1) (Z.land diff 1)) in
  match m_type d with Inc => Z.min (m_size d) half | Dec => if m_size d =? 0 then u32 diff else half | _ => m_size d end.
Definition visit (appLev i : nat) (U L0 : Z) (d : dm) : pass :=
  let B := at_ (m_opt d) i in
  if negb (Nat.eqb i appLev) then
    let '(d, L) :=
      if isLin (m_type d) then (d, L0)
      else if Nat.ltb (m_lev d) i || (at_ (m_low d) i <? L0) then (setLow d (put (m_low d) i L0), L0) else (d, at_ (m_low d) i) in
    if Nat.ltb appLev i then Cont (setOpt d (put (m_opt d) i bMax)) appLev
    else if L <=? U then Cont (setOpt d (put (m_opt d) i U)) appLev
    else Ret false (stepInit n d)
  else if isLin (m_type d) then Cont (setOpt d (put (m_opt d) i (U - m_size d))) appLev
  else
    let L := Z.max (at_ (m_low d) i) L0 in
    let d := setLow d (put (m_low d) (m_lev d) L) in
    if U <? L then Ret false (stepInit n d)
    else if B <? L then Ret false d
    else if B <? U then Ret true d
    else if U =? L then Cont (stepInit (S appLev) (setOpt d (put (m_opt d) i U))) (S appLev)
    else if bMax <? U - L then Over
    else let d := setSize d (nextStep d (U - L)) in Cont (setOpt d (put (m_opt d) i (U - m_size d))) appLev.
(** The value returned after the loop: src/minimize_constraint.cpp:552 *)
Definition passEnd (applyStep : bool) (d : dm) : bool := negb (Nat.eqb (m_lev d) n) || negb applyStep.
Definition appLev0 (applyStep : bool) (d : dm) : nat := if applyStep then m_lev d else n.
(** The loop run without interruption *)
Fixpoint passFrom (k i appLev : nat) (up low : cost) (d : dm) : pass :=
  match k with
  | O => Cont d appLev
  | S k => match visit appLev i (at_ up i) (at_ low i) d with Cont d appLev => passFrom k (S i) appLev up low d | r => r end
  end.
(** integrateBound after a bound was rejected: src/minimize_constraint.cpp:484-485 *)
Definition failed (d : dm) : dm :=
  if isLin (m_type d) then setLev d (S (m_lev d))
  else let B := at_ (m_opt d) (m_lev d) + 1 in setLow (setOpt d (put (m_opt d) (m_lev d) B)) (put (m_low d) (m_lev d) B).
(** The constructor and attach (src/minimize_constraint.cpp:190-205, 232-240) *)
Definition attach (t : stype) : dm :=
  let t := match t with Hier => if Nat.eqb n 1 then Lin else Hier | _ => t end in
  stepInit 0 (DM (repeat bMax n) (repeat 0 n) t 0 0).

(** ** Solvers *)
(** Where a solver is: outside of integrateBound and without a bound it could rely on; inside updateBounds (generation and buffer read, next level, appLev,
    upper[i] if already read); after updateBounds returned; searching with the bound of some generation; stopped because no bound could be integrated;
    finished; [Crash] after an overflow. *)
Inductive pc := Idle | Reading (apply : bool) (seq : nat) (p : option bool) (i appLev : nat) (u : option Z) | Returned (r : bool) (seq : nat) | Search (seq : nat) | Stopped | Done | Crash.
(** [t_path] are the cost vectors of the models on the search path, [t_share] says whether the path is the whole search space (not a disjoint part) *)
Record thread := Th { t_dm : dm; t_pc : pc; t_path : cost -> Prop; t_share : bool }.
Record state := State { g_sh : shared; g_th : nat -> thread; g_rep : list (nat * Z) }.
Definition setTh (st : state) (t : nat) (x : thread) : state := State (g_sh st) (fun j => if Nat.eqb j t then x else g_th st j) (g_rep st).
Definition setSh (st : state) (s : shared) : state := State s (g_th st) (g_rep st).
Definition addRep (st : state) (r : option (nat * Z)) : state := State (g_sh st) (g_th st) (match r with Some x => x :: g_rep st | None => g_rep st end).
Definition move (x : thread) (d : dm) (p : pc) : thread := Th d p (t_path x) (t_share x).
(** c does not exceed the bound v *)
Definition within (c v : cost) : Prop := ~ exists i, (i < n)%nat /\ (forall j, (j < i)%nat -> at_ c j = at_ v j) /\ at_ v i < at_ c i.
Definition less (c v : cost) : Prop := exists i, (i < n)%nat /\ (forall j, (j < i)%nat -> at_ c j = at_ v j) /\ at_ c i < at_ v i.
(** After the iteration for one level *)
Definition afterVisit (x : thread) (apply : bool) (seq : nat) (p : bool) (i : nat) (r : pass) : thread :=
  match r with
  | Cont d a => move x d (Reading apply seq (Some p) (S i) a None)
  | Ret r d => move x d (Returned r seq)
  | Over => move x (t_dm x) Crash
  end.
(** A whole pass without interruption *)
Definition afterPass (x : thread) (apply : bool) (seq : nat) (r : pass) : thread :=
  match r with
  | Cont d _ => move x d (Returned (passEnd apply d) seq)
  | Ret r d => move x d (Returned r seq)
  | Over => move x (t_dm x) Crash
  end.
(** [M] are the cost vectors of all models.  [racy]: may updateBounds be interrupted by other solvers also if it is called with applyStep = false or by a
    constraint without steps (it may always be interrupted otherwise)? *)
Variable M : cost -> Prop.
Variable racy : bool.
Inductive step : state -> state -> Prop :=
(** integrateBound: there is nothing to do, or updateBounds is called (src/minimize_constraint.cpp:472-474, 498-499) *)
| st_keep st t x : g_th st t = x -> (t_pc x = Idle \/ exists g, t_pc x = Search g) -> active (t_dm x) = true -> checkNext (g_sh st) = false ->
    step st (setTh st t (move x (t_dm x) (Search (s_gen (g_sh st)))))
| st_enter st t x a : g_th st t = x -> (t_pc x = Idle \/ (exists g, t_pc x = Search g)) -> active (t_dm x) && negb (checkNext (g_sh st)) = false ->
    a = checkNext (g_sh st) -> racy || (a && negb (isLin (m_type (t_dm x)))) = true ->
    step st (setTh st t (move x (t_dm x) (Reading a (s_gen (g_sh st)) None 0 (appLev0 a (t_dm x)) None)))
| st_pass st t x a : g_th st t = x -> (t_pc x = Idle \/ (exists g, t_pc x = Search g)) -> active (t_dm x) && negb (checkNext (g_sh st)) = false ->
    a = checkNext (g_sh st) ->
    step st (setTh st t (afterPass x a (s_gen (g_sh st)) (passFrom n 0 (appLev0 a (t_dm x)) (upper (g_sh st)) (s_lower (g_sh st)) (t_dm x))))
(** updateBounds: the buffer is selected, upper[i] is read, lower(i) is read, the generation is read again (lines 500, 506, 508 or 519, 550) *)
| st_buf st t x a seq i k : g_th st t = x -> t_pc x = Reading a seq None i k None ->
    step st (setTh st t (move x (t_dm x) (Reading a seq (Some (Nat.odd (s_gen (g_sh st)))) i k None)))
| st_up st t x a seq p i k : g_th st t = x -> t_pc x = Reading a seq (Some p) i k None -> (i < n)%nat ->
    step st (setTh st t (move x (t_dm x) (Reading a seq (Some p) i k (Some (at_ (buf (g_sh st) p) i)))))
| st_low st t x a seq p i k U : g_th st t = x -> t_pc x = Reading a seq (Some p) i k (Some U) ->
    step st (setTh st t (afterVisit x a seq p i (visit k i U (at_ (s_lower (g_sh st)) i) (t_dm x))))
| st_end st t x a seq p k : g_th st t = x -> t_pc x = Reading a seq (Some p) n k None -> s_gen (g_sh st) = seq ->
    step st (setTh st t (move x (t_dm x) (Returned (passEnd a (t_dm x)) seq)))
| st_again st t x a seq p k : g_th st t = x -> t_pc x = Reading a seq (Some p) n k None -> s_gen (g_sh st) <> seq ->
    step st (setTh st t (move x (t_dm x) (Reading a (s_gen (g_sh st)) None 0 (appLev0 a (t_dm x)) None)))
(** integrateBound: the new bound was integrated, or it was rejected because no model on the path is within it (lines 477-485; a constraint that is not
    active never rejects its bound), and
    either the loop is left because of a conflict or updateBounds is called again *)
| st_ok st t x seq : g_th st t = x -> t_pc x = Returned true seq -> step st (setTh st t (move x (t_dm x) (Search seq)))
| st_reject st t x seq : g_th st t = x -> t_pc x = Returned true seq -> active (t_dm x) = true -> (forall c, t_path x c -> ~ within c (m_opt (t_dm x))) -> checkNext (g_sh st) = false ->
    step st (setTh st t (move x (relaxBound false (g_sh st) (t_dm x)) Stopped))
| st_conflict st t x seq : g_th st t = x -> t_pc x = Returned true seq -> active (t_dm x) = true -> (forall c, t_path x c -> ~ within c (m_opt (t_dm x))) -> checkNext (g_sh st) = true ->
    step st (setTh st t (move x (relaxBound false (g_sh st) (failed (t_dm x))) Stopped))
| st_retry st t x seq : g_th st t = x -> t_pc x = Returned true seq -> active (t_dm x) = true -> (forall c, t_path x c -> ~ within c (m_opt (t_dm x))) -> checkNext (g_sh st) = true ->
    racy || negb (isLin (m_type (t_dm x))) = true ->
    step st (setTh st t (move x (failed (t_dm x)) (Reading true (s_gen (g_sh st)) None 0 (appLev0 true (failed (t_dm x))) None)))
| st_retryPass st t x seq : g_th st t = x -> t_pc x = Returned true seq -> active (t_dm x) = true -> (forall c, t_path x c -> ~ within c (m_opt (t_dm x))) -> checkNext (g_sh st) = true ->
    step st (setTh st t (afterPass x true (s_gen (g_sh st)) (passFrom n 0 (appLev0 true (failed (t_dm x))) (upper (g_sh st)) (s_lower (g_sh st)) (failed (t_dm x)))))
| st_stop st t x seq : g_th st t = x -> t_pc x = Returned false seq -> step st (setTh st t (move x (relaxBound false (g_sh st) (t_dm x)) Stopped))
(** search found a model (commitUpperBound); the caller holds the lock and has integrated the latest bound (ParallelHandler::isModelLocked,
    src/parallel_solve.cpp:906-917; trivially so for a single solver) *)
| st_model st t x c : g_th st t = x -> t_pc x = Search (s_gen (g_sh st)) -> t_path x c -> within c (m_opt (t_dm x)) ->
    step st (setTh (setSh st (setOptimum (g_sh st) c)) t (move x (doubleStep (t_dm x)) Idle))
(** search found that there is no model (handleUnsat), or integrateBound failed before *)
| st_unsat st t x g m r s d : g_th st t = x -> t_pc x = Search g -> (forall c, t_path x c -> ~ within c (m_opt (t_dm x))) ->
    handleUnsat (t_share x) (g_sh st) (t_dm x) = (m, r, s, d) ->
    step st (setTh (addRep (setSh st s) r) t (move x d (if m then Idle else Done)))
| st_fail st t x m r s d : g_th st t = x -> t_pc x = Stopped -> handleUnsat (t_share x) (g_sh st) (t_dm x) = (m, r, s, d) ->
    step st (setTh (addRep (setSh st s) r) t (move x d (if m then Idle else Done)))
| st_empty st t x : g_th st t = x -> (forall c, ~ t_path x c) -> step st (setTh st t (move x (t_dm x) Done))
(** a solver that is done with its path gets another one (EnumerationConstraint::end and start, src/enumerator.cpp:86-101) *)
| st_path st t x (P : cost -> Prop) : g_th st t = x -> t_pc x = Done -> (forall c, P c -> M c) ->
    step st (setTh st t (Th (relaxBound true (g_sh st) (t_dm x)) Idle P false))
(** a solver that uses another optimization method finds a better model or a better lower bound for a level for which all previous levels are optimal *)
| st_other st c : M c -> (if Nat.eqb (s_gen (g_sh st)) 0 then within c (upper (g_sh st)) else less c (upper (g_sh st))) -> step st (setSh st (setOptimum (g_sh st) c))
| st_otherLow st i L : (i < n)%nat -> L <= bMax -> s_gen (g_sh st) <> 0%nat \/ i = 0%nat ->
    (forall c, M c -> within c (upper (g_sh st)) -> forall j, (j < i)%nat -> at_ c j = at_ (upper (g_sh st)) j) ->
    (forall c, M c -> within c (upper (g_sh st)) -> L <= at_ c i) ->
    step st (setSh st (snd (incLower (g_sh st) i L))).
(** The initial state: resetBounds and setMode (bounds B0 and low0), solvers attached with step types ty, paths P and sharing flags sh *)
Definition init (B0 low0 : cost) (ty : nat -> stype) (P : nat -> cost -> Prop) (sh : nat -> bool) : state :=
  State (Sh B0 (repeat bMax n) low0 0 0 false) (fun t => Th (attach (ty t)) Idle (P t) (sh t)) [].
Inductive reach (s0 : state) : state -> Prop :=
| r_init : reach s0 s0
| r_step s s' : reach s0 s -> step s s' -> reach s0 s'.
End Con.
