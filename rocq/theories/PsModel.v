(** Model of parallel solving: ParallelSolve and ParallelHandler (/repo/src/parallel_solve.cpp).

    Any number of threads run [solveParallel] (426-472); every access to a shared variable and every critical section of workM is one
    step, in any order (sequentially consistent atomics). The section of modelM is several steps, because others see its effects.

    Simplified: what a solver does between two messages is arbitrary as long as it is correct: it finds models of its path, reports
    that none is left (C20), enumerates by backtracking without losing or repeating models (C48), integrates nogoods and bounds of
    models (C23, C26) and splits its path (C21). A path stands for the solutions it contains. A thread may split whenever it has a
    path of its own, with or without a request (workReq and split_flag only say when). The conflict limits that trigger restarts are
    arbitrary. Not modelled: exchange of nogoods (C29), the generator of iterative solving, statistics, winner. *)
From Coq Require Import List Bool Arith ZArith.
Import ListNotations.
From Verif Require Import Base PsSpec.
Local Open Scope Z_scope.

(** Enumeration by backtracking, by recording nogoods, or of one optimum *)
Inductive ekind := Bt | Rec | Opt.
(** Threads; mode split; global restarts; enumeration of all optima (tentative); kind; supportsSplitting; spurious wake-ups;
    threads run out of memory; initial path *)
Record cfg := Cfg { c_n : nat; c_split : bool; c_rst : bool; c_tent : bool; c_kind : ekind; c_can : bool; c_spur : bool; c_oom : bool; c_path : list lit }.
(** GpType, /repo/clasp/mt/parallel_solve.h:152 *)
Inductive gpT := GNone | GSplit | GFixed.

Section Par.
Variables (sol : Type) (tv : sol -> lit -> bool) (G : sol -> Prop) (cost : sol -> Z) (same : sol -> sol -> Prop) (C : cfg).
(** A path with a bit that says whether it is the initial one, which its user does not own (518-519) *)
Definition item : Type := (list lit * bool)%type.

(** Who called waitOnSync: requestWork with its local variable [a] (513), simplify on a new path (521), search (708) *)
Inductive ret := RReq (k : option item) | RGot (p : item) | RRun.
(** Who called terminate: requestWork (508, 530), solveParallel or commitUnsat (446, 645), commitModel (677) *)
Inductive tret := KReq (k : option item) | KDone | KModel.
(** Where a thread is *)
Inductive pcT :=
| Start                                                            (* 426-439 *)
| Req (k : option item) | Req2 (k : option item)                   (* 500-534 *)
| Req3 | Req4 | Req4b | Req5 | Req6 | ReqW | WaitW | ReqNone       (* SharedData::requestWork, 98-127 *)
| Got (p : item)                                                   (* 515-521, 441-445 *)
| Run | RunR                                                       (* search, 810-828; RunR: within requestRestart, 736-740 *)
| CM0 (m : sol) | CM1 (m : sol) | CM3 | CM4 | CM5 (stop : bool)    (* commitModel, 651-684 *)
| UnsatS | UnsatO                                                  (* commitUnsat, 619-648, after a stop conflict; when optimising *)
| Done                                                             (* 448-451 *)
| WS0 (r : ret) | WS1 (r : ret) (hp tn : bool) | WaitS (r : ret) (hp tn : bool)
| La (r : ret) (hp tn : bool) | Lb (r : ret) (hp tn : bool) | Lc (r : ret) (hp : bool) | Ld (r : ret) (hp : bool) | WSr (r : ret) (hp : bool)  (* waitOnSync, 556-592 *)
| Term (c : bool) (k : tret) | TermA (c : bool) (k : tret) | TermC (c : bool) (k : tret)   (* terminate, 537-552 *)
| Exc | Leave | Left.                                              (* exception, 474-489; leaveAlgorithm, 159-165 *)

(** A thread: where it is; gp_.type; disjoint_ of its enumeration constraint; the solutions it still searches; its path (a in
    solveParallel) *)
Record thread := T { pc : pcT; gp : gpT; disj : bool; reg : sol -> Prop; cur : option item }.
Definition goto (t : thread) (p : pcT) : thread := T p (gp t) (disj t) (reg t) (cur t).

(** SharedData, 36-206: the flags of control, initVec, workQ, waiting, threads, restartReq, modelM; of the enumerator: whether models
    are tentative, models reported before the optimum was known, models reported; modeSplit_; threads notified *)
Record glob := Glob { term : bool; sync : bool; rst : bool; compl : bool; intr : bool; allow : bool; forbid : bool; aband : bool; initv : Z; q : list item; waiting : nat; threads : nat; rreq : nat; mlock : option nat; tent : bool; rep0 : list sol; rep : list sol; msplit : bool; ntf : nat -> bool }.
Definition set_term (g : glob) (x : bool) : glob := Glob x (sync g) (rst g) (compl g) (intr g) (allow g) (forbid g) (aband g) (initv g) (q g) (waiting g) (threads g) (rreq g) (mlock g) (tent g) (rep0 g) (rep g) (msplit g) (ntf g).
Definition set_sync (g : glob) (x : bool) : glob := Glob (term g) x (rst g) (compl g) (intr g) (allow g) (forbid g) (aband g) (initv g) (q g) (waiting g) (threads g) (rreq g) (mlock g) (tent g) (rep0 g) (rep g) (msplit g) (ntf g).
Definition set_rst (g : glob) (x : bool) : glob := Glob (term g) (sync g) x (compl g) (intr g) (allow g) (forbid g) (aband g) (initv g) (q g) (waiting g) (threads g) (rreq g) (mlock g) (tent g) (rep0 g) (rep g) (msplit g) (ntf g).
Definition set_compl (g : glob) (x : bool) : glob := Glob (term g) (sync g) (rst g) x (intr g) (allow g) (forbid g) (aband g) (initv g) (q g) (waiting g) (threads g) (rreq g) (mlock g) (tent g) (rep0 g) (rep g) (msplit g) (ntf g).
Definition set_intr (g : glob) (x : bool) : glob := Glob (term g) (sync g) (rst g) (compl g) x (allow g) (forbid g) (aband g) (initv g) (q g) (waiting g) (threads g) (rreq g) (mlock g) (tent g) (rep0 g) (rep g) (msplit g) (ntf g).
Definition set_allow (g : glob) (x : bool) : glob := Glob (term g) (sync g) (rst g) (compl g) (intr g) x (forbid g) (aband g) (initv g) (q g) (waiting g) (threads g) (rreq g) (mlock g) (tent g) (rep0 g) (rep g) (msplit g) (ntf g).
Definition set_forbid (g : glob) (x : bool) : glob := Glob (term g) (sync g) (rst g) (compl g) (intr g) (allow g) x (aband g) (initv g) (q g) (waiting g) (threads g) (rreq g) (mlock g) (tent g) (rep0 g) (rep g) (msplit g) (ntf g).
Definition set_aband (g : glob) (x : bool) : glob := Glob (term g) (sync g) (rst g) (compl g) (intr g) (allow g) (forbid g) x (initv g) (q g) (waiting g) (threads g) (rreq g) (mlock g) (tent g) (rep0 g) (rep g) (msplit g) (ntf g).
Definition set_initv (g : glob) (x : Z) : glob := Glob (term g) (sync g) (rst g) (compl g) (intr g) (allow g) (forbid g) (aband g) x (q g) (waiting g) (threads g) (rreq g) (mlock g) (tent g) (rep0 g) (rep g) (msplit g) (ntf g).
Definition set_q (g : glob) (x : list item) : glob := Glob (term g) (sync g) (rst g) (compl g) (intr g) (allow g) (forbid g) (aband g) (initv g) x (waiting g) (threads g) (rreq g) (mlock g) (tent g) (rep0 g) (rep g) (msplit g) (ntf g).
Definition set_waiting (g : glob) (x : nat) : glob := Glob (term g) (sync g) (rst g) (compl g) (intr g) (allow g) (forbid g) (aband g) (initv g) (q g) x (threads g) (rreq g) (mlock g) (tent g) (rep0 g) (rep g) (msplit g) (ntf g).
Definition set_threads (g : glob) (x : nat) : glob := Glob (term g) (sync g) (rst g) (compl g) (intr g) (allow g) (forbid g) (aband g) (initv g) (q g) (waiting g) x (rreq g) (mlock g) (tent g) (rep0 g) (rep g) (msplit g) (ntf g).
Definition set_rreq (g : glob) (x : nat) : glob := Glob (term g) (sync g) (rst g) (compl g) (intr g) (allow g) (forbid g) (aband g) (initv g) (q g) (waiting g) (threads g) x (mlock g) (tent g) (rep0 g) (rep g) (msplit g) (ntf g).
Definition set_mlock (g : glob) (x : option nat) : glob := Glob (term g) (sync g) (rst g) (compl g) (intr g) (allow g) (forbid g) (aband g) (initv g) (q g) (waiting g) (threads g) (rreq g) x (tent g) (rep0 g) (rep g) (msplit g) (ntf g).
Definition set_tent (g : glob) (x : bool) : glob := Glob (term g) (sync g) (rst g) (compl g) (intr g) (allow g) (forbid g) (aband g) (initv g) (q g) (waiting g) (threads g) (rreq g) (mlock g) x (rep0 g) (rep g) (msplit g) (ntf g).
Definition set_rep0 (g : glob) (x : list sol) : glob := Glob (term g) (sync g) (rst g) (compl g) (intr g) (allow g) (forbid g) (aband g) (initv g) (q g) (waiting g) (threads g) (rreq g) (mlock g) (tent g) x (rep g) (msplit g) (ntf g).
Definition set_rep (g : glob) (x : list sol) : glob := Glob (term g) (sync g) (rst g) (compl g) (intr g) (allow g) (forbid g) (aband g) (initv g) (q g) (waiting g) (threads g) (rreq g) (mlock g) (tent g) (rep0 g) x (msplit g) (ntf g).
Definition set_msplit (g : glob) (x : bool) : glob := Glob (term g) (sync g) (rst g) (compl g) (intr g) (allow g) (forbid g) (aband g) (initv g) (q g) (waiting g) (threads g) (rreq g) (mlock g) (tent g) (rep0 g) (rep g) x (ntf g).
Definition set_ntf (g : glob) (x : nat -> bool) : glob := Glob (term g) (sync g) (rst g) (compl g) (intr g) (allow g) (forbid g) (aband g) (initv g) (q g) (waiting g) (threads g) (rreq g) (mlock g) (tent g) (rep0 g) (rep g) (msplit g) x.

(** setControl and clearControl are the setters of the flags, 185-186. notifyWaitingThreads, 133-140 *)
Definition notifyAll (g : glob) : glob := set_ntf g (fun _ => true).
Definition notify1 (g : glob) (j : nat) : glob := set_ntf g (fun k => (k =? j)%nat || ntf g k).
Definition unNtf (g : glob) (i : nat) : glob := set_ntf g (fun k => negb (k =? i)%nat && ntf g k).

(** Enumerator::optimize and supportsRestarts: enumerator.h:224, model_enumerators.h:99 *)
Definition optimize (g : glob) : bool := tent g || match c_kind C with Opt => true | _ => false end.
Definition btNow (g : glob) : bool := negb (optimize g) && match c_kind C with Bt => true | _ => false end.
(** Solutions that are not wanted any more: nogoods of reported models, bounds *)
Definition excl (g : glob) (m : sol) : Prop :=
  if optimize g then exists r, In r (rep g) /\ cost r <= cost m
  else (exists r, In r (rep0 g) /\ cost r < cost m) \/ (exists r, In r (rep g) /\ match c_kind C with Bt => r = m | _ => same r m end).
Definition Sol : sol -> Prop := isSol sol tv G (c_path C).
Definition inP (p : item) : sol -> Prop := inPath sol tv (fst p).
Definition nothingLeft (g : glob) (R : sol -> Prop) : Prop := forall m, Sol m -> R m -> excl g m.
Definition all (m : sol) : Prop := True.

Definition maxV : Z := 2 ^ 64 - 1.
(** initQueue, 600-610 *)
Definition initQ (g : glob) : glob :=
  let g := set_q g [] in
  let g := if allow g && msplit g && negb (c_can C) then set_msplit (set_forbid (set_allow g false) true) false else g in
  set_initv g maxV.
(** The last thread at a synchronisation, 563-577 *)
Definition syncInit (g : glob) : glob :=
  let g := set_rreq g O in
  if negb (rst g) || negb (forbid g) then initQ g else set_aband g true.
(** commitComplete (enumerator.cpp:262-273) in 578-581 *)
Definition syncComplete (tn : bool) (g : glob) : glob :=
  if tn && compl g then
    if tent g && match rep g with [] => false | _ => true end then set_compl (set_rep (set_rep0 (set_tent g false) (rep g)) []) false else set_term g true
  else g.
(** 582 *)
Definition syncClear (g : glob) : glob := set_aband (set_rst (set_sync g false) false) false.
Definition back (k : tret) : pcT := match k with KReq k => Req k | KDone => Done | KModel => CM5 true end.
Definition gpOf (g : glob) (p : item) : gpT := if snd p then (if msplit g then GSplit else GFixed) else GSplit.
(** enumerator().start, 445, with setGpType, 443 *)
Definition start (g : glob) (p : item) (x : pcT) : thread := T x (gpOf g p) (negb (snd p)) (inP p) (Some p).
Definition hasPath (t : thread) : bool := match gp t with GNone => false | _ => true end.
Definition isSplit (t : thread) : bool := match gp t with GSplit => true | _ => false end.
Definition isNil {A} (l : list A) : bool := match l with [] => true | _ => false end.
(** Bit of thread [i] in initVec, 99-100; initVec -= m, 103 *)
Definition bit (g : glob) (i : nat) : bool := Z.testbit (initv g) (Z.of_nat i).
Definition subBit (g : glob) (i : nat) : glob := set_initv g ((initv g - 2 ^ Z.of_nat i) mod 2 ^ 64).
(** Can a thread at a condition variable go on? *)
Definition woken (g : glob) (i : nat) : bool := ntf g i || c_spur C.
Definition enterWait (g : glob) (i : nat) : glob := unNtf (set_waiting g (S (waiting g))) i.
Definition leaveWait (g : glob) : glob := set_waiting g (pred (waiting g)).
(** commitModel of the enumerator and 659-668: the first model of an enumeration by backtracking makes its path the root for splitting *)
Definition commitG (g : glob) (m : sol) : glob :=
  let g' := set_rep g (rep g ++ [m]) in
  if btNow g && isNil (rep g) then set_allow (set_forbid g' true) true else g'.
Definition commitT (g : glob) (t : thread) (m : sol) : thread :=
  let r := if btNow g then (fun x => reg t x /\ x <> m) else reg t in
  if btNow g && isNil (rep g) then T CM3 GSplit true r (cur t) else T CM4 (gp t) (disj t) r (cur t).

(** Steps of thread [i] *)
Inductive tstep (i : nat) (g : glob) (t : thread) : glob -> thread -> Prop :=
| S_attach : pc t = Start -> tstep i g t g (goto t (Req None))
(** requestWork, 500-534; S_top: a conflict on level 0, 506-509 *)
| S_leave k : pc t = Req k -> term g = true -> tstep i g t g (goto t Leave)
| S_top k : pc t = Req k -> term g = false -> nothingLeft g all -> tstep i g t g (goto t (Term true (KReq k)))
| S_req k : pc t = Req k -> term g = false -> tstep i g t g (goto t (Req2 k))
| S_sync k : pc t = Req2 k -> sync g = true -> tstep i g t g (goto t (WS0 (RReq k)))
| S_keep p : pc t = Req2 (Some p) -> sync g = false -> tstep i g t g (goto t (Got p))
| S_ask : pc t = Req2 None -> sync g = false -> tstep i g t g (goto t Req3)
(** SharedData::requestWork, 98-127 *)
| S_bit b : pc t = Req3 -> bit g i = b -> tstep i g t g (goto t (if b then Req4 else Req6))
| S_port b : pc t = Req4 -> allow g = b -> tstep i g t g (goto t (if b then Req4b else Req5))
| S_sub : pc t = Req5 -> tstep i g t (subBit g i) (goto t (Got (c_path C, true)))
| S_xchg1 : pc t = Req4b -> initv g <> 0 -> tstep i g t (set_initv g 0) (goto t (Got (c_path C, true)))
| S_xchg0 : pc t = Req4b -> initv g = 0 -> tstep i g t g (goto t Req6)
| S_lock b : pc t = Req6 -> allow g = b -> tstep i g t g (goto t (if b then ReqW else ReqNone))
| S_ctl : pc t = ReqW -> term g || sync g = true -> tstep i g t g (goto t ReqNone)
| S_pop p r : pc t = ReqW -> term g || sync g = false -> q g = p :: r -> tstep i g t (set_q g r) (goto t (Got p))
| S_last : pc t = ReqW -> term g || sync g = false -> q g = [] -> (threads g <= S (waiting g))%nat -> tstep i g t g (goto t ReqNone)
| S_wait : pc t = ReqW -> term g || sync g = false -> q g = [] -> (S (waiting g) < threads g)%nat -> tstep i g t (enterWait g i) (goto t WaitW)
| S_wake : pc t = WaitW -> woken g i = true -> tstep i g t (leaveWait g) (goto t ReqW)
| S_none b : pc t = ReqNone -> sync g = b -> tstep i g t g (goto t (if b then Req None else Term true (KReq None)))
(** simplify, 521: messages, conflict; then start *)
| S_gotTerm p : pc t = Got p -> term g = true -> tstep i g t g (goto t (Req (Some p)))
| S_gotSync p : pc t = Got p -> sync g = true -> tstep i g t g (goto t (WS0 (RGot p)))
| S_gotCfl p : pc t = Got p -> nothingLeft g all -> tstep i g t g (goto t (Req (Some p)))
| S_start p : pc t = Got p -> tstep i g t g (start g p Run)
| S_startF p : pc t = Got p -> nothingLeft g (inP p) -> tstep i g t g (start g p Done)
| S_gotExc p : pc t = Got p -> c_oom C = true -> tstep i g t g (T Exc (gp t) (disj t) (inP p) (Some p))
(** search: nogoods and bounds of models are integrated; messages, 696-728 *)
| S_shrink (R : sol -> Prop) : pc t = Run -> btNow g = false -> (forall m, R m -> reg t m) -> (forall m, Sol m -> reg t m -> R m \/ excl g m) ->
    tstep i g t g (T Run (gp t) (disj t) R (cur t))
| S_runTerm : pc t = Run -> term g = true -> tstep i g t g (goto t UnsatS)
| S_runSync : pc t = Run -> sync g = true -> tstep i g t g (goto t (WS0 RRun))
| S_split np d j : pc t = Run -> isSplit t = true -> (forall m, Sol m -> reg t m -> tv m d = false -> inPath sol tv np m) ->
    (btNow g = true -> forall m, Sol m -> inPath sol tv np m -> reg t m /\ tv m d = false) ->
    tstep i g t (notify1 (set_q g (q g ++ [(np, false)])) j) (T Run (gp t) true (fun m => reg t m /\ tv m d = true) (cur t))
| S_model m : pc t = Run -> Sol m -> reg t m -> tstep i g t g (goto t (CM0 m))
| S_unsat : pc t = Run -> optimize g = false -> nothingLeft g (reg t) -> tstep i g t g (goto t Done)
| S_unsatO : pc t = Run -> optimize g = true -> tstep i g t g (goto t UnsatO)
(** BacktrackFinder::doUpdate, model_enumerators.cpp:154-158: stop if the path is not disjoint *)
| S_btStop : pc t = Run -> btNow g = true -> disj t = false -> rep g <> [] -> tstep i g t g (goto t UnsatS)
| S_limit : pc t = Run -> tstep i g t g (goto t (Term false KDone))
| S_exc : pc t = Run -> c_oom C = true -> tstep i g t g (goto t Exc)
| S_err : pc t = Run -> tstep i g t (set_intr (set_term g true) true) (goto t Leave)
(** requestRestart, 736-740 *)
| S_rst1 : pc t = Run -> c_rst C = true -> forbid g = false -> tstep i g t g (goto t RunR)
| S_rst2 : pc t = RunR -> tstep i g t
    (let g := set_rreq g (S (rreq g)) in if (rreq g =? threads g)%nat then notifyAll (set_rst (set_sync g true) true) else g) (goto t Run)
(** commitModel, 651-684 *)
| S_mlock m : pc t = CM0 m -> mlock g = None -> tstep i g t (set_mlock g (Some i)) (goto t (CM1 m))
| S_mterm m : pc t = CM1 m -> term g = true -> tstep i g t (set_mlock g None) (goto t Done)
| S_minv m : pc t = CM1 m -> btNow g = false -> excl g m -> tstep i g t (set_mlock g None) (goto t Run)
| S_minvB m : pc t = CM1 m -> btNow g = true -> disj t = false -> rep g <> [] -> tstep i g t (set_mlock g None) (goto t UnsatS)
| S_commit m : pc t = CM1 m -> term g = false -> (if btNow g then rep g = [] \/ disj t = true else ~ excl g m) -> tstep i g t (commitG g m) (commitT g t m)
| S_init0 : pc t = CM3 -> tstep i g t (set_initv g 0) (goto t CM4)
| S_rep1 : pc t = CM4 -> tstep i g t g (goto t (CM5 false))
| S_rep0 c : pc t = CM4 -> (c = true -> nothingLeft g all) -> tstep i g t g (goto t (Term c KModel))
| S_munlock b : pc t = CM5 b -> tstep i g t (set_mlock g None) (goto t (if b then Done else Run))
(** commitUnsat, 619-648 *)
| S_us1 : pc t = UnsatS -> optimize g = false \/ term g || sync g = true -> tstep i g t g (goto t Done)
| S_us2 b : pc t = UnsatS -> optimize g = true -> term g || sync g = false -> isSplit t = b -> tstep i g t g (goto t (if b then Done else Term true KDone))
| S_uo1 : pc t = UnsatO -> term g || sync g = true -> tstep i g t g (goto t Done)
| S_uo2 : pc t = UnsatO -> tstep i g t g (goto t Run)
| S_uo3 b : pc t = UnsatO -> nothingLeft g (reg t) -> isSplit t = b -> tstep i g t g (goto t (if b then Done else Term true KDone))
| S_done : pc t = Done -> tstep i g t g (goto t (Req None))
(** waitOnSync, 556-592, and waitSync, 150-158 *)
| S_ws r : pc t = WS0 r -> tstep i g t g (goto t (WS1 r (hasPath t) (tent g)))
| S_ws0 r hp tn : pc t = WS1 r hp tn -> sync g = false -> tstep i g t g (goto t (WSr r hp))
| S_wsLast r hp tn : pc t = WS1 r hp tn -> sync g = true -> (threads g <= S (waiting g))%nat -> tstep i g t g (goto t (La r hp tn))
| S_wsWait r hp tn : pc t = WS1 r hp tn -> sync g = true -> (S (waiting g) < threads g)%nat -> tstep i g t (enterWait g i) (goto t (WaitS r hp tn))
| S_wsWake r hp tn : pc t = WaitS r hp tn -> woken g i = true -> tstep i g t (leaveWait g) (goto t (WS1 r hp tn))
| S_la r hp tn : pc t = La r hp tn -> tstep i g t (syncInit g) (goto t (Lb r hp tn))
| S_lb r hp tn : pc t = Lb r hp tn -> tstep i g t (syncComplete tn g) (goto t (Lc r hp))
| S_lc r hp : pc t = Lc r hp -> tstep i g t (syncClear g) (goto t (Ld r hp))
| S_ld r hp : pc t = Ld r hp -> tstep i g t (notifyAll g) (goto t (WSr r hp))
| S_wsr r hp b : pc t = WSr r hp -> term g || (hp && negb (aband g)) = b ->
    tstep i g t g (goto t (match r with RReq k => Req k | RGot p => if b then Req (Some p) else Got p | RRun => if b then UnsatS else Run end))
(** terminate, 537-552 *)
| S_t1 c k : pc t = Term c k -> term g = true -> tstep i g t g (goto t (back k))
| S_t0 c k : pc t = Term c k -> term g = false -> tstep i g t g (goto t (TermA c k))
| S_ta1 c k : pc t = TermA c k -> tent g && c = true -> tstep i g t (set_compl (set_sync g true) true) (goto t (back k))
| S_ta0 c k : pc t = TermA c k -> tent g && c = false -> tstep i g t (notifyAll (set_term g true)) (goto t (TermC c k))
| S_tc c k : pc t = TermC c k -> tstep i g t (set_compl g (compl g || c)) (goto t (back k))
(** exception, 474-489, for a thread that runs out of memory *)
| S_excPush p j : pc t = Exc -> i <> O -> allow g = true -> cur t = Some p -> tstep i g t (notify1 (set_q g (q g ++ [p])) j) (goto t Leave)
| S_excNo : pc t = Exc -> i <> O -> allow g = false \/ cur t = None -> tstep i g t g (goto t Leave)
| S_excInt : pc t = Exc -> tstep i g t (set_intr (set_term g true) true) (goto t Leave)
(** leaveAlgorithm, 159-165 *)
| S_left : pc t = Leave -> tstep i g t (notifyAll (set_threads g (pred (threads g)))) (goto t Left).

Record st := St { gl : glob; thr : nat -> thread }.
Definition upd (f : nat -> thread) (i : nat) (t : thread) : nat -> thread := fun j => if (j =? i)%nat then t else f j.
(** A step of some thread, or an interrupt from outside (doInterrupt, 492-497) *)
Inductive step (s : st) : st -> Prop :=
| StepT i g' t' : (i < c_n C)%nat -> tstep i (gl s) (thr s i) g' t' -> step s (St g' (upd (thr s) i t'))
| StepI : step s (St (set_intr (set_term (gl s) true) true) (thr s)).

(** beginSolve, 269-302, with SharedData::reset, 76-93 *)
Definition init : st :=
  St (Glob false true false false false (c_split C) (negb (c_split C)) false 0 [] O (c_n C) O None (c_tent C) [] [] (c_split C) (fun _ => false))
     (fun _ => T Start GNone false (fun _ => False) None).
Inductive reach : st -> Prop := R0 : reach init | RS s s' : reach s -> step s s' -> reach s'.
End Par.

Arguments pc {sol}. Arguments gp {sol}. Arguments disj {sol}. Arguments reg {sol}. Arguments cur {sol}. Arguments T {sol}. Arguments goto {sol}.
Arguments gl {sol}. Arguments thr {sol}. Arguments St {sol}. Arguments upd {sol}. Arguments start {sol}. Arguments hasPath {sol}. Arguments isSplit {sol}.
Arguments notifyAll {sol}. Arguments notify1 {sol}. Arguments unNtf {sol}. Arguments initQ {sol}. Arguments syncInit {sol}. Arguments syncComplete {sol}.
Arguments syncClear {sol}. Arguments back {sol}. Arguments gpOf {sol}. Arguments bit {sol}. Arguments subBit {sol}. Arguments woken {sol}.
Arguments enterWait {sol}. Arguments leaveWait {sol}. Arguments commitG {sol}. Arguments commitT {sol}. Arguments optimize {sol}. Arguments btNow {sol}.
Arguments excl {sol}. Arguments Sol {sol}. Arguments inP {sol}. Arguments nothingLeft {sol}. Arguments all {sol}.
Arguments tstep {sol}. Arguments step {sol}. Arguments init {sol}. Arguments reach {sol}.
Arguments Start {sol}. Arguments Req {sol}. Arguments Req2 {sol}. Arguments Req3 {sol}. Arguments Req4 {sol}. Arguments Req4b {sol}. Arguments Req5 {sol}. Arguments Req6 {sol}. Arguments ReqW {sol}. Arguments WaitW {sol}. Arguments ReqNone {sol}. Arguments Got {sol}. Arguments Run {sol}. Arguments RunR {sol}. Arguments CM0 {sol}. Arguments CM1 {sol}. Arguments CM3 {sol}. Arguments CM4 {sol}. Arguments CM5 {sol}. Arguments UnsatS {sol}. Arguments UnsatO {sol}. Arguments Done {sol}. Arguments WS0 {sol}. Arguments WS1 {sol}. Arguments WaitS {sol}. Arguments La {sol}. Arguments Lb {sol}. Arguments Lc {sol}. Arguments Ld {sol}. Arguments WSr {sol}. Arguments Term {sol}. Arguments TermA {sol}. Arguments TermC {sol}. Arguments Exc {sol}. Arguments Leave {sol}. Arguments Left {sol}. 
Arguments term {sol}. Arguments set_term {sol}. Arguments sync {sol}. Arguments set_sync {sol}. Arguments rst {sol}. Arguments set_rst {sol}. Arguments compl {sol}. Arguments set_compl {sol}. Arguments intr {sol}. Arguments set_intr {sol}. Arguments allow {sol}. Arguments set_allow {sol}. Arguments forbid {sol}. Arguments set_forbid {sol}. Arguments aband {sol}. Arguments set_aband {sol}. Arguments initv {sol}. Arguments set_initv {sol}. Arguments q {sol}. Arguments set_q {sol}. Arguments waiting {sol}. Arguments set_waiting {sol}. Arguments threads {sol}. Arguments set_threads {sol}. Arguments rreq {sol}. Arguments set_rreq {sol}. Arguments mlock {sol}. Arguments set_mlock {sol}. Arguments tent {sol}. Arguments set_tent {sol}. Arguments rep0 {sol}. Arguments set_rep0 {sol}. Arguments rep {sol}. Arguments set_rep {sol}. Arguments msplit {sol}. Arguments set_msplit {sol}. Arguments ntf {sol}. Arguments set_ntf {sol}. Arguments Glob {sol}.
