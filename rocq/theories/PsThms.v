(** Parallel solving (C50). *)
From Coq Require Import List Bool Arith ZArith Lia.
Import ListNotations.
From Verif Require Import Base PsSpec PsModel PsProofs PsInv PsInvS PsInvR PsSem PsSemS PsSemC PsOnce PsEnd PsRun.

(** In all theorems: [reach]: any interleaving of any number of threads. The premises on the configuration: splitting is not combined
    with global restarts or with the enumeration of optima; threads that enumerate by backtracking do not run out of memory; the
    number of threads fits in initVec. The refutations below show that the first three are needed. *)

(** C50: if the search is reported complete, then all solutions were reported, or one with the smallest costs, or all with the smallest costs. *)
Theorem c50_complete_sound : forall (sol : Type) (tv : sol -> lit -> bool) (G : sol -> Prop) (cost : sol -> Z) (same : sol -> sol -> Prop) (C : cfg) (s : st sol),
  (c_split C = true -> c_rst C = false /\ c_tent C = false) -> (c_tent C = true -> c_kind C <> Opt) -> (c_oom C = true -> c_kind C <> Bt) -> c_n C <= 64 ->
  (forall a b : sol, a = b \/ a <> b) ->
  reach tv G cost same C s -> compl (gl s) = true -> tent (gl s) = false ->
  let eqv := match c_kind C with Bt => eq | _ => same end in
  match c_kind C with
  | Opt => optReported sol tv G cost (c_path C) (rep (gl s))
  | _ => if c_tent C then allOptReported sol tv G cost (c_path C) eqv (rep (gl s)) else allReported sol tv G (c_path C) eqv (rep (gl s))
  end.
Proof.
  intros sol tv G cost same C s H1 H2 H3 H4 D R K T eqv.
  destruct (Full_reach sol tv G cost same C (Scope C H1 H2 H3 H4) D s R) as ((HG & _) & HB & _). destruct HB as [B1 B2 B3 B4].
  assert (forall m, isSol sol tv G (c_path C) m -> excl cost same C (gl s) m) as X by (intros m S; now apply (B1 K)).
  unfold excl, optimize in X. rewrite T in X. cbn [orb] in X. destruct (c_kind C) eqn:KD.
  1,2: destruct (c_tent C) eqn:TN.
  - split; [exact B2|]. intros m S Best. destruct (X m S) as [(r & I & L)|Y]; [|exact Y]. specialize (Best r (B3 r I)). lia.
  - split; [exact B2|]. intros m S. destruct (X m S) as [(r & I & L)|Y]; [|exact Y]. rewrite (B4 (or_intror eq_refl)) in I. destruct I.
  - split; [exact B2|]. intros m S Best. destruct (X m S) as [(r & I & L)|Y]; [|exact Y]. specialize (Best r (B3 r I)). lia.
  - split; [exact B2|]. intros m S. destruct (X m S) as [(r & I & L)|Y]; [|exact Y]. rewrite (B4 (or_intror eq_refl)) in I. destruct I.
  - split; [exact B2|]. exact X.
Qed.
Print Assumptions c50_complete_sound.
Example c50_complete_sound_nonvacuous :
  (exists s, reach etv eG ecost eq (C4 false) s /\ compl (gl s) = true /\ tent (gl s) = false /\ rep (gl s) = [false; true]) /\
  (exists s, reach etv eG ecost eq C3 s /\ compl (gl s) = true /\ tent (gl s) = false /\ rep (gl s) = [false; true] /\ rep0 (gl s) = [true]) /\
  (forall b, In b [C4 false; C3] -> (c_split b = true -> c_rst b = false /\ c_tent b = false) /\ (c_tent b = true -> c_kind b <> Opt) /\ (c_oom b = true -> c_kind b <> Bt) /\ c_n b <= 64).
Proof.
  split; [|split].
  - destruct run5 as (s & S1 & H). exists s. split; [eapply star_reach; [apply R0|exact S1]|tauto].
  - destruct run3c as (s & S1 & H). exists s. split; [eapply star_reach; [apply R0|exact S1]|tauto].
  - intros b [<-|[<-|[]]]; cbn; repeat split; auto; try discriminate; lia.
Qed.

(** C50: if the search is reported complete and nothing was reported, there is no solution; while models are tentative, completeness
    means that the last reported solution is a best one. *)
Theorem c50_complete_optimum : forall (sol : Type) (tv : sol -> lit -> bool) (G : sol -> Prop) (cost : sol -> Z) (same : sol -> sol -> Prop) (C : cfg) (s : st sol),
  (c_split C = true -> c_rst C = false /\ c_tent C = false) -> (c_tent C = true -> c_kind C <> Opt) -> (c_oom C = true -> c_kind C <> Bt) -> c_n C <= 64 ->
  (forall a b : sol, a = b \/ a <> b) ->
  reach tv G cost same C s -> compl (gl s) = true ->
  (rep0 (gl s) ++ rep (gl s) = [] -> forall m, ~ isSol sol tv G (c_path C) m) /\ (tent (gl s) = true -> optReported sol tv G cost (c_path C) (rep (gl s))).
Proof.
  intros sol tv G cost same C s H1 H2 H3 H4 D R K.
  destruct (Full_reach sol tv G cost same C (Scope C H1 H2 H3 H4) D s R) as ((HG & _) & HB & _). destruct HB as [B1 B2 B3 B4].
  assert (forall m, isSol sol tv G (c_path C) m -> excl cost same C (gl s) m) as X by (intros m S; now apply (B1 K)).
  split.
  - intros E m S. apply app_eq_nil in E. destruct E as [E0 E]. specialize (X m S). unfold excl in X. rewrite E0, E in X. destruct (optimize C (gl s)).
    + destruct X as (r & [] & _).
    + destruct X as [(r & [] & _)|(r & [] & _)].
  - intros T. split; [exact B2|]. intros m S. specialize (X m S). unfold excl, optimize in X. rewrite T in X. exact X.
Qed.
Print Assumptions c50_complete_optimum.
Example c50_complete_optimum_nonvacuous : exists s, reach etv eG ecost eq C3 s /\ compl (gl s) = true /\ tent (gl s) = true /\ rep (gl s) = [true].
Proof. destruct run3 as (s & S1 & H). exists s. split; [eapply star_reach; [apply R0|exact S1]|tauto]. Qed.

(** C50: if nobody stops the search (no interrupt, error, limit or stop by the user), then it is complete when all threads have left:
    the same as in c50_complete_sound. *)
Theorem c50_ends_complete : forall (sol : Type) (tv : sol -> lit -> bool) (G : sol -> Prop) (cost : sol -> Z) (same : sol -> sol -> Prop) (C : cfg) (s : st sol),
  (c_split C = true -> c_rst C = false /\ c_tent C = false) -> (c_tent C = true -> c_kind C <> Opt) -> (c_oom C = true -> c_kind C <> Bt) -> c_n C <= 64 ->
  (forall a b : sol, a = b \/ a <> b) ->
  0 < c_n C -> quiet tv G cost same C s -> (forall i, i < c_n C -> pc (thr s i) = Left) ->
  compl (gl s) = true /\
  let eqv := match c_kind C with Bt => eq | _ => same end in
  match c_kind C with
  | Opt => optReported sol tv G cost (c_path C) (rep (gl s))
  | _ => if c_tent C then allOptReported sol tv G cost (c_path C) eqv (rep (gl s)) else allReported sol tv G (c_path C) eqv (rep (gl s))
  end.
Proof.
  intros sol tv G cost same C s H1 H2 H3 H4 D N Q L. pose proof (quiet_reach _ _ _ _ _ _ _ Q) as R. destruct (quiet_end _ _ _ _ _ _ _ Q N L) as [K T]. split; [exact K|].
  destruct (tent (gl s)) eqn:TN; [|now apply c50_complete_sound].
  destruct (c50_complete_optimum sol tv G cost same C s H1 H2 H3 H4 D R K) as [_ O]. specialize (O TN). specialize (T eq_refl). rewrite T in *.
  assert (c_tent C = true) as CT by (destruct (Full_reach sol tv G cost same C (Scope C H1 H2 H3 H4) D s R) as ((HG & _) & _); now apply (g_tent _ HG)).
  destruct O as [_ O]. rewrite CT. destruct (c_kind C) eqn:KD; [| |now destruct (H2 CT)]; cbn; (split; [intros r []|]); intros m S _; destruct (O m S) as (r & [] & _).
Qed.
Print Assumptions c50_ends_complete.
Example c50_ends_complete_nonvacuous : exists s, quiet etv eG ecost eq (C4 false) s /\ (forall i, i < c_n (C4 false) -> pc (thr s i) = Left) /\ rep (gl s) = [false; true].
Proof. destruct run5 as (s & S1 & H). exists s. split; [eapply star_quiet; [apply Q0|reflexivity|exact S1]|]. split; [apply H|tauto]. Qed.

(** C50: whatever is reported, complete or not, is a solution. *)
Theorem c50_reports_solutions : forall (sol : Type) (tv : sol -> lit -> bool) (G : sol -> Prop) (cost : sol -> Z) (same : sol -> sol -> Prop) (C : cfg) (s : st sol),
  (c_split C = true -> c_rst C = false /\ c_tent C = false) -> (c_tent C = true -> c_kind C <> Opt) -> (c_oom C = true -> c_kind C <> Bt) -> c_n C <= 64 ->
  (forall a b : sol, a = b \/ a <> b) ->
  reach tv G cost same C s -> forall r, In r (rep0 (gl s) ++ rep (gl s)) -> isSol sol tv G (c_path C) r.
Proof.
  intros sol tv G cost same C s H1 H2 H3 H4 D R r I.
  destruct (Full_reach sol tv G cost same C (Scope C H1 H2 H3 H4) D s R) as (_ & HB & _). destruct HB as [B1 B2 B3 B4].
  apply in_app_iff in I. destruct I; [now apply B3|now apply B2].
Qed.
Print Assumptions c50_reports_solutions.
Example c50_reports_solutions_nonvacuous : exists s, reach etv eG ecost eq C3 s /\ rep0 (gl s) ++ rep (gl s) = [true; false; true].
Proof. destruct run3c as (s & S1 & _ & _ & E1 & E2). exists s. split; [eapply star_reach; [apply R0|exact S1]|]. now rewrite E1, E2. Qed.

(** C50: no solution is reported twice, and costs get smaller while an optimum is searched for. *)
Theorem c50_reports_once : forall (sol : Type) (tv : sol -> lit -> bool) (G : sol -> Prop) (cost : sol -> Z) (same : sol -> sol -> Prop) (C : cfg) (s : st sol),
  (c_split C = true -> c_rst C = false /\ c_tent C = false) -> (c_tent C = true -> c_kind C <> Opt) -> (c_oom C = true -> c_kind C <> Bt) -> c_n C <= 64 ->
  (forall a b : sol, a = b \/ a <> b) ->
  reach tv G cost same C s ->
  if tent (gl s) then improving sol cost (rep (gl s)) else
  match c_kind C with Bt => onceEach sol eq (rep (gl s)) | Rec => onceEach sol same (rep (gl s)) | Opt => improving sol cost (rep (gl s)) end.
Proof.
  intros sol tv G cost same C s H1 H2 H3 H4 D R.
  destruct (once_reach sol tv G cost same C (Scope C H1 H2 H3 H4) D s R) as (_ & N). unfold ND, PsOnce.D, optimize in N.
  assert (forall l, ForallOrdPairs (fun a b => ~ (cost a <= cost b)%Z) l -> improving sol cost l) as W.
  { intros l H. unfold improving. induction H as [|a l F H IH]; constructor; auto. eapply Forall_impl; [|exact F]. intros b X. cbn in *. lia. }
  destruct (tent (gl s)); cbn in N; [now apply W|]. destruct (c_kind C); [exact N|exact N|now apply W].
Qed.
Print Assumptions c50_reports_once.
Example c50_reports_once_nonvacuous : exists s, reach etv eG ecost eq (C4 false) s /\ tent (gl s) = false /\ rep (gl s) = [false; true].
Proof. destruct run5 as (s & S1 & H). exists s. split; [eapply star_reach; [apply R0|exact S1]|tauto]. Qed.

(** C50: threads never block each other for ever, in any configuration: as long as one has not left, one of them can go on, and if it
    waits, then it was notified. *)
Theorem c50_no_deadlock : forall (sol : Type) (tv : sol -> lit -> bool) (G : sol -> Prop) (cost : sol -> Z) (same : sol -> sol -> Prop) (C : cfg) (s : st sol),
  (forall a b, same a b \/ ~ same a b) -> 0 < c_n C -> reach tv G cost same C s ->
  (forall i, i < c_n C -> pc (thr s i) = Left) \/
  exists i g' t', i < c_n C /\ (match pc (thr s i) with WaitW | WaitS _ _ _ => true | _ => false end = true -> ntf (gl s) i = true) /\ tstep tv G cost same C i (gl s) (thr s i) g' t'.
Proof.
  intros sol tv G cost same C s D N R. destruct (no_deadlock sol tv G cost same C s D N R) as [H|(i & g' & t' & I & W & H)]; [left|right].
  - intros i I. specialize (H i I). unfold lives in H. destruct (pc (thr s i)); try discriminate H. reflexivity.
  - exists i, g', t'. split; [exact I|]. split; [|exact H]. intros X. apply W. unfold waits. destruct (pc (thr s i)); try discriminate X; reflexivity.
Qed.
Print Assumptions c50_no_deadlock.
Example c50_no_deadlock_nonvacuous : (forall a b : bool, a = b \/ a <> b) /\ 0 < c_n C1 /\ exists s, reach etv eG ecost eq C1 s /\ compl (gl s) = true.
Proof. split; [intros [] []; auto; right; discriminate|]. split; [cbn; lia|]. destruct run1 as (s & S1 & H). exists s. split; [eapply star_reach; [apply R0|exact S1]|tauto]. Qed.

(** *** The premises are needed *)
(** Splitting with global restarts: a thread woken by the request for a restart finds no work; it asks again whether there is a
    request after the last thread has cleared it, and reports that the search is complete. No solution was reported, but there are two. *)
Theorem c50_restart_race_refuted : exists (C : cfg) (s : st bool), c_split C = true /\ c_rst C = true /\
  reach etv eG ecost eq C s /\ compl (gl s) = true /\ tent (gl s) = false /\ rep (gl s) = [] /\ isSol bool etv eG (c_path C) true.
Proof.
  destruct run1 as (s & S1 & H). exists C1, s. split; [reflexivity|]. split; [reflexivity|]. split; [eapply star_reach; [apply R0|exact S1]|].
  destruct H as (H1 & H2 & H3 & _). repeat split; auto. intros l [].
Qed.
Print Assumptions c50_restart_race_refuted.
(** Splitting with global restarts: the first model of an enumeration by backtracking forbids restarts while one is requested. The
    last thread sets restart_abandoned_flag, but clears it before the others see it, and all give up their paths. One of two solutions is lost. *)
Theorem c50_restart_abandoned_refuted : exists (C : cfg) (s : st bool), c_split C = true /\ c_rst C = true /\ c_kind C = Bt /\
  reach etv eG ecost eq C s /\ compl (gl s) = true /\ tent (gl s) = false /\ ~ allReported bool etv eG (c_path C) eq (rep (gl s)).
Proof.
  destruct run2 as (s & S1 & H). exists C2, s. split; [reflexivity|]. split; [reflexivity|]. split; [reflexivity|]. split; [eapply star_reach; [apply R0|exact S1]|].
  destruct H as (H1 & H2 & H3 & _). repeat split; auto. intros [_ X]. destruct (X false) as (r & I & E).
  - split; [exact Logic.I|intros l []].
  - rewrite H3 in I. destruct I as [<-|[]]. discriminate.
Qed.
Print Assumptions c50_restart_abandoned_refuted.
(** Enumeration of optima: a limit that is reached after one thread has found the optimum ends the search before the optima are
    enumerated, but the search is still reported complete. *)
Theorem c50_tentative_limit_refuted : exists (C : cfg) (s : st bool), c_tent C = true /\ c_split C = false /\
  reach etv eG ecost eq C s /\ (forall i, i < c_n C -> pc (thr s i) = Left) /\ compl (gl s) = true /\ ~ allOptReported bool etv eG ecost (c_path C) eq (rep (gl s)).
Proof.
  destruct run3 as (s & S1 & H). exists C3, s. split; [reflexivity|]. split; [reflexivity|]. split; [eapply star_reach; [apply R0|exact S1]|].
  destruct H as (H0 & H1 & H2 & H3 & _). repeat split; auto. intros [_ X]. destruct (X false) as (r & I & E).
  - split; [exact Logic.I|intros l []].
  - intros m' _. apply Z.le_refl.
  - rewrite H3 in I. destruct I as [<-|[]]. discriminate.
Qed.
Print Assumptions c50_tentative_limit_refuted.
(** A thread that enumerates by backtracking and runs out of memory gives its path to the others as it was before it reported models:
    a solution is reported twice. *)
Theorem c50_memory_refuted : exists (C : cfg) (s : st bool), c_oom C = true /\ c_kind C = Bt /\ c_rst C = false /\ reach etv eG ecost eq C s /\ ~ onceEach bool eq (rep (gl s)).
Proof.
  destruct run4 as (s & S1 & H). exists (C4 true), s. repeat split; [eapply star_reach; [apply R0|exact S1]|]. destruct H as [_ H]. rewrite H.
  intros X. inversion X as [|a l F Y]. subst. rewrite Forall_forall in F. apply (F false); [cbn; auto|reflexivity].
Qed.
Print Assumptions c50_memory_refuted.
