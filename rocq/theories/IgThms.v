(** C52: theorems about the shared store of short learnt clauses. *)
From Coq Require Import List Arith Bool Lia.
From Verif Require Import Base IgSpec IgModel IgProofs IgProofs2 IgProofs3 IgProofs4 IgProofs5 IgProofs6 IgRun.
Import ListNotations.

Definition a : lit := (1, false). Definition b : lit := (2, false). Definition c : lit := (3, true). Definition d : lit := (4, false).

(** In every interleaving: a visit of the consequences of [l] that has come to its end has seen every entry at least as often as it follows from
    the clauses whose addition had returned before the visit started, and at most as often as it follows from the clauses somebody has asked to add. *)
Theorem c52_visit : forall m tr s t1 t2 u g l e, exec m tr s -> tr = t1 ++ Begin u g l :: t2 -> In (End_ g) tr ->
  follows l e (added t1) <= times e (seen g tr) <= follows l e (called tr).
Proof.
  intros m tr s t1 t2 u g l e X H1 H2. destruct (exec_inv m tr s X) as (E & D & L & I). pose proof (iEnd _ _ _ _ _ _ I _ _ _ _ _ H1 H2 e). pose proof (iCall _ _ _ _ _ _ I l e). lia.
Qed.
Print Assumptions c52_visit.
(** Nine additions fill more than one block; one more is under way while thread 1 visits: 9 entries, among them the binary one. *)
Definition run1_ : list act :=
  [DoAdd 0 (C2 a b); Go 60 0] ++ flat_map (fun k => [DoAdd (k mod 2) (C3 a c (5 + k, false)); Go 60 (k mod 2)]) (seq 0 8) ++ [DoAdd 0 (C3 a b d); DoAdd 1 (C3 a d (20, true)); DoVisit 2 (neg a); Go 14 0; Go 60 2].
Example c52_visit_nonvacuous : let tr := traceOf 3 run1_ in
  exec 3 tr (stateOf 3 run1_) /\ (exists t1 t2, tr = t1 ++ Begin 2 0 (neg a) :: t2 /\ length (added t1) = 9 /\ follows (neg a) (Bin b) (added t1) = 1 /\ In (End_ 0) tr) /\ length (seen 0 tr) = 9 /\ times (Bin b) (seen 0 tr) = 1.
Proof.
  split; [apply sched_run; vm_compute; easy|]. split; [|vm_compute; easy].
  exists (firstn 20 (traceOf 3 run1_)), (skipn 21 (traceOf 3 run1_)). vm_compute. repeat split; try easy. auto 60.
Qed.

(** An addition is refused only if the clause is subsumed by one somebody has asked to add before. *)
Theorem c52_refused : forall m tr s t x, exec m tr s -> In (Ret t x false) tr -> exists x', In x' (called tr) /\ subsumes x' x.
Proof. intros m tr s t x X H. destruct (exec_inv m tr s X) as (E & D & L & I). now apply (iFalse _ _ _ _ _ _ I t). Qed.
Print Assumptions c52_refused.
Example c52_refused_nonvacuous : let r := [DoAdd 0 (C2 a b); Go 60 0; DoAdd 1 (C3 a d b); Go 60 1] in
  exec 2 (traceOf 2 r) (stateOf 2 r) /\ traceOf 2 r = [Call 0 (C2 a b); Ret 0 (C2 a b) true; Call 1 (C3 a d b); Ret 1 (C3 a d b) false].
Proof. split; [apply sched_run; vm_compute; easy | vm_compute; easy]. Qed.

(** No access outside of a block or of its data, ever: every call can always take its next step. *)
Theorem c52_no_error : forall m tr s t, exec m tr s -> t < m -> exists s' e, run1 t s = Ok (s', e).
Proof.
  intros m tr s t X T. destruct (exec_inv m tr s X) as (E & D & L & I). destruct (s_pc s t) eqn:P; [unfold run1; rewrite P; eauto | | | | | | | | |];
    (destruct (run_ok m E D L tr s t I T ltac:(now rewrite P)) as (s' & e & R & _); eauto).
Qed.
Print Assumptions c52_no_error.
Example c52_no_error_nonvacuous : exec 3 (traceOf 3 run1_) (stateOf 3 run1_) /\ s_brk (stateOf 3 run1_) > 10.
Proof. split; [apply sched_run; vm_compute; easy | vm_compute; lia]. Qed.

(** A thread that runs alone finishes its call, unless another one was stopped while it holds the lock of a block. *)
Theorem c52_alone : forall m tr s t, exec m tr s -> t < m -> (forall u x j bl n z, u <> t -> s_pc s u <> A2 x j bl n z) ->
  exists n s' e, alone n t s = Ok (s', e) /\ exec m (tr ++ e) s' /\ s_pc s' t = Idle.
Proof.
  intros m tr s t X T H. destruct (exec_inv m tr s X) as (E & D & L & I). assert (NO : forall u, u <> t -> holds_lock (s_pc s u) = 0).
  { intros u U. destruct (s_pc s u) eqn:P; try easy. exfalso. now apply (H u c0 j x n z U). }
  destruct (alone_ends m (mu s (s_pc s t)) t T tr s X NO (le_n _)) as (s' & e & R). eauto.
Qed.
Print Assumptions c52_alone.
Example c52_alone_nonvacuous : let r := [DoAdd 0 (C2 a b); DoAdd 1 (C2 a b); Go 5 0; Go 5 1] in
  exec 2 (traceOf 2 r) (stateOf 2 r) /\ s_pc (stateOf 2 r) 0 = A1 (C2 a b) 0 1 /\ s_pc (stateOf 2 r) 1 = A1 (C2 a b) 0 1.
Proof. split; [apply sched_run; vm_compute; easy | vm_compute; easy]. Qed.

(** Not true: that a clause is added once. Two threads both find it absent and both add it. *)
Theorem c52_once_refuted : ~ (forall m tr s, exec m tr s -> NoDup (added tr)).
Proof.
  intro H. set (r := [DoAdd 0 (C2 a b); DoAdd 1 (C2 a b); Go 2 0; Go 2 1; Go 60 0; Go 60 1]).
  assert (X : exec 2 (traceOf 2 r) (stateOf 2 r)) by (apply sched_run; vm_compute; easy). apply H in X.
  assert (Y : added (traceOf 2 r) = [C2 a b; C2 a b]) by (vm_compute; easy). rewrite Y in X. inversion X as [|? ? N _]. apply N. now left.
Qed.
Print Assumptions c52_once_refuted.

(** Not true: that a clause whose addition was refused is covered by what later visits see. The thread that adds the subsuming clause may so far have
    entered it for one of its literals only. *)
Theorem c52_refused_visible_refuted : ~ (forall m tr s t1 t2 t u x g p, exec m tr s -> tr = t1 ++ Begin u g (neg p) :: t2 -> In (Ret t x false) t1 -> In p (lits x) -> In (End_ g) tr ->
  seen g tr <> []).
Proof.
  intro H. set (r := [DoAdd 0 (C2 a b); Go 8 0; DoAdd 1 (C2 a b); Go 60 1; DoVisit 1 (neg b); Go 60 1]).
  assert (X : exec 2 (traceOf 2 r) (stateOf 2 r)) by (apply sched_run; vm_compute; easy).
  apply (H 2 (traceOf 2 r) _ [Call 0 (C2 a b); Call 1 (C2 a b); Ret 1 (C2 a b) false] [End_ 0] 1 1 (C2 a b) 0 b X); vm_compute; auto 20.
Qed.
Print Assumptions c52_refused_visible_refuted.

(** Not true: that the reported number of learnt short clauses is the number of additions; the counter is not incremented atomically. *)
Theorem c52_count_refuted : ~ (forall m tr s, exec m tr s -> (forall t, s_pc s t = Idle) -> s_stat s 2 + s_stat s 3 = length (added tr)).
Proof.
  intro H. set (r := [DoAdd 0 (C2 a b); DoAdd 1 (C2 c d); Go 15 0; Go 15 1; Go 60 0; Go 60 1]).
  assert (X : exec 2 (traceOf 2 r) (stateOf 2 r)) by (apply sched_run; vm_compute; easy). apply H in X.
  - vm_compute in X. easy.
  - intros [|[|t]]; vm_compute; easy.
Qed.
Print Assumptions c52_count_refuted.

(** What holds: the counter for clauses of a length is never too high, is positive once such a clause was added, and is exact if one thread adds. *)
Theorem c52_count m tr s k : exec m tr s ->
  s_stat s k <= length (filter (fun c => length (lits c) =? k) (added tr)) /\ ((exists c, In c (added tr) /\ length (lits c) = k) -> 0 < s_stat s k) /\
  (m = 1 -> s_stat s k = length (filter (fun c => length (lits c) =? k) (added tr))).
Proof.
  intro X. destruct (count_inv m tr s X) as (I1 & I2 & _ & I4). split; [apply I1|]. split; [|intro M; now apply I4]. intros (c & C & L). apply I2. unfold ofLen.
  assert (F : In c (filter (fun c => length (lits c) =? k) (added tr))) by (apply filter_In; split; [easy | now apply Nat.eqb_eq]). destruct (filter _ (added tr)); [destruct F | cbn; lia].
Qed.
Print Assumptions c52_count.
Example c52_count_nonvacuous : let r := [DoAdd 0 (C2 a b); Go 60 0; DoAdd 0 (C2 c d); Go 60 0] in exec 1 (traceOf 1 r) (stateOf 1 r) /\ added (traceOf 1 r) = [C2 a b; C2 c d] /\ s_stat (stateOf 1 r) 2 = 2.
Proof. split; [apply sched_run; vm_compute; easy|]. split; vm_compute; easy. Qed.
