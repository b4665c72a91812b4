(** C29: the broadcast queue. *)
From Coq Require Import List Arith Bool Lia Permutation.
From Verif Require Import Base MqModel MqSpec MqProofs MqProofs6 MqProofs7 MqProofs8.
Import ListNotations.

(** C29: for every number [m] of threads, every number [c] of reserved nodes and every interleaving of the threads' accesses to the shared variables, there is one order
    of the publications in which all threads receive the items, without gaps or duplicates; it respects the order of calls in time, contains all finished publications,
    and an item is destroyed at most once and only after all threads received it. *)
Theorem c29_broadcast A m c tr (s : st A) : exec m c tr s -> exists L, broadcast m tr L.
Proof. intros H. destruct (exec_full A m c tr s H) as (g & I & T). eexists. exact (full_broadcast A m tr s g I T). Qed.
Print Assumptions c29_broadcast.

(** C29: no reachable step touches freed or null memory, reads a missing item or drops a count below zero. *)
Theorem c29_no_error A m c tr (s : st A) t : exec m c tr s -> t < m -> s_pc s t <> Idle -> exists s' e, run1 m t s = Ok (s', e) /\ step m s e s'.
Proof.
  intros H L N. destruct (exec_full A m c tr s H) as (g & I & T). destruct (run_good A m tr s g t I T L N) as (s' & e & E & _).
  exists s', e. split; [exact E|]. econstructor; eassumption.
Qed.
Print Assumptions c29_no_error.

(** C29: a thread that is scheduled long enough finishes its operation after at most 19 of its own steps if the other threads pause, wherever they are: no thread can block
    another one. *)
Theorem c29_lock_free A m c tr (s : st A) t : exec m c tr s -> t < m -> exists s', alone m t 19 s = Ok s' /\ s_pc s' t = Idle.
Proof. intros H L. exact (alone_ok A m t L 19 tr s (exec_full A m c tr s H) (meas_max A s t)). Qed.
Print Assumptions c29_lock_free.

(** C29: the destructor, called when no operation is in progress, destroys exactly the items of finished publications that were not destroyed before, and frees every
    allocated node exactly once. *)
Theorem c29_destructor A m c tr (s : st A) : exec m c tr s -> (forall t, t < m -> s_pc s t = Idle) ->
  exists L is fr, broadcast m tr L /\ destroy (s_brk s) s = Ok (is, fr) /\ deleted tr ++ map fst is = L /\ Permutation fr (seq 2 (s_brk s - 2)).
Proof.
  intros H Q. destruct (exec_full A m c tr s H) as (g & I & T). destruct (destroy_ok A m tr s g I T Q) as (is & fr & D & E & P).
  exists (ids A (g_ord g)), is, fr. split; [exact (full_broadcast A m tr s g I T)|auto].
Qed.
Print Assumptions c29_destructor.

(** A schedule: calls and steps by thread. *)
Inductive cmd := P (t v : nat) | U (t v : nat) | C (t : nat) | R (t k : nat).
Definition all m (f : pc nat -> bool) (s : st nat) : bool := forallb (fun u => f (s_pc s u)) (seq 0 m).
Definition idle (p : pc nat) : bool := match p with Idle => true | _ => false end.
Fixpoint steps m t k (s : st nat) : option (list (ev nat) * st nat) :=
  match k with
  | 0 => Some ([], s)
  | S k => if idle (s_pc s t) then Some ([], s) else
      match run1 m t s with Ok (s', e) => match steps m t k s' with Some (f, s2) => Some (e ++ f, s2) | None => None end | _ => None end
  end.
Definition do1 m (x : cmd) (s : st nat) : option (list (ev nat) * st nat) :=
  match x with
  | P t v => if (t <? m) && idle (s_pc s t) && all m (fun p => negb (relaxed p)) s then Some ([Call t (s_cnt s) v], goto t (Pop0 Safe (s_cnt s, v)) (setCnt (S (s_cnt s)) s)) else None
  | U t v => if (t <? m) && idle (s_pc s t) && all m (fun p => negb (publishing p)) s then Some ([Call t (s_cnt s) v], goto t (Pop0 Unsafe (s_cnt s, v)) (setCnt (S (s_cnt s)) s)) else None
  | C t => if (t <? m) && idle (s_pc s t) then Some ([Ask t], goto t Con0 s) else None
  | R t k => if t <? m then steps m t k s else None
  end.
Fixpoint play m (l : list cmd) (s : st nat) : option (list (ev nat) * st nat) :=
  match l with [] => Some ([], s) | x :: r => match do1 m x s with Some (e, s1) => match play m r s1 with Some (f, s2) => Some (e ++ f, s2) | None => None end | None => None end end.

Lemma idle_true p : idle p = true -> p = Idle.
Proof. destruct p; discriminate || reflexivity. Qed.
Lemma all_true m f s : all m f s = true -> forall u, u < m -> f (s_pc s u) = true.
Proof. intros H u L. unfold all in H. rewrite forallb_forall in H. apply H, in_seq. lia. Qed.
Lemma steps_exec m c t k : t < m -> forall tr (s : st nat) e s', exec m c tr s -> steps m t k s = Some (e, s') -> exec m c (tr ++ e) s'.
Proof.
  intros L. induction k as [|k IH]; intros tr s e s' X H; cbn in H.
  - injection H as <- <-. now rewrite app_nil_r.
  - destruct (idle (s_pc s t)) eqn:Q; [injection H as <- <-; now rewrite app_nil_r|]. destruct (run1 m t s) as [(s1 & e1)| |] eqn:E; try discriminate.
    destruct (steps m t k s1) as [(f & s2)|] eqn:F; [|discriminate]. injection H as <- <-. rewrite app_assoc. eapply IH; [|exact F]. eapply exec_step; [exact X|].
    apply (SRun _ m t); auto. intros Z. rewrite Z in Q. discriminate.
Qed.
Lemma play_exec m c l : forall tr (s : st nat) e s', exec m c tr s -> play m l s = Some (e, s') -> exec m c (tr ++ e) s'.
Proof.
  induction l as [|x r IH]; intros tr s e s' X H; cbn in H.
  - injection H as <- <-. now rewrite app_nil_r.
  - destruct (do1 m x s) as [(e1 & s1)|] eqn:D; [|discriminate]. destruct (play m r s1) as [(f & s2)|] eqn:F; [|discriminate]. injection H as <- <-. rewrite app_assoc.
    apply (IH (tr ++ e1) s1); [|exact F]. destruct x as [t v|t v|t|t k]; cbn [do1] in D.
    + destruct (Nat.ltb_spec t m); cbn in D; [|discriminate]. destruct (idle (s_pc s t)) eqn:Q; cbn in D; [|discriminate]. destruct (all m _ s) eqn:AL; [|discriminate]. injection D as <- <-.
      eapply exec_step; [exact X|]. constructor; auto using idle_true. intros u Lu. apply negb_true_iff. exact (all_true _ _ _ AL u Lu).
    + destruct (Nat.ltb_spec t m); cbn in D; [|discriminate]. destruct (idle (s_pc s t)) eqn:Q; cbn in D; [|discriminate]. destruct (all m _ s) eqn:AL; [|discriminate]. injection D as <- <-.
      eapply exec_step; [exact X|]. constructor; auto using idle_true. intros u Lu. apply negb_true_iff. exact (all_true _ _ _ AL u Lu).
    + destruct (Nat.ltb_spec t m); cbn in D; [|discriminate]. destruct (idle (s_pc s t)) eqn:Q; cbn in D; [|discriminate]. injection D as <- <-. eapply exec_step; [exact X|]. constructor; auto using idle_true.
    + destruct (Nat.ltb_spec t m); [|discriminate]. eapply steps_exec; eauto.
Qed.

(** Two threads publish at the same time; thread 1 links its node first but pauses before it moves the tail, thread 0 does so for it; both consume, the released node is used again (one node was reserved, one more was allocated for three items). *)
Definition sched : list cmd :=
  [P 0 7; P 1 8; R 0 3; R 1 5; R 0 99; R 1 1; C 0; R 0 9; C 1; R 0 9; R 1 99; R 0 99; C 0; R 0 99; C 1; R 1 99; C 1; R 1 99; C 0; R 0 99; P 0 9; R 0 99; C 1; R 1 99].
Example c29_nonvacuous : exists tr (s : st nat), exec 2 1 tr s /\ (forall t, t < 2 -> s_pc s t = Idle) /\ received tr 0 = [1; 0] /\ received tr 1 = [1; 0; 2] /\ deleted tr = [1] /\ s_brk s = 4.
Proof.
  destruct (play 2 sched (init 1)) as [(tr & s)|] eqn:E; [|vm_compute in E; discriminate].
  exists tr, s. split; [exact (play_exec 2 1 sched [] (init 1) tr s (exec_init nat 2 1) E)|].
  vm_compute in E. injection E as <- <-. split; [intros [|[|t]] H; [reflexivity|reflexivity|lia]|]. vm_compute. repeat split.
Qed.
