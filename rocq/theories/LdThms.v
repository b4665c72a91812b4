(** Theorems C51: distribution of nogoods between threads. *)
From Coq Require Import List Arith Bool Lia Permutation Relations NArith.
From Verif Require Import Base LdSpec LdModel LdProofs LdProofs4 LdProofs5 LdProofs7 LdProofs8 LdProofs9 LdTopo LdTopoProofs LdRun.
Import ListNotations.

Example runs_ok : exec 3 all2 (trace 3 all2 hidden) (final 3 all2 hidden) /\ exec 4 ring4 (trace 4 ring4 parcel) (final 4 ring4 parcel) /\ exec 4 ring4 (trace 4 ring4 parcel2) (final 4 ring4 parcel2).
Proof. split; [|split]; apply play_ok; vm_compute; reflexivity. Qed.
Definition x0 : item := It 0 1 false true.
Definition x1 : item := It 1 1 true false.

(** However the threads interleave: a thread receives from each other thread what that thread published for it, in this order, nothing twice,
    nothing else, and nothing of its own. *)
Theorem c51_delivery m peers tr s t : 2 <= m -> exec m peers tr s -> t < m ->
  (forall u, u < m -> inOrder peers tr t u) /\ NoDup (received tr t) /\
  (forall x, In x (received tr t) -> goesTo peers t x = true /\ it_from x < m /\ In x (published tr (it_from x))).
Proof.
  intros M EX T. destruct (exec_inv m peers M tr s EX) as (g & HI & HS & HR). split; [|split].
  - intros u U. exists (filter (from u) (trans s g t) ++ todoG peers (s_pc s u) t). rewrite (z_seq _ _ _ _ _ HS t u T U), filter_app. now rewrite app_assoc.
  - pose proof (sem_nodup m peers tr s g t HS T) as N. clear - N. induction (received tr t) as [|x l IH]; [constructor|]. cbn in N. inversion_clear N as [|? ? N1 N2]. constructor; [|auto]. intros X. apply N1, in_app_iff. now left.
  - intros x X. destruct (sem_recv m peers tr s g t x HS T) as [(u & U & K) G]; [apply in_app_iff; now left|]. destruct (z_pub _ _ _ _ _ HS u x U K) as [<- _]. auto.
Qed.
Print Assumptions c51_delivery.
Example c51_delivery_nonvacuous : received (trace 4 ring4 parcel) 0 = [x0; x1] /\ received (trace 4 ring4 parcel) 2 = [x0] /\ received (trace 4 ring4 parcel) 3 = [x1] /\ published (trace 4 ring4 parcel) 1 = [x0; x1].
Proof. repeat split; vm_compute; reflexivity. Qed.

(** Nothing is lost: when receive finds nothing and no call of publish is open, all that was published for the thread has been received. *)
Theorem c51_nothing_lost m peers tr s t s' : 2 <= m -> exec m peers tr s -> step m peers s [Empty t] s' ->
  (forall u x, In (Call u x) tr -> In (Ret u x) tr) -> forall u, u < m -> allOf peers tr t u.
Proof.
  intros M EX ST AL. inversion ST as [v s1 e1 T NI RU|v w k T EI|v T EI|v h1 y h2 s1 e1 T EI EH RE]; subst.
  assert (v = t) as ->.
  { clear - RU. unfold run1 in RU. destruct (s_pc s v) eqn:EP; unfold at_ in RU;
      repeat match type of RU with context [if ?c then _ else _] => destruct c eqn:? | context [match ?c with Some _ => _ | None => _ end] => destruct c eqn:? end;
      try discriminate; try (unfold release in RU; destruct (_ <? _); [discriminate|]; cbn in RU; destruct (_ =? 0); discriminate).
    injection RU as _ RU. congruence. }
  apply (empty_all m peers M tr s t s' [Empty t]); auto. now left.
Qed.
Print Assumptions c51_nothing_lost.
Definition quiet : list ev := [Call 1 x0; Mem 5; Ret 1 x0; Call 1 x1; Ret 1 x1; Recv 0 x0; Recv 0 x1; Recv 2 x0; Recv 3 x1; Rel 3 x1; Rel 2 x0; Rel 0 x1; Rel 0 x0].
Example c51_nothing_lost_nonvacuous : trace 4 ring4 (removelast parcel) = quiet /\ trace 4 ring4 parcel = quiet ++ [Empty 0] /\ (forall u x, In (Call u x) quiet -> In (Ret u x) quiet).
Proof.
  split; [vm_compute; reflexivity|]. split; [vm_compute; reflexivity|]. intros u x K. unfold quiet in *. cbn [In] in *.
  repeat (destruct K as [K|K]; [first [discriminate K|injection K as <- <-; tauto]|]). destruct K.
Qed.

(** FINDING: receive can find nothing although a nogood for it was published and that call has returned (another call is open: its half of a
    push hides what was pushed later). *)
Theorem c51_empty_refuted : ~ (forall m peers tr s t u x, 2 <= m -> exec m peers (tr ++ [Empty t]) s -> In (Ret u x) tr -> t < m -> goesTo peers t x = true -> In (Recv t x) tr).
Proof.
  intros H. pose proof (proj1 runs_ok) as X. pose (tr := removelast (trace 3 all2 hidden)).
  assert (trace 3 all2 hidden = tr ++ [Empty 0]) as E by (vm_compute; reflexivity). rewrite E in X.
  assert (In (Ret 2 (It 1 2 false false)) tr) as K by (vm_compute; auto 10).
  specialize (H 3 all2 tr _ 0 2 (It 1 2 false false) ltac:(lia) X K ltac:(lia) eq_refl). vm_compute in H. intuition discriminate.
Qed.
Print Assumptions c51_empty_refuted.

(** No step touches memory that is not there, or a reference that is not held. *)
Theorem c51_no_error m peers tr s t : 2 <= m -> exec m peers tr s -> t < m ->
  (exists s' e, run1 m peers t s = Ok (s', e)) /\
  (forall h1 x h2, s_hold s t = h1 ++ x :: h2 -> exists s' e, release (w_hold s t (h1 ++ h2)) x 1 = Ok (s', e)).
Proof.
  intros M EX T. destruct (exec_inv m peers M tr s EX) as (g & HI & HS & HR). split.
  - assert ({s_pc s t = Idle} + {s_pc s t <> Idle}) as [E|NI] by (destruct (s_pc s t); [left; reflexivity|right; discriminate..]).
    + unfold run1. rewrite E. eauto.
    + destruct (run_ok m peers s g t HI T NI (ref_ok m peers M tr s g t HI HS HR T)) as (s2 & e2 & g' & RU & _). eauto.
  - intros h1 x h2 EH. pose proof (release_ok m peers M tr s g t x HS HR T) as L. rewrite EH in L. specialize (L ltac:(apply in_app_iff; right; now left)).
    unfold release. cbn [s_refs w_hold]. destruct (Nat.ltb_spec (s_refs s (it_id x)) 1); [lia|]. eauto.
Qed.
Print Assumptions c51_no_error.
Example c51_no_error_nonvacuous : s_pc (final 3 all2 hidden) 1 <> Idle /\ s_hold (final 4 ring4 parcel) 1 = [x0].
Proof. split; [vm_compute; discriminate|vm_compute; reflexivity]. Qed.

(** Nobody waits: from every state, whatever the other threads were doing, a thread that runs alone returns from its call. *)
Theorem c51_alone m peers tr s t : 2 <= m -> exec m peers tr s -> t < m ->
  exists n s' e, alone m peers n t s = Ok (s', e) /\ exec m peers (tr ++ e) s' /\ s_pc s' t = Idle.
Proof. intros M EX T. exists (mu m s t). now apply (alone_ends m peers M (mu m s t) tr s t EX T). Qed.
Print Assumptions c51_alone.
Example c51_alone_nonvacuous : match alone 3 all2 40 1 (final 3 all2 hidden) with Ok (_, e) => e | _ => [] end = [Ret 1 (It 0 1 false false)].
Proof. vm_compute. reflexivity. Qed.

(** References: a nogood is deleted at most once, not while a thread that receives or keeps it has not given it back, and it is deleted when its
    publish call has returned and all of them have given it back. *)
Theorem c51_references m peers tr s : 2 <= m -> exec m peers tr s ->
  NoDup (deleted tr) /\
  (forall x, In x (deleted tr) -> it_from x < m /\ In x (published tr (it_from x)) /\ forall t, t < m -> ~ needs peers tr t x) /\
  (forall u x, In (Ret u x) tr -> (forall t, t < m -> ~ needs peers tr t x) -> In x (deleted tr)).
Proof.
  intros M EX. split; [now apply (deleted_once m peers M tr s)|]. split; [|intros u x; now apply (is_deleted m peers M tr s)].
  intros x D. destruct (deleted_published m peers M tr s x EX D) as (u & U & K). destruct (exec_inv m peers M tr s EX) as (g & HI & HS & HR). destruct (z_pub _ _ _ _ _ HS u x U K) as [<- _].
  split; [exact U|]. split; [exact K|]. intros t T N. now apply (not_deleted m peers M tr s t x EX T N).
Qed.
Print Assumptions c51_references.
Example c51_references_nonvacuous : deleted (trace 4 ring4 parcel) = [] /\ deleted (trace 4 ring4 parcel2) = [x1; x0].
Proof. split; reflexivity. Qed.

(** The destructor, when no call is open: it frees every block of memory exactly once and gives back what is still in the queues: afterwards exactly
    the nogoods that no client holds have been deleted, each once. *)
Theorem c51_destructor m peers tr s : 2 <= m -> exec m peers tr s -> (forall t, t < m -> s_pc s t = Idle) ->
  exists n, forall k, n <= k -> exists s' e, drainAll k m s = Ok (s', e) /\ NoDup (deleted (tr ++ e)) /\
    (forall x, In x (deleted (tr ++ e)) <-> (exists u, u < m /\ In x (published tr u)) /\
       forall t, t < m -> In x (received tr t) \/ it_keep x = true /\ t = it_from x -> In (Rel t x) tr) /\
    Permutation (freeAll k (s_top s') s') (blocks tr).
Proof. intros M. exact (destructor m peers M tr s). Qed.
Print Assumptions c51_destructor.
Example c51_destructor_nonvacuous : (forall t, t < 4 -> s_pc (final 4 ring4 parcel) t = Idle) /\
  match drainAll 3 4 (final 4 ring4 parcel) with Ok (s', e) => (deleted e, freeAll 3 (s_top s') s') | _ => ([], []) end = ([x1], [5]) /\ blocks quiet = [5].
Proof.
  split; [|split; vm_compute; reflexivity]. intros t T. destruct t as [|[|[|[|t]]]]; [vm_compute; reflexivity..|lia].
Qed.

(** Topologies: in each of them threads listen to other threads only, listening is mutual, everyone is reached from everyone, and in the first
    everyone listens to all others. *)
Theorem c51_topology n t i : (2 <= n)%N -> (i < n)%N ->
  (forall j, listens t n i j = true -> (j < n)%N /\ j <> i /\ listens t n j i = true) /\
  (forall j, (j < n)%N -> clos_refl_trans N (fun a b => (a < n)%N /\ listens t n a b = true) i j) /\
  (t = Tall -> forall j, listens t n i j = true <-> (j < n)%N /\ j <> i).
Proof.
  intros M I. split; [|split].
  - intros j H. destruct (listens_in n M t i j I H). repeat split; auto. now apply listens_sym.
  - intros j J. now apply connected.
  - intros -> j. now apply all_bits.
Qed.
Print Assumptions c51_topology.
Example c51_topology_nonvacuous : initPeerMask 1 Tring 6 = 5%N /\ initPeerMask 1 Tcube 6 = 41%N /\ initPeerMask 3 Tcube 6 = 6%N /\ initPeerMask 3 Tcubex 6 = 38%N /\ initPeerMask 2 Tall 4 = 11%N.
Proof. repeat split; vm_compute; reflexivity. Qed.
