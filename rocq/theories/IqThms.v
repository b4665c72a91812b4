(** C27: the indexed priority queue. *)
From Coq Require Import List Bool Arith Lia Permutation.
From Verif Require Import Base IqModel IqSpec IqProofs IqProofs2.
Import ListNotations.

(** No operation called as documented accesses a vector out of range or violates an assertion. *)
Theorem c27_no_error : forall q S c, hist q S c ->
  (forall k, ~ In k S -> exists q', push c q k = Ok q') /\
  (S <> [] -> exists t q', top q = Ok t /\ pop c q = Ok q') /\
  (forall d k, swo d -> agree (without k S) c d -> exists q', update d q k = Ok q') /\
  (forall d k, In k S -> swo d -> agree (without k S) c d -> (forall y, In y S -> c y k = false -> d y k = false) -> exists q', increase d q k = Ok q') /\
  (forall d k, In k S -> swo d -> agree (without k S) c d -> (forall y, In y S -> c k y = false -> d k y = false) -> exists q', decrease d q k = Ok q') /\
  (forall k, exists q', remove c q k = Ok q').
Proof.
  intros q S c H. apply hist_ok in H. sp.
  - intros k NK. destruct (push_ok q S c k H NK) as [q' [U _]]. eauto.
  - intros NE. destruct (pop_ok q S c H NE) as [t [q' [T [U _]]]]. eauto.
  - intros d k SD AG. destruct (update_ok q S c d k H SD AG) as [q' [U _]]. eauto.
  - intros d k IK SD AG INC. destruct (increase_ok q S c d k H IK SD AG INC) as [q' [U _]]. eauto.
  - intros d k IK SD AG INC. destruct (decrease_ok q S c d k H IK SD AG INC) as [q' [U _]]. eauto.
  - intros k. destruct (remove_ok q S c k H) as [q' [U _]]. eauto.
Qed.
Print Assumptions c27_no_error.

(** The queue contains exactly the keys that were added and not removed, each once. *)
Theorem c27_members : forall q S c, hist q S c -> NoDup S /\ (forall k, isIn q k = true <-> In k S) /\ size q = length S.
Proof.
  intros q S c H. apply hist_ok in H. pose proof H as [SW W E K ND]. sp; auto.
  - intros k. rewrite isIn_keys by auto. apply K.
  - eapply size_eq; eauto.
Qed.
Print Assumptions c27_members.

(** top is a key of the queue, and no key of the queue has a higher priority. *)
Theorem c27_top : forall q S c t, hist q S c -> top q = Ok t -> In t S /\ forall y, In y S -> c y t = false.
Proof.
  intros q S c t H T. apply hist_ok in H. pose proof H as [SW W E K ND].
  assert (T0 : hf q 0 = Some t) by (unfold top, get in T; unfold hf; destruct (nth_error (q_heap q) 0); congruence). split; [apply K; exists 0; auto|].
  intros y Y. apply K in Y. destruct Y as [n N]. eapply top_best; eauto.
Qed.
Print Assumptions c27_top.

(** Emptying the queue yields its keys, sorted by priority. *)
Theorem c27_sorted : forall S q c, hist q S c -> exists l, drain (Datatypes.S (length S)) c q = Ok l /\ Permutation l S /\ ordered c l.
Proof.
  intros S. remember (length S) as n eqn:N. revert S N. induction n as [|n IH]; intros S N q c H.
  - destruct S as [|s S]; [|discriminate]. exists []. cbn. destruct (c27_members _ _ _ H) as [_ [_ L]]. rewrite L. cbn. sp; auto. constructor.
  - destruct (c27_members _ _ _ H) as [ND [_ L]]. assert (NE : S <> []) by (intros ->; discriminate). destruct (pop_ok q S c (hist_ok _ _ _ H) NE) as [t [q' [T [U [IT _]]]]].
    assert (H' : hist q' (without t S) c) by (eapply h_pop; eauto).
    assert (PS : Permutation (t :: without t S) S).
    { apply NoDup_Permutation; auto.
      - constructor; [|apply nd_without; auto]. rewrite in_without. tauto.
      - intros x. cbn. rewrite in_without. destruct (Nat.eq_dec t x) as [<- |]; split; intuition. }
    destruct (IH (without t S)) with (q := q') (c := c) as [l [D [P O]]]; auto.
    { apply Permutation_length in PS. cbn in PS. lia. }
    exists (t :: l). remember (Datatypes.S n) as f. cbn [drain]. rewrite L, <- N. cbn [Nat.eqb]. rewrite T. cbn [bind]. rewrite U. cbn [bind]. rewrite D. cbn [bind]. sp; [rewrite Heqf; reflexivity| |].
    + eapply perm_trans; [|exact PS]. constructor. auto.
    + constructor; auto. intros y Y. destruct (c27_top _ _ _ _ H T) as [_ B]. apply B. assert (Y2 : In y (without t S)) by (eapply Permutation_in; eauto). apply in_without in Y2. tauto.
Qed.
Print Assumptions c27_sorted.

(** A concrete history: scores by table, pushes, an increase, a removal from the middle, an update of a key that is queued and one that is not. *)
Definition byScore (s : nat -> nat) : cmp := fun x y => Nat.ltb (s y) (s x).
Lemma byScore_swo : forall s, swo (byScore s).
Proof.
  intros s. unfold byScore. constructor; intros.
  - apply Nat.ltb_irrefl.
  - rewrite Nat.ltb_lt in *. lia.
  - rewrite Nat.ltb_ge in *. lia.
Qed.
Definition sc1 (x : nat) : nat := nth x [3; 9; 4; 1; 5; 9; 2] 0.
Definition sc2 (x : nat) : nat := if Nat.eqb x 3 then 10 else sc1 x.
Definition sc3 (x : nat) : nat := if Nat.eqb x 1 then 0 else sc2 x.
Definition okq (r : res queue) : queue := match r with Ok q => q | _ => clear end.
Fixpoint pushes (c : cmp) (ks : list nat) : res queue := match ks with [] => Ok clear | k :: ks => do q <- pushes c ks; push c q k end.
Lemma pushes_hist : forall c ks q, swo c -> NoDup ks -> pushes c ks = Ok q -> hist q ks c.
Proof.
  intros c. induction ks as [|k ks IH]; intros q SW ND P; cbn in P.
  - injection P as <-. apply h_new. auto.
  - apply NoDup_cons_iff in ND. destruct (pushes c ks) as [q1| |]; try discriminate. eapply h_push; [apply IH|  |exact P]; tauto.
Qed.
Definition q_1 := okq (pushes (byScore sc1) [2; 6; 1; 3; 0; 4]).
Definition q_2 := okq (increase (byScore sc2) q_1 3).
Definition q_3 := okq (update (byScore sc3) q_2 1).
Definition q_4 := okq (remove (byScore sc3) q_3 0).
Definition q_5 := okq (update (byScore sc3) q_4 5).
Example c27_nonvacuous : exists S, hist q_5 S (byScore sc3) /\ top q_5 = Ok 3 /\ drain 7 (byScore sc3) q_5 = Ok [3; 5; 4; 2; 6; 1].
Proof.
  eexists. split; [|split; vm_compute; reflexivity].
  eapply h_update with (c := byScore sc3) (k := 5) (q := q_4); [|apply byScore_swo|intros x y _ _; reflexivity|unfold q_5; vm_compute; reflexivity].
  eapply h_remove with (k := 0) (q := q_3); [|vm_compute; reflexivity].
  eapply h_update with (c := byScore sc2) (k := 1) (q := q_2) (S := [2; 6; 1; 3; 0; 4]); [|apply byScore_swo| |vm_compute; reflexivity].
  2:{ intros x y X Y. apply in_without in X. apply in_without in Y. unfold byScore, sc3. rewrite (proj2 (Nat.eqb_neq x 1)), (proj2 (Nat.eqb_neq y 1)) by tauto. reflexivity. }
  eapply h_increase with (c := byScore sc1) (k := 3) (q := q_1); [|cbn; tauto|apply byScore_swo| | |vm_compute; reflexivity].
  2:{ intros x y X Y. apply in_without in X. apply in_without in Y. unfold byScore, sc2. rewrite (proj2 (Nat.eqb_neq x 3)), (proj2 (Nat.eqb_neq y 3)) by tauto. reflexivity. }
  2:{ intros y _ X. unfold byScore in *. apply Nat.ltb_ge. unfold sc2. cbn [Nat.eqb]. assert (sc1 y <= 9) by (unfold sc1; do 8 (destruct y as [|y]; [cbn; lia|]); cbn; destruct y; lia). destruct (Nat.eqb y 3); lia. }
  apply pushes_hist; [apply byScore_swo|repeat constructor; cbn; lia|vm_compute; reflexivity].
Qed.

(** A key whose priority has changed without a call of update may leave a wrong key on top: here 0 although 1 now has a higher priority. *)
Theorem c27_stale_refuted : exists q S c d t y, hist q S c /\ swo d /\ top q = Ok t /\ In y S /\ d y t = true.
Proof.
  pose (s := fun x => match x with 0 => 2 | 1 => 1 | _ => 0 end). pose (s' := fun x => match x with 0 => 2 | 1 => 3 | _ => 0 end).
  exists (okq (pushes (byScore s) [1; 0])), [1; 0], (byScore s), (byScore s'), 0, 1. sp; try reflexivity.
  - apply pushes_hist; [apply byScore_swo|repeat constructor; cbn; lia|vm_compute; reflexivity].
  - apply byScore_swo.
  - cbn. auto.
Qed.
Print Assumptions c27_stale_refuted.
