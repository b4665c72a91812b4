(** C36: deleting learnt nogoods keeps all protected ones, removes no more than requested, loses nothing else; the sorting algorithms remove the least
    valuable ones. *)
From Coq Require Import List Bool Arith ZArith Lia Permutation Sorting.Sorted.
From Verif Require Import RdModel RdSpec RdProofs.
Import ListNotations.

(** For every database, algorithm, score, limits, threshold test and conforming implementation of the heap functions of the C++ library:
    the constraints are split into kept and removed ones, none is lost or duplicated, the kept ones only age; nothing protected is removed;
    and at most the requested number is removed. *)
Theorem c36_protected : forall mk pop push t al active remM l k r, heapOps (less t) mk pop push -> NoDup (map k_id l) ->
  reduceLearnts mk pop push t al active remM l = (k, r) ->
  exists K, Forall2 aged K k /\ Permutation (K ++ r) l /\ (forall c, In c r -> ~ protected t c) /\ length r <= remM.
Proof.
  intros mk pop push t al active remM l k r OPS ND E.
  assert (W : exists K, k = map dec K /\ Good t remM l K r).
  { unfold reduceLearnts in E. destruct (Nat.leb (length l) remM || Nat.eqb remM 0) eqn:B; [destruct (sorted_ok t l remM k r E) as [K [A1 [A2 _]]]; eauto|].
    apply orb_false_iff in B as [B1 B2]. apply Nat.leb_gt in B1. apply Nat.eqb_neq in B2. destruct al.
    - destruct (linear_ok t active l remM k r E) as [K [A1 [A2 _]]]; eauto.
    - destruct (stable_ok t mk pop push OPS l remM k r ND E) as [K [A1 [A2 _]]]; eauto; lia.
    - destruct (sorted_ok t l remM k r E) as [K [A1 [A2 _]]]; eauto.
    - destruct (heap_ok t mk pop push OPS l remM k r E) as [K [A1 [A2 _]]]; eauto; lia. }
  destruct W as [K [-> G]]. exists K. split; [|split; [apply G|split; [intros c C; apply cand_not; now apply (d_cand _ _ _ _ _ G)|apply G]]].
  clear. induction K as [|c K IH]; constructor; auto. unfold aged, dec. cbn. auto.
Qed.
Print Assumptions c36_protected.

(** The linear and the stable algorithm keep the order of the remaining constraints. *)
Theorem c36_order : forall mk pop push t al active remM l k r, heapOps (less t) mk pop push -> NoDup (map k_id l) -> al = Linear \/ al = Stable ->
  0 < remM < length l -> reduceLearnts mk pop push t al active remM l = (k, r) -> subseq (map k_id k) (map k_id l).
Proof.
  intros mk pop push t al active remM l k r OPS ND A L E.
  assert (W : exists K, k = map dec K /\ subseq K l).
  { unfold reduceLearnts in E. destruct (Nat.leb_spec (length l) remM); [lia|]. destruct (Nat.eqb_spec remM 0); [lia|]. cbn [orb] in E. destruct A as [-> | ->].
    - destruct (linear_ok t active l remM k r E) as [K [A1 [_ [A2 _]]]]; eauto.
    - destruct (stable_ok t mk pop push OPS l remM k r ND E) as [K [A1 [_ [A2 _]]]]; eauto; lia. }
  destruct W as [K [-> S]]. rewrite map_map. cbn. clear - S. induction S; cbn; [apply sub_nil|now apply sub_skip|now apply sub_take].
Qed.
Print Assumptions c36_order.

(** The algorithms that sort remove as many as requested, as far as there are enough constraints that are not protected, and no removed
    constraint is more valuable than a kept one that is not protected. *)
Theorem c36_lowest : forall mk pop push t al active remM l k r, heapOps (less t) mk pop push -> NoDup (map k_id l) -> al <> Linear ->
  reduceLearnts mk pop push t al active remM l = (k, r) ->
  exists K, Forall2 aged K k /\ (forall x y, In x r -> In y K -> ~ protected t y -> ~ worse (t_score t) y x) /\
    (length r = remM \/ forall y, In y K -> protected t y).
Proof.
  intros mk pop push t al active remM l k r OPS ND NL E.
  assert (W : exists K, k = map dec K /\ Good t remM l K r /\ (forall x y, In x r -> In y K -> cand t y = true -> less t y x = false) /\ length r = Nat.min remM (length (filter (cand t) l))).
  { unfold reduceLearnts in E. destruct (Nat.leb (length l) remM || Nat.eqb remM 0) eqn:B; [exact (sorted_ok t l remM k r E)|].
    apply orb_false_iff in B as [B1 B2]. apply Nat.leb_gt in B1. apply Nat.eqb_neq in B2. destruct al; [congruence| |exact (sorted_ok t l remM k r E)|].
    - destruct (stable_ok t mk pop push OPS l remM k r ND E) as [K [A1 [A2 [_ [A3 A4]]]]]; eauto; lia.
    - apply (heap_ok t mk pop push OPS l remM k r E); lia. }
  destruct W as [K [-> [G [LE N]]]]. exists K. split; [clear; induction K as [|c K IH]; constructor; auto; unfold aged, dec; cbn; auto|]. split.
  - intros x y X Y P. apply nless. apply LE; auto. now apply cand_not.
  - destruct (Nat.eq_dec (length r) remM) as [Q|Q]; [now left|right]. intros y Y. destruct (cand t y) eqn:C.
    + exfalso. assert (C1 : length (filter (cand t) (K ++ r)) = length (filter (cand t) l)) by (apply cands_perm, G). rewrite filter_app, app_length in C1.
      assert (R1 : length (filter (cand t) r) = length r). { pose proof (d_cand _ _ _ _ _ G) as D. clear - D. induction r as [|x r IH]; cbn; auto. rewrite (D x (or_introl eq_refl)). cbn. rewrite IH; auto. intros y Y. apply D. now right. }
      assert (KN : In y (filter (cand t) K)) by (apply filter_In; auto). destruct (filter (cand t) K); [destruct KN|]. cbn in C1. lia.
    + destruct (cand_not t y) as [_ CN]. unfold protected. unfold cand, isGlue, isFrozen in C. destruct (k_lock y); auto. destruct (Z.leb_spec (k_lbd y) (t_glue t)); auto. destruct (k_bump y); cbn in C; [|discriminate]. destruct (Z.leb_spec (k_lbd y) (t_protect t)); auto; discriminate.
Qed.
Print Assumptions c36_lowest.

(** A conforming implementation of the heap functions: descending sort *)
Definition sortDown (t : settings) (l : list con) : list con := rev (stableSort t l).
Definition popDown (t : settings) (l : list con) : list con := match l with [] => [] | x :: r => sortDown t r ++ [x] end.
Lemma sorted_heap : forall t l, isHeap (less t) (sortDown t l).
Proof.
  intros t l i p c C P. unfold sortDown in *. pose proof (sort_sorted t l) as SS. set (s := stableSort t l) in *. clearbody s.
  assert (SR : forall m i j x y, StronglySorted (fun a b => less t b a = false) m -> i < j -> nth_error m i = Some x -> nth_error m j = Some y -> less t y x = false).
  { clear. induction m as [|a m IH]; intros i j x y S L X Y; [destruct i; discriminate|]. inversion S as [|? ? S1 S2]; subst. destruct j as [|j]; [lia|]. cbn in Y. destruct i as [|i]; cbn in X.
    - injection X as <-. rewrite Forall_forall in S2. apply S2. eapply nth_error_In; eauto.
    - eapply (IH i j); eauto; lia. }
  assert (NR : forall (m : list con) i x, nth_error (rev m) i = Some x -> i < length m /\ nth_error m (length m - 1 - i) = Some x).
  { clear. intros m i x X. assert (L : i < length m) by (rewrite <- rev_length; apply nth_error_Some; congruence). split; auto.
    apply nth_error_nth with (d := x) in X. rewrite rev_nth in X by auto. erewrite nth_error_nth' with (d := x) by lia. f_equal. rewrite <- X at 2. f_equal. lia. }
  apply NR in C as [C1 C2], P as [P1 P2]. assert (i / 2 <= i) by (apply Nat.div_le_upper_bound; lia). eapply (SR s (length s - 1 - S i) (length s - 1 - i / 2)); eauto; lia.
Qed.
Lemma down_ops : forall t, heapOps (less t) (sortDown t) (popDown t) (sortDown t).
Proof.
  intros t. assert (P : forall l, Permutation (sortDown t l) l) by (intros l; unfold sortDown; rewrite <- Permutation_rev; apply sort_perm).
  split; [|split].
  - intros l. split; [apply P|apply sorted_heap].
  - intros x l _. exists (sortDown t l). split; [reflexivity|]. split; [apply P|apply sorted_heap].
  - intros l c _. split; [apply P|apply sorted_heap].
Qed.
Definition xSet : settings := Set_ ScAct 2 4.
(** locked; glue; recently improved; four ordinary ones with activities 5, 1, 3, 1 *)
Definition xDb : list con := [Con 0 0 9 false true; Con 1 5 9 false false; Con 2 0 2 false false; Con 3 1 9 false false; Con 4 0 4 true false; Con 5 3 9 false false; Con 6 1 8 false false].
Example c36_nonvacuous : heapOps (less xSet) (sortDown xSet) (popDown xSet) (sortDown xSet) /\ NoDup (map k_id xDb) /\
  map (fun al => let '(k, r) := reduceLearnts (sortDown xSet) (popDown xSet) (sortDown xSet) xSet al (fun c => (4 <? k_act c)%Z) 2 xDb in (map k_id k, map k_id r)) [Linear; Stable; Sort; Heap] =
  [([0; 1; 2; 4; 6], [3; 5]); ([0; 1; 2; 4; 5], [6; 3]); ([0; 4; 2; 5; 1], [3; 6]); ([2; 0; 4; 1; 5], [6; 3])].
Proof. split; [apply down_ops|]. split; [repeat constructor; cbn; intuition discriminate|]. vm_compute. reflexivity. Qed.
Print Assumptions c36_nonvacuous.
