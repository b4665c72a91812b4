From Coq Require Import NArith ZArith Bool List Lia ZifyBool ZifyN ZifyNat.
From Verif Require Import LitModel LitProofs Bits PackModel PackProofs SchedModel SchedSpec SchedLog2.
Import ListNotations.
Local Open Scope N_scope.
Ltac Zify.zify_post_hook ::= Z.div_mod_to_equations.

Lemma log2_bounds i : 0 < i -> 2 ^ N.log2 i <= i < 2 ^ (N.log2 i + 1).
Proof. intros H. pose proof (N.log2_spec i H) as [A B]. now rewrite N.add_1_r. Qed.

Lemma pow_pos k : 0 < 2 ^ k.
Proof. pose proof (N.pow_nonzero 2 k). lia. Qed.

Lemma pow_pred k : 1 <= k -> 2 ^ k = 2 * 2 ^ (k - 1).
Proof. intros H. rewrite <- N.pow_succ_r'. f_equal. lia. Qed.

(** The loop test: [i & (i+1)] is zero exactly for [i = 2^k - 1]. *)
Lemma luby_test i : 0 < i ->
  (N.land i (i + 1) =? 0) = (i =? 2 ^ (N.log2 i + 1) - 1).
Proof.
  intros H. pose proof (log2_bounds i H) as [A B]. set (k := N.log2 i) in *.
  destruct (i =? 2 ^ (k + 1) - 1) eqn:E.
  - apply N.eqb_eq in E. assert (i + 1 = 2 ^ (k + 1)) as -> by (pose proof (pow_pos (k+1)); lia).
    apply N.eqb_eq. rewrite E. change (2 ^ (k + 1) - 1) with (2 ^ (k + 1) - 1).
    replace (2 ^ (k + 1) - 1) with (N.ones (k + 1)) by (rewrite N.ones_equiv; lia).
    apply N.bits_inj_0. intros n. rewrite N.land_spec, tb_ones, tb_pow2.
    destruct (n <? k + 1) eqn:E1; cbn; lia.
  - apply N.eqb_neq. intros L.
    assert (T : N.testbit (N.land i (i + 1)) k = true).
    { assert (N.log2 (i + 1) = k) as K by (apply N.log2_unique; [lia|rewrite <- N.add_1_r; lia]).
      rewrite N.land_spec. unfold k at 1. rewrite N.bit_log2 by lia. rewrite <- K. rewrite N.bit_log2 by lia. reflexivity. }
    rewrite L, N.bits_0 in T. discriminate.
Qed.

Lemma luby_loop_spec fuel : forall i, 0 < i -> i < 2 ^ 32 - 1 -> i < 2 ^ N.of_nat fuel ->
  exists k v, 1 <= k /\ luby_loop fuel i = Some (2 ^ k - 1) /\ v = 2 ^ (k - 1) /\ LubySeq i v.
Proof.
  induction fuel as [|f IH]; intros i H0 Hi Hf.
  - change (2 ^ N.of_nat 0) with 1 in Hf. lia.
  - cbn [luby_loop]. rewrite wrap32_id by lia. rewrite luby_test by assumption.
    pose proof (log2_bounds i H0) as [A B]. set (k := N.log2 i) in *.
    destruct (i =? 2 ^ (k + 1) - 1) eqn:E.
    + apply N.eqb_eq in E. exists (k + 1), (2 ^ k). repeat split; try lia.
      * now rewrite <- E.
      * f_equal. lia.
      * rewrite E. replace k with (k + 1 - 1) at 2 by lia. apply luby_end. lia.
    + assert (Hk : 2 ^ (k + 1) = 2 * 2 ^ k) by (rewrite N.add_1_r; apply N.pow_succ_r').
      assert (2 ^ k < 2 ^ 32) by lia.
      rewrite (log2_32_spec i) by lia. fold k. rewrite N.shiftl_1_l, (wrap32_id (2 ^ k)) by lia.
      assert (S1 : sub32 (2 ^ k) 1 = 2 ^ k - 1).
      { unfold sub32, wrap32. rewrite (N.mod_small (2 ^ k)) by lia. change (1 mod 2 ^ 32) with 1.
        pose proof (pow_pos k). change (2 ^ 32) with 4294967296 in *. lia. }
      rewrite S1.
      assert (S2 : sub32 i (2 ^ k - 1) = i - 2 ^ k + 1).
      { unfold sub32, wrap32. rewrite (N.mod_small i), (N.mod_small (2 ^ k - 1)) by lia.
        pose proof (pow_pos k). change (2 ^ 32) with 4294967296 in *. lia. }
      rewrite S2.
      assert (k < N.of_nat (S f)) by (apply (N.pow_lt_mono_r_iff 2); lia).
      assert (2 ^ k <= 2 ^ N.of_nat f) by (apply N.pow_le_mono_r; lia).
      destruct (IH (i - 2 ^ k + 1)) as (k' & v & K1 & K2 & K3 & K4); [lia|lia|lia|].
      exists k', v. repeat split; auto.
      apply luby_rec with (k + 1); replace (k + 1 - 1) with k by lia; auto; lia.
Qed.

Lemma luby_correct idx : idx < 2 ^ 32 - 2 -> exists v, lubyR idx = Some v /\ LubySeq (idx + 1) v.
Proof.
  intros H. unfold lubyR. rewrite wrap32_id by lia.
  destruct (luby_loop_spec 33 (idx + 1)) as (k & v & K1 & K2 & K3 & K4).
  - lia.
  - lia.
  - change (2 ^ N.of_nat 33) with 8589934592. change (2 ^ 32) with 4294967296 in *. lia.
  - rewrite K2. exists v. split; [|assumption]. f_equal.
    pose proof (pow_pos k). replace (2 ^ k - 1 + 1) with (2 ^ k) by lia.
    (* the value is at most idx + 1 *)
    assert (Hb : forall i w, LubySeq i w -> 0 < w /\ 2 * w <= i + 1).
    { clear. induction 1 as [k Hk|k i v Hk Hl Hu _ [IH1 IH2]].
      - pose proof (pow_pos (k - 1)). pose proof (pow_pred k Hk). lia.
      - lia. }
    pose proof (Hb _ _ K4) as [B1 B2].
    assert (2 ^ k = 2 * v) as E.
    { subst v. now apply pow_pred. }
    rewrite wrap32_id by lia. rewrite E, N.shiftr_div_pow2. change (2 ^ 1) with 2.
    rewrite N.mul_comm, N.div_mul; lia.
Qed.

Lemma luby_functional i v w : LubySeq i v -> LubySeq i w -> v = w.
Proof.
  assert (U : forall k k' i, 1 <= k -> 1 <= k' -> 2 ^ (k - 1) <= i -> i <= 2 ^ k - 1 ->
     2 ^ (k' - 1) <= i -> i <= 2 ^ k' - 1 -> k = k').
  { intros k k' j Hk Hk' A B C D. pose proof (pow_pos k). pose proof (pow_pos k').
    assert (k - 1 < k') by (apply (N.pow_lt_mono_r_iff 2); lia).
    assert (k' - 1 < k) by (apply (N.pow_lt_mono_r_iff 2); lia). lia. }
  assert (P : forall k, 1 <= k -> 2 ^ (k - 1) <= 2 ^ k - 1).
  { intros k Hk. pose proof (pow_pred k Hk). pose proof (pow_pos (k-1)). lia. }
  intros H. revert w. induction H as [k Hk|k i v Hk Hl Hu H IH]; intros w Hw.
  - inversion Hw as [k' Hk' E|k' i' v' Hk' Hl' Hu' H']; subst.
    + assert (k = k') as -> by (apply (U k k' (2 ^ k - 1)); auto; try lia; rewrite <- E; auto; lia). reflexivity.
    + exfalso. assert (k = k') as -> by (apply (U k k' (2 ^ k - 1)); auto; lia). lia.
  - inversion Hw as [k' Hk' E|k' i' v' Hk' Hl' Hu' H']; subst.
    + exfalso. assert (k = k') as -> by (apply (U k k' (2 ^ k' - 1)); auto; lia). lia.
    + assert (k = k') as -> by (apply (U k k' i); auto; lia). auto.
Qed.

Lemma luby_positive i v : LubySeq i v -> 0 < v /\ 2 * v <= i + 1.
Proof.
  induction 1 as [k Hk|k i v Hk Hl Hu _ [IH1 IH2]].
  - pose proof (pow_pos (k - 1)). pose proof (pow_pred k Hk). lia.
  - lia.
Qed.

Lemma luby_wraps : lubyR (2 ^ 32 - 2) = Some 0 /\ lubyR (2 ^ 32 - 1) = Some 0.
Proof. split; vm_compute; reflexivity. Qed.

(** * Schedules *)
Lemma iter_shift {A} n (f : A -> A) x : iter n f (f x) = f (iter n f x).
Proof. induction n; cbn; congruence. Qed.

Definition tri (x len : N) : N := x * len + x * (x - 1) / 2.
Lemma tri_even x : x * (x - 1) / 2 * 2 = x * (x - 1).
Proof.
  destruct (N.eq_dec x 0) as [->|]; [reflexivity|].
  assert (exists y, x = y + 1) as [y ->] by (exists (x - 1); lia).
  replace (y + 1 - 1) with y by lia.
  assert ((y + 1) * y mod 2 = 0) as E.
  { rewrite N.mul_mod by lia.
    assert (y mod 2 = 0 \/ y mod 2 = 1) as [E|E] by lia.
    - rewrite E, N.mul_0_r. reflexivity.
    - assert ((y + 1) mod 2 = 0) as -> by lia. reflexivity. }
  apply N.div_exact in E; lia.
Qed.
Lemma tri_succ x len : tri (x + 1) len = tri x len + (len + x).
Proof.
  unfold tri. pose proof (tri_even x) as E1. pose proof (tri_even (x + 1)) as E2.
  replace (x + 1 - 1) with x in * by lia.
  assert ((x + 1) * x = x * (x - 1) + 2 * x).
  { destruct (N.eq_dec x 0) as [->|]; [reflexivity|]. 
    assert (exists y, x = y + 1) as [y ->] by (exists (x - 1); lia).
    replace (y + 1 - 1) with y by lia. ring. }
  replace ((x + 1) * len) with (x * len + len) by ring. lia.
Qed.
Lemma tri_mono x y len : x <= y -> tri x len <= tri y len.
Proof.
  intros H. replace y with (x + (y - x)) by lia. generalize (y - x) as d. clear H.
  induction d using N.peano_ind; [now rewrite N.add_0_r|].
  replace (x + N.succ d) with (x + d + 1) by lia. rewrite tri_succ. lia.
Qed.

(** State after n steps, non-Luby with outer limit. *)
Lemma next_iter t b len n : is_luby t = false -> 0 < len -> N.of_nat n < 2 ^ 32 - 1 -> len < 2 ^ 32 - 1 ->
  exists x, iter n next (Sched t b 0 len) = Sched t b (N.of_nat n - tri x len) (len + x) /\
    tri x len <= N.of_nat n < tri (x + 1) len /\ (x = 0 \/ len + x <= N.of_nat n + 1).
Proof.
  intros Ht Hl Hn Hlen. induction n as [|n IH].
  - exists 0. pose proof (tri_succ 0 len) as T. change (tri 0 len) with 0 in *. change (N.of_nat 0) with 0 in *.
    cbn [iter]. repeat split; try lia. f_equal; lia.
  - destruct IH as (x & E & [B1 B2] & Hx); [lia|].
    cbn [iter]. rewrite E. unfold next. cbn [s_idx s_len s_type s_base]. rewrite Ht.
    rewrite (wrap32_id (N.of_nat n - tri x len + 1)) by lia.
    pose proof (tri_succ x len) as S1.
    destruct (N.of_nat n - tri x len + 1 =? len + x) eqn:Eq; cbn [negb].
    + replace (N.of_nat n - tri x len + 1 =? 0) with false by lia.
      exists (x + 1). rewrite N.shiftl_0_r.
      pose proof (tri_succ (x + 1) len) as S2.
      rewrite (wrap32_id (len + x + 1)) by lia. rewrite wrap32_id by lia.
      repeat split; try lia. f_equal; lia.
    + exists x. repeat split; try lia. f_equal; lia.
Qed.

Lemma advance_closed len n x : 0 < len ->
  tri x len <= n < tri (x + 1) len ->
  (N.sqrt (len * (4 * len - 4) + 8 * (n + 1)) + 1 - 2 * len) / 2 = x.
Proof.
  intros Hl [B1 B2]. set (D := len * (4 * len - 4) + 8 * (n + 1)). set (s := N.sqrt D).
  assert (exists c, len = c + 1) as [c Ec] by (exists (len - 1); lia).
  pose proof (tri_even x) as T1. rewrite tri_succ in B2. unfold tri in B1, B2.
  set (h := x * (x - 1) / 2) in *.
  assert (X2 : x * x = 2 * h + x).
  { destruct (N.eq_dec x 0) as [E|]; [subst h; rewrite E; reflexivity|].
    assert (x * (x - 1) + x = x * x).
    { assert (exists y, x = y + 1) as [y ->] by (exists (x - 1); lia). replace (y + 1 - 1) with y by lia. ring. }
    lia. }
  assert (DE : D = (2 * c + 1) * (2 * c + 1) + 8 * n + 7).
  { unfold D. rewrite Ec. replace (4 * (c + 1) - 4) with (4 * c) by lia. ring. }
  clearbody h. clear T1. subst len.
  assert (L : 2 * x + (2 * c + 1) <= s).
  { apply N.sqrt_le_square. rewrite DE.
    replace ((2 * x + (2 * c + 1)) * (2 * x + (2 * c + 1)))
      with ((2 * c + 1) * (2 * c + 1) + 8 * (x * (c + 1)) + 4 * (x * x) - 4 * x) by lia.
    rewrite X2. lia. }
  assert (U : s < 2 * (x + 1) + (2 * c + 1)).
  { destruct (N.le_gt_cases (2 * (x + 1) + (2 * c + 1)) s) as [G|]; [exfalso|assumption].
    apply N.sqrt_le_square in G. rewrite DE in G.
    replace ((2 * (x + 1) + (2 * c + 1)) * (2 * (x + 1) + (2 * c + 1)))
      with ((2 * c + 1) * (2 * c + 1) + 8 * (x * (c + 1)) + 4 * (x * x) + 4 * x + 8 * (c + 1)) in G by lia.
    rewrite X2 in G. lia. }
  lia.
Qed.

Lemma advance_next t b len n : is_luby t = false -> len < 2 ^ 32 - 1 -> N.of_nat n < 2 ^ 32 - 1 ->
  advanceTo (Sched t b 0 len) (N.of_nat n) = Some (iter n next (Sched t b 0 len)).
Proof.
  intros Ht Hl Hn. unfold advanceTo; cbn [s_len s_type s_base].
  destruct (len =? 0) eqn:E0; cbn [orb].
  - apply N.eqb_eq in E0. subst len. f_equal.
    revert Hn. induction n as [|n IH]; intros Hn; [reflexivity|].
    cbn [iter]. rewrite <- IH by lia. unfold next; cbn [s_idx s_len s_type s_base].
    rewrite wrap32_id by lia. replace (N.of_nat n + 1 =? 0) with false by lia. cbn [negb]. f_equal. lia.
  - destruct (next_iter t b len n Ht) as (x & E & B & Hx); [lia|assumption|assumption|].
    rewrite E.
    destruct (N.of_nat n <? len) eqn:E1.
    + assert (x = 0) as ->.
      { destruct B as [B _]. destruct (N.eq_dec x 0) as [|]; [assumption|exfalso].
        assert (tri 1 len <= tri x len) as M by (apply tri_mono; lia).
        pose proof (tri_succ 0 len) as T. change (tri 0 len) with 0 in T. change (0 + 1) with 1 in T. lia. }
      unfold tri. cbn. f_equal. f_equal; lia.
    + rewrite (wrap32_id (N.of_nat n + 1)) by lia.
      rewrite (advance_closed len (N.of_nat n) x) by (lia || assumption).
      assert (x <> 0).
      { intros ->. destruct B as [_ B]. rewrite tri_succ in B. change (tri 0 len) with 0 in B. lia. }
      replace (x * len + (x - 1) * x / 2) with (tri x len) by (unfold tri; now rewrite (N.mul_comm (x - 1))).
      unfold sub32. rewrite (wrap32_id (tri x len)), (wrap32_id (tri x len)) by lia. rewrite (wrap32_id (N.of_nat n)) by lia.
      rewrite (wrap32_id (len + x)) by lia.
      destruct t; [| |discriminate]; do 2 f_equal; unfold wrap32; change (2 ^ 32) with 4294967296 in *; lia.
Qed.

(** ** Luby schedule *)
Definition lenL (k : N) : N := (2 ^ k - 1) * 2.
Lemma lenL_succ k : lenL (k + 1) = 2 * (lenL k + 1).
Proof. unfold lenL. rewrite N.add_1_r, N.pow_succ_r'. pose proof (pow_pos k). lia. Qed.

Lemma luby_next_noreach b len : forall n i, i + N.of_nat n < len -> len < 2 ^ 32 ->
  iter n next (Sched Luby b i len) = Sched Luby b (i + N.of_nat n) len.
Proof.
  induction n as [|n IH]; intros i H H32; [cbn; f_equal; lia|].
  cbn [iter]. rewrite IH by lia. unfold next; cbn [s_idx s_len s_type s_base].
  rewrite wrap32_id by lia. replace (i + N.of_nat n + 1 =? len) with false by lia. cbn [negb]. f_equal. lia.
Qed.
Lemma iter_add {A} n m (f : A -> A) x : iter (n + m) f x = iter n f (iter m f x).
Proof. induction n; cbn; congruence. Qed.
Lemma luby_next_wrap b len : 0 < len -> len < 2 ^ 31 - 1 ->
  iter (N.to_nat len) next (Sched Luby b 0 len) = Sched Luby b 0 (2 * (len + 1)).
Proof.
  intros H H31. change (2 ^ 31) with 2147483648 in *.
  replace (N.to_nat len) with (S (N.to_nat (len - 1))) by lia.
  cbn [iter]. rewrite luby_next_noreach by (change (2 ^ 32) with 4294967296; lia).
  unfold next; cbn [s_idx s_len s_type s_base is_luby].
  rewrite wrap32_id by (change (2 ^ 32) with 4294967296; lia).
  replace (0 + N.of_nat (N.to_nat (len - 1)) + 1 =? len) with true by lia. cbn [negb].
  replace (0 + N.of_nat (N.to_nat (len - 1)) + 1 =? 0) with false by lia.
  rewrite (wrap32_id (len + 1)) by (change (2 ^ 32) with 4294967296; lia).
  rewrite N.shiftl_mul_pow2. change (2 ^ 1) with 2.
  rewrite wrap32_id by (change (2 ^ 32) with 4294967296; lia). f_equal. lia.
Qed.

Lemma advance_luby_spec b fuel : forall k n, 1 <= k -> k <= 31 -> n < 2 ^ 32 - 2 -> 32 <= k + N.of_nat fuel ->
  exists i l, advance_luby (S fuel) n (lenL k) = Some (i, l) /\
    Sched Luby b i l = iter (N.to_nat n) next (Sched Luby b 0 (lenL k)).
Proof.
  induction fuel as [|f IH]; intros k n Hk1 Hk Hn Hf; [lia|].
  assert (Hlen : 0 < lenL k).
  { unfold lenL. assert (2 ^ 1 <= 2 ^ k) by (apply N.pow_le_mono_r; lia). change (2 ^ 1) with 2 in *. lia. }
  assert (Hlen2 : lenL k <= 2 ^ 32 - 2).
  { unfold lenL. assert (2 ^ k <= 2 ^ 31) by (apply N.pow_le_mono_r; lia). change (2 ^ 31) with 2147483648 in *. 
    change (2 ^ 32) with 4294967296 in *. lia. }
  remember (S f) as sf. cbn [advance_luby]. subst sf. destruct (n <? lenL k) eqn:E.
  - exists n, (lenL k). split; [reflexivity|]. rewrite luby_next_noreach by lia. f_equal. lia.
  - assert (k <= 30).
    { destruct (N.le_gt_cases k 30); [assumption|exfalso]. assert (k = 31) as -> by lia.
      unfold lenL in E. change (2 ^ 31) with 2147483648 in *. change (2 ^ 32) with 4294967296 in *. lia. }
    assert (Hlen3 : lenL k < 2 ^ 31 - 1).
    { unfold lenL. assert (2 ^ k <= 2 ^ 30) by (apply N.pow_le_mono_r; lia). change (2 ^ 30) with 1073741824 in *.
      change (2 ^ 31) with 2147483648 in *. lia. }
    assert (S1 : sub32 n (lenL k) = n - lenL k).
    { unfold sub32, wrap32. change (2 ^ 32) with 4294967296 in *. lia. }
    change (2 ^ 31) with 2147483648 in *. change (2 ^ 32) with 4294967296 in *.
    rewrite S1, (wrap32_id (lenL k + 1)) by (change (2 ^ 32) with 4294967296; lia).
    rewrite wrap32_id by (change (2 ^ 32) with 4294967296; lia). rewrite <- lenL_succ.
    destruct (IH (k + 1) (n - lenL k)) as (i & l & E1 & E2); [lia|lia|change (2 ^ 32) with 4294967296; lia|lia|].
    exists i, l. split; [exact E1|]. rewrite E2.
    replace (N.to_nat n) with (N.to_nat (n - lenL k) + N.to_nat (lenL k))%nat by lia.
    rewrite iter_add, luby_next_wrap, <- lenL_succ by (change (2 ^ 31) with 2147483648; lia). reflexivity.
Qed.

Lemma advance_next_luby b len n : (len = 0 \/ exists k, 1 <= k <= 31 /\ len = (2 ^ k - 1) * 2) -> N.of_nat n < 2 ^ 32 - 2 ->
  advanceTo (Sched Luby b 0 len) (N.of_nat n) = Some (iter n next (Sched Luby b 0 len)).
Proof.
  intros Hlen Hn. unfold advanceTo; cbn [s_len s_type s_base].
  destruct (len =? 0) eqn:E0; cbn [orb].
  - apply N.eqb_eq in E0. subst len. f_equal. clear Hlen.
    revert Hn. induction n as [|n IH]; intros Hn; [reflexivity|].
    cbn [iter]. rewrite <- IH by lia. unfold next; cbn [s_idx s_len s_type s_base].
    rewrite wrap32_id by lia. replace (N.of_nat n + 1 =? 0) with false by lia. cbn [negb]. f_equal. lia.
  - destruct Hlen as [->|(k & [Hk1 Hk2] & ->)]; [discriminate|]. fold (lenL k).
    destruct (advance_luby_spec b 32 k (N.of_nat n) Hk1 Hk2 Hn) as (i & l & E1 & E2); [lia|].
    destruct (N.of_nat n <? lenL k) eqn:E.
    + change 33%nat with (S 32) in E1. cbn [advance_luby] in E1. rewrite E in E1. injection E1 as <- <-.
      rewrite E2, Nat2N.id. reflexivity.
    + rewrite E1, E2, Nat2N.id. reflexivity.
Qed.

Lemma luby_len_form lim : 0 < lim -> lim <= 2 ^ 31 -> exists k, 1 <= k <= 31 /\ luby_len lim = (2 ^ k - 1) * 2.
Proof.
  intros H0 H. unfold luby_len.
  destruct (N.eq_dec lim 1) as [->|].
  - exists 1. split; [lia|reflexivity].
  - exists (N.log2_up lim). assert (1 <= N.log2_up lim).
    { change 1 with (N.log2_up 2). apply N.log2_up_le_mono. lia. }
    assert (N.log2_up lim <= 31).
    { change 31 with (N.log2_up (2 ^ 31)). apply N.log2_up_le_mono. lia. }
    split; [lia|]. assert (2 ^ 1 <= 2 ^ N.log2_up lim) by (apply N.pow_le_mono_r; lia).
    change (2 ^ 1) with 2 in *. lia.
Qed.

(** * choose *)
Lemma binom_0 n : binom n 0 = 1. Proof. destruct n; reflexivity. Qed.
Lemma binom_big n : forall k, (n < k)%nat -> binom n k = 0.
Proof. induction n; intros [|k] H; try lia; cbn; [reflexivity|]. rewrite !IHn by lia. reflexivity. Qed.
Lemma binom_diag n : binom n n = 1.
Proof. induction n; cbn; [reflexivity|]. rewrite IHn, binom_big by lia. reflexivity. Qed.
Lemma binom_sym n : forall k, (k <= n)%nat -> binom n k = binom n (n - k).
Proof.
  induction n as [|n IH]; intros k H; [now replace k with 0%nat by lia|].
  destruct k as [|k]; [now rewrite binom_0, Nat.sub_0_r, binom_diag|].
  destruct (Nat.eq_dec k n) as [->|].
  - rewrite binom_diag, Nat.sub_diag, binom_0. reflexivity.
  - replace (S n - S k)%nat with (S (n - S k)) by lia. cbn [binom].
    rewrite (IH k) by lia. rewrite (IH (S k)) by lia.
    replace (S (n - S k)) with (n - k)%nat by lia. lia.
Qed.
Lemma binom_le_pow n : forall k, binom n k <= 2 ^ N.of_nat n.
Proof.
  induction n as [|n IH]; intros [|k]; cbn [binom]; try (pose proof (pow_pos (N.of_nat (S n))); cbn in *; lia).
  - cbn. lia.
  - cbn. lia.
  - rewrite Nat2N.inj_succ, N.pow_succ_r'. pose proof (IH k). pose proof (IH (S k)). lia.
Qed.
(** absorption: (k+1) C(n,k+1) = (n-k) C(n,k) *)
Lemma binom_absorb n : forall k, (k <= n)%nat -> N.of_nat (S k) * binom n (S k) = N.of_nat (n - k) * binom n k.
Proof.
  induction n as [|n IH]; intros k H.
  - replace k with 0%nat by lia. reflexivity.
  - destruct k as [|k].
    + cbn [binom]. rewrite !binom_0. specialize (IH 0%nat ltac:(lia)). rewrite binom_0 in IH. lia.
    + change (binom (S n) (S (S k))) with (binom n (S k) + binom n (S (S k))).
      change (binom (S n) (S k)) with (binom n k + binom n (S k)).
      pose proof (IH k ltac:(lia)) as I1.
      destruct (Nat.eq_dec k n) as [->|].
      * rewrite (binom_big n (S n)), (binom_big n (S (S n))) by lia. lia.
      * pose proof (IH (S k) ltac:(lia)) as I2.
        replace (S n - S k)%nat with (n - k)%nat by lia.
        replace (N.of_nat (n - S k)) with (N.of_nat (n - k) - 1) in I2 by lia.
        assert (1 <= N.of_nat (n - k)) by lia.
        set (a := binom n k) in *. set (b := binom n (S k)) in *. set (c := binom n (S (S k))) in *.
        set (m := N.of_nat (n - k)) in *. rewrite (Nat2N.inj_succ (S k)) in *. set (j := N.of_nat (S k)) in *.
        nia.
Qed.
Lemma choose_loop_spec n s : forall i, (1 <= i)%nat -> (i + s <= n)%nat -> (n <= 59)%nat ->
  (2 * (i + s) <= n)%nat ->
  choose_loop s (N.of_nat (S i)) (N.of_nat n) (binom n i) = binom n (i + s).
Proof.
  induction s as [|s IH]; intros i Hi His Hn Hh.
  - cbn. now rewrite Nat.add_0_r.
  - cbn [choose_loop].
    assert (E : binom n i * (N.of_nat n + 1 - N.of_nat (S i)) = N.of_nat (S i) * binom n (S i)).
    { rewrite binom_absorb by lia. replace (N.of_nat n + 1 - N.of_nat (S i)) with (N.of_nat (n - i)) by lia. lia. }
    rewrite E. unfold wrap64. rewrite N.mod_small.
    + rewrite N.mul_comm, N.div_mul by lia.
      replace (N.of_nat (S i) + 1) with (N.of_nat (S (S i))) by lia.
      rewrite IH by lia. f_equal. lia.
    + pose proof (binom_le_pow n (S i)) as B.
      assert (2 ^ N.of_nat n <= 2 ^ 59) by (apply N.pow_le_mono_r; lia).
      change (2 ^ 59) with 576460752303423488 in *. change (2 ^ 64) with 18446744073709551616 in *. nia.
Qed.
Lemma choose_correct n k : (n <= 59)%nat -> (k < 1000)%nat -> choose (N.of_nat n) (N.of_nat k) = binom n k.
Proof.
  intros Hn Hk. unfold choose.
  destruct (N.of_nat k =? 0) eqn:E0; [replace k with 0%nat by lia; now rewrite binom_0|].
  destruct (N.of_nat n <? N.of_nat k) eqn:E1; [symmetry; apply binom_big; lia|].
  rewrite wrap32_id by (change (2 ^ 32) with 4294967296; lia).
  assert (G : forall k', (1 <= k')%nat -> (2 * k' <= n)%nat -> choose_loop (N.to_nat (N.of_nat k' - 1)) 2 (N.of_nat n) (N.of_nat n) = binom n k').
  { intros k' H1 H2. replace (N.to_nat (N.of_nat k' - 1)) with (k' - 1)%nat by lia.
    replace (N.of_nat n) with (binom n 1) at 2.
    - change 2 with (N.of_nat 2). rewrite choose_loop_spec by lia. f_equal. lia.
    - pose proof (binom_absorb n 0 ltac:(lia)) as A. rewrite binom_0 in A. lia. }
  destruct (N.of_nat n <? 2 * N.of_nat k) eqn:E2.
  - destruct (N.of_nat n - N.of_nat k =? 0) eqn:E3.
    + replace k with n by lia. symmetry. apply binom_diag.
    + rewrite (binom_sym n k) by lia. rewrite <- (G (n - k)%nat) by lia. do 2 f_equal; lia.
  - rewrite E0. apply G; lia.
Qed.

Lemma advance_double_wrong : exists len n,
  len < 2 ^ 32 - 1 /\ N.of_nat n < 2 ^ 32 - 1 /\ len <= N.of_nat n /\
  advance_double len (N.of_nat n) <>
    Some (s_idx (iter n next (Sched Arithmetic 100 0 len)), s_len (iter n next (Sched Arithmetic 100 0 len))).
Proof.
  exists 33554431, (N.to_nat 67108862).
  rewrite N2Nat.id. split; [reflexivity|]. split; [reflexivity|]. split; [discriminate|].
  assert (E : advanceTo (Sched Arithmetic 100 0 33554431) 67108862 =
    Some (iter (N.to_nat 67108862) next (Sched Arithmetic 100 0 33554431))).
  { rewrite <- (N2Nat.id 67108862) at 1. apply advance_next; [reflexivity|reflexivity|].
    rewrite N2Nat.id. reflexivity. }
  set (st := iter (N.to_nat 67108862) next (Sched Arithmetic 100 0 33554431)) in *. clearbody st.
  assert (E2 : advanceTo (Sched Arithmetic 100 0 33554431) 67108862 = Some (Sched Arithmetic 100 33554431 33554432)) by (vm_compute; reflexivity).
  rewrite E2 in E. injection E as <-.
  assert (E3 : advance_double 33554431 67108862 = Some (4294967295, 33554433)) by (vm_compute; reflexivity).
  rewrite E3. cbn. discriminate.
Qed.

Lemma next_unlimited s : s_len s = 0 -> s_idx s < 2 ^ 32 ->
  next s = Sched (s_type s) (s_base s) ((s_idx s + 1) mod 2 ^ 32) 0.
Proof.
  intros L H. unfold next. rewrite L. fold (wrap32 (s_idx s + 1)).
  destruct (wrap32 (s_idx s + 1) =? 0) eqn:E; cbn [negb]; [|reflexivity].
  apply N.eqb_eq in E. rewrite E. destruct (is_luby (s_type s)); reflexivity.
Qed.
Lemma next_limited s : s_idx s < s_len s -> s_len s < 2 ^ 31 - 1 ->
  next s = if s_idx s + 1 =? s_len s
           then Sched (s_type s) (s_base s) 0 (if is_luby (s_type s) then 2 * (s_len s + 1) else s_len s + 1)
           else Sched (s_type s) (s_base s) (s_idx s + 1) (s_len s).
Proof.
  intros H L. unfold next, wrap32. rewrite (N.mod_small (s_idx s + 1)) by (change (2 ^ 31 - 1) with 2147483647 in L; change (2 ^ 32) with 4294967296; lia).
  destruct (s_idx s + 1 =? s_len s) eqn:E; cbn [negb]; [|reflexivity].
  apply N.eqb_eq in E. destruct (s_idx s + 1 =? 0) eqn:E0; [apply N.eqb_eq in E0; lia|].
  change (2 ^ 31 - 1) with 2147483647 in L; change (2 ^ 32) with 4294967296.
  f_equal. rewrite (N.mod_small (s_len s + 1)) by lia.
  destruct (is_luby (s_type s)); [|rewrite N.shiftl_0_r,  N.mod_small; [reflexivity|lia]].
  rewrite N.shiftl_mul_pow2. change (2 ^ 1) with 2. rewrite N.mod_small; lia.
Qed.

Lemma next_no_limit : forall s, s_len s = 0 -> s_idx s < 2 ^ 32 -> s_len (next s) = 0 /\ s_idx (next s) = (s_idx s + 1) mod 2 ^ 32 /\ s_type (next s) = s_type s /\ s_base (next s) = s_base s.
Proof.
  intros [t b i l] L I. cbn [s_len s_idx s_type s_base] in *. subst l. unfold next. cbn [s_len s_idx s_type s_base]. change ((i + 1) mod 2 ^ 32) with (wrap32 (i + 1)).
  destruct (N.eqb_spec (wrap32 (i + 1)) 0) as [E|E]; cbn [negb s_len s_idx s_type s_base]; repeat split; auto.
Qed.
Lemma no_limit : forall n s, s_len s = 0 -> s_idx s < 2 ^ 32 ->
  s_len (iter n next s) = 0 /\ s_idx (iter n next s) = (s_idx s + N.of_nat n) mod 2 ^ 32 /\ s_type (iter n next s) = s_type s /\ s_base (iter n next s) = s_base s.
Proof.
  induction n as [|n IH]; intros s L I.
  - cbn [iter]. change (N.of_nat 0) with 0. rewrite N.add_0_r, N.mod_small by exact I. auto.
  - cbn [iter]. destruct (IH s L I) as [E [F [G H]]]. assert (I' : s_idx (iter n next s) < 2 ^ 32) by (rewrite F; apply N.mod_lt; discriminate). destruct (next_no_limit _ E I') as [A [B [C D]]]. rewrite A, B, C, D, F. repeat split; auto.
    rewrite N.add_mod_idemp_l by discriminate. f_equal. rewrite Nat2N.inj_succ. lia.
Qed.
