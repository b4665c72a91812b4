(** Bit-field lemmas on [N] used by the packed-word models. *)
From Coq Require Import NArith ZArith Bool Lia ZifyBool ZifyN.
Local Open Scope N_scope.
Ltac Zify.zify_post_hook ::= Z.div_mod_to_equations.

(** The [w]-bit field of [x] starting at bit [lo]. *)
Definition field (lo w x : N) : N := (x / 2 ^ lo) mod 2 ^ w.

Lemma tb_field lo w x i : N.testbit (field lo w x) i = (i <? w) && N.testbit x (i + lo).
Proof.
  unfold field. destruct (i <? w) eqn:E.
  - rewrite N.mod_pow2_bits_low by lia. now rewrite N.div_pow2_bits.
  - rewrite N.mod_pow2_bits_high by lia. reflexivity.
Qed.

Lemma tb_ones w i : N.testbit (N.ones w) i = (i <? w).
Proof.
  destruct (i <? w) eqn:E.
  - apply N.ones_spec_low; lia.
  - apply N.ones_spec_high; lia.
Qed.

Lemma tb_shiftl x k i : N.testbit (N.shiftl x k) i = (k <=? i) && N.testbit x (i - k).
Proof.
  destruct (k <=? i) eqn:E.
  - rewrite N.shiftl_spec_high'; [reflexivity|lia].
  - rewrite N.shiftl_spec_low; [reflexivity|lia].
Qed.

Lemma tb_shiftr x k i : N.testbit (N.shiftr x k) i = N.testbit x (i + k).
Proof. apply N.shiftr_spec'. Qed.

Lemma tb_small x w i : x < 2 ^ w -> w <= i -> N.testbit x i = false.
Proof.
  intros Hx Hi. rewrite N.testbit_eqb.
  rewrite N.div_small; [reflexivity|].
  eapply N.lt_le_trans; [eassumption|]. apply N.pow_le_mono_r; lia.
Qed.

Lemma tb_pow2 n i : N.testbit (2 ^ n) i = (n =? i).
Proof.
  destruct (n =? i) eqn:E.
  - apply N.eqb_eq in E; subst. apply N.pow2_bits_true.
  - apply N.pow2_bits_false. lia.
Qed.

Lemma bits_lt x w : (forall i, w <= i -> N.testbit x i = false) -> x < 2 ^ w.
Proof.
  intros H. destruct (N.lt_ge_cases x (2 ^ w)) as [|Hge]; [assumption|exfalso].
  assert (x <> 0). { intros ->. pose proof (N.pow_nonzero 2 w). lia. }
  assert (w <= N.log2 x) by (apply N.log2_le_pow2; lia).
  pose proof (N.bit_log2 x) as B. rewrite H in B by assumption. discriminate B; assumption.
Qed.

Lemma field_lt lo w x : field lo w x < 2 ^ w.
Proof. apply N.mod_lt. apply N.pow_nonzero; lia. Qed.

Lemma land_pow2_eqb x n : negb (N.land x (2 ^ n) =? 0) = N.testbit x n.
Proof.
  destruct (N.testbit x n) eqn:E.
  - apply negb_true_iff, N.eqb_neq. intros H.
    assert (N.testbit (N.land x (2 ^ n)) n = true) as B.
    { rewrite N.land_spec, E, N.pow2_bits_true. reflexivity. }
    rewrite H, N.bits_0 in B. discriminate.
  - apply negb_false_iff, N.eqb_eq. apply N.bits_inj_0. intros i.
    rewrite N.land_spec, tb_pow2. destruct (n =? i) eqn:En.
    + apply N.eqb_eq in En; subst. now rewrite E.
    + apply andb_false_r.
Qed.

Lemma testbit_field x n : N.testbit x n = (field n 1 x =? 1).
Proof.
  unfold field. rewrite N.testbit_eqb. reflexivity.
Qed.

Lemma shiftl_lt x a b : x < 2 ^ a -> N.shiftl x b < 2 ^ (a + b).
Proof.
  intros. rewrite N.shiftl_mul_pow2, N.pow_add_r. apply N.mul_lt_mono_pos_r; [|assumption].
  pose proof (N.pow_nonzero 2 b). lia.
Qed.

(** Proves equalities between words built from and/or/xor/shift/field. *)
Ltac cmp_cases :=
  repeat match goal with
  | |- context [?a <=? ?b] => destruct (a <=? b) eqn:?
  | |- context [?a <? ?b] => destruct (a <? b) eqn:?
  | |- context [?a =? ?b] => destruct (a =? b) eqn:?
  end.
Ltac bits :=
  apply N.bits_inj; intro i;
  repeat (rewrite ?tb_field, ?N.lor_spec, ?N.ldiff_spec, ?N.land_spec, ?N.lxor_spec,
    ?tb_shiftl, ?tb_shiftr, ?tb_ones, ?tb_pow2, ?N.bits_0);
  cmp_cases; try (exfalso; lia); cbn [andb orb negb xorb];
  rewrite ?andb_true_r, ?andb_false_r, ?orb_false_r, ?orb_true_r, ?xorb_false_r;
  try reflexivity.
