(** Lemmas about lexicographic comparison and the basic operations of BbModel.v *)
From Coq Require Import List Bool Arith ZArith Lia.
From Verif Require Import Base BbModel BbSpec.
Import ListNotations.
Open Scope Z_scope.
Ltac sp := repeat match goal with |- _ /\ _ => split end.

Definition eqp (k : nat) (a b : cost) : Prop := forall j, (j < k)%nat -> at_ a j = at_ b j.
Definition lt (k : nat) (a b : cost) : Prop := exists i, (i < k)%nat /\ (forall j, (j < i)%nat -> at_ a j = at_ b j) /\ at_ a i < at_ b i.
Lemma less_lt : forall n a b, less n a b <-> lt n a b. Proof. reflexivity. Qed.
Lemma lt_lex : forall n a b, lexLt n a b <-> lt n a b. Proof. reflexivity. Qed.
Lemma within_lt : forall n a b, within n a b <-> ~ lt n b a.
Proof. intros n a b. unfold within, lt. split; intros H [i [H1 [H2 H3]]]; apply H; exists i; sp; auto; intros; symmetry; auto. Qed.
Lemma eqp_sym : forall k a b, eqp k a b -> eqp k b a. Proof. intros k a b H j J. symmetry. auto. Qed.
Lemma eqp_trans : forall k a b c, eqp k a b -> eqp k b c -> eqp k a c. Proof. intros k a b c H1 H2 j J. rewrite H1; auto. Qed.
Lemma eqp_refl : forall k a, eqp k a a. Proof. intros k a j J; auto. Qed.
Lemma eqp_le : forall k m a b, eqp m a b -> (k <= m)%nat -> eqp k a b. Proof. intros k m a b H L j J. apply H. lia. Qed.
Lemma cmp3 : forall k a b, lt k a b \/ eqp k a b \/ lt k b a.
Proof.
  induction k as [|k IH]; intros a b.
  - right. left. intros j J. lia.
  - destruct (IH a b) as [[i [H1 [H2 H3]]]|[E|[i [H1 [H2 H3]]]]].
    + left. exists i. sp; auto.
    + destruct (Z_lt_ge_dec (at_ a k) (at_ b k)) as [L|L]; [left; exists k; sp; auto|].
      destruct (Z_lt_ge_dec (at_ b k) (at_ a k)) as [L'|L']; [right; right; exists k; sp; auto; intros; symmetry; auto|].
      right. left. intros j J. destruct (Nat.eq_dec j k) as [->|N]; [lia|apply E; lia].
    + right. right. exists i. sp; auto.
Qed.
Lemma lt_irrefl : forall k a, ~ lt k a a. Proof. intros k a [i [_ [_ H]]]. lia. Qed.
Lemma lt_trans : forall k a b c, lt k a b -> lt k b c -> lt k a c.
Proof.
  intros k a b c [i [H1 [H2 H3]]] [j [J1 [J2 J3]]]. destruct (lt_eq_lt_dec i j) as [[L| ->]|L].
  - exists i. sp; auto; [intros x X; rewrite H2, J2; auto; lia|]. rewrite <- (J2 i); auto.
  - exists j. sp; auto; [intros x X; rewrite H2, J2; auto|]. lia.
  - exists j. sp; auto; [intros x X; rewrite H2, J2; auto; lia|]. rewrite (H2 j); auto.
Qed.
Lemma lt_eq_l : forall k a a' b, eqp k a a' -> lt k a b -> lt k a' b.
Proof. intros k a a' b E [i [H1 [H2 H3]]]. exists i. sp; auto; [intros j J; rewrite <- E; auto; lia|]. rewrite <- E; auto. Qed.
Lemma lt_eq_r : forall k a b b', eqp k b b' -> lt k a b -> lt k a b'.
Proof. intros k a b b' E [i [H1 [H2 H3]]]. exists i. sp; auto; [intros j J; rewrite <- E; auto; lia|]. rewrite <- E; auto. Qed.
Lemma lt_eq_no : forall k a b, eqp k a b -> ~ lt k a b.
Proof. intros k a b E H. apply (lt_irrefl k b). apply (lt_eq_l k a b b E H). Qed.
Lemma lt_mono : forall k m a b, lt k a b -> (k <= m)%nat -> lt m a b. Proof. intros k m a b [i [H1 H2]] L. exists i. split; auto. lia. Qed.
Lemma lt_cut : forall k m a b, lt m a b -> (k <= m)%nat -> lt k a b \/ eqp k a b.
Proof.
  intros k m a b H L. destruct (cmp3 k a b) as [C|[C|C]]; auto. exfalso. apply (lt_irrefl m a). apply (lt_trans m a b a H). apply (lt_mono k m b a C L).
Qed.
Lemma nlt_cut : forall k m a b, ~ lt m b a -> (k <= m)%nat -> lt k a b \/ eqp k a b.
Proof. intros k m a b H L. destruct (cmp3 k a b) as [C|[C|C]]; auto. exfalso. apply H. apply (lt_mono k m); auto. Qed.
Lemma nlt_trans : forall k a b c, ~ lt k b a -> ~ lt k c b -> ~ lt k c a.
Proof.
  intros k a b c H1 H2 H3. destruct (cmp3 k b a) as [C|[C|C]]; auto.
  - apply H2. apply (lt_eq_r k c a b); auto. apply eqp_sym; auto.
  - apply H2. apply (lt_trans k c a b); auto.
Qed.
Lemma lt_nlt : forall k a b, lt k a b -> ~ lt k b a. Proof. intros k a b H1 H2. apply (lt_irrefl k a). apply (lt_trans k a b a); auto. Qed.
Lemma lt_nlt_trans : forall k a b c, lt k a b -> ~ lt k c b -> lt k a c.
Proof. intros k a b c H1 H2. destruct (cmp3 k b c) as [C|[C|C]]; [apply (lt_trans k a b c); auto|apply (lt_eq_r k a b c); auto|contradiction]. Qed.
Lemma nlt_lt_trans : forall k a b c, ~ lt k b a -> lt k b c -> lt k a c.
Proof. intros k a b c H1 H2. destruct (cmp3 k a b) as [C|[C|C]]; [apply (lt_trans k a b c); auto|apply (lt_eq_l k b a c); auto; apply eqp_sym; auto|contradiction]. Qed.
Lemma lt_S : forall k a b, eqp k a b -> at_ a k < at_ b k -> lt (S k) a b. Proof. intros k a b E H. exists k. sp; auto. Qed.
Lemma eqp_S : forall k a b, eqp k a b -> at_ a k = at_ b k -> eqp (S k) a b.
Proof. intros k a b E H j J. destruct (Nat.eq_dec j k) as [->|N]; auto. apply E. lia. Qed.

Lemma put_len : forall v i x, length (put v i x) = length v. Proof. induction v; intros [|i] x; cbn [put length]; auto. Qed.
Lemma put_eq : forall v i x, (i < length v)%nat -> at_ (put v i x) i = x.
Proof. unfold at_. induction v as [|y v IH]; intros [|i] x H; cbn [put length nth] in *; try lia. apply IH. lia. Qed.
Lemma put_neq : forall v i j x, i <> j -> at_ (put v i x) j = at_ v j.
Proof. unfold at_. induction v as [|y v IH]; intros [|i] [|j] x H; cbn [put nth]; auto; try congruence. Qed.
Lemma put_same : forall v i, put v i (at_ v i) = v.
Proof. unfold at_. induction v as [|y v IH]; intros [|i]; cbn [put nth]; auto. f_equal. apply IH. Qed.
Lemma at_rep : forall n x i, (i < n)%nat -> at_ (repeat x n) i = x.
Proof. unfold at_. intros n x i H. rewrite (nth_indep _ 0 x) by (rewrite repeat_length; auto). apply nth_repeat. Qed.
Lemma at_ext : forall n a b, length a = n -> length b = n -> (forall i, (i < n)%nat -> at_ a i = at_ b i) -> a = b.
Proof. unfold at_. intros n a b H1 H2 H3. apply (nth_ext a b 0 0); [congruence|]. intros i I. apply H3. lia. Qed.
Lemma all_max : forall n v, length v = n -> (forall i, (i < n)%nat -> at_ v i = bMax) -> v = repeat bMax n.
Proof. intros n v H1 H2. apply (at_ext n); auto; [apply repeat_length|]. intros i I. rewrite at_rep; auto. Qed.

Lemma half_bounds : forall d, 0 < d -> 1 <= Z.lor (Z.shiftr d 1) (Z.land d 1) /\ 2 * Z.lor (Z.shiftr d 1) (Z.land d 1) <= d + 1.
Proof.
  intros d H. rewrite Z.shiftr_div_pow2 by lia. change (2 ^ 1) with 2. change (Z.land d 1) with (Z.land d (Z.ones 1)). rewrite Z.land_ones by lia. change (2 ^ 1) with 2.
  set (q := d / 2). set (r := d mod 2). assert (E : d = 2 * q + r) by (apply Z.div_mod; lia). assert (R : 0 <= r < 2) by (apply Z.mod_pos_bound; lia).
  assert (Q : 0 <= q) by (apply Z.div_pos; lia).
  assert (r = 0 \/ r = 1) as [R0|R1] by lia.
  - rewrite R0, Z.lor_0_r. lia.
  - rewrite R1 in *. destruct q as [|p|p]; [cbn; lia| |lia]. destruct p as [p|p|]; cbn [Z.lor Pos.lor]; lia.
Qed.
