From Coq Require Import NArith ZArith Bool Lia ZifyBool ZifyN.
From Verif Require Import LitModel.
Local Open Scope N_scope.
Ltac Zify.zify_post_hook ::= Z.div_mod_to_equations.

(** A literal word with variable [v], sign [s] and flag [f]. *)
Definition word (v : N) (s f : bool) : N := 4 * v + 2 * b2n s + b2n f.

Lemma wrap32_id x : x < 2 ^ 32 -> wrap32 x = x.
Proof. intros; apply N.mod_small; assumption. Qed.

Lemma mkLit_word v s : v < varMax -> mkLit v s = word v s false.
Proof.
  unfold mkLit, varMax, sign_bit, flag_bit, wrap32, word; intros H.
  rewrite !N.shiftl_mul_pow2. change (2 ^ 30) with 1073741824 in H.
  change (2 ^ 32) with 4294967296. change (2 ^ 2) with 4. change (2 ^ 1) with 2.
  destruct s; cbn [b2n]; lia.
Qed.

Lemma word_range v s f : v < varMax -> word v s f < 2 ^ 32.
Proof.
  unfold word, varMax. change (2 ^ 30) with 1073741824. change (2 ^ 32) with 4294967296.
  destruct s, f; cbn [b2n]; lia.
Qed.

Lemma word_lvar v s f : lvar (word v s f) = v.
Proof. destruct v, s, f; reflexivity. Qed.
Lemma word_lsign v s f : lsign (word v s f) = s.
Proof. destruct v, s, f; reflexivity. Qed.
Lemma word_lflagged v s f : lflagged (word v s f) = f.
Proof. destruct v, s, f; reflexivity. Qed.
Lemma word_lid v s f : lid (word v s f) = 2 * v + b2n s.
Proof. destruct v, s, f; reflexivity. Qed.
Lemma word_lnot v s f : lnot (word v s f) = word v (negb s) false.
Proof. destruct v, s, f; reflexivity. Qed.
Lemma word_lflag v s f : lflag (word v s f) = word v s true.
Proof. destruct v, s, f; reflexivity. Qed.
Lemma word_lunflag v s f : lunflag (word v s f) = word v s false.
Proof. destruct v, s, f; reflexivity. Qed.

Lemma word_inj v s f v' s' f' :
  word v s f = word v' s' f' -> v = v' /\ s = s' /\ f = f'.
Proof. unfold word; destruct s, f, s', f'; cbn [b2n]; lia. Qed.

(** Every 32-bit word is the word of some variable, sign and flag. *)
Lemma word_surj p : p < 2 ^ 32 -> exists v s f, v < varMax /\ p = word v s f.
Proof.
  intros H. unfold varMax. change (2 ^ 30) with 1073741824.
  change (2 ^ 32) with 4294967296 in H.
  exists (p / 4), ((p / 2) mod 2 =? 1), (p mod 2 =? 1). split; [lia|].
  unfold word, b2n. destruct (p mod 2 =? 1) eqn:E1; destruct ((p / 2) mod 2 =? 1) eqn:E2; lia.
Qed.

Lemma fromId_word v s : v < varMax -> fromId (2 * v + b2n s) = word v s false.
Proof.
  unfold fromId, flag_bit, varMax. change (2 ^ 30) with 1073741824. intros H.
  rewrite N.shiftl_mul_pow2. rewrite wrap32_id.
  - change (2 ^ 1) with 2. unfold word. cbn [b2n]. lia.
  - change (2 ^ 1) with 2. change (2 ^ 32) with 4294967296. destruct s; cbn [b2n]; lia.
Qed.

Lemma id_cases i : i < litIdMax ->
  exists v s, v < varMax /\ i = 2 * v + b2n s.
Proof.
  unfold litIdMax, varMax. change (2 ^ 30) with 1073741824. change (2 ^ 31) with 2147483648.
  intros H. exists (i / 2), (i mod 2 =? 1). split; [lia|].
  destruct (i mod 2 =? 1) eqn:E; cbn [b2n]; lia.
Qed.

Lemma xor_b2n v s b : N.lxor (2 * v + b2n s) (b2n b) = 2 * v + b2n (xorb s b).
Proof. destruct v, s, b; reflexivity. Qed.

Lemma word_xorSign v s f b : v < varMax -> lxorSign (word v s f) b = word v (xorb s b) false.
Proof. intros. unfold lxorSign. rewrite word_lid, xor_b2n. now apply fromId_word. Qed.

Lemma toInt_word v s f : v < varMax ->
  toInt (word v s f) = Some (if s then (- Z.of_N v)%Z else Z.of_N v).
Proof.
  unfold varMax. change (2 ^ 30) with 1073741824. intros H.
  unfold toInt. rewrite word_lvar, word_lsign. unfold int32.
  change (- 2 ^ 31)%Z with (-2147483648)%Z. change (2 ^ 31)%Z with 2147483648%Z.
  destruct (((-2147483648 <=? Z.of_N v) && (Z.of_N v <? 2147483648))%Z) eqn:E; [|lia].
  destruct s; [|reflexivity].
  destruct (((-2147483648 <=? - Z.of_N v) && (- Z.of_N v <? 2147483648))%Z) eqn:E'; [|lia].
  reflexivity.
Qed.

Lemma toLit_range z : (Z.abs z < Z.of_N varMax)%Z ->
  toLit z = Some (word (Z.to_N (Z.abs z)) (z <? 0)%Z false).
Proof.
  unfold toLit, varMax. change (Z.of_N (2 ^ 30)) with 1073741824%Z. change (2 ^ 30) with 1073741824.
  intros H. unfold int32.
  change (- 2 ^ 31)%Z with (-2147483648)%Z. change (2 ^ 31)%Z with 2147483648%Z.
  destruct (z <? 0)%Z eqn:E.
  - destruct (((-2147483648 <=? - z) && (- z <? 2147483648))%Z) eqn:E'; [|lia].
    destruct (Z.to_N (- z) <? 1073741824) eqn:E2; [|lia].
    unfold negLit. rewrite mkLit_word by (unfold varMax; change (2 ^ 30) with 1073741824; lia).
    do 2 f_equal; lia.
  - destruct (Z.to_N z <? 1073741824) eqn:E2; [|lia].
    unfold posLit. rewrite mkLit_word by (unfold varMax; change (2 ^ 30) with 1073741824; lia).
    do 2 f_equal; lia.
Qed.

Lemma encodeLit_word v s f : v < varMax ->
  encodeLit (word v s f) = Some (if s then (- (Z.of_N v + 1))%Z else (Z.of_N v + 1)%Z).
Proof.
  unfold varMax. change (2 ^ 30) with 1073741824. intros H.
  unfold encodeLit. rewrite word_lvar, word_lsign.
  rewrite wrap32_id by (change (2 ^ 32) with 4294967296; lia). unfold int32.
  change (- 2 ^ 31)%Z with (-2147483648)%Z. change (2 ^ 31)%Z with 2147483648%Z.
  replace (Z.of_N (v + 1)) with (Z.of_N v + 1)%Z by lia.
  destruct (((-2147483648 <=? Z.of_N v + 1) && (Z.of_N v + 1 <? 2147483648))%Z) eqn:E; [|lia].
  destruct s; [|reflexivity].
  destruct (((-2147483648 <=? - (Z.of_N v + 1)) && (- (Z.of_N v + 1) <? 2147483648))%Z) eqn:E'; [|lia].
  reflexivity.
Qed.

Lemma decodeLit_pos v (s : bool) : v < varMax ->
  decodeLit (if s then (- (Z.of_N v + 1))%Z else (Z.of_N v + 1)%Z) = Some (word v s false).
Proof.
  unfold varMax. change (2 ^ 30) with 1073741824. intros H.
  unfold decodeLit, decodeVar, int32, wrap32.
  change (- 2 ^ 31)%Z with (-2147483648)%Z. change (2 ^ 31)%Z with 2147483648%Z.
  change (2 ^ 32 - 1) with 4294967295. change (2 ^ 32) with 4294967296.
  unfold varMax. change (2 ^ 30) with 1073741824.
  destruct s.
  - destruct (0 <=? - (Z.of_N v + 1))%Z eqn:E; [lia|].
    destruct (((-2147483648 <=? - - (Z.of_N v + 1)) && (- - (Z.of_N v + 1) <? 2147483648))%Z) eqn:E'; [|lia].
    replace ((Z.to_N (- - (Z.of_N v + 1)) + 4294967295) mod 4294967296) with v by lia.
    destruct (v <? 1073741824) eqn:E2; [|lia].
    rewrite mkLit_word by (unfold varMax; change (2 ^ 30) with 1073741824; lia).
    do 2 f_equal; lia.
  - destruct (0 <=? Z.of_N v + 1)%Z eqn:E; [|lia].
    replace ((Z.to_N (Z.of_N v + 1) + 4294967295) mod 4294967296) with v by lia.
    destruct (v <? 1073741824) eqn:E2; [|lia].
    rewrite mkLit_word by (unfold varMax; change (2 ^ 30) with 1073741824; lia).
    do 2 f_equal; lia.
Qed.

(** * Statements used by the property files *)

Lemma literal_roundtrip v s : v < varMax ->
  lvar (mkLit v s) = v /\ lsign (mkLit v s) = s /\ lflagged (mkLit v s) = false /\
  mkLit v s < 2 ^ 32 /\ lid (mkLit v s) < litIdMax /\
  fromId (lid (mkLit v s)) = mkLit v s.
Proof.
  intros H. rewrite !mkLit_word by assumption.
  rewrite word_lvar, word_lsign, word_lflagged, word_lid, fromId_word by assumption.
  repeat split; auto using word_range.
  unfold litIdMax, varMax in *. change (2 ^ 30) with 1073741824 in H.
  change (2 ^ 31) with 2147483648. destruct s; cbn [b2n]; lia.
Qed.

Lemma literal_eq_iff p q : p < 2 ^ 32 -> q < 2 ^ 32 ->
  leq p q = true <-> lvar p = lvar q /\ lsign p = lsign q.
Proof.
  intros Hp Hq. destruct (word_surj p Hp) as (v & s & f & _ & ->).
  destruct (word_surj q Hq) as (v' & s' & f' & _ & ->).
  unfold leq. rewrite !word_lid, !word_lvar, !word_lsign, N.eqb_eq.
  destruct s, s'; cbn [b2n]; intuition (try lia; try congruence).
Qed.

Lemma literal_lt_iff p q : p < 2 ^ 32 -> q < 2 ^ 32 ->
  llt p q = true <-> (lvar p < lvar q \/ (lvar p = lvar q /\ lsign p = false /\ lsign q = true)).
Proof.
  intros Hp Hq. destruct (word_surj p Hp) as (v & s & f & _ & ->).
  destruct (word_surj q Hq) as (v' & s' & f' & _ & ->).
  unfold llt. rewrite !word_lid, !word_lvar, !word_lsign, N.ltb_lt.
  destruct s, s'; cbn [b2n]; intuition (try lia; try congruence).
Qed.

Lemma literal_complement p : p < 2 ^ 32 ->
  lnot p < 2 ^ 32 /\ lvar (lnot p) = lvar p /\ lsign (lnot p) = negb (lsign p) /\
  lflagged (lnot p) = false /\ leq (lnot (lnot p)) p = true /\ leq (lnot p) p = false.
Proof.
  intros Hp. destruct (word_surj p Hp) as (v & s & f & Hv & ->).
  rewrite !word_lnot, !word_lvar, !word_lsign, !word_lflagged. unfold leq. rewrite !word_lid.
  rewrite negb_involutive.
  repeat split; auto using word_range.
  - now rewrite N.eqb_refl.
  - apply N.eqb_neq. destruct s; cbn [b2n negb]; lia.
Qed.

Lemma literal_flag p : p < 2 ^ 32 ->
  lflag p < 2 ^ 32 /\ lunflag p < 2 ^ 32 /\
  lvar (lflag p) = lvar p /\ lsign (lflag p) = lsign p /\ lflagged (lflag p) = true /\
  lvar (lunflag p) = lvar p /\ lsign (lunflag p) = lsign p /\ lflagged (lunflag p) = false.
Proof.
  intros Hp. destruct (word_surj p Hp) as (v & s & f & Hv & ->).
  rewrite !word_lflag, !word_lunflag, !word_lvar, !word_lsign, !word_lflagged.
  repeat split; auto using word_range.
Qed.

Lemma literal_fromId i : i < litIdMax ->
  fromId i < 2 ^ 32 /\ lid (fromId i) = i /\ lflagged (fromId i) = false.
Proof.
  intros Hi. destruct (id_cases i Hi) as (v & s & Hv & ->).
  rewrite fromId_word by assumption. rewrite word_lid, word_lflagged.
  auto using word_range.
Qed.

Lemma literal_xor p b : p < 2 ^ 32 ->
  lvar (lxorSign p b) = lvar p /\ lsign (lxorSign p b) = xorb (lsign p) b.
Proof.
  intros Hp. destruct (word_surj p Hp) as (v & s & f & Hv & ->).
  rewrite word_xorSign by assumption. now rewrite !word_lvar, !word_lsign.
Qed.

Lemma literal_values p : p < 2 ^ 32 ->
  (trueValue p = if lsign p then value_false else value_true) /\
  (falseValue p = if lsign p then value_true else value_false) /\
  valSign (trueValue p) = lsign p /\ trueValue (lnot p) = falseValue p.
Proof.
  intros Hp. destruct (word_surj p Hp) as (v & s & f & Hv & ->).
  unfold trueValue, falseValue. rewrite word_lnot, !word_lsign. destruct s; repeat split.
Qed.

Lemma toLit_toInt v s : v < varMax -> v <> 0 ->
  exists z, toInt (mkLit v s) = Some z /\ toLit z = Some (mkLit v s).
Proof.
  intros Hv H0. rewrite mkLit_word by assumption. rewrite toInt_word by assumption.
  eexists; split; [reflexivity|].
  rewrite toLit_range by (unfold varMax in *; destruct s; lia).
  do 2 f_equal; destruct s; lia.
Qed.

Lemma toInt_toLit z : (Z.abs z < 2 ^ 30)%Z ->
  exists p, toLit z = Some p /\ toInt p = Some z /\ lvar p = Z.to_N (Z.abs z) /\ lsign p = (z <? 0)%Z.
Proof.
  change (2 ^ 30)%Z with (Z.of_N varMax).
  intros H. rewrite toLit_range by assumption. eexists; split; [reflexivity|].
  rewrite toInt_word by (unfold varMax in *; lia).
  rewrite word_lvar, word_lsign. repeat split. f_equal. destruct (z <? 0)%Z eqn:E; lia.
Qed.

Lemma decode_encode v s : v < varMax ->
  exists z, encodeLit (mkLit v s) = Some z /\ z <> 0%Z /\ decodeLit z = Some (mkLit v s) /\
            (z <? 0)%Z = s /\ decodeVar z = Some v.
Proof.
  intros Hv. rewrite mkLit_word by assumption. rewrite encodeLit_word by assumption.
  eexists; split; [reflexivity|]. rewrite decodeLit_pos by assumption.
  pose proof (decodeLit_pos v s Hv) as D. unfold decodeLit in D.
  destruct (decodeVar _) eqn:E; [|discriminate].
  destruct (n <? varMax) eqn:E2; [|discriminate]. injection D as D.
  rewrite mkLit_word in D by lia. apply word_inj in D. destruct D as (-> & D & _).
  repeat split; auto; destruct s; lia.
Qed.
