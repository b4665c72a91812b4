From Coq Require Import NArith ZArith Bool List Lia ZifyBool ZifyN.
From Verif Require Import LitModel LitProofs Bits PackModel PackSpec.
Import ListNotations.
Local Open Scope N_scope.
Ltac Zify.zify_post_hook ::= Z.div_mod_to_equations.

(** * Antecedent *)
Lemma id_lt p : p < 2 ^ 32 -> lid p < 2 ^ 31.
Proof.
  intros H. destruct (word_surj p H) as (v & s & f & Hv & ->). rewrite word_lid.
  unfold varMax in Hv. change (2 ^ 30) with 1073741824 in Hv. change (2 ^ 31) with 2147483648.
  destruct s; cbn [b2n]; lia.
Qed.

Lemma fromId_lid p : p < 2 ^ 32 -> fromId (lid p) = lunflag p.
Proof.
  intros H. destruct (word_surj p H) as (v & s & f & Hv & ->).
  rewrite word_lid, word_lunflag. now apply fromId_word.
Qed.

Lemma anteBin_val p : p < 2 ^ 32 -> anteBin p = lid p * 2 ^ 33 + 2.
Proof.
  intros H. pose proof (id_lt p H) as Hi. unfold anteBin, wrap64, tBinary.
  rewrite N.shiftl_mul_pow2. change (2 ^ 64) with 18446744073709551616. change (2 ^ 33) with 8589934592.
  change (2 ^ 31) with 2147483648 in Hi. lia.
Qed.

Lemma anteTern_val p q : p < 2 ^ 32 -> q < 2 ^ 32 ->
  anteTern p q = lid p * 2 ^ 33 + lid q * 4 + 1.
Proof.
  intros Hp Hq. pose proof (id_lt p Hp) as Hi. pose proof (id_lt q Hq) as Hj.
  unfold anteTern, wrap64, tTernary.
  rewrite !N.shiftl_mul_pow2. change (2 ^ 64) with 18446744073709551616. change (2 ^ 33) with 8589934592.
  change (2 ^ 2) with 4.
  change (2 ^ 31) with 2147483648 in *. lia.
Qed.

Lemma land3 x : N.land x 3 = x mod 4.
Proof. change 3 with (N.ones 2). now rewrite N.land_ones. Qed.

Lemma ante_binary p : p < 2 ^ 32 ->
  anteBin p < 2 ^ 64 /\ anteIsNull (anteBin p) = false /\ anteType (anteBin p) = tBinary /\
  anteFirst (anteBin p) = lunflag p /\ anteReason (anteBin p) = Some [lunflag p].
Proof.
  intros H. pose proof (id_lt p H) as Hi.
  assert (T : anteType (anteBin p) = tBinary).
  { unfold anteType. rewrite anteBin_val, land3 by assumption. unfold tBinary.
    change (2 ^ 33) with 8589934592. lia. }
  assert (F : anteFirst (anteBin p) = lunflag p).
  { unfold anteFirst. rewrite anteBin_val, N.shiftr_div_pow2 by assumption.
    rewrite <- fromId_lid by assumption. f_equal. unfold wrap32.
    change (2 ^ 33) with 8589934592. change (2 ^ 32) with 4294967296.
    change (2 ^ 31) with 2147483648 in Hi. lia. }
  unfold anteReason. rewrite T, F. cbn [tBinary N.eqb tGeneric tTernary Pos.eqb].
  repeat split; auto.
  - rewrite anteBin_val by assumption. change (2 ^ 33) with 8589934592.
    change (2 ^ 64) with 18446744073709551616. change (2 ^ 31) with 2147483648 in Hi. lia.
  - unfold anteIsNull. rewrite anteBin_val by assumption. lia.
Qed.

Lemma ante_ternary p q : p < 2 ^ 32 -> q < 2 ^ 32 ->
  anteTern p q < 2 ^ 64 /\ anteIsNull (anteTern p q) = false /\ anteType (anteTern p q) = tTernary /\
  anteFirst (anteTern p q) = lunflag p /\ anteSecond (anteTern p q) = lunflag q /\
  anteReason (anteTern p q) = Some [lunflag p; lunflag q].
Proof.
  intros H Hq. pose proof (id_lt p H) as Hi. pose proof (id_lt q Hq) as Hj.
  assert (T : anteType (anteTern p q) = tTernary).
  { unfold anteType. rewrite anteTern_val, land3 by assumption. unfold tTernary.
    change (2 ^ 33) with 8589934592. lia. }
  assert (F : anteFirst (anteTern p q) = lunflag p).
  { unfold anteFirst. rewrite anteTern_val, N.shiftr_div_pow2 by assumption.
    rewrite <- fromId_lid by assumption. f_equal. unfold wrap32.
    change (2 ^ 33) with 8589934592. change (2 ^ 32) with 4294967296.
    change (2 ^ 31) with 2147483648 in *. lia. }
  assert (S : anteSecond (anteTern p q) = lunflag q).
  { unfold anteSecond. rewrite anteTern_val by assumption. rewrite !N.shiftr_div_pow2.
    rewrite <- fromId_lid by assumption. f_equal. unfold wrap32.
    change (2 ^ 33) with 8589934592. change (2 ^ 32) with 4294967296. change (2 ^ 1) with 2.
    change (2 ^ 31) with 2147483648 in *. lia. }
  unfold anteReason. rewrite T, F, S. cbn [N.eqb tGeneric tTernary Pos.eqb].
  repeat split; auto.
  - rewrite anteTern_val by assumption. change (2 ^ 33) with 8589934592.
    change (2 ^ 64) with 18446744073709551616. change (2 ^ 31) with 2147483648 in *. lia.
  - unfold anteIsNull. rewrite anteTern_val by assumption. lia.
Qed.

Lemma ante_generic ptr : ptr < 2 ^ 64 -> ptr mod 4 = 0 ->
  anteType (anteCon ptr) = tGeneric /\ anteConstraint (anteCon ptr) = ptr /\
  (anteIsNull (anteCon ptr) = true <-> ptr = 0) /\ anteReason (anteCon ptr) = None.
Proof.
  intros _ H. unfold anteCon, anteConstraint, anteReason, anteType, anteIsNull.
  rewrite land3, H. repeat split; auto; apply N.eqb_eq.
Qed.

Lemma ante_injective p q p' q' : p < 2 ^ 32 -> q < 2 ^ 32 -> p' < 2 ^ 32 -> q' < 2 ^ 32 ->
  (anteBin p = anteBin p' -> leq p p' = true) /\
  (anteTern p q = anteTern p' q' -> leq p p' = true /\ leq q q' = true) /\
  anteBin p <> anteTern p' q'.
Proof.
  intros. unfold leq. rewrite !anteBin_val, !anteTern_val by assumption.
  pose proof (id_lt p) as I1. pose proof (id_lt q) as I2.
  pose proof (id_lt p') as I3. pose proof (id_lt q') as I4.
  change (2 ^ 33) with 8589934592. change (2 ^ 31) with 2147483648 in *. lia.
Qed.

(** * Constraint info *)
Definition abs (x : N) : info :=
  Info (sc_activity x) (sc_lbd x) (sc_bumped x) (ci_type x) (test_bit x AUX_BIT) (ci_tagged x).

Lemma bit_mask_pow n : n < 32 -> bit_mask n = 2 ^ n.
Proof.
  intros H. unfold bit_mask. rewrite N.shiftl_1_l. apply wrap32_id.
  apply N.pow_lt_mono_r; lia.
Qed.
Lemma test_bit_tb x n : n < 32 -> test_bit x n = N.testbit x n.
Proof. intros H. unfold test_bit. rewrite bit_mask_pow by assumption. apply land_pow2_eqb. Qed.

Lemma act_field x : sc_activity x = field 0 20 x.
Proof. unfold sc_activity, field, ACT_MAX. change (2 ^ 20 - 1) with (N.ones 20).
  rewrite N.land_ones, N.div_1_r. reflexivity. Qed.
Lemma lbdmask : LBD_MASK = N.shiftl (N.ones 7) 20. Proof. reflexivity. Qed.
Lemma typemask : TYPE_MASK = N.shiftl (N.ones 2) 28. Proof. reflexivity. Qed.
Lemma bitsmask : BITS_MASK = N.ones 28. Proof. reflexivity. Qed.
Lemma actmask : ACT_MAX = N.ones 20. Proof. reflexivity. Qed.

Lemma land_mask_shift x w lo : N.shiftr (N.land x (N.shiftl (N.ones w) lo)) lo = field lo w x.
Proof. bits. all: replace (i + lo - lo) with i in * by lia; try lia. all: auto. Qed.

Lemma land_mask_0 x w lo : (N.land x (N.shiftl (N.ones w) lo) =? 0) = (field lo w x =? 0).
Proof.
  rewrite <- land_mask_shift.
  destruct (N.land x (N.shiftl (N.ones w) lo) =? 0) eqn:E.
  - apply N.eqb_eq in E. rewrite E. now rewrite N.shiftr_0_l.
  - symmetry. apply N.eqb_neq. intros H. apply N.eqb_neq in E. apply E.
    apply N.bits_inj_0. intros i.
    destruct (lo <=? i) eqn:L.
    + assert (N.testbit (N.shiftr (N.land x (N.shiftl (N.ones w) lo)) lo) (i - lo) = false) as B
        by (rewrite H; apply N.bits_0).
      rewrite tb_shiftr in B. replace (i - lo + lo) with i in B by lia. exact B.
    + rewrite N.land_spec, tb_shiftl, L. apply andb_false_r.
Qed.

Definition lbd_of (b : N) : N := if b =? 0 then 127 else b.
Lemma lbd_field x : sc_lbd x = lbd_of (field 20 7 x).
Proof.
  unfold sc_lbd, sc_hasLbd, lbd_of, LBD_SHIFT. rewrite lbdmask, land_mask_0, land_mask_shift.
  destruct (field 20 7 x =? 0); reflexivity.
Qed.
Lemma type_field x : ci_type x = field 28 2 x.
Proof. unfold ci_type, TYPE_SHIFT. rewrite typemask. apply land_mask_shift. Qed.

(** Splitting a word into its fields. *)
Record wf_eq (x act lbdb : N) (bmp : bool) (ty : N) (aux tag : bool) : Prop := {
  w_act : field 0 20 x = act; w_lbd : field 20 7 x = lbdb; w_bmp : N.testbit x 27 = bmp;
  w_ty : field 28 2 x = ty; w_aux : N.testbit x 30 = aux; w_tag : N.testbit x 31 = tag }.

Lemma abs_wf x act lbdb bmp ty aux tag : wf_eq x act lbdb bmp ty aux tag ->
  abs x = Info act (lbd_of lbdb) bmp ty aux tag.
Proof.
  intros [<- <- <- <- <- <-]. unfold abs. unfold sc_bumped, ci_tagged.
  rewrite act_field, lbd_field, type_field.
  rewrite !test_bit_tb by reflexivity. reflexivity.
Qed.
Lemma wf_self x : wf_eq x (field 0 20 x) (field 20 7 x) (N.testbit x 27) (field 28 2 x) (N.testbit x 30) (N.testbit x 31).
Proof. split; reflexivity. Qed.

Ltac fieldtac :=
  match goal with
  | |- field _ _ _ = _ => bits
  | |- N.testbit _ _ = _ =>
      rewrite ?N.lor_spec, ?N.ldiff_spec, ?N.land_spec, ?N.lxor_spec, ?tb_shiftl, ?tb_ones, ?tb_pow2;
      cmp_cases; try (exfalso; lia); cbn [andb orb negb xorb]; rewrite ?andb_true_r, ?orb_false_r, ?andb_false_r; try reflexivity
  end.

Lemma wrap_shift_lbd l : N.min l 127 < 2 ^ 7 -> wrap32 (N.shiftl (N.min l LBD_MAX) LBD_SHIFT) = N.shiftl (N.min l 127) 20.
Proof.
  intros H. apply wrap32_id. apply N.lt_trans with (2 ^ (7 + 20)); [apply shiftl_lt; exact H|reflexivity].
Qed.

Ltac high H w := rewrite (tb_small _ w _ H) by lia; rewrite ?andb_false_r, ?orb_false_r; try reflexivity.

(** assign(makeScore ..) and reset produce the same fields. *)
Lemma min_lbd l : N.min l 127 < 2 ^ 7. Proof. change (2 ^ 7) with 128. lia. Qed.
Lemma min_act a : N.min a (2 ^ 20 - 1) < 2 ^ 20. Proof. change (2 ^ 20) with 1048576. lia. Qed.

Lemma word_fields act l rep :
  act < 2 ^ 20 -> l < 2 ^ 7 ->
  wf_eq (N.lor (N.lor (N.ldiff rep (N.ones 28)) (N.shiftl l 20)) act)
    act l false (field 28 2 rep) (N.testbit rep 30) (N.testbit rep 31).
Proof.
  intros Ha Hl. split; fieldtac.
  all: rewrite ?N.add_0_r; auto.
  all: rewrite ?(tb_small act 20) by (assumption || lia); rewrite ?orb_false_r; try reflexivity.
  all: rewrite ?(tb_small l 7) by (assumption || lia); rewrite ?orb_false_r; try reflexivity.
  all: try (replace (i + 20 - 20) with i by lia; reflexivity).
Qed.

Lemma reset_wf rep a l : wf_eq (sc_reset rep a l) (N.min a (2 ^ 20 - 1)) (N.min l 127) false (field 28 2 rep) (N.testbit rep 30) (N.testbit rep 31).
Proof.
  unfold sc_reset. rewrite wrap_shift_lbd by apply min_lbd. rewrite bitsmask.
  exact (word_fields _ _ rep (min_act a) (min_lbd l)).
Qed.

Lemma assign_make rep a l : sc_assign rep (makeScore a l) = sc_reset rep a l.
Proof.
  unfold sc_assign, makeScore, sc_reset. rewrite wrap_shift_lbd by apply min_lbd. rewrite !bitsmask.
  unfold ACT_MAX. pose proof (min_act a) as Ha. pose proof (min_lbd l) as Hl.
  rewrite N.ldiff_0_l, N.lor_0_l.
  rewrite <- N.lor_assoc. f_equal.
  bits.
  all: rewrite ?(tb_small (N.min a (2 ^ 20 - 1)) 20) by (assumption || lia).
  all: rewrite ?(tb_small (N.min l 127) 7) by (assumption || lia); reflexivity.
Qed.

Lemma lbd_of_min l : lbd_of (N.min l 127) = spec_lbd l.
Proof. unfold lbd_of, spec_lbd. destruct (l =? 0) eqn:E; [now replace l with 0 by lia|].
  destruct (N.min l 127 =? 0) eqn:E2; lia. Qed.
Lemma lbd_of_lt b : b < 2 ^ 7 -> lbd_of b <= 127 /\ 1 <= lbd_of b.
Proof. unfold lbd_of. change (2 ^ 7) with 128. destruct (b =? 0) eqn:E; lia. Qed.
Lemma spec_lbd_of b : b < 2 ^ 7 -> spec_lbd (lbd_of b) = lbd_of b.
Proof. intros H. pose proof (lbd_of_lt b H). unfold spec_lbd. destruct (lbd_of b =? 0) eqn:E; lia. Qed.


Lemma setType_wf x t : t < 4 ->
  wf_eq (ci_setType x t) (field 0 20 x) (field 20 7 x) (N.testbit x 27) t (N.testbit x 30) (N.testbit x 31).
Proof.
  intros Ht. unfold ci_setType, TYPE_SHIFT. rewrite typemask.
  rewrite wrap32_id by (apply N.lt_trans with (2 ^ (2 + 28)); [apply shiftl_lt; exact Ht|reflexivity]).
  split; fieldtac.
  all: rewrite ?(tb_small t 2) by (assumption || lia); rewrite ?orb_false_r; try reflexivity.
  all: try (replace (i + 28 - 28) with i by lia; reflexivity).
Qed.

Lemma bit_eq_dec (x : N) b n : n < 32 -> Bool.eqb (test_bit x n) b = true -> N.testbit x n = b.
Proof. intros H E. apply eqb_prop in E. rewrite test_bit_tb in E by assumption. exact E. Qed.
Lemma bit_neq_dec (x : N) b n : n < 32 -> Bool.eqb (test_bit x n) b = false -> N.testbit x n = negb b.
Proof. intros H E. apply eqb_false_iff in E. rewrite test_bit_tb in E by assumption.
  destruct (N.testbit x n), b; auto; congruence. Qed.

Lemma setTagged_wf x b :
  wf_eq (ci_setTagged x b) (field 0 20 x) (field 20 7 x) (N.testbit x 27) (field 28 2 x) (N.testbit x 30) b.
Proof.
  unfold ci_setTagged, store_toggle_bit, TAG_BIT. destruct (Bool.eqb (test_bit x 31) b) eqn:E.
  - apply bit_eq_dec in E; [|reflexivity]. subst b. apply wf_self.
  - apply bit_neq_dec in E; [|reflexivity]. rewrite bit_mask_pow by reflexivity.
    split; fieldtac; rewrite ?xorb_false_r; try reflexivity; rewrite E; now destruct b.
Qed.
Lemma setAux_wf x b :
  wf_eq (ci_setAux x b) (field 0 20 x) (field 20 7 x) (N.testbit x 27) (field 28 2 x) b (N.testbit x 31).
Proof.
  unfold ci_setAux, store_toggle_bit, AUX_BIT. destruct (Bool.eqb (test_bit x 30) b) eqn:E.
  - apply bit_eq_dec in E; [|reflexivity]. subst b. apply wf_self.
  - apply bit_neq_dec in E; [|reflexivity]. rewrite bit_mask_pow by reflexivity.
    split; fieldtac; rewrite ?xorb_false_r; try reflexivity; rewrite E; now destruct b.
Qed.
Lemma clearBumped_wf x :
  wf_eq (sc_clearBumped x) (field 0 20 x) (field 20 7 x) false (field 28 2 x) (N.testbit x 30) (N.testbit x 31).
Proof.
  unfold sc_clearBumped, store_clear_bit, BMP_BIT. rewrite bit_mask_pow by reflexivity.
  split; fieldtac.
Qed.
Lemma bumpActivity_wf x : x < 2 ^ 32 ->
  wf_eq (sc_bumpActivity x) (N.min (field 0 20 x + 1) (2 ^ 20 - 1)) (field 20 7 x) (N.testbit x 27) (field 28 2 x) (N.testbit x 30) (N.testbit x 31).
Proof.
  intros Hx. unfold sc_bumpActivity. rewrite act_field. unfold ACT_MAX.
  pose proof (field_lt 0 20 x) as Hf.
  destruct (field 0 20 x <? 2 ^ 20 - 1) eqn:E.
  - assert (x + 1 < 2 ^ 32).
    { unfold field in *. change (2 ^ 0) with 1 in *. rewrite N.div_1_r in *.
      change (2 ^ 20) with 1048576 in *. change (2 ^ 32) with 4294967296 in *. lia. }
    rewrite wrap32_id by assumption.
    split; rewrite ?testbit_field; unfold field in *; change (2 ^ 0) with 1 in *; rewrite ?N.div_1_r in *;
      change (2 ^ 20) with 1048576 in *; change (2 ^ 32) with 4294967296 in *;
      change (2 ^ 27) with 134217728; change (2 ^ 28) with 268435456; change (2 ^ 30) with 1073741824;
      change (2 ^ 31) with 2147483648; change (2 ^ 7) with 128; change (2 ^ 2) with 4; change (2 ^ 1) with 2; lia.
  - replace (N.min (field 0 20 x + 1) (2 ^ 20 - 1)) with (field 0 20 x).
    apply wf_self. change (2 ^ 20) with 1048576 in *. lia.
Qed.
Lemma bumpLbd_wf x l : l <? sc_lbd x = true ->
  wf_eq (sc_bumpLbd x l) (field 0 20 x) l true (field 28 2 x) (N.testbit x 30) (N.testbit x 31).
Proof.
  intros H. unfold sc_bumpLbd. rewrite H. rewrite lbd_field in H.
  pose proof (lbd_of_lt _ (field_lt 20 7 x)) as [Hle _].
  assert (Hl : l < 2 ^ 7) by (change (2 ^ 7) with 128; lia).
  unfold LBD_SHIFT, BMP_BIT. rewrite lbdmask, bit_mask_pow by reflexivity.
  rewrite wrap32_id by (apply N.lt_trans with (2 ^ (7 + 20)); [apply shiftl_lt; exact Hl|reflexivity]).
  split; fieldtac.
  all: rewrite ?(tb_small l 7) by (assumption || lia); rewrite ?orb_false_r; try reflexivity.
  all: try (replace (i + 20 - 20) with i by lia; reflexivity).
  all: apply orb_true_r.
Qed.
Lemma reduce_wf x :
  wf_eq (sc_reduce x) (field 0 20 x / 2) (field 20 7 x) false (field 28 2 x) (N.testbit x 30) (N.testbit x 31).
Proof.
  unfold sc_reduce. pose proof (clearBumped_wf x) as C. set (r := sc_clearBumped x) in *.
  rewrite act_field. destruct C as [Ca Cl Cb Ct Cx Cg]. rewrite Ca.
  destruct (field 0 20 x =? 0) eqn:E.
  - apply N.eqb_eq in E. rewrite E in *. split; auto.
  - rewrite actmask.
    assert (Hd : field 0 20 x / 2 = N.shiftr (field 0 20 x) 1) by (rewrite N.shiftr_div_pow2; reflexivity).
    rewrite Hd.
    assert (Hs : N.shiftr (field 0 20 x) 1 < 2 ^ 20).
    { rewrite <- Hd. pose proof (field_lt 0 20 x). lia. }
    set (h := N.shiftr (field 0 20 x) 1) in *. clearbody h.
    rewrite <- Cl, <- Cb, <- Ct, <- Cx, <- Cg.
    split; fieldtac.
    all: rewrite ?(tb_small h 20) by (assumption || lia); rewrite ?N.add_0_r, ?orb_false_r; try reflexivity.
Qed.

Lemma lor_lt a b w : a < 2 ^ w -> b < 2 ^ w -> N.lor a b < 2 ^ w.
Proof. intros. apply bits_lt; intros i Hi. rewrite N.lor_spec, (tb_small a w), (tb_small b w) by assumption. reflexivity. Qed.
Lemma lxor_lt a b w : a < 2 ^ w -> b < 2 ^ w -> N.lxor a b < 2 ^ w.
Proof. intros. apply bits_lt; intros i Hi. rewrite N.lxor_spec, (tb_small a w), (tb_small b w) by assumption. reflexivity. Qed.
Lemma ldiff_lt a b w : a < 2 ^ w -> N.ldiff a b < 2 ^ w.
Proof. intros. apply bits_lt; intros i Hi. rewrite N.ldiff_spec, (tb_small a w) by assumption. reflexivity. Qed.
Lemma land_lt a b w : b < 2 ^ w -> N.land a b < 2 ^ w.
Proof. intros. apply bits_lt; intros i Hi. rewrite N.land_spec, (tb_small b w) by assumption. apply andb_false_r. Qed.
Lemma wrap32_lt x : wrap32 x < 2 ^ 32.
Proof. apply N.mod_lt. discriminate. Qed.

Lemma reset_lt x a l : x < 2 ^ 32 -> sc_reset x a l < 2 ^ 32.
Proof.
  intros. unfold sc_reset. repeat apply lor_lt; auto using ldiff_lt, wrap32_lt.
  apply N.lt_trans with (2 ^ 20); [apply min_act|reflexivity].
Qed.

Lemma step_lt x o : x < 2 ^ 32 -> info_step x o < 2 ^ 32.
Proof.
  intros Hx. destruct o; cbn [info_step].
  - unfold ci_setType. apply lor_lt; auto using ldiff_lt, wrap32_lt.
  - unfold ci_setActivity. rewrite assign_make. now apply reset_lt.
  - unfold ci_setLbd. rewrite assign_make. now apply reset_lt.
  - unfold ci_setTagged, store_toggle_bit. destruct (Bool.eqb _ _); auto. apply lxor_lt; auto using wrap32_lt. apply wrap32_lt.
  - unfold ci_setAux, store_toggle_bit. destruct (Bool.eqb _ _); auto. apply lxor_lt; auto using wrap32_lt. apply wrap32_lt.
  - unfold sc_bumpActivity. destruct (_ <? _); auto using wrap32_lt.
  - unfold sc_bumpLbd. destruct (_ <? _); auto. apply lor_lt; auto using ldiff_lt. apply lor_lt; apply wrap32_lt.
  - unfold sc_reduce. destruct (_ =? _); [now apply ldiff_lt|].
    apply lor_lt; [now apply ldiff_lt, ldiff_lt|].
    apply N.lt_trans with (2 ^ 20); [|reflexivity]. rewrite act_field, N.shiftr_div_pow2.
    pose proof (field_lt 0 20 (sc_clearBumped x)). change (2 ^ 1) with 2. lia.
  - unfold sc_clearBumped, store_clear_bit. now apply ldiff_lt.
  - now apply reset_lt.
Qed.

Lemma step_sim x o : x < 2 ^ 32 -> op_ok o -> abs (info_step x o) = info_spec_step (abs x) o.
Proof.
  intros Hx Hok. rewrite (abs_wf _ _ _ _ _ _ _ (wf_self x)).
  destruct o; cbn [info_step info_spec_step i_activity i_lbd i_bumped i_type i_auxflag i_tagged].
  - now rewrite (abs_wf _ _ _ _ _ _ _ (setType_wf x t Hok)).
  - unfold ci_setActivity. rewrite assign_make, (abs_wf _ _ _ _ _ _ _ (reset_wf _ _ _)).
    rewrite lbd_of_min, lbd_field, spec_lbd_of by apply field_lt. reflexivity.
  - unfold ci_setLbd. rewrite assign_make, (abs_wf _ _ _ _ _ _ _ (reset_wf _ _ _)).
    rewrite lbd_of_min, act_field. f_equal. pose proof (field_lt 0 20 x). lia.
  - now rewrite (abs_wf _ _ _ _ _ _ _ (setTagged_wf x b)).
  - now rewrite (abs_wf _ _ _ _ _ _ _ (setAux_wf x b)).
  - now rewrite (abs_wf _ _ _ _ _ _ _ (bumpActivity_wf x Hx)).
  - pose proof (lbd_field x) as L. rewrite <- L.
    destruct (x0 <? sc_lbd x) eqn:E.
    + rewrite (abs_wf _ _ _ _ _ _ _ (bumpLbd_wf x x0 E)).
      f_equal. rewrite L in E. pose proof (lbd_of_lt _ (field_lt 20 7 x)).
      unfold spec_lbd, lbd_of at 1. destruct (x0 =? 0) eqn:E0; lia.
    + unfold sc_bumpLbd. rewrite E. rewrite (abs_wf _ _ _ _ _ _ _ (wf_self x)). now rewrite L.
  - now rewrite (abs_wf _ _ _ _ _ _ _ (reduce_wf x)).
  - now rewrite (abs_wf _ _ _ _ _ _ _ (clearBumped_wf x)).
  - rewrite (abs_wf _ _ _ _ _ _ _ (reset_wf _ _ _)). now rewrite lbd_of_min.
Qed.

Lemma init_sim t : t < 4 -> ci_init t < 2 ^ 32 /\ abs (ci_init t) = Info 0 127 false t false false.
Proof.
  intros H. assert (t = 0 \/ t = 1 \/ t = 2 \/ t = 3) as [->|[->|[->| ->]]] by lia; split; reflexivity.
Qed.

Lemma info_run_sim t ops : t < 4 -> Forall op_ok ops ->
  abs (info_run t ops) = info_spec_run t ops /\ info_run t ops < 2 ^ 32.
Proof.
  intros Ht Hops. destruct (init_sim t Ht) as [Hlt Habs].
  unfold info_run, info_spec_run. rewrite <- Habs. clear Habs Ht.
  revert Hlt. generalize (ci_init t) as x. induction Hops as [|o ops Ho _ IH]; intros x Hx; cbn.
  - auto.
  - rewrite <- step_sim by assumption. apply IH. now apply step_lt.
Qed.

Lemma info_readback t ops : t < 4 -> Forall op_ok ops ->
  let w := info_run t ops in let s := info_spec_run t ops in
  sc_activity w = i_activity s /\ sc_lbd w = i_lbd s /\ sc_bumped w = i_bumped s /\ ci_type w = i_type s /\ ci_tagged w = i_tagged s /\ ci_aux w = (i_tagged s || i_auxflag s) /\ ci_learnt w = negb (i_type s =? 0) /\ w < 2 ^ 32.
Proof.
  intros Ht Ho w s. destruct (info_run_sim t ops Ht Ho) as [H Hlt]. fold w in H, Hlt. fold s in H.
  rewrite <- H. unfold abs, ci_aux, ci_learnt; cbn. repeat split; auto.
Qed.

(** * ValueSet: all 256 bytes *)
Definition kinds := [UserValue; SavedValue; PrefValue; DefValue].
Definition pabs (x : N) : prefs :=
  Prefs (vs_get x UserValue) (vs_get x SavedValue) (vs_get x PrefValue) (vs_get x DefValue).

Fixpoint all_below (n : nat) (f : N -> bool) : bool :=
  match n with O => true | S m => f (N.of_nat m) && all_below m f end.
Lemma all_below_spec n f : all_below n f = true -> forall x, x < N.of_nat n -> f x = true.
Proof.
  induction n; cbn [all_below]; intros H x Hx; [lia|].
  apply andb_true_iff in H as [H1 H2].
  destruct (N.eq_dec x (N.of_nat n)) as [->|]; [assumption|]. apply IHn; [assumption|lia].
Qed.
Definition prefs_eqb (a b : prefs) : bool :=
  (p_user a =? p_user b) && (p_saved a =? p_saved b) && (p_pref a =? p_pref b) && (p_def a =? p_def b).
Lemma prefs_eqb_eq a b : prefs_eqb a b = true -> a = b.
Proof. destruct a, b; unfold prefs_eqb; cbn. intros H. f_equal; lia. Qed.

Definition pref_ops := flat_map (fun v => PSave v :: map (fun k => PSet k v) kinds) [0; 1; 2].
Definition vs_check (x : N) : bool :=
  forallb (fun o => prefs_eqb (pabs (pref_step x o)) (pref_spec_step (pabs x) o) && (pref_step x o <? 256)) pref_ops.
Lemma vs_check_all : all_below 256 vs_check = true.
Proof. vm_compute. reflexivity. Qed.
Lemma pref_ops_complete o : pref_op_ok o -> In o pref_ops.
Proof.
  destruct o as [k v|v]; cbn [pref_op_ok]; intros H;
  assert (v = 0 \/ v = 1 \/ v = 2) as [->|[->| ->]] by lia; try destruct k; cbn; tauto.
Qed.
Lemma pref_step_sim x o : x < 256 -> pref_op_ok o ->
  pabs (pref_step x o) = pref_spec_step (pabs x) o /\ pref_step x o < 256.
Proof.
  intros Hx Ho. pose proof (all_below_spec 256 _ vs_check_all x Hx) as H.
  unfold vs_check in H. rewrite forallb_forall in H.
  specialize (H o (pref_ops_complete o Ho)). apply andb_true_iff in H as [H1 H2].
  split; [now apply prefs_eqb_eq|lia].
Qed.
Definition sign_check (x : N) : bool :=
  let p := pabs x in
  implb ((p_user p <? 3) && (p_saved p <? 3) && (p_pref p <? 3) && (p_def p <? 3))
    (Bool.eqb (vs_sign x) (pref_deciding p =? 2) && Bool.eqb (vs_empty x) (pref_deciding p =? 0) &&
     forallb (fun k => Bool.eqb (vs_has x k) (negb (pref_get p k =? 0))) kinds).
Lemma sign_check_all : all_below 256 sign_check = true.
Proof. vm_compute. reflexivity. Qed.

Definition prefs_ok (p : prefs) : Prop := p_user p < 3 /\ p_saved p < 3 /\ p_pref p < 3 /\ p_def p < 3.
Lemma pref_run_sim ops : Forall pref_op_ok ops ->
  pabs (pref_run ops) = pref_spec_run ops /\ pref_run ops < 256 /\ prefs_ok (pref_spec_run ops).
Proof.
  intros H. unfold pref_run, pref_spec_run.
  assert (G : forall ops, Forall pref_op_ok ops -> forall x p, x < 256 -> pabs x = p -> prefs_ok p ->
    pabs (fold_left pref_step ops x) = fold_left pref_spec_step ops p /\ fold_left pref_step ops x < 256 /\   prefs_ok (fold_left pref_spec_step ops p)).
  { clear. induction 1 as [|o ops Ho _ IH]; intros x p Hx Hp Hok; cbn; [auto|].
    destruct (pref_step_sim x o Hx Ho) as [S1 S2]. apply IH; [assumption|congruence|].
    subst p. destruct Hok as (?&?&?&?). unfold prefs_ok. destruct o as [[] v|v]; cbn in *; auto. }
  apply G; auto; [reflexivity|]. repeat split; reflexivity.
Qed.

Lemma pref_hierarchy ops : Forall pref_op_ok ops ->
  let w := pref_run ops in let s := pref_spec_run ops in
  (forall k, vs_get w k = pref_get s k /\ vs_has w k = negb (pref_get s k =? 0)) /\ vs_sign w = (pref_deciding s =? 2) /\ vs_empty w = (pref_deciding s =? 0).
Proof.
  intros H w s. destruct (pref_run_sim ops H) as (E & Hlt & Hok). fold w in E, Hlt. fold s in E, Hok.
  pose proof (all_below_spec 256 _ sign_check_all w Hlt) as C.
  unfold sign_check in C. rewrite E in C. destruct Hok as (H1 & H2 & H3 & H4).
  apply N.ltb_lt in H1, H2, H3, H4. rewrite H1, H2, H3, H4 in C. cbn [andb implb] in C.
  apply andb_true_iff in C as [C C3]. apply andb_true_iff in C as [C1 C2].
  apply eqb_prop in C1, C2. rewrite forallb_forall in C3.
  repeat split; auto.
  - rewrite <- E. now destruct k.
  - apply eqb_prop, C3. destruct k; cbn; tauto.
Qed.
