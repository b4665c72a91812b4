From Coq Require Import NArith ZArith Bool List Lia ZifyBool ZifyN ZifyNat.
From Verif Require Import LitModel LitProofs Bits PackModel PackProofs SchedModel SchedSpec.
Import ListNotations.
Local Open Scope N_scope.
Ltac Zify.zify_post_hook ::= Z.div_mod_to_equations.

Lemma mask_test x m mask : mask = N.shiftl (N.ones m) m -> x < 2 ^ (m + m) ->
  (N.land x mask =? 0) = (x <? 2 ^ m).
Proof.
  intros -> Hx. rewrite land_mask_0. unfold field.
  rewrite N.mod_small.
  - destruct (x <? 2 ^ m) eqn:E.
    + rewrite N.div_small by lia. reflexivity.
    + apply N.eqb_neq. intros H. apply N.div_small_iff in H; [lia|]. apply N.pow_nonzero; lia.
  - apply N.div_lt_upper_bound; [apply N.pow_nonzero; lia|]. now rewrite <- N.pow_add_r.
Qed.

Lemma log2_32_spec x : 0 < x -> x < 2 ^ 32 -> log2_32 x = N.log2 x.
Proof.
  intros H0 Hx. unfold log2_32. symmetry.
  rewrite (mask_test x 16) by (assumption || reflexivity).
  destruct (x <? 2 ^ 16) eqn:E16.
  all: rewrite ?N.shiftr_div_pow2.
  all: match goal with |- context [N.land ?y 65280] => 
         assert (y < 2 ^ 16) by (change (2 ^ 16) with 65536 in *; change (2 ^ 32) with 4294967296 in *; lia);
         rewrite (mask_test y 8) by (assumption || reflexivity); destruct (y <? 2 ^ 8) eqn:E8 end.
  all: rewrite ?N.shiftr_div_pow2.
  all: match goal with |- context [N.land ?y 240] => 
         assert (y < 2 ^ 8) by (change (2 ^ 16) with 65536 in *; change (2 ^ 8) with 256 in *; lia);
         rewrite (mask_test y 4) by (assumption || reflexivity); destruct (y <? 2 ^ 4) eqn:E4 end.
  all: rewrite ?N.shiftr_div_pow2.
  all: match goal with |- context [N.land ?y 12] => 
         assert (y < 2 ^ 4) by (change (2 ^ 4) with 16 in *; change (2 ^ 8) with 256 in *; lia);
         rewrite (mask_test y 2) by (assumption || reflexivity); destruct (y <? 2 ^ 2) eqn:E2 end.
  all: rewrite ?N.shiftr_div_pow2.
  all: match goal with |- context [N.land ?y 2] => 
         assert (y < 2 ^ 2) by (change (2 ^ 4) with 16 in *; change (2 ^ 2) with 4 in *; lia);
         rewrite (mask_test y 1) by (assumption || reflexivity); destruct (y <? 2 ^ 1) eqn:E1 end.
  all: match goal with |- _ = ?r => let v := eval vm_compute in r in change r with v end.
  all: apply N.log2_unique; [lia|].
  all: repeat match goal with
    | H : context [2 ^ ?k] |- _ => let v := eval vm_compute in (2 ^ k) in change (2 ^ k) with v in H
    | |- context [2 ^ ?k] => let v := eval vm_compute in (2 ^ k) in change (2 ^ k) with v
    end.
  all: repeat rewrite N.div_div in * by lia.
  all: repeat match goal with H : context [?a * ?b] |- _ => let v := eval vm_compute in (a * b) in change (a * b) with v in H end.
  all: lia.
Qed.

