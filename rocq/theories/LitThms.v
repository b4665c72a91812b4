(** Property theorems C01 and C02 (clasp/literal.h). *)
From Coq Require Import NArith ZArith Bool.
From Verif Require Import LitModel LitProofs.
Local Open Scope N_scope.

(** C01: a literal reports exactly the variable and sign it was built from, fits
    its 32-bit word, carries no flag, and is recovered from its id. *)
Theorem c01_literal_roundtrip : forall v s, v < 2 ^ 30 ->
  lvar (mkLit v s) = v /\ lsign (mkLit v s) = s /\ lflagged (mkLit v s) = false /\
  mkLit v s < 2 ^ 32 /\ lid (mkLit v s) < 2 ^ 31 /\
  fromId (lid (mkLit v s)) = mkLit v s.
Proof. exact literal_roundtrip. Qed.
Print Assumptions c01_literal_roundtrip.

(** C01: equality (and order) of literals - flags ignored - is equality (order)
    of (variable, sign). *)
Theorem c01_literal_equality : forall p q, p < 2 ^ 32 -> q < 2 ^ 32 ->
  leq p q = true <-> lvar p = lvar q /\ lsign p = lsign q.
Proof. exact literal_eq_iff. Qed.
Print Assumptions c01_literal_equality.

Theorem c01_literal_order : forall p q, p < 2 ^ 32 -> q < 2 ^ 32 ->
  llt p q = true <->
  (lvar p < lvar q \/ (lvar p = lvar q /\ lsign p = false /\ lsign q = true)).
Proof. exact literal_lt_iff. Qed.
Print Assumptions c01_literal_order.

(** C01: complement flips the sign only, is involutive and never the identity. *)
Theorem c01_literal_complement : forall p, p < 2 ^ 32 ->
  lnot p < 2 ^ 32 /\ lvar (lnot p) = lvar p /\ lsign (lnot p) = negb (lsign p) /\
  lflagged (lnot p) = false /\ leq (lnot (lnot p)) p = true /\ leq (lnot p) p = false.
Proof. exact literal_complement. Qed.
Print Assumptions c01_literal_complement.

Theorem c01_literal_flag : forall p, p < 2 ^ 32 ->
  lflag p < 2 ^ 32 /\ lunflag p < 2 ^ 32 /\
  lvar (lflag p) = lvar p /\ lsign (lflag p) = lsign p /\ lflagged (lflag p) = true /\
  lvar (lunflag p) = lvar p /\ lsign (lunflag p) = lsign p /\ lflagged (lunflag p) = false.
Proof. exact literal_flag. Qed.
Print Assumptions c01_literal_flag.

Theorem c01_literal_fromId : forall i, i < 2 ^ 31 ->
  fromId i < 2 ^ 32 /\ lid (fromId i) = i /\ lflagged (fromId i) = false.
Proof. exact literal_fromId. Qed.
Print Assumptions c01_literal_fromId.

Theorem c01_literal_xor : forall p b, p < 2 ^ 32 ->
  lvar (lxorSign p b) = lvar p /\ lsign (lxorSign p b) = xorb (lsign p) b.
Proof. exact literal_xor. Qed.
Print Assumptions c01_literal_xor.

(** C01: the truth value making a literal true/false. *)
Theorem c01_literal_values : forall p, p < 2 ^ 32 ->
  (trueValue p = if lsign p then value_false else value_true) /\
  (falseValue p = if lsign p then value_true else value_false) /\
  valSign (trueValue p) = lsign p /\ trueValue (lnot p) = falseValue p.
Proof. exact literal_values. Qed.
Print Assumptions c01_literal_values.

(** C02: [toLit] after [toInt], for every non-sentinel literal; no int32 overflow. *)
Theorem c02_toLit_toInt : forall v s, v < 2 ^ 30 -> v <> 0 ->
  exists z, toInt (mkLit v s) = Some z /\ toLit z = Some (mkLit v s).
Proof. exact toLit_toInt. Qed.
Print Assumptions c02_toLit_toInt.

Theorem c02_toInt_toLit : forall z, (Z.abs z < 2 ^ 30)%Z ->
  exists p, toLit z = Some p /\ toInt p = Some z /\
            lvar p = Z.to_N (Z.abs z) /\ lsign p = (z <? 0)%Z.
Proof. exact toInt_toLit. Qed.
Print Assumptions c02_toInt_toLit.

(** C02: [decodeLit] after [encodeLit], for every literal including sentinels. *)
Theorem c02_decode_encode : forall v s, v < 2 ^ 30 ->
  exists z, encodeLit (mkLit v s) = Some z /\ z <> 0%Z /\ decodeLit z = Some (mkLit v s) /\
            (z <? 0)%Z = s /\ decodeVar z = Some v.
Proof. exact decode_encode. Qed.
Print Assumptions c02_decode_encode.

(** The hypotheses are met by the extreme variable [varMax - 1]. *)
Example c01_c02_nonvacuous :
  2 ^ 30 - 1 < 2 ^ 30 /\ mkLit (2 ^ 30 - 1) true = 4294967294 /\
  lnot (lflag (mkLit (2 ^ 30 - 1) true)) = mkLit (2 ^ 30 - 1) false /\
  toInt (mkLit (2 ^ 30 - 1) true) = Some (- 1073741823)%Z /\
  encodeLit (mkLit (2 ^ 30 - 1) true) = Some (- 1073741824)%Z /\
  encodeLit (mkLit 0 true) = Some (-1)%Z.
Proof. repeat split; reflexivity. Qed.
