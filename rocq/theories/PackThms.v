(** Property theorems C03 (reasons), C04 (constraint info), C05 (value
    preferences).  Models: PackModel.v; specification records: PackSpec.v. *)
From Coq Require Import NArith Bool List.
From Verif Require Import LitModel PackModel PackSpec PackProofs.
Import ListNotations.
Local Open Scope N_scope.

(** C03: a binary reason reads back exactly the literal (without its watch
    flag) it was made of, and is not the null reason. *)
Theorem c03_binary_reason : forall p, p < 2 ^ 32 ->
  anteBin p < 2 ^ 64 /\ anteIsNull (anteBin p) = false /\ anteType (anteBin p) = tBinary /\
  anteFirst (anteBin p) = lunflag p /\ anteReason (anteBin p) = Some [lunflag p].
Proof. exact ante_binary. Qed.
Print Assumptions c03_binary_reason.

(** C03: a ternary reason reads back exactly the two literals, in order. *)
Theorem c03_ternary_reason : forall p q, p < 2 ^ 32 -> q < 2 ^ 32 ->
  anteTern p q < 2 ^ 64 /\ anteIsNull (anteTern p q) = false /\ anteType (anteTern p q) = tTernary /\
  anteFirst (anteTern p q) = lunflag p /\ anteSecond (anteTern p q) = lunflag q /\
  anteReason (anteTern p q) = Some [lunflag p; lunflag q].
Proof. exact ante_ternary. Qed.
Print Assumptions c03_ternary_reason.

(** C03: an aligned pointer is recognised as such, reads back unchanged and is
    the null reason only if it is the null pointer. *)
Theorem c03_generic_reason : forall ptr, ptr < 2 ^ 64 -> ptr mod 4 = 0 ->
  anteType (anteCon ptr) = tGeneric /\ anteConstraint (anteCon ptr) = ptr /\
  (anteIsNull (anteCon ptr) = true <-> ptr = 0) /\ anteReason (anteCon ptr) = None.
Proof. exact ante_generic. Qed.
Print Assumptions c03_generic_reason.

(** C03: equal reason words describe equal reasons. *)
Theorem c03_reason_injective : forall p q p' q',
  p < 2 ^ 32 -> q < 2 ^ 32 -> p' < 2 ^ 32 -> q' < 2 ^ 32 ->
  (anteBin p = anteBin p' -> leq p p' = true) /\
  (anteTern p q = anteTern p' q' -> leq p p' = true /\ leq q q' = true) /\
  anteBin p <> anteTern p' q'.
Proof. exact ante_injective. Qed.
Print Assumptions c03_reason_injective.

(** C04: whatever sequence of updates is applied to a fresh info word, the
    accessors return what a record with independent fields would hold. *)
Theorem c04_info_fields : forall t ops, t < 4 -> Forall op_ok ops ->
  let w := info_run t ops in let s := info_spec_run t ops in
  sc_activity w = i_activity s /\ sc_lbd w = i_lbd s /\ sc_bumped w = i_bumped s /\
  ci_type w = i_type s /\ ci_tagged w = i_tagged s /\
  ci_aux w = (i_tagged s || i_auxflag s) /\ ci_learnt w = negb (i_type s =? 0) /\ w < 2 ^ 32.
Proof. exact info_readback. Qed.
Print Assumptions c04_info_fields.

(** C05: whatever sequence of preferences is stored, each kind reads back its
    last value and the sign is decided by the first kind that is set in the
    order user, saved, preferred, default. *)
Theorem c05_preference_hierarchy : forall ops, Forall pref_op_ok ops ->
  let w := pref_run ops in let s := pref_spec_run ops in
  (forall k, vs_get w k = pref_get s k /\ vs_has w k = negb (pref_get s k =? 0)) /\
  vs_sign w = (pref_deciding s =? 2) /\ vs_empty w = (pref_deciding s =? 0).
Proof. exact pref_hierarchy. Qed.
Print Assumptions c05_preference_hierarchy.

(** The hypotheses are met by non-trivial values. *)
Example c03_nonvacuous :
  let p := mkLit 1073741823 true in let q := lflag (mkLit 7 false) in
  p < 2 ^ 32 /\ q < 2 ^ 32 /\ anteReason (anteTern p q) = Some [p; mkLit 7 false] /\
  4096 < 2 ^ 64 /\ 4096 mod 4 = 0.
Proof. vm_compute. repeat split; reflexivity. Qed.

Example c04_nonvacuous :
  let ops := [SetType 2; BumpActivity; SetLbd 300; BumpLbd 5; SetTagged true; SetAux true;
              SetActivity 4000000; ReduceScore; SetTagged false] in
  Forall op_ok ops /\
  info_spec_run 1 ops = Info 524287 5 false 2 true false.
Proof. split; [repeat constructor|vm_compute; reflexivity]. Qed.

Example c05_nonvacuous :
  let ops := [PSet DefValue 1; PSet PrefValue 1; PSave 2] in
  Forall pref_op_ok ops /\ vs_sign (pref_run ops) = true /\
  vs_sign (pref_run (ops ++ [PSet UserValue 1])) = false.
Proof. split; [repeat constructor|split; reflexivity]. Qed.
