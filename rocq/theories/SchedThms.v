(** Property theorems C06 (Luby sequence) and C07 (fast-forwarding schedules). *)
From Coq Require Import NArith Bool List.
From Verif Require Import LitModel SchedModel SchedSpec SchedLog2 SchedProofs.
Import ListNotations.
Local Open Scope N_scope.

(** C06: for every index the restart code can use below 2^32-2 the computed
    value is the element of the Luby sequence at that (0-based) index. *)
Theorem c06_luby_is_luby_sequence : forall idx, idx < 2 ^ 32 - 2 ->
  exists v, lubyR idx = Some v /\ LubySeq (idx + 1) v.
Proof. exact luby_correct. Qed.
Print Assumptions c06_luby_is_luby_sequence.

(** The specification determines the value. *)
Theorem c06_luby_sequence_unique : forall i v w, LubySeq i v -> LubySeq i w -> v = w.
Proof. exact luby_functional. Qed.
Print Assumptions c06_luby_sequence_unique.

(** C06: restart intervals are positive and at most half the index. *)
Theorem c06_luby_positive : forall i v, LubySeq i v -> 0 < v /\ 2 * v <= i + 1.
Proof. exact luby_positive. Qed.
Print Assumptions c06_luby_positive.

(** Finding: at the last two 32-bit indices the code returns 0, which is not an
    element of the sequence. *)
Theorem c06_luby_last_indices_refuted :
  lubyR (2 ^ 32 - 2) = Some 0 /\ lubyR (2 ^ 32 - 1) = Some 0 /\
  (forall i, ~ LubySeq i 0).
Proof.
  exact (conj (proj1 luby_wraps) (conj (proj2 luby_wraps)
    (fun i H => N.lt_irrefl 0 (proj1 (luby_positive i 0 H))))).
Qed.
Print Assumptions c06_luby_last_indices_refuted.

(** The bit trick behind it: [log2] is the integer logarithm. *)
Theorem c06_log2_is_floor_log : forall x, 0 < x -> x < 2 ^ 32 -> log2_32 x = N.log2 x.
Proof. exact log2_32_spec. Qed.
Print Assumptions c06_log2_is_floor_log.

(** C06: without outer limit the index just counts (and no limit ever appears,
    not even when the 32-bit index wraps around); with an outer limit the sequence
    restarts from its beginning when the limit is hit and the limit grows (to the
    next Luby block for Luby schedules). *)
Theorem c06_unlimited_schedule_counts : forall s, s_len s = 0 -> s_idx s < 2 ^ 32 ->
  next s = Sched (s_type s) (s_base s) ((s_idx s + 1) mod 2 ^ 32) 0.
Proof. exact next_unlimited. Qed.
Print Assumptions c06_unlimited_schedule_counts.
Theorem c06_limit_restarts_sequence : forall s, s_idx s < s_len s -> s_len s < 2 ^ 31 - 1 ->
  next s = if s_idx s + 1 =? s_len s
           then Sched (s_type s) (s_base s) 0 (if is_luby (s_type s) then 2 * (s_len s + 1) else s_len s + 1)
           else Sched (s_type s) (s_base s) (s_idx s + 1) (s_len s).
Proof. exact next_limited. Qed.
Print Assumptions c06_limit_restarts_sequence.

(** C07, geometric and arithmetic schedules with or without outer limit: jumping
    to n gives the state reached by n single steps.  Partial: the square root in
    the code is a double; here it is exact (see the refutation below). *)
Theorem c07_advance_is_repeated_next_partial : forall t b len n,
  is_luby t = false -> len < 2 ^ 32 - 1 -> N.of_nat n < 2 ^ 32 - 1 ->
  advanceTo (Sched t b 0 len) (N.of_nat n) = Some (iter n next (Sched t b 0 len)).
Proof. exact advance_next. Qed.
Print Assumptions c07_advance_is_repeated_next_partial.

(** C07, Luby schedules: no floating point involved. *)
Theorem c07_advance_luby_is_repeated_next : forall b len n,
  (len = 0 \/ exists k, 1 <= k <= 31 /\ len = (2 ^ k - 1) * 2) -> N.of_nat n < 2 ^ 32 - 2 ->
  advanceTo (Sched Luby b 0 len) (N.of_nat n) = Some (iter n next (Sched Luby b 0 len)).
Proof. exact advance_next_luby. Qed.
Print Assumptions c07_advance_luby_is_repeated_next.

(** ... and every Luby schedule built with a limit has such a length. *)
Theorem c07_luby_length_form : forall lim, 0 < lim -> lim <= 2 ^ 31 ->
  exists k, 1 <= k <= 31 /\ luby_len lim = (2 ^ k - 1) * 2.
Proof. exact luby_len_form. Qed.
Print Assumptions c07_luby_length_form.

(** Finding: computed in IEEE doubles, the jump is wrong for outer limits of
    about 2^25 and more: the square root rounds up to the next integer and the
    index wraps around to 2^32-1. *)
Theorem c07_advance_double_refuted : exists len n,
  len < 2 ^ 32 - 1 /\ N.of_nat n < 2 ^ 32 - 1 /\ len <= N.of_nat n /\
  advance_double len (N.of_nat n) <>
    Some (s_idx (iter n next (Sched Arithmetic 100 0 len)), s_len (iter n next (Sched Arithmetic 100 0 len))).
Proof. exact advance_double_wrong. Qed.
Print Assumptions c07_advance_double_refuted.

(** Without an outer limit the sequence is never repeated: the limit stays away for any number of restarts, also when the 32-bit counter
    wraps around. *)
Theorem c07_no_limit : forall n s, s_len s = 0 -> s_idx s < 2 ^ 32 ->
  s_len (iter n next s) = 0 /\ s_idx (iter n next s) = (s_idx s + N.of_nat n) mod 2 ^ 32 /\ s_type (iter n next s) = s_type s /\ s_base (iter n next s) = s_base s.
Proof. exact no_limit. Qed.
Print Assumptions c07_no_limit.

(** C37: [choose] is the binomial coefficient as long as it fits. *)
Theorem c37_choose_is_binomial : forall n k, (n <= 59)%nat -> (k < 1000)%nat ->
  choose (N.of_nat n) (N.of_nat k) = binom n k.
Proof. exact choose_correct. Qed.
Print Assumptions c37_choose_is_binomial.

Example c06_c07_nonvacuous :
  map lubyR [0; 1; 2; 3; 4; 5; 6; 7] = map Some [1; 1; 2; 1; 1; 2; 4; 1] /\
  advanceTo (Sched Luby 100 0 (luby_len 3)) 25 = Some (iter 25 next (Sched Luby 100 0 6)) /\
  iter 25 next (Sched Luby 100 0 6) = Sched Luby 100 5 30 /\
  advanceTo (Sched Geometric 100 0 7) 20 = Some (Sched Geometric 100 5 9) /\
  choose 6 3 = 20.
Proof. vm_compute. repeat split; reflexivity. Qed.
