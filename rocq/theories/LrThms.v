(** C28: the container that stores two sequences in one block of memory. *)
From Coq Require Import List Arith NArith Bool Lia.
From Verif Require Import Base LrModel LrSpec LrProofs LrProofs2 LrProofs3 LrProofs4.
Import ListNotations.

(** C28: for all element sizes and every sequence of operations on any number of objects that respects the preconditions, no operation touches memory outside of its
    buffers, and afterwards every object yields exactly the elements of two independent vectors on which the same operations were done. *)
Theorem c28_two_vectors byte junk sL sR al i pad ops v : sizes sL sR al i pad -> specs byte sL sR (none byte) ops = Some v ->
  exists s, run byte junk sL sR al i pad (init byte) ops = Ok s /\
    forall o l k, v o = Some (l, k) -> exists r, s_obj _ s o = Some r /\ lefts byte sL s r = Ok l /\ rights byte sR s r = Ok k.
Proof.
  intros Z H. destruct (run_ok byte junk sL sR al i pad Z ops (init byte) (none byte) v (init_ok _ _ _ _ _ _) H) as (s & R & I). exists s. split; [exact R|].
  intros o l k V. destruct (inv_P _ _ _ _ _ _ _ _ _ _ _ I V) as (r & O & P). exists r. split; [exact O|]. split; [exact (lefts_ok _ _ _ _ _ _ Z _ _ _ _ _ P)|exact (rights_ok _ _ _ _ _ _ Z _ _ _ _ _ P)].
Qed.
Print Assumptions c28_two_vectors.

(** C28: sizes reported by the container. *)
Theorem c28_sizes byte junk sL sR al i pad ops v s o l k : sizes sL sR al i pad -> specs byte sL sR (none byte) ops = Some v -> run byte junk sL sR al i pad (init byte) ops = Ok s ->
  v o = Some (l, k) -> exists r, s_obj _ s o = Some r /\ leftSize sL r = length l /\ rightSize sR r = length k /\ (empty r = true <-> l = [] /\ k = []).
Proof.
  intros Z H R V. destruct (run_ok byte junk sL sR al i pad Z ops (init byte) (none byte) v (init_ok _ _ _ _ _ _) H) as (s' & R' & I). rewrite R in R'. injection R' as <-.
  destruct (inv_P _ _ _ _ _ _ _ _ _ _ _ I V) as (r & O & m & gap & G). exists r. split; [exact O|]. split; [exact (good_ls _ _ _ _ _ _ Z _ _ _ _ _ _ _ G)|]. split; [exact (good_rs _ _ _ _ _ _ Z _ _ _ _ _ _ _ G)|].
  split; [exact (good_empty _ _ _ _ _ _ Z _ _ _ _ _ _ _ G)|]. intros (-> & ->). pose proof (good_cap _ _ _ _ _ _ _ _ _ _ _ _ _ G). pose proof (p_left _ _ _ _ _ _ _ _ _ _ _ _ _ G). pose proof (p_right _ _ _ _ _ _ _ _ _ _ _ _ _ G).
  unfold empty. apply andb_true_iff. rewrite !Nat.eqb_eq. cbn in *. lia.
Qed.
Print Assumptions c28_sizes.

(** C28: no memory leaks: once all objects are destroyed no block is allocated; before, every block belongs to exactly one object. *)
Theorem c28_no_leak byte junk sL sR al i pad ops v s : sizes sL sR al i pad -> specs byte sL sR (none byte) ops = Some v -> run byte junk sL sR al i pad (init byte) ops = Ok s ->
  (forall b, s_heap _ s b <> None -> exists! o, exists r, s_obj _ s o = Some r /\ r_buf r = Heap b) /\ ((forall o, v o = None) -> forall b, s_heap _ s b = None).
Proof.
  intros Z H R. destruct (run_ok byte junk sL sR al i pad Z ops (init byte) (none byte) v (init_ok _ _ _ _ _ _) H) as (s' & R' & I). rewrite R in R'. injection R' as <-. split.
  - intros b Hb. destruct (g_own _ _ _ _ _ _ _ _ I b Hb) as (o & r & O & E). exists o. split; [eauto|]. intros o' (r' & O' & E'). exact (g_inj _ _ _ _ _ _ _ _ I _ _ _ _ b O O' E E').
  - intros V b. destruct (s_heap byte s b) eqn:E; [|reflexivity]. destruct (g_own _ _ _ _ _ _ _ _ I b) as (o & r & O & _); [congruence|]. pose proof (inv_none _ _ _ _ _ _ _ _ _ I (V o)). congruence.
Qed.
Print Assumptions c28_no_leak.

(** C28: elements are aligned: if the alignments of the element types divide their sizes and the common alignment of the buffer, every element starts at a multiple of its alignment. *)
Theorem c28_aligned byte junk sL sR al i pad ops v s o l k aL aR : sizes sL sR al i pad -> specs byte sL sR (none byte) ops = Some v -> run byte junk sL sR al i pad (init byte) ops = Ok s ->
  v o = Some (l, k) -> Nat.divide aL sL -> Nat.divide aR sR -> Nat.divide aR al -> exists r, s_obj _ s o = Some r /\
  (forall j, Nat.divide aL (j * sL)) /\ (forall j, j < length k -> Nat.divide aR (sub32 (r_cap r) (S j * sR)) /\ r_left r <= sub32 (r_cap r) (S j * sR)).
Proof.
  intros Z H R V DL DR DA. destruct (run_ok byte junk sL sR al i pad Z ops (init byte) (none byte) v (init_ok _ _ _ _ _ _) H) as (s' & R' & I). rewrite R in R'. injection R' as <-.
  destruct (inv_P _ _ _ _ _ _ _ _ _ _ _ I V) as (r & O & m & gap & G). exists r. split; [exact O|]. split; [intros j; now apply Nat.divide_mul_r|]. intros j Lj.
  pose proof (good_cap _ _ _ _ _ _ _ _ _ _ _ _ _ G). pose proof (p_left _ _ _ _ _ _ _ _ _ _ _ _ _ G). assert (S j * sR <= length k * sR) by (apply Nat.mul_le_mono_r; lia). rewrite sub32_le by lia. split; [|lia].
  apply Nat.divide_sub_r; [|now apply Nat.divide_mul_r]. destruct (p_bs _ _ _ _ _ _ _ _ _ _ _ _ _ G) as (c & ->). unfold bs. rewrite Nat.mul_assoc. now apply Nat.divide_mul_r.
Qed.
Print Assumptions c28_aligned.

(** C28 does not hold without the limit on the size: the 31-bit member for the capacity overflows. With elements of 16 bytes, a container of 1431655776 bytes has a capacity
    of 16 bytes after it has grown. *)
Theorem c28_unlimited_refuted : exists c, (N.of_nat c < 2147483648)%N /\
  forall byte junk (s s' : st byte) r r', r_cap r = c -> realloc byte junk 16 16 8 s r = Ok (s', r') -> r_cap r' = 16 /\ r_left r' = r_left r.
Proof.
  exists (N.to_nat 1431655776). split; [rewrite N2Nat.id; reflexivity|]. intros byte junk s s' r r' C. unfold realloc.
  assert (E : capacity 16 16 8 r = N.to_nat 89478486).
  { unfold capacity. rewrite C. change (bs 16 16 8) with (N.to_nat 16). rewrite <- N2Nat.inj_div. apply f_equal. reflexivity. }
  assert (BS : bs 16 16 8 = N.to_nat 16) by reflexivity.
  assert (A2 : N.of_nat (u32 (u32 (capacity 16 16 8 r * 3) / 2 * bs 16 16 8)) = 2147483664%N).
  { unfold u32 at 1. rewrite N2Nat.id, BS. assert (A1 : N.of_nat (u32 (capacity 16 16 8 r * 3)) = 268435458%N).
    { rewrite E. unfold u32. rewrite N2Nat.id. replace (N.of_nat (N.to_nat 89478486 * 3)) with 268435458%N by lia. reflexivity. }
    rewrite Nat2N.inj_mul, Nat2N.inj_div, A1. reflexivity. }
  set (big := u32 (u32 (capacity 16 16 8 r * 3) / 2 * bs 16 16 8)) in *. clearbody big. replace (u32 (4 * bs 16 16 8)) with 64 by reflexivity.
  assert (LB : big <? 64 = false) by (apply Nat.ltb_ge; lia). rewrite LB. cbn [alloc].
  assert (U : u31 big = 16). { unfold u31. rewrite A2. reflexivity. }
  rewrite U. match goal with |- bind ?x _ = _ -> _ => destruct x as [s1| |]; cbn [bind]; try discriminate end.
  destruct (release byte s1 r) as [s2| |]; cbn [bind]; try discriminate. intros H. injection H as <- <-. auto.
Qed.
Print Assumptions c28_unlimited_refuted.

(** Elements of three and two bytes, an inline buffer of 6 bytes; two objects, growth, removal at both ends, copy, move and destruction. *)
Definition ops : list (op nat) :=
  [ONew _ 0; OPushL _ 0 [1;2;3]; OPushR _ 0 [7;8]; OPushL _ 0 [4;5;6]; OPushR _ 0 [9;10]; OPushL _ 0 [11;12;13]; OPushR _ 0 [14;15]; OCopy _ 1 0;
   OEraseL _ 0 0; OEraseRU _ 0 0; OPopR _ 1; OPopL _ 1; OShrinkL _ 1 1; OTryShrink _ 0; OPushR _ 0 [16;17]; ONew _ 2; OMove _ 2 0; OPushL _ 0 [20;21;22]; OAssign _ 1 2; OEraseLU _ 1 0; ODestroy _ 2].
Example c28_nonvacuous : sizes 3 2 1 10 4 /\ ic 3 2 1 10 4 = 6 /\ exists v, specs nat 3 2 (none nat) ops = Some v /\
  v 0 = Some ([[20;21;22]], []) /\ v 1 = Some ([[11;12;13]], [[14;15]; [9;10]; [16;17]]) /\ v 2 = None.
Proof.
  split; [constructor; cbn; lia|]. split; [reflexivity|]. eexists. split; [vm_compute; reflexivity|]. repeat split.
Qed.
