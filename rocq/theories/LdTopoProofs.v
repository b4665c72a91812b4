(** C51: the topologies. *)
From Coq Require Import NArith List Bool Lia Relations.
From Verif Require Import LdTopo.
Import ListNotations.
Local Open Scope N_scope.

Lemma inSet_bit s i : inSet s i = N.testbit s i.
Proof.
  unfold inSet, mask. rewrite N.shiftl_1_l. destruct (N.testbit s i) eqn:E.
  - destruct (N.eqb_spec (N.land s (2 ^ i)) 0) as [Z|]; [|reflexivity]. pose proof (f_equal (fun x => N.testbit x i) Z) as Q. cbv beta in Q. rewrite N.land_spec, E, N.pow2_bits_true, N.bits_0 in Q. discriminate.
  - destruct (N.eqb_spec (N.land s (2 ^ i)) 0) as [|NZ]; [reflexivity|]. exfalso. apply NZ. apply N.bits_inj. intros j. rewrite N.land_spec, N.bits_0.
    destruct (N.eq_dec i j) as [<-|NE]; [now rewrite E|]. rewrite N.pow2_bits_false by exact NE. apply andb_false_r.
Qed.
Lemma mask_bit i j : N.testbit (mask i) j = (i =? j). Proof. unfold mask. rewrite N.shiftl_1_l. apply N.pow2_bits_eqb. Qed.

Lemma fold_bits (f : N -> option N) l j : forall r, N.testbit (fold_left (fun res m => match f m with Some i => N.lor res (mask i) | None => res end) l r) j = true <->
  N.testbit r j = true \/ exists m, In m l /\ f m = Some j.
Proof.
  induction l as [|m l IH]; intros r; cbn [fold_left].
  - split; [now left|]. intros [H|(m & [] & _)]. exact H.
  - rewrite IH. destruct (f m) as [i|] eqn:E.
    + rewrite N.lor_spec, mask_bit, orb_true_iff, N.eqb_eq. split.
      * intros [[H|<-]|(m' & I & H)]; [now left|right; exists m; split; [now left|exact E]|right; exists m'; split; [now right|exact H]].
      * intros [H|(m' & [<-|I] & H)]; [auto|left; right; congruence|right; eauto].
    + split.
      * intros [H|(m' & I & H)]; [now left|right; exists m'; split; [now right|exact H]].
      * intros [H|(m' & [<-|I] & H)]; [auto|congruence|right; eauto].
Qed.
Lemma fold_ext {A B} (f g : A -> B -> A) l : (forall a b, f a b = g a b) -> forall a, fold_left f l a = fold_left g l a.
Proof. intros E. induction l as [|b l IH]; intros a; cbn; [reflexivity|]. now rewrite E, IH. Qed.
Lemma powers_in c m : In m (powers c) <-> exists b, b < N.of_nat c /\ m = 2 ^ b.
Proof.
  unfold powers. rewrite in_map_iff. split.
  - intros (b & <- & I). apply in_seq in I. exists (N.of_nat b). split; [lia|reflexivity].
  - intros (b & L & ->). exists (N.to_nat b). rewrite N2Nat.id. split; [reflexivity|]. apply in_seq. lia.
Qed.

Section T.
Variable n : N.
Hypothesis N2 : 2 <= n.
Let K := 2 ^ N.log2 n.
Lemma K_le : K <= n. Proof. apply N.log2_spec. lia. Qed.
Lemma n_lt : n < 2 * K. Proof. unfold K. rewrite <- N.pow_succ_r'. apply N.log2_spec. lia. Qed.

(** Neighbours in the (extended) cube *)
Definition nbr (ext : bool) (i j : N) : Prop :=
  exists b, b <= N.log2 n /\ (j < n /\ j = N.lxor (2 ^ b) i \/ ext = true /\ b < N.log2 n /\ j = N.lxor (N.lxor (2 ^ b) i) K /\ (n <= N.lxor (2 ^ b) i \/ n <= N.lxor K i /\ j < n)).
Lemma cube_bits (t : topology) i j : (t = Tcube \/ t = Tcubex) -> listens t n i j = true <-> nbr (match t with Tcubex => true | _ => false end) i j.
Proof.
  intros T. unfold listens. rewrite inSet_bit. set (ext := match t with Tcubex => true | _ => false end).
  assert (initPeerMask i t n = let res := fold_left (fun res m => match (if N.lxor m i <? n then Some (N.lxor m i) else if ext && negb (K =? m) then Some (N.lxor (N.lxor m i) K) else None) with
      Some i => N.lor res (mask i) | None => res end) (powers (S (N.to_nat (N.log2 n)))) 0 in
    if ext && (n <=? N.lxor K i) then fold_left (fun res m => match (if N.lxor m (N.lxor K i) <? n then Some (N.lxor m (N.lxor K i)) else None) with Some i => N.lor res (mask i) | None => res end) (powers (N.to_nat (N.log2 n))) res
    else res) as ->.
  { destruct T as [->| ->]; cbn [initPeerMask]; subst ext; cbv zeta; fold K; cbn [andb].
    - apply fold_ext. intros r m. now destruct (_ <? _).
    - rewrite (fold_ext (fun res m => if N.lxor m i <? n then N.lor res (mask (N.lxor m i)) else if negb (K =? m) then N.lor res (mask (N.lxor (N.lxor m i) K)) else res)
        (fun res m => match (if N.lxor m i <? n then Some (N.lxor m i) else if negb (K =? m) then Some (N.lxor (N.lxor m i) K) else None) with Some i => N.lor res (mask i) | None => res end)).
      + destruct (_ <=? _); [|reflexivity]. apply fold_ext. intros r m. now destruct (_ <? _).
      + intros r m. destruct (_ <? _); [reflexivity|]. now destruct (negb _). }
  cbv zeta. set (res := fold_left _ _ 0).
  assert (N.testbit res j = true <-> exists b, b <= N.log2 n /\ (j < n /\ j = N.lxor (2 ^ b) i \/ ext = true /\ b < N.log2 n /\ j = N.lxor (N.lxor (2 ^ b) i) K /\ n <= N.lxor (2 ^ b) i)) as R.
  { unfold res. rewrite fold_bits, N.bits_0. split.
    - intros [H|(m & I & H)]; [discriminate|]. apply powers_in in I. destruct I as (b & L & ->). exists b. split; [lia|]. destruct (N.ltb_spec (N.lxor (2 ^ b) i) n) as [A|A].
      + injection H as <-. now left.
      + right. destruct ext; cbn in H; [|discriminate]. destruct (N.eqb_spec K (2 ^ b)) as [|NE]; [discriminate|]. injection H as <-. split; [reflexivity|]. split; [|auto].
        assert (b <> N.log2 n) by (intros ->; now apply NE). lia.
    - intros (b & L & H). right. exists (2 ^ b). split; [apply powers_in; exists b; split; [lia|reflexivity]|]. destruct H as [[H ->]|(E & L' & -> & H)].
      + destruct (N.ltb_spec (N.lxor (2 ^ b) i) n); [reflexivity|lia].
      + destruct (N.ltb_spec (N.lxor (2 ^ b) i) n); [lia|]. rewrite E. cbn. destruct (N.eqb_spec K (2 ^ b)) as [EK|]; [|reflexivity]. exfalso. unfold K in EK. apply N.pow_inj_r in EK; lia. }
  unfold nbr. destruct ext eqn:EX; cbn [andb].
  - destruct (N.leb_spec n (N.lxor K i)) as [LE|GT].
    + rewrite fold_bits, R. split.
      * intros [(b & L & [H|(_ & H1 & H2 & H3)])|(m & I & H)]; [exists b; auto|exists b; split; [exact L|]; right; auto 6|]. apply powers_in in I. destruct I as (b & L & ->). exists b. split; [lia|]. right.
        destruct (N.ltb_spec (N.lxor (2 ^ b) (N.lxor K i)) n) as [A|A]; [|discriminate]. injection H as <-. split; [reflexivity|]. split; [lia|]. split; [rewrite N.lxor_assoc; f_equal; apply N.lxor_comm|auto].
      * intros (b & L & [H|(_ & H1 & H2 & [H3|[H3 H4]])]); [left; exists b; auto|left; exists b; auto 7|]. right. exists (2 ^ b). split; [apply powers_in; exists b; split; [lia|reflexivity]|].
        assert (N.lxor (2 ^ b) (N.lxor K i) = j) as -> by (rewrite H2, N.lxor_assoc; f_equal; apply N.lxor_comm). destruct (N.ltb_spec j n); [reflexivity|lia].
    + rewrite R. split; intros (b & L & [H|(_ & H1 & H2 & H3)]); try (exists b; auto; fail).
      * exists b. split; [exact L|]. right. auto 6.
      * exists b. split; [exact L|]. destruct H3 as [H3|[H3 _]]; [right; auto 6|lia].
  - rewrite R. split; intros (b & L & [H|(H & _)]); try discriminate; exists b; auto.
Qed.

Lemma lxor_twice a b : N.lxor a (N.lxor a b) = b. Proof. now rewrite <- N.lxor_assoc, N.lxor_nilpotent, N.lxor_0_l. Qed.
Lemma nbr_sym e i j : i < n -> nbr e i j -> nbr e j i.
Proof.
  intros I (b & L & [[J ->]|(E & L' & EJ & H)]); exists b; (split; [exact L|]).
  - left. split; [exact I|]. now rewrite lxor_twice.
  - right. assert (i = N.lxor (N.lxor (2 ^ b) j) K) as EI.
    { rewrite EJ. rewrite <- !N.lxor_assoc, N.lxor_nilpotent, N.lxor_0_l, N.lxor_assoc, N.lxor_nilpotent. now rewrite N.lxor_0_r. }
    split; [exact E|]. split; [exact L'|]. split; [exact EI|]. destruct H as [H|[H J]].
    + right. split; [|exact I]. rewrite EJ, N.lxor_comm, N.lxor_assoc, N.lxor_nilpotent, N.lxor_0_r. exact H.
    + left. rewrite EJ, N.lxor_assoc, lxor_twice, N.lxor_comm. exact H.
Qed.
Lemma log2_lt i : i < n -> i < 2 * K. Proof. pose proof n_lt. lia. Qed.
Lemma pow_lt b : b < N.log2 n -> 2 ^ b < K. Proof. intros L. apply N.pow_lt_mono_r; lia. Qed.
Lemma high_bit x : x < 2 * K -> K <= x -> N.lxor x K < K.
Proof.
  intros A B. assert (x = K + (x - K)) as E by lia. assert (x - K < K) as C by lia.
  assert (N.lxor x K = x - K) as ->; [|exact C]. rewrite E at 1. replace (K + (x - K)) with (N.lxor K (x - K)).
  - rewrite N.lxor_comm. apply lxor_twice.
  - symmetry. apply N.add_nocarry_lxor. apply N.bits_inj. intros i. rewrite N.land_spec, N.bits_0. unfold K. destruct (N.eq_dec (N.log2 n) i) as [<-|NE]; [|now rewrite N.pow2_bits_false].
    rewrite N.pow2_bits_true. cbn. destruct (N.eq_dec (x - K) 0) as [Z|NZ]; [unfold K in Z; rewrite Z; apply N.bits_0|]. apply N.bits_above_log2. apply N.log2_lt_pow2; [unfold K in NZ; lia|exact C].
Qed.
Lemma lxor_lt a b : a < 2 * K -> b < 2 * K -> N.lxor a b < 2 * K.
Proof.
  intros A B. unfold K in *. rewrite <- N.pow_succ_r' in *. destruct (N.eq_dec (N.lxor a b) 0) as [->|NZ]; [lia|].
  apply N.log2_lt_pow2; [lia|]. eapply N.le_lt_trans; [apply N.log2_lxor|]. apply N.max_lub_lt.
  - destruct (N.eq_dec a 0) as [->|]; [cbn; lia|]. apply N.log2_lt_pow2; lia.
  - destruct (N.eq_dec b 0) as [->|]; [cbn; lia|]. apply N.log2_lt_pow2; lia.
Qed.
Lemma nbr_in e i j : i < n -> nbr e i j -> j < n /\ j <> i.
Proof.
  intros I (b & L & [[J ->]|(E & L' & -> & H)]).
  - split; [exact J|]. intros Q. assert (2 ^ b = 0) as Z by (rewrite <- (N.lxor_0_r (2 ^ b)), <- (N.lxor_nilpotent i), <- N.lxor_assoc, Q; reflexivity). now apply N.pow_nonzero in Z.
  - pose proof K_le as KL. pose proof (pow_lt b L') as PB. split.
    + destruct H as [H|[_ H]]; [|exact H]. apply N.lt_le_trans with K; [|exact KL]. apply high_bit; [|lia]. apply lxor_lt; [lia|now apply log2_lt].
    + intros Q. assert (2 ^ b = K) as Z.
      { apply N.lxor_eq. rewrite N.lxor_assoc, (N.lxor_comm i K), <- N.lxor_assoc in Q. rewrite <- (N.lxor_0_r (N.lxor _ _)), <- (N.lxor_nilpotent i), <- N.lxor_assoc, Q. reflexivity. }
      lia.
Qed.
(** every thread but 0 has a smaller neighbour *)
Lemma nbr_down e i : 0 < i -> i < n -> exists j, j < i /\ nbr e i j.
Proof.
  intros P I. set (b := N.log2 i). assert (2 ^ b <= i < 2 * 2 ^ b) as [B1 B2] by (pose proof (N.log2_spec i P) as Q; rewrite N.pow_succ_r' in Q; exact Q).
  assert (b <= N.log2 n) as BL by (apply N.log2_le_mono; lia).
  assert (N.lxor (2 ^ b) i = i - 2 ^ b) as E.
  { assert (i = 2 ^ b + (i - 2 ^ b)) as EI by lia. rewrite EI at 1. replace (2 ^ b + (i - 2 ^ b)) with (N.lxor (2 ^ b) (i - 2 ^ b)); [apply lxor_twice|].
    symmetry. apply N.add_nocarry_lxor. apply N.bits_inj. intros x. rewrite N.land_spec, N.bits_0. destruct (N.eq_dec b x) as [<-|NE]; [|now rewrite N.pow2_bits_false].
    rewrite N.pow2_bits_true. cbn. destruct (N.eq_dec (i - 2 ^ b) 0) as [Z|NZ]; [rewrite Z; apply N.bits_0|]. apply N.bits_above_log2. apply N.log2_lt_pow2; lia. }
  assert (2 ^ b <> 0) by (apply N.pow_nonzero; lia). exists (N.lxor (2 ^ b) i). rewrite E at 1. split; [lia|]. exists b. split; [exact BL|]. left. split; [|reflexivity]. rewrite E. lia.
Qed.

Lemma ring_bits i j : i < n -> listens Tring n i j = true <-> (j = if 0 <? i then i - 1 else n - 1) \/ (j = if i + 1 =? n then 0 else i + 1).
Proof.
  intros I. unfold listens. rewrite inSet_bit. cbn [initPeerMask]. rewrite N.lor_spec, !mask_bit, orb_true_iff, !N.eqb_eq.
  assert ((i + 1) mod n = if i + 1 =? n then 0 else i + 1) as ->; [|intuition congruence].
  destruct (N.eqb_spec (i + 1) n) as [->|NE]; [apply N.mod_same; lia|apply N.mod_small; lia].
Qed.
Lemma all_bits i j : i < n -> listens Tall n i j = true <-> j < n /\ j <> i.
Proof.
  intros I. unfold listens. rewrite inSet_bit. cbn [initPeerMask]. rewrite N.lxor_spec, mask_bit. unfold initSet. rewrite N.shiftl_1_l, N.sub_1_r, <- N.ones_equiv.
  destruct (N.lt_ge_cases j n) as [L|G].
  - rewrite N.ones_spec_low by exact L. destruct (N.eqb_spec i j) as [->|NE]; cbn; [split; [discriminate|intros []; congruence]|split; [auto|reflexivity]].
  - rewrite N.ones_spec_high by exact G. destruct (N.eqb_spec i j) as [->|NE]; [lia|]. cbn. split; [discriminate|lia].
Qed.

Lemma listens_in t i j : i < n -> listens t n i j = true -> j < n /\ j <> i.
Proof.
  intros I H. destruct t.
  - now apply all_bits.
  - apply ring_bits in H; [|exact I]. destruct (N.ltb_spec 0 i), (N.eqb_spec (i + 1) n); destruct H; subst; lia.
  - apply cube_bits in H; [|auto]. now apply (nbr_in false).
  - apply cube_bits in H; [|auto]. now apply (nbr_in true).
Qed.
Lemma listens_sym t i j : i < n -> listens t n i j = true -> listens t n j i = true.
Proof.
  intros I H. destruct (listens_in t i j I H) as [J NE]. destruct t.
  - apply all_bits; auto.
  - apply ring_bits; [exact J|]. apply ring_bits in H; [|exact I]. destruct (N.ltb_spec 0 i), (N.eqb_spec (i + 1) n), (N.ltb_spec 0 j), (N.eqb_spec (j + 1) n); destruct H; subst; lia.
  - apply cube_bits; [auto|]. apply cube_bits in H; [|auto]. now apply nbr_sym.
  - apply cube_bits; [auto|]. apply cube_bits in H; [|auto]. now apply nbr_sym.
Qed.
Definition edge (t : topology) (i j : N) : Prop := i < n /\ listens t n i j = true.
Lemma down t i : 0 < i -> i < n -> exists j, j < i /\ listens t n i j = true.
Proof.
  intros P I. destruct t.
  - exists 0. split; [exact P|]. apply all_bits; lia.
  - exists (i - 1). split; [lia|]. apply ring_bits; [exact I|]. left. destruct (N.ltb_spec 0 i); [reflexivity|lia].
  - destruct (nbr_down false i P I) as (j & L & H). exists j. split; [exact L|]. apply cube_bits; auto.
  - destruct (nbr_down true i P I) as (j & L & H). exists j. split; [exact L|]. apply cube_bits; auto.
Qed.
Lemma to_zero t : forall i, i < n -> clos_refl_trans N (edge t) i 0.
Proof.
  intros i. induction i as [i IH] using (well_founded_induction N.lt_wf_0). intros I. destruct (N.eq_dec i 0) as [->|NZ]; [apply rt_refl|].
  destruct (down t i ltac:(lia) I) as (j & L & H). eapply rt_trans; [apply rt_step; split; [exact I|exact H]|]. apply IH; lia.
Qed.
Lemma rt_sym t i j : clos_refl_trans N (edge t) i j -> clos_refl_trans N (edge t) j i.
Proof.
  induction 1 as [i j [I H]|i|i j k _ IH1 _ IH2]; [|apply rt_refl|now apply rt_trans with j]. apply rt_step. destruct (listens_in t i j I H). split; [assumption|now apply listens_sym].
Qed.
Lemma connected t i j : i < n -> j < n -> clos_refl_trans N (edge t) i j.
Proof. intros I J. apply rt_trans with 0; [now apply to_zero|]. apply rt_sym. now apply to_zero. Qed.
End T.
