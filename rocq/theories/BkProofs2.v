(** Backtracking, the update after a model, and all steps keep the invariant. *)
From Coq Require Import List Bool Arith ZArith Lia.
Import ListNotations.
From Verif Require Import Base ClModel EnModel EnSpec BkModel BkSpec BkProofs.

Section Inv2.
Variables (n : nat) (F : list clause) (proj : option (nat -> bool)) (step : lit) (As : list lit).
Notation cov := (covers n (modeB proj)).
Notation U := (U n F proj As).
Notation J := (J n F proj step As).
Notation sep := (sep n proj step).
Notation sepAll := (sepAll n proj step).
Notation Dead := (Dead n F proj As).
Notation P' := (P' proj).
Notation nogoodOf := (nogoodOf n proj step).

Lemma same_U s s' M : same s s' -> U s' M -> U s M.
Proof. intros (_ & _ & _ & _ & _ & _ & E). unfold BkProofs.U. now rewrite E. Qed.
Lemma same_decAt s s' k : same s s' -> decAt s' k = decAt s k.
Proof. intros (E & _). unfold decAt. now rewrite E. Qed.
Lemma same_dl s s' : same s s' -> dl s' = dl s.
Proof. intros (E & _). unfold dl. now rewrite E. Qed.
Lemma last_dec s : 0 < dl s -> dec s = firstn (dl s - 1) (dec s) ++ [decAt s (dl s)].
Proof.
  intros L. unfold decAt, dl in *. destruct (dec s) as [|x l] eqn:E using rev_ind; [cbn in L; lia|]. clear IHl. rewrite app_length. cbn [length].
  replace (length l + 1 - 1) with (length l) by lia. rewrite firstn_app, Nat.sub_diag, firstn_all, app_nth2, Nat.sub_diag by lia. cbn. now rewrite app_nil_r.
Qed.

(** one round of the loop in backtrack *)
Lemma round_ok s ps : J s -> Dead s -> root s < dl s -> (flip s = dl s \/ sepAll s) ->
  let p := neg (decAt s (dl s)) in
  let s1 := undoUntil F s (dl s - 1) 2 ps in
  let s2 := setBt s1 (dl s1) 1 in
  J s2 /\ root s2 = root s /\ rep s2 = rep s /\ dl s2 = dl s - 1 /\ (flip s2 = dl s2 \/ sepAll s2)
  /\ (forall M, U s2 M -> sats M (dec s2) -> holds M p = true)
  /\ (forall M, U s2 M -> sats M (dec s2) -> holds M (neg p) = true -> False)
  /\ (fl s2 p = false -> sepAll (force s2 p false)).
Proof.
  intros HJ HD HL HF p s1 s2. pose proof (j_root _ _ _ _ _ s HJ) as R. pose proof (j_mode _ _ _ _ _ s HJ) as (M2 & MN & MS).
  set (f' := if (dl s - 1 <? flip s) then dl s - 1 else flip s).
  set (s0 := if (dl s - 1 <? flip s) && (bmode s <=? 2) then setFlip s (max (root s) (dl s - 1)) (bmode s) else s).
  assert (E0 : s0 = setFlip s f' (bmode s)).
  { unfold s0, f'. destruct (Nat.leb_spec (bmode s) 2); [|lia]. rewrite andb_true_r. destruct (dl s - 1 <? flip s); [f_equal; lia|now destruct s]. }
  assert (Lf : root s <= f' /\ f' <= flip s /\ f' <= dl s - 1). { unfold f'. destruct (Nat.ltb_spec (dl s - 1) (flip s)); lia. }
  assert (J0 : J s0). { rewrite E0. apply setFlip_J; auto; [lia| |]; [intros H k Lk; apply (j_pd _ _ _ _ _ s HJ H); lia|intros x k Ix Lk; apply (j_left _ _ _ _ _ s HJ); auto; lia]. }
  set (sa := undoImpl s0 (dl s - 1)). assert (Ja : J sa) by now apply undo_J. assert (J1 : J s1) by now apply reimply_J.
  assert (Sm : same sa s1) by apply reimply_same.
  assert (K0 : K s0 (dl s - 1) = dl s - 1) by (unfold K; rewrite E0; cbn; lia).
  assert (Da : dl sa = dl s - 1). { unfold sa. rewrite undo_dl, K0, E0. change (dl (setFlip s f' (bmode s))) with (dl s). lia. }
  destruct (undo_fields s0 (dl s - 1)) as (F1 & F2 & F3 & F4 & F5 & F6). fold sa in F1, F2, F3, F4, F5, F6.
  assert (G : root s0 = root s /\ flip s0 = f' /\ bmode s0 = bmode s /\ pn s0 = pn s /\ rep s0 = rep s /\ dec s0 = dec s /\ imp s0 = imp s) by (rewrite E0; cbn; auto 10). destruct G as (G1 & G2 & G3 & G4 & G5 & G6 & G7).
  destruct Sm as (S1 & S2 & S3 & S4 & S5 & S6 & S7). assert (Sm : same sa s1) by (unfold same; auto 10).
  assert (D1 : dl s1 = dl s - 1) by (rewrite (same_dl _ _ Sm); auto).
  assert (LA : forall k q, k <= dl s - 1 -> In q (lits s k) -> In q (lits s1 k)).
  { intros k q Lk I. change (In q (lits (reimply F sa ps) k)). apply reimply_lits. unfold sa. rewrite undo_lits; [|rewrite K0; auto]. unfold lits in *. now rewrite G6, G7. }
  assert (DA : forall k, 1 <= k <= dl s - 1 -> decAt s1 k = decAt s k).
  { intros k Lk. rewrite (same_decAt _ _ _ Sm). unfold sa. rewrite undo_decAt by (rewrite K0; auto). unfold decAt. now rewrite G6. }
  assert (SE : forall k m, k <= dl s - 1 -> sep s k m -> sep s1 k m).
  { intros k m Lk. apply sep_mono; [intros q; now apply LA|rewrite S6, F5, G4; auto|]. intros j Lj Dj. split; [lia|]. split; [lia|]. apply DA. lia. }
  assert (E2 : exists f m', s2 = setFlip s1 f m' /\ f' <= f <= dl s - 1 /\ (f = f' /\ m' = bmode s \/ f = dl s - 1 /\ m' = 1 /\ bmode s <= 1)).
  { unfold s2, setBt. rewrite D1. assert (B1 : bmode s1 = bmode s) by congruence. rewrite B1. destruct (Nat.leb_spec (bmode s) 1).
    - exists (dl s - 1), 1. split; [|split; [lia|auto]]. f_equal; try lia.
    - exists f', (bmode s). split; [|split; [lia|auto]]. replace f' with (flip s1) by congruence. rewrite <- B1. now destruct s1. }
  destruct E2 as (f & m' & E2 & Lf2 & Cf). assert (R1 : root s1 = root s) by congruence. assert (P1 : rep s1 = rep s) by congruence.
  assert (FL : flip s = dl s -> f = dl s - 1). { intros X. destruct Cf as [[-> _]|[-> _]]; auto. unfold f'. destruct (Nat.ltb_spec (dl s - 1) (flip s)); lia. }
  assert (J2 : J s2).
  { rewrite E2. apply setFlip_J; auto.
    - rewrite R1, D1. lia.
    - destruct Cf as [[_ ->]|(_ & -> & _)]; auto.
    - destruct Cf as [[_ ->]|(_ & -> & _)]; auto.
    - rewrite P1. destruct Cf as [[_ ->]|(_ & -> & Hb)]; auto. intros H. destruct (MS H) as [X|X]; [auto|lia].
    - rewrite P1, R1. intros H k Lk. destruct (Nat.le_gt_cases k (flip s)) as [X|X]; [rewrite DA by lia; apply (j_pd _ _ _ _ _ s HJ H); lia|].
      destruct Cf as [[-> _]|(_ & _ & Hb)]; [lia|]. unfold BkProofs.P'. destruct proj as [Q|] eqn:EP; auto. destruct MS as [Y|Y]; [congruence| |lia]. congruence.
    - rewrite P1, R1. intros m k Im Lk. destruct (Nat.le_gt_cases k (flip s)) as [X|X].
      + rewrite DA by lia. destruct (j_left _ _ _ _ _ s HJ m k Im) as [Y|Y]; [lia| |now right]. left. apply SE; [lia|auto].
      + left. destruct HF as [HF|HF]; [lia|]. apply sep_le with (flip s); [lia|]. apply SE; [lia|auto]. }
  assert (SS : forall j m, sep s1 j m -> sep s2 j m) by (intros j m; rewrite E2; apply sep_mono; auto; intros i Li Di; split; [lia|auto]).
  assert (D2 : dl s2 = dl s - 1) by (rewrite E2; exact D1).
  assert (EX : dec s2 ++ [decAt s (dl s)] = dec s).
  { rewrite E2. cbn [setFlip dec]. rewrite S1. etransitivity; [|symmetry; apply last_dec; lia]. f_equal. rewrite <- (firstn_all (dec sa)). change (length (dec sa)) with (dl sa). rewrite Da. unfold sa. rewrite undo_dec by (rewrite K0; auto). now rewrite G6. }
  assert (US : forall M, U s2 M -> U s M) by (intros M; unfold BkProofs.U; rewrite E2; cbn [setFlip rep]; now rewrite P1).
  assert (NO : forall M, U s2 M -> sats M (dec s2) -> holds M (decAt s (dl s)) = true -> False).
  { intros M HU H Hd. apply (HD M (US M HU)). rewrite <- EX. intros q Iq. apply in_app_or in Iq as [Iq|[<-|[]]]; auto. }
  split; [exact J2|]. split; [rewrite E2; exact R1|]. split; [rewrite E2; exact P1|]. split; [exact D2|].
  assert (SF : flip s <> dl s -> sepAll s -> sepAll s2).
  { intros X HA m Im. rewrite E2 in Im. cbn in Im. rewrite P1 in Im. specialize (HA m Im). apply SS. rewrite E2. cbn [setFlip flip].
    apply sep_le with (flip s); [|apply SE; [lia|auto]]. unfold f' in Lf2. destruct (Nat.ltb_spec (dl s - 1) (flip s)); lia. }
  assert (F2' : flip s2 = f) by (rewrite E2; reflexivity).
  split; [destruct (Nat.eq_dec (flip s) (dl s)) as [X|X]; [left; rewrite F2', D2; auto|right; destruct HF; [lia|auto]]|].
  split; [|split].
  - intros M HU H. unfold p. rewrite holds_neg. destruct (holds M (decAt s (dl s))) eqn:X; auto. exfalso. eauto.
  - intros M HU H. unfold p. rewrite neg_neg. eauto.
  - intros Fp. destruct (Nat.eq_dec (flip s) (dl s)) as [X|X]; [|apply force_sepAll, SF; auto; destruct HF; [lia|auto]].
    intros m Im. destruct (force_same s2 p false) as (Q1 & Q2 & Q3 & Q4 & Q5 & Q6 & Q7). rewrite Q7 in Im. rewrite Q3, F2', (FL X).
    assert (Im' : In m (rep s)) by (rewrite E2 in Im; cbn in Im; congruence).
    destruct (j_left _ _ _ _ _ s HJ m (dl s) Im') as [Y|Y]; [lia| |].
    + apply SE in Y; auto. apply SS in Y. revert Y. apply sep_mono; [intros q; apply lits_force|now rewrite Q6|]. intros j Lj Dj. unfold decAt, dl in *. rewrite Q1. split; [lia|auto].
    + left. exists p. split; [|split].
      * assert (T : tr (force s2 p false) p = true). { destruct (force_cases s2 p false) as [[-> T]|[(_ & _ & T)|(-> & _)]]; [auto|congruence|]. apply tr_new. now left. }
        apply tr_in in T. rewrite (same_dl _ _ (force_same s2 p false)), D2 in T. exact T.
      * unfold pv, p. cbn [neg fst]. split; [apply (j_range _ _ _ _ _ s HJ); lia|]. apply (j_pd _ _ _ _ _ s HJ); [|lia]. intros Z. rewrite Z in Im'. contradiction.
      * unfold p. now rewrite holds_neg, Y.
Qed.

Definition Inv (s : bst) : Prop := J s /\ (sepAll s \/ (cfl s = true /\ dl s = root s)).
Lemma backtrack_ok o : forall f s, J s -> Dead s -> (flip s = dl s \/ sepAll s) -> dl s < f -> exists s', backtrack F f o s = Ok s' /\ Inv s' /\ rep s' = rep s.
Proof.
  induction f as [|f IH]; intros s HJ HD HF L; [lia|]. cbn [backtrack]. destruct (Nat.eqb_spec (dl s) (root s)) as [E|N].
  - eexists. split; [reflexivity|]. split; [|reflexivity]. split; [|right; split; auto]. destruct HJ as [A1 A2 A3 A4 A5 A6 A7 A8 A9 A10 A11 A12 A13 A14]. constructor; auto.
  - assert (Lr : root s < dl s) by (pose proof (j_root _ _ _ _ _ s HJ); lia). destruct (round_ok s (o (dl s)) HJ HD Lr HF) as (J2 & R2 & P2 & D2 & F2 & H1 & H2 & H3).
    set (p := neg (decAt s (dl s))) in *. set (s2 := setBt _ _ 1) in *. destruct (cfl s2 || fl s2 p) eqn:E.
    + destruct (IH s2) as (s' & E' & I' & R'); auto; [|lia|exists s'; split; [auto|split; [auto|congruence]]].
      apply orb_true_iff in E as [E|E]; [exact (j_cfl _ _ _ _ _ s2 J2 E)|]. intros M HU H. apply (H2 M HU H). apply (sem_all _ _ _ _ _ s2 M J2 HU H). exact E.
    + apply orb_false_iff in E as [_ E]. eexists. split; [reflexivity|]. split; [|now destruct (force_same s2 p false) as (_ & _ & _ & _ & _ & _ & ->)].
      split; [|left; auto]. apply force_J; auto.
Qed.

(** decisions *)
Lemma lits_assume s p k : (forall e, In e (imp s) -> snd (fst e) <= dl s) -> let s' := B (dec s ++ [p]) (imp s) (root s) (flip s) (bmode s) (lrn s) (pn s) (cfl s) (rep s) in
  (k <= dl s -> lits s' k = lits s k) /\ (forall q, dl s < k -> In q (lits s' k) -> q = p \/ tr s q = true).
Proof.
  intros HL s'. split.
  - intros L. unfold lits. cbn [dec imp s']. rewrite firstn_app. unfold dl in L. replace (k - length (dec s)) with 0 by lia. cbn. now rewrite app_nil_r.
  - intros q L I. apply in_lits in I as [I|(j & b & I & Lj)].
    + apply in_firstn in I. cbn in I. apply in_app_or in I as [I|[<-|[]]]; auto. right. now apply dec_tr.
    + right. apply tr_in, in_lits. right. exists j, b. split; auto. apply (HL (q, j, b) I).
Qed.
Lemma assume_free s p : tr s p = false -> fl s p = false -> assume s p = B (dec s ++ [p]) (imp s) (root s) (flip s) (bmode s) (lrn s) (pn s) (cfl s) (rep s).
Proof. intros H1 H2. unfold assume. now rewrite H1, H2. Qed.
Lemma assume_J s p : J s -> cfl s = false -> 1 <= fst p <= n -> tr s p = false -> fl s p = false -> J (assume s p) /\ (sepAll s -> sepAll (assume s p)) /\ dl (assume s p) = S (dl s)
  /\ (forall k m, k <= dl s -> sep s k m -> sep (assume s p) k m) /\ (forall k, k <= dl s -> 1 <= k -> decAt (assume s p) k = decAt s k) /\ decAt (assume s p) (S (dl s)) = p.
Proof.
  intros HJ HC HR Ht Hf. rewrite assume_free by auto. set (s' := B _ _ _ _ _ _ _ _ _). pose proof HJ as [A1 A2 A3 A4 A5 A6 A7 A8 A9 A10 A11 A12 A13 A14].
  pose proof (fun k => lits_assume s p k A3) as LA. fold s' in LA. cbn zeta in LA.
  assert (DL : dl s' = S (dl s)) by (unfold dl, s'; cbn [dec]; rewrite app_length; cbn; lia).
  assert (DA : forall k, k <= dl s -> 1 <= k -> decAt s' k = decAt s k) by (intros k L1 L2; unfold decAt, s', dl in *; cbn [dec]; apply app_nth1; lia).
  assert (DN : decAt s' (S (dl s)) = p) by (unfold decAt, s', dl; cbn [dec]; rewrite app_nth2; [|lia]; replace (S (length (dec s)) - 1 - length (dec s)) with 0 by lia; reflexivity).
  assert (SE : forall k m, k <= dl s -> sep s k m -> sep s' k m).
  { intros k m L. apply sep_mono; [intros q; now rewrite (proj1 (LA k) L)|auto|]. intros j Lj Dj. split; [lia|]. split; [lia|]. apply DA; lia. }
  split; [|split; [|split; [exact DL|split; [exact SE|split; [exact DA|exact DN]]]]].
  - constructor; auto.
    + rewrite DL. cbn. lia.
    + cbn [root dec s']. rewrite firstn_app. unfold dl in A1. replace (root s - length (dec s)) with 0 by lia. cbn. now rewrite app_nil_r.
    + intros e I. rewrite DL. specialize (A3 e I). lia.
    + intros q X Y. apply tr_in in X, Y. rewrite DL in X, Y. apply LA in X, Y; try lia. unfold fl in Hf. destruct X as [->|X], Y as [Y|Y].
      * now apply neg_neq in Y.
      * congruence.
      * rewrite <- Y, neg_neg in Hf. congruence.
      * eauto.
    + change (root s') with (root s). rewrite (proj1 (LA (root s))); [auto|lia].
    + rewrite DL. change (root s') with (root s). intros k Lk. destruct (Nat.eq_dec k (S (dl s))) as [->|N]; [now rewrite DN|rewrite DA by lia; apply A7; lia].
    + rewrite DL. intros M k HU Lk H. change (U s M) in HU. destruct (Nat.eq_dec k (S (dl s))) as [->|N].
      * intros q Iq. assert (HD : sats M (dec s' )). { intros r Ir. apply H. rewrite <- DL. unfold dl. now rewrite firstn_all. }
        assert (HD2 : sats M (dec s)) by (intros r Ir; apply HD; cbn; apply in_or_app; now left).
        apply LA in Iq as [->|T]; [apply HD; cbn; apply in_or_app; right; now left|now apply (sem_all _ _ _ _ _ s M HJ HU HD2)|lia].
      * rewrite (proj1 (LA k)) by lia. apply A10; auto; [lia|]. intros r Ir. apply H. cbn [dec s']. rewrite firstn_app. apply in_or_app. now left.
    + change (rep s') with (rep s). change (root s') with (root s). change (flip s') with (flip s). intros H k Lk. rewrite DA by lia. now apply A12.
    + change (rep s') with (rep s). change (root s') with (root s). change (flip s') with (flip s). intros m k Im Lk. rewrite DA by lia. destruct (A13 m k Im Lk) as [X|X]; [left; apply SE; [lia|auto]|now right].
    + cbn. congruence.
  - intros H m Im. apply SE; [cbn; lia|]. now apply H.
Qed.
End Inv2.
