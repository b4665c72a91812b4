(** Unfounded set check: search for new sources *)
From Coq Require Import List Bool Arith ZArith Lia.
From Verif Require Import Base UfModel UfSpec UfProofs UfProofs2 UfProofs3 UfProofs4.
Import ListNotations.
Local Open Scope Z_scope.

Section Uf.
Variable g : graph.
Hypothesis W : gwf g.
Notation nA := (nAtoms g).
Notation nB := (length (g_bodies g)).
Section Phase.
Variable As : list pasg.
Variable A : pasg.
Hypothesis SUB : forall B l, In B As -> isFalse B l = true -> isFalse A l = true.
Notation ff l := (isFalse A l).
Section FixH.
Variable H : nat -> Prop.
Notation Qt := (Quiet g As A [] H none).
Notation AFr := (AFr g A).
(** All subgoals that could be watched are watched *)
Definition cmp (k : ck) (b : nat) : Prop := forall i l w, nth_error (goals g b) i = Some (l, w) -> ff l = false -> (forall p, nth_error (preds g b) i = Some p -> k_val k p = true) -> k_ws k b i = true.
Definition onlyB (b : nat) (k k' : ck) : Prop :=
  k_val k' = k_val k /\ k_src k' = k_src k /\ k_q k' = k_q k /\ k_w k' = k_w k /\ forall c, c <> b -> k_low k' c = k_low k c /\ k_ws k' c = k_ws k c.
Lemma onlyB_refl : forall b k, onlyB b k k.
Proof. intros. unfold onlyB. sp; auto. Qed.
Lemma addToWs_quiet : forall b i k, Qt k -> isExt g b = true -> k_ws k b i = false -> okG g A b i -> (forall p, nth_error (preds g b) i = Some p -> k_val k p = true) ->
  (forall y, k_src k y = Some b -> sameScc g b y = true -> k_val k y = false) -> Qt (addToWs g b i k) /\ AFr k (addToWs g b i k) /\ onlyB b k (addToWs g b i k).
Proof.
  intros b i k [F QE] X WI OK VP NW.
  assert (WM : forall c j, k_ws (addToWs g b i k) c j = true -> k_ws k c j = true \/ okG g A c j). { intros c j. cbn. unfold upd. destruct (Nat.eqb_spec c b) as [->|]; auto. destruct (Nat.eqb_spec j i) as [->|]; auto. }
  sp.
  - split; auto. eapply full_step; [eassumption|eassumption| | |apply incl_refl].
    + intros G C. apply addToWs_core; auto. intros c p _ Y. auto. apply ext_range; auto.
    + split; auto.
  - constructor; cbn; auto.
    + intros c j. unfold upd. destruct (Nat.eqb_spec c b); auto. subst. destruct (Nat.eqb j i); auto.
    + intros c. unfold upd. destruct (Nat.eqb_spec c b) as [->|]; [|lia]. pose proof (wt_nonneg g W b i). lia.
  - unfold onlyB. cbn. sp; auto. intros c D. rewrite !upd_other by auto. auto.
Qed.
Lemma onlyB_trans : forall b k1 k2 k3, onlyB b k1 k2 -> onlyB b k2 k3 -> onlyB b k1 k3.
Proof. intros b k1 k2 k3 (A1 & A2 & A3 & A4 & A5) (B1 & B2 & B3 & B4 & B5). unfold onlyB. sp; try congruence. intros c D. destruct (A5 c D), (B5 c D). split; congruence. Qed.
Lemma wsIn_ok : forall b l k, (forall i x, In (i, x) l -> nth_error (preds g b) i = Some x) -> Qt k -> isExt g b = true -> (forall y, k_src k y = Some b -> sameScc g b y = true -> k_val k y = false) ->
  let k' := fold_left (wsIn g A b) l k in Qt k' /\ AFr k k' /\ onlyB b k k' /\ (forall i x, In (i, x) l -> k_val k x = true -> ff (alit g x) = false -> k_ws k' b i = true) /\ (cmp k b -> k' = k).
Proof.
  intros b l. induction l as [|(i, x) l IH]; intros k HL QU X NW; cbn [fold_left]; cbn zeta.
  - sp; auto using AFr_refl, onlyB_refl; intros ? ? [].
  - set (k1 := wsIn g A b k (i, x)). assert (NP : nth_error (preds g b) i = Some x) by (apply HL; left; auto). destruct (goal_in g _ _ _ NP) as (w & NG).
    assert (S1 : Qt k1 /\ AFr k k1 /\ onlyB b k k1 /\ (k_val k x = true -> ff (alit g x) = false -> k_ws k1 b i = true) /\ (cmp k b -> k1 = k)).
    { unfold k1, wsIn. destruct (k_val k x) eqn:V; cbn [andb]; [|sp; auto using AFr_refl, onlyB_refl; discriminate]. destruct (k_ws k b i) eqn:WI; cbn [negb andb]; [sp; auto using AFr_refl, onlyB_refl|].
      destruct (ff (alit g x)) eqn:FX; cbn [negb]; [sp; auto using AFr_refl, onlyB_refl; discriminate|].
      destruct (addToWs_quiet b i k) as (Q1 & Q2 & Q3); auto.
      - intros l' w' N'. rewrite NG in N'. injection N' as <- <-. auto.
      - intros p N'. rewrite NP in N'. injection N' as <-. auto.
      - sp; auto.
        + intros _ _. cbn. rewrite !upd_same. auto.
        + intros C. rewrite (C i _ _ NG FX) in WI; [discriminate|]. intros p N'. rewrite NP in N'. injection N' as <-. auto. }
    destruct S1 as (Q1 & Q2 & Q3 & Q4 & Q5). destruct (IH k1) as (I1 & I2 & I3 & I4 & I5); auto. { intros j y J. apply HL. right. auto. } { destruct Q3 as (E1 & E2 & _). rewrite E1, E2. auto. }
    sp; auto.
    + eapply AFr_trans; eauto.
    + eapply onlyB_trans; eauto.
    + intros j y [J|J] V F; [injection J as <- <-; apply (g_ws _ _ _ _ I2); auto|]. apply (I4 j y); auto. destruct Q3 as (E1 & _). rewrite E1. auto.
    + intros C. specialize (Q5 C). rewrite Q5 in I5 |- *. auto.
Qed.
Lemma wsEx_ok : forall b l k, (forall i p, In (i, p) l -> nth_error (preds g b) i = None /\ exists w, nth_error (goals g b) i = Some (p, w)) -> Qt k -> isExt g b = true -> (forall y, k_src k y = Some b -> sameScc g b y = true -> k_val k y = false) ->
  let k' := fold_left (wsEx g A b) l k in Qt k' /\ AFr k k' /\ onlyB b k k' /\ (forall i p, In (i, p) l -> ff p = false -> k_ws k' b i = true) /\ (cmp k b -> k' = k).
Proof.
  intros b l. induction l as [|(i, p) l IH]; intros k HL QU X NW; cbn [fold_left]; cbn zeta.
  - sp; auto using AFr_refl, onlyB_refl; intros ? ? [].
  - set (k1 := wsEx g A b k (i, p)). destruct (HL i p (or_introl eq_refl)) as (NP & w & NG).
    assert (S1 : Qt k1 /\ AFr k k1 /\ onlyB b k k1 /\ (ff p = false -> k_ws k1 b i = true) /\ (cmp k b -> k1 = k)).
    { unfold k1, wsEx. destruct (ff p) eqn:FX; cbn [negb andb]; [sp; auto using AFr_refl, onlyB_refl; discriminate|]. destruct (k_ws k b i) eqn:WI; cbn [negb andb]; [sp; auto using AFr_refl, onlyB_refl|].
      destruct (addToWs_quiet b i k) as (Q1 & Q2 & Q3); auto.
      - intros l' w' N'. rewrite NG in N'. injection N' as <- <-. auto.
      - intros q N'. congruence.
      - sp; auto.
        + intros _. cbn. rewrite !upd_same. auto.
        + intros C. rewrite (C i _ _ NG FX) in WI; [discriminate|]. intros q N'. congruence. }
    destruct S1 as (Q1 & Q2 & Q3 & Q4 & Q5). destruct (IH k1) as (I1 & I2 & I3 & I4 & I5); auto. { intros j y J. apply HL. right. auto. } { destruct Q3 as (E1 & E2 & _). rewrite E1, E2. auto. }
    sp; auto.
    + eapply AFr_trans; eauto.
    + eapply onlyB_trans; eauto.
    + intros j y [J|J] F; [injection J as <- <-; apply (g_ws _ _ _ _ I2); auto|]. apply (I4 j y); auto.
    + intros C. specialize (Q5 C). rewrite Q5 in I5 |- *. auto.
Qed.
Lemma combine_seq : forall {T} (l : list T) s i x, In (i, x) (combine (seq s (length l)) l) <-> (s <= i)%nat /\ nth_error l (i - s) = Some x.
Proof.
  intros T l. induction l as [|a l IH]; intros s i x; cbn; [split; [intros []|]; destruct (i - s)%nat; intros [_ X]; discriminate|].
  rewrite IH. split.
  - intros [E|[L N]]; [injection E as <- <-; rewrite Nat.sub_diag; auto|]. split; [lia|]. replace (i - s)%nat with (S (i - S s)) by lia. auto.
  - intros [L N]. destruct (Nat.eq_dec i s) as [->|D]; [rewrite Nat.sub_diag in N; injection N as <-; auto|]. right. split; [lia|]. replace (i - s)%nat with (S (i - S s)) in N by lia. auto.
Qed.
Lemma goal_out : forall b i, (length (preds g b) <= i)%nat -> nth_error (goals g b) i = nth_error (n_exts (bodyOf g b)) (i - length (preds g b)).
Proof. intros b i L. unfold goals, preds in *. rewrite map_length in *. rewrite nth_error_app2 by (rewrite map_length; auto). rewrite map_length. auto. Qed.
Lemma isValid_ok : forall b k ok k', Qt k -> isValidSource g A b k = (ok, k') ->
  Qt k' /\ AFr k k' /\ onlyB b k k' /\ (ok = true <-> valid g k' b) /\ (isExt g b = true -> ok = false -> cmp k' b) /\ (isExt g b = false \/ valid g k b \/ cmp k b -> k' = k).
Proof.
  intros b k ok k' QU. unfold isValidSource. destruct (isExt g b) eqn:X; cbn [negb].
  2: { intros E. injection E as <- <-. sp; auto using AFr_refl, onlyB_refl; try discriminate. unfold valid. rewrite X. apply Z.eqb_eq. }
  destruct (Z.ltb_spec 0 (k_low k b)) as [LO|LO].
  2: { intros E. injection E as <- <-. sp; auto using AFr_refl, onlyB_refl; try discriminate. unfold valid. rewrite X. apply Z.leb_le. intros _ Y. apply Z.leb_gt in Y. lia. }
  destruct QU as [F QE]. destruct F as (G0 & C0 & FR0). assert (QU : Qt k) by (split; [exists G0; auto|auto]).
  assert (NW : forall y, k_src k y = Some b -> sameScc g b y = true -> k_val k y = false).
  { intros y SY SS. destruct (k_val k y) eqn:V; auto. destruct (c_valid _ _ _ _ _ _ C0 y V) as (c & C1 & C2). rewrite SY in C1. injection C1 as <-. destruct (C2 SS) as [Y|[]]. unfold valid in Y. rewrite X in Y. lia. }
  set (l1 := combine (seq 0 (length (preds g b))) (preds g b)). set (l2 := combine (seq (length (preds g b)) (length (n_exts (bodyOf g b)))) (map fst (n_exts (bodyOf g b)))).
  assert (HL1 : forall i x, In (i, x) l1 <-> nth_error (preds g b) i = Some x). { intros i x. unfold l1. rewrite combine_seq. rewrite Nat.sub_0_r. split; [intros []; auto|split; [lia|auto]]. }
  assert (HL2 : forall i p, In (i, p) l2 <-> nth_error (preds g b) i = None /\ exists w, nth_error (goals g b) i = Some (p, w)).
  { intros i p. unfold l2. rewrite <- (map_length fst (n_exts (bodyOf g b))). rewrite combine_seq. rewrite nth_error_None. split; intros [L N]; split; auto.
    - rewrite goal_out by auto. rewrite nth_error_map in N. destruct (nth_error (n_exts (bodyOf g b)) (i - length (preds g b))) as [(q, w)|]; [|discriminate]. cbn in N. injection N as ->. exists w. auto.
    - destruct N as (w & N). rewrite goal_out in N by auto. rewrite nth_error_map, N. reflexivity. }
  destruct (wsIn_ok b l1 k) as (Q1 & Q2 & Q3 & Q4 & Q5); auto. { intros i x I. apply HL1. auto. } cbn zeta in *. set (k1 := fold_left (wsIn g A b) l1 k) in *.
  destruct (wsEx_ok b l2 k1) as (R1 & R2 & R3 & R4 & R5); auto. { intros i p I. apply HL2. auto. } { destruct Q3 as (E1 & E2 & _). rewrite E1, E2. auto. } cbn zeta in *. set (k2 := fold_left (wsEx g A b) l2 k1) in *.
  intros E. injection E as <- <-. assert (O3 : onlyB b k k2) by (eapply onlyB_trans; eauto). sp; auto.
  - eapply AFr_trans; eauto.
  - unfold valid. rewrite X. apply Z.leb_le.
  - intros _ _ i l w NG FL VP. destruct (nth_error (preds g b) i) as [p|] eqn:NP.
    + apply (g_ws _ _ _ _ R2). apply (Q4 i p); [apply HL1; auto| |]. { destruct O3 as (E1 & _). rewrite <- E1. auto. } destruct (goal_in g _ _ _ NP) as (w' & NG'). rewrite NG in NG'. injection NG' as <- _. auto.
    + apply (R4 i l); auto. apply HL2. split; auto. exists w. auto.
  - intros [Y|[Y|Y]]; [congruence| |]. { unfold valid in Y. rewrite X in Y. lia. } rewrite (Q5 Y) in R5. unfold k2 in *. rewrite (Q5 Y) in *. apply R5. auto.
Qed.

(** Propagation of one new source *)
Lemma newSource_ok : forall (sb : list nat) b x k, Qt k -> ff (blit g b) = false -> In b (a_bodies (atomOf g x)) -> (sameScc g b x = true -> valid g k b) -> k_val k x = false -> ff (alit g x) = false ->
  (forall c, In c sb -> isExt g c = true -> 0 < k_low k c -> cmp k c) ->
  exists k', propagateSource g A (setSource g A b k x) = Ok k' /\ Qt k' /\ AFr k k' /\ k_val k' x = true /\ (forall c, In c sb -> isExt g c = true -> 0 < k_low k' c -> cmp k' c) /\
  (forall c, ff (blit g c) = false -> valid g k' c -> (c < nB)%nat -> valid g k c \/ forall y, In y (n_heads (bodyOf g c)) -> ff (alit g y) = false -> k_val k' y = true).
Proof.
  intros sb b x k QU FB IB VB VX FX CM. destruct (bodies_heads g W x b IB) as (HB & LB & LX).
  assert (P0 : AP g As A H nB (fun c => In c sb) none (fun _ p => k_val k p) (fun _ _ => false) nA k k).
  { destruct QU as [F QE]. constructor; rewrite ?QE; auto; try easy.
    - intros. cbn. rewrite !andb_true_r. auto.
    - constructor.
    - cbn. apply unval_le.
    - intros c i p IC XC LO NP V FP. destruct (goal_in g _ _ _ NP) as (w & NG). apply (CM c IC XC LO i _ _ NG FP). intros p' NP'. rewrite NP in NP'. injection NP' as <-. auto.
    - apply AFr_refl. }
  destruct (ap_set g W As A SUB H nB _ _ _ _ _ _ _ b x P0 HB LB FB VB) as (P1 & P2 & P3 & P4).
  destruct (propAdd_ap g W As A SUB H nB _ _ (S nA) _ _ _ eq_refl P1 ltac:(lia)) as (k' & E' & K1 & K2 & K3). exists k'. unfold propagateSource.
  pose proof (p_fr _ _ _ _ _ _ _ _ _ _ _ _ K2) as FR.
  assert (EV : forall c p, In p (preds g c) -> E' c p = k_val k' p). { intros c p I. rewrite (p_E _ _ _ _ _ _ _ _ _ _ _ _ K2), K3 by auto. cbn. rewrite !andb_true_r. auto. }
  sp; auto.
  - split; auto. eapply full_core; [apply (p_full _ _ _ _ _ _ _ _ _ _ _ _ K2)|]. intros G C. eapply core_E; [|eassumption]. intros. symmetry. auto.
  - assert (Y : forall z, k_val (setSource g A b k x) z = true -> k_val k' z = true); [|auto].
    assert (P1' : AP g As A H nB (fun c => In c sb) none (fun _ p => k_val k p) (fun _ _ => false) nA (setSource g A b k x) (setSource g A b k x)).
    { destruct P1 as [R1 R2 R3 R4 R5 R6 R7 R8 R9]. constructor; auto. apply AFr_refl. }
    destruct (propAdd_ap g W As A SUB H nB _ _ (S nA) _ _ _ eq_refl P1' ltac:(lia)) as (k2 & E2 & L1 & L2 & L3). rewrite K1 in L1. injection L1 as <-. apply (g_val _ _ _ _ (p_fr _ _ _ _ _ _ _ _ _ _ _ _ L2)).
  - intros c IC XC LO i l w NG FL VP. destruct (nth_error (preds g c) i) as [p|] eqn:NP.
    + apply (p_S _ _ _ _ _ _ _ _ _ _ _ _ K2 c i p); auto. { rewrite EV by (eapply nth_error_In; eauto). auto. } destruct (goal_in g _ _ _ NP) as (w' & NG'). rewrite NG in NG'. injection NG' as <- _. auto.
    + apply (g_ws _ _ _ _ FR). assert (LO' : 0 < k_low k c) by (pose proof (g_low _ _ _ _ FR c); lia). apply (CM c IC XC LO' i l w NG FL). intros p NP'. congruence.
  - intros c FC VC LC. destruct (p_new _ _ _ _ _ _ _ _ _ _ _ _ K2 c LC FC VC) as [[]|Y]; auto.
Qed.
End FixH.
End Phase.
End Uf.
