(** Unfounded set check: initialisation *)
From Coq Require Import List Bool Arith ZArith Lia.
From Verif Require Import Base UfModel UfRun UfSpec UfProofs UfProofs2 UfProofs3 UfProofs4 UfProofs5 UfProofs6 UfProofs7.
Import ListNotations.
Local Open Scope Z_scope.

Section Uf.
Variable g : graph.
Hypothesis W : gwf g.
Notation nA := (nAtoms g).
Notation nB := (length (g_bodies g)).
Variable A : pasg.
Notation ff l := (isFalse A l).
Definition F0 : nat -> nat -> bool := fun _ _ => false.
Definition any : nat -> Prop := fun _ => True.
Lemma subNil : forall B l, In B (@nil pasg) -> isFalse B l = true -> ff l = true.
Proof. intros B l []. Qed.
Definition AP0 (N : nat) (k0 k : ck) : Prop := AP g [] A any N any none F0 F0 nA k0 k.
Record IN (N : nat) (k : ck) : Prop := {
  n_ap : AP0 N k k;
  n_keep : k_todo k = [] /\ k_inv k = [] /\ (forall x, k_tf k x = false) /\ (forall x, k_uf k x = false);
  n_src : forall x b, k_src k x = Some b -> ff (blit g b) = false;
  n_ex : forall b i l w, (b < N)%nat -> isExt g b = true -> (length (preds g b) <= i)%nat -> nth_error (goals g b) i = Some (l, w) -> ff l = false -> k_ws k b i = true;
  n_hd : forall b x, (b < N)%nat -> ff (blit g b) = false -> In x (n_heads (bodyOf g b)) -> ff (alit g x) = false -> sameScc g b x = false \/ k_low k b <= 0 -> k_val k x = true }.
Lemma new_core : forall N G k, Core g N none F0 G k -> (N < nB)%nat ->
  Core g (S N) none F0 (upd G N (fun _ => false)) (setLow k N (match n_bound (bodyOf g N) with None => Z.of_nat (length (n_preds (bodyOf g N))) | Some bd => bd end)).
Proof.
  intros N G k C LN. set (v := match n_bound (bodyOf g N) with None => _ | Some bd => bd end). pose proof C as CC. destruct C as [C1 C2 C3 C4 C5 C6 C7 C8 C9 C10].
  assert (LT : forall b, (b < S N)%nat -> b <> N -> (b < N)%nat) by (intros; lia).
  constructor; cbn.
  - intros b LB X. unfold upd. destruct (Nat.eqb_spec b N) as [->|D]; [|apply C1; auto; lia]. unfold v. unfold isExt in X. destruct (n_bound (bodyOf g N)); [discriminate|]. f_equal. unfold cnt, preds, F0. cbn.
    clear. induction (n_preds (bodyOf g N)); cbn; auto.
  - intros b LB X. unfold upd. destruct (Nat.eqb_spec b N) as [->|D]; [|apply C2; auto; lia]. rewrite (sum_same g N _ (fun _ => false)); [|intros; apply C9; lia]. rewrite sum_none. unfold bound, v. unfold isExt in X. destruct (n_bound (bodyOf g N)); [lia|discriminate].
  - exact C3.
  - exact C4.
  - intros x b SX. destruct (C5 x b SX). split; auto.
  - intros x V. destruct (C6 x V) as (b & B1 & B2). exists b. split; auto. intros SS. destruct (B2 SS) as [V2|[]]. left. destruct (C5 x b B1). unfold valid in *. cbn. rewrite upd_other by lia. auto.
  - intros x. apply acc_mono with (R := edge g (k_src k) G); auto. intros y z (b & B1 & B2 & B3). exists b. sp; auto. destruct (C5 z b B1). destruct (isExt g b); auto. rewrite upd_other in B3 by lia. auto.
  - intros b i LB X. unfold upd. destruct (Nat.eqb_spec b N) as [->|D]; [|apply C8; auto; lia]. intros _. symmetry. apply C9. auto.
  - intros b i LB. apply C9. lia.
  - exact C10.
Qed.
Lemma initWs_fold : forall N l k G, (N < nB)%nat -> NoDup (map fst l) -> (forall i p, In (i, p) l -> nth_error (preds g N) i = None /\ (exists w, nth_error (goals g N) i = Some (p, w)) /\ k_ws k N i = false) ->
  Core g (S N) none F0 G k -> (forall y, k_src k y <> Some N) -> isExt g N = true ->
  let k' := fold_left (initWs g A N) l k in exists G', Core g (S N) none F0 G' k' /\
  (k_src k' = k_src k /\ k_val k' = k_val k /\ k_q k' = k_q k /\ k_todo k' = k_todo k /\ k_inv k' = k_inv k /\ k_tf k' = k_tf k /\ k_uf k' = k_uf k) /\
  (forall c, c <> N -> k_low k' c = k_low k c /\ k_ws k' c = k_ws k c) /\ (forall i, k_ws k N i = true -> k_ws k' N i = true) /\ (forall i p, In (i, p) l -> ff p = false -> k_ws k' N i = true) /\
  (forall i, k_ws k' N i = true -> k_ws k N i = true \/ okG g A N i).
Proof.
  intros N l. induction l as [|[i p] l IH]; intros k G LN ND HL C NS X; cbn zeta; cbn [fold_left].
  - exists G. sp; auto; intros; try easy.
  - cbn [map fst] in ND. inversion ND as [|? ? NI ND']; subst. destruct (HL i p (or_introl eq_refl)) as (NP & (w & NG) & WF). cbn [initWs]. destruct (ff p) eqn:FP.
    + destruct (IH k G LN ND') as (G' & I1 & I2 & I3 & I4 & I5 & I6); auto. { intros j q I. apply HL. right. auto. } exists G'. sp; auto. all: try (apply I2). intros j q [E|I]; [injection E as <- <-; congruence|]. apply I5. auto.
    + assert (OK : okG g A N i) by (intros l' w' NG'; rewrite NG in NG'; injection NG' as <- <-; auto).
      assert (C' : Core g (S N) none F0 (upG (addToWs g N i k) G) (addToWs g N i k)).
      { apply (addToWs_core g (S N) F0 G k); auto. intros b q _ D. discriminate D. intros q NQ. congruence. intros y SY. elim (NS y SY). }
      destruct (fun a b c => IH (addToWs g N i k) _ LN ND' a C' b c) as (G' & I1 & I2 & I3 & I4 & I5 & I6); auto.
      { intros j q I. destruct (HL j q (or_intror I)) as (Y1 & Y2 & Y3). sp; auto. cbn. rewrite upd_same. rewrite upd_other; auto. intros ->. apply NI. change i with (fst (i, q)). apply in_map. auto. }
      exists G'. destruct I2 as (? & ? & ? & ? & ? & ? & ?). sp; auto.
      * intros c D. destruct (I3 c D) as [Y1 Y2]. rewrite Y1, Y2. cbn. rewrite !upd_other by auto. auto.
      * intros j J. apply I4. cbn. rewrite upd_same. unfold upd. destruct (Nat.eqb j i); auto.
      * intros j q [E|I]; [|apply I5; auto]. injection E as <- <-. intros _. apply I4. cbn. rewrite !upd_same. auto.
      * intros j J. destruct (I6 j J) as [Y|Y]; auto. cbn in Y. rewrite upd_same in Y. unfold upd in Y. destruct (Nat.eqb_spec j i) as [->|D]; auto.
Qed.
(** The counters of a new body *)
Definition counters (k : ck) (b : nat) : ck :=
  let n := bodyOf g b in
  match n_bound n with
  | None => setLow k b (Z.of_nat (length (n_preds n)))
  | Some bd => fold_left (initWs g A b) (combine (seq (length (preds g b)) (length (n_exts n))) (map fst (n_exts n))) (setLow k b bd)
  end.
Lemma ap0_rebase : forall N k0 k, AP0 N k0 k -> AP0 N k k.
Proof. intros N k0 k [P1 P2 P3 P4 P5 P6 P7 P8 P9]. constructor; auto. apply AFr_refl. Qed.
Lemma seq_fst : forall {T} (l : list T) s, map fst (combine (seq s (length l)) l) = seq s (length l).
Proof. intros T l. induction l as [|x l IH]; intros s; cbn; auto. f_equal. apply IH. Qed.
Lemma in_counters : forall N k, (N < nB)%nat -> IN N k -> let k' := counters k N in
  AP0 (S N) k' k' /\ (k_todo k' = [] /\ k_inv k' = [] /\ (forall x, k_tf k' x = false) /\ (forall x, k_uf k' x = false)) /\ k_src k' = k_src k /\ k_val k' = k_val k /\ (forall c, c <> N -> k_low k' c = k_low k c /\ k_ws k' c = k_ws k c) /\
  (forall i l w, isExt g N = true -> (length (preds g N) <= i)%nat -> nth_error (goals g N) i = Some (l, w) -> ff l = false -> k_ws k' N i = true).
Proof.
  intros N k LN [AP1 (K1 & K2 & K3 & K4) NS NE NH]. pose proof AP1 as APX. destruct APX as [(G & C & _ & LA) P2 P3 P4 P5 P6 P7 P8 P9].
  pose proof (new_core N G k C LN) as C'. cbn zeta.
  assert (R : exists G', Core g (S N) none F0 G' (counters k N) /\
    (k_src (counters k N) = k_src k /\ k_val (counters k N) = k_val k /\ k_q (counters k N) = k_q k /\ k_todo (counters k N) = k_todo k /\ k_inv (counters k N) = k_inv k /\ k_tf (counters k N) = k_tf k /\ k_uf (counters k N) = k_uf k) /\
    (forall c, c <> N -> k_low (counters k N) c = k_low k c /\ k_ws (counters k N) c = k_ws k c) /\ (forall i l w, isExt g N = true -> (length (preds g N) <= i)%nat -> nth_error (goals g N) i = Some (l, w) -> ff l = false -> k_ws (counters k N) N i = true) /\
    (forall i, k_ws (counters k N) N i = true -> okG g A N i)).
  { unfold counters in *. destruct (n_bound (bodyOf g N)) as [bd|] eqn:NB.
    - assert (X : isExt g N = true) by (unfold isExt; rewrite NB; auto).
      set (es := n_exts (bodyOf g N)) in *. assert (LE : length es = length (map fst es)) by (rewrite map_length; auto). rewrite LE.
      assert (CS : forall i p, In (i, p) (combine (seq (length (preds g N)) (length (map fst es))) (map fst es)) <-> (length (preds g N) <= i)%nat /\ exists w, nth_error (goals g N) i = Some (p, w)).
      { intros i p. rewrite combine_seq. split; intros [L1 L2]; split; auto.
        - rewrite (goal_out g N i L1). rewrite nth_error_map in L2. fold es. destruct (nth_error es _) as [(q, w)|]; [|discriminate]. cbn in L2. exists w. congruence.
        - destruct L2 as (w & L2). rewrite (goal_out g N i L1) in L2. fold es in L2. rewrite nth_error_map, L2. auto. }
      destruct (fun a b c d => initWs_fold N (combine (seq (length (preds g N)) (length (map fst es))) (map fst es)) _ _ LN a b C' c d) as (G' & I1 & I2 & I3 & I4 & I5 & I6); auto.
      + rewrite seq_fst. apply seq_NoDup.
      + intros i p I. apply CS in I. destruct I as [L1 L2]. sp; auto. apply nth_error_None. auto. cbn. apply (c_new _ _ _ _ _ _ C). auto.
      + intros y SY. destruct (c_src _ _ _ _ _ _ C y N SY). lia.
      + exists G'. sp; auto; try apply I2.
        * intros c D. destruct (I3 c D) as [Y1 Y2]. rewrite Y1, Y2. cbn. rewrite upd_other by auto. auto.
        * intros i l w _ LI NG FL. eapply I5; eauto. apply CS. eauto.
        * intros i WI. destruct (I6 i WI) as [Y|Y]; auto. cbn in Y. rewrite (c_new _ _ _ _ _ _ C) in Y by auto. discriminate.
    - eexists. sp; [exact C'|..]; auto.
      + intros c D. cbn. rewrite upd_other by auto. auto.
      + intros i l w X. unfold isExt in X. rewrite NB in X. discriminate.
      + cbn. intros i Y. rewrite (c_new _ _ _ _ _ _ C) in Y by auto. discriminate. }
  destruct R as (G' & R1 & (E1 & E2 & E3 & E4 & E5 & E6 & E7) & R3 & R4 & R5). set (k' := counters k N) in *. clearbody k'.
  sp; auto; try congruence; try (intros; congruence).
  constructor.
  - exists G'. sp; auto.
    + intros B [].
    + constructor.
      * intros b i X WI. left. destruct (Nat.eq_dec b N) as [->|D]; auto. rewrite (proj2 (R3 b D)) in WI. destruct (l_ws _ _ _ _ _ _ LA b i X WI) as [|[]]; auto.
      * intros b x FB SX. rewrite E1 in SX. rewrite (NS x b SX) in FB. discriminate.
      * intros x _ _. left. right. exact I.
  - rewrite E2, E3. auto.
  - intros b p D. discriminate D.
  - rewrite E3. auto.
  - rewrite E3, E2. auto.
  - rewrite E3, E2. auto.
  - auto.
  - intros b i p _ _ _ _ D. discriminate D.
  - apply AFr_refl.
Qed.
Lemma ap_low : forall N k0 k b, AP0 N k0 k -> (b < N)%nat -> k_low k b <= 0 -> valid g k b.
Proof. intros N k0 k b P LB LO. destruct (ap_core g [] A any N any _ _ _ _ _ _ P) as (G & C). unfold valid. destruct (isExt g b) eqn:X; auto. rewrite (c_low _ _ _ _ _ _ C b LB X) in *. lia. Qed.
Lemma in_heads : forall N k1 hs k, (forall x, In x hs -> In x (n_heads (bodyOf g N))) -> AP0 (S N) k1 k -> ff (blit g N) = false ->
  let k' := fold_left (fun k x => if negb (sameScc g N x) || (k_low k N <=? 0) then setSource g A N k x else k) hs k in
  AP0 (S N) k1 k' /\ k_low k' = k_low k /\ AFr g A k k' /\ (forall x, In x hs -> ff (alit g x) = false -> sameScc g N x = false \/ k_low k N <= 0 -> k_val k' x = true).
Proof.
  intros N k1 hs. induction hs as [|x hs IH]; intros k HH P FB; cbn zeta; cbn [fold_left].
  - sp; auto. apply AFr_refl.
  - assert (R : exists k2, (if negb (sameScc g N x) || (k_low k N <=? 0) then setSource g A N k x else k) = k2 /\ AP0 (S N) k1 k2 /\ k_low k2 = k_low k /\ AFr g A k k2 /\ (ff (alit g x) = false -> sameScc g N x = false \/ k_low k N <= 0 -> k_val k2 x = true)).
    { eexists. split; [reflexivity|]. destruct (negb (sameScc g N x) || (k_low k N <=? 0)) eqn:CO.
      - destruct (ap_set g W [] A subNil any (S N) any none F0 F0 nA k1 k N x P) as (Y1 & Y2 & Y3 & Y4); auto. apply HH; left; auto. intros SS. rewrite SS in CO. cbn in CO. apply Z.leb_le in CO. eapply ap_low; eauto.
      - apply orb_false_iff in CO. destruct CO as [CO1 CO2]. apply negb_false_iff in CO1. apply Z.leb_gt in CO2. sp; auto. apply AFr_refl. intros _ [Y|Y]; [congruence|lia]. }
    destruct R as (k2 & R1 & R2 & R3 & R4 & R5). rewrite R1. destruct (IH k2) as (I1 & I2 & I3 & I4); auto. { intros y Y. apply HH. right. auto. } sp; auto.
    + congruence.
    + eapply AFr_trans; eauto.
    + intros y [<-|Y] FY CY; [apply (g_val _ _ _ _ I3); auto|]. apply I4; auto. rewrite R3. auto.
Qed.
Lemma in_body : forall N k, (N < nB)%nat -> IN N k -> IN (S N) (initBody g A k N).
Proof.
  intros N k LN IK. destruct (in_counters N k LN IK) as (C1 & (C2 & C3 & C4 & C5) & C6 & C7 & C8 & C9). destruct IK as [_ _ NS NE NH].
  unfold initBody. fold (counters k N). set (k1 := counters k N) in *. clearbody k1. fold (blit g N).
  assert (OLDE : forall b i l w, (b < S N)%nat -> isExt g b = true -> (length (preds g b) <= i)%nat -> nth_error (goals g b) i = Some (l, w) -> ff l = false -> k_ws k1 b i = true).
  { intros b i l w LB X LI NG FL. destruct (Nat.eq_dec b N) as [->|D]; [eapply C9; eauto|]. rewrite (proj2 (C8 b D)). eapply NE; eauto. lia. }
  destruct (ff (blit g N)) eqn:FB.
  - constructor; auto.
    + rewrite C6. auto.
    + intros b x LB F IX FX CO. destruct (Nat.eq_dec b N) as [->|D]; [congruence|]. rewrite C7. apply (NH b); auto. lia. rewrite <- (proj1 (C8 b D)). auto.
  - destruct (in_heads N k1 (n_heads (bodyOf g N)) k1 (fun x X => X) C1 FB) as (H1 & H2 & H3 & H4). set (k2 := fold_left _ (n_heads (bodyOf g N)) k1) in *. clearbody k2. constructor.
    + eapply ap0_rebase; eauto.
    + rewrite (g_todo _ _ _ _ H3), (g_inv _ _ _ _ H3), (g_tf _ _ _ _ H3), (g_uf _ _ _ _ H3). sp; auto.
    + intros x b SX. destruct (g_src _ _ _ _ H3 x) as [E|(c & E1 & E2)]; [|congruence]. rewrite E, C6 in SX. eauto.
    + intros b i l w LB X LI NG FL. apply (g_ws _ _ _ _ H3). eapply OLDE; eauto.
    + intros b x LB F IX FX CO. rewrite H2 in CO. destruct (Nat.eq_dec b N) as [->|D]; [apply H4; auto|]. apply (g_val _ _ _ _ H3). rewrite C7. apply (NH b); auto. lia. rewrite <- (proj1 (C8 b D)). auto.
Qed.
Lemma in_empty : IN 0 empty.
Proof.
  assert (C : Core g 0 none F0 F0 empty).
  { constructor; try (intros; lia); try (intros; discriminate).
    - intros b. unfold nWatch. symmetry. apply filter_zero. auto.
    - intros x. constructor. intros y (b & D & _). discriminate D.
    - reflexivity. }
  constructor; try (intros; lia); try (intros; discriminate).
  - constructor; try (intros; lia); try (intros; discriminate).
    + exists F0. sp; auto. intros B []. constructor; try (intros; discriminate). intros x _ _. left. right. exact I.
    + reflexivity.
    + constructor.
    + intros y [].
    + apply unval_le.
    + apply AFr_refl.
  - cbn. sp; auto.
Qed.
Lemma in_all : forall n, (n <= nB)%nat -> IN n (fold_left (initBody g A) (seq 0 n) empty).
Proof. induction n as [|n IH]; intros LN; [apply in_empty|]. rewrite seq_S, fold_left_app. cbn. apply in_body; [lia|]. apply IH. lia. Qed.
(** The result of init *)
Record Init (k : ck) : Prop := {
  o_rest : Rest g [] A (fun x => In x (unsourced g k)) k;
  o_uf : forall x, k_uf k x = false;
  o_hd : forall b x, ff (blit g b) = false -> In x (n_heads (bodyOf g b)) -> ff (alit g x) = false -> sameScc g b x = false \/ valid g k b -> k_val k x = true;
  o_low : forall b, (b < nB)%nat -> isExt g b = false -> k_low k b = Z.of_nat (cnt g (k_val k) b);
  o_elow : forall b, (b < nB)%nat -> isExt g b = true -> k_low k b = bound g b - sumP g b (k_ws k b);
  o_ws : forall b i l w, isExt g b = true -> 0 < k_low k b -> nth_error (goals g b) i = Some (l, w) -> ff l = false -> (forall p, nth_error (preds g b) i = Some p -> k_val k p = true) -> k_ws k b i = true }.
Lemma init_ok : exists k, init g A = Ok k /\ Init k.
Proof.
  unfold init. pose proof (in_all nB (le_n _)) as [N1 (N2 & N3 & N4 & N5) N6 N7 N8]. set (k0 := fold_left _ _ _) in *. clearbody k0.
  destruct (propAdd_ap g W [] A subNil any nB any k0 (S nA) nA k0 F0 eq_refl N1 (Nat.le_succ_diag_r _)) as (k & E & P1 & P2 & P3). exists k. unfold propagateSource. split; auto.
  destruct P2 as [PF PE PX PN PQ PP PNE PS PFR]. rewrite P3 in PE. assert (EV : forall b p, In p (preds g b) -> k_val k p = E b p) by (intros b p IP; rewrite PE by auto; cbn; rewrite !andb_true_r; auto).
  assert (QU : Quiet g [] A [] any none k).
  { split; auto. eapply full_core; [exact PF|]. intros G C. eapply core_E; [|exact C]. auto. }
  assert (TD : k_todo k = []) by (rewrite (g_todo _ _ _ _ PFR); auto). assert (IV : k_inv k = []) by (rewrite (g_inv _ _ _ _ PFR); auto).
  destruct QU as [(G & C & LB & LA) QE].
  constructor.
  - constructor.
    + rewrite IV. eapply full_H; [split; [exists G; sp; eauto|]; auto|]. intros x _ LX FX. destruct (k_val k x) eqn:V; auto. left. unfold unsourced. apply filter_In. split; [apply in_seq; lia|]. rewrite V. auto.
    + rewrite IV. intros b i [].
    + unfold tfOk. rewrite TD. sp; [|constructor|intros x []]. intros x. rewrite (g_tf _ _ _ _ PFR), N4. split; [discriminate|intros []].
  - intros x. rewrite (g_uf _ _ _ _ PFR). auto.
  - intros b x FB IX FX CO. assert (LB' : (b < nB)%nat) by (eapply head_range; eauto).
    assert (VK : sameScc g b x = false \/ valid g k0 b -> k_val k x = true). { intros [Y|Y]; apply (g_val _ _ _ _ PFR); apply (N8 b); auto. right. unfold valid in Y. destruct (isExt g b); lia. }
    destruct CO as [CO|CO]; auto. destruct (PNE b LB' FB CO) as [[]|[Y|Y]]; auto.
  - intros b L X. rewrite (c_low _ _ _ _ _ _ C b L X). auto.
  - intros b L X. apply (c_elow _ _ _ _ _ _ C b L X).
  - intros b i l w X LO NG FL VP. destruct (nth_error (preds g b) i) as [p|] eqn:NP.
    + assert (IP : In p (preds g b)) by (eapply nth_error_In; eauto). apply (PS b i p I X LO NP); [rewrite <- EV; auto|]. destruct (goal_in g b i p NP) as (w' & NG'). rewrite NG in NG'. injection NG' as <- _. auto.
    + apply (g_ws _ _ _ _ PFR). apply (N7 b i l w); auto. apply (ext_range g b X). apply nth_error_None in NP. auto.
Qed.
(** Atoms left without source are false in all models *)
Lemma init_sound : forall k M, Init k -> (forall l, ff l = true -> holds M l = false) -> founded g (holds M) -> bodiesOk g M -> forall x, (x < nA)%nat -> k_val k x = false -> holds M (alit g x) = false.
Proof.
  intros k M IK EX FO BO x LX VX. destruct (holds M (alit g x)) eqn:HX; auto. exfalso. set (U := filter (fun y => negb (k_val k y) && holds M (alit g y)) (seq 0 nA)).
  assert (IU : forall y, In y U <-> (y < nA)%nat /\ k_val k y = false /\ holds M (alit g y) = true). { intros y. unfold U. rewrite filter_In, in_seq, andb_true_iff, negb_true_iff. split; intros (Y1 & Y2 & Y3); sp; auto; lia. }
  destruct (FO U) as (y & b & Y1 & Y2 & HB & Y3).
  - intros E. assert (X : In x U) by (apply IU; auto). rewrite E in X. destruct X.
  - intros y Y. apply IU in Y. tauto.
  - apply IU in Y1. destruct Y1 as (LY & VY & HY). assert (NF : forall l, holds M l = true -> ff l = false). { intros l HL. destruct (ff l) eqn:F; auto. rewrite (EX l F) in HL. discriminate. }
    destruct (bodies_heads g W y b Y2) as (IH & LB & _).
    assert (NV : sameScc g b y = true /\ ~ valid g k b). { split; [destruct (sameScc g b y) eqn:SS; auto|intros V]; rewrite (o_hd k IK b y) in VY; auto; discriminate. }
    destruct NV as [SS NV]. unfold sameScc in SS. apply Nat.eqb_eq in SS. specialize (Y3 SS).
    destruct (n_bound (bodyOf g b)) as [bd|] eqn:NB.
    + assert (X : isExt g b = true) by (unfold isExt; rewrite NB; auto). unfold valid in NV. rewrite X in NV. pose proof (o_elow k IK b LB X) as EL. unfold bound in EL. rewrite NB in EL. rewrite <- sum_split in Y3.
      apply NV. rewrite EL. enough (sumP g b (fun i => match nth_error (goals g b) i with Some (l, _) => holds M l && match nth_error (preds g b) i with Some p => negb (inSet U p) | None => true end | None => false end) <= sumP g b (k_ws k b)) by lia.
      apply sum_le; auto. intros i LI CI. destruct (nth_error (goals g b) i) as [(l, w)|] eqn:NG; [|discriminate]. apply andb_true_iff in CI. destruct CI as [C1 C2]. apply (o_ws k IK b i l w); auto; [lia|]. intros p NP. rewrite NP in C2. apply negb_true_iff in C2.
      destruct (k_val k p) eqn:VP; auto. destruct (goal_in g b i p NP) as (w' & NG'). rewrite NG in NG'. injection NG' as -> _. assert (Z0 : In p U). { apply IU. sp; auto. apply (gw_prange _ W b). eapply nth_error_In; eauto. } apply mem_In in Z0. congruence.
    + assert (X : isExt g b = false) by (unfold isExt; rewrite NB; auto). apply NV. unfold valid. rewrite X, (o_low k IK b LB X). replace (cnt g (k_val k) b) with O; auto. symmetry. apply cnt_zero. intros p IP.
      unfold preds in IP. apply in_map_iff in IP. destruct IP as ((p', w) & <- & IP). cbn. destruct (k_val k p') eqn:VP; auto. exfalso. apply (Y3 p' w IP). apply IU. sp; auto. apply (gw_prange _ W b). unfold preds. change p' with (fst (p', w)). apply in_map. auto. eapply BO; eauto.
Qed.
End Uf.
