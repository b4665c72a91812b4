(** Unfounded set check: propagation of new sources *)
From Coq Require Import List Bool Arith ZArith Lia.
From Verif Require Import Base UfModel UfSpec UfProofs UfProofs2 UfProofs3.
Import ListNotations.
Local Open Scope Z_scope.

Section Uf.
Variable g : graph.
Hypothesis W : gwf g.
Notation nA := (nAtoms g).
Notation nB := (length (g_bodies g)).
Section Phase.
Variable As : list pasg.
Variable A : pasg.
Hypothesis SUB : forall B l, In B As -> isFalse B l = true -> isFalse A l = true.
Variable H : nat -> Prop.
Notation ff l := (isFalse A l).
Definition unval (v : nat -> bool) : nat := nval g (fun x => negb (v x)).
Lemma unval_le : forall v, (unval v <= nA)%nat.
Proof. intros. apply nval_le. Qed.
Lemma unval_up : forall v x, (x < nA)%nat -> v x = false -> unval v = S (unval (upd v x true)).
Proof.
  intros v x L V. unfold unval, nval. apply (filter_flip _ _ x); auto using seq_NoDup. apply in_seq; lia.
  - intros y _ D. rewrite upd_other by auto. auto.
  - rewrite upd_same. auto.
  - rewrite V. auto.
Qed.
Record AFr (k0 k : ck) : Prop := {
  g_uf : k_uf k = k_uf k0; g_inv : k_inv k = k_inv k0; g_todo : k_todo k = k_todo k0; g_tf : k_tf k = k_tf k0;
  g_val : forall x, k_val k0 x = true -> k_val k x = true; g_ws : forall b i, k_ws k0 b i = true -> k_ws k b i = true; g_low : forall b, k_low k b <= k_low k0 b;
  g_src : forall x, k_src k x = k_src k0 x \/ exists b, k_src k x = Some b /\ ff (blit g b) = false }.
Lemma AFr_refl : forall k, AFr k k.
Proof. intros. constructor; auto; intros; lia. Qed.
Lemma AFr_trans : forall a b c, AFr a b -> AFr b c -> AFr a c.
Proof.
  intros a b c [A1 A2 A3 A4 A5 A6 A7 A8] [B1 B2 B3 B4 B5 B6 B7 B8]. constructor; auto; try congruence.
  - intros y. specialize (A7 y). specialize (B7 y). lia.
  - intros x. destruct (B8 x) as [E|E]; auto. destruct (A8 x) as [E'|E']; [left; congruence|right; rewrite E; auto].
Qed.
Section Add.
Variable N : nat.
Variable S0 : nat -> Prop.
Record AP (exc : nat -> Prop) (E X : nat -> nat -> bool) (f : nat) (k0 k : ck) : Prop := {
  p_full : Full g As A [] H N none E k;
  p_E : forall b p, In p (preds g b) -> E b p = k_val k p && negb (inSet (k_q k) p) && negb (X b p);
  p_X : forall b p, X b p = true -> k_val k p = true /\ ~ In p (k_q k) /\ ff (alit g p) = false;
  p_nd : NoDup (k_q k);
  p_q : forall y, In y (k_q k) -> (y < nA)%nat /\ k_val k y = true /\ ff (alit g y) = false;
  p_f : (length (k_q k) + unval (k_val k) <= f)%nat;
  p_new : forall b, (b < N)%nat -> ff (blit g b) = false -> valid g k b -> exc b \/ valid g k0 b \/ forall x, In x (n_heads (bodyOf g b)) -> ff (alit g x) = false -> k_val k x = true;
  p_S : forall b i p, S0 b -> isExt g b = true -> 0 < k_low k b -> nth_error (preds g b) i = Some p -> E b p = true -> ff (alit g p) = false -> k_ws k b i = true;
  p_fr : AFr k0 k }.
Lemma ap_core : forall exc E X f k0 k, AP exc E X f k0 k -> exists G, Core g N none E G k.
Proof. intros. eapply full_parts. eapply p_full; eauto. Qed.
Lemma ap_sub : forall exc E X f k0 k, AP exc E X f k0 k -> sub g E (k_val k).
Proof. intros exc E X f k0 k P b p I EB. rewrite (p_E _ _ _ _ _ _ P) in EB by auto. destruct (k_val k p); auto. Qed.
Lemma ap_exc : forall (exc exc' : nat -> Prop) E X f k0 k, AP exc E X f k0 k ->
  (forall b, (b < N)%nat -> ff (blit g b) = false -> valid g k b -> exc b -> exc' b \/ valid g k0 b \/ forall x, In x (n_heads (bodyOf g b)) -> ff (alit g x) = false -> k_val k x = true) -> AP exc' E X f k0 k.
Proof. intros exc exc' E X f k0 k [P1 P2 P3 P4 P5 P6 P7 P8 P9] M. constructor; auto. intros b L F V. destruct (P7 b L F V); auto. Qed.
(** setSource *)
Lemma nodup_snoc : forall (l : list nat) y, NoDup l -> ~ In y l -> NoDup (l ++ [y]).
Proof. induction l as [|a l IH]; intros y ND I; cbn; [constructor; auto; constructor|]. inversion ND; subst. constructor; [|apply IH; auto; intros Y; apply I; right; auto]. intros Y. apply in_app_or in Y. destruct Y as [|[->|[]]]; auto. apply I. left. auto. Qed.
Lemma ap_set : forall exc E X f k0 k b x, AP exc E X f k0 k -> In x (n_heads (bodyOf g b)) -> (b < N)%nat -> ff (blit g b) = false -> (sameScc g b x = true -> valid g k b) ->
  AP exc E X f k0 (setSource g A b k x) /\ (ff (alit g x) = false -> k_val (setSource g A b k x) x = true) /\ k_low (setSource g A b k x) = k_low k /\ AFr k (setSource g A b k x).
Proof.
  intros exc E X f k0 k b x P IH LB FB VB. unfold setSource. destruct (k_val k x) eqn:V; cbn [negb andb]; [sp; auto; apply AFr_refl|]. destruct (ff (alit g x)) eqn:FX; cbn [negb]; [sp; auto; [discriminate|apply AFr_refl]|].
  set (k1 := updateSource x b k). assert (LX : (x < nA)%nat) by (eapply (gw_hrange _ W); eauto).
  assert (SRC : k_src k1 = upd (k_src k) x (Some b)) by (unfold k1, updateSource; destruct (k_src k x); reflexivity).
  assert (VAL : k_val k1 = upd (k_val k) x true) by (unfold k1, updateSource; destruct (k_src k x); reflexivity).
  assert (LOW : k_low k1 = k_low k) by (unfold k1, updateSource; destruct (k_src k x); reflexivity).
  assert (WS : k_ws k1 = k_ws k) by (unfold k1, updateSource; destruct (k_src k x); reflexivity).
  assert (REST : k_uf k1 = k_uf k /\ k_inv k1 = k_inv k /\ k_todo k1 = k_todo k /\ k_tf k1 = k_tf k /\ k_q k1 = k_q k) by (unfold k1, updateSource; destruct (k_src k x); sp; reflexivity).
  destruct REST as (U1 & U2 & U3 & U4 & U5). assert (NX : ~ In x (k_q k)). { intros I. apply (p_q _ _ _ _ _ _ P) in I. destruct I as (_ & I & _). congruence. }
  assert (HC : forall G, Core g N none E G k -> Core g N none E (upG k1 G) (setQ k1 (k_q k1 ++ [x]))). { intros G C. apply setSource_core; auto. eapply ap_sub; eauto. apply (gw_heads _ W). auto. }
  clearbody k1. assert (FR : AFr k (setQ k1 (k_q k1 ++ [x]))).
  { constructor; cbn; auto; rewrite ?VAL, ?WS, ?LOW, ?SRC; auto; try (intros; lia).
    - intros y Y. unfold upd. destruct (Nat.eqb y x); auto.
    - intros y. unfold upd. destruct (Nat.eqb y x); auto. right. exists b. auto. }
  sp; auto; [|intros _; cbn; rewrite VAL; apply upd_same].
  assert (VM : forall y, k_val k y = true -> k_val k1 y = true). { intros y. rewrite VAL. unfold upd. destruct (Nat.eqb y x); auto. }
  constructor; cbn; rewrite ?U5.
  - eapply full_step; [eassumption|apply (p_full _ _ _ _ _ _ P)| | |cbn; rewrite U3; apply incl_refl].
    + rewrite <- U5. exact HC.
    + split; cbn; rewrite ?WS, ?SRC, ?LOW; auto. intros y. rewrite VAL. unfold upd. destruct (Nat.eqb_spec y x); auto. right. exists b. sp; auto. intros X1 S1. subst y. specialize (VB S1). unfold valid in VB. rewrite X1 in VB. auto.
  - intros c p I. rewrite (p_E _ _ _ _ _ _ P) by auto. unfold inSet. rewrite existsb_app. cbn. rewrite orb_false_r, VAL. unfold upd. destruct (Nat.eqb_spec p x) as [->|D]; [rewrite V, orb_true_r; cbn; auto|]. rewrite orb_false_r. auto.
  - intros c p XP. destruct (p_X _ _ _ _ _ _ P c p XP) as (X1 & X2 & X3). sp; auto. intros I. apply in_app_or in I. destruct I as [|[->|[]]]; auto. congruence.
  - apply nodup_snoc; auto. apply (p_nd _ _ _ _ _ _ P).
  - intros y I. apply in_app_or in I. destruct I as [I|[<-|[]]]; [destruct (p_q _ _ _ _ _ _ P y I) as (Y1 & Y2 & Y3); sp; auto|]. sp; auto. rewrite VAL. apply upd_same.
  - rewrite app_length. cbn. pose proof (p_f _ _ _ _ _ _ P) as F. rewrite (unval_up _ x) in F by auto. rewrite VAL. lia.
  - intros c L F VC. unfold valid in *. cbn in VC. rewrite LOW in VC. destruct (p_new _ _ _ _ _ _ P c L F VC) as [|[|Y]]; auto.
  - rewrite LOW, WS. apply (p_S _ _ _ _ _ _ P).
  - eapply AFr_trans; [apply (p_fr _ _ _ _ _ _ P)|rewrite <- U5; exact FR].
Qed.
Lemma ap_forward : forall exc E X f k0 b hs k, (forall x, In x hs -> In x (n_heads (bodyOf g b))) -> AP exc E X f k0 k -> (b < N)%nat -> ff (blit g b) = false -> valid g k b ->
  AP exc E X f k0 (fold_left (setSource g A b) hs k) /\ k_low (fold_left (setSource g A b) hs k) = k_low k /\ AFr k (fold_left (setSource g A b) hs k) /\
  (forall x, In x hs -> ff (alit g x) = false -> k_val (fold_left (setSource g A b) hs k) x = true).
Proof.
  intros exc E X f k0 b hs. induction hs as [|x hs IH]; intros k HH P LB FB VB; cbn [fold_left]; [sp; auto; try apply AFr_refl; intros ? []|].
  destruct (ap_set _ _ _ _ _ _ b x P) as (P1 & P2 & P3 & P4); auto. { apply HH. left. auto. }
  destruct (IH (setSource g A b k x)) as (I1 & I2 & I3 & I4); auto. { intros y Y. apply HH. right. auto. } { unfold valid in *. rewrite P3. auto. }
  sp; auto; [congruence|eapply AFr_trans; eauto|]. intros y [<-|Y] F; auto. apply (g_val _ _ I3). auto.
Qed.
Lemma ap_chg : forall exc exc' E E' X X' f k0 k k', AP exc E X f k0 k -> (forall G, Core g N none E G k -> Core g N none E' (upG k' G) k') ->
  (forall b i, k_ws k' b i = true -> k_ws k b i = true \/ okG g A b i) -> AFr k k' -> k_val k' = k_val k -> k_q k' = k_q k -> k_src k' = k_src k ->
  (forall b p, In p (preds g b) -> E' b p = k_val k p && negb (inSet (k_q k) p) && negb (X' b p)) -> (forall b p, X' b p = true -> X b p = true) ->
  (forall b, (b < N)%nat -> ff (blit g b) = false -> valid g k' b -> exc' b \/ (~ exc b /\ valid g k b)) ->
  (forall b i p, S0 b -> isExt g b = true -> 0 < k_low k' b -> nth_error (preds g b) i = Some p -> E' b p = true -> ff (alit g p) = false -> k_ws k' b i = true) -> AP exc' E' X' f k0 k'.
Proof.
  intros exc exc' E E' X X' f k0 k k' P HC HW FR V QE SE HE HX HN HS. constructor; rewrite ?V, ?QE; auto.
  - eapply full_step; [eassumption|apply (p_full _ _ _ _ _ _ P)|assumption| |rewrite (g_todo _ _ FR); apply incl_refl]. split; auto. intros x. left. rewrite SE, V. auto.
  - intros b p XP. apply (p_X _ _ _ _ _ _ P b p). auto.
  - apply (p_nd _ _ _ _ _ _ P).
  - apply (p_q _ _ _ _ _ _ P).
  - apply (p_f _ _ _ _ _ _ P).
  - intros b L F VB. destruct (HN b L F VB) as [|[E1 V1]]; auto. destruct (p_new _ _ _ _ _ _ P b L F V1) as [|]; auto; contradiction.
  - eapply AFr_trans; [apply (p_fr _ _ _ _ _ _ P)|auto].
Qed.
Lemma updE_add : forall (E X : nat -> nat -> bool) (v : nat -> bool) b x, (forall c p, In p (preds g c) -> E c p = v p && negb (X c p)) -> v x = true ->
  forall c p, In p (preds g c) -> updE E b x true c p = v p && negb (updE X b x false c p).
Proof. intros E X v b x H0 V c p I. unfold updE, upd. destruct (Nat.eqb_spec c b); auto. subst. destruct (Nat.eqb_spec p x); auto. subst. rewrite V. reflexivity. Qed.
Lemma x_notq : forall k x, ~ In x (k_q k) -> inSet (k_q k) x = false.
Proof. intros k x I. destruct (inSet (k_q k) x) eqn:M; auto. apply mem_In in M. contradiction. Qed.
Lemma addNormal_ap : forall E X f k0 k b x, AP none E X f k0 k -> X b x = true -> isExt g b = false -> In x (preds g b) -> (b < N)%nat ->
  AP none (updE E b x true) (updE X b x false) f k0 (addNormal g A k b).
Proof.
  intros E X f k0 k b x P XB EB I LB. destruct (p_X _ _ _ _ _ _ P _ _ XB) as (VX & NX & FX). set (k1 := setLow k b (k_low k b - 1)).
  assert (EX : E b x = false) by (rewrite (p_E _ _ _ _ _ _ P), XB by auto; apply andb_false_r).
  assert (FR : AFr k k1). { constructor; cbn; auto. intros c. unfold upd. destruct (Nat.eqb_spec c b) as [->|]; lia. }
  assert (P1 : AP (eq b) (updE E b x true) (updE X b x false) f k0 k1).
  { eapply ap_chg; [eassumption|..]; auto.
    - intros G C. apply core_upG. apply dec_core; auto.
    - apply (updE_add E X (fun p => k_val k p && negb (inSet (k_q k) p))); [apply (p_E _ _ _ _ _ _ P)|]. rewrite VX, (x_notq _ _ NX). auto.
    - apply updE_X.
    - intros c L F V. destruct (Nat.eq_dec c b) as [->|D]; auto. right. split; [intros []|]. unfold valid in *. cbn in V. rewrite upd_other in V by auto. auto.
    - intros c i p SC XC LO NP. assert (c <> b) by congruence. cbn in LO. rewrite upd_other in LO by auto. unfold updE. rewrite upd_other by auto. apply (p_S _ _ _ _ _ _ P c i p); auto. }
  unfold addNormal. fold k1. assert (VD : valid g k1 b -> (k_low k1 b =? 0) = true) by (unfold valid; rewrite EB; apply Z.eqb_eq).
  destruct (k_low k1 b =? 0) eqn:LO; cbn [andb].
  - destruct (ff (blit g b)) eqn:FB; cbn [negb].
    + eapply ap_exc; [eassumption|]. intros c L F _ <-. congruence.
    + assert (V1 : valid g k1 b) by (unfold valid; rewrite EB; apply Z.eqb_eq; auto). destruct (ap_forward _ _ _ _ _ b (n_heads (bodyOf g b)) k1 (fun x I => I) P1 LB FB V1) as (Q1 & Q2 & Q3 & Q4).
      eapply ap_exc; [eassumption|]. intros c L F _ <-. right. right. exact Q4.
  - eapply ap_exc; [eassumption|]. intros c L F V <-. apply VD in V. discriminate.
Qed.
Lemma goal_in : forall b i p, nth_error (preds g b) i = Some p -> exists w, nth_error (goals g b) i = Some (alit g p, w).
Proof.
  intros b i p NP. unfold preds in NP. rewrite nth_error_map in NP. destruct (nth_error (n_preds (bodyOf g b)) i) as [(q, w)|] eqn:NN; [|discriminate]. cbn in NP. injection NP as ->. exists w.
  unfold goals. rewrite nth_error_app1 by (rewrite map_length; apply nth_error_Some; congruence). rewrite nth_error_map, NN. reflexivity.
Qed.
Lemma addExt_ap : forall E X f k0 k b i x, AP none E X f k0 k -> X b x = true -> isExt g b = true -> nth_error (preds g b) i = Some x -> (b < N)%nat ->
  AP none (updE E b x true) (updE X b x false) f k0 (addExt g A k (b, i)).
Proof.
  intros E X f k0 k b i x P XB EB NP LB. assert (I : In x (preds g b)) by (eapply nth_error_In; eauto). destruct (p_X _ _ _ _ _ _ P _ _ XB) as (VX & NX & FX).
  set (c0 := (0 <? k_low k b) || Nat.eqb (k_w k b) 0). set (k1 := if c0 then addToWs g b i k else k). destruct (ap_core _ _ _ _ _ _ P) as (G0 & C0).
  assert (EX : E b x = false) by (rewrite (p_E _ _ _ _ _ _ P), XB by auto; apply andb_false_r).
  assert (WI : k_ws k b i = false). { destruct (k_ws k b i) eqn:Y; auto. pose proof (c_ws _ _ _ _ _ _ C0 b i x EB NP Y). congruence. }
  assert (FR : AFr k k1).
  { unfold k1. destruct c0; [|apply AFr_refl]. constructor; cbn; auto.
    - intros c j. unfold upd. destruct (Nat.eqb_spec c b); auto. subst. destruct (Nat.eqb j i); auto.
    - intros c. unfold upd. destruct (Nat.eqb_spec c b) as [->|]; [|lia]. pose proof (wt_nonneg g W b i). lia. }
  assert (SM : k_val k1 = k_val k /\ k_q k1 = k_q k /\ k_src k1 = k_src k) by (unfold k1; destruct c0; sp; reflexivity). destruct SM as (V1 & Q1 & S1).
  assert (LW : forall c, c <> b -> k_low k1 c = k_low k c /\ k_ws k1 c = k_ws k c). { intros c D. unfold k1. destruct c0; auto. cbn. rewrite !upd_other by auto. auto. }
  assert (P1 : AP (eq b) (updE E b x true) (updE X b x false) f k0 k1).
  { eapply ap_chg; [eassumption|..]; auto.
    - intros G C. unfold k1. destruct c0 eqn:CC.
      + assert (C1 : Core g N none (updE E b x true) G k) by (apply extE_up; auto). apply addToWs_core; auto.
        * intros c p IC Y. unfold updE, upd in Y. destruct (Nat.eqb_spec c b) as [->|]; [|eapply ap_sub; eauto]. destruct (Nat.eqb_spec p x) as [->|]; auto. eapply ap_sub; eauto.
        * intros p NP'. rewrite NP in NP'. injection NP' as <-. unfold updE. rewrite !upd_same. auto.
        * intros y SY SS. destruct (k_val k y) eqn:VY; auto. exfalso. apply orb_true_iff in CC. destruct CC as [CC|CC].
          -- apply Z.ltb_lt in CC. destruct (c_valid _ _ _ _ _ _ C y VY) as (c & C2 & C3). rewrite SY in C2. injection C2 as <-. destruct (C3 SS) as [C4|[]]. unfold valid in C4. rewrite EB in C4. lia.
          -- apply Nat.eqb_eq in CC. rewrite (c_w _ _ _ _ _ _ C) in CC. revert CC. eapply nWatch_pos; eauto. eapply c_range; eauto.
      + apply core_upG. apply extE_up; auto.
    - intros c j. unfold k1. destruct c0; auto. cbn. unfold upd. destruct (Nat.eqb_spec c b) as [->|]; auto. destruct (Nat.eqb_spec j i) as [->|]; auto. intros _. right.
      destruct (goal_in _ _ _ NP) as (w & NG). intros l w' NG'. rewrite NG in NG'. injection NG' as <- <-. auto.
    - apply (updE_add E X (fun p => k_val k p && negb (inSet (k_q k) p))); [apply (p_E _ _ _ _ _ _ P)|]. rewrite VX, (x_notq _ _ NX). auto.
    - apply updE_X.
    - intros c L F V. destruct (Nat.eq_dec c b) as [->|D]; auto. right. split; [intros []|]. unfold valid in *. rewrite (proj1 (LW c D)) in V. auto.
    - intros c j p SC XC LO NP' EP FP. destruct (Nat.eq_dec c b) as [->|D].
      + assert (LO' : 0 < k_low k b). { pose proof (g_low _ _ FR b). lia. }
        assert (CC : c0 = true) by (unfold c0; apply Z.ltb_lt in LO'; rewrite LO'; auto). unfold k1. rewrite CC. cbn. rewrite upd_same. destruct (Nat.eq_dec j i) as [->|D]; [apply upd_same|]. rewrite upd_other by auto.
        assert (p <> x). { intros ->. apply D. apply (proj1 (NoDup_nth_error (preds g b)) (gw_nd3 _ W b)); [apply nth_error_Some; congruence|congruence]. }
        unfold updE in EP. rewrite upd_same, upd_other in EP by auto. apply (p_S _ _ _ _ _ _ P b j p); auto.
      + destruct (LW c D) as [L1 L2]. rewrite L2. rewrite L1 in LO. unfold updE in EP. rewrite upd_other in EP by auto. apply (p_S _ _ _ _ _ _ P c j p); auto. }
  unfold addExt. fold c0. fold k1. destruct (ff (blit g b)) eqn:FB; cbn [negb andb].
  - eapply ap_exc; [eassumption|]. intros c L F _ <-. congruence.
  - destruct (Z.leb_spec (k_low k1 b) 0) as [LO|LO].
    + assert (VV : valid g k1 b) by (unfold valid; rewrite EB; auto). destruct (ap_forward _ _ _ _ _ b (n_heads (bodyOf g b)) k1 (fun x I => I) P1 LB FB VV) as (R1 & R2 & R3 & R4).
      eapply ap_exc; [eassumption|]. intros c L F _ <-. right. right. exact R4.
    + eapply ap_exc; [eassumption|]. intros c L F V <-. unfold valid in V. rewrite EB in V. lia.
Qed.
Lemma ap_X : forall exc E X X' f k0 k, (forall b p, X' b p = X b p) -> AP exc E X f k0 k -> AP exc E X' f k0 k.
Proof. intros exc E X X' f k0 k HX [R1 R2 R3 R4 R5 R6 R7 R8 R9]. constructor; auto. intros. rewrite HX. auto. intros b p. rewrite HX. apply R3. Qed.
Lemma visitN_ap : forall f k0 x lE lN k E, NoDup lN -> (forall b, In b lN -> isExt g b = false /\ In x (preds g b) /\ (b < N)%nat) -> (forall b i, In (b, i) lE -> isExt g b = true) ->
  AP none E (todoX x lN lE) f k0 k -> exists E', AP none E' (todoX x [] lE) f k0 (fold_left (addNormal g A) lN k).
Proof.
  intros f k0 x lE lN. induction lN as [|b lN IH]; intros k E ND HN HE R; cbn [fold_left]; [exists E; auto|]. inversion ND; subst. destruct (HN b (or_introl eq_refl)) as (B1 & B2 & B3).
  apply (IH _ (updE E b x true)); auto. { intros c C. apply HN. right. auto. }
  apply (ap_X _ _ (updE (todoX x (b :: lN) lE) b x false)).
  - intros. apply todoX_N; auto. intros I. apply in_map_iff in I. destruct I as ((b' & i) & EQ & I). cbn in EQ. subst b'. rewrite (HE _ _ I) in B1. discriminate.
  - apply addNormal_ap; auto. unfold todoX. cbn. rewrite !Nat.eqb_refl. auto.
Qed.
Lemma visitE_ap : forall f k0 x lE k E, NoDup (map fst lE) -> (forall b i, In (b, i) lE -> isExt g b = true /\ nth_error (preds g b) i = Some x /\ (b < N)%nat) ->
  AP none E (todoX x [] lE) f k0 k -> exists E', AP none E' (fun _ _ => false) f k0 (fold_left (addExt g A) lE k).
Proof.
  intros f k0 x lE. induction lE as [|(b, i) lE IH]; intros k E ND HN R; cbn [fold_left].
  - exists E. apply (ap_X _ _ (todoX x [] [])); auto. intros. rewrite todoX_nil. auto.
  - cbn in ND. inversion ND; subst. destruct (HN b i (or_introl eq_refl)) as (B1 & B2 & B3). apply (IH _ (updE E b x true)); auto. { intros c j C. apply HN. right. auto. }
    apply (ap_X _ _ (updE (todoX x [] ((b, i) :: lE)) b x false)); [intros; apply (todoX_E x b i); auto|]. apply addExt_ap; auto. unfold todoX. cbn. rewrite !Nat.eqb_refl. auto.
Qed.
Lemma visitAdd_ap : forall f k0 x k E, N = nB -> AP none E (todoX x (a_succs (atomOf g x)) (a_ext (atomOf g x))) f k0 k -> exists E', AP none E' (fun _ _ => false) f k0 (visitAdd g A x k).
Proof.
  intros f k0 x k E EN R. unfold visitAdd. apply visitN_ap in R.
  - destruct R as (E1 & R). eapply visitE_ap; [apply (gw_nd2 _ W)| |eassumption]. intros b i I. apply (gw_ext _ W) in I. destruct I as [I1 I2]. sp; auto. rewrite EN. apply ext_range. auto.
  - apply (gw_nd1 _ W).
  - intros b I. apply (gw_succ _ W) in I. destruct I as [I1 I2]. sp; auto. rewrite EN. eapply pred_range; eauto.
  - intros b i I. apply (gw_ext _ W) in I. tauto.
Qed.
Lemma propAdd_ap : forall k0 fuel f k E, N = nB -> AP none E (fun _ _ => false) f k0 k -> (f <= fuel)%nat -> exists k' E', propSrc g A fuel k = Ok k' /\ AP none E' (fun _ _ => false) f k0 k' /\ k_q k' = [].
Proof.
  intros k0 fuel. induction fuel as [|fuel IH]; intros f k E EN R LF.
  - destruct (k_q k) as [|x q] eqn:QE.
    + exists k, E. cbn. rewrite QE. auto.
    + exfalso. pose proof (p_f _ _ _ _ _ _ R). rewrite QE in H0. cbn in H0. lia.
  - cbn [propSrc]. destruct (k_q k) as [|x q] eqn:QE; [exists k, E; auto|]. assert (IX : In x (k_q k)) by (rewrite QE; left; auto). destruct (p_q _ _ _ _ _ _ R _ IX) as (LX & VX & FX).
    cbn [k_val setQ]. rewrite VX. pose proof (p_nd _ _ _ _ _ _ R) as ND. rewrite QE in ND. inversion ND; subst.
    assert (R1 : AP none E (todoX x (a_succs (atomOf g x)) (a_ext (atomOf g x))) (pred f) k0 (setQ k q)).
    { constructor; cbn.
      - eapply full_same; [eassumption|..|apply (p_full _ _ _ _ _ _ R)]; auto. apply incl_refl.
      - intros b p I. rewrite (todoX_all g W) by auto. rewrite (p_E _ _ _ _ _ _ R) by auto. rewrite QE. unfold inSet. cbn [existsb]. rewrite andb_true_r. destruct (k_val k p), (Nat.eqb p x), (existsb (Nat.eqb p) q); reflexivity.
      - intros b p Y. apply todoX_x in Y. subst. auto.
      - auto.
      - intros y Y. apply (p_q _ _ _ _ _ _ R). rewrite QE. right. auto.
      - pose proof (p_f _ _ _ _ _ _ R). rewrite QE in H0. cbn in H0. lia.
      - apply (p_new _ _ _ _ _ _ R).
      - apply (p_S _ _ _ _ _ _ R).
      - destruct (p_fr _ _ _ _ _ _ R). constructor; auto. }
    destruct (visitAdd_ap _ _ x _ _ EN R1) as (E1 & R2). destruct (IH _ _ _ EN R2 ltac:(lia)) as (k' & E2 & P1 & P2 & P3). exists k', E2. sp; auto.
    destruct P2. constructor; auto. lia.
Qed.
End Add.
End Phase.
End Uf.
