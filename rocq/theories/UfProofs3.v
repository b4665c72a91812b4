(** Unfounded set check: processing of pending events *)
From Coq Require Import List Bool Arith ZArith Lia.
From Verif Require Import Base UfModel UfSpec UfProofs UfProofs2.
Import ListNotations.
Local Open Scope Z_scope.

Section Uf.
Variable g : graph.
Hypothesis W : gwf g.
Notation nA := (nAtoms g).
Notation nB := (length (g_bodies g)).
Notation Fr := (Fr g).
Section Phase.
Variable As : list pasg.
Variable A : pasg.
Hypothesis SUB : forall B l, In B As -> isFalse B l = true -> isFalse A l = true.
Variable H : nat -> Prop.
(** False bodies whose sources are still to be removed *)
Definition badQ (Q : list ev) (b : nat) : Prop := isFalse A (blit g b) = true /\ In (EvBody b) Q.
Definition evOk (Q : list ev) : Prop := forall b i, In (EvSub b i) Q -> isExt g b = true.
Lemma full_drop : forall e Q bad E k, Full g As A (e :: Q) H nB bad E k ->
  (forall b x, e = EvBody b -> k_src k x = Some b -> In x (k_todo k) /\ k_val k x = false) ->
  (forall b i, e = EvSub b i -> k_ws k b i = false /\ (forall x, k_src k x = Some b -> isFalse A (blit g b) = false -> In x (k_todo k) \/ k_low k b <= 0)) -> Full g As A Q H nB bad E k.
Proof.
  intros e Q bad E k (G & C & LB & LA) HB HS. exists G. sp; auto. constructor.
  - intros b i X WI. destruct (l_ws _ _ _ _ _ _ LA b i X WI) as [|[->|]]; auto. destruct (HS b i eq_refl) as [Y _]. congruence.
  - intros b x FB S1. destruct (l_b _ _ _ _ _ _ LA b x FB S1) as [[->|]|]; auto. right. eapply HB; eauto.
  - intros x LX NX. destruct (l_x _ _ _ _ _ _ LA x LX NX) as [|(b & B1 & B2)]; auto. destruct B2 as [(B2 & [->|B3])|(B2 & B3)].
    + left. left. eapply HB; eauto.
    + right. exists b. split; auto. left. auto.
    + destruct (isExt g b && sameScc g b x) eqn:XS.
      2: { right. exists b. split; auto. right. split; auto. intros X1 X2. rewrite X1, X2 in XS. discriminate. }
      apply andb_true_iff in XS. destruct XS as [X1 X2]. destruct (B3 X1 X2) as [B4 B5].
      destruct (in_dec Nat.eq_dec x (k_todo k)) as [IT|IT]; [left; left; auto|]. right. exists b. split; auto. right. split; auto. intros _ _. split; auto. intros i GI. destruct (B5 i GI) as [|[->|]]; auto.
      destruct (HS b i eq_refl) as [Y1 Y2]. destruct (Y2 x B1 B2) as [|LO]; [contradiction|]. rewrite (c_g _ _ _ _ _ _ C) in GI; auto; [congruence|]. eapply c_src; eauto.
Qed.
Definition PK (picked : list nat) (k : ck) : Prop := forall b x, In b picked -> k_src k x = Some b -> In x (k_todo k) /\ k_val k x = false.
Lemma PK_fr : forall p k k', PK p k -> Fr k k' -> PK p k'.
Proof.
  intros p k k' P F b x I S1. rewrite (f_src _ _ _ F) in S1. destruct (P b x I S1) as [P1 P2]. split; [apply (f_todo _ _ _ F); auto|]. destruct (k_val k' x) eqn:V; auto. apply (f_val _ _ _ F) in V. congruence.
Qed.
Lemma Fr_refl : forall k, tfOk g k -> Fr k k.
Proof. intros. constructor; auto. apply incl_refl. Qed.
Lemma rp_bad : forall Q (bad bad' : nat -> Prop) E X f k0 k, RP g As A Q H bad E X f k0 k -> (forall b, bad b -> bad' b) -> RP g As A Q H bad' E X f k0 k.
Proof. intros Q bad bad' E X f k0 k [R1 R2 R3 R4 R5 R6 R7] M. constructor; auto. eapply full_core; [eassumption|]. intros G C. eapply bad_core; [eassumption|]. intros. right. auto. Qed.
Lemma procEv_ok : forall e Q k picked, Quiet g As A (e :: Q) H (badQ (e :: Q)) k -> tfOk g k -> evOk (e :: Q) -> PK picked k ->
  exists picked' k', procEv g A picked e k = Ok (picked', k') /\ Quiet g As A Q H (badQ Q) k' /\ Fr k k' /\ PK picked' k'.
Proof.
  intros e Q k picked QU T EV P. pose proof (quiet_rp _ _ _ _ _ _ _ QU T) as R0.
  destruct e as [b|x|b i]; cbn [procEv].
  - (* a body became false *)
    assert (R1 : RP g As A (EvBody b :: Q) H (fun c => badQ Q c \/ c = b) (fun _ p => k_val k p) (fun _ _ => false) nA k k).
    { eapply rp_bad; [eassumption|]. intros c (F & [I|I]); [injection I as ->; auto|]. left. split; auto. }
    destruct (removeSource_rp g W As A SUB _ _ _ _ _ _ _ R1) as (k' & K1 & K2 & K3 & K4). exists picked, k'. cbn [bind]. rewrite K1. cbn [bind]. sp; auto; [|eapply PK_fr; eauto].
    destruct K2 as [K5 K6]. split; auto. eapply full_drop; [eassumption| |]; [|intros ? ? D; discriminate D]. intros c y Y SY. injection Y as <-. auto.
  - (* a head became false *)
    assert (DQ : forall k', Quiet g As A (EvHead x :: Q) H (badQ (EvHead x :: Q)) k' -> Quiet g As A Q H (badQ Q) k').
    { intros k' [F QE]. split; auto. eapply (full_drop (EvHead x)); [|intros ? ? D; discriminate D|intros ? ? D; discriminate D]. eapply full_core; [eassumption|]. intros G C. eapply bad_core; [eassumption|]. intros c y (F1 & [I|I]) _ _ _; [discriminate I|]. right. split; auto. }
    destruct (k_src k x) as [b|]; [|exists picked, k; sp; auto using Fr_refl]. destruct (k_val k x) eqn:V; cbn [andb]; [|exists picked, k; sp; auto using Fr_refl].
    destruct (isFalse A (blit g b)); cbn [negb]; [exists picked, k; sp; auto using Fr_refl|].
    assert (R1 : RP g As A (EvHead x :: Q) H (badQ (EvHead x :: Q)) (fun _ p => k_val k p) (todoX x (a_succs (atomOf g x)) (a_ext (atomOf g x))) nA k (setVal k x false)).
    { destruct QU as [F QE]. constructor; cbn; rewrite ?QE; auto.
      - eapply full_step; [eassumption|eassumption| |apply chg_same; auto|apply incl_refl].
        + intros G C. apply core_upG. eapply core_same; [..|apply unval_core; eassumption]; try reflexivity.
        + cbn. intros y. destruct (Nat.eq_dec y x) as [->|D]; [rewrite upd_same; discriminate|rewrite upd_other; auto].
      - intros c p I. rewrite (todoX_all g W) by auto. cbn. rewrite orb_false_r. unfold upd. destruct (Nat.eqb_spec p x) as [->|]; [auto|rewrite orb_false_r; auto].
      - intros c p Y. apply todoX_x in Y. subst. rewrite upd_same. auto.
      - constructor.
      - intros y [].
      - cbn. apply nval_le.
      - constructor; auto. apply incl_refl. cbn. intros y. unfold upd. destruct (Nat.eqb y x); [discriminate|auto]. }
    destruct (visitRem_rp g W As A SUB _ _ _ _ _ x true _ _ R1) as (E1 & R2). destruct (prop_quiet g W As A SUB _ _ _ _ _ _ R2) as (k' & K1 & K2 & K3 & K4). rewrite K1. cbn [bind]. exists picked, k'. sp; auto. eapply PK_fr; eauto.
  - (* a subgoal became false *)
    assert (X : isExt g b = true) by (apply (EV b i); left; auto). assert (LB : (b < nB)%nat) by (apply ext_range; auto).
    set (k1 := removeFromWs g b i k). assert (SM : k_val k1 = k_val k /\ k_q k1 = k_q k /\ k_todo k1 = k_todo k /\ k_tf k1 = k_tf k /\ k_uf k1 = k_uf k /\ k_inv k1 = k_inv k /\ k_src k1 = k_src k).
    { unfold k1, removeFromWs. destruct (k_ws k b i); sp; reflexivity. } destruct SM as (E1 & E2 & E3 & E4 & E5 & E6 & E7).
    assert (WS1 : forall c j, k_ws k1 c j = true -> k_ws k c j = true /\ ~ (c = b /\ j = i)).
    { intros c j. unfold k1, removeFromWs. destruct (k_ws k b i) eqn:WI; cbn.
      - unfold upd. destruct (Nat.eqb_spec c b) as [->|]; [|intuition]. destruct (Nat.eqb_spec j i); [discriminate|intuition].
      - intros Y. split; auto. intros [-> ->]. congruence. }
    assert (WI : k_ws k1 b i = false). { destruct (k_ws k1 b i) eqn:Y; auto. destruct (WS1 _ _ Y) as [_ Z0]. destruct Z0. auto. }
    assert (R1 : RP g As A (EvSub b i :: Q) H (fun c => badQ (EvSub b i :: Q) c \/ c = b) (fun _ p => k_val k p) (fun _ _ => false) nA k k1).
    { eapply rp_chg; [eassumption|eassumption| |apply chg_same; auto|..]; auto.
      - intros G C. apply rmWs_core; auto.
      - intros. rewrite E1 in *. auto.
      - intros c j Y. apply WS1. auto.
      - intros c j Y. apply WS1. auto.
      - intros. rewrite !orb_false_r. destruct QU as [_ QE]. rewrite QE. cbn. rewrite orb_false_r. auto. }
    assert (BM : forall c, badQ (EvSub b i :: Q) c -> badQ Q c). { intros c (F & [I|I]); [discriminate I|]. split; auto. }
    assert (FR : Fr k k1). { constructor; auto. rewrite E3. apply incl_refl. unfold tfOk. rewrite E3, E4. apply T. intros y. rewrite E1. auto. intros c j Y. apply WS1. auto. }
    assert (DQ : forall k', Fr k1 k' -> Quiet g As A (EvSub b i :: Q) H (badQ Q) k' -> k_ws k' b i = false -> (forall x, k_src k' x = Some b -> isFalse A (blit g b) = false -> In x (k_todo k') \/ k_low k' b <= 0) -> Quiet g As A Q H (badQ Q) k').
    { intros k' F [Y1 Y2] Z1 Z2. split; auto. eapply full_drop; [eassumption|intros ? ? D; discriminate D|]. intros b' i' Y. injection Y as <- <-. auto. }
    assert (QE1 : k_q k1 = []) by (rewrite E2; apply QU).
    assert (NO : (forall y, k_src k1 y = Some b -> sameScc g b y = true -> k_val k1 y = true -> valid g k1 b \/ badQ Q b) -> (forall x, k_src k1 x = Some b -> isFalse A (blit g b) = false -> In x (k_todo k1) \/ k_low k1 b <= 0) ->
      exists picked' k', Ok (picked, k1) = Ok (picked', k') /\ Quiet g As A Q H (badQ Q) k' /\ Fr k k' /\ PK picked' k').
    { intros F1 F2. exists picked, k1. sp; auto; [|eapply PK_fr; eauto]. apply DQ; auto. apply Fr_refl, FR. eapply rp_quiet; [|assumption]. apply (bad_off g As A _ H (badQ Q) _ _ _ _ _ b); [|eassumption].
      eapply rp_bad; [eassumption|]. intros c [Y|Y]; auto. }
    fold k1. destruct (Z.ltb_spec 0 (k_low k1 b)) as [LO|LO]; cbn [andb].
    2: { apply NO; [|auto]. intros y _ _ _. left. unfold valid. rewrite X. auto. }
    destruct (Nat.eqb_spec (k_w k1 b) 0) as [WZ|WZ]; cbn [negb andb].
    { assert (NW : forall y, k_src k1 y = Some b -> False).
      { intros y SY. eapply (rp_w g As A _ _ _ _ _ _ _ _ b y R1); eauto. destruct (full_parts _ _ _ _ _ _ _ _ _ (r_full _ _ _ _ _ _ _ _ _ _ _ R1)) as (G1 & C1). eapply (bodies_heads g W). eapply c_src; eauto. }
      apply NO; intros y SY; exfalso; eauto. }
    destruct (existsb (Nat.eqb b) picked) eqn:PB; cbn [negb andb].
    { apply (mem_In b picked) in PB. assert (P1 : PK picked k1) by (eapply PK_fr; eauto). apply NO; intros y SY; destruct (P1 b y PB SY); [congruence|auto]. }
    destruct (isFalse A (blit g b)) eqn:FB; cbn [negb].
    { apply NO; [|congruence]. intros y SY SS VY. right. split; auto. destruct (r_full _ _ _ _ _ _ _ _ _ _ _ R1) as (G1 & C1 & _ & LA). destruct (l_b _ _ _ _ _ _ LA b y FB SY) as [[I|I]|I]; auto; [discriminate|congruence]. }
    assert (R2 : RP g As A (EvSub b i :: Q) H (fun c => badQ Q c \/ c = b) (fun _ p => k_val k p) (fun _ _ => false) nA k k1). { eapply rp_bad; [eassumption|]. intros c [Y|Y]; auto. }
    destruct (removeSource_rp g W As A SUB _ _ _ _ _ _ _ R2) as (k' & K1 & K2 & K3 & K4). rewrite K1. cbn [bind]. exists (b :: picked), k'.
    assert (F2 : Fr k k') by (eapply Fr_trans; eauto). sp; auto.
    + apply DQ; auto.
      * destruct (k_ws k' b i) eqn:Y; auto. apply (f_ws _ _ _ K3) in Y. congruence.
      * intros x SX _. left. apply K4. auto.
    + intros c y [<-|I] SY; [auto|]. eapply (PK_fr picked k); eauto.
Qed.
Lemma procEvs_ok : forall Q k picked, Quiet g As A Q H (badQ Q) k -> tfOk g k -> evOk Q -> PK picked k -> exists k', procEvs g A picked Q k = Ok k' /\ Quiet g As A [] H (badQ []) k' /\ Fr k k'.
Proof.
  induction Q as [|e Q IH]; intros k picked QU T EV P; cbn [procEvs]; [exists k; sp; auto using Fr_refl|].
  destruct (procEv_ok e Q k picked QU T EV P) as (p' & k' & K1 & K2 & K3 & K4). rewrite K1. cbn [bind]. destruct (IH k' p') as (k2 & L1 & L2 & L3); auto.
  - apply K3.
  - intros b i I. apply (EV b i). right. auto.
  - exists k2. sp; auto. eapply Fr_trans; eauto.
Qed.
Lemma update_ok : forall k, Quiet g As A (k_inv k) H (badQ (k_inv k)) k -> tfOk g k -> evOk (k_inv k) ->
  exists k', updateAssignment g A k = Ok k' /\ Quiet g As A [] H none k' /\ tfOk g k' /\ k_uf k' = k_uf k /\ k_inv k' = [].
Proof.
  intros k QU T EV. destruct (procEvs_ok _ k [] QU T EV) as (k' & K1 & (K2 & K4) & K3); [intros b x []|]. unfold updateAssignment. rewrite K1. cbn [bind]. exists (setInv k' []). sp; auto.
  - split; auto. apply (full_same g As A SUB [] H nB none _ k'); try reflexivity; [apply incl_refl|]. eapply full_core; [eassumption|]. intros G C. eapply bad_core; [eassumption|]. intros b y (_ & []).
  - apply K3.
  - apply (f_uf _ _ _ K3).
Qed.
End Phase.
End Uf.
