(** Invariants of branch and bound: passes that are not interrupted, failures and models *)
From Coq Require Import List Bool Arith ZArith Lia.
From Verif Require Import Base BbModel BbSpec BbProofs BbProofs2 BbProofs3 BbProofs4.
Import ListNotations.
Open Scope Z_scope.

Section Inv.
Variables (n : nat) (M : cost -> Prop) (B0 low0 : cost).
Hypothesis PR : Problem n M B0 low0.
Notation adm := (adm n B0).
Notation better := (better n B0).
Notation Exh := (Exh n B0).
Notation SI := (SI n M B0 low0).
Notation Base := (Base n B0).
Notation Low := (Low n B0).
Notation OptOk := (OptOk n B0).
Notation O23 := (O23 n B0).
Notation Mid := (Mid n B0).
Notation Read := (Read n M B0).
Notation FinalR := (FinalR n).
Notation GD := (GD n M low0).
Notation GI := (GI n M B0 low0).
Notation TI := (TI n M B0 low0).
Notation Alive := (Alive n M B0).
Notation Dead := (Dead n B0).
Notation LinAlive := (LinAlive n M B0).
Notation ReadG := (ReadG n M B0).
Local Opaque bMax.
Ltac mv := cbn [move t_dm t_pc t_path t_share].
Ltac mvh H := cbn [move t_dm t_pc t_path t_share] in H.

Notation LinF := (LinF n M B0).
Notation LiveD := (LiveD n M B0).
Notation live_ti := (live_ti n M B0 low0).
Notation live_g := (live_g n M B0 low0).
Notation np := (n1 n M B0 low0 PR).

Lemma gd_setopt : forall d v, GD d -> length v = n -> v = repeat bMax n \/ F1 (at_ v 0) -> GD (setOpt d v).
Proof. intros d v G L F. destruct G. constructor; cbn [setOpt m_opt m_low m_type m_size]; auto. Qed.
Lemma m_f2 : forall v i, M v -> (i < n)%nat -> F2 (at_ v i).
Proof. intros v i MV IN. apply (ub_f2 _ (at_ v i)); [apply (m_ub n M B0 low0 PR); auto|lia]. Qed.
Lemma up_low : forall s i, SI s -> s_gen s <> 0%nat -> (i < n)%nat -> at_ (s_lower s) i <= at_ (upper s) i.
Proof.
  intros s i I G IN. destruct (si_up _ _ _ _ s I G) as [U1 U2]. destruct (si_low _ _ _ _ s I i IN) as [->|[_ H]]; [apply (m_range _ _ _ _ PR); auto|]. apply H; auto. apply eqp_refl.
Qed.
Lemma up_bmax : forall s i, SI s -> (i < n)%nat -> at_ (upper s) i <= bMax.
Proof.
  intros s i I IN. destruct (Nat.eq_dec (s_gen s) 0) as [G|G].
  - rewrite (si_0 _ _ _ _ s I G). apply (pr_B0max _ _ _ _ PR).
  - destruct (si_up _ _ _ _ s I G) as [U1 U2]. pose proof (m_range _ _ _ _ PR _ i U1 IN). rewrite bMax_v. lia.
Qed.
Lemma within_max : forall c, M c -> within n c (repeat bMax n).
Proof.
  intros c MC. apply within_lt. intros [i [H1 [_ H3]]]. rewrite at_rep in H3 by auto. pose proof (m_range _ _ _ _ PR _ i MC H1). rewrite bMax_v in H3. lia.
Qed.

(** ** Constraints without steps *)
Lemma lin_pass : forall k i d a up low, isLin (m_type d) = true -> (i + k = n)%nat -> (n - 1 <= a)%nat -> (forall j, (j < n)%nat -> at_ low j <= at_ up j) -> length (m_opt d) = n ->
  exists v, passFrom n k i a up low d = Cont (setOpt d v) a /\ length v = n /\ (forall j, (j < i)%nat -> at_ v j = at_ (m_opt d) j) /\
    (forall j, (i <= j < n)%nat -> at_ v j = if Nat.eqb j a then at_ up j - m_size d else at_ up j).
Proof.
  induction k as [|k IH]; intros i d a up low LN IK AN LU LO; cbn [passFrom].
  - exists (m_opt d). sp; auto; [destruct d; reflexivity|]. intros; lia.
  - set (z := if Nat.eqb i a then at_ up i - m_size d else at_ up i). assert (VE : visit n a i (at_ up i) (at_ low i) d = Cont (setOpt d (put (m_opt d) i z)) a).
    { unfold visit, z. rewrite LN. destruct (Nat.eqb_spec i a) as [E|E]; cbn [negb]; auto. destruct (Nat.ltb_spec a i); [lia|]. pose proof (LU i ltac:(lia)). destruct (Z.leb_spec (at_ low i) (at_ up i)); auto. lia. }
    rewrite VE. destruct (IH (S i) (setOpt d (put (m_opt d) i z)) a up low LN ltac:(lia) AN LU) as [v [V1 [V2 [V3 V4]]]]; [cbn [setOpt m_opt]; rewrite put_len; auto|].
    exists v. sp; auto.
    + intros j J. rewrite V3 by lia. cbn [setOpt m_opt]. apply put_neq. lia.
    + intros j J. destruct (Nat.eq_dec j i) as [->|NJ]; [rewrite V3 by lia; cbn [setOpt m_opt]; apply put_eq; lia|]. rewrite V4 by lia. reflexivity.
Qed.
Lemma ti_linpass : forall s x, SI s -> GI s x -> LivePc (t_pc x) -> s_gen s <> 0%nat -> isLin (m_type (t_dm x)) = true ->
  TI s (afterPass n x true (s_gen s) (passFrom n n 0 (m_lev (t_dm x)) (upper s) (s_lower s) (t_dm x))).
Proof.
  intros s x I G LP G0 LN. pose proof np as N. destruct (live_g s x LP G) as [A1 _]. specialize (A1 LN). pose proof (gi_d _ _ _ _ _ _ G) as GDx.
  destruct (si_up _ _ _ _ s I G0) as [U1 U2]. assert (SZ : m_size (t_dm x) = 1) by (pose proof (gd_size_ok _ _ _ _ GDx) as Z; unfold SzOk in Z; destruct (m_type (t_dm x)); try discriminate; auto).
  destruct (lin_pass n 0 (t_dm x) (m_lev (t_dm x)) (upper s) (s_lower s) LN eq_refl ltac:(lia) (fun j J => up_low s j I G0 J) (gd_opt _ _ _ _ GDx)) as [v [E [V1 [_ V2]]]]. rewrite E. cbn [afterPass].
  assert (PE : passEnd n true (setOpt (t_dm x) v) = true) by (unfold passEnd; cbn [setOpt m_lev]; rewrite (proj2 (Nat.eqb_neq _ _)) by lia; auto). rewrite PE.
  rewrite A1, SZ in V2. assert (VE : eqp (n - 1) v (upper s)) by (intros j J; rewrite V2 by lia; rewrite (proj2 (Nat.eqb_neq _ _)) by lia; auto).
  assert (VL : at_ v (n - 1) = at_ (upper s) (n - 1) - 1) by (rewrite V2 by lia; rewrite Nat.eqb_refl; auto).
  assert (F : F2 (at_ v 0)).
  { apply (ub_f2 _ (at_ (upper s) 0)); [apply (m_ub n M B0 low0 PR); auto|]. rewrite V2 by lia. destruct (Nat.eqb 0 (n - 1)); lia. }
  apply live_ti; [exact Logic.I|]. split.
  - destruct G. constructor; mv; auto.
    + apply gd_setopt; auto. right. apply f2_f1; auto.
    + cbn [setOpt m_lev m_type]. destruct gi_lev as [H1 _]. split; auto.
    + intros X. contradiction.
    + unfold BbProofs3.ReadG. mv. sp; auto; [right; exact F|]. intros _. rewrite (proj2 (Nat.eqb_neq _ _)) by auto. cbn [setOpt m_opt]. exists (n - 1)%nat. sp; auto; lia.
  - right. left. mv. cbn [setOpt m_type]. split; auto. unfold BbProofs4.LinF. cbn [setOpt m_lev m_size m_opt]. sp; auto. intros c MC BT L. unfold BbProofs2.better in BT. rewrite (proj2 (Nat.eqb_neq _ _) G0) in BT.
    destruct BT as [i [I1 [I2 I3]]]. destruct (Nat.eq_dec i (n - 1)) as [->|NI].
    + destruct L as [j [J1 [J2 J3]]]. destruct (Nat.eq_dec j (n - 1)) as [->|NJ]; [lia|]. rewrite VE in J3 by lia. rewrite I2 in J3 by lia. lia.
    + apply (lt_nlt n v c L). exists i. sp; [lia|intros j J; rewrite I2 by lia; symmetry; apply VE; lia|]. rewrite VE by lia. auto.
Qed.

(** ** The first bound *)
Lemma pass0_tail : forall k i d low, (1 <= i)%nat -> (i + k = n)%nat -> (isLin (m_type d) = false -> m_lev d = 0%nat) -> (forall j, (i <= j < n)%nat -> at_ low j <= at_ B0 j) ->
  length (m_opt d) = n -> length (m_low d) = n ->
  exists d', passFrom n k i n B0 low d = Cont d' n /\ m_type d' = m_type d /\ m_size d' = m_size d /\ m_lev d' = m_lev d /\ length (m_opt d') = n /\ length (m_low d') = n /\
    (forall j, (j < i)%nat -> at_ (m_opt d') j = at_ (m_opt d) j /\ at_ (m_low d') j = at_ (m_low d) j) /\ (forall j, (i <= j < n)%nat -> at_ (m_opt d') j = at_ B0 j).
Proof.
  induction k as [|k IH]; intros i d low I1 IK LV LB LO LL; cbn [passFrom].
  - exists d. sp; auto. intros; lia.
  - assert (VE : exists d1, visit n n i (at_ B0 i) (at_ low i) d = Cont d1 n /\ m_type d1 = m_type d /\ m_size d1 = m_size d /\ m_lev d1 = m_lev d /\ m_opt d1 = put (m_opt d) i (at_ B0 i) /\
      length (m_low d1) = n /\ forall j, (j < i)%nat -> at_ (m_low d1) j = at_ (m_low d) j).
    { unfold visit. rewrite (proj2 (Nat.eqb_neq i n)) by lia. cbn [negb]. rewrite (proj2 (Nat.ltb_ge n i)) by lia. pose proof (LB i ltac:(lia)) as LE. destruct (isLin (m_type d)) eqn:LN.
      - rewrite (proj2 (Z.leb_le _ _) LE). exists (setOpt d (put (m_opt d) i (at_ B0 i))). cbn [setOpt m_type m_size m_lev m_opt m_low]. sp; auto.
      - rewrite (LV eq_refl). rewrite (proj2 (Nat.ltb_lt 0 i)) by lia. cbn [orb]. rewrite (proj2 (Z.leb_le _ _) LE).
        exists (setOpt (setLow d (put (m_low d) i (at_ low i))) (put (m_opt d) i (at_ B0 i))). cbn [setOpt setLow m_type m_size m_lev m_opt m_low]. sp; auto; [rewrite put_len; auto|]. intros j J. apply put_neq. lia. }
    destruct VE as [d1 [V0 [V1 [V2 [V3 [V4 [V5 V6]]]]]]]. rewrite V0.
    destruct (IH (S i) d1 low ltac:(lia) ltac:(lia)) as [d' [W0 [W1 [W2 [W3 [W4 [W5 [W6 W7]]]]]]]]; auto.
    + rewrite V1, V3. auto.
    + intros j J. apply LB. lia.
    + rewrite V4, put_len. auto.
    + exists d'. sp; try congruence.
      * intros j J. destruct (W6 j ltac:(lia)) as [X1 X2]. rewrite X1, X2, V4, V6 by lia. rewrite put_neq by lia. auto.
      * intros j J. destruct (Nat.eq_dec j i) as [->|NJ]; [|apply W7; lia]. destruct (W6 i ltac:(lia)) as [X1 _]. rewrite X1, V4, put_eq by lia. auto.
Qed.
(** All components of the initial bound but the first are not below the lower bounds. *)
Definition Tail (s : shared) : Prop := forall j, (0 < j < n)%nat -> at_ (s_lower s) j <= at_ B0 j.
Lemma b0_fin : B0 = repeat bMax n \/ F2 (at_ B0 0).
Proof. destruct (pr_B0first _ _ _ _ PR) as [H|H]; auto. right. apply F2_def. exact H. Qed.
Lemma ti_pass0 : forall s x, SI s -> TI s x -> LivePc (t_pc x) -> s_gen s = 0%nat -> Tail s -> (isLin (m_type (t_dm x)) = false -> OneComponent n B0) ->
  TI s (afterPass n x false (s_gen s) (passFrom n n 0 n (upper s) (s_lower s) (t_dm x))).
Proof.
  intros s x I T LP G0 TL OC. pose proof np as N. apply live_ti in T; auto. destruct T as [G D]. destruct (live_g s x LP G) as [A1 [A2 A3]]. specialize (A2 G0). specialize (A3 G0).
  pose proof (gi_d _ _ _ _ _ _ G) as GDx. rewrite (si_0 _ _ _ _ s I G0). set (d := t_dm x) in *.
  replace (passFrom n n 0 n B0 (s_lower s) d) with (passFrom n (S (n - 1)) 0 n B0 (s_lower s) d) by (replace (S (n - 1)) with n by lia; reflexivity). cbn [passFrom].
  (* the first level *)
  set (L := if isLin (m_type d) then at_ (s_lower s) 0 else Z.max (at_ (m_low d) 0) (at_ (s_lower s) 0)).
  assert (VE : exists d1, m_type d1 = m_type d /\ m_size d1 = m_size d /\ m_lev d1 = m_lev d /\ m_opt d1 = m_opt d /\ m_low d1 = (if isLin (m_type d) then m_low d else put (m_low d) 0 L) /\
    visit n n 0 (at_ B0 0) (at_ (s_lower s) 0) d = if L <=? at_ B0 0 then Cont (setOpt d1 (put (m_opt d) 0 (at_ B0 0))) n else Ret false (stepInit n n d1)).
  { unfold visit, L. rewrite (proj2 (Nat.eqb_neq 0 n)) by lia. cbn [negb]. rewrite (proj2 (Nat.ltb_ge n 0)) by lia. destruct (isLin (m_type d)) eqn:LN.
    - exists d. sp; auto.
    - rewrite (A2 eq_refl). cbn [Nat.ltb Nat.leb orb]. destruct (Z.ltb_spec (at_ (m_low d) 0) (at_ (s_lower s) 0)).
      + exists (setLow d (put (m_low d) 0 (at_ (s_lower s) 0))). cbn [setLow m_type m_size m_lev m_opt m_low]. rewrite Z.max_r by lia. sp; auto.
      + exists d. rewrite Z.max_l by lia. rewrite put_same. sp; auto. }
  destruct VE as [d1 [D1 [D2 [D3 [D4 [D5 D6]]]]]]. rewrite D6. clear D6.
  assert (L1 : length (m_low d1) = n) by (rewrite D5; destruct (isLin (m_type d)); [|rewrite put_len]; apply (gd_low _ _ _ _ GDx)).
  assert (GD1 : GD d1). { destruct GDx as [X1 X2 X3 X4 X5]. constructor; rewrite ?D1, ?D2, ?D4; auto. unfold FinA in *. rewrite D4. auto. }
  destruct (Z.leb_spec L (at_ B0 0)) as [LE|GT].
  - destruct (pass0_tail (n - 1) 1 (setOpt d1 (put (m_opt d) 0 (at_ B0 0))) (s_lower s)) as [d' [W0 [W1 [W2 [W3 [W4 [W5 [W6 W7]]]]]]]]; cbn [setOpt m_type m_lev m_opt m_low]; try lia; auto.
    + rewrite D1, D3. auto.
    + rewrite put_len. apply (gd_opt _ _ _ _ GDx).
    + rewrite W0. cbn [afterPass]. cbn [setOpt m_type m_lev m_opt m_low m_size] in *. assert (OB : m_opt d' = B0).
      { apply (at_ext n); auto; [apply (pr_B0 _ _ _ _ PR)|]. intros j J. destruct (Nat.eq_dec j 0) as [->|NJ]; [|apply W7; lia]. destruct (W6 0%nat ltac:(lia)) as [X _]. rewrite X, put_eq; auto. rewrite (gd_opt _ _ _ _ GDx). auto. }
      assert (PE : passEnd n false d' = true) by (unfold passEnd; rewrite orb_true_r; auto). rewrite PE. destruct (W6 0%nat ltac:(lia)) as [_ LW0]. rewrite D5 in LW0. pose proof b0_fin as BF.
      assert (GD' : GD d'). { destruct GDx as [X1 X2 X3 X4 X5]. constructor; auto; rewrite ?W1, ?W2, ?D1, ?D2; auto. unfold FinA. rewrite OB. destruct BF as [H|H]; [left; auto|right; apply f2_f1, H]. }
      apply live_ti; [exact Logic.I|]. split.
      * constructor; mv.
        -- apply (gi_P _ _ _ _ _ _ G).
        -- apply (gi_sh _ _ _ _ _ _ G).
        -- exact GD'.
        -- rewrite W3, W1, D1, D3. destruct (gi_lev _ _ _ _ _ _ G) as [H1 _]. split; auto.
        -- intros _. rewrite W1, W2, W3, D1, D2, D3. sp; auto. apply (gi_g0 _ _ _ _ _ _ G G0).
        -- unfold BbProofs3.ReadG. mv. sp; auto; [unfold FinB; rewrite OB; auto|]. intros _. rewrite G0. cbn [Nat.eqb]. exact OB.
      * destruct D as [[H F]|[[LN LF]|[LN [B [DBx OK]]]]].
        -- left. mv. rewrite W1, D1. split; auto.
        -- right. left. mv. rewrite W1, D1. split; auto. destruct LF as [F1 [F2 F3]]. unfold BbProofs4.LinF. rewrite W2, W3, D2, D3, OB. sp; auto. intros c MC BT. apply (better_adm _ _ _ _ s c I BT).
        -- right. right. mv. rewrite W1, D1. fold d in B, LN. rewrite LN in LW0. rewrite put_eq in LW0 by (rewrite (b_low _ _ _ _ _ B); auto). split; [exact LN|].
           assert (SL : forall c, t_path x c -> adm c -> L <= at_ c 0).
           { intros c Pc A. pose proof (shared_low _ _ _ _ PR s (t_path x) d c I (gi_P _ _ _ _ _ _ G) B Pc A) as X. rewrite (A2 LN) in X. unfold L. rewrite LN. apply X. intros j J. lia. }
           sp.
           ++ constructor; rewrite ?W1, ?W2, ?W3, ?D1, ?D2, ?D3; auto; try apply B.
              ** intros c Pc A j J E. rewrite W3, D3, (A2 LN) in J. assert (j = 0%nat) by lia. subst j. rewrite LW0. apply SL; auto.
              ** rewrite (A2 LN). intros j J. lia.
           ++ unfold DB. rewrite W1, W2, D1, D2. intros TI. left. apply (gi_g0 _ _ _ _ _ _ G G0); auto.
           ++ right. unfold BbProofs2.O23. rewrite W3, D3, (A2 LN), OB, (si_0 _ _ _ _ s I G0). sp; auto.
              ** intros j J. lia.
              ** intros j J. apply (OC LN). lia.
              ** pose proof (gd_sz _ _ _ _ GD'). lia.
  - (* the initial bound is below the lower bound *)
    cbn [afterPass]. assert (EX : Exh s (t_path x)).
    { intros c Pc BT. pose proof (better_adm _ _ _ _ s c I BT) as A. apply A. exists 0%nat. sp; auto; [intros j J; lia|]. enough (L <= at_ c 0) by lia. unfold L.
      pose proof (gi_P _ _ _ _ _ _ G c Pc) as MC. assert (SL : at_ (s_lower s) 0 <= at_ c 0).
      { destruct (si_low _ _ _ _ s I 0%nat N) as [->|[_ H]]; [apply (m_range _ _ _ _ PR); auto|]. apply H; auto. intros j J. lia. }
      destruct (isLin (m_type d)) eqn:LN; auto. destruct D as [[H F]|[[LN' _]|[_ [B _]]]].
      - exfalso. apply (H c Pc BT).
      - fold d in LN'. congruence.
      - apply Z.max_lub; auto. apply (b_lw _ _ _ _ _ B c Pc A 0%nat); [lia|]. intros j J. lia. }
    assert (MF : isLin (m_type d) = false -> more n (stepInit n n d1) = false) by (intros LN; unfold more; rewrite step_lev, D1, LN, Nat.ltb_irrefl; auto).
    split.
    + constructor; mv.
      * apply (gi_P _ _ _ _ _ _ G).
      * apply (gi_sh _ _ _ _ _ _ G).
      * apply gd_step; auto.
      * rewrite step_lev, (proj1 (step_type n n d1)), D1. destruct (isLin (m_type d)); split; try lia; auto; discriminate.
      * intros _. rewrite step_lev, (proj1 (step_type n n d1)), (proj2 (step_type n n d1)), step_size, D1. sp.
        -- intros ->. right. split; cbn; auto.
        -- right. right. exact Logic.I.
        -- intros ->. lia.
      * exact Logic.I.
    + left. split; auto. mv. rewrite (proj1 (step_type n n d1)), D1. intros LN _. exact (MF LN).
Qed.
End Inv.
