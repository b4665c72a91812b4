(** Invariants of branch and bound: the whole system *)
From Coq Require Import List Bool Arith ZArith Lia.
From Verif Require Import Base BbModel BbSpec BbProofs BbProofs2 BbProofs3 BbProofs4 BbProofs5 BbProofs6.
Import ListNotations.
Open Scope Z_scope.

Section Inv.
Variables (n : nat) (M : cost -> Prop) (B0 low0 : cost).
Hypothesis PR : Problem n M B0 low0.
Notation adm := (adm n B0).
Notation better := (better n B0).
Notation Exh := (Exh n B0).
Notation SI := (SI n M B0 low0).
Notation Base := (Base n B0).
Notation Low := (Low n B0).
Notation OptOk := (OptOk n B0).
Notation O23 := (O23 n B0).
Notation Mid := (Mid n B0).
Notation Read := (Read n M B0).
Notation FinalR := (FinalR n).
Notation GD := (GD n M low0).
Notation GI := (GI n M B0 low0).
Notation TI := (TI n M B0 low0).
Notation Alive := (Alive n M B0).
Notation Dead := (Dead n B0).
Notation LinAlive := (LinAlive n M B0).
Notation ReadG := (ReadG n M B0).
Local Opaque bMax.
Ltac mv := cbn [move t_dm t_pc t_path t_share].
Ltac mvh H := cbn [move t_dm t_pc t_path t_share] in H.

Notation LinF := (LinF n M B0).
Notation LiveD := (LiveD n M B0).
Notation live_ti := (live_ti n M B0 low0).
Notation live_g := (live_g n M B0 low0).
Notation np := (n1 n M B0 low0 PR).

Notation chk_gen := (chk_gen n M B0 low0).
Notation chk_gen0 := (chk_gen0 n M B0 low0).
Notation Tail := (Tail n B0).
Definition OptC (c : cost) : Prop := M c /\ adm c /\ forall c', M c' -> ~ lt n c' c.
Definition RepOk (p : nat * Z) : Prop := (fst p < n)%nat /\ forall c, OptC c -> snd p <= at_ c (fst p).

(** ** No model was found *)
Definition fixSize (d : dm) : dm := match m_type d with Inc => setSize d 1 | _ => d end.
Lemma fix_same : forall d, m_opt (fixSize d) = m_opt d /\ m_low (fixSize d) = m_low d /\ m_type (fixSize d) = m_type d /\ m_lev (fixSize d) = m_lev d.
Proof. intros d. unfold fixSize. destruct (m_type d) eqn:T; sp; auto. Qed.
Lemma fix_gd : forall d, GD d -> GD (fixSize d).
Proof. intros d G. unfold fixSize. destruct (m_type d) eqn:T; auto. apply gd_size; auto. unfold SzOk. rewrite T. lia. Qed.
Lemma fix_base : forall s (P : cost -> Prop) d, Base s P d -> Base s P (fixSize d).
Proof. intros s P d B. unfold fixSize. destruct (m_type d) eqn:T; auto. apply base_size; auto. lia. Qed.
Lemma il_val : forall s i L, fst (incLower s i L) = Z.max L (at_ (s_lower s) i).
Proof. intros s i L. unfold incLower. destruct (Z.leb_spec L (at_ (s_lower s) i)); cbn [fst]; lia. Qed.
Lemma hu_eq : forall sh s d m r s' d', SI s -> handleUnsat n sh s d = (m, r, s', d') ->
  m = more n d /\
  ((active d && checkNext s && negb (isLin (m_type d)) && Nat.ltb (m_lev d) n = false /\ r = None /\ s' = s /\ d' = relaxBound n false s d) \/
   (active d = true /\ s_gen s <> 0%nat /\ isLin (m_type d) = false /\ (m_lev d < n)%nat /\
    exists L, d' = relaxBound n false s' (fixSize (setLow d (put (m_low d) (m_lev d) L))) /\
      ((sh = false /\ r = None /\ s' = s /\ L = at_ (m_opt d) (m_lev d) + 1) \/
       (sh = true /\ s' = snd (incLower s (m_lev d) (at_ (m_opt d) (m_lev d) + 1)) /\ L = Z.max (at_ (m_opt d) (m_lev d) + 1) (at_ (s_lower s) (m_lev d)) /\
        (r = None \/ r = Some (m_lev d, L)))))).
Proof.
  intros sh s d m r s' d' I H. unfold handleUnsat in H. rewrite (opt_chk _ _ _ _ s I) in H. unfold commitLower in H.
  destruct (active d && checkNext s && negb (isLin (m_type d)) && Nat.ltb (m_lev d) n) eqn:C.
  - apply andb_true_iff in C. destruct C as [C C4]. apply andb_true_iff in C. destruct C as [C C3]. apply andb_true_iff in C. destruct C as [C1 C2].
    apply Nat.ltb_lt in C4. apply negb_true_iff in C3. apply (chk_gen s I) in C2.
    destruct sh.
    + pose proof (il_val s (m_lev d) (at_ (m_opt d) (m_lev d) + 1)) as V. destruct (incLower s (m_lev d) (at_ (m_opt d) (m_lev d) + 1)) as [sv s1] eqn:IL. cbn [fst] in V.
      destruct (Z.eqb_spec sv (at_ (m_opt d) (m_lev d) + 1)) as [E|E]; injection H as <- <- <- <-; (split; [reflexivity|]); right; sp; auto; exists sv.
      * split; [rewrite <- E; reflexivity|]. right. sp; auto.
      * split; [reflexivity|]. right. sp; auto.
    + injection H as <- <- <- <-. split; [reflexivity|]. right. sp; auto. eexists. split; [reflexivity|]. left. sp; auto.
  - injection H as <- <- <- <-. split; [reflexivity|]. left. sp; auto.
Qed.
Lemma exh_same : forall s s' P, upper s' = upper s -> s_gen s' = s_gen s -> Exh s P -> Exh s' P.
Proof. intros s s' P U G E c Pc BT. apply (E c Pc). unfold BbProofs2.better in *. rewrite U, G in BT. exact BT. Qed.
Lemma ti_unsat : forall s x m r s' d', SI s -> TI s x -> ((exists g, t_pc x = Search g) /\ (forall c, t_path x c -> ~ within n c (m_opt (t_dm x)))) \/ t_pc x = Stopped ->
  handleUnsat n (t_share x) s (t_dm x) = (m, r, s', d') ->
  SI s' /\ upper s' = upper s /\ s_gen s' = s_gen s /\ (forall p, buf s' p = buf s p) /\ TI s' (move x d' (if m then Idle else Done)) /\ (forall p, r = Some p -> RepOk p) /\ (isLin (m_type (t_dm x)) = true -> s' = s).
Proof.
  intros s x m r s' d' I T PC H. set (d := t_dm x) in *. pose proof np as N. destruct (hu_eq _ _ _ _ _ _ _ I H) as [-> K]. clear H. pose proof (gi_d _ _ _ _ _ _ (proj1 T)) as GDx. fold d in GDx.
  assert (ML : more n d = true -> (m_lev d < n)%nat) by (intros X; unfold more in X; apply andb_true_iff in X; apply Nat.ltb_lt, X).
  destruct K as [[C [-> [-> ->]]]|[A [G0 [LN [KN [L [-> K]]]]]]].
  - (* nothing is committed *)
    sp; auto; [|discriminate]. destruct PC as [[[g E] NW]|E].
    + assert (LP : LivePc (t_pc x)) by (rewrite E; exact Logic.I). apply live_ti in T; auto. destruct T as [G D]. destruct (live_g s x LP G) as [A1 [A2 A3]]. fold d in A1, A2, A3.
      destruct (gi_lev _ _ _ _ _ _ G) as [LVN _]. fold d in LVN.
      assert (GG : forall p, p = Idle \/ p = Done -> GI s (move x (relaxBound n false s d) p)).
      { intros p P. apply gi_rel; auto. intros G0. sp; auto. apply (gi_g0 _ _ _ _ _ _ G G0). }
      destruct D as [[EX F]|[[LN LF]|[LN [B [DBx OK]]]]].
      * destruct (more n d); [apply live_ti; [exact Logic.I|]; split; auto; left; mv; destruct (relax_same n M B0 low0 s d I) as [_ [-> _]]; split; auto|].
        split; auto. left. split; auto. intros _ _. exact Logic.I.
      * assert (EX : Exh s (t_path x)) by (apply (lin_exh n M B0 low0 s x); auto). fold d in LN.
        destruct (more n d); [apply live_ti; [exact Logic.I|]; split; auto; left; mv; destruct (relax_same n M B0 low0 s d I) as [_ [-> _]]; split; auto; congruence|].
        split; auto. left. split; auto. intros _ _. exact Logic.I.
      * fold d in LN, B, DBx, OK. destruct (more n d).
        -- apply live_ti; [exact Logic.I|]. split; auto. right. right. mv. destruct (relax_same n M B0 low0 s d I) as [_ [R2 _]]. rewrite R2. split; auto. apply (alive_rel n M B0 low0 PR); auto.
        -- split; auto. left. split; [|intros _ _; exact Logic.I]. destruct (Nat.eq_dec (s_gen s) 0) as [G0|G0]; [apply (no_within_exh0 n M B0 low0 PR s x); auto|].
           rewrite LN in C. apply (chk_gen s I) in G0. rewrite G0 in C. rewrite (proj2 (Nat.ltb_lt _ n) (b_lev _ _ _ _ _ B)) in C. cbn [negb] in C. rewrite !andb_true_r in C.
           pose proof (fin_act n d (gd_fin _ _ _ _ GDx) C) as EO. intros c Pc _. apply (NW c Pc). fold d. rewrite EO. apply (within_max n M B0 low0 PR). apply (gi_P _ _ _ _ _ _ G c Pc).
    + destruct T as [G T]. destruct (gi_lev _ _ _ _ _ _ G) as [LVN LV]. fold d in LVN, LV.
      assert (GG : GI s (move x (relaxBound n false s d) (if more n d then Idle else Done))).
      { apply gi_rel; auto; [destruct (more n d); auto| |].
        - split; auto. intros LN. destruct (LV LN) as [X|[X _]]; auto. destruct (more n d); [specialize (ML eq_refl); lia|]. right. split; auto. exact Logic.I.
        - intros G0. destruct (gi_g0 _ _ _ _ _ _ G G0) as [H1 [_ H3]]. fold d in H1, H3. split; auto. intros LN. destruct (H1 LN) as [X|[X _]]; auto. destruct (more n d); [specialize (ML eq_refl); lia|]. right. split; auto. exact Logic.I. }
      destruct (relax_same n M B0 low0 s d I) as [_ [R2 _]].
      destruct T as [[EX F]|T].
      * fold d in F. split; auto. left. split; auto. mv. rewrite R2. intros LN SH. specialize (F LN SH). unfold Final in F. rewrite E in F. fold d in F. rewrite F. exact Logic.I.
      * fold d in T. destruct (isLin (m_type d)) eqn:LN; [exfalso; destruct T as [_ [_ [_ T]]]; rewrite E in T; auto|]. destruct T as [[T1 T2] T3]. rewrite E in T3. fold d in T1, T2, T3. rewrite T3 in *.
        apply live_ti; [exact Logic.I|]. split; auto. right. right. mv. rewrite R2. split; auto. apply (alive_rel n M B0 low0 PR); auto.
  - (* a lower bound is committed *)
    destruct PC as [[[g E] NW]|E].
    2:{ exfalso. pose proof (gi_pc _ _ _ _ _ _ (proj1 T)) as R. unfold BbProofs3.ReadG in R. rewrite E in R. fold d in R. rewrite (act_max n M B0 low0 PR d R) in A. discriminate. }
    assert (LP : LivePc (t_pc x)) by (rewrite E; exact Logic.I). apply live_ti in T; auto. destruct T as [G D]. destruct (gi_lev _ _ _ _ _ _ G) as [LVN _]. fold d in LVN.
    set (d1 := fixSize (setLow d (put (m_low d) (m_lev d) L))).
    assert (D1 : m_type d1 = m_type d /\ m_lev d1 = m_lev d /\ m_opt d1 = m_opt d).
    { unfold d1. destruct (fix_same (setLow d (put (m_low d) (m_lev d) L))) as [X1 [_ [X2 X3]]]. rewrite X1, X2, X3. auto. } destruct D1 as [D1 [D2 D3]].
    assert (GD1 : GD d1) by (apply fix_gd, gd_low_put; auto).
    destruct D as [[EX F]|[[X _]|[_ [B [DBx OK]]]]]; [|exfalso; fold d in X; congruence|].
    + (* nothing is left on the path *)
      rewrite (F LN) in K. destruct K as [[_ [-> [-> EL]]]|[X _]]; [|discriminate]. sp; auto; [|discriminate].
      assert (GG : forall p, p = Idle \/ p = Done -> GI s (move x (relaxBound n false s d1) p)).
      { intros p P. apply gi_rel; auto; [|intros X; contradiction]. rewrite D1, D2, LN. split; auto. discriminate. }
      destruct (relax_same n M B0 low0 s d1 I) as [_ [R2 _]]. split; [destruct (more n d); auto|]. left. split; auto. mv. rewrite R2, D1. intros _ SH. rewrite (F LN) in SH. discriminate.
    + fold d in B, DBx, OK. pose proof (act_o23 n M B0 low0 PR s d A OK) as O. pose proof (opt_low n M B0 low0 PR s (t_path x) d (gi_P _ _ _ _ _ _ G) B O NW) as OL.
      set (b := at_ (m_opt d) (m_lev d) + 1) in *.
      assert (SL : forall c, t_path x c -> adm c -> eqp (m_lev d) c (m_low d) -> at_ (s_lower s) (m_lev d) <= at_ c (m_lev d)).
      { intros c Pc AC EQ. pose proof (shared_low _ _ _ _ PR s (t_path x) d c I (gi_P _ _ _ _ _ _ G) B Pc AC EQ). lia. }
      assert (LV : forall c, t_path x c -> adm c -> eqp (m_lev d) c (m_low d) -> L <= at_ c (m_lev d)).
      { intros c Pc AC EQ. pose proof (OL c Pc AC EQ). pose proof (SL c Pc AC EQ). destruct K as [[_ [_ [_ ->]]]|[_ [_ [-> _]]]]; lia. }
      assert (SH : SI s' /\ upper s' = upper s /\ s_gen s' = s_gen s /\ (forall p, buf s' p = buf s p) /\ (forall p, r = Some p -> RepOk p)).
      { destruct K as [[_ [-> [-> _]]]|[SH [-> [EL RR]]]]; [sp; auto; discriminate|]. pose proof (gi_sh _ _ _ _ _ _ G SH) as MP. destruct (si_up _ _ _ _ s I G0) as [U1 U2].
        assert (H1 : forall c, M c -> adm c -> ~ lt (m_lev d) c (upper s)).
        { intros c MC AC X. apply (low_nlt n B0 (t_path x) d c (b_lw _ _ _ _ _ B) (MP c MC) AC). apply (lt_mono (m_lev d)); [|lia]. apply (lt_eq_r _ c (upper s)); auto. apply (b_eq _ _ _ _ _ B). }
        assert (H2 : forall c, M c -> adm c -> eqp (m_lev d) c (upper s) -> b <= at_ c (m_lev d)).
        { intros c MC AC X. apply OL; auto. apply (eqp_trans _ c (upper s)); auto. apply (b_eq _ _ _ _ _ B). }
        assert (BM : b <= bMax). { pose proof (H2 _ U1 U2 (eqp_refl _ _)). pose proof (m_range _ _ _ _ PR _ (m_lev d) U1 KN). rewrite bMax_v. lia. }
        destruct (il_sh s (m_lev d) b) as [X1 [X2 X3]]. sp; auto; [apply (il_si n M B0 low0 s (m_lev d) b); auto|].
        intros p ->. destruct RR as [RR|RR]; [discriminate|]. injection RR as ->. split; auto. cbn [fst snd]. intros c [C1 [C2 C3]].
        apply LV; auto. apply (eqp_trans _ c (upper s)); [|apply (b_eq _ _ _ _ _ B)]. apply (cut_eq n M B0 low0 s (m_lev d) c); auto. }
      destruct SH as [S1 [S2 [S3 [S4 S5]]]]. sp; auto; [|fold d; congruence].
      assert (B1 : Base s' (t_path x) d1). { apply (base_ext n B0 s s'); auto. apply fix_base. apply (base_low n M B0 low0); auto. apply (gi_P _ _ _ _ _ _ G). }
      assert (G' : GI s' x) by (apply (ti_ext n M B0 low0 s s' x); auto; apply live_ti; auto; split; auto; right; right; sp; auto).
      assert (GG : forall p, p = Idle \/ p = Done -> GI s' (move x (relaxBound n false s' d1) p)).
      { intros p P. apply gi_rel; auto; [|rewrite S3; intros X; contradiction]. rewrite D1, D2, LN. split; auto. discriminate. }
      destruct (relax_same n M B0 low0 s' d1 S1) as [_ [R2 _]]. destruct (more n d) eqn:MO.
      * apply live_ti; [exact Logic.I|]. split; auto. right. right. mv. rewrite R2, D1. split; auto. apply (alive_rel n M B0 low0 PR); auto.
      * split; auto. left. split; [|intros _ _; exact Logic.I]. apply (exh_same s s'); auto. apply (fail_exh n M B0 low0 s (t_path x) d); auto. apply O.
Qed.

(** ** The whole system *)
(** [lo]: all solvers use constraints without steps (and then the initial bound need not be restricted to the first level). *)
Variable lo : bool.
Hypothesis HB : if lo then forall i, (i < n)%nat -> at_ low0 i <= at_ B0 i else OneComponent n B0.
Record INV (st : state) : Prop := {
  iv_s : SI (g_sh st);
  iv_t : forall t, TI (g_sh st) (g_th st t);
  iv_r : forall p, In p (g_rep st) -> RepOk p;
  iv_lo : lo = true -> (forall t, isLin (m_type (t_dm (g_th st t))) = true) /\ forall i, (i < n)%nat -> at_ (s_lower (g_sh st)) i = at_ low0 i
}.
Lemma inv_tail : forall st, INV st -> Tail (g_sh st).
Proof.
  intros st V j J. destruct lo eqn:EL.
  - rewrite (proj2 (iv_lo _ V EL)) by lia. apply HB. lia.
  - unfold at_ at 2; rewrite (HB j J). apply (si_max _ _ _ _ _ (iv_s _ V)). lia.
Qed.
(** One solver moves, possibly with other shared data. *)
Lemma inv_move : forall st t y s' r, INV st -> SI s' -> (forall j, j <> t -> TI s' (g_th st j)) -> TI s' y -> m_type (t_dm y) = m_type (t_dm (g_th st t)) -> (forall p, r = Some p -> RepOk p) ->
  (lo = true -> forall i, (i < n)%nat -> at_ (s_lower s') i = at_ low0 i) -> INV (setTh (addRep (setSh st s') r) t y).
Proof.
  intros st t y s' r V I OT TY ET RR LO. constructor; cbn [setTh addRep setSh g_sh g_th g_rep]; auto.
  - intros j. destruct (Nat.eqb_spec j t); auto.
  - intros p P. destruct r as [q|]; [destruct P as [<-|P]|]; [auto| |]; apply (iv_r _ V p P).
  - intros EL. split; auto. intros j. destruct (Nat.eqb_spec j t); [rewrite ET|]; apply (iv_lo _ V EL).
Qed.
Lemma inv_move1 : forall st t y, INV st -> TI (g_sh st) y -> m_type (t_dm y) = m_type (t_dm (g_th st t)) -> INV (setTh st t y).
Proof.
  intros st t y V TY ET. pose proof (inv_move st t y (g_sh st) None V (iv_s _ V) (fun j _ => iv_t _ V j) TY ET) as X. destruct st. apply X; [discriminate|]. intros EL. apply (iv_lo _ V EL).
Qed.
Lemma visit_type : forall a i U L d, match visit n a i U L d with Cont d' _ => m_type d' = m_type d | Ret _ d' => m_type d' = m_type d | Over => True end.
Proof.
  intros a i U L d. unfold visit. destruct (negb (Nat.eqb i a)).
  - destruct (isLin (m_type d)); [|destruct (Nat.ltb (m_lev d) i || (at_ (m_low d) i <? L))]; (destruct (Nat.ltb a i); [reflexivity|]; destruct (_ <=? U); [reflexivity|]); rewrite (proj1 (step_type n n _)); reflexivity.
  - destruct (isLin (m_type d)); [reflexivity|]. destruct (U <? _); [rewrite (proj1 (step_type n n _)); reflexivity|]. destruct (_ <? Z.max _ _); [reflexivity|]. destruct (_ <? U); [reflexivity|].
    destruct (U =? _); [rewrite (proj1 (step_type n _ _)); reflexivity|]. destruct (bMax <? _); auto.
Qed.
Lemma pass_type : forall k i a up low d, match passFrom n k i a up low d with Cont d' _ => m_type d' = m_type d | Ret _ d' => m_type d' = m_type d | Over => True end.
Proof.
  induction k as [|k IH]; intros i a up low d; cbn [passFrom]; auto. pose proof (visit_type a i (at_ up i) (at_ low i) d) as V. destruct (visit n a i (at_ up i) (at_ low i) d) as [d' a'|r d'|]; auto.
  pose proof (IH (S i) a' up low d') as X. destruct (passFrom n k (S i) a' up low d'); auto; congruence.
Qed.
Lemma ap_type : forall x a seq r, match r with Cont d' _ => m_type d' = m_type (t_dm x) | Ret _ d' => m_type d' = m_type (t_dm x) | Over => True end -> m_type (t_dm (afterPass n x a seq r)) = m_type (t_dm x).
Proof. intros x a seq r H. destruct r; cbn [afterPass move t_dm]; auto. Qed.
Lemma relax_type : forall f s d, m_type (relaxBound n f s d) = m_type d.
Proof. intros f s d. unfold relaxBound. destruct (f || negb (optimize s)); [rewrite (proj1 (step_type n 0 _))|]; destruct (active d); auto. Qed.
Lemma hu_type : forall sh s d m r s' d', SI s -> handleUnsat n sh s d = (m, r, s', d') -> m_type d' = m_type d.
Proof.
  intros sh s d m r s' d' I H. destruct (hu_eq _ _ _ _ _ _ _ I H) as [_ [[_ [_ [_ ->]]]|[_ [_ [_ [_ [L [-> _]]]]]]]]; rewrite relax_type; auto. apply (fix_same (setLow d (put (m_low d) (m_lev d) L))).
Qed.
Theorem inv_step : forall st st', INV st -> step n M false st st' -> (lo = true -> forall i, (i < n)%nat -> at_ (s_lower (g_sh st')) i = at_ low0 i) -> INV st'.
Proof.
  intros st st' V H LO. pose proof (iv_s _ V) as I. destruct H.
  - (* keep *) subst x. apply inv_move1; auto. assert (LP : LivePc (t_pc (g_th st t))) by (destruct H0 as [->|[g ->]]; exact Logic.I). apply (chk_gen0 _ I) in H2.
    apply (ti_live n M B0 low0); auto; [apply (iv_t _ V)|exact Logic.I|]. unfold BbProofs3.ReadG. mv. split; [lia|]. intros _. rewrite H2. cbn [Nat.eqb].
    destruct (live_g _ _ LP (proj1 (iv_t _ V t))) as [_ [_ A3]]. destruct (A3 H2) as [X|X]; auto. rewrite (act_max n M B0 low0 PR _ X) in H1. discriminate.
  - (* enter *) subst x a. apply inv_move1; auto. cbn [orb] in H3. apply andb_true_iff in H3. destruct H3 as [C1 C2]. rewrite C1. cbn [appLev0]. apply (chk_gen _ I) in C1. apply negb_true_iff in C2.
    apply (ti_start n M B0 low0); auto; [apply (iv_t _ V)|]. left. destruct H0 as [->|[g ->]]; exact Logic.I.
  - (* pass *) subst x a. assert (LP : LivePc (t_pc (g_th st t))) by (destruct H0 as [->|[g ->]]; exact Logic.I). apply inv_move1; auto; [|apply ap_type, pass_type].
    destruct (checkNext (g_sh st)) eqn:C; cbn [appLev0].
    + apply (chk_gen _ I) in C. destruct (isLin (m_type (t_dm (g_th st t)))) eqn:LN.
      * apply (ti_linpass n M B0 low0); auto. apply (iv_t _ V).
      * apply (ti_pass n M B0 low0); auto. apply (iv_t _ V).
    + apply (chk_gen0 _ I) in C. apply (ti_pass0 n M B0 low0); auto; [apply (iv_t _ V)|apply inv_tail; auto|]. intros LN. pose proof HB as HB'. destruct lo eqn:EL; auto. rewrite (proj1 (iv_lo _ V EL)) in LN. discriminate.
  - (* buf *) subst x. apply inv_move1; auto. apply (ti_buf n M B0 low0); auto. apply (iv_t _ V).
  - (* up *) subst x. apply inv_move1; auto. apply (ti_up n M B0 low0); auto. apply (iv_t _ V).
  - (* low *) subst x. apply inv_move1; auto; [apply (ti_low n M B0 low0); auto; apply (iv_t _ V)|].
    pose proof (visit_type k i U (at_ (s_lower (g_sh st)) i) (t_dm (g_th st t))) as X. destruct (visit n k i U (at_ (s_lower (g_sh st)) i) (t_dm (g_th st t))); cbn [afterVisit move t_dm]; auto.
  - (* end *) subst x. apply inv_move1; auto. apply (ti_end n M B0 low0 PR (g_sh st) (g_th st t) a seq p k); auto. apply (iv_t _ V).
  - (* again *) subst x. apply inv_move1; auto. pose proof (gi_pc _ _ _ _ _ _ (proj1 (iv_t _ V t))) as R. unfold BbProofs3.ReadG in R. rewrite H0 in R. destruct R as [A1 [A2 [A3 _]]]. subst a. cbn [appLev0].
    apply (ti_start n M B0 low0); auto; [apply (iv_t _ V)|lia|]. right. eauto.
  - (* ok *) subst x. apply inv_move1; auto. apply (ti_live n M B0 low0); auto; [apply (iv_t _ V)|rewrite H0; exact Logic.I|exact Logic.I|].
    pose proof (gi_pc _ _ _ _ _ _ (proj1 (iv_t _ V t))) as R. unfold BbProofs3.ReadG in *. rewrite H0 in R. mv. apply R.
  - (* reject *) subst x. apply inv_move1; auto; [|apply relax_type]. apply (chk_gen0 _ I) in H3. apply (ti_reject n M B0 low0 PR (g_sh st) (g_th st t) seq); auto. apply (iv_t _ V).
  - (* conflict *) subst x. apply inv_move1; auto; [|cbn [move t_dm]; rewrite relax_type; apply failed_type]. apply (chk_gen _ I) in H3. apply (ti_conflict n M B0 low0 PR (g_sh st) (g_th st t) seq); auto. apply (iv_t _ V).
  - (* retry *) subst x. apply inv_move1; auto; [|apply failed_type]. apply (chk_gen _ I) in H3. cbn [orb] in H4. apply negb_true_iff in H4. cbn [appLev0]. apply (ti_retry n M B0 low0 PR (g_sh st) (g_th st t) seq); auto. apply (iv_t _ V).
  - (* retryPass *) subst x. apply inv_move1; auto.
    + apply (chk_gen _ I) in H3. cbn [appLev0]. apply (ti_retryPass n M B0 low0 PR (g_sh st) (g_th st t) seq); auto. apply (iv_t _ V).
    + apply ap_type. pose proof (pass_type n 0 (appLev0 n true (failed (t_dm (g_th st t)))) (upper (g_sh st)) (s_lower (g_sh st)) (failed (t_dm (g_th st t)))) as X. rewrite (proj1 (failed_type _)) in X. exact X.
  - (* stop *) subst x. apply inv_move1; auto; [|apply relax_type]. apply (ti_stop' n M B0 low0 PR (g_sh st) (g_th st t) seq); auto. apply (iv_t _ V).
  - (* model *) subst x. pose proof (model_ok n M B0 low0 _ _ c I (proj1 (iv_t _ V t)) H0 H1 H2) as [M1 [M2 [M3 _]]]. destruct st as [s th rep]. cbn [g_sh g_th] in *.
    pose proof (inv_move (State s th rep) t (move (th t) (doubleStep (t_dm (th t))) Idle) (setOptimum s c) None V) as X. apply X; auto; try discriminate.
    + apply (so_si n M B0 low0); auto.
    + intros j _. apply (ti_so n M B0 low0); auto. apply (iv_t _ V j).
    + apply (ti_model n M B0 low0); auto. apply (iv_t _ V t).
    + cbn [move t_dm g_th]. unfold doubleStep. destruct (m_type (t_dm (th t))) eqn:TY; auto.
  - (* unsat *) subst x. destruct (ti_unsat (g_sh st) (g_th st t) m r s d I (iv_t _ V t) (or_introl (conj (ex_intro _ g H0) H1)) H2) as [U1 [U2 [U3 [U4 [U5 [U6 U7]]]]]].
    apply inv_move; auto; [|apply (hu_type _ _ _ _ _ _ _ I H2)]. intros j _. apply (ti_ext n M B0 low0 (g_sh st)); auto. apply (iv_t _ V).
  - (* fail *) subst x. destruct (ti_unsat (g_sh st) (g_th st t) m r s d I (iv_t _ V t) (or_intror H0) H1) as [U1 [U2 [U3 [U4 [U5 [U6 U7]]]]]].
    apply inv_move; auto; [|apply (hu_type _ _ _ _ _ _ _ I H1)]. intros j _. apply (ti_ext n M B0 low0 (g_sh st)); auto. apply (iv_t _ V).
  - (* empty *) subst x. apply inv_move1; auto. apply (ti_empty n M B0 low0); auto. apply (iv_t _ V).
  - (* path *) subst x. apply inv_move1; auto; [|apply relax_type]. apply (ti_path n M B0 low0); auto. apply (iv_t _ V).
  - (* other *) assert (X : adm c /\ ~ lt n (upper (g_sh st)) c).
    { destruct (Nat.eqb_spec (s_gen (g_sh st)) 0) as [G0|G0].
      - apply within_lt in H0. rewrite (si_0 _ _ _ _ _ I G0) in *. auto.
      - split; [|apply lt_nlt; auto]. intros X. apply (upper_adm _ _ _ _ _ I). apply (lt_trans n B0 c); auto. }
    destruct X as [X1 X2]. constructor; cbn [setSh g_sh g_th g_rep].
    + apply (so_si n M B0 low0); auto.
    + intros j. apply (ti_so n M B0 low0); auto. apply (iv_t _ V j).
    + apply (iv_r _ V).
    + intros EL. split; [apply (iv_lo _ V EL)|]. apply (LO EL).
  - (* other low *)
    assert (X1 : forall c, M c -> adm c -> ~ lt i c (upper (g_sh st))).
    { intros c MC AC X. apply (lt_eq_no i c (upper (g_sh st))); auto. intros j J. apply (H2 c MC); auto. apply within_lt. apply lt_nlt. apply (lt_mono i); auto. lia. }
    assert (X2 : forall c, M c -> adm c -> eqp i c (upper (g_sh st)) -> L <= at_ c i).
    { intros c MC AC E. destruct H1 as [G0|G0].
      - destruct (si_up _ _ _ _ _ I G0) as [U1 U2]. assert (LU : L <= at_ (upper (g_sh st)) i) by (apply H3; auto; apply within_lt; apply lt_irrefl).
        destruct (Z_le_gt_dec (at_ (upper (g_sh st)) i) (at_ c i)) as [X|X]; [lia|]. apply H3; auto. apply within_lt. apply lt_nlt. exists i. sp; auto. lia.
      - subst i. destruct (Nat.eq_dec (s_gen (g_sh st)) 0) as [G0|G0].
        + apply H3; auto. apply within_lt. rewrite (si_0 _ _ _ _ _ I G0). exact AC.
        + destruct (si_up _ _ _ _ _ I G0) as [U1 U2]. assert (LU : L <= at_ (upper (g_sh st)) 0) by (apply H3; auto; apply within_lt; apply lt_irrefl).
          destruct (Z_le_gt_dec (at_ (upper (g_sh st)) 0) (at_ c 0)) as [X|X]; [lia|]. apply H3; auto. apply within_lt. apply lt_nlt. exists 0%nat. sp; auto; lia. }
    destruct (il_sh (g_sh st) i L) as [S1 [S2 S3]]. constructor; cbn [setSh g_sh g_th g_rep].
    + apply (il_si n M B0 low0); auto.
    + intros j. apply (ti_ext n M B0 low0 (g_sh st)); auto. apply (iv_t _ V j).
    + apply (iv_r _ V).
    + intros EL. split; [apply (iv_lo _ V EL)|]. apply (LO EL).
Qed.
End Inv.
