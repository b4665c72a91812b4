(** Invariants of branch and bound: the steps of one solver *)
From Coq Require Import List Bool Arith ZArith Lia.
From Verif Require Import Base BbModel BbSpec BbProofs BbProofs2 BbProofs3.
Import ListNotations.
Open Scope Z_scope.

Section Inv.
Variables (n : nat) (M : cost -> Prop) (B0 low0 : cost).
Hypothesis PR : Problem n M B0 low0.
Notation adm := (adm n B0).
Notation better := (better n B0).
Notation Exh := (Exh n B0).
Notation SI := (SI n M B0 low0).
Notation Base := (Base n B0).
Notation Low := (Low n B0).
Notation OptOk := (OptOk n B0).
Notation O23 := (O23 n B0).
Notation Mid := (Mid n B0).
Notation Read := (Read n M B0).
Notation FinalR := (FinalR n).
Notation GD := (GD n M low0).
Notation GI := (GI n M B0 low0).
Notation TI := (TI n M B0 low0).
Notation Alive := (Alive n M B0).
Notation Dead := (Dead n B0).
Notation LinAlive := (LinAlive n M B0).
Notation ReadG := (ReadG n M B0).
Local Opaque bMax.
Ltac mv := cbn [move t_dm t_pc t_path t_share].
Ltac mvh H := cbn [move t_dm t_pc t_path t_share] in H.
Lemma n1 : (0 < n)%nat. Proof. exact (pr_n _ _ _ _ PR). Qed.

Definition LivePc (p : pc) : Prop := match p with Idle | Search _ | Returned true _ => True | _ => False end.
Definition LinF (s : shared) (d : dm) : Prop := m_lev d = (n - 1)%nat /\ m_size d = 1 /\ forall c, M c -> better s c -> ~ lt n (m_opt d) c.
Definition LiveD (s : shared) (x : thread) : Prop :=
  (Exh s (t_path x) /\ (isLin (m_type (t_dm x)) = false -> t_share x = false)) \/
  (isLin (m_type (t_dm x)) = true /\ LinF s (t_dm x)) \/
  (isLin (m_type (t_dm x)) = false /\ Base s (t_path x) (t_dm x) /\ DB s (t_dm x) /\ OptOk s (t_dm x)).
Lemma live_ti : forall s x, LivePc (t_pc x) -> (TI s x <-> GI s x /\ LiveD s x).
Proof.
  intros s x LP. unfold BbProofs3.TI, LiveD. split; intros [G T]; split; auto.
  - destruct T as [[E F]|T].
    + left. split; auto. intros LN. destruct (t_share x) eqn:SH; auto. exfalso. specialize (F LN eq_refl). unfold Final in F. destruct (t_pc x); auto. destruct r; auto.
    + destruct (isLin (m_type (t_dm x))) eqn:LN.
      * right. left. split; auto. destruct T as [T1 [T2 [T3 T4]]]. repeat split; auto.
      * right. right. destruct T as [[T1 T2] T3]. sp; auto. destruct (t_pc x); try contradiction; auto. destruct r; try contradiction; auto.
  - destruct T as [[E F]|[[LN [T1 [T2 T3]]]|[LN [T1 [T2 T3]]]]].
    + left. split; auto. intros LN SH. rewrite (F LN) in SH. discriminate.
    + right. rewrite LN. unfold BbProofs3.LinAlive. sp; auto.
    + right. rewrite LN. split; [split; auto|]. destruct (t_pc x); try contradiction; auto. destruct r; try contradiction; auto.
Qed.
Lemma live_g : forall s x, LivePc (t_pc x) -> GI s x -> (isLin (m_type (t_dm x)) = true -> m_lev (t_dm x) = (n - 1)%nat) /\
  (s_gen s = 0%nat -> isLin (m_type (t_dm x)) = false -> m_lev (t_dm x) = 0%nat) /\ (s_gen s = 0%nat -> m_opt (t_dm x) = B0 \/ m_opt (t_dm x) = repeat bMax n).
Proof.
  intros s x LP G. assert (NF : ~ FinPc (t_pc x)) by (intros F; unfold FinPc, LivePc in *; destruct (t_pc x); auto; destruct r; auto).
  sp.
  - intros LN. destruct (proj2 (gi_lev _ _ _ _ _ _ G) LN) as [H|[_ H]]; auto; contradiction.
  - intros G0 LN. destruct (proj1 (gi_g0 _ _ _ _ _ _ G G0) LN) as [H|[_ H]]; auto; contradiction.
  - intros G0. destruct (proj1 (proj2 (gi_g0 _ _ _ _ _ _ G G0))) as [H|[H|H]]; auto; contradiction.
Qed.
(** A solver that is not inside of updateBounds moves on with the same constraint. *)
Lemma ti_live : forall s x p, TI s x -> LivePc (t_pc x) -> LivePc p -> ReadG s (move x (t_dm x) p) -> TI s (move x (t_dm x) p).
Proof.
  intros s x p T L1 L2 R. apply live_ti in T; auto. destruct T as [G D]. apply live_ti; [exact L2|]. split; [|exact D].
  destruct (live_g s x L1 G) as [A1 [A2 A3]]. destruct G. constructor; mv; auto.
  - destruct gi_lev as [H1 H2]. split; auto.
  - intros G0. destruct (gi_g0 G0) as [H1 [H2 H3]]. sp; auto. destruct (A3 G0); auto.
Qed.
Lemma chk_gen : forall s, SI s -> (checkNext s = true <-> s_gen s <> 0%nat).
Proof. intros s I. rewrite (next_chk _ _ _ _ s I). destruct (Nat.eqb_spec (s_gen s) 0); cbn [negb]; split; congruence. Qed.
Lemma chk_gen0 : forall s, SI s -> (checkNext s = false <-> s_gen s = 0%nat).
Proof. intros s I. rewrite (next_chk _ _ _ _ s I). destruct (Nat.eqb_spec (s_gen s) 0); cbn [negb]; split; congruence. Qed.

(** ** updateBounds, step by step *)
(** Reading starts (again). *)
Lemma ti_start : forall s x, SI s -> TI s x -> s_gen s <> 0%nat -> isLin (m_type (t_dm x)) = false ->
  (LivePc (t_pc x) \/ exists seq p k, t_pc x = Reading true seq (Some p) n k None) -> TI s (move x (t_dm x) (Reading true (s_gen s) None 0 (m_lev (t_dm x)) None)).
Proof.
  intros s x I [G T] G0 LN LP. split.
  - destruct G. constructor; mv; auto.
    + destruct gi_lev as [H1 H2]. split; auto. rewrite LN. discriminate.
    + intros X. contradiction.
    + unfold BbProofs3.ReadG. mv. sp; auto; try lia; try discriminate; try congruence. intros _. split; [|discriminate]. left. split; [|lia]. intros j J. lia.
  - destruct T as [[E F]|T].
    + left. split; auto. mv. intros _ SH. specialize (F LN SH). unfold Final in *. mv. destruct LP as [LP|[seq [p [k LP]]]].
      * exfalso. destruct (t_pc x); auto. destruct r; auto.
      * rewrite LP in F. exact F.
    + right. mv. rewrite LN in *. destruct T as [[T1 T2] T3]. split; [split; auto|]. mv.
      assert (MD : Mid s (t_dm x) 0).
      { destruct LP as [LP|[seq [p [k LP]]]].
        - assert (O : OptOk s (t_dm x)) by (destruct (t_pc x); try contradiction; auto; destruct r; try contradiction; auto).
          destruct O as [O|O]; [right|left; auto]. split; [lia|]. split; [intros j J; lia|]. intros j J. rewrite O. apply at_rep. lia.
        - rewrite LP in T3. destruct T3 as [[O|[X _]] _]; [left; auto|]. pose proof (b_lev _ _ _ _ _ T1). lia. }
      sp; auto; intros; discriminate.
Qed.
Lemma ti_buf : forall s x a seq i k, SI s -> TI s x -> t_pc x = Reading a seq None i k None -> TI s (move x (t_dm x) (Reading a seq (Some (Nat.odd (s_gen s))) i k None)).
Proof.
  intros s x a seq i k I [G T] E. split.
  - destruct G. unfold BbProofs3.ReadG in gi_pc. rewrite E in gi_pc. destruct gi_pc as [A1 [A2 [A3 [A4 [A5 [A6 [A7 [A8 [A9 [A10 A11]]]]]]]]]]. constructor; mv; auto.
    + destruct gi_lev as [H1 H2]. split; auto. rewrite A2. discriminate.
    + intros X. lia.
    + unfold BbProofs3.ReadG. mv. sp; auto; try lia; try discriminate. intros p P. injection P as <-. exists (s_gen s). split; auto. lia.
  - destruct T as [[H F]|T].
    + left. split; auto. mv. intros LN SH. specialize (F LN SH). unfold Final in *. rewrite E in F. exact F.
    + right. mv. destruct (isLin (m_type (t_dm x))); [exfalso; destruct T as [_ [_ [_ T]]]; rewrite E in T; auto|].
      destruct T as [[T1 T2] T3]. rewrite E in T3. destruct T3 as [T3 [T4 T5]]. split; [split; auto|]. mv. sp; auto; [|discriminate].
      intros p P. injection P as <-. apply (b_eq _ _ _ _ _ T1).
Qed.
Lemma ti_up : forall s x a seq p i k, SI s -> TI s x -> t_pc x = Reading a seq (Some p) i k None -> (i < n)%nat ->
  TI s (move x (t_dm x) (Reading a seq (Some p) i k (Some (at_ (buf s p) i)))).
Proof.
  intros s x a seq p i k I [G T] E IN. pose proof (gi_pc _ _ _ _ _ _ G) as RG. unfold BbProofs3.ReadG in RG. rewrite E in RG.
  destruct RG as [A1 [A2 [A3 [A4 [A5 [A6 [A7 [A8 [A9 [A10 A11]]]]]]]]]].
  destruct (buf_M _ _ _ _ s seq p I ltac:(lia) (A7 p eq_refl)) as [BM [BA BL]]. split.
  - destruct G. constructor; mv; auto.
    + destruct gi_lev as [H1 H2]. split; auto. rewrite A2. discriminate.
    + intros X. lia.
    + unfold BbProofs3.ReadG. mv. sp; auto; try lia; try discriminate.
      * intros U X. injection X as <-. exists (buf s p). auto.
      * intros EQ. destruct (A11 EQ) as [B1 _]. split; auto. intros U X. injection X as <-. destruct (A7 p eq_refl) as [g [G1 ->]]. replace g with (s_gen s) by lia. reflexivity.
  - destruct T as [[H F]|T].
    + left. split; auto. mv. intros LN SH. specialize (F LN SH). unfold Final in *. rewrite E in F. exact F.
    + right. mv. rewrite A2 in *. destruct T as [[T1 T2] T3]. rewrite E in T3. destruct T3 as [T3 [T4 T5]]. split; [split; auto|]. mv. sp; auto.
      intros U X. injection X as <-. exists (buf s p). sp; auto; [|intros q Q; injection Q as <-; apply lt_irrefl]. constructor; auto.
Qed.
(** If nothing is left, the iterations do not change that. *)
Lemma visit_final : forall d i U L, isLin (m_type d) = false -> m_lev d = n -> (i < n)%nat -> FinalR (visit n (m_lev d) i U L d).
Proof.
  intros d i U L LN EL IN. unfold visit. rewrite LN, EL. destruct (Nat.eqb_spec i n) as [X|_]; [lia|]. cbn [negb].
  assert (F : forall d' L', isLin (m_type d') = false -> m_lev d' = n -> FinalR (if Nat.ltb n i then Cont (setOpt d' (put (m_opt d') i bMax)) n else if L' <=? U then Cont (setOpt d' (put (m_opt d') i U)) n else Ret false (stepInit n n d'))).
  { intros d' L' H1 H2. destruct (Nat.ltb_spec n i); [lia|]. destruct (L' <=? U); unfold BbProofs2.FinalR; cbn [setOpt m_lev m_type]; auto. unfold more. rewrite step_lev, H1. rewrite Nat.ltb_irrefl. auto. }
  destruct (Nat.ltb n i || (at_ (m_low d) i <? L)); apply F; auto.
Qed.
Lemma ti_low : forall s x a seq p i k U, SI s -> TI s x -> t_pc x = Reading a seq (Some p) i k (Some U) -> TI s (afterVisit x a seq p i (visit n k i U (at_ (s_lower s) i) (t_dm x))).
Proof.
  intros s x a seq p i k U I [G T] E. pose proof (gi_pc _ _ _ _ _ _ G) as RG. unfold BbProofs3.ReadG in RG. rewrite E in RG.
  destruct RG as [A1 [A2 [A3 [A4 [A5 [A6 [A7 [A8 [A9 [A10 A11]]]]]]]]]]. destruct (A10 U eq_refl) as [v0 [MV0 EU0]]. assert (IN : (i < n)%nat) by (apply A9; discriminate).
  pose proof (gi_d _ _ _ _ _ _ G) as GDx. pose proof (si_low0 _ _ _ _ s I i IN) as LL. destruct (gi_lev _ _ _ _ _ _ G) as [LVN _]. subst k.
  pose proof (visit_gd n M B0 low0 PR (t_dm x) (m_lev (t_dm x)) i v0 (at_ (s_lower s) i) GDx A6 MV0 IN LL ltac:(lia)) as V1. rewrite <- EU0 in V1.
  pose proof (visit_g n M low0 s (t_dm x) i v0 (at_ (s_lower s) i) (upper s) GDx MV0 IN LL LVN A2) as V2. rewrite <- EU0 in V2.
  assert (T' : (Exh s (t_path x) /\ (t_share x = true -> FinalR (visit n (m_lev (t_dm x)) i U (at_ (s_lower s) i) (t_dm x)))) \/
    (exists v, VisitOk n B0 s (t_path x) v i (visit n (m_lev (t_dm x)) i U (at_ (s_lower s) i) (t_dm x)) /\ DB s (t_dm x) /\ Read s (t_dm x) v /\ ~ lt n v (buf s p))).
  { destruct T as [[H F]|T].
    - left. split; auto. intros SH. specialize (F A2 SH). unfold Final in F. rewrite E in F. apply visit_final; auto.
    - rewrite A2 in T. destruct T as [[T1 T2] T3]. rewrite E in T3. destruct T3 as [T3 [T4 T5]]. destruct (T5 U eq_refl) as [v [R [EU NB]]]. rewrite EU.
      destruct (visit_ok n M B0 low0 PR s (t_path x) (t_dm x) v i I (gi_P _ _ _ _ _ _ G) ltac:(lia) T1 R T3 IN) as [[H F]|V].
      + left. split; auto. intros SH. apply F. apply (gi_sh _ _ _ _ _ _ G SH).
      + right. exists v. sp; auto. }
  clear T. destruct (visit n (m_lev (t_dm x)) i U (at_ (s_lower s) i) (t_dm x)) as [d' a'|r d'|] eqn:VE; cbn [afterVisit]; [| |destruct V1].
  - destruct V1 as [V1a V1b]. destruct V2 as [V2a [V2b [V2c [V2d V2e]]]]. split.
    + destruct G. constructor; mv; auto.
      * split; auto. rewrite V2a, A2. discriminate.
      * intros X. lia.
      * unfold BbProofs3.ReadG. mv. rewrite V2a. sp; auto; try lia; try discriminate; try congruence. intros EQ. destruct (A11 EQ) as [B1 B2]. split; [|discriminate]. apply V2d. split; auto.
    + destruct T' as [[H F]|[v [V [D [R NB]]]]].
      * left. split; auto. mv. intros LN SH. unfold Final. mv. apply (F SH).
      * right. mv. rewrite V2a, A2. destruct V as [W1 [W2 [W3 W4]]]. split; [split; auto|]. mv. sp; auto; [|discriminate].
        intros q Q. injection Q as <-.
        (* the buffer lies between the upper bound and what was read *)
        destruct (buf_M _ _ _ _ s seq p I ltac:(lia) (A7 p eq_refl)) as [BM [BA BL]]. pose proof (b_lev _ _ _ _ _ W2) as LT. pose proof (b_eq _ _ _ _ _ W2) as UE.
        destruct (cmp3 (m_lev d') (buf s p) (upper s)) as [C|[C|C]]; [exfalso; apply BL; apply (lt_mono (m_lev d')); auto; lia|apply (eqp_trans _ _ (upper s)); auto|].
        exfalso. apply NB. apply (lt_mono (m_lev d')); [|lia]. apply (lt_eq_l _ (upper s)); auto. apply (eqp_trans _ _ (m_low d')); auto. apply eqp_sym; auto.
  - assert (TY : m_type d' = m_type (t_dm x)) by (destruct r; apply V2). assert (LV : (m_lev d' <= n)%nat) by (destruct r; apply V2). assert (G' : GD d') by (destruct r; apply V1). split.
    + destruct G. constructor; mv; auto.
      * split; auto. rewrite TY, A2. discriminate.
      * intros X. lia.
      * unfold BbProofs3.ReadG. mv. destruct r; auto. destruct V1 as [_ V1]. destruct V2 as [_ [_ [V2 _]]]. sp; auto; [lia|]. intros EQ. rewrite (proj2 (Nat.eqb_neq seq 0)) by lia. destruct (A11 EQ) as [B1 B2]. apply V2. split; auto.
    + destruct T' as [[H F]|[v [V [D [R NB]]]]].
      * left. split; auto.
      * right. mv. rewrite TY, A2. destruct r.
        -- destruct V as [W1 W2]. split; [split; auto; apply V2; auto|]. mv. auto.
        -- destruct V as [W1 [W2 W3]]. split; [split; auto; apply V2; auto|]. mv. split; auto.
Qed.
Lemma ti_end : forall s x a seq p k, SI s -> TI s x -> t_pc x = Reading a seq (Some p) n k None -> s_gen s = seq -> TI s (move x (t_dm x) (Returned (passEnd n a (t_dm x)) seq)).
Proof.
  intros s x a seq p k I [G T] E EQ. pose proof (gi_pc _ _ _ _ _ _ G) as RG. unfold BbProofs3.ReadG in RG. rewrite E in RG.
  destruct RG as [A1 [A2 [A3 [A4 [A5 [A6 [A7 [A8 [A9 [A10 A11]]]]]]]]]]. subst a. pose proof n1 as N1. destruct (gi_lev _ _ _ _ _ _ G) as [LVN _]. pose proof (gi_d _ _ _ _ _ _ G) as GDx.
  unfold passEnd. cbn [negb orb]. rewrite orb_false_r. destruct (A11 (eq_sym EQ)) as [PI _]. split.
  - destruct G. constructor; mv; auto.
    + split; auto. rewrite A2. discriminate.
    + intros X. lia.
    + unfold BbProofs3.ReadG. mv. destruct (Nat.eqb_spec (m_lev (t_dm x)) n) as [X|X]; cbn [negb]; auto. sp; [right; apply A6; auto|lia|]. intros _.
      rewrite (proj2 (Nat.eqb_neq seq 0)) by lia. destruct PI as [[_ P]|P]; auto. lia.
  - destruct T as [[H F]|T].
    + left. split; auto. mv. intros LN SH. specialize (F LN SH). unfold Final in *. rewrite E in F. mv. rewrite F, Nat.eqb_refl. cbn [negb]. unfold more. rewrite F, Nat.ltb_irrefl. auto.
    + right. mv. rewrite A2 in *. destruct T as [[T1 T2] T3]. rewrite E in T3. destruct T3 as [T3 [T4 T5]]. split; [split; auto|]. mv.
      pose proof (b_lev _ _ _ _ _ T1) as LT. rewrite (proj2 (Nat.eqb_neq _ _)) by lia. cbn [negb]. destruct T3 as [O|[X _]]; [right; auto|lia].
Qed.
(** A whole pass is the same as these steps one after the other. *)
Lemma ti_pass_from : forall s k i x seq, SI s -> (i + k = n)%nat -> TI s x -> t_pc x = Reading true seq (Some (Nat.odd (s_gen s))) i (m_lev (t_dm x)) None -> seq = s_gen s ->
  forall y, t_path y = t_path x -> t_share y = t_share x -> TI s (afterPass n y true seq (passFrom n k i (m_lev (t_dm x)) (upper s) (s_lower s) (t_dm x))).
Proof.
  intros s k. induction k as [|k IH]; intros i x seq I IK T E EQ y Y1 Y2; cbn [passFrom].
  - assert (i = n) by lia. subst i. cbn [afterPass]. pose proof (ti_end s x true seq _ _ I T E (eq_sym EQ)) as R. unfold move in *. rewrite Y1, Y2. exact R.
  - pose proof (ti_up s x true seq _ i _ I T E ltac:(lia)) as T1. change (buf s (Nat.odd (s_gen s))) with (upper s) in T1.
    pose proof (ti_low s _ true seq _ i _ _ I T1 eq_refl) as T2. cbn [move t_dm] in T2.
    destruct (visit n (m_lev (t_dm x)) i (at_ (upper s) i) (at_ (s_lower s) i) (t_dm x)) as [d' a'|r d'|] eqn:VE; cbn [afterVisit] in T2.
    + pose proof (gi_pc _ _ _ _ _ _ (proj1 T2)) as RG. unfold BbProofs3.ReadG in RG. cbn [move t_pc t_dm] in RG. destruct RG as [_ [_ [_ [_ [-> _]]]]].
      apply (IH (S i) _ seq I ltac:(lia) T2 eq_refl EQ y); auto.
    + cbn [afterPass]. unfold move in *. cbn [t_path t_share] in T2. rewrite Y1, Y2. exact T2.
    + exfalso. exact (gi_pc _ _ _ _ _ _ (proj1 T2)).
Qed.
Lemma ti_pass : forall s x, SI s -> TI s x -> s_gen s <> 0%nat -> isLin (m_type (t_dm x)) = false -> (LivePc (t_pc x) \/ exists seq p k, t_pc x = Reading true seq (Some p) n k None) ->
  forall y, t_path y = t_path x -> t_share y = t_share x -> TI s (afterPass n y true (s_gen s) (passFrom n n 0 (m_lev (t_dm x)) (upper s) (s_lower s) (t_dm x))).
Proof.
  intros s x I T G0 LN LP y Y1 Y2. pose proof (ti_start s x I T G0 LN LP) as T1. pose proof (ti_buf s _ _ _ _ _ I T1 eq_refl) as T2. cbn [move t_dm] in T2.
  apply (ti_pass_from s n 0 _ (s_gen s) I eq_refl T2 eq_refl eq_refl y); auto.
Qed.
End Inv.
