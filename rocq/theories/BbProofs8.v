(** Invariants of branch and bound: reachable states *)
From Coq Require Import List Bool Arith ZArith Lia.
From Verif Require Import Base BbModel BbSpec BbProofs BbProofs2 BbProofs3 BbProofs4 BbProofs5 BbProofs6 BbProofs7.
Import ListNotations.
Open Scope Z_scope.

Section Inv.
Variables (n : nat) (M : cost -> Prop) (B0 low0 : cost).
Hypothesis PR : Problem n M B0 low0.
Notation adm := (adm n B0).
Notation better := (better n B0).
Notation Exh := (Exh n B0).
Notation SI := (SI n M B0 low0).
Notation Base := (Base n B0).
Notation Low := (Low n B0).
Notation OptOk := (OptOk n B0).
Notation O23 := (O23 n B0).
Notation Mid := (Mid n B0).
Notation Read := (Read n M B0).
Notation FinalR := (FinalR n).
Notation GD := (GD n M low0).
Notation GI := (GI n M B0 low0).
Notation TI := (TI n M B0 low0).
Notation Alive := (Alive n M B0).
Notation Dead := (Dead n B0).
Notation LinAlive := (LinAlive n M B0).
Notation ReadG := (ReadG n M B0).
Local Opaque bMax.
Ltac mv := cbn [move t_dm t_pc t_path t_share].
Ltac mvh H := cbn [move t_dm t_pc t_path t_share] in H.

Notation LinF := (LinF n M B0).
Notation LiveD := (LiveD n M B0).
Notation live_ti := (live_ti n M B0 low0).
Notation live_g := (live_g n M B0 low0).
Notation np := (n1 n M B0 low0 PR).

Variables (ty : nat -> stype) (P : nat -> cost -> Prop) (sh : nat -> bool).
Hypothesis HP : Paths M P sh.
Hypothesis HS : (exists t, ty t = Inc \/ ty t = Dec) -> SmallCosts n M low0.
Notation s0 := (init n B0 low0 ty P sh).
Lemma attach_type : forall t, m_type (attach n t) = match t with Hier => if Nat.eqb n 1 then Lin else Hier | _ => t end.
Proof. intros t. unfold attach. rewrite (proj1 (step_type n 0 _)). reflexivity. Qed.
Lemma attach_ti : forall s t, SI s -> (ty t = Inc \/ ty t = Dec -> SmallCosts n M low0) -> TI s (Th (attach n (ty t)) Idle (P t) (sh t)).
Proof.
  intros s t I S. pose proof np as N. set (d0 := DM (repeat bMax n) (repeat 0 n) (match ty t with Hier => if Nat.eqb n 1 then Lin else Hier | u => u end) 0 0).
  assert (E : attach n (ty t) = stepInit n 0 d0) by (unfold attach, d0; destruct (ty t); reflexivity). destruct (HP t) as [H1 H2].
  assert (TY : TyOk n M low0 (m_type d0)) by (unfold d0, TyOk; cbn [m_type]; destruct (ty t); auto; [destruct (Nat.eqb n 1); auto| |]; intros c i MC IN; apply S; auto).
  rewrite E. apply (ti_fresh n M B0 low0); auto.
  - constructor.
    + rewrite (proj2 (step_type n 0 d0)). apply repeat_length.
    + unfold stepInit. destruct (isLin (m_type (setSize d0 _))); cbn [setLev setSize m_low d0]; [apply repeat_length|]. destruct (Nat.eqb 0 n); cbn [setLow setLev setSize m_low d0]; rewrite ?put_len; apply repeat_length.
    + rewrite (proj1 (step_type n 0 d0)), step_size. apply step_sz.
    + rewrite (proj1 (step_type n 0 d0)). exact TY.
    + left. apply (proj2 (step_type n 0 d0)).
  - apply (proj2 (step_type n 0 d0)).
  - rewrite step_lev, (proj1 (step_type n 0 d0)). reflexivity.
  - rewrite step_size, (proj1 (step_type n 0 d0)). reflexivity.
  - rewrite (proj1 (step_type n 0 d0)). intros LN. unfold stepInit. cbn [setSize m_type]. rewrite LN. rewrite (proj2 (Nat.eqb_neq 0 n)) by lia. cbn [setLow setLev setSize m_low d0]. rewrite put_eq by (rewrite repeat_length; auto). lia.
Qed.
Lemma init_si : SI (g_sh s0).
Proof.
  constructor; cbn [init g_sh s_optGen s_enum s_gen s_lower]; auto; try lia; try contradiction.
  - apply (pr_low0 _ _ _ _ PR).
  - intros i IN. apply (pr_low0min _ _ _ _ PR i IN).
Qed.
(** The lower bounds never get smaller. *)
Lemma il_mono : forall s i L j, at_ (s_lower s) j <= at_ (s_lower (snd (incLower s i L))) j.
Proof.
  intros s i L j. unfold incLower. destruct (Z.leb_spec L (at_ (s_lower s) i)) as [X|X]; cbn [snd s_lower]; [lia|]. destruct (Nat.eq_dec i j) as [->|NJ]; [|rewrite put_neq by auto; lia].
  destruct (Nat.lt_ge_cases j (length (s_lower s))) as [Y|Y]; [rewrite put_eq by auto; lia|]. unfold at_. rewrite !nth_overflow; rewrite ?put_len; auto. lia.
Qed.
Lemma hu_mono : forall u s d j, at_ (s_lower s) j <= at_ (s_lower (snd (fst (handleUnsat n u s d)))) j.
Proof.
  intros u s d j. unfold handleUnsat, commitLower. destruct (optimize s); [|cbn; lia]. destruct (active d && checkNext s && negb (isLin (m_type d)) && Nat.ltb (m_lev d) n); [|cbn; lia]. destruct u; [|cbn; lia].
  pose proof (il_mono s (m_lev d) (at_ (m_opt d) (m_lev d) + 1) j) as X. destruct (incLower s (m_lev d) (at_ (m_opt d) (m_lev d) + 1)) as [sv s1]. destruct (sv =? _); exact X.
Qed.
Lemma step_mono : forall racy st st', step n M racy st st' -> forall j, at_ (s_lower (g_sh st)) j <= at_ (s_lower (g_sh st')) j.
Proof.
  intros racy st st' H j. destruct H; cbn [setTh setSh addRep g_sh]; try lia.
  - rewrite so_low. lia.
  - pose proof (hu_mono (t_share x) (g_sh st) (t_dm x) j) as X. rewrite H2 in X. exact X.
  - pose proof (hu_mono (t_share x) (g_sh st) (t_dm x) j) as X. rewrite H1 in X. exact X.
  - rewrite so_low. lia.
  - apply il_mono.
Qed.
Lemma reach_mono : forall racy st, reach n M racy s0 st -> forall j, at_ low0 j <= at_ (s_lower (g_sh st)) j.
Proof. intros racy st R. induction R as [|st st' R IH H]; intros j; [apply Z.le_refl|]. pose proof (IH j). pose proof (step_mono racy st st' H j). lia. Qed.
Lemma init_inv : forall lo, (lo = true -> forall t, ty t = Lin) -> INV n M B0 low0 lo s0.
Proof.
  intros lo LO. constructor.
  - exact init_si.
  - intros t. apply attach_ti; [exact init_si|]. intros X. apply HS. exists t. auto.
  - intros p [].
  - intros EL. split; auto. intros t. cbn [init g_th t_dm]. rewrite attach_type, (LO EL t). reflexivity.
Qed.
Theorem reach_inv : OneComponent n B0 -> forall st, reach n M false s0 st -> INV n M B0 low0 false st.
Proof. intros OC st R. induction R as [|st st' R IH H]; [apply init_inv; discriminate|]. apply (inv_step n M B0 low0 PR false OC st); auto. discriminate. Qed.
Theorem reach_inv_lin : (forall t, ty t = Lin) -> (forall i, (i < n)%nat -> at_ low0 i <= at_ B0 i) -> forall st, reach n M false s0 st ->
  (forall i, (i < n)%nat -> at_ (s_lower (g_sh st)) i = at_ low0 i) -> INV n M B0 low0 true st.
Proof.
  intros TY LB st R. induction R as [|st st' R IH H]; intros LE; [apply init_inv; auto|].
  assert (LE' : forall i, (i < n)%nat -> at_ (s_lower (g_sh st)) i = at_ low0 i).
  { intros i IN. pose proof (reach_mono false st R i). pose proof (step_mono false st st' H i). rewrite (LE i IN) in H1. lia. }
  apply (inv_step n M B0 low0 PR true LB st); auto.
Qed.
(** ** What follows for the outside *)
Lemma lex_adm : forall c, adm c <-> lexLe n c B0. Proof. intros c. unfold BbProofs2.adm, lexLe. rewrite lt_lex. reflexivity. Qed.
Lemma inv_done : forall lo st t, INV n M B0 low0 lo st -> t_pc (g_th st t) = Done -> Exh (g_sh st) (t_path (g_th st t)).
Proof.
  intros lo st t V E. destruct (iv_t _ _ _ _ _ _ V t) as [G [[EX _]|T]]; auto. exfalso. destruct (isLin (m_type (t_dm (g_th st t)))).
  - destruct T as [_ [_ [_ T]]]. rewrite E in T. exact T.
  - destruct T as [_ T]. rewrite E in T. exact T.
Qed.
Lemma inv_exh : forall st (Q : cost -> Prop), Exh (g_sh st) Q -> (s_gen (g_sh st) = 0%nat -> forall c, Q c -> ~ lexLe n c B0) /\ (s_gen (g_sh st) <> 0%nat -> forall c, Q c -> ~ lexLt n c (upper (g_sh st))).
Proof.
  intros st Q EX. split; intros G c Qc H; apply (EX c Qc); unfold BbProofs2.better.
  - rewrite G. cbn [Nat.eqb]. apply lex_adm; auto.
  - rewrite (proj2 (Nat.eqb_neq _ _) G). apply lt_lex; auto.
Qed.
Lemma inv_opt : forall lo st, INV n M B0 low0 lo st -> Exh (g_sh st) M -> (s_gen (g_sh st) = 0%nat -> forall c, M c -> ~ lexLe n c B0) /\ (s_gen (g_sh st) <> 0%nat -> Optimum n M B0 (upper (g_sh st))).
Proof.
  intros lo st V EX. destruct (inv_exh st M EX) as [H1 H2]. split; auto. intros G. destruct (si_up _ _ _ _ _ (iv_s _ _ _ _ _ _ V) G) as [U1 U2]. split; [exact U1|]. split; [apply lex_adm; exact U2|]. intros c MC L. apply (H2 G c MC L).
Qed.
Lemma opt_c : forall c, Optimum n M B0 c -> OptC n M B0 c.
Proof. intros c [H1 [H2 H3]]. split; [exact H1|]. split; [apply lex_adm; exact H2|]. intros c' MC L. apply (H3 c' MC). apply lt_lex; auto. Qed.
Lemma inv_low : forall lo st, INV n M B0 low0 lo st -> forall c, Optimum n M B0 c -> forall i, (i < n)%nat -> at_ (s_lower (g_sh st)) i <= at_ c i.
Proof.
  intros lo st V c O i IN. pose proof (iv_s _ _ _ _ _ _ V) as I. destruct (opt_c c O) as [C1 [C2 C3]]. destruct (si_low _ _ _ _ _ I i IN) as [->|[H1 H2]]; [apply (m_range _ _ _ _ PR); auto|]. apply H2; auto.
  apply (cut_eq n M B0 low0 (g_sh st) i c); auto; [lia|]. destruct (Nat.eq_dec (s_gen (g_sh st)) 0) as [G|G]; [rewrite (si_0 _ _ _ _ _ I G); auto|]. apply C3. apply (si_up _ _ _ _ _ I G).
Qed.
(** The upper bound only gets better. *)
Lemma inv_better : forall lo st st', INV n M B0 low0 lo st -> step n M false st st' ->
  (s_gen (g_sh st') = s_gen (g_sh st) /\ upper (g_sh st') = upper (g_sh st)) \/
  (s_gen (g_sh st') = S (s_gen (g_sh st)) /\ M (upper (g_sh st')) /\ lexLe n (upper (g_sh st')) B0 /\ (s_gen (g_sh st) <> 0%nat -> lexLt n (upper (g_sh st')) (upper (g_sh st)))).
Proof.
  intros lo st st' V H. pose proof (iv_s _ _ _ _ _ _ V) as I. destruct H; try (left; split; reflexivity).
  - right. subst x. cbn [setTh setSh g_sh]. rewrite (so_gen _ _ _ _ _ c I), (so_up _ _ _ _ _ c I). destruct (model_ok n M B0 low0 _ _ c I (proj1 (iv_t _ _ _ _ _ _ V t)) H0 H1 H2) as [M1 [M2 [_ M3]]]. sp; auto.
  - left. cbn [setTh setSh addRep g_sh]. subst x. destruct (ti_unsat n M B0 low0 PR (g_sh st) (g_th st t) m r s d I (iv_t _ _ _ _ _ _ V t) (or_introl (conj (ex_intro _ g H0) H1)) H2) as [_ [U2 [U3 _]]]. auto.
  - left. cbn [setTh setSh addRep g_sh]. subst x. destruct (ti_unsat n M B0 low0 PR (g_sh st) (g_th st t) m r s d I (iv_t _ _ _ _ _ _ V t) (or_intror H0) H1) as [_ [U2 [U3 _]]]. auto.
  - right. cbn [setTh setSh g_sh]. rewrite (so_gen _ _ _ _ _ c I), (so_up _ _ _ _ _ c I). destruct (Nat.eqb_spec (s_gen (g_sh st)) 0) as [G|G].
    + apply within_lt in H0. rewrite (si_0 _ _ _ _ _ I G) in H0. sp; auto. intros X; contradiction.
    + sp; auto. apply lex_adm. intros X. apply (upper_adm _ _ _ _ _ I). apply (lt_trans n B0 c); auto.
  - left. cbn [setSh g_sh]. destruct (il_sh (g_sh st) i L) as [U [G _]]. auto.
Qed.
Lemma lexLt_trans : forall a b c, lexLt n a b -> lexLt n b c -> lexLt n a c. Proof. intros a b c. rewrite !lt_lex. apply lt_trans. Qed.
(** What was once exhausted stays exhausted. *)
Lemma exh_later : forall lo st st' (Q : cost -> Prop), INV n M B0 low0 lo st -> step n M false st st' -> Exh (g_sh st) Q -> Exh (g_sh st') Q.
Proof.
  intros lo st st' Q V H EX c Qc BT. destruct (inv_better lo st st' V H) as [[E1 E2]|[E1 [_ [E3 E4]]]].
  - apply (EX c Qc). unfold BbProofs2.better in *. rewrite E1, E2 in BT. exact BT.
  - unfold BbProofs2.better in BT. rewrite E1 in BT. cbn [Nat.eqb] in BT. apply (EX c Qc). unfold BbProofs2.better. destruct (Nat.eqb_spec (s_gen (g_sh st)) 0) as [G|G].
    + intros X. apply E3. apply lt_lex. apply (lt_trans n B0 c); auto.
    + apply (lt_trans n c (upper (g_sh st'))); [exact BT|]. apply lt_lex. exact (E4 G).
Qed.
End Inv.
