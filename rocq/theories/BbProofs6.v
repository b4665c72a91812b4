(** Invariants of branch and bound: failures, models and new paths *)
From Coq Require Import List Bool Arith ZArith Lia.
From Verif Require Import Base BbModel BbSpec BbProofs BbProofs2 BbProofs3 BbProofs4 BbProofs5.
Import ListNotations.
Open Scope Z_scope.

Section Inv.
Variables (n : nat) (M : cost -> Prop) (B0 low0 : cost).
Hypothesis PR : Problem n M B0 low0.
Notation adm := (adm n B0).
Notation better := (better n B0).
Notation Exh := (Exh n B0).
Notation SI := (SI n M B0 low0).
Notation Base := (Base n B0).
Notation Low := (Low n B0).
Notation OptOk := (OptOk n B0).
Notation O23 := (O23 n B0).
Notation Mid := (Mid n B0).
Notation Read := (Read n M B0).
Notation FinalR := (FinalR n).
Notation GD := (GD n M low0).
Notation GI := (GI n M B0 low0).
Notation TI := (TI n M B0 low0).
Notation Alive := (Alive n M B0).
Notation Dead := (Dead n B0).
Notation LinAlive := (LinAlive n M B0).
Notation ReadG := (ReadG n M B0).
Local Opaque bMax.
Ltac mv := cbn [move t_dm t_pc t_path t_share].
Ltac mvh H := cbn [move t_dm t_pc t_path t_share] in H.

Notation LinF := (LinF n M B0).
Notation LiveD := (LiveD n M B0).
Notation live_ti := (live_ti n M B0 low0).
Notation live_g := (live_g n M B0 low0).
Notation np := (n1 n M B0 low0 PR).

Notation chk_gen := (chk_gen n M B0 low0).
Notation chk_gen0 := (chk_gen0 n M B0 low0).
Notation Tail := (Tail n B0).

(** ** Relaxing the bound *)
Lemma gi_rel : forall s x d1 p, SI s -> GI s x -> GD d1 -> (p = Stopped \/ p = Idle \/ p = Done) ->
  ((m_lev d1 <= n)%nat /\ (isLin (m_type d1) = true -> m_lev d1 = (n - 1)%nat \/ (m_lev d1 = n /\ FinPc p))) ->
  (s_gen s = 0%nat -> (isLin (m_type d1) = false -> m_lev d1 = 0%nat \/ (m_lev d1 = n /\ FinPc p)) /\ (m_type d1 = Inc -> m_size d1 <= 2147483647)) ->
  GI s (move x (relaxBound n false s d1) p).
Proof.
  intros s x d1 p I G GD1 P C1 C2. destruct (relax_same n M B0 low0 s d1 I) as [R1 [R2 [R3 R4]]]. pose proof (relax_opt n M low0 false s d1 GD1) as RO. constructor; mv.
  - apply (gi_P _ _ _ _ _ _ G).
  - apply (gi_sh _ _ _ _ _ _ G).
  - apply gd_relax; auto.
  - rewrite R2, R4. exact C1.
  - intros G0. rewrite R2, R3, R4. destruct (C2 G0) as [H1 H2]. sp; auto.
  - unfold BbProofs3.ReadG. mv. destruct P as [->|[->| ->]]; auto.
Qed.
Lemma alive_rel : forall s (P : cost -> Prop) d1, SI s -> Base s P d1 -> GD d1 ->
  Base s P (relaxBound n false s d1) /\ DB s (relaxBound n false s d1) /\ OptOk s (relaxBound n false s d1).
Proof.
  intros s P d1 I B GD1. destruct (relax_same n M B0 low0 s d1 I) as [R1 [R2 [R3 R4]]]. pose proof (relax_opt n M low0 false s d1 GD1) as RO. sp.
  - destruct B. constructor; rewrite ?R1, ?R2, ?R3, ?R4; auto; [rewrite RO; apply repeat_length|].
    intros c Pc A i IL E. rewrite R1 in *. rewrite R4 in IL. apply b_lw; auto.
  - intros _. right. rewrite RO, R4. rewrite at_rep by apply (b_lev _ _ _ _ _ B). apply (up_bmax n M B0 low0 PR); auto. apply (b_lev _ _ _ _ _ B).
  - left. exact RO.
Qed.
Lemma ti_stop : forall s x d1, SI s -> GI s x -> GD d1 -> 
  ((m_lev d1 <= n)%nat /\ (isLin (m_type d1) = true -> m_lev d1 = (n - 1)%nat \/ m_lev d1 = n)) ->
  (s_gen s = 0%nat -> (isLin (m_type d1) = false -> m_lev d1 = 0%nat \/ m_lev d1 = n) /\ (m_type d1 = Inc -> m_size d1 <= 2147483647)) ->
  ((Exh s (t_path x) /\ (isLin (m_type d1) = false -> t_share x = true -> more n d1 = false)) \/ (Base s (t_path x) d1 /\ (more n d1 = false -> Exh s (t_path x)))) ->
  TI s (move x (relaxBound n false s d1) Stopped).
Proof.
  intros s x d1 I G GD1 C1 C2 H. destruct (relax_same n M B0 low0 s d1 I) as [R1 [R2 [R3 R4]]]. pose proof (relax_more n M B0 low0 s d1 I) as RM. split.
  - apply gi_rel; auto.
    + destruct C1 as [H1 H2]. split; auto. intros LN. destruct (H2 LN); auto. right. split; auto. exact Logic.I.
    + intros G0. destruct (C2 G0) as [H1 H2]. split; auto. intros LN. destruct (H1 LN); auto. right. split; auto. exact Logic.I.
  - destruct H as [[E F]|[B F]].
    + left. split; auto. mv. rewrite R2. unfold Final. mv. rewrite RM. auto.
    + destruct (more n d1) eqn:MO.
      * right. mv. rewrite R2, (b_lin _ _ _ _ _ B). destruct (alive_rel s _ d1 I B GD1) as [A1 [A2 A3]]. split; [split; auto|]. mv. rewrite RM. auto.
      * left. split; [apply F; auto|]. intros _ _. unfold Final. mv. rewrite RM. auto.
Qed.

(** ** A bound is rejected *)
Lemma opt_low : forall s (P : cost -> Prop) d, (forall c, P c -> M c) -> Base s P d -> O23 s d -> (forall c, P c -> ~ within n c (m_opt d)) ->
  forall c, P c -> adm c -> eqp (m_lev d) c (m_low d) -> at_ (m_opt d) (m_lev d) + 1 <= at_ c (m_lev d).
Proof.
  intros s P d PM B [O1 [O2 _]] NW c Pc A E. destruct (Z_le_gt_dec (at_ (m_opt d) (m_lev d) + 1) (at_ c (m_lev d))) as [H|H]; auto. exfalso. apply (NW c Pc). apply within_lt. intros [i [I1 [I2 I3]]].
  destruct (lt_eq_lt_dec i (m_lev d)) as [[L|L]|L].
  - rewrite O1 in I3 by auto. rewrite E in I3 by auto. lia.
  - subst i. lia.
  - rewrite O2 in I3 by lia. pose proof (m_range _ _ _ _ PR c i (PM c Pc) I1). rewrite bMax_v in I3. lia.
Qed.
Lemma fail_exh : forall s (P : cost -> Prop) d, SI s -> Base s P d -> s_gen s <> 0%nat -> more n d = false -> at_ (upper s) (m_lev d) <= at_ (m_opt d) (m_lev d) + m_size d ->
  (forall c, P c -> adm c -> eqp (m_lev d) c (m_low d) -> at_ (m_opt d) (m_lev d) + 1 <= at_ c (m_lev d)) -> Exh s P.
Proof.
  intros s P d I B G MO UP H c Pc BT. destruct (better_eq n M B0 low0 s P d c I B G Pc BT) as [E LE]. pose proof (H c Pc (better_adm _ _ _ _ s c I BT) E).
  pose proof (b_lev _ _ _ _ _ B) as KN. unfold more in MO. rewrite (proj2 (Nat.ltb_lt _ n) KN) in MO. cbn [andb] in MO. apply orb_false_iff in MO. destruct MO as [M1 M2].
  apply Z.ltb_ge in M1. apply negb_false_iff, Nat.eqb_eq in M2. unfold BbProofs2.better in BT. rewrite (proj2 (Nat.eqb_neq _ _) G) in BT. destruct BT as [j [J1 [J2 J3]]].
  destruct (Nat.eq_dec j (m_lev d)) as [EJ|NJ]; [rewrite EJ in J3; lia|]. rewrite (E j) in J3 by lia. rewrite (b_eq _ _ _ _ _ B j) in J3 by lia. lia.
Qed.
Lemma act_o23 : forall s d, active d = true -> OptOk s d -> O23 s d.
Proof. intros s d A [H|H]; auto. rewrite (act_max n M B0 low0 PR d H) in A. discriminate. Qed.
(** A live solver whose bound is not met by any model on its path has nothing better on its path at generation 0. *)
Lemma no_within_exh0 : forall s x, SI s -> GI s x -> LivePc (t_pc x) -> s_gen s = 0%nat -> (forall c, t_path x c -> ~ within n c (m_opt (t_dm x))) -> Exh s (t_path x).
Proof.
  intros s x I G LP G0 NW c Pc BT. pose proof (better_adm _ _ _ _ s c I BT) as A. apply (NW c Pc). destruct (live_g s x LP G) as [_ [_ A3]]. destruct (A3 G0) as [E|E]; rewrite E.
  - apply within_lt. exact A.
  - apply (within_max n M B0 low0 PR). apply (gi_P _ _ _ _ _ _ G c Pc).
Qed.
Lemma lin_exh : forall s x, GI s x -> LinF s (t_dm x) -> (forall c, t_path x c -> ~ within n c (m_opt (t_dm x))) -> Exh s (t_path x).
Proof. intros s x G [_ [_ F]] NW c Pc BT. apply (NW c Pc). apply within_lt. apply F; auto. apply (gi_P _ _ _ _ _ _ G c Pc). Qed.
Lemma ti_reject : forall s x seq, SI s -> TI s x -> t_pc x = Returned true seq -> (forall c, t_path x c -> ~ within n c (m_opt (t_dm x))) -> s_gen s = 0%nat ->
  TI s (move x (relaxBound n false s (t_dm x)) Stopped).
Proof.
  intros s x seq I T E NW G0. assert (LP : LivePc (t_pc x)) by (rewrite E; exact Logic.I). apply live_ti in T; auto. destruct T as [G D]. destruct (live_g s x LP G) as [A1 [A2 A3]].
  apply ti_stop; auto.
  - apply (gi_d _ _ _ _ _ _ G).
  - destruct (gi_lev _ _ _ _ _ _ G) as [H1 _]. split; auto.
  - intros _. split; [auto|apply (gi_g0 _ _ _ _ _ _ G G0)].
  - destruct D as [[H F]|[[LN LF]|[LN [B [DBx OK]]]]].
    + left. split; auto. intros LN SH. rewrite (F LN) in SH. discriminate.
    + left. split; [|intros X; congruence]. apply (lin_exh s x); auto.
    + right. split; auto. intros _. apply (no_within_exh0 s x); auto.
Qed.
(** failed *)
Lemma failed_type : forall d, m_type (failed d) = m_type d /\ m_size (failed d) = m_size d. Proof. intros d. unfold failed. destruct (isLin (m_type d)); auto. Qed.
Lemma failed_lev : forall d, m_lev (failed d) = if isLin (m_type d) then S (m_lev d) else m_lev d. Proof. intros d. unfold failed. destruct (isLin (m_type d)); auto. Qed.
Lemma failed_gd : forall s x seq, GI s x -> t_pc x = Returned true seq -> active (t_dm x) = true -> GD (failed (t_dm x)) /\ F1 (at_ (m_opt (failed (t_dm x))) 0).
Proof.
  intros s x seq G E A. pose proof np as N. pose proof (gi_d _ _ _ _ _ _ G) as GDx. pose proof (gi_pc _ _ _ _ _ _ G) as R. unfold BbProofs3.ReadG in R. rewrite E in R. destruct R as [[FB|FB] _].
  { rewrite (act_max n M B0 low0 PR _ FB) in A. discriminate. }
  unfold failed. destruct (isLin (m_type (t_dm x))).
  - split; [|apply f2_f1, FB]. destruct GDx. constructor; auto.
  - assert (F : F1 (at_ (put (m_opt (t_dm x)) (m_lev (t_dm x)) (at_ (m_opt (t_dm x)) (m_lev (t_dm x)) + 1)) 0)).
    { destruct (m_lev (t_dm x)); [rewrite put_eq by (rewrite (gd_opt _ _ _ _ GDx); auto); apply F1_def; apply F2_def in FB; lia|rewrite put_neq by lia; apply f2_f1, FB]. }
    split; [|exact F]. destruct GDx. constructor; cbn [setLow setOpt m_opt m_low m_type m_size]; auto; try (rewrite put_len; auto). right. exact F.
Qed.
Lemma failed_base : forall s x, SI s -> GI s x -> s_gen s <> 0%nat -> active (t_dm x) = true -> isLin (m_type (t_dm x)) = false -> Base s (t_path x) (t_dm x) -> OptOk s (t_dm x) ->
  (forall c, t_path x c -> ~ within n c (m_opt (t_dm x))) ->
  Base s (t_path x) (failed (t_dm x)) /\ O23 s (failed (t_dm x)) /\ (more n (failed (t_dm x)) = false -> Exh s (t_path x)).
Proof.
  intros s x I G G0 A LN B OK NW. set (d := t_dm x) in *. pose proof (act_o23 s d A OK) as O. pose proof (opt_low s (t_path x) d (gi_P _ _ _ _ _ _ G) B O NW) as OL. pose proof (b_lev _ _ _ _ _ B) as KN.
  unfold failed. rewrite LN. set (b := at_ (m_opt d) (m_lev d) + 1) in *. sp.
  - pose proof (base_low n M B0 low0 s (t_path x) d b I (gi_P _ _ _ _ _ _ G) B OL) as B1.
    pose proof (base_opt n B0 s (t_path x) _ (put (m_opt d) (m_lev d) b) B1) as B2. apply B2. rewrite put_len. apply (b_opt _ _ _ _ _ B).
  - destruct O as [O1 [O2 [O3 O4]]]. unfold BbProofs2.O23. cbn [setLow setOpt m_lev m_opt m_low m_size]. sp.
    + apply eqp_put_l, eqp_put; auto.
    + intros j J. rewrite put_neq by lia. apply O2; auto.
    + rewrite put_eq by (rewrite (b_opt _ _ _ _ _ B); auto). unfold b. lia.
    + intros X. contradiction.
  - intros MO. apply (fail_exh s (t_path x) d); auto. apply O.
Qed.
(** The next two: the facts about a solver after its bound was rejected *)
Lemma failed_live : forall s x seq, SI s -> TI s x -> t_pc x = Returned true seq -> active (t_dm x) = true -> (forall c, t_path x c -> ~ within n c (m_opt (t_dm x))) -> s_gen s <> 0%nat ->
  (Exh s (t_path x) /\ (isLin (m_type (t_dm x)) = false -> t_share x = false)) \/
  (isLin (m_type (t_dm x)) = false /\ Base s (t_path x) (failed (t_dm x)) /\ DB s (failed (t_dm x)) /\ O23 s (failed (t_dm x)) /\ (more n (failed (t_dm x)) = false -> Exh s (t_path x))).
Proof.
  intros s x seq I T E A NW G0. assert (LP : LivePc (t_pc x)) by (rewrite E; exact Logic.I). apply live_ti in T; auto. destruct T as [G D].
  destruct D as [[H F]|[[LN LF]|[LN [B [DBx OK]]]]].
  - left. split; auto.
  - left. split; [|congruence]. apply (lin_exh s x); auto.
  - right. destruct (failed_base s x I G G0 A LN B OK NW) as [F1 [F2 F3]]. sp; auto. unfold DB in *. rewrite (proj1 (failed_type _)), (proj2 (failed_type _)), failed_lev, LN. intros TY. destruct (DBx TY) as [X|X]; auto. right.
    unfold failed. rewrite LN. cbn [setLow setOpt m_opt]. rewrite put_eq; [lia|]. rewrite (b_opt _ _ _ _ _ B). apply (b_lev _ _ _ _ _ B).
Qed.
Lemma ti_conflict : forall s x seq, SI s -> TI s x -> t_pc x = Returned true seq -> active (t_dm x) = true -> (forall c, t_path x c -> ~ within n c (m_opt (t_dm x))) -> s_gen s <> 0%nat ->
  TI s (move x (relaxBound n false s (failed (t_dm x))) Stopped).
Proof.
  intros s x seq I T E A NW G0. pose proof (failed_live s x seq I T E A NW G0) as D. destruct T as [G _]. assert (LP : LivePc (t_pc x)) by (rewrite E; exact Logic.I).
  destruct (failed_gd s x seq G E A) as [GF _]. destruct (live_g s x LP G) as [A1 _]. pose proof np as N. apply ti_stop; auto.
  - rewrite failed_lev, (proj1 (failed_type _)). destruct (gi_lev _ _ _ _ _ _ G) as [H1 _]. destruct (isLin (m_type (t_dm x))); [rewrite A1 by auto; split; lia|split; auto; discriminate].
  - intros X. contradiction.
  - rewrite (proj1 (failed_type _)). destruct D as [[H F]|[LN [F1 [F2 [F3 F4]]]]]; [left; split; auto; intros LN SH; rewrite (F LN) in SH; discriminate|right; auto].
Qed.
(** ... as if the solver were still live *)
Lemma failed_ti : forall s x seq, SI s -> TI s x -> t_pc x = Returned true seq -> active (t_dm x) = true -> (forall c, t_path x c -> ~ within n c (m_opt (t_dm x))) -> s_gen s <> 0%nat ->
  isLin (m_type (t_dm x)) = false -> TI s (move x (failed (t_dm x)) Idle).
Proof.
  intros s x seq I T E A NW G0 LN. pose proof (failed_live s x seq I T E A NW G0) as D. destruct T as [G _]. destruct (failed_gd s x seq G E A) as [GF _].
  apply live_ti; [exact Logic.I|]. split.
  - constructor; mv; rewrite ?(proj1 (failed_type _)), ?(proj2 (failed_type _)), ?failed_lev, ?LN.
    + apply (gi_P _ _ _ _ _ _ G).
    + apply (gi_sh _ _ _ _ _ _ G).
    + exact GF.
    + split; [apply (gi_lev _ _ _ _ _ _ G)|discriminate].
    + intros X. contradiction.
    + exact Logic.I.
  - unfold BbProofs4.LiveD. mv. rewrite (proj1 (failed_type _)). destruct D as [[H F]|[_ [F1 [F2 [F3 F4]]]]]; [left; auto|]. right. right. sp; auto. right. auto.
Qed.
Lemma ti_retry : forall s x seq, SI s -> TI s x -> t_pc x = Returned true seq -> active (t_dm x) = true -> (forall c, t_path x c -> ~ within n c (m_opt (t_dm x))) -> s_gen s <> 0%nat ->
  isLin (m_type (t_dm x)) = false -> TI s (move x (failed (t_dm x)) (Reading true (s_gen s) None 0 (m_lev (failed (t_dm x))) None)).
Proof.
  intros s x seq I T E A NW G0 LN. pose proof (failed_ti s x seq I T E A NW G0 LN) as T1.
  pose proof (ti_start n M B0 low0 s _ I T1 G0) as T2. cbn [move t_dm t_pc] in T2. apply T2; [rewrite (proj1 (failed_type _)); auto|]. left. exact Logic.I.
Qed.
Lemma ti_retryPass : forall s x seq, SI s -> TI s x -> t_pc x = Returned true seq -> active (t_dm x) = true -> (forall c, t_path x c -> ~ within n c (m_opt (t_dm x))) -> s_gen s <> 0%nat ->
  TI s (afterPass n x true (s_gen s) (passFrom n n 0 (m_lev (failed (t_dm x))) (upper s) (s_lower s) (failed (t_dm x)))).
Proof.
  intros s x seq I T E A NW G0. destruct (isLin (m_type (t_dm x))) eqn:LN.
  - (* without steps: the bound equals the upper bound, and false is returned *)
    pose proof (failed_live s x seq I T E A NW G0) as D. destruct T as [G _]. assert (LP : LivePc (t_pc x)) by (rewrite E; exact Logic.I). pose proof np as N. destruct (live_g s x LP G) as [A1 _]. specialize (A1 LN).
    destruct (failed_gd s x seq G E A) as [GF _]. assert (EL : m_lev (failed (t_dm x)) = n) by (rewrite failed_lev, LN, A1; lia).
    destruct D as [[EX _]|[X _]]; [|congruence]. destruct (si_up _ _ _ _ s I G0) as [U1 U2].
    destruct (lin_pass n n 0 (failed (t_dm x)) (m_lev (failed (t_dm x))) (upper s) (s_lower s)) as [v [VE [V1 [_ V2]]]]; auto; try lia.
    + rewrite (proj1 (failed_type _)). auto.
    + intros j J. apply (up_low n M B0 low0 PR); auto.
    + apply (gd_opt _ _ _ _ GF).
    + rewrite VE. cbn [afterPass]. assert (PE : passEnd n true (setOpt (failed (t_dm x)) v) = false) by (unfold passEnd; cbn [setOpt m_lev]; rewrite EL, Nat.eqb_refl; auto). rewrite PE. split.
      * constructor; mv; cbn [setOpt m_lev m_type m_opt m_size].
        -- apply (gi_P _ _ _ _ _ _ G).
        -- apply (gi_sh _ _ _ _ _ _ G).
        -- apply gd_setopt; auto. right. rewrite V2 by lia. rewrite EL, (proj2 (Nat.eqb_neq 0 n)) by lia. apply f2_f1, (m_f2 n M B0 low0 PR); auto.
        -- rewrite EL. split; auto. intros _. right. split; auto. exact Logic.I.
        -- intros X. contradiction.
        -- exact Logic.I.
      * left. split; auto. mv. cbn [setOpt m_type]. rewrite (proj1 (failed_type _)), LN. discriminate.
  - pose proof (failed_ti s x seq I T E A NW G0 LN) as T1. pose proof (ti_pass n M B0 low0 PR s _ I T1 G0) as T2. cbn [move t_dm t_pc t_path t_share] in T2. rewrite (proj1 (failed_type _)) in T2.
    apply (T2 LN); auto. left. exact Logic.I.
Qed.
Lemma ti_stop' : forall s x seq, SI s -> TI s x -> t_pc x = Returned false seq -> TI s (move x (relaxBound n false s (t_dm x)) Stopped).
Proof.
  intros s x seq I [G T] E. apply ti_stop; auto.
  - apply (gi_d _ _ _ _ _ _ G).
  - destruct (gi_lev _ _ _ _ _ _ G) as [H1 H2]. split; auto. intros LN. destruct (H2 LN) as [H|[H _]]; auto.
  - intros G0. destruct (gi_g0 _ _ _ _ _ _ G G0) as [H1 [_ H3]]. split; auto. intros LN. destruct (H1 LN) as [H|[H _]]; auto.
  - destruct T as [[H F]|T].
    + left. split; auto. intros LN SH. specialize (F LN SH). unfold Final in F. rewrite E in F. exact F.
    + destruct (isLin (m_type (t_dm x))); [exfalso; destruct T as [_ [_ [_ T]]]; rewrite E in T; auto|].
      destruct T as [[T1 T2] T3]. rewrite E in T3. destruct T3 as [T3 T4]. right. split; auto. congruence.
Qed.

(** ** A model was found *)
Lemma model_ok : forall s x c, SI s -> GI s x -> t_pc x = Search (s_gen s) -> t_path x c -> within n c (m_opt (t_dm x)) ->
  M c /\ adm c /\ ~ lt n (upper s) c /\ (s_gen s <> 0%nat -> lt n c (upper s)).
Proof.
  intros s x c I G E Pc W. pose proof (gi_pc _ _ _ _ _ _ G) as R. unfold BbProofs3.ReadG in R. rewrite E in R. destruct R as [_ R]. specialize (R eq_refl). apply within_lt in W.
  pose proof (gi_P _ _ _ _ _ _ G c Pc) as MC. destruct (Nat.eqb_spec (s_gen s) 0) as [G0|G0].
  - rewrite R in W. rewrite (si_0 _ _ _ _ s I G0). sp; auto. contradiction.
  - assert (L : lt n c (upper s)) by (apply (nlt_lt_trans n c (m_opt (t_dm x))); auto). sp; auto.
    + intros X. apply (upper_adm _ _ _ _ s I). apply (lt_trans n B0 c); auto.
    + apply lt_nlt; auto.
Qed.
Lemma ti_model : forall s x c, SI s -> TI s x -> t_pc x = Search (s_gen s) -> t_path x c -> within n c (m_opt (t_dm x)) ->
  TI (setOptimum s c) (move x (doubleStep (t_dm x)) Idle).
Proof.
  intros s x c I T E Pc W. pose proof np as N. assert (LP : LivePc (t_pc x)) by (rewrite E; exact Logic.I). destruct (model_ok s x c I (proj1 T) E Pc W) as [MC [AC [NL LT]]].
  pose proof (ti_so n M B0 low0 s x c I MC AC NL T) as T'. pose proof (so_gen _ _ _ _ s c I) as SG. pose proof (so_up _ _ _ _ s c I) as SU.
  apply live_ti in T; auto. destruct T as [G D]. apply live_ti in T'; auto. destruct T' as [G' D'].
  assert (SM : m_type (t_dm x) = Inc -> m_size (t_dm x) <= 2147483647).
  { intros TY. destruct (Nat.eq_dec (s_gen s) 0) as [G0|G0]; [apply (gi_g0 _ _ _ _ _ _ G G0); auto|]. destruct D as [[H F]|[[LN LF]|[LN [B [DBx OK]]]]].
    - exfalso. apply (H c Pc). unfold BbProofs2.better. rewrite (proj2 (Nat.eqb_neq _ _) G0). auto.
    - rewrite TY in LN. discriminate.
    - destruct (DBx TY) as [X|X]; auto. exfalso. pose proof (gi_pc _ _ _ _ _ _ G) as R. unfold BbProofs3.ReadG in R. rewrite E in R. destruct R as [_ R]. specialize (R eq_refl). rewrite (proj2 (Nat.eqb_neq _ _) G0) in R.
      destruct (si_up _ _ _ _ s I G0) as [U1 U2]. destruct OK as [OK|[O1 [O2 _]]].
      + apply (proj1 (within_lt n _ _) (within_max n M B0 low0 PR _ U1)). rewrite <- OK. auto.
      + destruct R as [i [I1 [I2 I3]]]. destruct (lt_eq_lt_dec i (m_lev (t_dm x))) as [[L|L]|L].
        * rewrite O1 in I3 by auto. rewrite (b_eq _ _ _ _ _ B) in I3 by auto. lia.
        * subst i. lia.
        * rewrite O2 in I3 by lia. pose proof (m_range _ _ _ _ PR _ i U1 I1). rewrite bMax_v in I3. lia. }
  assert (DT : m_type (doubleStep (t_dm x)) = m_type (t_dm x) /\ m_opt (doubleStep (t_dm x)) = m_opt (t_dm x) /\ m_low (doubleStep (t_dm x)) = m_low (t_dm x) /\ m_lev (doubleStep (t_dm x)) = m_lev (t_dm x)) by (unfold doubleStep; destruct (m_type (t_dm x)) eqn:TY; sp; auto).
  destruct DT as [DT1 [DT2 [DT3 DT4]]]. pose proof (gi_d _ _ _ _ _ _ G) as GDx.
  assert (SZ : SzOk (m_type (t_dm x)) (m_size (doubleStep (t_dm x)))).
  { pose proof (gd_size_ok _ _ _ _ GDx) as Z. unfold doubleStep. unfold SzOk in *. destruct (m_type (t_dm x)) eqn:TY; auto. cbn [setSize m_size]. specialize (SM eq_refl). rewrite u32_id by lia. lia. }
  assert (SP : 0 <= m_size (doubleStep (t_dm x))) by (unfold SzOk in SZ; destruct (m_type (t_dm x)); lia).
  apply live_ti; [exact Logic.I|]. split.
  - constructor; mv; rewrite ?DT1, ?DT2, ?DT4.
    + apply (gi_P _ _ _ _ _ _ G).
    + apply (gi_sh _ _ _ _ _ _ G).
    + destruct GDx. constructor; rewrite ?DT1, ?DT2, ?DT3; auto. unfold FinA in *. rewrite DT2. auto.
    + destruct (gi_lev _ _ _ _ _ _ G) as [H1 _]. split; auto. intros LN. left. apply (live_g s x LP G); auto.
    + rewrite SG. discriminate.
    + exact Logic.I.
  - unfold BbProofs4.LiveD in *. mv. rewrite DT1. destruct D' as [D'|[[LN LF]|[LN [B [DBx OK]]]]]; [left; auto| |].
    + right. left. split; auto. unfold BbProofs4.LinF in *. rewrite DT2, DT4. assert (m_size (doubleStep (t_dm x)) = m_size (t_dm x)) as -> by (unfold doubleStep; destruct (m_type (t_dm x)); try discriminate; auto). exact LF.
    + right. right. split; auto. pose proof (b_lev _ _ _ _ _ B) as KN.
      assert (CO : at_ c (m_lev (t_dm x)) <= at_ (m_opt (t_dm x)) (m_lev (t_dm x))).
      { destruct OK as [OK|[O1 _]].
        - rewrite OK, at_rep by auto. pose proof (m_range _ _ _ _ PR c _ MC KN). rewrite bMax_v. lia.
        - destruct (Z_le_gt_dec (at_ c (m_lev (t_dm x))) (at_ (m_opt (t_dm x)) (m_lev (t_dm x)))) as [X|X]; auto. exfalso. apply within_lt in W. apply W. apply (lt_mono (S (m_lev (t_dm x)))); [|lia]. apply lt_S; [|lia].
          apply (eqp_trans _ _ (m_low (t_dm x))); auto. apply eqp_sym. rewrite <- SU. apply (b_eq _ _ _ _ _ B). }
      sp.
      * destruct B. constructor; rewrite ?DT1, ?DT2, ?DT3, ?DT4; auto. intros c' Pc' A' i IL EI. rewrite DT3 in *. rewrite DT4 in IL. apply b_lw; auto.
      * intros _. right. rewrite SU, DT2, DT4. exact CO.
      * destruct OK as [OK|[O1 [O2 [O3 O4]]]]; [left; rewrite DT2; auto|]. right. unfold BbProofs2.O23. rewrite DT2, DT3, DT4, SU. sp; auto. lia.
Qed.

(** ** Other events *)
Lemma ti_empty : forall s x, SI s -> TI s x -> (forall c, ~ t_path x c) -> TI s (move x (t_dm x) Done).
Proof.
  intros s x I [G T] NP. split.
  - destruct G. constructor; mv; auto; try exact Logic.I.
    + destruct gi_lev as [H1 H2]. split; auto. intros LN. destruct (H2 LN) as [H|[H _]]; auto. right. split; auto. exact Logic.I.
    + intros G0. destruct (gi_g0 G0) as [H1 [H2 H3]]. sp; auto; [|right; right; exact Logic.I]. intros LN. destruct (H1 LN) as [H|[H _]]; auto. right. split; auto. exact Logic.I.
  - left. split; [intros c Pc; destruct (NP c Pc)|]. intros _ _. exact Logic.I.
Qed.
Lemma relax_full : forall s d, GD d -> let d' := relaxBound n true s d in m_opt d' = repeat bMax n /\ m_type d' = m_type d /\ m_lev d' = (if isLin (m_type d) then (n - 1)%nat else 0%nat) /\
  m_size d' = (match m_type d with Dec => 0 | _ => 1 end) /\ length (m_low d') = n /\ (isLin (m_type d) = false -> at_ (m_low d') 0 = - bMax).
Proof.
  intros s d G d'. subst d'. pose proof np as N. assert (RO := relax_opt n M low0 true s d G). split; [exact RO|]. clear RO. unfold relaxBound. cbn [orb].
  set (d1 := if active d then setOpt d (repeat bMax n) else d). assert (E : m_type d1 = m_type d /\ m_low d1 = m_low d) by (unfold d1; destruct (active d); auto). destruct E as [E1 E2].
  rewrite (proj1 (step_type n 0 d1)), step_lev, step_size, E1. sp; auto.
  - assert (LL : length (m_low d1) = n) by (rewrite E2; apply (gd_low _ _ _ _ G)). clear E1 E2. clearbody d1. unfold stepInit. cbn [setSize m_type]. destruct (isLin (m_type d1)); cbn [setLev setSize m_low]; auto. destruct (Nat.eqb 0 n); cbn [setLow m_low setLev setSize]; rewrite ?put_len; auto.
  - intros LN. unfold stepInit. cbn [setSize m_type]. rewrite E1, LN. rewrite (proj2 (Nat.eqb_neq 0 n)) by lia. cbn [setLow setLev setSize m_low]. rewrite put_eq by (rewrite E2, (gd_low _ _ _ _ G); auto). lia.
Qed.
(** A constraint whose bound was relaxed completely *)
Lemma ti_fresh : forall s (P : cost -> Prop) sh d, SI s -> (forall c, P c -> M c) -> (sh = true -> forall c, M c -> P c) -> GD d -> m_opt d = repeat bMax n ->
  m_lev d = (if isLin (m_type d) then (n - 1)%nat else 0%nat) -> m_size d = (match m_type d with Dec => 0 | _ => 1 end) -> (isLin (m_type d) = false -> at_ (m_low d) 0 = - bMax) -> TI s (Th d Idle P sh).
Proof.
  intros s P sh d I PM MP G EO EL ES LW. pose proof np as N. apply live_ti; [exact Logic.I|]. split.
  - constructor; cbn [t_dm t_path t_share t_pc]; auto; try exact Logic.I.
    + rewrite EL. split; [destruct (isLin (m_type d)); lia|]. intros ->. auto.
    + intros _. rewrite EL. sp; auto; [intros ->; auto|]. intros TY. rewrite ES, TY. lia.
  - unfold BbProofs4.LiveD. cbn [t_dm t_path t_share t_pc]. destruct (isLin (m_type d)) eqn:LN.
    + right. left. split; auto. unfold BbProofs4.LinF. rewrite EL, ES, EO. sp; auto; [destruct (m_type d); auto; discriminate|]. intros c MC _. apply within_lt. apply (within_max n M B0 low0 PR); auto.
    + right. right. split; auto. sp.
      * constructor; auto; rewrite ?EL; try lia; auto.
        -- apply (gd_opt _ _ _ _ G).
        -- apply (gd_low _ _ _ _ G).
        -- apply (gd_sz _ _ _ _ G).
        -- intros c Pc A i IL E. rewrite EL in IL. assert (i = 0%nat) by lia. subst i. rewrite (LW eq_refl). pose proof (m_range _ _ _ _ PR c 0%nat (PM c Pc) N). pose proof (low0_min _ _ _ _ PR 0%nat N). rewrite bMax_v. lia.
        -- intros j J. lia.
      * intros TY. left. rewrite ES, TY. lia.
      * left. auto.
Qed.
Lemma ti_path : forall s x (P : cost -> Prop), SI s -> TI s x -> (forall c, P c -> M c) -> TI s (Th (relaxBound n true s (t_dm x)) Idle P false).
Proof.
  intros s x P I [G _] PM. pose proof (gi_d _ _ _ _ _ _ G) as GDx. destruct (relax_full s (t_dm x) GDx) as [R1 [R2 [R3 [R4 [R5 R6]]]]].
  apply ti_fresh; auto; try discriminate; rewrite ?R2; auto. apply gd_relax; auto.
Qed.
End Inv.
