(** Invariants of branch and bound: shared data and one iteration of updateBounds *)
From Coq Require Import List Bool Arith ZArith Lia.
From Verif Require Import Base BbModel BbSpec BbProofs.
Import ListNotations.
Open Scope Z_scope.

Section Inv.
Variables (n : nat) (M : cost -> Prop) (B0 low0 : cost).
Hypothesis PR : Problem n M B0 low0.

Definition adm (c : cost) : Prop := ~ lt n B0 c.
Definition better (s : shared) (c : cost) : Prop := if Nat.eqb (s_gen s) 0 then adm c else lt n c (upper s).
Definition Exh (s : shared) (P : cost -> Prop) : Prop := forall c, P c -> ~ better s c.
Definition prev (s : shared) : cost := buf s (negb (Nat.odd (s_gen s))).

Record SI (s : shared) : Prop := {
  si_og : s_optGen s = 0%nat;
  si_en : s_enum s = false;
  si_0 : s_gen s = 0%nat -> upper s = B0;
  si_up : s_gen s <> 0%nat -> M (upper s) /\ adm (upper s);
  si_prev : s_gen s <> 0%nat -> ~ lt n (prev s) (upper s);
  si_prevM : (2 <= s_gen s)%nat -> M (prev s) /\ adm (prev s);
  si_len : length (s_lower s) = n;
  si_max : forall i, (i < n)%nat -> at_ (s_lower s) i <= bMax;
  si_low0 : forall i, (i < n)%nat -> at_ low0 i <= at_ (s_lower s) i;
  si_low : forall i, (i < n)%nat -> at_ (s_lower s) i = at_ low0 i \/
    ((forall c, M c -> adm c -> ~ lt i c (upper s)) /\ (forall c, M c -> adm c -> eqp i c (upper s) -> at_ (s_lower s) i <= at_ c i))
}.
Lemma next_chk : forall s, SI s -> checkNext s = negb (Nat.eqb (s_gen s) 0).
Proof. intros s I. unfold checkNext. rewrite (si_og s I), (si_en s I). reflexivity. Qed.
Lemma opt_chk : forall s, SI s -> optimize s = true.
Proof. intros s I. unfold optimize. rewrite (si_og s I), (si_en s I). reflexivity. Qed.
Lemma so_up : forall s c, SI s -> upper (setOptimum s c) = c.
Proof. intros s c I. unfold setOptimum. rewrite (si_og s I), (si_en s I). cbn [Nat.eqb negb]. unfold upper, buf. destruct (Nat.odd (s_gen s)) eqn:O; cbn [negb s_gen s_up0 s_up1]; rewrite Nat.odd_succ, <- Nat.negb_odd, O; auto. Qed.
Lemma so_gen : forall s c, SI s -> s_gen (setOptimum s c) = S (s_gen s).
Proof. intros s c I. unfold setOptimum. rewrite (si_og s I), (si_en s I). cbn [Nat.eqb negb]. destruct (Nat.odd (s_gen s)); auto. Qed.
Lemma so_low : forall s c, s_lower (setOptimum s c) = s_lower s.
Proof. intros s c. unfold setOptimum. destruct (negb (Nat.eqb (s_optGen s) 0)); auto. destruct (negb (Nat.odd (s_gen s))); auto. Qed.
Lemma so_prev : forall s c, SI s -> prev (setOptimum s c) = upper s.
Proof.
  intros s c I. unfold prev. rewrite (so_gen s c I). unfold setOptimum. rewrite (si_og s I), (si_en s I). cbn [Nat.eqb negb]. rewrite Nat.odd_succ, <- Nat.negb_odd.
  unfold upper. destruct (Nat.odd (s_gen s)); reflexivity.
Qed.
Lemma so_buf : forall s c p, SI s -> buf (setOptimum s c) p = if Bool.eqb p (Nat.odd (s_gen s)) then upper s else c.
Proof.
  intros s c p I. unfold setOptimum. rewrite (si_og s I), (si_en s I). cbn [Nat.eqb negb]. unfold upper.
  destruct p, (Nat.odd (s_gen s)); reflexivity.
Qed.
Lemma upper_adm : forall s, SI s -> ~ lt n B0 (upper s).
Proof. intros s I. destruct (Nat.eq_dec (s_gen s) 0) as [E|E]; [rewrite (si_0 s I E); apply lt_irrefl|apply (si_up s I E)]. Qed.
Lemma cut_eq : forall s i c, (i <= n)%nat -> SI s -> (forall c, M c -> adm c -> ~ lt i c (upper s)) -> M c -> adm c -> ~ lt n (upper s) c -> eqp i c (upper s).
Proof. intros s i c IN I H MC AC NL. destruct (nlt_cut i n c (upper s) NL IN) as [L|E]; auto. exfalso. apply (H c MC AC L). Qed.
Lemma so_si : forall s c, SI s -> M c -> adm c -> ~ lt n (upper s) c -> SI (setOptimum s c).
Proof.
  intros s c I MC AC NL. constructor.
  - unfold setOptimum. rewrite (si_og s I). cbn [Nat.eqb negb]. destruct (negb (Nat.odd (s_gen s))); cbn [s_optGen]; auto; apply (si_og s I).
  - unfold setOptimum. rewrite (si_og s I). cbn [Nat.eqb negb]. destruct (negb (Nat.odd (s_gen s))); cbn [s_enum]; apply (si_en s I).
  - rewrite so_gen; auto. discriminate.
  - intros _. rewrite so_up; auto.
  - intros _. rewrite so_up, so_prev; auto.
  - rewrite so_gen, so_prev; auto. intros G. apply (si_up s I). lia.
  - rewrite so_low. apply (si_len s I).
  - rewrite so_low. apply (si_max s I).
  - rewrite so_low. apply (si_low0 s I).
  - intros i IN. rewrite so_low, so_up by auto. destruct (si_low s I i IN) as [E|[H1 H2]]; auto. right.
    assert (E : eqp i c (upper s)) by (apply (cut_eq s i c); auto; lia). split.
    + intros c' M' A' L. apply (H1 c' M' A'). apply (lt_eq_r i c' c (upper s)); auto.
    + intros c' M' A' E'. apply H2; auto. apply (eqp_trans i c' c); auto.
Qed.
Lemma il_si : forall s i L, SI s -> (i < n)%nat -> L <= bMax -> (forall c, M c -> adm c -> ~ lt i c (upper s)) -> (forall c, M c -> adm c -> eqp i c (upper s) -> L <= at_ c i) -> SI (snd (incLower s i L)).
Proof.
  intros s i L I IN LM H1 H2. unfold incLower. destruct (Z.leb_spec L (at_ (s_lower s) i)) as [LE|GT]; [exact I|]. cbn [snd]. constructor; cbn [s_optGen s_enum s_gen s_lower].
  - apply (si_og s I).
  - apply (si_en s I).
  - apply (si_0 s I).
  - apply (si_up s I).
  - apply (si_prev s I).
  - apply (si_prevM s I).
  - rewrite put_len. apply (si_len s I).
  - intros j J. destruct (Nat.eq_dec i j) as [->|N]; [rewrite put_eq by (rewrite (si_len s I); auto); auto|rewrite put_neq by auto; apply (si_max s I); auto].
  - intros j J. destruct (Nat.eq_dec i j) as [->|N]; [rewrite put_eq by (rewrite (si_len s I); auto)|rewrite put_neq by auto; apply (si_low0 s I); auto]. pose proof (si_low0 s I j J). lia.
  - intros j J. destruct (Nat.eq_dec i j) as [->|N]; [rewrite put_eq by (rewrite (si_len s I); auto); right; auto|rewrite put_neq by auto; apply (si_low s I j J)].
Qed.
Lemma il_sh : forall s i L, upper (snd (incLower s i L)) = upper s /\ s_gen (snd (incLower s i L)) = s_gen s /\ (forall p, buf (snd (incLower s i L)) p = buf s p).
Proof. intros s i L. unfold incLower. destruct (L <=? at_ (s_lower s) i); cbn [snd]; sp; auto. Qed.
Lemma exh_so : forall s c P, SI s -> adm c -> ~ lt n (upper s) c -> Exh s P -> Exh (setOptimum s c) P.
Proof.
  intros s c P I AC NL E c' P' B. apply (E c' P'). unfold better in *. rewrite so_gen, so_up in B by auto. cbn [Nat.eqb] in B.
  destruct (Nat.eqb (s_gen s) 0).
  - intros X. apply AC. apply (lt_trans n B0 c' c); auto.
  - apply (lt_nlt_trans n c' c (upper s) B NL).
Qed.
Lemma exh_il : forall s i L P, Exh s P -> Exh (snd (incLower s i L)) P.
Proof. intros s i L P E c Pc B. apply (E c Pc). unfold better in *. destruct (il_sh s i L) as [U [G _]]. rewrite U, G in B. exact B. Qed.
Lemma m_range : forall c i, M c -> (i < n)%nat -> at_ low0 i <= at_ c i <= 4611686018427387903. Proof. exact (pr_cost _ _ _ _ PR). Qed.
Lemma low0_min : forall i, (i < n)%nat -> - 4611686018427387904 <= at_ low0 i. Proof. intros i I. apply (pr_low0min _ _ _ _ PR i I). Qed.
Lemma better_adm : forall s c, SI s -> better s c -> adm c.
Proof. intros s c I. unfold better. destruct (Nat.eqb_spec (s_gen s) 0) as [E|E]; auto. intros L X. apply (upper_adm s I). apply (lt_trans n B0 c (upper s)); auto. Qed.

(** ** A constraint with steps that may still find something *)
Definition Low (P : cost -> Prop) (d : dm) : Prop := forall c, P c -> adm c -> forall i, (i <= m_lev d)%nat -> eqp i c (m_low d) -> at_ (m_low d) i <= at_ c i.
Definition O23 (s : shared) (d : dm) : Prop :=
  eqp (m_lev d) (m_opt d) (m_low d) /\ (forall j, (m_lev d < j < n)%nat -> at_ (m_opt d) j = bMax) /\ at_ (upper s) (m_lev d) <= at_ (m_opt d) (m_lev d) + m_size d /\
  (s_gen s = 0%nat -> m_opt d = B0).
Definition OptOk (s : shared) (d : dm) : Prop := m_opt d = repeat bMax n \/ O23 s d.
Definition Pre (d : dm) (i : nat) : Prop := eqp i (m_opt d) (m_low d) /\ forall j, (i <= j < n)%nat -> at_ (m_opt d) j = bMax.
Definition Mid (s : shared) (d : dm) (i : nat) : Prop := O23 s d \/ ((i <= m_lev d)%nat /\ Pre d i).
Record Base (s : shared) (P : cost -> Prop) (d : dm) : Prop := {
  b_lin : isLin (m_type d) = false;
  b_lev : (m_lev d < n)%nat;
  b_opt : length (m_opt d) = n;
  b_low : length (m_low d) = n;
  b_size : 0 <= m_size d;
  b_lw : Low P d;
  b_eq : eqp (m_lev d) (upper s) (m_low d);
  b_g0 : s_gen s = 0%nat -> m_lev d = 0%nat
}.
Lemma low_nlt : forall (P : cost -> Prop) d c, Low P d -> P c -> adm c -> ~ lt (S (m_lev d)) c (m_low d).
Proof. intros P d c LW Pc A [i [I1 [I2 I3]]]. pose proof (LW c Pc A i ltac:(lia) I2). lia. Qed.
(** If a model on the path is better than the upper bound, then it agrees with the upper bound below the current level. *)
Lemma better_eq : forall s (P : cost -> Prop) d c, SI s -> Base s P d -> s_gen s <> 0%nat -> P c -> better s c -> eqp (m_lev d) c (m_low d) /\ at_ c (m_lev d) <= at_ (upper s) (m_lev d).
Proof.
  intros s P d c I B G Pc BT. assert (A : adm c) by (apply (better_adm s); auto). unfold better in BT. rewrite (proj2 (Nat.eqb_neq _ _) G) in BT.
  assert (E : eqp (m_lev d) c (upper s)).
  { pose proof (b_lev _ _ _ B). destruct (lt_cut (m_lev d) n c (upper s) BT ltac:(lia)) as [L|E]; auto. exfalso. apply (low_nlt P d c (b_lw _ _ _ B) Pc A).
    apply (lt_mono (m_lev d)); [|lia]. apply (lt_eq_r _ c (upper s)); auto. apply (b_eq _ _ _ B). }
  split; [apply (eqp_trans _ c (upper s)); auto; apply (b_eq _ _ _ B)|].
  destruct (Z_le_gt_dec (at_ c (m_lev d)) (at_ (upper s) (m_lev d))) as [LE|GT]; auto. exfalso.
  apply (lt_nlt n c (upper s) BT). apply (lt_mono (S (m_lev d))); [|apply (b_lev _ _ _ B)]. apply lt_S; [apply eqp_sym; auto|lia].
Qed.

(** The upper bound [v] a solver may have read: it is the current one or a previous one. *)
Record Read (s : shared) (d : dm) (v : cost) : Prop := { rd_M : M v; rd_adm : adm v; rd_le : ~ lt n v (upper s); rd_eq : eqp (m_lev d) v (m_low d) }.

Lemma lower_le : forall s (P : cost -> Prop) d v i, SI s -> Base s P d -> Read s d v -> (i < m_lev d)%nat -> at_ (s_lower s) i <= at_ v i.
Proof.
  intros s P d v i I B R IL. pose proof (b_lev _ _ _ B). destruct (si_low s I i ltac:(lia)) as [E|[H1 H2]].
  - rewrite E. apply m_range; [apply (rd_M _ _ _ R)|lia].
  - apply H2; [apply (rd_M _ _ _ R)|apply (rd_adm _ _ _ R)|]. apply (eqp_trans _ v (m_low d)); [apply (eqp_le i (m_lev d)); [apply (rd_eq _ _ _ R)|lia]|].
    apply eqp_sym. apply (eqp_le i (m_lev d)); [apply (b_eq _ _ _ B)|lia].
Qed.
(** The new local lower bound is right. *)
Lemma low_upd : forall s (P : cost -> Prop) d L, SI s -> (forall c, P c -> M c) -> Base s P d -> (forall c, P c -> adm c -> eqp (m_lev d) c (m_low d) -> L <= at_ c (m_lev d)) ->
  Low P (setLow d (put (m_low d) (m_lev d) L)).
Proof.
  intros s P d L I PM B H c Pc A i IL E. cbn [setLow m_lev m_low] in *. pose proof (b_lev _ _ _ B).
  assert (E' : eqp i c (m_low d)). { intros j J. rewrite (E j J). apply put_neq. lia. }
  destruct (Nat.eq_dec (m_lev d) i) as [<-|N].
  - rewrite put_eq by (rewrite (b_low _ _ _ B); auto). apply H; auto.
  - rewrite put_neq by auto. apply (b_lw _ _ _ B c Pc A i); auto.
Qed.
Lemma shared_low : forall s (P : cost -> Prop) d c, SI s -> (forall c, P c -> M c) -> Base s P d -> P c -> adm c -> eqp (m_lev d) c (m_low d) -> Z.max (at_ (m_low d) (m_lev d)) (at_ (s_lower s) (m_lev d)) <= at_ c (m_lev d).
Proof.
  intros s P d c I PM B Pc A E. pose proof (b_lev _ _ _ B). apply Z.max_lub; [apply (b_lw _ _ _ B c Pc A); auto|].
  destruct (si_low s I (m_lev d) ltac:(auto)) as [->|[H1 H2]]; [apply m_range; auto|]. apply H2; auto. apply (eqp_trans _ c (m_low d)); auto. apply eqp_sym, (b_eq _ _ _ B).
Qed.
Lemma eqp_put : forall k a v x, eqp k a v -> eqp k a (put v k x).
Proof. intros k a v x E j J. rewrite put_neq by lia. apply E; auto. Qed.
Lemma eqp_put_l : forall k a v x, eqp k v a -> eqp k (put v k x) a.
Proof. intros k a v x E. apply eqp_sym, eqp_put, eqp_sym, E. Qed.
Lemma base_low : forall s (P : cost -> Prop) d L, SI s -> (forall c, P c -> M c) -> Base s P d -> (forall c, P c -> adm c -> eqp (m_lev d) c (m_low d) -> L <= at_ c (m_lev d)) ->
  Base s P (setLow d (put (m_low d) (m_lev d) L)).
Proof.
  intros s P d L I PM B H. constructor; cbn [setLow m_type m_lev m_opt m_low m_size].
  - apply (b_lin _ _ _ B).
  - apply (b_lev _ _ _ B).
  - apply (b_opt _ _ _ B).
  - rewrite put_len. apply (b_low _ _ _ B).
  - apply (b_size _ _ _ B).
  - apply (low_upd s); auto.
  - apply eqp_put, (b_eq _ _ _ B).
  - apply (b_g0 _ _ _ B).
Qed.

Definition VisitOk (s : shared) (P : cost -> Prop) (v : cost) (i : nat) (r : pass) : Prop :=
  match r with
  | Cont d a => a = m_lev d /\ Base s P d /\ Mid s d (S i) /\ eqp (m_lev d) v (m_low d)
  | Ret true d => Base s P d /\ OptOk s d
  | Ret false d => Base s P d /\ OptOk s d /\ more n d = true
  | Over => False
  end.
Definition FinalR (r : pass) : Prop := match r with Ret false d => more n d = false | Cont d a => a = n /\ m_lev d = n /\ isLin (m_type d) = false | _ => False end.
Lemma u32_nonneg : forall z, 0 <= u32 z. Proof. intros z. unfold u32. apply Z.mod_pos_bound. lia. Qed.
Lemma nextStep_nonneg : forall d x, 0 <= m_size d -> 0 <= nextStep d x.
Proof. intros d x H. unfold nextStep. pose proof (u32_nonneg (Z.lor (Z.shiftr x 1) (Z.land x 1))). destruct (m_type d); auto; [lia|]. destruct (m_size d =? 0); auto. apply u32_nonneg. Qed.
Lemma base_opt : forall s (P : cost -> Prop) d v, Base s P d -> length v = n -> Base s P (setOpt d v).
Proof. intros s P d v B L. destruct B. constructor; cbn [setOpt m_type m_lev m_opt m_low m_size]; auto. Qed.
Lemma base_size : forall s (P : cost -> Prop) d z, Base s P d -> 0 <= z -> Base s P (setSize d z).
Proof. intros s P d z B L. destruct B. constructor; cbn [setSize m_type m_lev m_opt m_low m_size]; auto. Qed.
Lemma opt_len : forall s d, length (m_opt d) = n -> length (put (m_opt d) s 0) = n. Proof. intros. rewrite put_len. auto. Qed.

Lemma visit_ok : forall s (P : cost -> Prop) d v i, SI s -> (forall c, P c -> M c) -> s_gen s <> 0%nat -> Base s P d -> Read s d v -> Mid s d i -> (i < n)%nat ->
  (Exh s P /\ ((forall c, M c -> P c) -> FinalR (visit n (m_lev d) i (at_ v i) (at_ (s_lower s) i) d))) \/ VisitOk s P v i (visit n (m_lev d) i (at_ v i) (at_ (s_lower s) i) d).
Proof.
  intros s P d v i I PM G B R MD IN. pose proof (b_lev _ _ _ B) as KN. unfold visit. rewrite (b_lin _ _ _ B).
  destruct (Nat.eqb_spec i (m_lev d)) as [EI|NI]; cbn [negb].
  2:{ destruct (Nat.ltb_spec (m_lev d) i) as [GT|LE].
    - (* above the current level *)
      cbn [orb]. destruct MD as [O|[X _]]; [|lia]. right. cbn [VisitOk setOpt setLow m_lev m_opt m_low]. destruct O as [O1 [O2 [O3 O4]]]. sp; auto.
      + apply (base_opt s P (setLow d (put (m_low d) i (at_ (s_lower s) i)))); [|rewrite put_len; apply (b_opt _ _ _ B)]. destruct B; constructor; cbn [setLow m_type m_lev m_opt m_low m_size]; auto.
        * rewrite put_len; auto.
        * intros c Pc A j J E. cbn [setLow m_lev m_low] in *. rewrite put_neq by lia. apply (b_lw0 c Pc A j J). intros x X. rewrite E by auto. apply put_neq. lia.
        * intros j J. rewrite put_neq by lia. apply b_eq0; auto.
      + left. unfold O23. cbn [setOpt setLow m_lev m_opt m_low m_size]. sp.
        * intros j J. rewrite !put_neq by lia. apply O1; auto.
        * intros j J. destruct (Nat.eq_dec i j) as [->|N]; [rewrite put_eq by (rewrite (b_opt _ _ _ B); auto); auto|rewrite put_neq by auto; apply O2; auto].
        * rewrite put_neq by lia. auto.
        * intros X. contradiction.
      + intros j J. rewrite put_neq by lia. apply (rd_eq _ _ _ R); auto.
    - (* below the current level *)
      cbn [orb]. pose proof (lower_le s P d v i I B R ltac:(lia)) as LL. rewrite (rd_eq _ _ _ R i ltac:(lia)) in *.
      destruct (Z.ltb_spec (at_ (m_low d) i) (at_ (s_lower s) i)) as [X|_]; [lia|]. rewrite Z.leb_refl. right. cbn [VisitOk setOpt m_lev m_opt m_low]. sp; auto.
      + apply base_opt; auto. rewrite put_len. apply (b_opt _ _ _ B).
      + destruct MD as [[O1 [O2 [O3 O4]]]|[X [P1 P2]]].
        * left. unfold O23. cbn [setOpt setLow m_lev m_opt m_low m_size]. rewrite put_neq by auto. sp; auto; [|intros j J; rewrite put_neq by lia; auto|contradiction].
          intros j J. destruct (Nat.eq_dec i j) as [->|N]; [rewrite put_eq by (rewrite (b_opt _ _ _ B); auto); auto|rewrite put_neq by auto; apply O1; auto].
        * right. unfold Pre. cbn [setOpt m_lev m_opt m_low]. sp; [lia| |intros j J; rewrite put_neq by lia; apply P2; lia].
          intros j J. destruct (Nat.eq_dec i j) as [->|N]; [rewrite put_eq by (rewrite (b_opt _ _ _ B); auto); auto|rewrite put_neq by auto; apply P1; lia].
      + apply (rd_eq _ _ _ R). }
  (* the current level *)
  subst i. set (k := m_lev d) in *. set (L := Z.max (at_ (m_low d) k) (at_ (s_lower s) k)).
  pose proof (fun c Pc A E => shared_low s P d c I PM B Pc A E) as SL. fold k L in SL.
  pose proof (base_low s P d L I PM B SL) as B1. fold k in B1. set (d1 := setLow d (put (m_low d) k L)) in *.
  assert (EV : eqp k v (m_low d1)) by (apply eqp_put, (rd_eq _ _ _ R)).
  assert (VK : at_ (upper s) k <= at_ v k).
  { destruct (Z_le_gt_dec (at_ (upper s) k) (at_ v k)) as [LE|GT]; auto. exfalso. apply (rd_le _ _ _ R). apply (lt_mono (S k)); [|auto].
    apply lt_S; [apply (eqp_trans k v (m_low d1)); auto; apply eqp_sym, (b_eq _ _ _ B1)|lia]. }
  assert (LO : at_ (m_low d1) k = L) by (unfold d1; cbn [setLow m_low]; rewrite put_eq by (rewrite (b_low _ _ _ B); auto); auto).
  destruct (Z.ltb_spec (at_ v k) L) as [X|UL].
  { left. split; [|intros _; unfold FinalR, stepInit, more; cbn [setSize m_type d1 setLow]; rewrite (b_lin _ _ _ B), Nat.eqb_refl; cbn [setLev m_lev]; rewrite Nat.ltb_irrefl; auto].
    intros c Pc BT. destruct (better_eq s P d c I B G Pc BT) as [E LE]. pose proof (SL c Pc (better_adm s c I BT) E). fold k in LE. lia. }
  assert (OK1 : Mid s d k -> at_ (m_opt d) k <> bMax -> OptOk s d1).
  { intros [O|[_ [_ P2]]] NB; [|exfalso; apply NB, P2; auto]. right. destruct O as [O1 [O2 [O3 O4]]]. unfold O23, d1. cbn [setLow m_lev m_opt m_low m_size]. fold k in O1, O2, O3 |- *. sp; auto. apply eqp_put; auto. }
  assert (VB : at_ v k <= 4611686018427387903) by (apply m_range; auto; apply (rd_M _ _ _ R)).
  destruct (Z.ltb_spec (at_ (m_opt d) k) L) as [X|BL].
  { destruct (more n d1) eqn:MO; [right; cbn [VisitOk]; sp; auto; apply OK1; auto; unfold bMax; lia|]. left. split; [|intros _; exact MO]. intros c Pc BT.
    destruct (better_eq s P d c I B G Pc BT) as [E LE]. fold k in E, LE. pose proof (SL c Pc (better_adm s c I BT) E).
    destruct MD as [O|[_ [_ P2]]]; [|rewrite (P2 k) in X by auto; unfold bMax in X; lia]. destruct O as [O1 [O2 [O3 O4]]]. fold k in O3.
    unfold more in MO. cbn [d1 setLow m_lev m_size] in MO. fold k in MO. rewrite (proj2 (Nat.ltb_lt k n) KN) in MO. cbn [andb] in MO. apply orb_false_iff in MO. destruct MO as [M1 M2].
    apply Z.ltb_ge in M1. apply negb_false_iff, Nat.eqb_eq in M2.
    unfold better in BT. rewrite (proj2 (Nat.eqb_neq _ _) G) in BT. apply (lt_nlt n c (upper s) BT). replace n with (S k) by lia.
    destruct BT as [j [J1 [J2 J3]]]. assert (JK : j = k).
    { destruct (Nat.eq_dec j k); auto. exfalso. rewrite (E j) in J3 by lia. rewrite (b_eq _ _ _ B j) in J3 by (fold k; lia). lia. }
    rewrite JK in J3; lia. }
  destruct (Z.ltb_spec (at_ (m_opt d) k) (at_ v k)) as [X|BV].
  { right. cbn [VisitOk]. split; auto. apply OK1; auto. unfold bMax; lia. }
  assert (P1 : eqp k (m_opt d) (m_low d)) by (destruct MD as [[O1 _]|[_ [P1 _]]]; auto).
  assert (P2 : forall j, (k < j < n)%nat -> at_ (m_opt d) j = bMax) by (intros j J; destruct MD as [[_ [O2 _]]|[_ [_ P2]]]; [apply O2; auto|apply P2; lia]).
  destruct (Z.eqb_spec (at_ v k) L) as [UE|UN].
  { (* next level *)
    unfold stepInit. cbn [setOpt setSize m_type m_low m_lev d1 setLow setLev m_opt]. rewrite (b_lin _ _ _ B). fold k.
    destruct (Nat.eqb_spec (S k) n) as [EN|NN].
    - left. split; [|intros _; cbn [FinalR setLev m_lev m_type]; sp; auto; apply (b_lin _ _ _ B)]. intros c Pc BT. destruct (better_eq s P d c I B G Pc BT) as [E LE]. fold k in E, LE. pose proof (SL c Pc (better_adm s c I BT) E).
      unfold better in BT. rewrite (proj2 (Nat.eqb_neq _ _) G) in BT. destruct BT as [j [J1 [J2 J3]]]. assert (JK : j = k).
      { destruct (Nat.eq_dec j k); auto. exfalso. rewrite (E j) in J3 by lia. rewrite (b_eq _ _ _ B j) in J3 by (fold k; lia). lia. }
      rewrite JK in J3; lia.
    - destruct (Z.eq_dec (at_ (upper s) k) L) as [UP|UP].
      2:{ left. split; [|intros MP; exfalso; apply UP; destruct (si_up s I G) as [U1 U2]; pose proof (SL (upper s) (MP _ U1) U2 (b_eq _ _ _ B)); lia]. intros c Pc BT. destruct (better_eq s P d c I B G Pc BT) as [E LE]. fold k in E, LE. pose proof (SL c Pc (better_adm s c I BT) E). lia. }
      right. cbn [VisitOk setOpt setSize setLow setLev m_lev m_opt m_low m_type m_size]. sp; auto.
      + constructor; cbn [setOpt setSize setLow setLev m_lev m_opt m_low m_type m_size].
        * apply (b_lin _ _ _ B).
        * lia.
        * rewrite put_len. apply (b_opt _ _ _ B).
        * rewrite !put_len. apply (b_low _ _ _ B).
        * destruct (m_type d); lia.
        * intros c Pc A j J E. cbn [setOpt setSize setLow setLev m_lev m_opt m_low m_type m_size] in *. destruct (Nat.eq_dec j (S k)) as [->|NJ].
          -- rewrite put_eq by (rewrite put_len, (b_low _ _ _ B); lia). pose proof (m_range c (S k) (PM c Pc) ltac:(lia)). pose proof (low0_min (S k) ltac:(lia)). unfold bMax. lia.
          -- rewrite put_neq by lia. apply (b_lw _ _ _ B1 c Pc A j); [unfold d1; cbn [setLow m_lev]; fold k; lia|]. intros x X. rewrite (E x X). unfold d1; cbn [setLow m_low]. apply put_neq. lia.
        * intros j J. rewrite put_neq by lia. destruct (Nat.eq_dec j k) as [->|NJ]; [rewrite UP; symmetry; exact LO|]. apply (b_eq _ _ _ B1). unfold d1; cbn [setLow m_lev]; fold k; lia.
        * contradiction.
      + right. split; [cbn [setOpt setSize setLow setLev m_lev m_opt m_low]; lia|]. unfold Pre. cbn [setOpt setSize setLow setLev m_lev m_opt m_low]. split.
        * intros j J. rewrite (put_neq (put (m_low d) k L)) by lia. destruct (Nat.eq_dec k j) as [<-|NJ]; [rewrite !put_eq by (rewrite ?(b_opt _ _ _ B), ?(b_low _ _ _ B); auto); auto|].
          rewrite !put_neq by auto. apply P1. lia.
        * intros j J. rewrite put_neq by lia. apply P2. lia.
      + intros j J. rewrite (put_neq (put (m_low d) k L)) by lia. destruct (Nat.eq_dec k j) as [<-|NJ]; [rewrite put_eq by (rewrite (b_low _ _ _ B); auto); auto|].
        rewrite put_neq by auto. apply (rd_eq _ _ _ R). fold k. lia. }
  (* a new step *)
  assert (LG : - 4611686018427387904 <= L) by (unfold L; pose proof (si_low0 s I k KN); pose proof (low0_min k KN); lia).
  destruct (Z.ltb_spec bMax (at_ v k - L)) as [X|_]; [unfold bMax in X; lia|].
  right. set (z := nextStep d1 (at_ v k - L)). assert (ZN : 0 <= z) by (apply nextStep_nonneg; apply (b_size _ _ _ B1)).
  cbn [VisitOk setOpt setSize m_lev m_opt m_low m_type m_size]. sp; auto.
  - apply (base_opt s P (setSize d1 z)); [apply base_size; auto|]. rewrite put_len. apply (b_opt _ _ _ B1).
  - left. unfold O23. cbn [setOpt setSize m_lev m_opt m_low m_type m_size d1 setLow]. fold k. rewrite put_eq by (rewrite (b_opt _ _ _ B); auto). sp; auto; try lia; try contradiction.
    + apply eqp_put_l, eqp_put; auto.
    + intros j J. rewrite put_neq by lia. apply P2; auto.
Qed.
End Inv.
