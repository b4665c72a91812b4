(** The propagation loop after a new bound. *)
From Coq Require Import List Bool Arith ZArith Lia Permutation Sorted.
From Verif Require Import Base MnModel MnSpec MnProofs MnProofs2 MnProofs3 MnProofs4 MnProofs5 MnProofs6 MzModel MzProofs MzProofs2 MzProofs3 MzProofs4 MzProofs5.
Import ListNotations.
Open Scope Z_scope.

Section P.
Variable d : data.
Hypothesis DO : DOk d.
Notation n := (numRules d).
Notation len := (length (lits d)).
Notation opt c := (fun j => nth j (c_opt c) 0).

Lemma bot_in : forall k (st : list (nat * bool)) u, In u (map fst (bottom k st)) -> In u (map fst st).
Proof. intros k st u U. apply in_map_iff in U. destruct U as [z [Z1 Z2]]. apply in_map_iff. exists z. split; auto. eapply bottom_incl. exact Z2. Qed.
Lemma bot_nd : forall k (st : list (nat * bool)), NoDup (map fst st) -> NoDup (map fst (bottom k st)).
Proof. intros k st H. unfold bottom. rewrite <- (firstn_skipn (length st - k) st), map_app in H. apply nodup_app_r in H. auto. Qed.
Lemma cis_dl : forall e c b W r, Inv d e c b -> Cis d e (c_undo c) W (c_opt c) r -> (fst r <= Nat.max (topLev d e (c_undo c)) (v_min e))%nat.
Proof. intros e c b W r I C. destruct (cs_top _ _ _ _ _ _ C) as [Q|[u [U Q]]]; [lia|]. pose proof (uok_top d e b _ _ _ u (i_uok _ _ _ _ _ (n_ci _ _ _ _ I)) (bot_in _ _ _ U)). lia. Qed.
Lemma cis_gtk : forall e c b W W' r k, Inv d e c b -> Cis d e (c_undo c) W (c_opt c) r -> (fst r <= k)%nat -> ~ lexGt n W W' -> lexGt n (fun j => Sk d e c k j + W' j) (opt c).
Proof.
  intros e c b W W' r k I C L N. apply (le_gt d (Sk d e c k) W W' (opt c) N). unfold Sk. eapply sub_gt; [exact DO| | | | |apply (cs_gt _ _ _ _ _ _ C)].
  - apply bot_nd. apply (i_nd _ _ _ _ _ (n_ci _ _ _ _ I)).
  - apply NoDup_filter. apply (i_nd _ _ _ _ _ (n_ci _ _ _ _ I)).
  - intros u U. apply filter_In. split; [unfold idxs; eapply bot_in; exact U|]. apply Nat.leb_le. pose proof (cs_lev _ _ _ _ _ _ C u U). lia.
  - intros u U. apply filter_In in U. apply (idx_range d _ _ _ _ u (n_ci _ _ _ _ I)), U.
Qed.
Lemma lex_irr : forall m f, ~ lexGt m f f.
Proof. intros m f [l [_ [_ H]]]. lia. Qed.
(** Removing levels above the implication level keeps the implication set. *)
Lemma cis_cut : forall e c b W r k e' c', Inv d e c b -> (b <= k <= v_dl e)%nat -> Cis d e (c_undo c) W (c_opt c) r -> (fst r <= k)%nat -> undoTo d e c k = (e', c') -> Cis d e' (c_undo c') W (c_opt c') r.
Proof.
  intros e c b W r k e' c' I L C RK E. destruct (undoTo_spec d DO e c b b k e' c' I ltac:(lia) ltac:(lia) E) as [I' [E1 [E2 [E3 [E4 [E5 [E6 [EA [pre [P1 [P2 P3]]]]]]]]]]].
  assert (SL : (snd r <= length (c_undo c'))%nat).
  { apply (bot_len d e k (snd r) pre); try rewrite <- P1; auto; [apply (cs_len _ _ _ _ _ _ C)|]. intros u U. pose proof (cs_lev _ _ _ _ _ _ C u U). lia. }
  assert (BS : bottom (snd r) (c_undo c) = bottom (snd r) (c_undo c')) by (rewrite P1; apply bottom_suffix; auto).
  constructor; rewrite ?E5, ?E3; auto.
  - intros u U. destruct (P3 u (bot_in _ _ _ U)) as [_ ->]. apply (cs_lev _ _ _ _ _ _ C u). rewrite BS. auto.
  - rewrite <- BS. apply (cs_gt _ _ _ _ _ _ C).
  - intros l M G. destruct (Nat.le_gt_cases k l) as [Q|Q]; [lia|]. apply (cs_min _ _ _ _ _ _ C l M). eapply gt_ext; [|exact G]. intros j _. cbn beta. f_equal. change (map fst (c_undo c')) with (idxs c'). change (map fst (c_undo c)) with (idxs c). rewrite (idx_filter d e c c' e' k pre P1 P2 P3 l ltac:(lia)). auto.
  - apply (cs_low _ _ _ _ _ _ C).
  - destruct (cs_top _ _ _ _ _ _ C) as [Q|[u [U Q]]]; auto. right. exists u. rewrite BS in U. split; auto. destruct (P3 u (bot_in _ _ _ U)) as [_ ->]. auto.
Qed.
Lemma seen_tight : forall e c b i k, Inv d e c b -> ~ lexGt n (sumI d (idxs c)) (opt c) -> In i (idxs c) -> TightI d e c k i.
Proof.
  intros e c b i k I N S X G. exfalso. apply N. specialize (X S).
  assert (Q : lexGt n (fun j => sumI d (idxs c) j + 0) (opt c)).
  { eapply (sub_gt d DO (i :: filter (fun i => Nat.leb (lv d e i) k) (idxs c)) (idxs c) (fun _ => 0)).
    - constructor; [|apply NoDup_filter, (i_nd _ _ _ _ _ (n_ci _ _ _ _ I))]. intros F. apply filter_In in F. destruct F as [_ F]. apply Nat.leb_le in F. lia.
    - apply (i_nd _ _ _ _ _ (n_ci _ _ _ _ I)).
    - intros u [<- |U]; auto. apply filter_In in U. apply U.
    - intros u U. apply (idx_range d _ _ _ _ u (n_ci _ _ _ _ I) U).
    - eapply gt_ext; [|exact G]. intros j _. cbn beta. cbn [sumI]. unfold Sk. lia. }
  eapply gt_ext; [|exact Q]. intros j _. cbn beta. lia.
Qed.
Definition PK (e : env) (c : mc) (b p : nat) : Prop := forall j, (j < p)%nat -> In j (idxs c) \/ falseAt e (litAt d j) (Nat.max (topLev d e (c_undo c)) b).
Definition TG (e : env) (c : mc) (b p : nat) : Prop := forall j k, (j < p)%nat -> (b <= k <= v_dl e)%nat -> TightI d e c k j.
Lemma advance : forall e c b idx r, Inv d e c b -> (v_min e <= b)%nat -> (idx < len)%nat -> Cis d e (c_undo c) (Wt d idx) (c_opt c) r -> falseAt e (litAt d idx) (fst r) -> TG e c b idx -> PK e c b (S idx) /\ TG e c b (S idx).
Proof.
  intros e c b idx r I VM L C FA T. pose proof (cis_dl _ _ _ _ _ I C) as RD. split.
  - intros j J. destruct (Nat.eq_dec j idx) as [->|NE]; [right; apply (false_mono _ _ _ _ FA); lia|].
    set (K := Nat.max (fst r) b). assert (KT : (K <= Nat.max (topLev d e (c_undo c)) b)%nat) by (unfold K; lia). pose proof (inv_top d e c b I) as TD. pose proof (n_base _ _ _ _ I) as BD.
    destruct (in_dec Nat.eq_dec j (idxs c)) as [S|S]; auto. right. apply (false_mono _ _ K); auto. apply (T j K); [lia|unfold K; lia|intros X; destruct (S X)|].
    apply (cis_gtk e c b (Wt d idx) (Wt d j) r); auto; [unfold K; lia|]. apply (d_sort d DO). lia.
  - intros j k J K. destruct (Nat.eq_dec j idx) as [->|NE]; [|apply T; auto; lia]. intros _ G. apply (false_mono _ _ _ _ FA). apply (cs_min _ _ _ _ _ _ C); auto. lia.
Qed.
Lemma sum_cut : forall e c b k e' c', Inv d e c b -> (b <= k <= v_dl e)%nat -> undoTo d e c k = (e', c') -> ~ lexGt n (sumI d (idxs c)) (opt c) -> ~ lexGt n (sumI d (idxs c')) (opt c').
Proof.
  intros e c b k e' c' I L E N G. apply N. destruct (undoTo_spec d DO e c b b k e' c' I ltac:(lia) ltac:(lia) E) as [I' [E1 [E2 [E3 [E4 [E5 [E6 [EA [pre [P1 [P2 P3]]]]]]]]]]]. rewrite E5 in G.
  eapply gt_ext; [|eapply (sub_gt d DO (idxs c') (idxs c) (fun _ => 0))].
  - intros j _. cbn beta. lia.
  - apply (i_nd _ _ _ _ _ (n_ci _ _ _ _ I')).
  - apply (i_nd _ _ _ _ _ (n_ci _ _ _ _ I)).
  - intros u U. unfold idxs. rewrite P1, map_app. apply in_or_app; auto.
  - intros u U. apply (idx_range d _ _ _ _ u (n_ci _ _ _ _ I) U).
  - eapply gt_ext; [|exact G]. intros j _. cbn beta. lia.
Qed.
Definition Clash (e : env) (c : mc) : Prop := exists i, (i < len)%nat /\ valOf e (litAt d i) /\ ~ In i (idxs c) /\ lexGt n (fun j => sumI d (idxs c) j + Wt d i j) (opt c).
Lemma loop_opt : forall rest idx e c b il lastW stop r e' c', rest = skipn idx (lits d) -> (idx <= len)%nat -> Inv d e c b -> (v_min e <= b)%nat -> (b <= v_min e \/ b <= v_bt e)%nat -> ~ lexGt n (sumI d (idxs c)) (opt c) ->
  PK e c b idx -> TG e c b idx -> ((idx < len)%nat -> (c_act c <= levelAt d idx)%nat) ->
  (0 <= lastW -> exists i, (i < len)%nat /\ wAt d i = lastW /\ lexGt n (fun j => sumI d (idxs c) j + Wt d i j) (opt c) /\ Cis d e (c_undo c) (Wt d i) (c_opt c) (il, stop)) ->
  propLoop d true rest idx e c il lastW stop = (r, e', c') ->
  Inv d e' c' b /\ (v_dl e' <= v_dl e)%nat /\ v_min e' = v_min e /\ c_opt c' = c_opt c /\ ~ lexGt n (sumI d (idxs c')) (opt c') /\
  (if r then TG e' c' b len else (c_pos c = 0%nat -> c_pos c' = 0%nat) /\ Clash e' c').
Proof.
  intros rest. induction rest as [|[x w] rest IH]; intros idx e c b il lastW stop r e' c' RE IL I VM BT NG P T AL LW PR; cbn [propLoop] in PR.
  - inversion PR; subst. assert (idx = len). { apply f_equal with (f := @length _) in RE. rewrite skipn_length in RE. cbn in RE. lia. } subst idx. sp; auto.
  - assert (LT : (idx < len)%nat). { destruct (Nat.eq_dec idx len); [|lia]. subst. rewrite skipn_all in RE. discriminate. }
    rewrite (skipn_cons _ idx (lits d) (lit_true, 0) LT) in RE. inversion RE as [[RE1 RE2]]. specialize (AL LT).
    assert (X1 : x = litAt d idx) by (unfold litAt; rewrite <- RE1; auto). assert (X2 : w = wAt d idx) by (unfold wAt; rewrite <- RE1; auto). clear RE RE1.
    assert (ALN : forall a, (a <= levelAt d idx)%nat -> (S idx < len)%nat -> (a <= levelAt d (S idx))%nat) by (intros a Q R; pose proof (lev_mono d DO idx (S idx) ltac:(lia)); lia).
    cbn [negb andb] in PR. rewrite orb_false_r in PR. destruct (c_seen c idx) eqn:SK.
    + apply (i_seen _ _ _ _ _ (n_ci _ _ _ _ I)) in SK. apply (IH (S idx) e c b il lastW stop r e' c'); auto; try lia.
      * intros j J. destruct (Nat.eq_dec j idx) as [->|NE]; auto. apply P. lia.
      * intros j k J K. destruct (Nat.eq_dec j idx) as [->|NE]; [apply (seen_tight e c b); auto|apply T; auto; lia].
    + assert (NS : ~ In idx (idxs c)) by (intros Q; apply (i_seen _ _ _ _ _ (n_ci _ _ _ _ I)) in Q; congruence).
      remember (if lastW =? w then (true, c_act c) else impW d (c_sum c) w (c_opt c) (c_act c)) as ba eqn:BA. destruct ba as [bb act].
      assert (BB : (bb = true <-> lexGt n (fun j => sumI d (idxs c) j + Wt d idx j) (opt c)) /\ (act <= levelAt d idx)%nat /\ eqUpTo act (c_sum c) (c_opt c)).
      { destruct (Z.eqb_spec lastW w) as [E|E].
        - inversion BA; subst bb act. sp; auto; [|apply (i_eq _ _ _ _ _ (n_ci _ _ _ _ I))]. split; auto. intros _. destruct (LW ltac:(rewrite E, X2; apply (d_wnn d DO); auto)) as [i [L1 [L2 [L3 _]]]]. eapply gt_ext; [|exact L3]. intros j _. cbn beta. rewrite (d_same d DO i idx); auto. congruence.
        - rewrite X2 in BA. destruct (imp_at d DO idx LT (c_sum c) (c_opt c) (c_act c) AL (i_eq _ _ _ _ _ (n_ci _ _ _ _ I))) as [Q1 [Q2 Q3]]. rewrite <- BA in *. cbn [fst snd] in *. sp; auto. rewrite Q1. apply (sum_gt d e c b); auto. }
      destruct BB as [B1 [B2 B3]]. pose proof (d_lev d DO idx ltac:(lia)) as LN. assert (I1 : Inv d e (setAct c act) b) by (apply inv_act; auto; lia).
      destruct bb; cbn [negb] in PR.
      * assert (GT : lexGt n (fun j => sumI d (idxs c) j + Wt d idx j) (opt c)) by (apply B1; auto).
        remember (if negb (lastW =? w) then computeImplicationSet d e (setAct c act) w else (il, stop)) as rr eqn:RR.
        assert (CC : Cis d e (c_undo c) (Wt d idx) (c_opt c) rr).
        { destruct (Z.eqb_spec lastW w) as [E|E]; cbn [negb] in RR; subst rr.
          - destruct (LW ltac:(rewrite E, X2; apply (d_wnn d DO); auto)) as [i [L1 [L2 [_ L3]]]]. apply (cis_ext d e _ (Wt d i)); auto. intros j. apply (d_same d DO i idx). congruence.
          - rewrite X2. apply (comp_spec d DO e b (setAct c act) (wAt d idx) (Wt d idx) (levelAt d idx)); auto; [apply (n_ci _ _ _ _ I1)|apply imp_at; auto]. }
        destruct rr as [il1 stop1]. cbv zeta in PR.
        pose proof (cis_dl _ _ _ _ _ I CC) as RD. cbn [fst] in RD. pose proof (inv_top d e c b I) as TD. pose proof (n_base _ _ _ _ I) as BD.
        assert (LWN : forall e2 c2 il2 stop2, Inv d e2 c2 b -> c_opt c2 = c_opt c -> Cis d e2 (c_undo c2) (Wt d idx) (c_opt c2) (il2, stop2) -> 0 <= w -> exists i, (i < len)%nat /\ wAt d i = w /\ lexGt n (fun j => sumI d (idxs c2) j + Wt d i j) (opt c2) /\ Cis d e2 (c_undo c2) (Wt d i) (c_opt c2) (il2, stop2)).
        { intros e2 c2 il2 stop2 J2 O2 C2 _. exists idx. sp; auto. 
          eapply gt_ext; [|apply (cis_gtk e2 c2 b (Wt d idx) (Wt d idx) (il2, stop2) (Nat.max (v_dl e2) il2) J2 C2)]; [|cbn [fst]; lia|apply lex_irr]. intros j _. cbn beta. rewrite (sk_all d e2 c2 b); auto. lia. }
        destruct (negb (isFalse (pv e) x) || Nat.ltb il1 (v_dl e) && Nat.ltb il1 (levelOf e (fst x))) eqn:BR.
        -- remember (if Nat.eqb il1 (v_dl e) then (e, setAct c act) else undoUntil d e (setAct c act) il1) as ec eqn:EC. destruct ec as [e1 c1]. rewrite X1 in PR.
           assert (F1 : Inv d e1 c1 b /\ (il1 <= v_dl e1 <= v_dl e)%nat /\ v_min e1 = v_min e /\ v_bt e1 = v_bt e /\ c_opt c1 = c_opt c /\ (c_pos c = 0%nat -> c_pos c1 = 0%nat) /\ (c_act c1 <= act)%nat /\ incl (idxs c1) (idxs c) /\ ~ lexGt n (sumI d (idxs c1)) (opt c1) /\ TG e1 c1 b idx /\ Cis d e1 (c_undo c1) (Wt d idx) (c_opt c1) (il1, stop1)).
           { destruct (Nat.eqb_spec il1 (v_dl e)) as [Q|Q]; [inversion EC; subst; sp; auto; try lia; apply incl_refl|].
             unfold undoUntil in EC. set (K := Nat.min (Nat.max il1 (v_bt e)) (v_dl e)).
             assert (EK : undoTo d e (setAct c act) K = (e1, c1)). { rewrite EC. unfold undoTo. replace (Nat.min K (v_dl e)) with K by (unfold K; lia). reflexivity. } clear EC.
             pose proof (cs_low _ _ _ _ _ _ CC) as CL. cbn [fst] in CL.
             assert (BK : (b <= K <= v_dl e)%nat) by (unfold K; destruct BT; lia).
             destruct (undoTo_spec d DO e (setAct c act) b b K e1 c1 I1 ltac:(lia) ltac:(lia) EK) as [I' [E1 [E2 [E3 [E4 [E5 [E6 [EA [pre [P1 [P2 P3]]]]]]]]]]].
             sp; auto; try (unfold K in *; lia).
             - intros u U. unfold idxs in *. cbn [setAct c_undo] in P1. rewrite P1, map_app. apply in_or_app; auto.
             - apply (sum_cut e (setAct c act) b K e1); auto.
             - intros j k J JK. apply (tight_cut d DO e (setAct c act) b b K e1 c1); auto; try lia. apply T; auto. lia.
             - apply (cis_cut e (setAct c act) b (Wt d idx) (il1, stop1) K e1 c1); auto. unfold K. cbn [fst]. lia. }
           destruct F1 as [J1 [D1 [M1 [BT1 [O1 [PZ [A1 [IN1 [NG1 [T1 C1]]]]]]]]]]. clear EC.
           destruct (force e1 (neg (litAt d idx)) il1 stop1 (c_opt c1)) as [ok e2] eqn:F.
           pose proof (force_spec d e1 c1 b idx il1 stop1 e2 ok J1 LT ltac:(lia) (cs_len _ _ _ _ _ _ C1) (cs_lev _ _ _ _ _ _ C1) (cs_gt _ _ _ _ _ _ C1) F) as FS.
           destruct ok.
           ++ destruct FS as [X [J2 FA]].
              assert (C2 : Cis d e2 (c_undo c1) (Wt d idx) (c_opt c1) (il1, stop1)) by (apply (ext_cis d e1 e2); auto; intros i Y; apply (i_in _ _ _ _ _ (n_ci _ _ _ _ J1) i Y)).
              assert (T2 : TG e2 c1 b idx) by (intros j k J K; apply (ext_tight d e1 e2 c1 b); auto; apply T1; auto; rewrite (x_dl _ _ X) in K; auto).
              destruct (advance e2 c1 b idx (il1, stop1) J2 ltac:(rewrite (x_min _ _ X), M1; auto) LT C2 FA T2) as [P3 T3].
              destruct (IH (S idx) e2 c1 b il1 w stop1 r e' c' RE2 ltac:(lia) J2) as [R1 [R2 [R3 [R4 [R5 R6]]]]]; auto; rewrite ?(x_min _ _ X), ?(x_bt _ _ X), ?M1, ?BT1; auto.
              { intros Q. apply ALN; auto. lia. }
              sp; auto; try congruence.
              ** rewrite (x_dl _ _ X) in R2. lia.
              ** rewrite R3, (x_min _ _ X). auto.
              ** destruct r; auto. destruct R6. split; auto.
           ++ destruct FS as [-> V]. inversion PR; subst. sp; auto; try lia. exists idx. sp; auto.
              eapply gt_ext; [|apply (cis_gtk e' c' b (Wt d idx) (Wt d idx) (il1, stop1) (v_dl e') J1 C1)]; [|cbn [fst]; lia|apply lex_irr]. intros j _. cbn beta. rewrite (sk_all d e' c' b); auto.
        -- apply orb_false_elim in BR. destruct BR as [BR1 BR2]. apply negb_false_iff in BR1.
           assert (FA : falseAt e (litAt d idx) il1).
           { rewrite X1 in *. destruct (val_false _ _ BR1) as [m [A B]]. pose proof (n_lev _ _ _ _ I _ _ A) as Q. exists m. sp; auto. unfold levelOf in BR2. rewrite A in BR2. apply andb_false_iff in BR2. destruct BR2 as [BR2|BR2]; apply Nat.ltb_ge in BR2; lia. }
           destruct (advance e (setAct c act) b idx (il1, stop1) I1 VM LT CC FA T) as [P3 T3].
           destruct (IH (S idx) e (setAct c act) b il1 w stop1 r e' c' RE2 ltac:(lia) I1 VM BT NG P3 T3) as [R1 [R2 [R3 [R4 [R5 R6]]]]]; auto. sp; auto.
      * inversion PR; subst. assert (NG' : ~ lexGt n (fun j => sumI d (idxs c) j + Wt d idx j) (opt c)) by (intros Q; apply B1 in Q; discriminate).
        assert (I2 : Inv d e' (setPos (setAct c act) idx) b) by (apply inv_pos; auto).
        sp; auto. intros i k L K. destruct (Nat.le_gt_cases idx i) as [Q|Q].
        -- apply (tight_ok d DO e' _ b); auto. change (idxs (setPos (setAct c act) idx)) with (idxs c). cbn [setPos setAct c_opt]. apply (rest_ok d DO e' c b idx); auto.
        -- apply T; auto.
Qed.
End P.
