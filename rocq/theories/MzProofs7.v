(** Every reachable state satisfies the invariant. *)
From Coq Require Import List Bool Arith ZArith Lia Permutation Sorted.
From Verif Require Import Base MnModel MnSpec MnProofs MnProofs2 MnProofs3 MnProofs4 MnProofs5 MnProofs6 MzModel MzProofs MzProofs2 MzProofs3 MzProofs4 MzProofs5 MzProofs6.
Import ListNotations.
Open Scope Z_scope.

Section P.
Variable d : data.
Hypothesis DO : DOk d.
Notation n := (numRules d).
Notation len := (length (lits d)).
Notation opt c := (fun j => nth j (c_opt c) 0).

Lemma nd_range : forall (l : list nat) m, NoDup l -> (forall i, In i l -> (i < m)%nat) -> (length l <= m)%nat.
Proof. intros l m N R. rewrite <- (seq_length m 0). apply NoDup_incl_length; auto. intros i I. apply in_seq. specialize (R i I). lia. Qed.
(** Without a bound nothing is exceeded. *)
Lemma off_ok : forall l B, NoDup l -> (forall i, In i l -> (i < len)%nat) -> nth 0 B 0 = maxBound -> ~ lexGt n (sumI d l) (fun j => nth j B 0).
Proof.
  intros l B N R E [k [K1 [K2 K3]]]. pose proof (sumI_max d DO l 0%nat R) as S. pose proof (nd_range l len N R) as LL. pose proof (d_len d DO) as DL.
  assert (Q : sumI d l 0 < maxBound). { unfold maxBound, int_max in *. nia. }
  destruct k; [rewrite E in K3; lia|]. specialize (K2 0%nat ltac:(lia)). cbn beta in K2. rewrite E in K2. lia.
Qed.
Lemma off_tight : forall e c b k i, Inv d e c b -> (i < len)%nat -> nth 0 (c_opt c) 0 = maxBound -> TightI d e c k i.
Proof.
  intros e c b k i I L E X G. exfalso. apply (off_ok (i :: filter (fun i => Nat.leb (lv d e i) k) (idxs c)) (c_opt c)); auto.
  - constructor; [|apply NoDup_filter, (i_nd _ _ _ _ _ (n_ci _ _ _ _ I))]. intros F. apply filter_In in F. destruct F as [F1 F2]. specialize (X F1). apply Nat.leb_le in F2. lia.
  - intros u [<- |U]; auto. apply filter_In in U. apply (idx_range d _ _ _ _ u (n_ci _ _ _ _ I)), U.
  - eapply gt_ext; [|exact G]. intros j _. cbn beta. cbn [sumI]. unfold Sk. lia.
Qed.
Lemma off_sum : forall e c b, Inv d e c b -> nth 0 (c_opt c) 0 = maxBound -> ~ lexGt n (sumI d (idxs c)) (opt c).
Proof. intros e c b I E. apply off_ok; auto; [apply (i_nd _ _ _ _ _ (n_ci _ _ _ _ I))|]. intros u U. apply (idx_range d _ _ _ _ u (n_ci _ _ _ _ I) U). Qed.

Lemma nth_repeat_lt : forall k (x : Z) m, (k < m)%nat -> nth k (repeat x m) 0 = x.
Proof. intros k x m. revert k. induction m as [|m IH]; intros k L; [lia|]. destruct k; cbn; auto. apply IH. lia. Qed.
Definition MI (e : env) (c : mc) (m : mode) (b : nat) : Prop :=
  match m with
  | Ready => TG d e c b len /\ ~ lexGt n (sumI d (idxs c)) (opt c)
  | Conflict => (forall i k, (i < len)%nat -> (b <= k < v_dl e)%nat -> TightI d e c k i) /\ ~ lexGt n (sumI d (idxs c)) (opt c)
  | Pending t => (v_min e <= b)%nat /\ (c_pos c = 0%nat \/ v_dl e = b) /\ ~ lexGt n (Sk d e c t) (opt c)
  end.
Definition SI (s : st) : Prop := Inv d (t_e s) (t_c s) (t_base s) /\ MI (t_e s) (t_c s) (t_m s) (t_base s).

(** * propagate *)
Lemma push_spec : forall e c b i e1 c1, Inv d e c b -> (i < len)%nat -> c_seen c i = false -> valOf e (litAt d i) -> lv d e i = v_dl e -> ~ lexGt n (fun j => sumI d (idxs c) j + Wt d i j) (opt c) ->
  pushUndo d e c i = (e1, c1) -> let c2 := M (c_opt c1) (addW d (c_sum c1) (wAt d i)) (c_undo c1) (c_posSt c1) (c_seen c1) (c_pos c1) (c_act c1) in
  forall a, (a < n)%nat -> (a <= c_act c)%nat -> (a <= levelAt d i)%nat ->
  Inv d e1 (setAct c2 a) b /\ v_asn e1 = v_asn e /\ v_dl e1 = v_dl e /\ v_min e1 = v_min e /\ v_bt e1 = v_bt e /\ idxs c2 = i :: idxs c /\ c_opt c2 = c_opt c /\ c_pos c2 = c_pos c /\ topLev d e1 (c_undo c2) = v_dl e1 /\ c_act c1 = c_act c /\ length (c_undo c2) = S (length (c_undo c)).
Proof.
  intros e c b i e1 c1 I L SN V LV NG P c2 a AN AC AL. pose proof (n_ci _ _ _ _ I) as C. pose proof (inv_top d e c b I) as TD.
  assert (NI : ~ In i (idxs c)) by (intros X; apply (i_seen _ _ _ _ _ C) in X; congruence).
  destruct (d_add d DO i (c_sum c) L (i_slen _ _ _ _ _ C)) as [A1 A2].
  assert (F : v_asn e1 = v_asn e /\ v_dl e1 = v_dl e /\ v_min e1 = v_min e /\ v_bt e1 = v_bt e /\ c_opt c1 = c_opt c /\ c_sum c1 = c_sum c /\ c_pos c1 = c_pos c /\ c_act c1 = c_act c /\ (exists nd, c_undo c1 = (i, nd) :: c_undo c) /\ (forall j, c_seen c1 j = true <-> In j (i :: idxs c)) /\ UOk d e b (c_undo c1) (c_posSt c1) (v_uw e1)).
  { assert (SE : forall j, upd (c_seen c) i true j = true <-> In j (i :: idxs c)).
    { intros j. unfold upd. destruct (Nat.eqb_spec j i) as [->|NE]; [split; [cbn; auto|auto]|]. rewrite (i_seen _ _ _ _ _ C). cbn. split; [auto|intros [X|X]; [congruence|auto]]. }
    unfold pushUndo in P. assert (LU : lastUndoLevel d e c = topLev d e (c_undo c)) by reflexivity. rewrite LU in P. destruct (Nat.eqb_spec (topLev d e (c_undo c)) (v_dl e)) as [E|E]; inversion P; subst e1 c1; cbn [v_asn v_dl v_min v_bt v_uw c_opt c_sum c_undo c_posSt c_seen c_pos c_act]; sp; auto.
    - exists false. auto.
    - cbn [UOk]. split; [congruence|apply (i_uok _ _ _ _ _ C)].
    - exists true. auto.
    - cbn [UOk]. sp; auto; [lia|apply (i_pos _ _ _ _ _ C)| |apply (i_uok _ _ _ _ _ C)].
      intros j J _. rewrite (proj2 (Nat.leb_le b (v_dl e)) (n_base _ _ _ _ I)). apply (i_posok _ _ _ _ _ C j J). }
  destruct F as [F1 [F2 [F3 [F4 [F5 [F6 [F7 [F8 [[nd F9] [F10 F11]]]]]]]]]].
  assert (IX : idxs c2 = i :: idxs c) by (unfold idxs; cbn [c_undo c2]; rewrite F9; auto).
  assert (LE : forall u, lv d e1 u = lv d e u) by (intros u; unfold lv, levelOf; rewrite F1; auto).
  assert (TE : forall st, topLev d e1 st = topLev d e st) by (intros [|[u ?] ?]; cbn [topLev]; auto).
  assert (X : Ext e (Ev (v_asn e1) (v_dl e) (v_uw e) (v_min e) (v_bt e))) by (constructor; auto; cbn [v_asn]; rewrite F1; intros v m A; exists m; auto).
  assert (UO : UOk d e1 b (c_undo c1) (c_posSt c1) (v_uw e1)).
  { revert F11. generalize (c_undo c1), (c_posSt c1), (v_uw e1). assert (FA : forall x k, falseAt e1 x k <-> falseAt e x k) by (intros; unfold falseAt; rewrite F1; tauto).
    induction l as [|[u nd0] l IHl]; intros ps us U; auto. cbn [UOk] in *. destruct nd0.
    - destruct ps; auto. destruct us; auto. destruct U as [U1 [U2 [U3 [U4 U5]]]]. rewrite LE, TE. sp; auto. intros j J JL. rewrite TE, FA. apply U4; auto.
    - destruct U as [U1 U2]. rewrite LE, TE. split; auto. }
  sp; auto; [|rewrite TE; cbn [c_undo c2]; rewrite F9; cbn [topLev]; congruence|cbn [c_undo c2]; rewrite F9; auto].
  constructor.
  - constructor; try change (idxs (setAct c2 a)) with (idxs c2); rewrite ?IX; cbn [setAct c2 c_opt c_sum c_undo c_posSt c_seen c_pos c_act]; rewrite ?F5, ?F6, ?F7; auto.
    + constructor; auto. apply (i_nd _ _ _ _ _ C).
    + intros u [<- |U]; [split; auto; unfold valOf, pv in *; rewrite F1; auto|]. destruct (i_in _ _ _ _ _ C u U) as [U1 U2]. split; auto. unfold valOf, pv in *. rewrite F1. auto.
    + apply (i_olen _ _ _ _ _ C).
    + intros j. rewrite A2. cbn [sumI]. rewrite (i_sum _ _ _ _ _ C). lia.
    + intros j J. rewrite A2. rewrite (i_eq _ _ _ _ _ C j) by lia. rewrite (d_low d DO i j L) by lia. lia.
    + apply (i_pos _ _ _ _ _ C).
    + intros j J. destruct (i_posok _ _ _ _ _ C j J) as [Q|Q]; [left; cbn; auto|]. right. unfold falseAt in *. rewrite F1. destruct Q as [m [Q1 [Q2 Q3]]]. exists m. sp; auto. rewrite TE, F9. cbn [topLev]. pose proof (n_base _ _ _ _ I). lia.
  - rewrite F1, F2. apply (n_lev _ _ _ _ I).
  - rewrite F1. intros v m stop B A W. destruct (n_why _ _ _ _ I v m stop B A W) as [u [I1 [I2 [I3 [I4 [I5 I6]]]]]]. exists u. cbn [setAct c2 c_undo]. rewrite F9. change ((i, nd) :: c_undo c) with ([(i, nd)] ++ c_undo c). rewrite (bottom_suffix _ stop [(i, nd)] (c_undo c) I4). sp; auto; [rewrite app_length; cbn [length]; lia|]. intros z Z. rewrite LE. auto.
  - rewrite F2. apply (n_base _ _ _ _ I).
Qed.
Lemma gt_not : forall e c b i, Inv d e c b -> (i < len)%nat -> c_seen c i = false -> valOf e (litAt d i) -> TG d e c b len -> ~ lexGt n (fun j => sumI d (idxs c) j + Wt d i j) (opt c).
Proof.
  intros e c b i I L SN V T G. assert (NI : ~ In i (idxs c)) by (intros X; apply (i_seen _ _ _ _ _ (n_ci _ _ _ _ I)) in X; congruence).
  apply (true_not_false e (litAt d i) (v_dl e)); auto. pose proof (n_base _ _ _ _ I). apply (T i (v_dl e)); [auto|lia|intros X; destruct (NI X)|]. eapply gt_ext; [|exact G]. intros j _. cbn beta. rewrite (sk_all d e c b); auto.
Qed.
Lemma propagate_spec : forall e c b i r e' c', Inv d e c b -> TG d e c b len -> (i < len)%nat -> c_seen c i = false -> valOf e (litAt d i) -> lv d e i = v_dl e ->
  propagate d e c i = (r, e', c') -> Inv d e' c' b /\ MI e' c' (if r then Ready else Conflict) b /\ c_opt c' = c_opt c /\ idxs c' = i :: idxs c /\ v_dl e' = v_dl e /\
    (forall v m, v_asn e v = Some m -> exists m', v_asn e' v = Some m' /\ e_val m' = e_val m) /\ (r = false -> Clash d e' c').
Proof.
  intros e c b i r e' c' I T L SN V LV P. unfold propagate in P. destruct (pushUndo d e c i) as [e1 c1] eqn:PU. pose proof (gt_not e c b i I L SN V T) as NG.
  pose proof (push_spec e c b i e1 c1 I L SN V LV NG PU) as PS. cbv zeta in PS. set (c2 := M (c_opt c1) (addW d (c_sum c1) (wAt d i)) (c_undo c1) (c_posSt c1) (c_seen c1) (c_pos c1) (c_act c1)) in *.
  set (c3 := setAct c2 (Nat.min (c_act c2) (levelAt d (c_pos c2)))) in *.
  pose proof (i_act _ _ _ _ _ (n_ci _ _ _ _ I)) as AN. pose proof (n_base _ _ _ _ I) as BD.
  (* the active level is at most the level of the new literal *)
  assert (SN' : ~ In i (idxs c)) by (intros X; apply (i_seen _ _ _ _ _ (n_ci _ _ _ _ I)) in X; congruence).
  assert (PI : (c_pos c <= i)%nat). { destruct (Nat.le_gt_cases (c_pos c) i) as [Q|Q]; auto. destruct (i_posok _ _ _ _ _ (n_ci _ _ _ _ I) i Q) as [R|R]; [destruct (SN' R)|]. destruct (true_not_false _ _ _ V R). }
  assert (LA : (levelAt d (c_pos c) <= levelAt d i)%nat) by (apply (lev_mono d DO); lia).
  destruct (PS 0%nat ltac:(pose proof (d_pos d DO); lia) ltac:(lia) ltac:(lia)) as [_ [S1 [S2 [S3 [S4 [S5 [S6 [S7 [S8 [S9 S10]]]]]]]]]].
  assert (A3 : c_act c2 = c_act c) by (cbn [c2 c_act]; auto). assert (J : Inv d e1 c3 b) by (unfold c3; rewrite S7, A3; apply PS; try lia).
  unfold propagateImpl in P. fold c3 in P. rewrite Nat.add_0_r in P. cbn [c_pos c_undo c3 setAct] in P.
  change (c_pos c2) with (c_pos c1) in P. assert (PC : c_pos c1 = c_pos c) by (exact S7). rewrite PC in P.
  change (length (c_undo c1)) with (length (c_undo c3)) in P.
  change (c_undo c2) with (c_undo c3) in S8.
  destruct (loop_sum d DO (skipn (c_pos c) (lits d)) (c_pos c) e1 c3 b (-1) r e' c' eq_refl ltac:(lia) J S8) as [X [J' [O' [U' R']]]]; auto; [|intros _; unfold c3; cbn [setAct c_act c2 c_pos]; rewrite PC; lia|lia|].
  { intros j JJ. change (idxs c3) with (idxs c2). rewrite S5. destruct (i_posok _ _ _ _ _ (n_ci _ _ _ _ I) j JJ) as [Q|Q]; [left; cbn; auto|]. right. pose proof (inv_top d e c b I). unfold falseAt in *. rewrite S1, S2. destruct Q as [m [Q1 [Q2 Q3]]]. exists m. sp; auto. lia. }
  assert (IX : idxs c' = i :: idxs c) by (unfold idxs at 1; rewrite U'; exact S5).
  assert (LE : forall u, lv d e1 u = lv d e u) by (intros u; unfold lv, levelOf; rewrite S1; auto).
  assert (TB : forall j k, (j < len)%nat -> (b <= k < v_dl e)%nat -> TightI d e' c' k j).
  { intros j k JL K. intros X0 G0.
    assert (T1 : TightI d e1 c3 k j).
    { intros X1 G1. assert (FF : falseAt e (litAt d j) k). { apply (T j k JL ltac:(lia)).
        - intros Y. rewrite <- LE. apply X1. change (idxs c3) with (idxs c2). rewrite S5. cbn; auto.
        - change (c_opt c3) with (c_opt c2) in G1. rewrite S6 in G1. eapply gt_ext; [|exact G1]. intros z _. cbn beta. f_equal. unfold Sk. change (idxs c3) with (idxs c2). rewrite S5. cbn [filter]. rewrite (LE i), LV. rewrite (proj2 (Nat.leb_gt (v_dl e) k)) by lia. f_equal. apply filter_ext. intros u. rewrite LE. auto. }
      unfold falseAt in *. rewrite S1. auto. }
    assert (T2 : TightI d e' c3 k j) by (apply (ext_tight d e1 e' c3 b); auto).
    unfold TightI, Sk, idxs in *. rewrite U', O' in *. auto. }
  assert (NG2 : ~ lexGt n (sumI d (idxs c')) (opt c')).
  { intros G. apply NG. rewrite IX, O' in G. change (c_opt c3) with (c_opt c2) in G. rewrite S6 in G. eapply gt_ext; [|exact G]. intros j _. cbn beta. cbn [sumI]. lia. }
  assert (OO : c_opt c' = c_opt c) by (rewrite O'; exact S6).
  pose proof (x_dl _ _ X) as DX. assert (DD : v_dl e' = v_dl e) by congruence. sp; auto.
  - destruct r; cbn [MI]; split; auto.
    + intros j k JL K. destruct (Nat.eq_dec k (v_dl e)) as [->|NE]; [rewrite S2 in R'; apply R'; auto|apply TB; auto; lia].
    + rewrite DD. auto.
  - intros v m A. rewrite <- S1 in A. destruct (x_old _ _ X v m A) as [m' [M1 [M2 _]]]. exists m'. auto.
  - intros ->. exact R'.
Qed.
(** * New bounds *)
Lemma base_up : forall e c b b' opt' pos act, CI d e c (v_uw e) b -> (b = 0 \/ b = b')%nat -> length opt' = n -> (act < n)%nat -> eqUpTo act (c_sum c) opt' -> (pos <= c_pos c)%nat ->
  CI d e (M opt' (c_sum c) (c_undo c) (c_posSt c) (c_seen c) pos act) (v_uw e) b'.
Proof.
  intros e c b b' opt' pos act C HB LO AN EQ PP. 
  constructor; unfold idxs; cbn [c_opt c_sum c_undo c_posSt c_seen c_pos c_act]; [apply (i_nd _ _ _ _ _ C)|apply (i_seen _ _ _ _ _ C)|apply (i_in _ _ _ _ _ C)| |auto|apply (i_slen _ _ _ _ _ C)|apply (i_sum _ _ _ _ _ C)|auto|auto| |].
  - pose proof (i_uok _ _ _ _ _ C) as U. revert U. generalize (c_undo c), (c_posSt c), (v_uw e). induction l as [|[i nd] l IH]; intros ps us U; auto. cbn [UOk] in *. destruct nd.
    + destruct ps as [|p0 ps]; auto. destruct us as [|L0 us]; auto. destruct U as [U1 [U2 [U3 [U4 U5]]]]. sp; auto. intros j J JL. destruct (U4 j J JL) as [Q|Q]; auto. right. apply (false_mono _ _ _ _ Q). destruct HB as [->| ->]; auto. destruct (Nat.leb 0 L0), (Nat.leb b' L0); lia.
    + destruct U; split; auto.
  - pose proof (i_pos _ _ _ _ _ C). lia.
  - intros j J. destruct (i_posok _ _ _ _ _ C j ltac:(lia)) as [Q|Q]; auto. right. apply (false_mono _ _ _ _ Q). destruct HB as [->| ->]; lia.
Qed.
Lemma ci_asn : forall e x1 x2 x3 x4 c uw b, CI d e c uw b -> CI d (Ev (v_asn e) x1 x2 x3 x4) c uw b.
Proof.
  intros e x1 x2 x3 x4 c uw b H. destruct H as [H1 H2 H3 U H5 H6 H7 H8 H9 H10 H11]. constructor; try assumption.
  clear - U. revert U. generalize (c_undo c), (c_posSt c), uw. induction l as [|[i nd] l IH]; intros ps us U; auto. cbn [UOk] in *. destruct nd.
  - destruct ps as [|p0 ps]; auto. destruct us as [|L0 us]; auto. destruct U as [U1 [U2 [U3 [U4 U5]]]]. sp; auto.
  - destruct U. split; auto.
Qed.
Lemma why_same : forall e c c' v m stop B, c_undo c' = c_undo c -> Why d e c v m stop B -> Why d e c' v m stop B.
Proof. intros e c c' v m stop B E W. unfold Why in *. rewrite E. auto. Qed.
Definition BoundPre (e : env) (c : mc) (b : nat) (B : list Z) (reset : bool) (m root : nat) : Prop :=
  length B = n /\ (m <= root <= v_dl e)%nat /\ (if reset then b = 0%nat \/ b = m else (b = 0%nat \/ b = v_dl e) /\ root = v_dl e /\ nth 0 (c_opt c) 0 = maxBound).
Lemma bound_inv : forall e c b B reset m root, Inv d e c b -> BoundPre e c b B reset m root -> Inv d (setMin e m) (newBound c B reset) (if reset then m else v_dl e) /\ (c_act (newBound c B reset) < n)%nat.
Proof.
  intros e c b B reset m root I [P1 [P2 P3]]. pose proof (n_ci _ _ _ _ I) as C. pose proof (d_pos d DO) as NP.
  assert (Q : CI d e (newBound c B reset) (v_uw e) (if reset then m else v_dl e) /\ (c_act (newBound c B reset) < n)%nat).
  { unfold newBound. destruct reset.
    - split; [|cbn; lia]. apply (base_up e c b); auto; [intros j J|]; lia.
    - destruct P3 as [Q1 [Q2 Q3]].
      assert (AZ : c_act c = 0%nat). { destruct (c_act c) as [|a] eqn:A; auto. exfalso. pose proof (i_eq _ _ _ _ _ C 0%nat ltac:(lia)) as E. rewrite Q3 in E. rewrite (i_sum _ _ _ _ _ C) in E.
        pose proof (sumI_max d DO (idxs c) 0%nat ltac:(intros u U; apply (idx_range d _ _ _ _ u C U))) as S. pose proof (nd_range (idxs c) len (i_nd _ _ _ _ _ C) ltac:(intros u U; apply (idx_range d _ _ _ _ u C U))) as LL. pose proof (d_len d DO) as DL. unfold maxBound, int_max in *. nia. }
      split; [|cbn; lia]. apply (base_up e c b); auto; try lia. rewrite AZ. intros j J. lia. }
  destruct Q as [Q1 Q2]. split; auto. constructor.
  - apply ci_asn with (1 := Q1).
  - apply (n_lev _ _ _ _ I).
  - intros v x stop B0 A W. exact (n_why _ _ _ _ I v x stop B0 A W).
  - cbn [setMin v_dl]. destruct reset; lia.
Qed.
Lemma target_spec : forall e c b B reset m root o c', Inv d e c b -> BoundPre e c b B reset m root -> target d (setMin e m) (newBound c B reset) root = (o, c') ->
  exists a, c' = setAct (newBound c B reset) a /\ Inv d (setMin e m) c' (if reset then m else v_dl e) /\ match o with
  | Some t => (t <= v_dl e)%nat /\ ~ lexGt n (Sk d e c t) (fun j => nth j B 0) /\ ((t < v_dl e)%nat -> lexGt n (Sk d e c (S t)) (fun j => nth j B 0))
  | None => lexGt n (Sk d e c root) (fun j => nth j B 0)
  end.
Proof.
  intros e c b B reset m root o c' I P T. destruct (bound_inv e c b B reset m root I P) as [J AN]. destruct P as [P1 [P2 P3]]. set (c1 := newBound c B reset) in *. set (e1 := setMin e m) in *. set (b' := if reset then m else v_dl e) in *.
  pose proof (n_ci _ _ _ _ J) as C. unfold target in T. destruct (imp_min d DO (c_sum c1) (c_opt c1) (c_act c1) ltac:(lia) (i_eq _ _ _ _ _ C)) as [I1 [I2 I3]]. destruct (impW d (c_sum c1) (minW d) (c_opt c1) (c_act c1)) as [bb act] eqn:IW. cbn [fst snd] in *.
  pose proof (d_pos d DO) as NP. assert (JA : Inv d e1 (setAct c1 act) b') by (apply inv_act; auto; lia).
  assert (SG : lexGt n (fun j => nth j (c_sum c1) 0 + 0) (opt c1) <-> lexGt n (fun j => sumI d (idxs c1) j + 0) (opt c1)) by (apply (sum_gt d e1 c1 b' (fun _ => 0)); auto).
  exists act. destruct bb; cbn [negb] in T.
  - assert (CC : Cis d e1 (c_undo c1) (fun _ => 0) (c_opt c1) (computeImplicationSet d e1 (setAct c1 act) (minW d))).
    { apply (comp_spec d DO e1 b' (setAct c1 act) (minW d) (fun _ => 0) (n - 1)); [apply (n_ci _ _ _ _ JA)|apply imp_min; auto|lia|auto|]. apply SG, I1. auto. }
    set (r := computeImplicationSet d e1 (setAct c1 act) (minW d)) in *. pose proof (cis_dl d e1 c1 b' _ r J CC) as RD. pose proof (inv_top d e1 c1 b' J) as TD. change (v_min e1) with m in RD. change (v_dl e1) with (v_dl e) in TD.
    assert (RB : forall k, (fst r <= k)%nat -> lexGt n (Sk d e c k) (fun j => nth j B 0)).
    { intros k K. pose proof (cis_gtk d DO e1 c1 b' (fun _ => 0) (fun _ => 0) r k J CC K ltac:(apply lex_irr)) as G. eapply gt_ext; [|exact G]. intros j _. cbn beta. change (Sk d e1 c1 k j) with (Sk d e c k j). lia. }
    destruct (Nat.ltb_spec root (fst r)) as [Q|Q]; inversion T; subst; sp; auto; try lia.
    + intros G. pose proof (cs_min _ _ _ _ _ _ CC (fst r - 1)%nat) as K. change (v_min e1) with m in K. specialize (K ltac:(lia)). cut (fst r <= fst r - 1)%nat; [lia|]. apply K. eapply gt_ext; [|exact G]. intros j _. cbn beta. change (sumI d (filter (fun i => Nat.leb (lv d e1 i) (fst r - 1)) (map fst (c_undo c1))) j) with (Sk d e c (fst r - 1) j). lia.
    + intros _. apply RB. lia.
  - inversion T; subst. sp; auto; try lia. intros G. cut (false = true); [discriminate|]. apply I1, SG. eapply gt_ext; [|exact G]. intros j _. cbn beta. rewrite (sk_all d e c b); auto. change (idxs c1) with (idxs c). lia.
Qed.
Lemma integrate_spec : forall e c b t bt r e' c', Inv d e c b -> MI e c (Pending t) b -> (v_dl e <= t)%nat -> (b <= v_min e \/ b <= bt)%nat -> propagateImpl d true (setBt e bt) c = (r, e', c') ->
  Inv d e' c' b /\ MI e' c' (if r then Ready else Pending t) b /\ (r = false -> Clash d e' c').
Proof.
  intros e c b t bt r e' c' I MM H H0 H1. 
    cbn [MI] in MM. destruct MM as [M1 [M2 M3]].
    assert (IB : Inv d (setBt e bt) (setAct c (Nat.min (c_act c) (levelAt d (c_pos c)))) b).
    { apply inv_act; [|pose proof (i_act _ _ _ _ _ (n_ci _ _ _ _ I)); lia|]. 
      - constructor; [apply ci_asn; apply (n_ci _ _ _ _ I)|apply (n_lev _ _ _ _ I)|exact (n_why _ _ _ _ I)|apply (n_base _ _ _ _ I)].
      - intros j J. apply (i_eq _ _ _ _ _ (n_ci _ _ _ _ I)). lia. }
    unfold propagateImpl in H1. set (c1 := setAct c (Nat.min (c_act c) (levelAt d (c_pos c)))) in *.
    assert (NG : ~ lexGt n (sumI d (idxs c1)) (opt c1)). { intros G. apply M3. eapply gt_ext; [|exact G]. intros j _. cbn beta. change (idxs c1) with (idxs c). rewrite (sk_all d e c b); auto. }
    assert (TG0 : TG d (setBt e bt) c1 b (c_pos c1)).
    { intros j k J K. cbn [setBt v_dl c1 setAct c_pos] in *. destruct M2 as [M2|M2]; [lia|]. assert (k = v_dl e) by lia. subst k. intros X G.
      destruct (i_posok _ _ _ _ _ (n_ci _ _ _ _ IB) j J) as [Q|Q].
      - specialize (X Q). pose proof (idx_lv d _ _ _ _ IB Q) as Y. cbn [setBt v_dl] in Y. lia.
      - apply (false_mono _ _ _ _ Q). pose proof (inv_top d _ _ _ IB) as Y. cbn [setBt v_dl] in Y. lia. }
    destruct (loop_opt d DO (skipn (c_pos c1) (lits d)) (c_pos c1) (setBt e bt) c1 b (v_dl (setBt e bt) + 1) (-1) (length (c_undo c1)) r e' c' eq_refl) as [R1 [R2 [R3 [R4 [R5 R6]]]]]; auto; try lia.
    + apply (i_pos _ _ _ _ _ (n_ci _ _ _ _ I)).
    + exact (i_posok _ _ _ _ _ (n_ci _ _ _ _ IB)).
    + intros _. cbn [c1 setAct c_act c_pos]. lia.
    + sp; auto; [|intros ->; apply R6]. destruct r; cbn [MI].
      * split; auto.
      * cbn [setBt v_dl v_min] in R2, R3. sp; [lia| |].
        -- destruct M2 as [M2|M2]; [left; apply R6; exact M2|right]. pose proof (n_base _ _ _ _ R1). lia.
        -- intros G. apply R5. eapply gt_ext; [|exact G]. intros j _. cbn beta. apply (sk_all d e' c' b); auto. lia.
Qed.
(** * Steps *)
Lemma step_si : forall s s', SI s -> step d s s' -> SI s'.
Proof.
  intros s s' [I MM] ST. destruct ST; cbn [t_e t_c t_m t_base] in *; unfold SI; cbn [t_e t_c t_m t_base].
  - (* assign *)
    set (m0 := En (negb (snd x)) (v_dl e) eff None). assert (X : Ext e (setAsn e (fst x) m0)).
    { constructor; auto. intros v m1 A. cbn [setAsn v_asn]. unfold upd. destruct (Nat.eqb_spec v (fst x)) as [->|NE]; [congruence|]. exists m1. auto. }
    split.
    + apply (ext_inv d e); auto. intros v m1 A. cbn [setAsn v_asn] in A. unfold upd in A. destruct (Nat.eqb_spec v (fst x)) as [->|NE]; auto. right. inversion A; subst m1. cbn. split; [lia|discriminate].
    + destruct m; cbn [MI] in *.
      * destruct MM as [M1 M2]. split; auto. intros j k J K. apply (ext_tight d e _ c b); auto.
      * destruct MM as [M1 M2]. split; auto. intros j k J K. apply (ext_tight d e _ c b); auto.
      * destruct MM as [M1 [M2 M3]]. sp; auto. intros G. apply M3. eapply gt_ext; [|exact G]. intros j _. cbn beta. apply (ext_sk d e _ c b); auto.
  - (* new level *)
    cbn [MI] in *. destruct MM as [M1 M2]. assert (J : Inv d (Ev (v_asn e) (S (v_dl e)) (v_uw e) (v_min e) (v_bt e)) c b).
    { constructor; [apply ci_asn; apply (n_ci _ _ _ _ I)| |exact (n_why _ _ _ _ I)|]. intros v m A. pose proof (n_lev _ _ _ _ I v m A). cbn [v_dl]. lia. pose proof (n_base _ _ _ _ I). cbn [v_dl]. lia. }
    sp; auto. intros i k L K. cbn [v_dl] in K. pose proof (n_base _ _ _ _ I) as BD. destruct (Nat.le_gt_cases k (v_dl e)) as [Q|Q]; [exact (M1 i k L ltac:(lia))|].
    intros X G. change (falseAt e (litAt d i) k). apply (false_mono _ _ (v_dl e)); [|lia]. apply (M1 i (v_dl e) L ltac:(lia)).
    + intros Y. specialize (X Y). change (lv d (Ev (v_asn e) (S (v_dl e)) (v_uw e) (v_min e) (v_bt e)) i) with (lv d e i) in X. lia.
    + eapply gt_ext; [|exact G]. intros j _. cbn beta. change (Sk d (Ev (v_asn e) (S (v_dl e)) (v_uw e) (v_min e) (v_bt e)) c k j) with (Sk d e c k j). rewrite !(sk_all d e c b) by (auto; lia). auto.
  - (* propagate *)
    cbn [MI] in MM. destruct MM as [M1 M2]. destruct (propagate_spec e c b i r e' c' I M1) as [Q1 [Q2 _]]; auto.
  - (* undo *)
    destruct (undoTo_spec d DO e c b b k e' c' I ltac:(lia) ltac:(lia) H1) as [I' [E1 [E2 [E3 [E4 [E5 [E6 [EA [pre [P1 [P2 P3]]]]]]]]]]].
    split; auto. destruct m; cbn [MI] in *.
    + destruct MM as [M1 M2]. split; [|apply (sum_cut d DO e c b k e' c'); auto]. intros j l J K. apply (tight_cut d DO e c b b k e' c'); auto; try lia. apply M1; auto. lia.
    + destruct MM as [M1 M2]. split; [|apply (sum_cut d DO e c b k e' c'); auto]. specialize (H0 eq_refl). intros j l J K. apply (tight_cut d DO e c b b k e' c'); auto; try lia. apply M1; auto. lia.
    + destruct MM as [M1 [M2 M3]]. rewrite E3. sp; auto; [destruct M2; [auto|right; lia]|]. intros G. apply M3. rewrite E5 in G.
      destruct (Nat.le_gt_cases t k) as [Q|Q]; [eapply gt_ext; [|exact G]; intros j _; cbn beta; apply (sk_cut d DO e c b b k e' c'); auto; lia|].
      assert (G2 : lexGt n (fun j => Sk d e c t j + 0) (opt c)). { apply (sk_mono d DO e c b k t (fun _ => 0) (opt c) I ltac:(lia)). eapply gt_ext; [|exact G]. intros j _. cbn beta. rewrite (sk_all d e' c' b t I') by lia. rewrite <- (sk_all d e' c' b k I') by lia. rewrite (sk_cut d DO e c b b k e' c'); auto; lia. }
      eapply gt_ext; [|exact G2]. intros j _. cbn beta. lia.
  - (* relax *)
    assert (IR : Inv d e (relax d c) b).
    { constructor; [|apply (n_lev _ _ _ _ I)|exact (n_why _ _ _ _ I)|apply (n_base _ _ _ _ I)]. unfold relax. apply (base_up e c b); [apply (n_ci _ _ _ _ I)|auto| |apply (d_pos d DO)|intros j J; lia|lia]. destruct (negb (nth 0 (c_opt c) 0 =? maxBound)); [apply repeat_length|apply (i_olen _ _ _ _ _ (n_ci _ _ _ _ I))]. }
    assert (OR : nth 0 (c_opt (relax d c)) 0 = maxBound). { unfold relax. cbn [c_opt]. destruct (Z.eqb_spec (nth 0 (c_opt c) 0) maxBound); cbn [negb]; auto. apply nth_repeat_lt. apply (d_pos d DO). }
    destruct (undoTo_spec d DO e (relax d c) b 0 k e' c' IR ltac:(lia) ltac:(right; cbn [relax c_pos]; lia) H1) as [I' [E1 [E2 [E3 [E4 [E5 _]]]]]].
    split; auto. rewrite <- E5 in OR. cbn [MI]. split; [intros j l J K; apply (off_tight e' c' 0); auto|apply (off_sum e' c' 0); auto].
  - (* bound *)
    cbn [MI] in *. destruct (target_spec e c b B reset m root (Some t) c' I) as [a [Q1 [Q2 [Q3 [Q4 Q5]]]]]; [unfold BoundPre; auto|auto|].
    split; auto. sp.
    + cbn [setMin v_min]. destruct reset; lia.
    + subst c'. destruct reset; [left; reflexivity|right; reflexivity].
    + subst c'. exact Q4.
  - (* integrate *)
    destruct (integrate_spec e c b t bt r e' c' I MM) as [Q1 [Q2 _]]; auto.
Qed.
Lemma init_si : SI (St (Ev (fun _ => None) 0 [] 0 0) (attach d) Ready 0).
Proof.
  pose proof (d_pos d DO) as NP. assert (I : Inv d (Ev (fun _ => None) 0 [] 0 0) (attach d) 0).
  { constructor; cbn [v_asn v_dl]; auto; try discriminate. constructor; unfold idxs; cbn [attach c_opt c_sum c_undo c_posSt c_seen c_pos c_act map]; auto; try lia.
    - constructor.
    - intros i. split; [discriminate|intros []].
    - intros i [].
    - cbn. auto.
    - apply repeat_length.
    - apply repeat_length.
    - intros j. cbn [sumI]. apply nth_repeat.
    - intros j J. lia. }
  assert (O : nth 0 (c_opt (attach d)) 0 = maxBound) by (apply nth_repeat_lt; auto).
  split; auto. cbn [t_e t_c t_m t_base MI]. split; [intros j l J K; apply (off_tight _ _ 0); auto|apply (off_sum (Ev (fun _ => None) 0 [] 0 0) _ 0); auto].
Qed.
Lemma reach_si : forall s, reach d s -> SI s.
Proof. intros s R. induction R; [apply init_si|eapply step_si; eauto]. Qed.
End P.
