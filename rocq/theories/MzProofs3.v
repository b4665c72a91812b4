(** Undoing levels keeps the invariant. *)
From Coq Require Import List Bool Arith ZArith Lia Permutation Sorted.
From Verif Require Import Base MnModel MnSpec MnProofs MnProofs2 MnProofs3 MnProofs4 MnProofs5 MnProofs6 MzModel MzProofs MzProofs2.
Import ListNotations.
Open Scope Z_scope.

Section P.
Variable d : data.
Hypothesis DO : DOk d.
Notation n := (numRules d).
Notation len := (length (lits d)).

Lemma nodup_app_r : forall (A : Type) (p q : list A), NoDup (p ++ q) -> NoDup q.
Proof. induction p as [|x p IH]; intros q H; auto. inversion H; auto. Qed.
Lemma undoLevel_spec : forall e uw b c, CI d e c uw b -> (0 < topLev d e (c_undo c))%nat -> (b < topLev d e (c_undo c))%nat \/ c_pos c = 0%nat ->
  exists pre, c_undo c = pre ++ c_undo (undoLevel d c) /\ (forall u, In u (map fst pre) -> lv d e u = topLev d e (c_undo c)) /\ (topLev d e (c_undo (undoLevel d c)) < topLev d e (c_undo c))%nat /\
    c_opt (undoLevel d c) = c_opt c /\ (c_pos c = 0%nat -> c_pos (undoLevel d c) = 0%nat) /\ (c_act (undoLevel d c) <= c_act c)%nat /\
    CI d e (undoLevel d c) (filter (fun l => negb (Nat.eqb l (topLev d e (c_undo c)))) uw) b.
Proof.
  intros e uw b c I T HB. destruct (pop_spec d DO e uw b c (c_undo c) eq_refl I T) as [p [ps [us [pre [nd [i [st' H]]]]]]]. destruct H as [H1 [H2 [H3 [H4 [H5 [H6 [H7 [H7' [H8 [H9 [H10 [H11 [H12 [H13 [H14 [H15 H16]]]]]]]]]]]]]]]].
  set (T0 := topLev d e (c_undo c)) in *. unfold undoLevel. rewrite H1. set (c2 := popLoop d (c_undo c) c) in *.
  assert (FU : filter (fun l => negb (Nat.eqb l T0)) uw = us).
  { rewrite H2. cbn [filter]. rewrite Nat.eqb_refl. cbn [negb]. clear - H8 H6. assert (A : forall l, In l us -> (l < T0)%nat) by (intros l L; pose proof (uok_uw d e b st' ps us l H8 L); lia). clear H8. induction us as [|x us IH]; auto. cbn [filter]. rewrite (proj2 (Nat.eqb_neq x T0)) by (specialize (A x ltac:(cbn; auto)); lia). cbn [negb]. f_equal. apply IH. intros l L. apply A. cbn; auto. }
  rewrite FU. cbn [c_pos c_opt c_sum c_undo c_posSt c_seen c_act].
  assert (SUB : forall j, In j (map fst st') -> In j (idxs c)). { intros j J. unfold idxs. rewrite H4, map_app. cbn [map]. apply in_or_app. right. cbn; auto. }
  assert (ND : NoDup (map fst st')). { pose proof (i_nd _ _ _ _ _ I) as Q. unfold idxs in Q. rewrite H4, map_app in Q. apply nodup_app_r in Q. cbn [map] in Q. inversion Q; auto. }
  assert (SV : forall j, (j < p)%nat -> (b < T0)%nat -> In j (map fst st') \/ falseAt e (litAt d j) (Nat.max (topLev d e st') b)).
  { intros j J BB. specialize (H7 j J ltac:(lia)). rewrite (proj2 (Nat.leb_le b T0)) in H7 by lia. auto. }
  assert (PO : (if Nat.ltb p (c_pos c2) then p else c_pos c2) = Nat.min p (c_pos c)) by (rewrite H10; destruct (Nat.ltb_spec p (c_pos c)); lia).
  exists (pre ++ [(i, nd)]).
  assert (GOAL : forall act, (act <= c_act c2)%nat -> CI d e (M (c_opt c2) (c_sum c2) (c_undo c2) ps (c_seen c2) (Nat.min p (c_pos c)) act) us b).
  { intros act AC. constructor; unfold idxs; cbn [c_pos c_opt c_sum c_undo c_posSt c_seen c_act]; try rewrite H3; try rewrite H9; auto.
    - intros j J. apply (i_in _ _ _ _ _ I). auto.
    - apply (i_olen _ _ _ _ _ I).
    - pose proof (i_act _ _ _ _ _ I). lia.
    - intros j J. apply H15. lia.
    - lia.
    - intros j J. destruct HB as [HB|HB]; [|lia]. apply SV; [lia|]. auto. }
  assert (EQ : (if Nat.ltb p (c_pos c2) then setAct (setPos (M (c_opt c2) (c_sum c2) (c_undo c2) ps (c_seen c2) (c_pos c2) (c_act c2)) p) (Nat.min (c_act c2) (levelAt d p)) else M (c_opt c2) (c_sum c2) (c_undo c2) ps (c_seen c2) (c_pos c2) (c_act c2)) =
    M (c_opt c2) (c_sum c2) (c_undo c2) ps (c_seen c2) (Nat.min p (c_pos c)) (if Nat.ltb p (c_pos c2) then Nat.min (c_act c2) (levelAt d p) else c_act c2)).
  { rewrite <- PO. destruct (Nat.ltb p (c_pos c2)); reflexivity. }
  cbn [c_pos c_act]. unfold setPos, setAct in *. cbn [c_pos c_opt c_sum c_undo c_posSt c_seen c_act] in *. rewrite EQ. cbn [c_pos c_opt c_sum c_undo c_posSt c_seen c_act].
  rewrite H3. sp; auto; try lia.
  - rewrite <- app_assoc. auto.
  - destruct (Nat.ltb p (c_pos c2)); lia.
  - rewrite <- H3. apply GOAL. destruct (Nat.ltb p (c_pos c2)); lia.
Qed.
Lemma undoLevels_spec : forall e b m dl uw c, CI d e c uw b -> (topLev d e (c_undo c) <= dl)%nat -> (m <= dl)%nat -> (b <= dl - m)%nat \/ c_pos c = 0%nat ->
  let r := undoLevels d m dl uw c in exists pre, c_undo c = pre ++ c_undo (snd r) /\ (forall u, In u (map fst pre) -> (dl - m < lv d e u)%nat) /\ (topLev d e (c_undo (snd r)) <= dl - m)%nat /\
    c_opt (snd r) = c_opt c /\ (c_pos c = 0%nat -> c_pos (snd r) = 0%nat) /\ (c_act (snd r) <= c_act c)%nat /\ CI d e (snd r) (fst r) b.
Proof.
  induction m as [|m IH]; intros dl uw c I T L HB; cbn [undoLevels fst snd]; cbv zeta.
  - exists []. sp; auto; [intros u []|lia].
  - destruct (existsb (Nat.eqb dl) uw) eqn:EX.
    + apply existsb_exists in EX. destruct EX as [l [X1 X2]]. apply Nat.eqb_eq in X2. subst l. pose proof (uok_uw d e b _ _ _ _ (i_uok _ _ _ _ _ I) X1) as X3. assert (TD : topLev d e (c_undo c) = dl) by lia.
      destruct (undoLevel_spec e uw b c I ltac:(lia) ltac:(lia)) as [pre [A1 [A2 [A3 [A4 [A5 [AA A6]]]]]]]. rewrite TD in *.
      destruct (IH (dl - 1)%nat _ _ A6 ltac:(lia) ltac:(lia)) as [pre2 [B1 [B2 [B3 [B4 [B5 [BA B6]]]]]]]; [destruct HB as [HB|HB]; [left; lia|right; auto]|].
      set (r := undoLevels d m (dl - 1) (filter (fun l => negb (Nat.eqb l dl)) uw) (undoLevel d c)) in *.
      exists (pre ++ pre2). sp; auto; try lia; try congruence.
      * rewrite <- app_assoc, <- B1. auto.
      * intros u U. rewrite map_app in U. apply in_app_or in U. destruct U as [U|U]; [rewrite (A2 u U); lia|specialize (B2 u U); lia].
    + assert (TD : (topLev d e (c_undo c) < dl)%nat).
      { destruct (Nat.eq_dec (topLev d e (c_undo c)) dl) as [E|E]; [|lia]. destruct (uok_wit d e b _ _ _ (i_uok _ _ _ _ _ I) ltac:(lia)) as [us' W]. rewrite E in W. assert (F : existsb (Nat.eqb dl) uw = true) by (apply existsb_exists; exists dl; split; [rewrite W; cbn; auto|apply Nat.eqb_refl]). congruence. }
      destruct (IH (dl - 1)%nat uw c I ltac:(lia) ltac:(lia)) as [pre2 [B1 [B2 [B3 [B4 [B5 [BA B6]]]]]]]; [destruct HB as [HB|HB]; [left; lia|right; auto]|].
      set (r := undoLevels d m (dl - 1) uw c) in *.
      exists pre2. sp; auto; try lia. intros u U. specialize (B2 u U). lia.
Qed.

(** The environment after removing the levels above [k] *)
Definition cut (e : env) (k : nat) : nat -> option ent := fun v => match v_asn e v with Some m => keepEnt k m | None => None end.
Lemma cut_keep : forall e k v m, v_asn e v = Some m -> (e_lev m <= k)%nat -> cut e k v = Some m.
Proof. intros e k v m A L. unfold cut. rewrite A. unfold keepEnt. rewrite (proj2 (Nat.leb_le _ _) L). auto. Qed.
Lemma cut_some : forall e k v m', cut e k v = Some m' -> exists m, v_asn e v = Some m /\ e_val m' = e_val m /\ e_eff m' = e_eff m /\ e_why m' = e_why m /\ ((e_lev m <= k)%nat /\ m' = m \/ (k < e_lev m)%nat /\ (e_eff m <= k)%nat /\ e_lev m' = k).
Proof.
  intros e k v m' C. unfold cut in C. destruct (v_asn e v) as [m|] eqn:A; [|discriminate]. exists m. unfold keepEnt in C. destruct (Nat.leb_spec (e_lev m) k) as [Q|Q]; [inversion C; subst; sp; auto|].
  destruct (Nat.leb_spec (e_eff m) k) as [R|R]; [|discriminate]. inversion C; subst. cbn. sp; auto.
Qed.
Lemma falseAt_cut : forall e e' x l k, v_asn e' = cut e k -> falseAt e x l -> (l <= k)%nat -> falseAt e' x l.
Proof.
  intros e e' x l k E [m [A [B C]]] L. unfold falseAt. rewrite E. unfold cut. rewrite A. unfold keepEnt. destruct (Nat.leb_spec (e_lev m) k); [exists m; auto|]. rewrite (proj2 (Nat.leb_le (e_eff m) k)) by lia. eexists. sp; [reflexivity|auto|auto].
Qed.
Lemma val_ent : forall e x, valOf e x -> exists m, v_asn e (fst x) = Some m /\ e_val m = negb (snd x).
Proof. intros e x V. unfold valOf, isTrue, pval, pv in V. destruct (v_asn e (fst x)) as [m|]; [|discriminate]. exists m. split; auto. cbn in V. destruct (e_val m), (snd x); cbn in *; congruence. Qed.
Lemma ent_val : forall e x m, v_asn e (fst x) = Some m -> e_val m = negb (snd x) -> valOf e x.
Proof. intros e x m A B. unfold valOf, isTrue, pval, pv. rewrite A. cbn. rewrite B. destruct (snd x); reflexivity. Qed.
Lemma lv_cut : forall e e' k i, v_asn e' = cut e k -> valOf e (litAt d i) -> (lv d e i <= k)%nat -> lv d e' i = lv d e i /\ valOf e' (litAt d i).
Proof.
  intros e e' k i E V L. destruct (val_ent _ _ V) as [m [A B]]. unfold lv, levelOf in *. rewrite A in *. pose proof (cut_keep e k _ m A L) as C. rewrite E, C. split; auto. apply ent_val with m; auto. rewrite E. auto.
Qed.
Lemma bottom_suffix : forall (A : Type) k (pre st : list A), (k <= length st)%nat -> bottom k (pre ++ st) = bottom k st.
Proof. intros A k pre st L. unfold bottom. rewrite app_length. replace (length pre + length st - k)%nat with (length pre + (length st - k))%nat by lia. rewrite skipn_app. rewrite skipn_all2 by lia. replace (length pre + (length st - k) - length pre)%nat with (length st - k)%nat by lia. auto. Qed.
Lemma bottom_incl : forall (A : Type) k (st : list A) x, In x (bottom k st) -> In x st.
Proof. intros A k st x H. unfold bottom in H. rewrite <- (firstn_skipn (length st - k) st). apply in_or_app; auto. Qed.
Lemma bottom_len : forall (A : Type) k (st : list A), (k <= length st)%nat -> length (bottom k st) = k.
Proof. intros A k st L. unfold bottom. rewrite skipn_length. lia. Qed.

Lemma bot_len : forall e k stop (pre st : list (nat * bool)), (stop <= length (pre ++ st))%nat -> (forall u, In u (map fst pre) -> (k < lv d e u)%nat) ->
  (forall u, In u (map fst (bottom stop (pre ++ st))) -> (lv d e u <= k)%nat) -> (stop <= length st)%nat.
Proof.
  intros e k stop pre st I4 A2 I5. destruct (Nat.le_gt_cases stop (length st)) as [Q|Q]; auto. exfalso. destruct pre as [|x pre]; [cbn in I4; lia|].
  assert (B1 : In (last (x :: pre) (0%nat, false)) (bottom stop ((x :: pre) ++ st))).
  { unfold bottom. rewrite app_length in *. rewrite skipn_app. apply in_or_app. left. 
    set (k0 := (length (x :: pre) + length st - stop)%nat). assert (KL : (k0 < length (x :: pre))%nat) by (unfold k0; lia). clearbody k0. clear - KL. destruct (@exists_last _ (x :: pre) ltac:(discriminate)) as [l [y Y]]. rewrite Y in *. rewrite last_last. rewrite skipn_app. apply in_or_app. right. rewrite app_length in KL. cbn in KL. replace (k0 - length l)%nat with 0%nat by lia. cbn; auto. }
  assert (LA : In (last (x :: pre) (0%nat, false)) (x :: pre)). { clear. destruct (@exists_last _ (x :: pre) ltac:(discriminate)) as [l [y Y]]. rewrite Y. rewrite last_last. apply in_or_app. right. cbn; auto. }
  pose proof (A2 _ (in_map fst _ _ LA)) as P1. pose proof (I5 _ (in_map fst _ _ B1)) as P2. lia.
Qed.
(** The invariant in the environment after removing the levels above [k] *)
Lemma uok_cut : forall e e' k b b' st ps us, v_asn e' = cut e k -> (forall i, In i (map fst st) -> valOf e (litAt d i)) -> (topLev d e st <= k)%nat -> (b' = b /\ b <= k)%nat \/ (b' = 0 /\ (b = 0 \/ k < b))%nat ->
  UOk d e b st ps us -> UOk d e' b' st ps us.
Proof.
  intros e e' k b b' st. induction st as [|[i nd] st IH]; intros ps us E V T HB U; auto. cbn [UOk topLev map fst] in *.
  assert (LI : lv d e' i = lv d e i) by (apply (lv_cut e e' k i); auto; apply V; cbn; auto).
  assert (TT : (topLev d e st <= topLev d e ((i, nd) :: st))%nat). { cbn [topLev]. destruct nd; [destruct ps; [destruct U|]; destruct us; [destruct U|]|]; destruct U as [? [? ?]] || destruct U as [? ?]; lia. } cbn [topLev] in TT.
  assert (TE : topLev d e' st = topLev d e st). { destruct st as [|[u nd'] st]; auto. cbn [topLev] in *. apply (lv_cut e e' k u); auto; [apply V; cbn; auto|lia]. }
  assert (V' : forall u, In u (map fst st) -> valOf e (litAt d u)) by (intros u X; apply V; cbn; auto).
  destruct nd.
  - destruct ps as [|p ps]; [destruct U|]. destruct us as [|L us]; [destruct U|]. destruct U as [U1 [U2 [U3 [U4 U5]]]]. rewrite LI, TE. sp; auto; [|apply IH; auto; lia].
    intros j J JL. destruct (U4 j J JL) as [Q|Q]; auto. right. rewrite TE. replace (if Nat.leb b' L then b' else 0)%nat with (if Nat.leb b L then b else 0)%nat.
    + apply (falseAt_cut e e' _ _ k E Q). destruct HB as [[-> HB]|[-> HB]]; destruct (Nat.leb_spec b L); lia.
    + destruct HB as [[-> HB]|[-> HB]]; auto. destruct (Nat.leb_spec b L); destruct (Nat.leb 0 L); lia.
  - destruct U as [U1 U2]. rewrite LI, TE. split; auto. apply IH; auto. lia.
Qed.
Lemma top_cut : forall e e' k st, v_asn e' = cut e k -> (forall i, In i (map fst st) -> valOf e (litAt d i)) -> (topLev d e st <= k)%nat -> topLev d e' st = topLev d e st.
Proof. intros e e' k [|[i nd] st] E V T; auto. cbn [topLev] in *. apply (lv_cut e e' k i); auto. apply V. cbn; auto. Qed.
Lemma ci_cut : forall e e' k b b' c uw, v_asn e' = cut e k -> (topLev d e (c_undo c) <= k)%nat -> (b' = b /\ b <= k)%nat \/ (b' = 0 /\ (b = 0 \/ k < b) /\ c_pos c = 0)%nat ->
  CI d e c uw b -> CI d e' c uw b'.
Proof.
  intros e e' k b b' c uw E T HB I. assert (V : forall i, In i (map fst (c_undo c)) -> valOf e (litAt d i)) by (intros i X; apply (i_in _ _ _ _ _ I i X)).
  constructor.
  - apply (i_nd _ _ _ _ _ I).
  - apply (i_seen _ _ _ _ _ I).
  - intros i X. split; [apply (i_in _ _ _ _ _ I i X)|]. apply (lv_cut e e' k i); [auto|apply V, X|]. pose proof (uok_top d e b _ _ _ i (i_uok _ _ _ _ _ I) X). lia.
  - apply (uok_cut e e' k b b'); auto; [|apply (i_uok _ _ _ _ _ I)]. destruct HB as [HB|[HB [HB' _]]]; auto.
  - apply (i_olen _ _ _ _ _ I).
  - apply (i_slen _ _ _ _ _ I).
  - apply (i_sum _ _ _ _ _ I).
  - apply (i_act _ _ _ _ _ I).
  - apply (i_eq _ _ _ _ _ I).
  - apply (i_pos _ _ _ _ _ I).
  - intros j J. destruct HB as [[-> HB]|[_ [_ HB]]]; [|lia]. destruct (i_posok _ _ _ _ _ I j J) as [Q|Q]; auto. right. rewrite (top_cut e e' k); auto. apply (falseAt_cut e e' _ _ k E Q). lia.
Qed.
Lemma inv_top : forall e c b, Inv d e c b -> (topLev d e (c_undo c) <= v_dl e)%nat.
Proof.
  intros e c b I. destruct (c_undo c) as [|[i nd] st] eqn:U; cbn [topLev]; [lia|]. unfold lv, levelOf. destruct (v_asn e (fst (litAt d i))) as [m|] eqn:A; [|lia]. apply (n_lev _ _ _ _ I _ _ A).
Qed.
(** undoTo *)
Lemma undoTo_spec : forall e c b b' k e' c', Inv d e c b -> (k <= v_dl e)%nat -> (b' = b /\ b <= k)%nat \/ (b' = 0 /\ (b = 0 \/ k < b) /\ c_pos c = 0)%nat -> undoTo d e c k = (e', c') ->
  Inv d e' c' b' /\ v_dl e' = k /\ v_asn e' = cut e k /\ v_min e' = v_min e /\ v_bt e' = v_bt e /\ c_opt c' = c_opt c /\ (c_pos c = 0%nat -> c_pos c' = 0%nat) /\ (c_act c' <= c_act c)%nat /\
  (exists pre, c_undo c = pre ++ c_undo c' /\ (forall u, In u (map fst pre) -> (k < lv d e u)%nat) /\ (forall u, In u (idxs c') -> (lv d e u <= k)%nat /\ lv d e' u = lv d e u)).
Proof.
  intros e c b b' k e' c' I L HB E. unfold undoTo in E. rewrite Nat.min_l in E by auto. pose proof (inv_top _ _ _ I) as T.
  destruct (undoLevels_spec e b (v_dl e - k) (v_dl e) (v_uw e) c (n_ci _ _ _ _ I) T ltac:(lia)) as [pre [A1 [A2 [A3 [A4 [A5 [AA A6]]]]]]]; [lia|].
  set (r := undoLevels d (v_dl e - k) (v_dl e) (v_uw e) c) in *. rewrite (surjective_pairing r) in E. inversion E; subst. clear E. cbn [v_dl v_asn v_min v_bt v_uw]. replace (v_dl e - (v_dl e - k))%nat with k in * by lia.
  set (e' := Ev (fun v => match v_asn e v with Some m => keepEnt k m | None => None end) k (fst r) (v_min e) (v_bt e)).
  assert (EA : v_asn e' = cut e k) by reflexivity.
  assert (LV : forall u, In u (idxs (snd r)) -> (lv d e u <= k)%nat /\ lv d e' u = lv d e u).
  { intros u U. pose proof (uok_top d e b _ _ _ u (i_uok _ _ _ _ _ A6) U) as Q. split; [lia|]. apply (lv_cut e e' k u); auto; [apply (i_in _ _ _ _ _ A6 u U)|lia]. }
  sp; auto; [|exists pre; sp; auto].
  constructor.
  - apply (ci_cut e e' k b b'); auto. destruct HB as [HB|[HB1 [HB2 HB3]]]; auto.
  - intros v m' C. cbn [v_dl e']. destruct (cut_some e k v m' C) as [m [M1 [M2 [M3 [M4 [[M5 ->]|[M5 [M6 M7]]]]]]]].
    + pose proof (n_lev _ _ _ _ I v m M1). lia.
    + lia.
  - intros v m' stop B C W. destruct (cut_some e k v m' C) as [m [M1 [M2 [M3 [M4 M5]]]]]. rewrite M4 in W. destruct (n_why _ _ _ _ I v m stop B M1 W) as [i [I1 [I2 [I3 [I4 [I5 I6]]]]]].
    assert (EF : (e_eff m <= k)%nat). { destruct M5 as [[M5 _]|[_ [M5 _]]]; auto. pose proof (n_lev _ _ _ _ I v m M1). lia. }
    assert (SL : (stop <= length (c_undo (snd r)))%nat).
    { apply (bot_len e k stop pre); try rewrite <- A1; auto. intros u U. specialize (I5 u U). lia. }
    exists i. rewrite A1 in I5, I6. rewrite (bottom_suffix _ _ _ _ SL) in I5, I6. sp; auto; try congruence.
    intros u U. rewrite M3. rewrite (proj2 (LV u ltac:(unfold idxs; apply in_map_iff in U; destruct U as [x [X1 X2]]; apply in_map_iff; exists x; split; auto; eapply bottom_incl; exact X2))). auto.
  - cbn [v_dl e']. destruct HB as [[-> HB]|[-> HB]]; lia.
Qed.
Lemma idx_filter : forall e c c' e' k pre, c_undo c = pre ++ c_undo c' -> (forall u, In u (map fst pre) -> (k < lv d e u)%nat) -> (forall u, In u (idxs c') -> (lv d e u <= k)%nat /\ lv d e' u = lv d e u) ->
  forall l, (l <= k)%nat -> filter (fun i => Nat.leb (lv d e' i) l) (idxs c') = filter (fun i => Nat.leb (lv d e i) l) (idxs c).
Proof.
  intros e c c' e' k pre E P S l L. unfold idxs at 2. rewrite E, map_app, filter_app. 
  assert (F : filter (fun i => Nat.leb (lv d e i) l) (map fst pre) = []). { clear - P L. induction (map fst pre) as [|x q IH]; auto. cbn [filter]. rewrite (proj2 (Nat.leb_gt (lv d e x) l)) by (specialize (P x ltac:(cbn; auto)); lia). apply IH. intros u U. apply P. cbn; auto. }
  rewrite F. cbn [app]. fold (idxs c'). apply filter_ext_in. intros u U. destruct (S u U) as [_ ->]. auto.
Qed.
Lemma tight_cut : forall e c b b' k e' c' l i, Inv d e c b -> (k <= v_dl e)%nat -> (b' = b /\ b <= k)%nat \/ (b' = 0 /\ (b = 0 \/ k < b) /\ c_pos c = 0)%nat -> undoTo d e c k = (e', c') -> (l <= k)%nat ->
  TightI d e c l i -> TightI d e' c' l i.
Proof.
  intros e c b b' k e' c' l i I L HB E LK T. destruct (undoTo_spec e c b b' k e' c' I L HB E) as [I' [E1 [E2 [E3 [E4 [E5 [E6 [EA [pre [P1 [P2 P3]]]]]]]]]]]. intros H1 H2.
  apply (falseAt_cut e e' _ _ k E2); auto. apply T.
  - intros X. unfold idxs in X. rewrite P1, map_app in X. apply in_app_or in X. destruct X as [X|X]; [specialize (P2 i X); lia|]. specialize (H1 X). destruct (P3 i X) as [_ Q]. lia.
  - rewrite E5 in H2. eapply gt_ext; [|exact H2]. intros j _. cbn beta. unfold Sk. rewrite (idx_filter e c c' e' k pre P1 P2 P3 l LK). auto.
Qed.
Lemma sk_cut : forall e c b b' k e' c' l, Inv d e c b -> (k <= v_dl e)%nat -> (b' = b /\ b <= k)%nat \/ (b' = 0 /\ (b = 0 \/ k < b) /\ c_pos c = 0)%nat -> undoTo d e c k = (e', c') -> (l <= k)%nat ->
  forall j, Sk d e' c' l j = Sk d e c l j.
Proof.
  intros e c b b' k e' c' l I L HB E LK j. destruct (undoTo_spec e c b b' k e' c' I L HB E) as [I' [E1 [E2 [E3 [E4 [E5 [E6 [EA [pre [P1 [P2 P3]]]]]]]]]]]. unfold Sk. rewrite (idx_filter e c c' e' k pre P1 P2 P3 l LK). auto.
Qed.
(** On the current level the sum is complete. *)
Lemma sk_all : forall e c b k, Inv d e c b -> (v_dl e <= k)%nat -> forall j, Sk d e c k j = sumI d (idxs c) j.
Proof.
  intros e c b k I L j. unfold Sk. replace (filter (fun i => Nat.leb (lv d e i) k) (idxs c)) with (idxs c); auto. symmetry. pose proof (inv_top _ _ _ I) as T. 
  assert (A : forall u, In u (idxs c) -> (lv d e u <= k)%nat) by (intros u U; pose proof (uok_top d e b _ _ _ u (i_uok _ _ _ _ _ (n_ci _ _ _ _ I)) U); lia). clear - A. induction (idxs c) as [|x q IH]; auto. cbn [filter]. rewrite (proj2 (Nat.leb_le _ _) (A x ltac:(cbn; auto))). f_equal. apply IH. intros u U. apply A. cbn; auto.
Qed.
Lemma sk_mono : forall e c b l k g h, Inv d e c b -> (l <= k)%nat -> lexGt n (fun j => Sk d e c l j + g j) h -> lexGt n (fun j => Sk d e c k j + g j) h.
Proof.
  intros e c b l k g h I L H. unfold Sk in *. pose proof (i_nd _ _ _ _ _ (n_ci _ _ _ _ I)) as ND. eapply sub_gt; [exact DO| | | | |exact H].
  - apply NoDup_filter; auto.
  - apply NoDup_filter; auto.
  - intros x X. apply filter_In in X. destruct X as [X1 X2]. apply filter_In. split; auto. apply Nat.leb_le in X2. apply Nat.leb_le. lia.
  - intros x X. apply filter_In in X. apply (idx_range d _ _ _ _ x (n_ci _ _ _ _ I)), X.
Qed.
End P.
