From Coq Require Import List Bool Arith Lia.
From Verif Require Import Base ImModel ImSpec.
Import ListNotations.

Definition on (s : st) (p : lit) (k : nat) : Prop := exists L, In (p, L) (t_trail s) /\ L <= k.
Definition bad (s : st) : Prop := t_conf s = Conf.
Definition er (s : st) : nat := match t_conf s with Stop r _ => r | _ => t_root s end.
Definition ef (s : st) : nat := match t_conf s with Stop _ f => f | _ => t_flip s end.

Record Inv (s : st) (lv : list (lit * nat)) : Prop := {
  i_nd : NoDup (map (fun x => fst (fst x)) (t_trail s));
  i_lv : forall q L, In (q, L) (t_trail s) -> L <= DL s;
  i_ord : er s <= ef s /\ ef s <= t_flip s /\ er s <= t_root s /\ t_root s <= t_flip s /\ t_flip s <= DL s;
  i_stop : forall r f, t_conf s = Stop r f -> t_root s = DL s;
  i_front : t_front s <= length (t_il s);
  i_low : forall i e, nth_error (t_il s) i = Some e -> i < t_front s ->
            e_lev e <= Nat.min (er s) (t_ill s) /\ (on s (e_lit e) (Nat.min (er s) (t_ill s)) \/ (bad s /\ t_root s = DL s /\ DL s <= t_ill s));
  i_high : forall i e, nth_error (t_il s) i = Some e -> t_front s <= i ->
            e_lev e <= Nat.min (ef s) (t_ill s) /\ (on s (e_lit e) (Nat.min (ef s) (t_ill s)) \/ (bad s /\ t_flip s = DL s /\ DL s <= t_ill s));
  i_ent : forall e, In e (t_il s) -> exists l, l <= e_lev e /\ In (e_lit e, l) lv;
  i_a : forall q L, In (q, L) (t_trail s) -> exists l, l <= L /\ In (q, l) lv;
  i_b : forall q l, In (q, l) lv -> l <= DL s /\
          (on s q l \/ (exists e, In e (t_il s) /\ e_lit e = q /\ e_lev e <= l) \/ (bad s /\ l = DL s)) }.

Lemma isT_In : forall s p, isT s p = true <-> exists L, In (p, L) (t_trail s).
Proof.
  intros. unfold isT. rewrite existsb_exists. split.
  - intros [[q L] [A B]]. apply lit_eqb_eq in B. cbn in B. subst. eauto.
  - intros [L A]. exists (p, L). split; auto. apply lit_eqb_refl.
Qed.
Lemma isT_false : forall s p L, isT s p = false -> ~ In (p, L) (t_trail s).
Proof. intros s p L H I. assert (isT s p = true) by (apply isT_In; eauto). congruence. Qed.

Lemma nd_lev : forall (l : list (lit * nat)) q L L', NoDup (map (fun x => fst (fst x)) l) -> In (q, L) l -> In (q, L') l -> L = L'.
Proof.
  induction l as [|[a n] l IH]; cbn; intros q L L' N A B; [tauto|]. inversion N; subst.
  destruct A as [A|A], B as [B|B].
  - congruence.
  - inversion A; subst. exfalso. apply H1. apply in_map_iff. exists (q, L'). auto.
  - inversion B; subst. exfalso. apply H1. apply in_map_iff. exists (q, L). auto.
  - eauto.
Qed.
Lemma lev_In : forall s p, isT s p = true -> In (p, lev s p) (t_trail s).
Proof.
  intros s p H. unfold lev, isT in *. induction (t_trail s) as [|[q L] l IH]; cbn in *; [discriminate|].
  destruct (lit_eqb q p) eqn:E; cbn in *.
  - apply lit_eqb_eq in E. subst. now left.
  - right. auto.
Qed.

Lemma on_mono : forall s p k k', on s p k -> k <= k' -> on s p k'.
Proof. intros s p k k' [L [A B]] H. exists L. split; auto. lia. Qed.

Lemma NoDup_snoc : forall (A : Type) (l : list A) x, NoDup l -> ~ In x l -> NoDup (l ++ [x]).
Proof. induction l as [|a l IH]; cbn; intros x N H; constructor; inversion N; subst; auto. rewrite in_app_iff. cbn. intros [X|[X|[]]]; [tauto|]. subst. apply H. now left. Qed.

Lemma nd_push : forall s p n, NoDup (map (fun x => fst (fst x)) (t_trail s)) -> isT s p = false -> isT s (neg p) = false ->
  NoDup (map (fun x => fst (fst x)) (t_trail s ++ [(p, n)])).
Proof.
  intros s p n N A B. rewrite map_app. cbn. apply NoDup_snoc; auto.
  intros C. apply in_map_iff in C as [[q L] [E I]]. cbn in E. destruct (same_var p q (eq_sym E)) as [X|X]; subst.
  - exact (isT_false _ _ _ A I).
  - exact (isT_false _ _ _ B I).
Qed.

Lemma filter_id : forall (A : Type) (f : A -> bool) l, (forall x, In x l -> f x = true) -> filter f l = l.
Proof. induction l; cbn; intros; auto. rewrite H by auto. f_equal. auto. Qed.
Lemma live_id : forall s lv k, Inv s lv -> DL s <= k -> filter (fun x => snd x <=? k) lv = lv.
Proof. intros. apply filter_id. intros [q l] I. apply Nat.leb_le. cbn. pose proof (proj1 (i_b _ _ H _ _ I)). lia. Qed.

Lemma on_push : forall s s' q k, (forall x, In x (t_trail s) -> In x (t_trail s')) -> on s q k -> on s' q k.
Proof. intros s s' q k H [L [A B]]. exists L. auto. Qed.

(** the state only changes in the trail, which grows by literals of level DL, or by setting a conflict *)
Lemma force1_cases : forall s p,
  (isT s p = true /\ force1 s p = (s, true)) \/
  (isT s p = false /\ isT s (neg p) = true /\ force1 s p = (set_conf s Conf, false)) \/
  (isT s p = false /\ isT s (neg p) = false /\ force1 s p = (set_trail s (t_trail s ++ [(p, DL s)]), true)).
Proof. intros. unfold force1. destruct (isT s p); auto. destruct (isT s (neg p)); auto. Qed.

Lemma noconf : forall s, hasConflict s = false -> t_conf s = NoC.
Proof. intros s. unfold hasConflict. destruct (t_conf s); congruence. Qed.

Lemma force1_Inv : forall s lv p, Inv s lv -> hasConflict s = false -> Inv (fst (force1 s p)) (lv ++ [(p, DL s)]).
Proof.
  intros s lv p I NC. apply noconf in NC.
  assert (ER : er s = t_root s /\ ef s = t_flip s) by (unfold er, ef; rewrite NC; auto). destruct ER as [ER EF].
  destruct (force1_cases s p) as [[T ->]|[[T [F ->]]|[T [F ->]]]]; cbn [fst].
  - destruct I. constructor; auto.
    + intros e E. destruct (i_ent0 e E) as [l [A B]]. exists l. split; auto. apply in_or_app; auto.
    + intros q L E. destruct (i_a0 q L E) as [l [A B]]. exists l. split; auto. apply in_or_app; auto.
    + intros q l E. apply in_app_or in E as [E|[E|[]]]; auto. inversion E; subst. split; auto. left.
      apply isT_In in T as [L T]. exists L. split; auto. eauto.
  - destruct I. rewrite ER, EF in *.
    constructor; unfold er, ef, on, bad, DL in *; cbn in *; auto.
    + congruence.
    + intros i e E H. destruct (i_low0 i e E H) as [X [Y|[Y _]]]; auto. congruence.
    + intros i e E H. destruct (i_high0 i e E H) as [X [Y|[Y _]]]; auto. congruence.
    + intros e E. destruct (i_ent0 e E) as [l [A B]]. exists l. split; auto. apply in_or_app; auto.
    + intros q L E. destruct (i_a0 q L E) as [l [A B]]. exists l. split; auto. apply in_or_app; auto.
    + intros q l E. apply in_app_or in E as [E|[E|[]]].
      * destruct (i_b0 q l E) as [X [Y|[Y|[Y _]]]]; auto. congruence.
      * inversion E; subst. auto.
  - destruct I. constructor; auto; unfold set_trail, er, ef, on, bad, DL in *; cbn in *; rewrite ?NC in *; auto.
    + exact (nd_push s p _ i_nd0 T F).
    + intros q L E. apply in_app_or in E as [E|[E|[]]]; eauto. inversion E; subst. lia.
    + intros i e E H. destruct (i_low0 i e E H) as [X [[L [Y1 Y2]]|[Y _]]]; try congruence. split; auto. left. exists L. split; auto. apply in_or_app; auto.
    + intros i e E H. destruct (i_high0 i e E H) as [X [[L [Y1 Y2]]|[Y _]]]; try congruence. split; auto. left. exists L. split; auto. apply in_or_app; auto.
    + intros e E. destruct (i_ent0 e E) as [l [A B]]. exists l. split; auto. apply in_or_app; auto.
    + intros q L E. apply in_app_or in E as [E|[E|[]]].
      * destruct (i_a0 q L E) as [l [A B]]. exists l. split; auto. apply in_or_app; auto.
      * inversion E; subst. exists (length (t_dec s)). split; [lia|]. apply in_or_app; right; now left.
    + intros q l E. apply in_app_or in E as [E|[E|[]]].
      * destruct (i_b0 q l E) as [X [[L [Y1 Y2]]|[Y|[Y _]]]]; try congruence; split; auto.
        left. exists L. split; auto. apply in_or_app; auto.
      * inversion E; subst. split; auto. left. exists (length (t_dec s)). split; [|lia]. apply in_or_app; right; now left.
Qed.

Ltac sp := repeat match goal with |- _ /\ _ => split end.

(** * ImpliedList::assign *)
Lemma il_loop_spec : forall es s ok s' k, il_loop s ok es = (s', k) ->
  NoDup (map (fun x => fst (fst x)) (t_trail s)) -> (ok = true -> t_conf s = NoC) -> (ok = false -> t_conf s = Conf) ->
  exists tr c, s' = set_conf (set_trail s (t_trail s ++ tr)) c /\ (c = NoC \/ c = Conf) /\
    (t_conf s = Conf -> c = Conf) /\
    NoDup (map (fun x => fst (fst x)) (t_trail s ++ tr)) /\
    (forall q L, In (q, L) tr -> L = DL s /\ exists e, In e es /\ e_lit e = q /\ e_lev e <= DL s) /\
    (c = NoC -> forall e, In e es -> e_lev e <= DL s -> exists L, In (e_lit e, L) (t_trail s ++ tr)) /\
    k = filter (fun e => (e_lev e <=? DL s) && ((e_lev e <? DL s) || e_null e)) es.
Proof.
  induction es as [|e es IH]; cbn [il_loop filter]; intros s ok s' k H N O1 O2.
  - inversion H; subst. exists [], (t_conf s'). rewrite app_nil_r. split; [destruct s'; reflexivity|].
    split; [destruct ok; [left|right]; auto|]. split; auto. split; auto. cbn. tauto.
  - destruct (Nat.leb_spec (e_lev e) (DL s)) as [LE|GT].
    + assert (exists s1 ok1, (if ok then force1 s (e_lit e) else (s, false)) = (s1, ok1)) as [s1 [ok1 E]]
        by (destruct (if ok then force1 s (e_lit e) else (s, false)); eauto).
      rewrite E in H. destruct (il_loop s1 ok1 es) as [s2 k2] eqn:E2. inversion H; subst. clear H. cbn [andb].
      assert (exists tr1 c1, s1 = set_conf (set_trail s (t_trail s ++ tr1)) c1 /\ (c1 = NoC <-> ok1 = true) /\ (c1 = Conf <-> ok1 = false) /\
        (t_conf s = Conf -> c1 = Conf) /\ NoDup (map (fun x => fst (fst x)) (t_trail s ++ tr1)) /\
        (forall x, In x tr1 -> x = (e_lit e, DL s)) /\ (ok1 = true -> exists L, In (e_lit e, L) (t_trail s ++ tr1))) as [tr1 [c1 [A1 [A2 [A2' [A3 [A4 [A5 A6]]]]]]]].
      { destruct ok.
        - destruct (force1_cases s (e_lit e)) as [[T F]|[[T [T2 F]]|[T [T2 F]]]]; rewrite F in E; inversion E; subst.
          + exists [], NoC. rewrite app_nil_r. sp; try solve [intuition congruence].
            * rewrite <- (O1 eq_refl). destruct s1; reflexivity.
            * cbn; tauto.
            * apply isT_In in T. intros _. exact T.
          + exists [], Conf. rewrite app_nil_r. sp; try solve [intuition congruence].
            * cbn; tauto.
          + exists [(e_lit e, DL s)], NoC. sp; try solve [intuition congruence].
            * rewrite <- (O1 eq_refl). destruct s; reflexivity.
            * apply nd_push; auto.
            * cbn. intuition.
            * intros _. exists (DL s). apply in_or_app. right. now left.
        - inversion E; subst. exists [], Conf. rewrite app_nil_r. sp; try solve [intuition congruence].
          + rewrite <- (O2 eq_refl). destruct s1; reflexivity.
          + cbn; tauto. }
      assert (D1 : DL s1 = DL s) by (rewrite A1; reflexivity).
      destruct (IH s1 ok1 s' k2 E2) as [tr [c [B1 [B2 [B3 [B4 [B5 [B6 B7]]]]]]]].
      { rewrite A1. exact A4. } { rewrite A1. cbn. tauto. } { rewrite A1. cbn. tauto. }
      rewrite D1 in *. exists (tr1 ++ tr), c. rewrite A1 in B1, B3, B4, B6. cbn in B1, B3, B4, B6. rewrite app_assoc.
      split; [rewrite B1; reflexivity|]. split; auto. split; [auto|]. split; [auto|]. split; [|split].
      * intros q L Q. apply in_app_or in Q as [Q|Q].
        -- apply A5 in Q. inversion Q; subst. split; auto. exists e. split; [now left|auto].
        -- destruct (B5 q L Q) as [X [e' [Y1 Y2]]]. split; auto. exists e'. split; [now right|auto].
      * intros C e' [->|J] L'.
        -- assert (c1 = NoC). { destruct ok1; [apply A2; auto|]. assert (c1 = Conf) by (apply A2'; auto). apply B3 in H. congruence. }
           destruct (A6 ltac:(apply A2; auto)) as [L Q]. exists L. apply in_or_app. now left.
        -- auto.
      * rewrite B7. destruct ((e_lev e <? DL s) || e_null e); reflexivity.
    + cbn [andb]. destruct (IH s ok s' k H N O1 O2) as [tr [c [B1 [B2 [B3 [B4 [B5 [B6 B7]]]]]]]].
      exists tr, c. repeat (split; [assumption|]). split; [|split].
      * intros q L Q. destruct (B5 q L Q) as [X [e' [Y1 Y2]]]. split; auto. exists e'. split; [now right|auto].
      * intros C e' [->|J] L'; [lia|auto].
      * exact B7.
Qed.

Record Pre (s : st) (lv : list (lit * nat)) : Prop := {
  p_nd : NoDup (map (fun x => fst (fst x)) (t_trail s));
  p_lv : forall q L, In (q, L) (t_trail s) -> L <= DL s;
  p_ord : t_root s <= t_flip s /\ t_flip s = DL s;
  p_conf : t_conf s = NoC;
  p_front : t_front s <= length (t_il s);
  p_low : forall i e, nth_error (t_il s) i = Some e -> i < t_front s -> e_lev e <= t_root s /\ on s (e_lit e) (t_root s);
  p_ent : forall e, In e (t_il s) -> e_lev e <= DL s -> exists l, l <= e_lev e /\ In (e_lit e, l) lv;
  p_a : forall q L, In (q, L) (t_trail s) -> exists l, l <= L /\ In (q, l) lv;
  p_b : forall q l, In (q, l) lv -> l <= DL s /\
          (on s q l \/ (exists e, In e (t_il s) /\ e_lit e = q /\ e_lev e <= l)) }.

Lemma nth_error_firstn : forall (A : Type) n (l : list A) i, i < n -> nth_error (firstn n l) i = nth_error l i.
Proof. induction n; intros [|a l] [|i] H; cbn; try lia; auto. apply IHn. lia. Qed.

Lemma il_assign_Inv : forall s lv, Pre s lv -> Inv (il_assign s) lv /\ DL (il_assign s) = DL s /\
  t_root (il_assign s) = t_root s /\ t_flip (il_assign s) = t_flip s /\ t_mode (il_assign s) = t_mode s /\ t_dec (il_assign s) = t_dec s /\
  (forall r f, t_conf (il_assign s) <> Stop r f).
Proof.
  intros s lv P. unfold il_assign.
  assert (HC : hasConflict s = false) by (unfold hasConflict; now rewrite (p_conf _ _ P)). rewrite HC. cbn [negb].
  destruct (il_loop s true (skipn (t_front s) (t_il s))) as [s1 k] eqn:E.
  destruct (il_loop_spec _ _ _ _ _ E (p_nd _ _ P) (fun _ => p_conf _ _ P) ltac:(discriminate)) as [tr [c [B1 [B2 [B3 [B4 [B5 [B6 B7]]]]]]]].
  set (il := firstn (t_front s) (t_il s) ++ k).
  set (ill := match il with [] => 0 | _ => DL s end).
  assert (IL : forall e, In e il -> In e (t_il s) /\ e_lev e <= DL s).
  { intros e J. unfold il in J. apply in_app_or in J as [J|J].
    - split; [rewrite <- (firstn_skipn (t_front s) (t_il s)); apply in_or_app; auto|].
      apply In_nth_error in J as [i J]. assert (i < t_front s).
      { assert (i < length (firstn (t_front s) (t_il s))) by (apply nth_error_Some; congruence). rewrite firstn_length in H. lia. }
      rewrite nth_error_firstn in J by auto. destruct (p_low _ _ P _ _ J H) as [X _]. pose proof (p_ord _ _ P). lia.
    - rewrite B7 in J. apply filter_In in J as [J1 J2]. apply andb_true_iff in J2 as [J2 _]. apply Nat.leb_le in J2. split; auto.
      rewrite <- (firstn_skipn (t_front s) (t_il s)); apply in_or_app; auto. }
  assert (LF : length (firstn (t_front s) (t_il s)) = t_front s) by (rewrite firstn_length; pose proof (p_front _ _ P); lia).
  assert (ILL : ill = 0 /\ il = [] \/ ill = DL s) by (unfold ill; destruct il; auto).
  assert (LOW : forall i e, nth_error il i = Some e -> i < t_front s -> e_lev e <= t_root s /\ on s (e_lit e) (t_root s)).
  { intros i e N L. unfold il in N. rewrite nth_error_app1 in N by lia. rewrite nth_error_firstn in N by auto. apply (p_low _ _ P _ _ N L). }
  assert (HIGH : forall i e, nth_error il i = Some e -> t_front s <= i -> e_lev e <= DL s /\ (c = Conf \/ exists L, In (e_lit e, L) (t_trail s ++ tr))).
  { intros i e N L. unfold il in N. rewrite nth_error_app2 in N by lia. apply nth_error_In in N. rewrite B7 in N. apply filter_In in N as [N1 N2].
    apply andb_true_iff in N2 as [N2 _]. apply Nat.leb_le in N2. split; auto. destruct B2 as [B2|B2]; auto. }
  assert (LV : forall q L, In (q, L) (t_trail s ++ tr) -> L <= DL s).
  { intros q L J. apply in_app_or in J as [J|J]; [exact (p_lv _ _ P _ _ J)|]. destruct (B5 _ _ J). lia. }
  destruct (p_ord _ _ P) as [O1 O2].
  assert (ON : forall q k, on s q k -> exists L, In (q, L) (t_trail s ++ tr) /\ L <= k).
  { intros q n [L [X Y]]. exists L. split; auto. apply in_or_app; auto. }
  rewrite B1. split; [|split; [reflexivity|split; [reflexivity|split; [reflexivity|split; [reflexivity|split; [reflexivity|]]]]]].
  2:{ cbn. intros r f. destruct B2; congruence. }
  constructor; unfold set_il, set_conf, set_trail, er, ef, on, bad, DL in *; cbn [t_trail t_dec t_root t_flip t_mode t_il t_ill t_front t_conf] in *.
  - exact B4.
  - exact LV.
  - destruct B2 as [-> | ->]; lia.
  - destruct B2 as [-> | ->]; congruence.
  - destruct (t_root s <? ill); [unfold il; rewrite app_length; lia|lia].
  - intros i e N L. replace (match c with Stop r _ => r | _ => t_root s end) with (t_root s) by (destruct B2 as [-> | ->]; reflexivity).
    destruct ILL as [[_ Z]|Z]; [rewrite Z in N; destruct i; discriminate|].
    replace (Nat.min (t_root s) ill) with (t_root s) by lia.
    destruct (Nat.ltb_spec (t_root s) ill) as [RL|RL].
    + destruct (LOW i e N L) as [X Y]. split; auto.
    + destruct (Nat.lt_ge_cases i (t_front s)) as [A|A].
      * destruct (LOW i e N A) as [X Y]. split; auto.
      * destruct (HIGH i e N A) as [X Y]. split; [lia|]. destruct Y as [Y|[L' Y]]; [right; split; auto; lia|].
        left. exists L'. split; auto. apply LV in Y. lia.
  - intros i e N L. replace (match c with Stop _ f => f | _ => t_flip s end) with (t_flip s) by (destruct B2 as [-> | ->]; reflexivity).
    destruct (Nat.ltb_spec (t_root s) ill) as [RL|RL].
    + destruct ILL as [[_ Z]|Z]; [rewrite Z in N; destruct i; discriminate|]. rewrite Z, O2, Nat.min_id.
      destruct (HIGH i e N L) as [X Y]. split; [lia|]. destruct Y as [Y|[L' Y]]; [right; split; auto; lia|].
      left. exists L'. split; auto. eapply LV; eauto.
    + assert (i < length il) by (apply nth_error_Some; congruence). lia.
  - intros e J. destruct (IL e J) as [X Y]. apply (p_ent _ _ P); auto.
  - intros q L J. apply in_app_or in J as [J|J]; [apply (p_a _ _ P); auto|].
    destruct (B5 _ _ J) as [-> [e [X [Y Z]]]]. subst q.
    destruct (p_ent _ _ P e) as [l [U V]]; auto.
    { rewrite <- (firstn_skipn (t_front s) (t_il s)); apply in_or_app; auto. }
    exists l. split; auto. lia.
  - intros q l J. destruct (p_b _ _ P q l J) as [X Y]. split; auto. destruct Y as [Y|[e [Y1 [Y2 Y3]]]].
    + left. exact (ON _ _ Y).
    + rewrite <- (firstn_skipn (t_front s) (t_il s)) in Y1. apply in_app_or in Y1 as [Y1|Y1].
      * right; left. exists e. split; auto. apply in_or_app; auto.
      * unfold DL in X. destruct ((e_lev e <? length (t_dec s)) || e_null e) eqn:K.
        -- right; left. exists e. split; auto. apply in_or_app. right. rewrite B7. apply filter_In. split; auto.
           rewrite K, andb_true_r. apply Nat.leb_le. lia.
        -- apply orb_false_iff in K as [K _]. apply Nat.ltb_ge in K. assert (l = length (t_dec s)) by lia.
           destruct B2 as [C|C]; [left|right; right; auto].
           destruct (B6 C e Y1 ltac:(lia)) as [L Q]. exists L. subst q. split; auto. apply LV in Q. lia.
Qed.

Lemma il_loop_true : forall es s, (forall e, In e es -> isT s (e_lit e) = true) ->
  il_loop s true es = (s, filter (fun e => (e_lev e <=? DL s) && ((e_lev e <? DL s) || e_null e)) es).
Proof.
  induction es as [|e es IH]; cbn [il_loop filter]; intros s H; auto.
  destruct (e_lev e <=? DL s); cbn [andb].
  - unfold force1. rewrite H by (now left). rewrite IH by (intros; apply H; now right). destruct ((e_lev e <? DL s) || e_null e); reflexivity.
  - rewrite IH by (intros; apply H; now right). reflexivity.
Qed.

(** Nothing to reassign: all entries are true already. *)
Lemma il_assign_true : forall s lv, Inv s lv -> t_conf s = NoC ->
  (forall e, In e (t_il s) -> e_lev e <= t_flip s /\ on s (e_lit e) (t_flip s)) ->
  Inv (il_assign s) lv /\ DL (il_assign s) = DL s /\
  t_root (il_assign s) = t_root s /\ t_flip (il_assign s) = t_flip s /\ t_mode (il_assign s) = t_mode s /\ t_dec (il_assign s) = t_dec s /\
  (forall r f, t_conf (il_assign s) <> Stop r f).
Proof.
  intros s lv I NC H. unfold il_assign.
  assert (HC : hasConflict s = false) by (unfold hasConflict; now rewrite NC). rewrite HC. cbn [negb].
  rewrite il_loop_true.
  2:{ intros e E. destruct (H e) as [_ [L [X _]]]; [rewrite <- (firstn_skipn (t_front s) (t_il s)); apply in_or_app; auto|]. apply isT_In. eauto. }
  set (k := filter _ _). set (il := firstn (t_front s) (t_il s) ++ k).
  set (ill := match il with [] => 0 | _ => DL s end).
  split; [|repeat (split; [reflexivity|]); cbn; congruence].
  destruct (i_ord _ _ I) as [O1 [O2 [O3 [O4 O5]]]].
  assert (ER : er s = t_root s /\ ef s = t_flip s) by (unfold er, ef; rewrite NC; auto). destruct ER as [ER EF]. rewrite ER, EF in *.
  assert (IL : forall e, In e il -> In e (t_il s)).
  { intros e J. unfold il in J. apply in_app_or in J as [J|J].
    - rewrite <- (firstn_skipn (t_front s) (t_il s)); apply in_or_app; auto.
    - unfold k in J. apply filter_In in J as [J1 J2].
      rewrite <- (firstn_skipn (t_front s) (t_il s)); apply in_or_app; auto. }
  assert (LF : length (firstn (t_front s) (t_il s)) = t_front s) by (rewrite firstn_length; pose proof (i_front _ _ I); lia).
  assert (ILL : il = [] \/ ill = DL s) by (unfold ill; destruct il; auto).
  constructor; unfold set_il, er, ef, bad, DL in *; cbn [t_trail t_dec t_root t_flip t_mode t_il t_ill t_front t_conf] in *; rewrite ?NC.
  - exact (i_nd _ _ I).
  - exact (i_lv _ _ I).
  - lia.
  - congruence.
  - destruct (t_root s <? ill); [unfold il; rewrite app_length; lia|lia].
  - intros i e N L. destruct ILL as [Z|Z]; [rewrite Z in N; destruct i; discriminate|].
    replace (Nat.min (t_root s) ill) with (t_root s) by lia.
    destruct (Nat.lt_ge_cases i (t_front s)) as [A|A].
    + unfold il in N. rewrite nth_error_app1 in N by lia. rewrite nth_error_firstn in N by auto.
      destruct (i_low _ _ I i e N A) as [X [Y|[Y _]]]; [|unfold bad in Y; congruence].
      unfold er in X, Y. rewrite NC in X, Y. split; [lia|]. left. destruct Y as [L' [Y1 Y2]]. exists L'. split; auto. lia.
    + destruct (Nat.ltb_spec (t_root s) ill) as [RL|RL]; [lia|].
      apply nth_error_In in N. apply IL in N. destruct (H e N) as [X [L' [Y1 Y2]]]. split; [lia|]. left. exists L'. split; auto. lia.
  - intros i e N L. destruct ILL as [Z|Z]; [rewrite Z in N; destruct i; discriminate|].
    replace (Nat.min (t_flip s) ill) with (t_flip s) by lia.
    apply nth_error_In in N. apply IL in N. destruct (H e N) as [X Y]. auto.
  - intros e J. apply (i_ent _ _ I). auto.
  - exact (i_a _ _ I).
  - intros q l J. destruct (i_b _ _ I q l J) as [X Y]. split; auto. destruct Y as [Y|[[e [Y1 [Y2 Y3]]]|[Y _]]]; [left; exact Y| |unfold bad in Y; congruence].
    rewrite <- (firstn_skipn (t_front s) (t_il s)) in Y1. apply in_app_or in Y1 as [Y1|Y1].
    + right; left. exists e. split; auto. apply in_or_app; auto.
    + destruct ((e_lev e <? length (t_dec s)) || e_null e) eqn:K.
      * right; left. exists e. split; auto. apply in_or_app. right. unfold k. apply filter_In. split; auto.
        unfold DL in *. rewrite K, andb_true_r. apply Nat.leb_le. lia.
      * left. apply orb_false_iff in K as [K _]. apply Nat.ltb_ge in K.
        destruct (H e) as [_ Q]; [rewrite <- (firstn_skipn (t_front s) (t_il s)); apply in_or_app; auto|]. subst q.
        destruct Q as [L [Q1 Q2]]. exists L. split; auto. lia.
Qed.

(** * Undoing *)
Definition cut (s : st) (l : nat) : st :=
  St (filter (fun x => Nat.leb (snd x) l) (t_trail s)) (firstn l (t_dec s)) (t_root s) (t_flip s) (t_mode s) (t_il s) (t_ill s) (t_front s) NoC.
Lemma undoImpl_cut : forall s l, undoImpl s l = if DL s <=? Nat.max l (t_flip s) then s else cut s (Nat.max l (t_flip s)).
Proof. reflexivity. Qed.

Lemma nd_filter : forall (f : lit * nat -> bool) l, NoDup (map (fun x => fst (fst x)) l) -> NoDup (map (fun x => fst (fst x)) (filter f l)).
Proof.
  induction l as [|a l IH]; cbn; intros N; [constructor|]. inversion N; subst. destruct (f a); cbn; auto. constructor; auto.
  intros C. apply H1. apply in_map_iff in C as [x [X Y]]. apply filter_In in Y as [Y _]. apply in_map_iff. eauto.
Qed.
Lemma cut_DL : forall s l, l <= DL s -> DL (cut s l) = l.
Proof. intros. unfold DL, cut in *. cbn. rewrite firstn_length. lia. Qed.
Lemma cut_on : forall s l q k, on s q k -> k <= l -> on (cut s l) q k.
Proof. intros s l q k [L [A B]] H. exists L. split; auto. unfold cut. cbn. apply filter_In. split; auto. apply Nat.leb_le. cbn. lia. Qed.

(** [s1] is [s] with other root and backtrack levels (and perhaps front reset to 0);
    it is undone to level [l]. *)
Lemma lower_Inv : forall s lv r f m fr l, Inv s lv -> (forall r f, t_conf s <> Stop r f) ->
  r <= t_root s -> (fr = t_front s /\ r = t_root s \/ fr = 0) -> r <= f -> f <= l -> l < DL s ->
  (f = t_flip s /\ fr = t_front s \/ f = l) ->
  let s1 := cut (set_il (set_lev s r f m) (t_il s) (t_ill s) fr) l in
  let s2 := if il_active s1 then il_assign s1 else s1 in
  Inv s2 (filter (fun x => snd x <=? l) lv) /\ DL s2 = l /\ t_root s2 = r /\ t_flip s2 = f /\ t_mode s2 = m /\ t_dec s2 = firstn l (t_dec s) /\
  (forall r f, t_conf s2 <> Stop r f).
Proof.
  intros s lv r f m fr l I NS R FR RF FL LD ACT s1 s2.
  assert (ER : er s = t_root s /\ ef s = t_flip s) by (unfold er, ef; destruct (t_conf s) eqn:E; auto; exfalso; eapply NS; eauto).
  destruct ER as [ER EF].
  assert (D1 : DL s1 = l) by (unfold s1; apply cut_DL; unfold DL in *; cbn; lia).
  assert (TR : forall q L, In (q, L) (t_trail s1) -> In (q, L) (t_trail s) /\ L <= l).
  { intros q L J. unfold s1, cut in J. cbn in J. apply filter_In in J as [J1 J2]. apply Nat.leb_le in J2. auto. }
  assert (ON : forall q k, on s q k -> k <= l -> on s1 q k).
  { intros q k O K. unfold s1. apply cut_on; auto. }
  assert (LVF : forall q n, In (q, n) (filter (fun x => snd x <=? l) lv) <-> In (q, n) lv /\ n <= l).
  { intros. rewrite filter_In. cbn. rewrite Nat.leb_le. tauto. }
  destruct (i_ord _ _ I) as [O1 [O2 [O3 [O4 O5]]]].
  assert (LOW : forall i e, nth_error (t_il s) i = Some e -> i < fr -> e_lev e <= r /\ on s1 (e_lit e) r).
  { intros i e N L. destruct FR as [[-> ->]| ->]; [|lia]. destruct (i_low _ _ I i e N L) as [X [Y|[_ Y]]]; [|lia].
    rewrite ER in *. split; [lia|]. apply on_mono with (k := Nat.min (t_root s) (t_ill s)); [|lia]. apply ON; auto. lia. }
  assert (FRL : fr <= length (t_il s)) by (pose proof (i_front _ _ I); destruct FR as [[-> _]| ->]; lia).
  assert (AA : forall q L, In (q, L) (t_trail s1) -> exists n, n <= L /\ In (q, n) (filter (fun x => snd x <=? l) lv)).
  { intros q L J. apply TR in J as [J1 J2]. destruct (i_a _ _ I q L J1) as [n [X Y]]. exists n. split; auto. apply LVF. split; auto. lia. }
  assert (EE : forall e, In e (t_il s) -> e_lev e <= l -> exists n, n <= e_lev e /\ In (e_lit e, n) (filter (fun x => snd x <=? l) lv)).
  { intros e J K. destruct (i_ent _ _ I e J) as [n [X Y]]. exists n. split; auto. apply LVF. split; auto. lia. }
  assert (BB : forall q n, In (q, n) (filter (fun x => snd x <=? l) lv) -> n <= DL s1 /\ (on s1 q n \/ exists e, In e (t_il s) /\ e_lit e = q /\ e_lev e <= n)).
  { intros q n J. apply LVF in J as [J1 J2]. split; [lia|]. destruct (i_b _ _ I q n J1) as [_ [Y|[Y|[_ Y]]]]; auto. lia. }
  assert (ND1 : NoDup (map (fun x => fst (fst x)) (t_trail s1))) by (apply nd_filter; exact (i_nd _ _ I)).
  assert (INV1 : (f = l -> t_ill s <= l \/ fr = length (t_il s)) -> (f = l \/ f = t_flip s /\ fr = t_front s) -> Inv s1 (filter (fun x => snd x <=? l) lv)).
  { intros N NF. constructor; auto.
    + intros q L J. apply TR in J. lia.
    + rewrite D1. unfold er, ef, s1, cut. cbn. lia.
    + unfold s1, cut. cbn. congruence.
    + intros i e J K. change (t_ill s1) with (t_ill s). change (er s1) with r. change (t_il s1) with (t_il s) in J.
      assert (fr = t_front s /\ r = t_root s) as [-> ->] by (destruct FR as [F|F]; [auto|change (t_front s1) with fr in K; lia]).
      destruct (i_low _ _ I i e J K) as [X [Y|[_ [Y _]]]]; [|lia]. rewrite ER in *. split; auto. left. apply ON; auto. lia.
    + intros i e J K. assert (i < length (t_il s)) by (apply nth_error_Some; unfold s1 in J; cbn in J; congruence).
      assert (fr <= i) by exact K.
      change (t_ill s1) with (t_ill s). change (t_il s1) with (t_il s) in J. change (ef s1) with f.
      assert (e_lev e <= Nat.min f (t_ill s) /\ on s (e_lit e) (Nat.min f (t_ill s))) as [X Y].
      { destruct NF as [NF|[NF1 NF2]].
        - destruct (N NF) as [N'|N']; [|lia].
          destruct (Nat.lt_ge_cases i (t_front s)) as [B|B].
          + destruct (i_low _ _ I i e J B) as [X [Y|[_ [_ Y]]]]; [|lia]. split; [lia|]. eapply on_mono; eauto. lia.
          + destruct (i_high _ _ I i e J B) as [X [Y|[_ [_ Y]]]]; [|lia]. split; [lia|]. eapply on_mono; eauto. lia.
        - destruct (i_high _ _ I i e J ltac:(lia)) as [X [Y|[_ [Y _]]]]; [|lia]. rewrite EF in *. subst f. auto. }
      split; auto. left. apply ON; auto. lia.
    + intros e J. change (t_il s1) with (t_il s) in J. apply EE; auto.
      apply In_nth_error in J as [i J]. destruct (Nat.lt_ge_cases i (t_front s)) as [B|B].
      * destruct (i_low _ _ I i e J B) as [X _]. rewrite ER in X.
        destruct FR as [[F1 F2]|F1]; [lia|]. destruct NF as [NF|[NF1 NF2]]; [|lia].
        destruct (N NF) as [N'|N']; [lia|]. assert (i < length (t_il s)) by (apply nth_error_Some; congruence). lia.
      * destruct (i_high _ _ I i e J B) as [X _]. rewrite EF in X. destruct NF as [NF|[NF1 NF2]]; [|lia].
        destruct (N NF) as [N'|N']; [lia|].
        assert (i < length (t_il s)) by (apply nth_error_Some; congruence).
        destruct FR as [[F1 _]|F1]; lia.
    + intros q n J. destruct (BB q n J) as [X [Y|Y]]; auto. }
  destruct (il_active s1) eqn:A.
  - unfold il_active in A. apply andb_true_iff in A as [A _]. apply Nat.ltb_lt in A. rewrite D1 in A.
    change (t_ill s1) with (t_ill s) in A.
    destruct (Nat.eq_dec f l) as [FE|FE].
    + assert (P : Pre s1 (filter (fun x => snd x <=? l) lv)).
      { constructor; auto.
        - intros q L J. apply TR in J. lia.
        - rewrite D1. unfold s1, cut. cbn. auto.
        - intros e J K. apply EE; auto. lia. }
      destruct (il_assign_Inv _ _ P) as [Q1 [Q2 [Q3 [Q4 [Q5 [Q6 Q7]]]]]]. subst s2. rewrite Q2, Q3, Q4, Q5, Q6.
      repeat (split; [first [assumption|reflexivity]|]). exact Q7.
    + destruct ACT as [[AC1 AC2]|AC]; [|congruence].
      assert (I1 : Inv s1 (filter (fun x => snd x <=? l) lv)) by (apply INV1; auto; congruence).
      destruct (il_assign_true s1 _ I1) as [Q1 [Q2 [Q3 [Q4 [Q5 [Q6 Q7]]]]]].
      * reflexivity.
      * intros e J. change (t_il s1) with (t_il s) in J. change (t_flip s1) with f.
        apply In_nth_error in J as [i J]. destruct (Nat.lt_ge_cases i (t_front s)) as [B|B].
        -- destruct (LOW i e J ltac:(lia)) as [X Y]. split; [lia|]. eapply on_mono; eauto.
        -- destruct (i_high _ _ I i e J B) as [X [Y|[_ [Y _]]]]; [|lia]. rewrite EF in *. split; [lia|]. apply ON; [|lia]. eapply on_mono; eauto. lia.
      * subst s2. rewrite Q2, Q3, Q4, Q5, Q6. repeat (split; [first [assumption|reflexivity]|]). exact Q7.
  - subst s2. split; [|repeat (split; [first [assumption|reflexivity]|]); cbn; congruence].
    assert (N : t_ill s <= l \/ fr = length (t_il s)).
    { unfold il_active in A. apply andb_false_iff in A as [A|A]; [left|right].
      - apply Nat.ltb_ge in A. rewrite D1 in A. exact A.
      - apply negb_false_iff, Nat.eqb_eq in A. exact A. }
    apply INV1; auto. tauto.
Qed.

Lemma nostop_eq : forall s, (forall r f, t_conf s <> Stop r f) -> er s = t_root s /\ ef s = t_flip s.
Proof. intros s NS. unfold er, ef. destruct (t_conf s) eqn:E; auto. exfalso. eapply NS; eauto. Qed.
Lemma stop_dl : forall s lv, Inv s lv -> t_flip s < DL s -> forall r f, t_conf s <> Stop r f.
Proof. intros s lv I H r f C. pose proof (i_stop _ _ I _ _ C). pose proof (i_ord _ _ I). lia. Qed.

Lemma undoImpl_Inv : forall s lv l, Inv s lv -> let s' := undoImpl s l in
  Inv s' (filter (fun x => snd x <=? DL s') lv) /\ DL s' = Nat.min (DL s) (Nat.max l (t_flip s)) /\
  t_root s' = t_root s /\ t_flip s' = t_flip s /\ t_mode s' = t_mode s /\ t_dec s' = firstn (DL s') (t_dec s) /\
  (DL s' < DL s -> t_conf s' = NoC) /\ (DL s' = DL s -> s' = s).
Proof.
  intros s lv l I. cbn zeta. rewrite undoImpl_cut. set (n := Nat.max l (t_flip s)).
  destruct (Nat.leb_spec (DL s) n) as [H|H].
  - rewrite (live_id s lv) by (auto; lia). repeat (split; [first [assumption|reflexivity|lia]|]). split.
    + unfold DL. now rewrite firstn_all.
    + split; [intros X; exfalso; lia|auto].
  - rewrite cut_DL by lia. split; [|split; [lia|split; [reflexivity|split; [reflexivity|split; [reflexivity|split; [reflexivity|split; [reflexivity|intros X; exfalso; lia]]]]]]].
    pose proof (stop_dl s lv I ltac:(lia)) as NS. destruct (nostop_eq s NS) as [ER EF].
    destruct (i_ord _ _ I) as [O1 [O2 [O3 [O4 O5]]]]. rewrite ER, EF in *.
    assert (TR : forall q L, In (q, L) (t_trail (cut s n)) -> In (q, L) (t_trail s) /\ L <= n).
    { intros q L J. unfold cut in J. cbn in J. apply filter_In in J as [J1 J2]. apply Nat.leb_le in J2. auto. }
    assert (ON := cut_on s n).
    assert (LVF : forall q m, In (q, m) (filter (fun x => snd x <=? n) lv) <-> In (q, m) lv /\ m <= n).
    { intros. rewrite filter_In. cbn. rewrite Nat.leb_le. tauto. }
    constructor.
    + apply nd_filter. exact (i_nd _ _ I).
    + intros q L J. apply TR in J. rewrite cut_DL; lia.
    + rewrite cut_DL by lia. unfold er, ef, cut. cbn. lia.
    + cbn. congruence.
    + exact (i_front _ _ I).
    + intros i e J K. destruct (i_low _ _ I i e J K) as [X [Y|[_ [Y _]]]]; [|lia]. rewrite ER in *.
      change (er (cut s n)) with (t_root s). change (t_ill (cut s n)) with (t_ill s). split; auto. left. apply ON; auto. lia.
    + intros i e J K. destruct (i_high _ _ I i e J K) as [X [Y|[_ [Y _]]]]; [|lia]. rewrite EF in *.
      change (ef (cut s n)) with (t_flip s). change (t_ill (cut s n)) with (t_ill s). split; auto. left. apply ON; auto. lia.
    + intros e J. change (t_il (cut s n)) with (t_il s) in J. destruct (i_ent _ _ I e J) as [m [X Y]]. exists m. split; auto. apply LVF. split; auto.
      apply In_nth_error in J as [i J]. destruct (Nat.lt_ge_cases i (t_front s)) as [B|B].
      * destruct (i_low _ _ I i e J B) as [Z _]. lia.
      * destruct (i_high _ _ I i e J B) as [Z _]. lia.
    + intros q L J. apply TR in J as [J1 J2]. destruct (i_a _ _ I q L J1) as [m [X Y]]. exists m. split; auto. apply LVF. split; auto. lia.
    + intros q m J. apply LVF in J as [J1 J2]. rewrite cut_DL by lia. split; auto.
      destruct (i_b _ _ I q m J1) as [_ [Y|[Y|[_ Y]]]]; auto. lia.
Qed.


Lemma il_loop_false : forall es s,
  il_loop s false es = (s, filter (fun e => (e_lev e <=? DL s) && ((e_lev e <? DL s) || e_null e)) es).
Proof.
  induction es as [|e es IH]; cbn [il_loop filter]; intros s; auto.
  destruct (e_lev e <=? DL s); cbn [andb]; rewrite IH; auto.
Qed.

(** Reassigning without having undone anything. *)
Lemma il_assign_same : forall s lv, Inv s lv -> (forall r f, t_conf s <> Stop r f) ->
  Inv (il_assign s) lv /\ DL (il_assign s) = DL s /\
  t_root (il_assign s) = t_root s /\ t_flip (il_assign s) = t_flip s /\ t_mode (il_assign s) = t_mode s /\ t_dec (il_assign s) = t_dec s /\
  (forall r f, t_conf (il_assign s) <> Stop r f).
Proof.
  intros s lv I NS. destruct (nostop_eq s NS) as [ER EF]. destruct (i_ord _ _ I) as [O1 [O2 [O3 [O4 O5]]]]. rewrite ER, EF in *.
  destruct (t_conf s) eqn:CF; [| |exfalso; eapply NS; eauto].
  - apply il_assign_true; auto. intros e J. apply In_nth_error in J as [i J].
    destruct (Nat.lt_ge_cases i (t_front s)) as [B|B].
    + destruct (i_low _ _ I i e J B) as [X [Y|[Y _]]]; [|unfold bad in Y; congruence]. split; [lia|]. eapply on_mono; eauto. lia.
    + destruct (i_high _ _ I i e J B) as [X [Y|[Y _]]]; [|unfold bad in Y; congruence]. split; [lia|]. eapply on_mono; eauto. lia.
  - unfold il_assign. assert (HC : hasConflict s = true) by (unfold hasConflict; now rewrite CF). rewrite HC. cbn [negb].
    rewrite il_loop_false. set (k := filter _ _). set (il := firstn (t_front s) (t_il s) ++ k).
    set (ill := match il with [] => 0 | _ => DL s end).
    split; [|repeat (split; [reflexivity|]); cbn; congruence].
    assert (LF : length (firstn (t_front s) (t_il s)) = t_front s) by (rewrite firstn_length; pose proof (i_front _ _ I); lia).
    assert (ILL : il = [] \/ ill = DL s) by (unfold ill; destruct il; auto).
    assert (IL : forall e, In e il -> In e (t_il s)).
    { intros e J. unfold il in J. apply in_app_or in J as [J|J].
      - rewrite <- (firstn_skipn (t_front s) (t_il s)); apply in_or_app; auto.
      - unfold k in J. apply filter_In in J as [J1 J2].
        rewrite <- (firstn_skipn (t_front s) (t_il s)); apply in_or_app; auto. }
    assert (ALL : forall e, In e (t_il s) -> e_lev e <= t_flip s /\ (on s (e_lit e) (t_flip s) \/ t_flip s = DL s)).
    { intros e J. apply In_nth_error in J as [i J]. destruct (Nat.lt_ge_cases i (t_front s)) as [B|B].
      - destruct (i_low _ _ I i e J B) as [X Y]. split; [lia|]. destruct Y as [Y|Y]; [left; eapply on_mono; eauto; lia|right; lia].
      - destruct (i_high _ _ I i e J B) as [X Y]. split; [lia|]. destruct Y as [Y|Y]; [left; eapply on_mono; eauto; lia|right; lia]. }
    constructor; unfold set_il, er, ef, bad, DL in *; cbn [t_trail t_dec t_root t_flip t_mode t_il t_ill t_front t_conf] in *; rewrite ?CF.
    + exact (i_nd _ _ I).
    + exact (i_lv _ _ I).
    + lia.
    + congruence.
    + destruct (t_root s <? ill); [unfold il; rewrite app_length; lia|lia].
    + intros i e N L. destruct ILL as [Z|Z]; [rewrite Z in N; destruct i; discriminate|].
      replace (Nat.min (t_root s) ill) with (t_root s) by lia.
      destruct (Nat.lt_ge_cases i (t_front s)) as [A|A].
      * unfold il in N. rewrite nth_error_app1 in N by lia. rewrite nth_error_firstn in N by auto.
        destruct (i_low _ _ I i e N A) as [X Y]. unfold er in X, Y. rewrite CF in X, Y. split; [lia|].
        destruct Y as [[L' [Y1 Y2]]|[_ [Y _]]]; [left; exists L'; split; auto; lia|right; unfold DL in Y; split; auto; lia].
      * destruct (Nat.ltb_spec (t_root s) ill) as [RL|RL]; [lia|].
        apply nth_error_In in N. apply IL in N. destruct (ALL e N) as [X Y]. split; [lia|].
        destruct Y as [[L' [Y1 Y2]]|Y]; [left; exists L'; split; auto; lia|right; split; auto; lia].
    + intros i e N L. destruct ILL as [Z|Z]; [rewrite Z in N; destruct i; discriminate|].
      replace (Nat.min (t_flip s) ill) with (t_flip s) by lia.
      apply nth_error_In in N. apply IL in N. destruct (ALL e N) as [X [Y|Y]]; [auto|]. split; auto. right. split; auto. lia.
    + intros e J. apply (i_ent _ _ I). auto.
    + exact (i_a _ _ I).
    + intros q l J. destruct (i_b _ _ I q l J) as [X Y]. split; auto. destruct Y as [Y|[[e [Y1 [Y2 Y3]]]|[Y1 Y2]]]; [left; exact Y| |auto].
      rewrite <- (firstn_skipn (t_front s) (t_il s)) in Y1. apply in_app_or in Y1 as [Y1|Y1].
      * right; left. exists e. split; auto. apply in_or_app; auto.
      * unfold DL in X. destruct ((e_lev e <? length (t_dec s)) || e_null e) eqn:K.
        -- right; left. exists e. split; auto. apply in_or_app. right. unfold k. apply filter_In. split; auto.
           unfold DL in *. rewrite K, andb_true_r. apply Nat.leb_le. lia.
        -- right; right. apply orb_false_iff in K as [K _]. apply Nat.ltb_ge in K. split; auto. lia.
Qed.

Lemma undo2_gen : forall s lv r f m fr l, Inv s lv -> (forall r f, t_conf s <> Stop r f) ->
  r <= t_root s -> (fr = t_front s /\ r = t_root s \/ fr = 0) -> r <= f ->
  (f = t_flip s /\ fr = t_front s \/ f = Nat.max l f) -> (DL s <= Nat.max l f -> r = t_root s /\ f = t_flip s) ->
  let s1 := set_il (set_lev s r f m) (t_il s) (t_ill s) fr in
  let s2 := undoImpl s1 l in
  let s3 := if il_active s2 then il_assign s2 else s2 in
  Inv s3 (filter (fun x => snd x <=? DL s3) lv) /\ DL s3 = Nat.min (DL s) (Nat.max l f) /\ t_root s3 = r /\ t_flip s3 = f /\ t_mode s3 = m /\
  t_dec s3 = firstn (DL s3) (t_dec s) /\ (forall r f, t_conf s3 <> Stop r f).
Proof.
  intros s lv r f m fr l I NS R FR RF F KEEP s1 s2 s3.
  assert (E2 : s2 = if DL s <=? Nat.max l f then s1 else cut s1 (Nat.max l f)) by reflexivity.
  destruct (nostop_eq s NS) as [ER EF]. destruct (i_ord _ _ I) as [O1 [O2 [O3 [O4 O5]]]].
  destruct (Nat.leb_spec (DL s) (Nat.max l f)) as [H|H].
  - destruct (KEEP H) as [-> ->].
    assert (I1 : Inv s1 lv).
    { assert (ER1 : er s1 = t_root s /\ ef s1 = t_flip s) by (unfold er, ef, s1; cbn; destruct (t_conf s) eqn:CF; auto; exfalso; eapply NS; eauto).
      destruct ER1 as [ER1 EF1].
      constructor; rewrite ?ER1, ?EF1; try (destruct I; assumption).
      - change (DL s1) with (DL s). cbn. lia.
      - cbn. destruct FR as [[-> _]| ->]; [exact (i_front _ _ I)|lia].
      - intros i e J K. change (t_il s1) with (t_il s) in J. change (t_front s1) with fr in K.
        destruct FR as [[-> _]| ->]; [|lia]. rewrite <- ER. exact (i_low _ _ I i e J K).
      - intros i e J K. change (t_il s1) with (t_il s) in J. change (t_front s1) with fr in K. change (t_ill s1) with (t_ill s).
        destruct (Nat.lt_ge_cases i (t_front s)) as [B|B].
        + destruct (i_low _ _ I i e J B) as [X Y]. rewrite ER in *. split; [lia|].
          destruct Y as [Y|[Y1 [Y2 Y3]]]; [left|right; split; [exact Y1|change (t_flip s1) with (t_flip s); change (DL s1) with (DL s); lia]].
          apply (on_mono s) with (k := Nat.min (t_root s) (t_ill s)); [exact Y|lia].
        + destruct (i_high _ _ I i e J B) as [X Y]. rewrite EF in *. split; [exact X|exact Y]. }
    assert (NS1 : forall r f, t_conf s1 <> Stop r f) by exact NS.
    subst s3. rewrite E2. destruct (il_active s1) eqn:A.
    + destruct (il_assign_same s1 lv I1 NS1) as [Q1 [Q2 [Q3 [Q4 [Q5 [Q6 Q7]]]]]]. rewrite Q2, Q3, Q4, Q5, Q6.
      change (DL s1) with (DL s). rewrite (live_id s lv) by auto.
      repeat (split; [first [assumption|reflexivity|lia]|]). split; [cbn; unfold DL; now rewrite firstn_all|exact Q7].
    + change (DL s1) with (DL s). rewrite (live_id s lv) by auto.
      repeat (split; [first [assumption|reflexivity|lia]|]). split; [cbn; unfold DL; now rewrite firstn_all|exact NS1].
  - subst s3. rewrite E2.
    destruct (lower_Inv s lv r f m fr (Nat.max l f) I NS R FR RF ltac:(lia) H) as [Q1 [Q2 [Q3 [Q4 [Q5 [Q6 Q7]]]]]].
    { destruct F as [F|F]; auto. }
    cbn zeta in Q1, Q2, Q3, Q4, Q5, Q6, Q7. fold s1 in Q1, Q2, Q3, Q4, Q5, Q6, Q7. rewrite Q2.
    repeat (split; [first [assumption|reflexivity|lia]|]). exact Q7.
Qed.

Lemma undo2_Inv : forall s lv l m, Inv s lv -> (forall r f, t_conf s <> Stop r f) -> let s' := undo2 s l m in
  Inv s' (filter (fun x => snd x <=? DL s') lv) /\
  t_flip s' = (if (l <? t_flip s) && (t_mode s <=? m) then Nat.max (t_root s) l else t_flip s) /\
  DL s' = Nat.min (DL s) (Nat.max l (t_flip s')) /\ t_root s' = t_root s /\ t_mode s' = t_mode s /\ t_dec s' = firstn (DL s') (t_dec s) /\
  (forall r f, t_conf s' <> Stop r f).
Proof.
  intros s lv l m I NS. cbn zeta. destruct (i_ord _ _ I) as [O1 [O2 [O3 [O4 O5]]]].
  unfold undo2. set (c := (l <? t_flip s) && (t_mode s <=? m)).
  assert (CL : c = true -> l < t_flip s) by (unfold c; rewrite andb_true_iff, Nat.ltb_lt; tauto).
  set (f := if c then Nat.max (t_root s) l else t_flip s).
  assert (E : (if c then set_lev s (t_root s) (Nat.max (t_root s) l) (t_mode s) else s) = set_il (set_lev s (t_root s) f (t_mode s)) (t_il s) (t_ill s) (t_front s)).
  { unfold f. destruct c; destruct s; reflexivity. }
  rewrite E. destruct (undo2_gen s lv (t_root s) f (t_mode s) (t_front s) l I NS) as [Q1 [Q2 [Q3 [Q4 [Q5 [Q6 Q7]]]]]]; auto.
  - unfold f. destruct c; lia.
  - unfold f. destruct c; [right; lia|left; auto].
  - intros H. split; auto. unfold f in *. destruct c; auto. specialize (CL eq_refl). lia.
  - rewrite Q4. repeat (split; [first [assumption|reflexivity]|]). exact Q7.
Qed.

Lemma raise_Inv : forall s lv r' f' m, Inv s lv -> t_root s <= r' -> r' <= f' -> t_flip s <= f' -> f' <= DL s ->
  (forall r f, t_conf s = Stop r f -> r' = DL s) -> Inv (set_lev s r' f' m) lv.
Proof.
  intros s lv r' f' m I R RF F D ST. destruct (i_ord _ _ I) as [O1 [O2 [O3 [O4 O5]]]].
  set (s' := set_lev s r' f' m).
  assert (ER : er s <= er s' /\ ef s <= ef s' /\ er s' <= ef s' /\ ef s' <= f' /\ er s' <= r').
  { unfold er, ef, s' in *. cbn. destruct (t_conf s); lia. }
  destruct ER as [E1 [E2 [E3 [E4 E5]]]].
  constructor; try (destruct I; assumption).
  - change (DL s') with (DL s). cbn. lia.
  - intros i e J K. change (t_ill s') with (t_ill s). destruct (i_low _ _ I i e J K) as [X Y]. split; [lia|].
    destruct Y as [Y|[Y1 [Y2 Y3]]]; [left; apply (on_mono s) with (k := Nat.min (er s) (t_ill s)); [exact Y|lia]|].
    right. split; [exact Y1|]. change (DL s') with (DL s). change (t_root s') with r'. lia.
  - intros i e J K. change (t_ill s') with (t_ill s). destruct (i_high _ _ I i e J K) as [X Y]. split; [lia|].
    destruct Y as [Y|[Y1 [Y2 Y3]]]; [left; apply (on_mono s) with (k := Nat.min (ef s) (t_ill s)); [exact Y|lia]|].
    right. split; [exact Y1|]. change (DL s') with (DL s). change (t_flip s') with f'. lia.
Qed.

Lemma setBt_Inv : forall s lv l m, Inv s lv -> t_flip s <= l -> Inv (setBt s l m) lv.
Proof.
  intros s lv l m I H. unfold setBt. destruct (t_mode s <=? m); auto. destruct (i_ord _ _ I) as [O1 [O2 [O3 [O4 O5]]]].
  apply raise_Inv; auto; try lia. intros r f C. exact (i_stop _ _ I r f C).
Qed.
Lemma pushRoot_Inv : forall s lv n, Inv s lv -> Inv (pushRoot s n) lv.
Proof.
  intros s lv n I. unfold pushRoot. destruct (i_ord _ _ I) as [O1 [O2 [O3 [O4 O5]]]].
  apply raise_Inv; auto; try lia. intros r f C. pose proof (i_stop _ _ I r f C). lia.
Qed.
Lemma clearStop_Inv : forall s lv, Inv s lv -> Inv (clearStop s) lv /\ (forall r f, t_conf (clearStop s) <> Stop r f) /\ DL (clearStop s) = DL s /\ t_dec (clearStop s) = t_dec s /\ t_mode (clearStop s) = t_mode s.
Proof.
  intros s lv I. unfold clearStop. destruct (t_conf s) eqn:C; try (split; [exact I|split; [congruence|auto]]).
  split; [|cbn; split; [congruence|auto]]. pose proof (i_stop _ _ I _ _ C) as ST. destruct (i_ord _ _ I) as [O1 [O2 [O3 [O4 O5]]]].
  set (s' := set_conf (set_lev s r f (t_mode s)) NoC).
  assert (E : er s = r /\ ef s = f) by (unfold er, ef; rewrite C; auto). destruct E as [E1 E2]. rewrite E1, E2 in *.
  constructor; try (destruct I; assumption).
  - change (DL s') with (DL s). unfold er, ef, s'. cbn. lia.
  - cbn. congruence.
  - intros i e J K. destruct (i_low _ _ I i e J K) as [X [Y|[Y _]]]; [|unfold bad in Y; congruence]. rewrite E1 in *. split; auto.
  - intros i e J K. destruct (i_high _ _ I i e J K) as [X [Y|[Y _]]]; [|unfold bad in Y; congruence]. rewrite E2 in *. split; auto.
  - intros q l J. destruct (i_b _ _ I q l J) as [X [Y|[Y|[Y _]]]]; [| |unfold bad in Y; congruence]; split; auto.
Qed.
Lemma setStop_Inv : forall s lv, Inv s lv -> Inv (setStop s) lv /\ hasConflict (setStop s) = true.
Proof.
  intros s lv I. unfold setStop. destruct (hasConflict s) eqn:H; [split; [apply pushRoot_Inv; auto|exact H]|]. split; [|reflexivity].
  pose proof (noconf _ H) as C. destruct (i_ord _ _ I) as [O1 [O2 [O3 [O4 O5]]]].
  assert (E : er s = t_root s /\ ef s = t_flip s) by (unfold er, ef; rewrite C; auto). destruct E as [E1 E2]. rewrite E1, E2 in *.
  unfold pushRoot. set (s' := set_lev _ _ _ _).
  constructor; try (destruct I; assumption).
  - change (DL s') with (DL s). unfold er, ef, s'. cbn. fold (DL s). change (DL (set_conf s (Stop (t_root s) (t_flip s)))) with (DL s). lia.
  - cbn. change (DL s') with (DL s). intros r f X. fold (DL s). change (DL (set_conf s (Stop (t_root s) (t_flip s)))) with (DL s). lia.
  - intros i e J K. destruct (i_low _ _ I i e J K) as [X [Y|[Y _]]]; [|unfold bad in Y; congruence]. rewrite E1 in *. split; auto.
  - intros i e J K. destruct (i_high _ _ I i e J K) as [X [Y|[Y _]]]; [|unfold bad in Y; congruence]. rewrite E2 in *. split; auto.
  - intros q l J. destruct (i_b _ _ I q l J) as [X [Y|[Y|[Y _]]]]; [| |unfold bad in Y; congruence]; split; auto.
Qed.
Lemma conflict_Inv : forall s lv, Inv s lv -> hasConflict s = false -> Inv (set_conf s Conf) lv.
Proof.
  intros s lv I H. pose proof (noconf _ H) as C.
  assert (E : er s = t_root s /\ ef s = t_flip s) by (unfold er, ef; rewrite C; auto). destruct E as [E1 E2].
  set (s' := set_conf s Conf). assert (E3 : er s' = er s /\ ef s' = ef s) by (rewrite E1, E2; auto). destruct E3 as [E3 E4].
  constructor; rewrite ?E3, ?E4; try (destruct I; assumption).
  - cbn. congruence.
  - intros i e J K. destruct (i_low _ _ I i e J K) as [X [Y|[Y _]]]; [|unfold bad in Y; congruence]. split; auto.
  - intros i e J K. destruct (i_high _ _ I i e J K) as [X [Y|[Y _]]]; [|unfold bad in Y; congruence]. split; auto.
  - intros q l J. destruct (i_b _ _ I q l J) as [X [Y|[Y|[Y _]]]]; [| |unfold bad in Y; congruence]; split; auto.
Qed.

Lemma popRoot_Inv : forall s lv n, Inv s lv -> Inv (popRoot s n) (filter (fun x => snd x <=? DL (popRoot s n)) lv) /\ t_mode (popRoot s n) <= 2.
Proof.
  intros s0 lv n I0. unfold popRoot. destruct (clearStop_Inv s0 lv I0) as [I [NS [D [_ M]]]]. set (s := clearStop s0) in *.
  destruct (i_ord _ _ I) as [O1 [O2 [O3 [O4 O5]]]].
  set (r := t_root s - Nat.min n (t_root s)). unfold undo2. cbn [set_il set_lev t_flip t_mode]. rewrite Nat.ltb_irrefl. cbn [andb].
  destruct (undo2_gen s lv r r 0 0 r I NS) as [Q1 [Q2 [Q3 [Q4 [Q5 [Q6 Q7]]]]]]; auto; try (unfold r; lia).
  split; [exact Q1|]. cbn zeta in Q5. unfold set_il, set_lev in *. cbn in Q5 |- *. rewrite Q5. lia.
Qed.

Lemma assume_Inv : forall s lv p, Inv s lv -> hasConflict s = false ->
  Inv (fst (assume s p)) (filter (fun x => snd x <=? DL (fst (assume s p))) lv ++ made s (OAssume p) (fst (assume s p))).
Proof.
  intros s lv p I NC. pose proof (noconf _ NC) as C.
  assert (ER : er s = t_root s /\ ef s = t_flip s) by (unfold er, ef; rewrite C; auto). destruct ER as [ER EF].
  unfold assume. destruct (isT s p) eqn:T; [|destruct (isT s (neg p)) eqn:T2]; cbn [fst made].
  1,2: (destruct (Nat.eqb_spec (DL s) (S (DL s))); [lia|]; rewrite app_nil_r, (live_id s lv) by auto; exact I).
  set (s' := St _ _ _ _ _ _ _ _ _). assert (D : DL s' = S (DL s)) by (unfold DL, s'; cbn; rewrite app_length; cbn; lia).
  rewrite D, Nat.eqb_refl, (live_id s lv) by (auto; lia).
  destruct (i_ord _ _ I) as [O1 [O2 [O3 [O4 O5]]]].
  assert (ON : forall q k, on s q k -> on s' q k) by (intros q k O; apply (on_push s s'); auto; intros x X; cbn; apply in_or_app; auto).
  assert (E3 : er s' = er s /\ ef s' = ef s) by (rewrite ER, EF; unfold er, ef, s'; cbn; rewrite C; auto). destruct E3 as [E3 E4].
  constructor; rewrite ?E3, ?E4.
  - apply nd_push; auto. exact (i_nd _ _ I).
  - intros q L J. rewrite D. cbn in J. apply in_app_or in J as [J|[J|[]]]; [pose proof (i_lv _ _ I q L J); lia|]. inversion J; subst. lia.
  - rewrite D. cbn. lia.
  - cbn. congruence.
  - exact (i_front _ _ I).
  - intros i e J K. destruct (i_low _ _ I i e J K) as [X [Y|[Y _]]]; [|unfold bad in Y; congruence]. split; [exact X|left; exact (ON _ _ Y)].
  - intros i e J K. destruct (i_high _ _ I i e J K) as [X [Y|[Y _]]]; [|unfold bad in Y; congruence]. split; [exact X|left; exact (ON _ _ Y)].
  - intros e J. destruct (i_ent _ _ I e J) as [l [X Y]]. exists l. split; auto. apply in_or_app; auto.
  - intros q L J. cbn in J. apply in_app_or in J as [J|[J|[]]].
    + destruct (i_a _ _ I q L J) as [l [X Y]]. exists l. split; auto. apply in_or_app; auto.
    + inversion J; subst. exists (S (DL s)). split; auto. apply in_or_app; right; now left.
  - intros q l J. rewrite D. apply in_app_or in J as [J|[J|[]]].
    + destruct (i_b _ _ I q l J) as [X [Y|[Y|[Y _]]]]; [| |unfold bad in Y; congruence]; split; auto.
    + inversion J; subst. split; [lia|]. left. exists (S (DL s)). split; auto. cbn. apply in_or_app; right; now left.
Qed.

(** Adding the entry for a literal just forced. *)
Lemma add_Inv : forall s lv e, Inv s (lv ++ [(e_lit e, DL s)]) -> (forall r f, t_conf s <> Stop r f) -> t_flip s = DL s -> e_lev e <= DL s ->
  (isT s (e_lit e) = true \/ t_conf s = Conf) -> Inv (il_add s e) (lv ++ [(e_lit e, e_lev e)]).
Proof.
  intros s lv e I NS F L T. destruct (nostop_eq s NS) as [ER EF]. destruct (i_ord _ _ I) as [O1 [O2 [O3 [O4 O5]]]].
  set (s' := il_add s e). assert (E3 : er s' = er s /\ ef s' = ef s) by (unfold er, ef; cbn; auto). destruct E3 as [E3 E4].
  assert (IN : forall q l, In (q, l) (lv ++ [(e_lit e, DL s)]) -> exists l', l' <= l /\ In (q, l') (lv ++ [(e_lit e, e_lev e)])).
  { intros q l J. apply in_app_or in J as [J|[J|[]]].
    - exists l. split; auto. apply in_or_app; auto.
    - inversion J; subst. exists (e_lev e). split; auto. apply in_or_app; right; now left. }
  constructor; rewrite ?E3, ?E4; try (destruct I; assumption).
  - cbn. rewrite app_length. pose proof (i_front _ _ I). cbn. lia.
  - intros i x J K. change (t_front s') with (t_front s) in K. change (t_ill s') with (Nat.max (t_ill s) (DL s)).
    pose proof (i_front _ _ I). cbn in J. rewrite nth_error_app1 in J by lia.
    destruct (i_low _ _ I i x J K) as [X Y]. split; [lia|]. destruct Y as [Y|[Y1 [Y2 Y3]]].
    + left. apply (on_mono s) with (k := Nat.min (er s) (t_ill s)); [exact Y|lia].
    + right. split; [exact Y1|]. change (DL s') with (DL s). change (t_root s') with (t_root s). lia.
  - intros i x J K. change (t_front s') with (t_front s) in K. change (t_ill s') with (Nat.max (t_ill s) (DL s)).
    replace (Nat.min (ef s) (Nat.max (t_ill s) (DL s))) with (DL s) by lia.
    cbn in J. destruct (Nat.lt_ge_cases i (length (t_il s))) as [B|B].
    + rewrite nth_error_app1 in J by lia. destruct (i_high _ _ I i x J K) as [X Y]. split; [lia|]. destruct Y as [Y|[Y1 [Y2 Y3]]].
      * left. apply (on_mono s) with (k := Nat.min (ef s) (t_ill s)); [exact Y|lia].
      * right. split; [exact Y1|]. change (DL s') with (DL s). change (t_flip s') with (t_flip s). lia.
    + rewrite nth_error_app2 in J by lia. destruct (i - length (t_il s)) as [|n]; [|destruct n; discriminate]. cbn in J. inversion J; subst x.
      split; [lia|]. destruct T as [T|T].
      * left. apply isT_In in T as [L' T]. exists L'. split; auto. exact (i_lv _ _ I _ _ T).
      * right. split; [exact T|]. change (DL s') with (DL s). change (t_flip s') with (t_flip s). lia.
  - intros x J. cbn in J. apply in_app_or in J as [J|[J|[]]].
    + destruct (i_ent _ _ I x J) as [l [X Y]]. destruct (IN _ _ Y) as [l' [X' Y']]. exists l'. split; auto. lia.
    + subst x. exists (e_lev e). split; auto. apply in_or_app; right; now left.
  - intros q n J. destruct (i_a _ _ I q n J) as [l [X Y]]. destruct (IN _ _ Y) as [l' [X' Y']]. exists l'. split; auto. lia.
  - intros q l J. apply in_app_or in J as [J|[J|[]]].
    + destruct (i_b _ _ I q l) as [X Y]; [apply in_or_app; auto|]. split; auto. destruct Y as [Y|[[x [Y1 Y2]]|Y]]; auto.
      right; left. exists x. split; auto. cbn. apply in_or_app; auto.
    + inversion J; subst. split; [exact L|]. right; left. exists e. split; auto. cbn. apply in_or_app; right; now left.
Qed.

Lemma force1_after : forall s p, t_conf s = NoC -> (forall r f, t_conf (fst (force1 s p)) <> Stop r f) /\
  (isT (fst (force1 s p)) p = true \/ t_conf (fst (force1 s p)) = Conf) /\ DL (fst (force1 s p)) = DL s /\
  t_flip (fst (force1 s p)) = t_flip s /\ t_root (fst (force1 s p)) = t_root s /\ t_mode (fst (force1 s p)) = t_mode s /\ t_dec (fst (force1 s p)) = t_dec s /\
  (snd (force1 s p) = true -> isT (fst (force1 s p)) p = true /\ t_conf (fst (force1 s p)) = NoC) /\ (snd (force1 s p) = false -> t_conf (fst (force1 s p)) = Conf).
Proof.
  intros s p C. destruct (force1_cases s p) as [[T ->]|[[T [F ->]]|[T [F ->]]]]; cbn.
  - rewrite C. repeat (split; [solve [auto; congruence]|]). congruence.
  - repeat (split; [solve [auto; congruence]|]). auto.
  - rewrite C. assert (isT (set_trail s (t_trail s ++ [(p, DL s)])) p = true).
    { apply isT_In. exists (DL s). cbn. apply in_or_app; right; now left. }
    repeat (split; [solve [auto; congruence]|]). congruence.
Qed.

Lemma replace_nth : forall il e i x, nth_error (replace_first il e) i = Some x ->
  exists y, nth_error il i = Some y /\ e_lit x = e_lit y /\ e_lev x <= e_lev y /\ (x = y \/ x = e).
Proof.
  induction il as [|a il IH]; cbn [replace_first existsb In]; intros e i x H; [destruct i; discriminate|].
  destruct (lit_eqb (e_lit a) (e_lit e)) eqn:E.
  - destruct i as [|i]; cbn [nth_error] in *.
    + inversion H; subst. exists a. split; auto. apply lit_eqb_eq in E. destruct (Nat.ltb_spec (e_lev e) (e_lev a)); [|auto]. split; auto. split; auto. lia.
    + exists x. auto.
  - destruct i as [|i]; cbn in *; [inversion H; subst; exists x; auto|]. apply IH. exact H.
Qed.
Lemma replace_In : forall il e y, In y il -> exists x, In x (replace_first il e) /\ e_lit x = e_lit y /\ e_lev x <= e_lev y.
Proof.
  induction il as [|a il IH]; cbn [replace_first existsb In]; intros e y H; [tauto|].
  destruct (lit_eqb (e_lit a) (e_lit e)) eqn:E.
  - destruct H as [->|H].
    + apply lit_eqb_eq in E. destruct (Nat.ltb_spec (e_lev e) (e_lev y)); eexists; (split; [now left|split; auto]). lia.
    + exists y. split; [now right|auto].
  - destruct H as [->|H]; [exists y; split; [now left|auto]|]. destruct (IH e y H) as [x [A B]]. exists x. split; [now right|auto].
Qed.
Lemma replace_has : forall il e, existsb (fun x => lit_eqb (e_lit x) (e_lit e)) il = true ->
  exists x, In x (replace_first il e) /\ e_lit x = e_lit e /\ e_lev x <= e_lev e.
Proof.
  induction il as [|a il IH]; cbn [replace_first existsb In]; intros e H; [discriminate|].
  destruct (lit_eqb (e_lit a) (e_lit e)) eqn:E; cbn [orb] in H.
  - apply lit_eqb_eq in E. destruct (Nat.ltb_spec (e_lev e) (e_lev a)).
    + exists e. split; [now left|auto].
    + exists a. split; [now left|auto].
  - destruct (IH e H) as [x [A B]]. exists x. split; [now right|auto].
Qed.
Lemma replace_length : forall il e, length (replace_first il e) = length il.
Proof. induction il; cbn; intros; auto. destruct (lit_eqb (e_lit a) (e_lit e)); cbn; auto. Qed.

Lemma forceIL_Inv : forall s lv e, Inv s lv -> hasConflict s = false -> e_lev e <= DL s ->
  let s' := fst (forceIL s e) in
  Inv s' (filter (fun x => snd x <=? DL s') lv ++ [(e_lit e, e_lev e)]) /\ t_mode s' = t_mode s.
Proof.
  intros s lv e I NC L. pose proof (noconf _ NC) as C. unfold forceIL.
  destruct (isT s (e_lit e) && (lev s (e_lit e) <=? e_lev e)) eqn:C1;
  [|destruct (isT s (e_lit e) && existsb (fun x => lit_eqb (e_lit x) (e_lit e)) (t_il s)) eqn:C2]; cbn [fst].
  - apply andb_true_iff in C1 as [T LE]. apply Nat.leb_le in LE. rewrite (live_id s lv) by auto. split; auto.
    constructor; try (destruct I; assumption).
    + intros x J. destruct (i_ent _ _ I x J) as [l [X Y]]. exists l. split; auto. apply in_or_app; auto.
    + intros q n J. destruct (i_a _ _ I q n J) as [l [X Y]]. exists l. split; auto. apply in_or_app; auto.
    + intros q l J. apply in_app_or in J as [J|[J|[]]]; [exact (i_b _ _ I q l J)|]. inversion J; subst. split; auto.
      left. exists (lev s (e_lit e)). split; auto. apply lev_In; auto.
  - clear C1. apply andb_true_iff in C2 as [T EX]. set (s' := set_il _ _ _ _). change (DL s') with (DL s). rewrite (live_id s lv) by auto. split; auto.
    assert (E3 : er s' = er s /\ ef s' = ef s) by (unfold er, ef; cbn; auto). destruct E3 as [E3 E4].
    constructor; rewrite ?E3, ?E4; try (destruct I; assumption).
    + cbn. rewrite replace_length. exact (i_front _ _ I).
    + intros i x J K. cbn in J. apply replace_nth in J as [y [J [J1 [J2 _]]]]. destruct (i_low _ _ I i y J K) as [X Y].
      rewrite J1. change (t_ill s') with (t_ill s). split; [lia|exact Y].
    + intros i x J K. cbn in J. apply replace_nth in J as [y [J [J1 [J2 _]]]]. destruct (i_high _ _ I i y J K) as [X Y].
      rewrite J1. change (t_ill s') with (t_ill s). split; [lia|exact Y].
    + intros x J. cbn in J. apply In_nth_error in J as [i J]. apply replace_nth in J as [y [J [J1 [J2 [-> | ->]]]]].
      * apply nth_error_In in J. destruct (i_ent _ _ I y J) as [l [X Y]]. exists l. split; auto. apply in_or_app; auto.
      * exists (e_lev e). split; auto. apply in_or_app; right; now left.
    + intros q n J. destruct (i_a _ _ I q n J) as [l [X Y]]. exists l. split; auto. apply in_or_app; auto.
    + intros q l J. apply in_app_or in J as [J|[J|[]]].
      * destruct (i_b _ _ I q l J) as [X Y]. split; auto. destruct Y as [Y|[[x [Y1 [Y2 Y3]]]|Y]]; auto.
        right; left. destruct (replace_In _ e x Y1) as [z [Z1 [Z2 Z3]]]. exists z. split; [exact Z1|]. split; [congruence|lia].
      * inversion J; subst. split; auto. right; left. destruct (replace_has _ _ EX) as [z [Z1 [Z2 Z3]]]. exists z. auto.
  - clear C1 C2. destruct (undoImpl_Inv s lv (e_lev e) I) as [Q1 [Q2 [Q3 [Q4 [Q5 [Q6 [Q7 Q8]]]]]]].
    set (s1 := undoImpl s (e_lev e)) in *.
    assert (C1 : t_conf s1 = NoC). { destruct (Nat.eq_dec (DL s1) (DL s)) as [E|E]; [rewrite Q8; auto|apply Q7; lia]. }
    assert (HC1 : hasConflict s1 = false) by (unfold hasConflict; now rewrite C1).
    destruct (i_ord _ _ I) as [O1 [O2 [O3 [O4 O5]]]].
    destruct (Nat.eqb_spec (DL s1) (e_lev e)) as [E|E].
    + destruct (force1_after s1 (e_lit e) C1) as [A1 [A2 [A3 [A4 [A5 [A6 _]]]]]]. rewrite A3, A6. split; [|exact Q5].
      replace (e_lit e, e_lev e) with (e_lit e, DL s1) by congruence. apply force1_Inv; auto.
    + assert (X : fst (force1 (il_add s1 e) (e_lit e)) = il_add (fst (force1 s1 (e_lit e))) e).
      { unfold force1. change (isT (il_add s1 e) (e_lit e)) with (isT s1 (e_lit e)). change (isT (il_add s1 e) (neg (e_lit e))) with (isT s1 (neg (e_lit e))).
        destruct (isT s1 (e_lit e)); [reflexivity|]. destruct (isT s1 (neg (e_lit e))); reflexivity. }
      rewrite X. destruct (force1_after s1 (e_lit e) C1) as [A1 [A2 [A3 [A4 [A5 [A6 _]]]]]].
      change (DL (il_add (fst (force1 s1 (e_lit e))) e)) with (DL (fst (force1 s1 (e_lit e)))). rewrite A3.
      split; [|change (t_mode (il_add (fst (force1 s1 (e_lit e))) e)) with (t_mode (fst (force1 s1 (e_lit e)))); congruence].
      apply add_Inv; auto.
      * rewrite A3. apply force1_Inv; auto.
      * rewrite A3, A4. lia.
      * rewrite A3. lia.
Qed.

Lemma filter_filter_le : forall (lv : list (lit * nat)) a b, b <= a ->
  filter (fun x => snd x <=? b) (filter (fun x => snd x <=? a) lv) = filter (fun x => snd x <=? b) lv.
Proof.
  induction lv as [|[q l] lv IH]; cbn; intros a b H; auto. destruct (Nat.leb_spec l a); cbn.
  - destruct (l <=? b); rewrite IH; auto.
  - destruct (Nat.leb_spec l b); [lia|auto].
Qed.

Lemma filter_app_drop : forall (lv : list (lit * nat)) q n b, b < n ->
  filter (fun x => snd x <=? b) (lv ++ [(q, n)]) = filter (fun x => snd x <=? b) lv.
Proof. intros. rewrite filter_app. cbn. destruct (Nat.leb_spec n b); [lia|]. apply app_nil_r. Qed.

Lemma nth_firstn : forall (A : Type) n (l : list A) i d, i < n -> nth i (firstn n l) d = nth i l d.
Proof. induction n; intros [|a l] [|i] d H; cbn; try lia; auto. apply IHn. lia. Qed.

Lemma backtrack_Inv : forall fuel s lv, DL s < fuel -> Inv s lv -> (forall r f, t_conf s <> Stop r f) -> (t_mode s <= 1 \/ DL s = t_flip s) -> t_mode s <= 2 ->
  let s' := fst (backtrack_loop fuel s) in
  Inv s' (filter (fun x => snd x <=? DL s') lv ++ made s OBacktrack s') /\ t_mode s' <= 2 /\ DL s' <= DL s /\ (hasConflict s' = false -> DL s' < DL s).
Proof.
  induction fuel as [|fuel IH]; intros s lv FU I NS MD M2; [lia|]. cbn [backtrack_loop].
  destruct (i_ord _ _ I) as [O1 [O2 [O3 [O4 O5]]]].
  destruct (Nat.eqb_spec (DL s) (t_root s)) as [E|E]; cbn [fst].
  - destruct (setStop_Inv s lv I) as [A B].
    assert (D : DL (setStop s) = DL s) by (unfold setStop; destruct (hasConflict s); reflexivity).
    cbn [made]. rewrite B, D, (live_id s lv) by auto. rewrite app_nil_r. split; [auto|]. split; [|split; [lia|congruence]].
    unfold setStop. destruct (hasConflict s); cbn; auto.
  - destruct (undo2_Inv s lv (DL s - 1) 2 I NS) as [Q1 [Q2 [Q3 [Q4 [Q5 [Q6 Q7]]]]]]. set (s1 := undo2 s (DL s - 1) 2) in *.
    set (inv := neg (nth (DL s - 1) (t_dec s) (0, false))).
    assert (LE : (t_mode s <=? 2) = true) by (apply Nat.leb_le; auto). rewrite LE, andb_true_r in Q2.
    assert (D1 : DL s1 = DL s - 1).
    { rewrite Q3. destruct (Nat.ltb_spec (DL s - 1) (t_flip s)); rewrite Q2; lia. }
    set (s2 := setBt s1 (DL s1) 1).
    assert (I2 : Inv s2 (filter (fun x => snd x <=? DL s1) lv)).
    { apply setBt_Inv; auto. destruct (i_ord _ _ Q1) as [_ [_ [_ [_ X]]]]. exact X. }
    assert (D2 : DL s2 = DL s1) by (unfold s2, setBt; destruct (t_mode s1 <=? 1); reflexivity).
    assert (C2 : t_conf s2 = t_conf s1) by (unfold s2, setBt; destruct (t_mode s1 <=? 1); reflexivity).
    assert (R2 : t_root s2 = t_root s1) by (unfold s2, setBt; destruct (t_mode s1 <=? 1); reflexivity).
    assert (E2 : t_dec s2 = t_dec s1) by (unfold s2, setBt; destruct (t_mode s1 <=? 1); reflexivity).
    assert (F2 : t_flip s2 = DL s2).
    { rewrite D2. unfold s2, setBt. destruct (Nat.leb_spec (t_mode s1) 1).
      - cbn. rewrite D1. lia.
      - destruct MD as [MD|MD]; [lia|]. destruct (Nat.ltb_spec (DL s - 1) (t_flip s)) as [X|X]; lia. }
    assert (M : t_mode s2 <= 2) by (unfold s2, setBt; destruct (t_mode s1 <=? 1); cbn; lia).
    assert (NS2 : forall r f, t_conf s2 <> Stop r f) by (rewrite C2; exact Q7).
    assert (DEC : t_dec s2 = firstn (DL s - 1) (t_dec s)) by (rewrite E2, Q6, D1; reflexivity).
    assert (REC : forall s3, Inv s3 (filter (fun x => snd x <=? DL s1) lv) -> (forall r f, t_conf s3 <> Stop r f) -> DL s3 = DL s2 -> t_flip s3 = DL s3 -> t_mode s3 <= 2 -> t_dec s3 = t_dec s2 ->
      let s' := fst (backtrack_loop fuel s3) in
      Inv s' (filter (fun x => snd x <=? DL s') lv ++ made s OBacktrack s') /\ t_mode s' <= 2 /\ DL s' <= DL s /\ (hasConflict s' = false -> DL s' < DL s)).
    { intros s3 I3 NS3 D3 F3 M3 E3. destruct (IH s3 _ ltac:(lia) I3 NS3 (or_intror (eq_sym F3)) M3) as [Z1 [Z2 [Z3 Z4]]].
      cbn zeta in *. set (s' := fst (backtrack_loop fuel s3)) in *.
      rewrite filter_filter_le in Z1 by lia.
      replace (made s OBacktrack s') with (made s3 OBacktrack s').
      2:{ cbn. destruct (hasConflict s') eqn:HC'; auto. specialize (Z4 eq_refl). rewrite E3, DEC. rewrite nth_firstn by lia. reflexivity. }
      split; [exact Z1|]. split; [exact Z2|]. split; [lia|]. intros H. specialize (Z4 H). lia. }
    destruct (hasConflict s2) eqn:HC.
    + apply REC; auto.
    + pose proof (noconf _ HC) as CN. destruct (force1_after s2 inv CN) as [A1 [A2 [A3 [A4 [A5 [A6 [A7 [A8 A9]]]]]]]].
      destruct (force1 s2 inv) as [s3 ok] eqn:FE. cbn [fst snd] in *. destruct ok; cbn [fst].
      * destruct (A8 eq_refl) as [T3 C3]. set (s' := il_add s3 (Ent inv (DL s3) true)).
        assert (HS : hasConflict s' = false) by (unfold hasConflict, s'; cbn; now rewrite C3).
        change (DL s') with (DL s3). cbn [made]. rewrite HS. change (DL s') with (DL s3).
        replace (neg (nth (DL s3) (t_dec s) (0, false)), DL s3) with (inv, DL s3) by (unfold inv; do 3 f_equal; lia).
        assert (II := force1_Inv s2 _ inv I2 HC). rewrite FE in II. cbn [fst] in II.
        split; [|split; [change (t_mode s') with (t_mode s3); lia|split; [lia|intros; lia]]].
        assert (JJ := add_Inv s3 (filter (fun x => snd x <=? DL s1) lv) (Ent inv (DL s3) true)). cbn [e_lit e_lev] in JJ.
        replace (filter (fun x => snd x <=? DL s3) lv) with (filter (fun x => snd x <=? DL s1) lv) by (f_equal; lia || (rewrite A3, D2; reflexivity)).
        apply JJ; auto; [rewrite A3; exact II|lia].
      * apply REC; auto; try lia.
        -- destruct (force1_cases s2 inv) as [[X Y]|[[X [Y Z]]|[X [Y Z]]]]; rewrite FE in *; try congruence.
           inversion Z; subst. apply conflict_Inv; auto.
Qed.

Lemma run_Inv : forall s lv o, Inv s lv -> t_mode s <= 2 -> op_ok s o ->
  Inv (run s o) (live_step s lv o (run s o)) /\ t_mode (run s o) <= 2.
Proof.
  intros s lv o I M H. unfold live_step. destruct o as [p|p l n|l|l m|l m|n|n| | | |]; cbn [run made] in *.
  - split; [exact (assume_Inv s lv p I H)|]. unfold assume. destruct (isT s p); auto. destruct (isT s (neg p)); auto.
  - destruct H as [H1 H2]. unfold forceAt. destruct (Nat.eqb_spec l (DL s)) as [-> |N].
    + destruct (force1_after s p (noconf _ H1)) as [A1 [A2 [A3 [A4 [A5 [A6 _]]]]]]. rewrite A3, A6. split; auto.
      rewrite (live_id s lv) by auto. apply force1_Inv; auto.
    + destruct (forceIL_Inv s lv (Ent p l n) I H1 H2) as [Q1 Q2]. cbn zeta in *. cbn [e_lit e_lev] in Q1. rewrite Q2. auto.
  - destruct (undoImpl_Inv s lv l I) as [Q1 [_ [_ [_ [Q5 _]]]]]. cbn zeta in *. rewrite app_nil_r, Q5. auto.
  - destruct (undo2_Inv s lv l m I H) as [Q1 [_ [_ [_ [Q5 _]]]]]. cbn zeta in *. rewrite app_nil_r, Q5. auto.
  - destruct H as [H1 H2]. rewrite app_nil_r.
    assert (D : DL (setBt s l m) = DL s) by (unfold setBt; destruct (t_mode s <=? m); reflexivity). rewrite D, (live_id s lv) by auto.
    split; [apply setBt_Inv; auto|]. unfold setBt. destruct (t_mode s <=? m); cbn; lia.
  - rewrite app_nil_r. change (DL (pushRoot s n)) with (DL s). rewrite (live_id s lv) by auto. split; [apply pushRoot_Inv; auto|exact M].
  - rewrite app_nil_r. apply popRoot_Inv; auto.
  - destruct H as [H1 H2]. destruct (backtrack_Inv (S (DL s)) s lv ltac:(lia) I H2 H1 M) as [Q1 [Q2 _]]. auto.
  - rewrite app_nil_r. destruct (hasConflict s) eqn:HC.
    + rewrite (live_id s lv) by auto. auto.
    + change (DL (set_conf s Conf)) with (DL s). rewrite (live_id s lv) by auto. split; [apply conflict_Inv; auto|exact M].
  - rewrite app_nil_r. destruct (setStop_Inv s lv I) as [A B].
    assert (D : DL (setStop s) = DL s) by (unfold setStop; destruct (hasConflict s); reflexivity). rewrite D, (live_id s lv) by auto. split; auto.
    unfold setStop. destruct (hasConflict s); exact M.
  - rewrite app_nil_r. destruct (clearStop_Inv s lv I) as [A [_ [D [_ E]]]]. rewrite D, E, (live_id s lv) by auto. auto.
Qed.

Lemma Inv_init : Inv init [].
Proof.
  constructor; cbn; auto; try (intros; tauto); try (intros i e J; destruct i; discriminate).
  - constructor.
Qed.
Lemma reach_Inv : forall s lv, reach s lv -> Inv s lv /\ t_mode s <= 2.
Proof.
  intros s lv R. induction R; [split; [exact Inv_init|cbn; lia]|]. destruct IHR. apply run_Inv; auto.
Qed.

Lemma live_true : forall s lv, Inv s lv -> (forall p, isT s p = true -> exists l, In (p, l) lv /\ l <= lev s p) /\
  (t_conf s <> Conf -> forall p l, In (p, l) lv -> isT s p = true).
Proof.
  intros s lv I. split.
  - intros p T. apply lev_In in T. destruct (i_a _ _ I p _ T) as [l [A B]]. eauto.
  - intros NC p l J. destruct (i_b _ _ I p l J) as [_ [[L [Y _]]|[[e [Y1 [Y2 Y3]]]|[Y _]]]]; [apply isT_In; eauto| |contradiction].
    apply In_nth_error in Y1 as [i Y1]. subst p. destruct (Nat.lt_ge_cases i (t_front s)) as [B|B].
    + destruct (i_low _ _ I i e Y1 B) as [_ [[L [Y _]]|[Y _]]]; [apply isT_In; eauto|contradiction].
    + destruct (i_high _ _ I i e Y1 B) as [_ [[L [Y _]]|[Y _]]]; [apply isT_In; eauto|contradiction].
Qed.

Lemma keeps_live : forall k s s', keeps k s s' -> forall live p l, reach s live -> In (p, l) live -> l <= k ->
  exists live', reach s' live' /\ In (p, l) live'.
Proof.
  intros k s s' K. induction K; intros live p l R J HL; eauto.
  destruct (IHK live p l R J HL) as [live' [R' J']]. exists (live_step s' live' o (run s' o)). split; [constructor; auto|].
  unfold live_step. apply in_or_app. left. apply filter_In. split; auto. apply Nat.leb_le. cbn. lia.
Qed.
Lemma without_live : forall p s s', without p s s' -> forall live, reach s live ->
  exists live', reach s' live' /\ forall l, In (p, l) live' -> In (p, l) live.
Proof.
  intros p s s' K. induction K; intros live R; eauto.
  destruct (IHK live R) as [live' [R' J']]. exists (live_step s' live' o (run s' o)). split; [constructor; auto|].
  intros l J. unfold live_step in J. apply in_app_or in J as [J|J].
  - apply filter_In in J as [J _]. auto.
  - exfalso. apply H0. apply in_map_iff. exists (p, l). auto.
Qed.
Lemma force_made : forall s live p l n, reach s live -> op_ok s (OForce p l n) ->
  let s' := run s (OForce p l n) in reach s' (live_step s live (OForce p l n) s') /\ In (p, l) (live_step s live (OForce p l n) s').
Proof.
  intros. split; [constructor; auto|]. unfold live_step. apply in_or_app. right. now left.
Qed.
Lemma survives : forall s live p l n, reach s live -> op_ok s (OForce p l n) ->
  forall s', keeps l (run s (OForce p l n)) s' -> t_conf s' <> Conf -> isT s' p = true.
Proof.
  intros s live p l n R O s' K C. destruct (force_made s live p l n R O) as [R1 J1].
  destruct (keeps_live _ _ _ K _ _ _ R1 J1 (le_n _)) as [live' [R' J']].
  destruct (reach_Inv _ _ R') as [I _]. exact (proj2 (live_true _ _ I) C p l J').
Qed.
Lemma retracted : forall s live p l, reach s live -> (forall l', In (p, l') live -> l <= l') ->
  forall s1, without p s s1 -> DL s1 < l -> forall s2, without p s1 s2 -> isT s2 p = false.
Proof.
  intros s live p l R H s1 W1 D s2 W2.
  destruct (without_live _ _ _ W1 _ R) as [live1 [R1 J1]].
  destruct (without_live _ _ _ W2 _ R1) as [live2 [R2 J2]].
  destruct (isT s2 p) eqn:T; auto. exfalso. destruct (reach_Inv _ _ R2) as [I2 _]. destruct (reach_Inv _ _ R1) as [I1 _].
  destruct (proj1 (live_true _ _ I2) p T) as [l2 [J _]]. apply J2 in J.
  pose proof (proj1 (i_b _ _ I1 _ _ J)). apply J1 in J. apply H in J. lia.
Qed.
