From Coq Require Import List Bool Arith NArith Lia Sorted.
From Verif Require Import Base Bits AsModel AsSpec.
Import ListNotations.

(** * Words *)
Lemma pack_word : forall lev val, (lev < 2 ^ 28)%N -> (val < 4)%N ->
  let w := ((N.shiftl lev 4 + val) mod 2 ^ 32)%N in
  N.land w 3 = val /\ N.shiftr w 4 = lev /\ (w < 2 ^ 32)%N.
Proof.
  intros lev val H V. cbv zeta. rewrite N.shiftl_mul_pow2. change (2 ^ 4)%N with 16%N.
  rewrite N.mod_small by (change (2 ^ 28)%N with 268435456%N in *; change (2^32)%N with 4294967296%N; lia).
  change 3%N with (N.ones 2). rewrite N.land_ones, N.shiftr_div_pow2. change (2 ^ 2)%N with 4%N. change (2 ^ 4)%N with 16%N.
  split; [|split].
  - replace (lev * 16 + val)%N with (val + (lev * 4) * 4)%N by lia. rewrite N.mod_add by lia. now apply N.mod_small.
  - rewrite N.div_add_l by lia. rewrite N.div_small by lia. lia.
  - change (2 ^ 28)%N with 268435456%N in *; change (2^32)%N with 4294967296%N; lia.
Qed.

Lemma seen_word : forall w m, (m < 4)%N ->
  N.land (N.lor w (N.shiftl m 2)) 3 = N.land w 3 /\ N.shiftr (N.lor w (N.shiftl m 2)) 4 = N.shiftr w 4.
Proof.
  intros w m H. split; apply N.bits_inj; intros i.
  - rewrite !N.land_spec, N.lor_spec, tb_shiftl. change 3%N with (N.ones 2). rewrite tb_ones.
    destruct (N.ltb_spec i 2); [|now rewrite !andb_false_r]. destruct (N.leb_spec 2 i); [lia|]. cbn. now rewrite orb_false_r.
  - rewrite !tb_shiftr, N.lor_spec, tb_shiftl. rewrite (tb_small m 2) by (try exact H; lia). now rewrite andb_false_r, orb_false_r.
Qed.

Lemma clear_seen_word : forall w, (w < 2 ^ 32)%N ->
  N.land (N.land w 0xFFFFFFF3) 3 = N.land w 3 /\ N.shiftr (N.land w 0xFFFFFFF3) 4 = N.shiftr w 4.
Proof.
  intros w H. split.
  - rewrite <- N.land_assoc. reflexivity.
  - rewrite N.shiftr_land. change (N.shiftr 0xFFFFFFF3 4) with (N.ones 28). rewrite N.land_ones. apply N.mod_small.
    rewrite N.shiftr_div_pow2. change (2 ^ 4)%N with 16%N. apply N.div_lt_upper_bound; [lia|].
    change (2^32)%N with 4294967296%N in H. change (2^28)%N with 268435456%N. lia.
Qed.

Lemma lor_seen_lt : forall w m, (w < 2 ^ 32)%N -> (m < 4)%N -> (N.lor w (N.shiftl m 2) < 2 ^ 32)%N.
Proof.
  intros w m H M. apply bits_lt. intros i Hi. rewrite N.lor_spec, tb_shiftl, (tb_small w 32) by assumption.
  rewrite (tb_small m 2) by (try exact M; lia). now rewrite andb_false_r.
Qed.
Lemma land_lt : forall w x, (w < 2 ^ 32)%N -> (N.land w x < 2 ^ 32)%N.
Proof. intros w x H. apply bits_lt. intros i Hi. now rewrite N.land_spec, (tb_small w 32). Qed.

(** valid depends on the level field only *)
Lemma valid_level : forall w, (w < 2 ^ 32)%N -> (N.land w elim_mask =? elim_mask)%N = (N.shiftr w 4 =? N.ones 28)%N.
Proof.
  intros w H. apply eq_true_iff_eq. rewrite !N.eqb_eq. unfold elim_mask. change 0xFFFFFFF0%N with (N.shiftl (N.ones 28) 4). split; intros E.
  - apply (f_equal (fun x => N.shiftr x 4)) in E. rewrite N.shiftr_land in E. rewrite !N.shiftr_shiftl_l in E by lia.
    rewrite N.sub_diag, N.shiftl_0_r in E. rewrite <- E. symmetry. rewrite N.land_ones. apply N.mod_small.
    rewrite N.shiftr_div_pow2. change (2 ^ 4)%N with 16%N. apply N.div_lt_upper_bound; [lia|].
    change (2^32)%N with 4294967296%N in H. change (2^28)%N with 268435456%N. lia.
  - apply N.bits_inj. intros i. rewrite N.land_spec, tb_shiftl, tb_ones.
    destruct (N.leb_spec 4 i); cbn; [|apply andb_false_r]. destruct (N.ltb_spec (i - 4) 28); cbn; [|apply andb_false_r].
    rewrite andb_true_r. apply (f_equal (fun x => N.testbit x (i - 4))) in E. rewrite tb_shiftr, tb_ones in E.
    replace (i - 4 + 4)%N with i in E by lia. rewrite E. now apply N.ltb_lt.
Qed.

(** * Lists *)
Definition memv (v : nat) (l : list lit) : bool := existsb (fun p => Nat.eqb (fst p) v) l.
Lemma memv_In : forall v l, memv v l = true <-> exists p, In p l /\ fst p = v.
Proof.
  intros. unfold memv. rewrite existsb_exists. split; intros [p [A B]]; exists p; split; auto; now apply Nat.eqb_eq.
Qed.
Lemma memv_map : forall v l, memv v l = true <-> In v (map fst l).
Proof. intros. rewrite memv_In, in_map_iff. split; intros [p [A B]]; exists p; auto. Qed.
Lemma memv_false : forall v l, memv v l = false <-> ~ In v (map fst l).
Proof. intros. rewrite <- memv_map. destruct (memv v l); split; congruence. Qed.
Lemma memv_app : forall v l1 l2, memv v (l1 ++ l2) = memv v l1 || memv v l2.
Proof. intros. unfold memv. apply existsb_app. Qed.

(** * Undoing the trail *)
Lemma popUntil_spec : forall save stop L A s, ~ In stop L -> NoDup (map fst L ++ [fst stop]) ->
  exists s', popUntil save stop (L ++ stop :: A) s = Ok s' /\
    a_trail s' = rev A /\ a_front s' = a_front s /\ a_elims s' = a_elims s /\
    (forall v, a_reason s' v = a_reason s v) /\
    (forall v, a_word s' v = if memv v (L ++ [stop]) then 0%N else a_word s v) /\
    (forall v, a_pref s' v = if save && memv v (L ++ [stop]) then save_pref (a_pref s v) (value s v) else a_pref s v).
Proof.
  intros save stop L. induction L as [|q L IH]; intros A s H ND; cbn [app popUntil].
  - rewrite lit_eqb_refl. eexists. split; [reflexivity|]. cbn. split; [reflexivity|]. split; [destruct save; reflexivity|].
    split; [destruct save; reflexivity|]. split; [intros; destruct save; reflexivity|]. split; intros v.
    + rewrite orb_false_r, (Nat.eqb_sym (fst stop) v). unfold upd. destruct save; reflexivity.
    + rewrite orb_false_r, (Nat.eqb_sym (fst stop) v). unfold upd. destruct save; cbn; [|reflexivity].
      unfold upd. destruct (Nat.eqb_spec v (fst stop)); [subst; reflexivity|reflexivity].
  - destruct (lit_eqb q stop) eqn:E; [apply lit_eqb_eq in E; exfalso; apply H; now left|].
    inversion ND as [|? ? N1 N2]; subst.
    match goal with |- context [popUntil save stop (L ++ stop :: A) ?t] => set (s2 := t) end.
    destruct (IH A s2) as [s' [R [P1 [P2 [P3 [P4 [P5 P6]]]]]]]; [intros C; apply H; now right|exact N2|].
    exists s'. split; [exact R|]. split; [exact P1|].
    assert (MQ : memv (fst q) (L ++ [stop]) = false).
    { apply memv_false. rewrite map_app. exact N1. }
    split; [rewrite P2; unfold s2; destruct save; reflexivity|]. split; [rewrite P3; unfold s2; destruct save; reflexivity|].
    split; [intros; rewrite P4; unfold s2; destruct save; reflexivity|]. split.
    + intros v. rewrite P5. change (memv v (q :: L ++ [stop])) with (Nat.eqb (fst q) v || memv v (L ++ [stop])).
      rewrite (Nat.eqb_sym (fst q) v). destruct (memv v (L ++ [stop])) eqn:M; [now rewrite orb_true_r|]. rewrite orb_false_r.
      unfold s2, clear_op. destruct save; cbn; unfold upd; destruct (Nat.eqb v (fst q)); reflexivity.
    + intros v. rewrite P6. change (memv v (q :: L ++ [stop])) with (Nat.eqb (fst q) v || memv v (L ++ [stop])).
      rewrite (Nat.eqb_sym (fst q) v).
      assert (VS : Nat.eqb v (fst q) = false -> value s2 v = value s v).
      { intros X. unfold value, s2, clear_op. destruct save; cbn; unfold upd; rewrite X; reflexivity. }
      assert (PS : a_pref s2 v = if save && Nat.eqb v (fst q) then save_pref (a_pref s v) (value s v) else a_pref s v).
      { unfold s2, clear_op. destruct save; cbn; unfold upd; [destruct (Nat.eqb_spec v (fst q)); [subst; reflexivity|reflexivity]|reflexivity]. }
      rewrite PS. clear PS. destruct (Nat.eqb_spec v (fst q)) as [Ev|X].
      * rewrite Ev, MQ. rewrite andb_false_r. cbn. reflexivity.
      * rewrite andb_false_r. cbn [orb]. rewrite VS; reflexivity.
Qed.

Lemma nth_split_at : forall (l : list lit) i p, nth_error l i = Some p -> l = firstn i l ++ p :: skipn (S i) l.
Proof.
  induction l as [|x l IH]; intros [|i] p H; cbn in *; try discriminate.
  - now inversion H.
  - f_equal. now apply IH.
Qed.

Lemma undoTrail_spec : forall s first save, NoDup (map fst (a_trail s)) -> (first < length (a_trail s))%nat ->
  exists s', undoTrail s first save = Ok s' /\
    a_trail s' = firstn first (a_trail s) /\ a_front s' = first /\ a_elims s' = a_elims s /\
    (forall v, a_reason s' v = a_reason s v) /\
    (forall v, a_word s' v = if memv v (skipn first (a_trail s)) then 0%N else a_word s v) /\
    (forall v, a_pref s' v = if save && memv v (skipn first (a_trail s)) then save_pref (a_pref s v) (value s v) else a_pref s v).
Proof.
  intros s first save ND L. unfold undoTrail. destruct (nth_error (a_trail s) first) as [stop|] eqn:E.
  2:{ apply nth_error_None in E. lia. }
  pose proof (nth_split_at _ _ _ E) as SP. set (A := firstn first (a_trail s)) in *. set (B := skipn (S first) (a_trail s)) in *.
  assert (SK : skipn first (a_trail s) = stop :: B).
  { rewrite SP. rewrite skipn_app. replace (length A) with first by (unfold A; rewrite firstn_length; lia).
    rewrite Nat.sub_diag. cbn. rewrite skipn_all2; [reflexivity|]. unfold A. rewrite firstn_length. lia. }
  assert (ND' : NoDup (map fst (stop :: B))).
  { rewrite SP, map_app in ND. clear -ND. induction A; cbn in *; auto. inversion ND; auto. }
  cbn in ND'. inversion ND' as [|? ? N1 N2]; subst.
  destruct (popUntil_spec save stop (rev B) (rev A) s) as [s' [R [P1 [P2 [P3 [P4 [P5 P6]]]]]]].
  - intros C. apply in_rev in C. apply N1. now apply in_map.
  - apply NoDup_rev in ND'. cbn in ND'. rewrite map_rev. exact ND'.
  - assert (RV : rev (a_trail s) = rev B ++ stop :: rev A).
    { rewrite SP. rewrite rev_app_distr. cbn. now rewrite <- app_assoc. }
    assert (R' : popUntil save stop (rev (a_trail s)) s = Ok s') by (rewrite RV; exact R). rewrite R'. cbn. eexists. split; [reflexivity|]. cbn. rewrite rev_involutive in P1.
    split; [exact P1|]. split; [rewrite P1; unfold A; rewrite firstn_length; lia|]. split; [exact P3|]. split; [exact P4|].
    assert (MM : forall v, memv v (rev B ++ [stop]) = memv v (skipn first (a_trail s))).
    { intros v. rewrite SK. apply eq_true_iff_eq. rewrite !memv_map, map_app, map_rev. cbn. rewrite in_app_iff, <- in_rev. cbn. tauto. }
    split; intros v; rewrite <- MM; auto.
Qed.

(** * Invariant *)
Record Inv (s : sol) : Prop := {
  v_nd : NoDup (map fst (a_trail (so_as s)));
  v_w32 : forall v, (a_word (so_as s) v < 2 ^ 32)%N;
  v_zero : ~ In 0%nat (map fst (a_trail (so_as s))) /\ value (so_as s) 0 = 1%N /\ level (so_as s) 0 = 0%N;
  v_off : forall v, v <> 0%nat -> ~ In v (map fst (a_trail (so_as s))) ->
     (value (so_as s) v = 0%N /\ level (so_as s) v = 0%N) \/ (value (so_as s) v = 1%N /\ level (so_as s) v = N.ones 28);
  v_on : forall i p, nth_error (a_trail (so_as s)) i = Some p ->
     value (so_as s) (fst p) = trueValue p /\ level (so_as s) (fst p) = N.of_nat (pos_level (so_levels s) i);
  v_starts : StronglySorted lt (so_levels s) /\ forall st, In st (so_levels s) -> (st < length (a_trail (so_as s)))%nat;
  v_dl : (N.of_nat (length (so_levels s)) <= maxLevel)%N;
  v_front : (a_front (so_as s) <= length (a_trail (so_as s)))%nat }.

Lemma trueValue_cases : forall p, trueValue p = 1%N \/ trueValue p = 2%N.
Proof. intros [v []]; cbn; auto. Qed.

Lemma pos_level_le : forall st i, (pos_level st i <= length st)%nat.
Proof. intros. unfold pos_level. induction st; cbn; [lia|]. destruct (a <=? i)%nat; cbn; lia. Qed.

Lemma ones28 : N.ones 28 = (2 ^ 28 - 1)%N. Proof. reflexivity. Qed.

Lemma valid_iff : forall s v, Inv s -> valid (so_as s) v = negb (level (so_as s) v =? N.ones 28)%N.
Proof. intros s v I. unfold valid, level. rewrite valid_level; [reflexivity|apply (v_w32 s I)]. Qed.

Lemma on_level_small : forall s i p, Inv s -> nth_error (a_trail (so_as s)) i = Some p -> level (so_as s) (fst p) <> N.ones 28.
Proof.
  intros s i p I E. destruct (v_on s I _ _ E) as [_ ->]. pose proof (pos_level_le (so_levels s) i). pose proof (v_dl s I).
  unfold maxLevel in *. rewrite ones28. change (2 ^ 28)%N with 268435456%N in *. lia.
Qed.

Lemma In_nth : forall (l : list lit) p, In p l -> exists i, nth_error l i = Some p.
Proof. intros. now apply In_nth_error. Qed.

Lemma Inv_agrees : forall s, Inv s -> agrees s.
Proof.
  intros s I. destruct (v_zero s I) as [Z0 [Z1 Z2]].
  assert (OV : forall p, In p (a_trail (so_as s)) -> valid (so_as s) (fst p) = true).
  { intros p Hp. rewrite valid_iff by assumption. apply In_nth in Hp as [i E]. pose proof (on_level_small _ _ _ I E).
    apply negb_true_iff. now apply N.eqb_neq. }
  assert (VV : forall v b, v <> 0%nat -> valid (so_as s) v = true ->
     (value (so_as s) v = trueValue (v, b) <-> In (v, b) (a_trail (so_as s)))).
  { intros v b Hv Hval. split.
    - intros E. destruct (in_dec Nat.eq_dec v (map fst (a_trail (so_as s)))) as [M|M].
      + apply in_map_iff in M as [p [P1 P2]]. apply In_nth in P2 as [i P2]. pose proof (v_on s I _ _ P2) as [P3 _].
        destruct p as [v' b']. cbn in P1. subst v'. cbn [fst] in P3. apply nth_error_In in P2.
        rewrite E in P3. destruct b, b'; try discriminate; auto.
      + destruct (v_off s I v Hv M) as [[A B]|[A B]].
        * destruct (trueValue_cases (v, b)); congruence.
        * rewrite valid_iff, B, N.eqb_refl in Hval by assumption. discriminate.
    - intros M. apply In_nth in M as [i E]. now destruct (v_on s I _ _ E). }
  constructor.
  - apply (v_nd s I).
  - intros p Hp. split; auto. intros C. apply Z0. rewrite <- C. now apply in_map.
  - intros v Hv Hval. apply (VV v false Hv Hval).
  - intros v Hv Hval. apply (VV v true Hv Hval).
  - intros v. destruct (Nat.eq_dec v 0) as [-> |Hv]; auto.
    destruct (in_dec Nat.eq_dec v (map fst (a_trail (so_as s)))) as [M|M].
    + apply in_map_iff in M as [p [P1 P2]]. apply In_nth in P2 as [i P2]. pose proof (v_on s I _ _ P2) as [P3 _].
      subst v. rewrite P3. destruct (trueValue_cases p); auto.
    + destruct (v_off s I v Hv M) as [[A B]|[A B]]; auto.
  - auto.
  - intros i p E. now apply (v_on s I).
  - apply (v_starts s I).
  - apply (v_front s I).
Qed.

Lemma Inv_init : Inv init_sol.
Proof.
  constructor; cbn; auto.
  - constructor.
  - intros v. destruct (v =? 0)%nat; reflexivity.
  - intros v Hv _. left. unfold value, level. cbn. destruct (Nat.eqb_spec v 0); [contradiction|auto].
  - intros i p E. destruct i; discriminate.
  - split; [constructor|contradiction].
  - unfold maxLevel. cbn. lia.
Qed.

(** Changing the seen bits of words does not matter. *)
Lemma Inv_words : forall s w, Inv s -> (forall v, (w v < 2 ^ 32)%N) ->
  (forall v, N.land (w v) 3 = value (so_as s) v /\ N.shiftr (w v) 4 = level (so_as s) v) ->
  Inv (Sol (ASt w (a_reason (so_as s)) (a_pref (so_as s)) (a_trail (so_as s)) (a_front (so_as s)) (a_elims (so_as s))) (so_levels s)).
Proof.
  intros s w I W E.
  assert (EV : forall v, N.land (w v) 3 = value (so_as s) v) by (intros; apply E).
  assert (EL : forall v, N.shiftr (w v) 4 = level (so_as s) v) by (intros; apply E).
  destruct I. constructor; auto; cbn [so_as so_levels a_trail]; unfold value, level; cbn [a_word].
  - rewrite EV, EL. auto.
  - intros v Hv Hn. rewrite EV, EL. auto.
  - intros i p Hp. rewrite EV, EL. auto.
Qed.

Lemma pos_level_firstn : forall st i, (forall x, In x st -> (x <= i)%nat) -> pos_level st i = length st.
Proof.
  intros st i H. unfold pos_level. induction st; cbn; auto. destruct (Nat.leb_spec a i).
  - cbn. rewrite IHst; auto. intros; apply H; now right.
  - specialize (H a (or_introl eq_refl)). lia.
Qed.

Lemma NoDup_snoc : forall (A : Type) (l : list A) x, NoDup l -> ~ In x l -> NoDup (l ++ [x]).
Proof.
  intros A l x. induction l as [|a l IH]; intros N H; cbn.
  - constructor; [intros []|constructor].
  - inversion N; subst. constructor.
    + rewrite in_app_iff. cbn. intros [C|[C|[]]]; [contradiction|]. apply H. now left.
    + apply IH; auto. intros C. apply H. now right.
Qed.

Lemma assign_Inv : forall s p lv r, Inv s -> valid (so_as s) (fst p) = true -> value (so_as s) (fst p) = 0%N ->
  (StronglySorted lt lv) -> (forall st, In st lv -> (st <= length (a_trail (so_as s)))%nat) ->
  (N.of_nat (length lv) <= maxLevel)%N ->
  (forall i, (i < length (a_trail (so_as s)))%nat -> pos_level lv i = pos_level (so_levels s) i) ->
  Inv (Sol (fst (assign (so_as s) p (N.of_nat (length lv)) r)) lv).
Proof.
  intros s p lv r I V F SS ST DL PL. unfold assign. rewrite F. cbn [N.eqb fst].
  destruct (v_zero s I) as [Z0 [Z1 Z2]].
  assert (P0 : fst p <> 0%nat) by (intros C; rewrite C in F; congruence).
  assert (PN : ~ In (fst p) (map fst (a_trail (so_as s)))).
  { intros M. apply in_map_iff in M as [q [Q1 Q2]]. apply In_nth in Q2 as [i Q2]. destruct (v_on s I _ _ Q2) as [A _].
    rewrite Q1, F in A. destruct (trueValue_cases q); congruence. }
  assert (TL : (trueValue p < 4)%N) by (destruct (trueValue_cases p) as [-> | ->]; lia).
  destruct (pack_word (N.of_nat (length lv)) (trueValue p)) as [PW1 [PW2 PW3]]; auto.
  { unfold maxLevel in DL. change (2 ^ 28)%N with 268435456%N in *. lia. }
  set (wd := ((N.shiftl (N.of_nat (length lv)) 4 + trueValue p) mod 2 ^ 32)%N) in *.
  constructor; cbn [so_as so_levels a_trail a_front]; unfold value, level; cbn [a_word].
  - rewrite map_app. cbn [map]. apply NoDup_snoc; [apply (v_nd s I)|exact PN].
  - intros v. unfold upd. destruct (v =? fst p)%nat; [exact PW3|apply (v_w32 s I)].
  - rewrite map_app, in_app_iff. cbn. split; [intros [C|[C|[]]]; auto|].
    unfold upd. destruct (Nat.eqb_spec 0 (fst p)); [congruence|]. auto.
  - intros v Hv. rewrite map_app, in_app_iff. cbn. intros Hn. unfold upd. destruct (Nat.eqb_spec v (fst p)).
    + exfalso. apply Hn. right. left. auto.
    + apply (v_off s I); auto.
  - intros i q E. destruct (Nat.lt_ge_cases i (length (a_trail (so_as s)))) as [L|L].
    + rewrite nth_error_app1 in E by assumption. destruct (v_on s I _ _ E) as [A B]. unfold upd.
      destruct (Nat.eqb_spec (fst q) (fst p)) as [X|X].
      * exfalso. apply PN. rewrite <- X. apply in_map. eapply nth_error_In; eauto.
      * rewrite PL by assumption. auto.
    + rewrite nth_error_app2 in E by assumption. destruct (i - length (a_trail (so_as s)))%nat as [|k] eqn:K.
      * cbn in E. inversion E; subst q. unfold upd. rewrite Nat.eqb_refl. split; [exact PW1|]. rewrite PW2.
        rewrite pos_level_firstn; [reflexivity|]. intros x Hx. specialize (ST x Hx). lia.
      * cbn in E. destruct k; discriminate.
  - split; auto. intros st Hst. specialize (ST st Hst). rewrite app_length. cbn. lia.
  - exact DL.
  - rewrite app_length. pose proof (v_front s I). lia.
Qed.

Lemma SS_snoc : forall l x, StronglySorted lt l -> (forall y, In y l -> (y < x)%nat) -> StronglySorted lt (l ++ [x]).
Proof.
  induction l as [|a l IH]; intros x S H; cbn.
  - constructor; constructor.
  - inversion S; subst. constructor.
    + apply IH; auto. intros; apply H; now right.
    + rewrite Forall_app. split; auto. constructor; [apply H; now left|constructor].
Qed.

Lemma pos_level_snoc : forall st x i, (i < x)%nat -> pos_level (st ++ [x]) i = pos_level st i.
Proof.
  intros. unfold pos_level. rewrite filter_app. cbn. destruct (Nat.leb_spec x i); [lia|]. now rewrite app_nil_r.
Qed.

(** Going back to level [k]; [posk s k] is where level k+1 starts. *)
Definition posk (s : sol) (k : nat) : nat := nth k (so_levels s) (length (a_trail (so_as s))).
Record U (s : sol) (k : nat) (b : bool) (s' : sol) : Prop := {
  u_levels : so_levels s' = firstn k (so_levels s);
  u_trail : a_trail (so_as s') = firstn (posk s k) (a_trail (so_as s));
  u_elims : a_elims (so_as s') = a_elims (so_as s);
  u_reason : forall v, a_reason (so_as s') v = a_reason (so_as s) v;
  u_word : forall v, a_word (so_as s') v = if memv v (skipn (posk s k) (a_trail (so_as s))) then 0%N else a_word (so_as s) v;
  u_pref : forall v, a_pref (so_as s') v =
     if b && memv v (skipn (posk s k) (a_trail (so_as s)))
     then save_pref (a_pref (so_as s) v) (value (so_as s) v) else a_pref (so_as s) v }.
Definition full_front (s : sol) : Prop := a_front (so_as s) = length (a_trail (so_as s)).

Lemma nth_sorted : forall l i, StronglySorted lt l -> (S i < length l)%nat -> (nth i l 0 < nth (S i) l 0)%nat.
Proof.
  induction l as [|a l IH]; intros i S H; cbn in *; [lia|]. inversion S; subst. destruct i.
  - destruct l; cbn in *; [lia|]. rewrite Forall_forall in H3. apply H3. now left.
  - apply IH; auto. lia.
Qed.
Lemma nth_sorted_le : forall l j i, StronglySorted lt l -> (i <= j)%nat -> (j < length l)%nat -> (nth i l 0 <= nth j l 0)%nat.
Proof.
  intros l j i So. induction j; intros L H.
  - replace i with 0%nat by lia. lia.
  - destruct (Nat.eq_dec i (S j)) as [-> |]; [lia|]. pose proof (nth_sorted l j So H). specialize (IHj ltac:(lia) ltac:(lia)). lia.
Qed.

Lemma posk_lt : forall s k, Inv s -> (k < decisionLevel s)%nat -> (posk s k < length (a_trail (so_as s)))%nat.
Proof. intros s k I H. unfold posk. apply (proj2 (v_starts s I)). apply nth_In. exact H. Qed.

Lemma posk_mono : forall s k j, Inv s -> (k <= j)%nat -> (j <= decisionLevel s)%nat -> (posk s k <= posk s j)%nat.
Proof.
  intros s k j I L H. unfold posk. destruct (Nat.eq_dec j (decisionLevel s)) as [-> |N].
  - destruct (Nat.eq_dec k (decisionLevel s)) as [-> |N2]; [lia|].
    rewrite (nth_overflow (so_levels s) _ (n := decisionLevel s)) by (unfold decisionLevel; lia).
    apply Nat.lt_le_incl, (posk_lt s k I). lia.
  - unfold decisionLevel in *. rewrite !(nth_indep _ (length (a_trail (so_as s))) 0%nat) by lia.
    apply nth_sorted_le; try lia. apply (v_starts s I).
Qed.

Lemma firstn_SS : forall l k, StronglySorted lt l -> StronglySorted lt (firstn k l).
Proof.
  induction l as [|a l IH]; intros [|k] H; cbn; try constructor; inversion H; subst; auto.
  apply Forall_forall. intros x Hx. rewrite Forall_forall in H3. apply H3.
  rewrite <- (firstn_skipn k l). apply in_or_app. now left.
Qed.

Lemma pos_level_cut : forall l k i d, StronglySorted lt l -> (k <= length l)%nat -> (i < nth k l d)%nat -> 
  (k = length l -> forall x, In x l -> True) ->
  pos_level (firstn k l) i = pos_level l i.
Proof.
  intros l k i d S L H _. rewrite <- (firstn_skipn k l) at 2. unfold pos_level. rewrite filter_app, app_length.
  assert (X : filter (fun st => Nat.leb st i) (skipn k l) = []).
  { revert k L H. induction l as [|a l IH]; intros k L H.
    - now rewrite skipn_nil.
    - destruct k; cbn in *.
      + destruct (Nat.leb_spec a i); [lia|]. inversion S; subst. rewrite Forall_forall in H4.
        clear -H4 H. induction l as [|b l IHl]; cbn; auto. destruct (Nat.leb_spec b i).
        * specialize (H4 b (or_introl eq_refl)). lia.
        * apply IHl. intros; apply H4; now right.
      + inversion S; subst. apply IH; auto. lia. }
  rewrite X. cbn. lia.
Qed.

Lemma nth_error_firstn : forall (l : list lit) n i p, nth_error (firstn n l) i = Some p -> nth_error l i = Some p /\ (i < n)%nat.
Proof.
  induction l as [|a l IH]; intros [|n] [|i] p H; cbn in *; try discriminate; auto.
  - split; [auto|lia].
  - apply IH in H. split; [tauto|lia].
Qed.

Lemma NoDup_app_disj : forall (A : Type) (l1 l2 : list A) v, NoDup (l1 ++ l2) -> In v l2 -> ~ In v l1.
Proof.
  intros A l1 l2 v. induction l1 as [|a r IH]; cbn; intros ND M C; auto. inversion ND as [|? ? NA NB]; subst.
  destruct C as [-> |C]; [|now apply IH]. apply NA. apply in_or_app. now right.
Qed.

Lemma memv_skip_not_firstn : forall (l : list lit) n v, NoDup (map fst l) -> memv v (skipn n l) = true -> ~ In v (map fst (firstn n l)).
Proof.
  intros l n v ND M. apply memv_map in M. apply (NoDup_app_disj _ _ (map fst (skipn n l)) v); [|exact M].
  rewrite <- map_app, firstn_skipn. exact ND.
Qed.

Lemma NoDup_firstn : forall (A : Type) (l : list A) n, NoDup l -> NoDup (firstn n l).
Proof.
  intros A l. induction l; intros [|n] H; cbn; try constructor; inversion H; subst; auto.
  intros C. apply H2. rewrite <- (firstn_skipn n l). apply in_or_app. now left.
Qed.

Lemma Inv_U : forall s k b s', Inv s -> (k <= decisionLevel s)%nat -> U s k b s' -> (a_front (so_as s') <= length (a_trail (so_as s')))%nat -> Inv s'.
Proof.
  intros s k b s' I K [UL UT UE UR UW UP] FR.
  assert (PL : (posk s k <= length (a_trail (so_as s)))%nat).
  { destruct (Nat.eq_dec k (decisionLevel s)) as [-> |N].
    - unfold posk. rewrite nth_overflow by (unfold decisionLevel; lia). lia.
    - apply Nat.lt_le_incl, posk_lt; auto. lia. }
  assert (LT : length (a_trail (so_as s')) = posk s k) by (rewrite UT, firstn_length; lia).
  destruct (v_zero s I) as [Z0 [Z1 Z2]].
  assert (IN : forall v, In v (map fst (firstn (posk s k) (a_trail (so_as s)))) -> In v (map fst (a_trail (so_as s)))).
  { intros v. rewrite <- (firstn_skipn (posk s k) (a_trail (so_as s))) at 2. rewrite map_app, in_app_iff. auto. }
  constructor.
  - rewrite UT, <- firstn_map. apply NoDup_firstn. apply (v_nd s I).
  - intros v. rewrite UW. destruct (memv _ _); [reflexivity|apply (v_w32 s I)].
  - rewrite UT. split; [intros C; apply Z0; auto|]. unfold value, level. rewrite UW.
    destruct (memv 0 _) eqn:M; [|auto]. apply memv_map in M. exfalso. apply Z0.
    rewrite <- (firstn_skipn (posk s k) (a_trail (so_as s))), map_app. apply in_or_app. now right.
  - intros v Hv Hn. unfold value, level. rewrite UW. destruct (memv v _) eqn:M; [left; auto|].
    apply (v_off s I v Hv). intros C. rewrite <- (firstn_skipn (posk s k) (a_trail (so_as s))), map_app in C.
    apply in_app_or in C as [C|C]; [apply Hn; now rewrite UT|]. apply memv_map in C. congruence.
  - intros i p E. rewrite UT in E. apply nth_error_firstn in E as [E L]. destruct (v_on s I _ _ E) as [A B].
    unfold value, level. rewrite UW. destruct (memv (fst p) _) eqn:M.
    { exfalso. apply (memv_skip_not_firstn _ _ _ (v_nd s I) M). apply in_map.
      assert (X : nth_error (firstn (posk s k) (a_trail (so_as s))) i = Some p).
      { rewrite <- E. rewrite <- (firstn_skipn (posk s k) (a_trail (so_as s))) at 2. rewrite nth_error_app1; auto. rewrite firstn_length. lia. }
      eapply nth_error_In; eauto. }
    split; auto. rewrite UL. rewrite (pos_level_cut _ k i (length (a_trail (so_as s)))); auto. apply (v_starts s I).
  - rewrite UL. split; [apply firstn_SS, (v_starts s I)|]. intros st Hst. rewrite LT.
    apply (In_nth_error) in Hst as [i Hi].
    assert (i < k)%nat.
    { assert (i < length (firstn k (so_levels s)))%nat by (apply nth_error_Some; congruence). rewrite firstn_length in H. lia. }
    assert (E2 : nth_error (so_levels s) i = Some st).
    { rewrite <- Hi. rewrite <- (firstn_skipn k (so_levels s)) at 1. rewrite nth_error_app1; auto. apply nth_error_Some. congruence. }
    destruct (Nat.eq_dec k (decisionLevel s)) as [-> |N].
    + unfold posk. rewrite nth_overflow by (unfold decisionLevel; lia). apply (proj2 (v_starts s I)). eapply nth_error_In; eauto.
    + assert (S i <= k)%nat by lia. pose proof (posk_mono s (S i) k I H0 K). 
      assert (st < posk s (S i))%nat; [|lia]. unfold posk. unfold decisionLevel in *.
      rewrite (nth_indep _ _ 0%nat) by lia. pose proof (nth_sorted (so_levels s) i (proj1 (v_starts s I)) ltac:(lia)).
      rewrite (nth_error_nth _ _ 0%nat E2) in H2. lia.
  - rewrite UL, firstn_length. pose proof (v_dl s I). lia.
  - exact FR.
Qed.

Lemma rev_nth_last : forall (l : list nat) x r, rev l = x :: r -> rev r = firstn (length l - 1) l /\ nth_error l (length l - 1) = Some x /\ (0 < length l)%nat.
Proof.
  intros l x r E. assert (L : l = rev r ++ [x]) by (rewrite <- (rev_involutive l), E; reflexivity).
  rewrite L, app_length. cbn [length]. replace (length (rev r) + 1 - 1)%nat with (length (rev r)) by lia.
  split; [|split]; [|rewrite nth_error_app2, Nat.sub_diag by lia; reflexivity|lia].
  rewrite firstn_app, firstn_all, Nat.sub_diag. cbn. now rewrite app_nil_r.
Qed.

Lemma undoLevel_spec : forall s b, Inv s -> (0 < decisionLevel s)%nat ->
  exists s', undoLevel s b = Ok s' /\ U s (decisionLevel s - 1) b s' /\ full_front s'.
Proof.
  intros s b I D. unfold undoLevel. destruct (rev (so_levels s)) as [|pos r] eqn:E.
  { apply (f_equal (@length _)) in E. rewrite rev_length in E. cbn in E. unfold decisionLevel in D. lia. }
  destruct (rev_nth_last _ _ _ E) as [R1 [R2 R3]].
  assert (PP : posk s (decisionLevel s - 1) = pos).
  { unfold posk, decisionLevel. apply nth_error_nth. exact R2. }
  pose proof (posk_lt s (decisionLevel s - 1) I ltac:(lia)) as PL. rewrite PP in PL.
  destruct (undoTrail_spec (so_as s) pos b (v_nd s I) PL) as [a [Q [Q1 [Q2 [Q3 [Q4 [Q5 Q6]]]]]]].
  rewrite Q. cbn. eexists. split; [reflexivity|]. split.
  - constructor; cbn; rewrite ?PP; auto.
  - unfold full_front. cbn. rewrite Q1, Q2, firstn_length. lia.
Qed.

Lemma nth_firstn_lt : forall (l : list nat) k j d d', (k < j)%nat -> (j <= length l)%nat -> nth k (firstn j l) d = nth k l d'.
Proof.
  induction l as [|a l IH]; intros [|k] [|j] d d' H L; cbn in *; try lia; auto. apply IH; lia.
Qed.

Lemma U_trans : forall s j b s1 k s2, Inv s -> (j <= decisionLevel s)%nat -> (k <= j)%nat -> U s j b s1 -> U s1 k b s2 -> U s k b s2.
Proof.
  intros s j b s1 k s2 I J K [L1 T1 E1 R1 W1 P1] [L2 T2 E2 R2 W2 P2].
  pose proof (posk_mono s k j I K J) as PM.
  assert (PJ : (posk s j <= length (a_trail (so_as s)))%nat).
  { destruct (Nat.eq_dec j (decisionLevel s)) as [-> |N].
    - unfold posk. rewrite nth_overflow by (unfold decisionLevel; lia). lia.
    - apply Nat.lt_le_incl, posk_lt; auto. lia. }
  assert (PP : posk s1 k = posk s k).
  { unfold posk at 1. rewrite L1, T1, firstn_length. replace (Nat.min (posk s j) (length (a_trail (so_as s)))) with (posk s j) by lia.
    destruct (Nat.eq_dec k j) as [-> |N].
    - rewrite nth_overflow by (rewrite firstn_length; lia). reflexivity.
    - unfold decisionLevel in J. unfold posk at 2. apply nth_firstn_lt; lia. }
  rewrite PP in *.
  assert (SK : forall v, memv v (skipn (posk s k) (a_trail (so_as s))) =
     memv v (skipn (posk s j) (a_trail (so_as s))) || memv v (skipn (posk s k) (a_trail (so_as s1)))).
  { intros v. rewrite T1. rewrite <- (firstn_skipn (posk s j) (a_trail (so_as s))) at 1.
    rewrite skipn_app, memv_app. rewrite firstn_length. replace (posk s k - Nat.min (posk s j) (length (a_trail (so_as s))))%nat with 0%nat by lia.
    cbn [skipn]. apply orb_comm. }
  assert (DJ : forall v, memv v (skipn (posk s j) (a_trail (so_as s))) = true -> memv v (skipn (posk s k) (a_trail (so_as s1))) = false).
  { intros v M. apply memv_false. intros C. apply (memv_skip_not_firstn _ _ _ (v_nd s I) M). rewrite <- T1.
    rewrite <- (firstn_skipn (posk s k) (a_trail (so_as s1))), map_app. apply in_or_app. now right. }
  constructor.
  - rewrite L2, L1, firstn_firstn. f_equal. lia.
  - rewrite T2, T1, firstn_firstn. f_equal. lia.
  - congruence.
  - intros. now rewrite R2.
  - intros v. rewrite W2, SK, W1. destruct (memv v (skipn (posk s j) _)) eqn:M; cbn; [|reflexivity].
    destruct (memv v (skipn (posk s k) (a_trail (so_as s1)))); reflexivity.
  - intros v. rewrite P2, P1, SK. unfold value. rewrite W1.
    destruct (memv v (skipn (posk s j) _)) eqn:M; cbn.
    + rewrite (DJ _ M), andb_false_r. reflexivity.
    + rewrite andb_false_r. reflexivity.
Qed.

Lemma U_refl : forall s b, U s (decisionLevel s) b s.
Proof.
  intros s b. assert (P : posk s (decisionLevel s) = length (a_trail (so_as s))).
  { unfold posk. apply nth_overflow. unfold decisionLevel. lia. }
  constructor; rewrite ?P, ?skipn_all, ?firstn_all; cbn; auto.
  - unfold decisionLevel. now rewrite firstn_all.
  - intros. now rewrite andb_false_r.
Qed.

Lemma U_dl : forall s k b s', U s k b s' -> (k <= decisionLevel s)%nat -> decisionLevel s' = k.
Proof. intros s k b s' H K. unfold decisionLevel in *. rewrite (u_levels _ _ _ _ H), firstn_length. lia. Qed.

Lemma undoLevels_spec : forall n s b, Inv s -> (n <= decisionLevel s)%nat -> full_front s ->
  exists s', undoLevels n s b = Ok s' /\ U s (decisionLevel s - n) b s' /\ full_front s'.
Proof.
  induction n; intros s b I L FF; cbn.
  - exists s. rewrite Nat.sub_0_r. split; auto. split; auto. apply U_refl.
  - destruct (undoLevel_spec s b I ltac:(lia)) as [s1 [E [U1 F1]]]. rewrite E. cbn.
    assert (I1 : Inv s1) by (apply (Inv_U s (decisionLevel s - 1) _ s1 I ltac:(lia) U1); unfold full_front in F1; lia).
    assert (D1 : decisionLevel s1 = (decisionLevel s - 1)%nat) by (eapply U_dl; eauto; lia).
    destruct (IHn s1 b I1 ltac:(lia) F1) as [s2 [E2 [U2 F2]]]. exists s2. split; auto. split; auto.
    apply (U_trans s (decisionLevel s - 1) b s1); auto; try lia. now replace (decisionLevel s - S n)%nat with (decisionLevel s1 - n)%nat by lia.
Qed.

(** Outcome of undoUntil in terms of the state before *)
Lemma undoUntil_spec : forall s k sp ok, Inv s -> (k < decisionLevel s)%nat ->
  exists s1 s', undoUntil s k sp ok = Ok s' /\ U s (decisionLevel s - 1) (sp && ok) s1 /\ U s1 k sp s' /\ full_front s' /\ Inv s1 /\ Inv s'.
Proof.
  intros s k sp ok I K. unfold undoUntil. destruct (Nat.leb_spec (decisionLevel s) k); [lia|].
  destruct (undoLevel_spec s (sp && ok) I ltac:(lia)) as [s1 [E [U1 F1]]]. rewrite E. cbn.
  assert (I1 : Inv s1) by (apply (Inv_U s (decisionLevel s - 1) _ s1 I ltac:(lia) U1); unfold full_front in F1; lia).
  assert (D1 : decisionLevel s1 = (decisionLevel s - 1)%nat) by (eapply U_dl; eauto; lia).
  destruct (undoLevels_spec (decisionLevel s - k - 1) s1 sp I1 ltac:(lia) F1) as [s2 [E2 [U2 F2]]].
  replace (decisionLevel s1 - (decisionLevel s - k - 1))%nat with k in U2 by lia.
  exists s1, s2. split; [exact E2|]. split; [exact U1|]. split; [exact U2|]. split; [exact F2|]. split; [exact I1|]. apply (Inv_U s1 k _ s2 I1 ltac:(lia) U2); unfold full_front in F2; lia.
Qed.

(** * All operations *)
Lemma run_op_Inv : forall s o, Inv s -> op_ok s o -> exists s', run_op s o = Ok s' /\ Inv s'.
Proof.
  intros s o I H. destruct o as [p|p r|k sp ok|v m|v|v| |]; cbn [run_op].
  - destruct H as [V L]. specialize (L eq_refl). unfold assume.
    destruct (N.eqb_spec (value (so_as s) (fst p)) 0) as [F|F]; [|cbn; eauto].
    destruct (N.eqb_spec (N.of_nat (decisionLevel s)) maxLevel); [lia|].
    set (lv := so_levels s ++ [length (a_trail (so_as s))]).
    destruct (assign (so_as s) p (N.of_nat (length lv)) 0) as [a ok] eqn:E. cbn. eexists. split; [reflexivity|].
    change a with (fst (a, ok)). rewrite <- E. destruct (v_starts s I) as [S1 S2]. apply assign_Inv; auto.
    + apply SS_snoc; auto.
    + intros st Hst. apply in_app_or in Hst as [Hst|[<-|[]]]; [apply S2 in Hst|]; lia.
    + unfold lv. rewrite app_length. cbn [length]. unfold decisionLevel in *. lia.
    + intros i Hi. apply pos_level_snoc. exact Hi.
  - destruct H as [V _]. unfold force. destruct (assign (so_as s) p (N.of_nat (decisionLevel s)) r) as [a ok] eqn:E.
    cbn. eexists. split; [reflexivity|].
    destruct (N.eqb_spec (value (so_as s) (fst p)) 0) as [F|F].
    + change a with (fst (a, ok)). rewrite <- E. destruct (v_starts s I) as [S1 S2]. apply assign_Inv; auto.
      * intros st Hst. apply S2 in Hst. lia.
      * apply (v_dl s I).
    + unfold assign in E. apply N.eqb_neq in F. rewrite F in E. inversion E; subst. destruct s; exact I.
  - destruct (Nat.lt_ge_cases k (decisionLevel s)) as [L|L].
    + destruct (undoUntil_spec s k sp ok I L) as [s1 [s2 [E [_ [_ [_ [_ I2]]]]]]]. eauto.
    + unfold undoUntil. destruct (Nat.leb_spec (decisionLevel s) k); [eauto|lia].
  - eexists. split; [reflexivity|]. cbn in H. apply Inv_words; auto.
    + intros u. unfold upd. destruct (u =? v)%nat; [apply lor_seen_lt; auto|]; apply (v_w32 s I).
    + intros u. unfold upd. destruct (Nat.eqb_spec u v) as [-> |]; [apply seen_word; auto|split; reflexivity].
  - eexists. split; [reflexivity|]. apply Inv_words; auto.
    + intros u. unfold upd. destruct (u =? v)%nat; [apply land_lt|]; apply (v_w32 s I).
    + intros u. unfold upd. destruct (Nat.eqb_spec u v) as [-> |]; [apply clear_seen_word, (v_w32 s I)|split; reflexivity].
  - eexists. split; [reflexivity|]. cbn in H. unfold eliminate. destruct (valid (so_as s) v) eqn:V; [|destruct s; exact I].
    destruct (v_zero s I) as [Z0 [Z1 Z2]].
    assert (V0 : v <> 0%nat) by (intros ->; congruence).
    assert (PN : ~ In v (map fst (a_trail (so_as s)))).
    { intros M. apply in_map_iff in M as [q [Q1 Q2]]. apply In_nth in Q2 as [i Q2]. destruct (v_on s I _ _ Q2) as [A _].
      rewrite Q1, H in A. destruct (trueValue_cases q); congruence. }
    destruct I. constructor; auto; unfold on_as; cbn [so_as so_levels a_trail]; unfold value, level; cbn [a_word].
    + intros u. unfold upd. destruct (u =? v)%nat; [reflexivity|auto].
    + unfold upd. destruct (Nat.eqb_spec 0 v); [congruence|exact v_zero0].
    + intros u Hu Hn. unfold upd. destruct (u =? v)%nat; [right; split; reflexivity|exact (v_off0 u Hu Hn)].
    + intros i p E. unfold upd. destruct (Nat.eqb_spec (fst p) v) as [X|X]; [|exact (v_on0 i p E)].
      exfalso. apply PN. rewrite <- X. apply in_map. eapply nth_error_In; eauto.
  - eexists. split; [reflexivity|]. cbn in H. destruct I. constructor; auto.
  - eexists. split; [reflexivity|]. destruct I. constructor; auto.
Qed.

Lemma reach_Inv : forall ops s s', Inv s -> reach s ops s' -> Inv s'.
Proof.
  induction ops as [|o ops IH]; intros s s' I R; inversion R as [|? ? s1 ? ? K1 K2 K3]; subst; auto.
  destruct (run_op_Inv s o I K1) as [s1' [E I']]. rewrite E in K2. inversion K2; subst. eauto.
Qed.

(** * Restoring a level *)
Definition above (k : nat) (o : op) : Prop := match o with OUndo l _ _ => (k < l)%nat | _ => True end.

(** State [s] extends the situation [s0] in which level k+1 was opened. *)
Record ext (s0 s : sol) : Prop := {
  x_levels : firstn (decisionLevel s0) (so_levels s) = so_levels s0 /\ (decisionLevel s0 < decisionLevel s)%nat;
  x_pos : nth (decisionLevel s0) (so_levels s) 0%nat = length (a_trail (so_as s0));
  x_trail : firstn (length (a_trail (so_as s0))) (a_trail (so_as s)) = a_trail (so_as s0);
  x_word : forall p, In p (a_trail (so_as s0)) -> value (so_as s) (fst p) = value (so_as s0) (fst p) /\
              level (so_as s) (fst p) = level (so_as s0) (fst p) /\ a_reason (so_as s) (fst p) = a_reason (so_as s0) (fst p);
  x_elim : forall v, valid (so_as s0) v = false -> valid (so_as s) v = false }.

Lemma on_trail_value : forall s p, Inv s -> In p (a_trail (so_as s)) -> value (so_as s) (fst p) <> 0%N.
Proof.
  intros s p I H. apply In_nth in H as [i E]. destruct (v_on s I _ _ E) as [-> _]. destruct (trueValue_cases p); congruence.
Qed.

Lemma ext_In : forall s0 s p, ext s0 s -> In p (a_trail (so_as s0)) -> In p (a_trail (so_as s)).
Proof.
  intros s0 s p X H. rewrite <- (x_trail _ _ X) in H. rewrite <- (firstn_skipn (length (a_trail (so_as s0))) (a_trail (so_as s))).
  apply in_or_app. now left.
Qed.

Lemma valid_word : forall a a' v, a_word a v = a_word a' v -> valid a v = valid a' v.
Proof. intros. unfold valid. now rewrite H. Qed.

Lemma firstn_app_le : forall (A : Type) (l l' : list A) n, (n <= length l)%nat -> firstn n (l ++ l') = firstn n l.
Proof. intros. rewrite firstn_app. replace (n - length l)%nat with 0%nat by lia. cbn. apply app_nil_r. Qed.

Lemma ext_assign : forall s0 s p lv r, Inv s -> ext s0 s -> value (so_as s) (fst p) = 0%N -> valid (so_as s) (fst p) = true ->
  (exists l', lv = so_levels s ++ l') ->
  ext s0 (Sol (fst (assign (so_as s) p (N.of_nat (length lv)) r)) lv).
Proof.
  intros s0 s p lv r I X F V [l' ->]. unfold assign. rewrite F. cbn [N.eqb fst].
  pose proof (ext_In s0 s) as EI. destruct X as [[XL XD] XP XT XW XE].
  constructor; cbn [so_as so_levels a_trail a_word a_reason].
  - split; [rewrite firstn_app_le; [auto|]|]; unfold decisionLevel in *; cbn; rewrite ?app_length; lia.
  - rewrite app_nth1; auto.
  - rewrite firstn_app_le; auto. rewrite <- XT at 1. rewrite firstn_length. lia.
  - intros q Hq. assert (fst q <> fst p).
    { intros C. apply (on_trail_value s q I); [apply EI; [constructor; auto|auto]|]. now rewrite C. }
    unfold value, level, setSeen, clearSeen; cbn [a_word a_reason so_as]; unfold upd. destruct (Nat.eqb_spec (fst q) (fst p)); [contradiction|]. apply XW; auto.
  - intros v Hv. apply XE in Hv. destruct (Nat.eq_dec v (fst p)) as [-> |N]; [congruence|].
    rewrite <- Hv. apply valid_word. cbn. unfold upd. destruct (Nat.eqb_spec v (fst p)); [contradiction|reflexivity].
Qed.

Lemma ext_step : forall s0 s o s', Inv s -> Inv s' -> ext s0 s -> op_ok s o -> above (decisionLevel s0) o -> run_op s o = Ok s' -> ext s0 s'.
Proof.
  intros s0 s o s' I I' X H A R. destruct o as [p|p r|k sp ok|v m|v|v| |]; cbn [run_op] in R.
  - destruct H as [V L]. unfold assume in R. destruct (N.eqb_spec (value (so_as s) (fst p)) 0) as [F|F].
    + destruct (N.of_nat (decisionLevel s) =? maxLevel)%N; [discriminate|].
      destruct (assign (so_as s) p _ 0) as [a b] eqn:E. cbn in R. inversion R; subst. change a with (fst (a, b)). rewrite <- E.
      apply ext_assign; auto. eauto.
    + cbn in R. inversion R; subst. exact X.
  - destruct H as [V _]. unfold force in R. destruct (assign (so_as s) p (N.of_nat (decisionLevel s)) r) as [a b] eqn:E.
    cbn in R. inversion R; subst. destruct (N.eqb_spec (value (so_as s) (fst p)) 0) as [F|F].
    + change a with (fst (a, b)). rewrite <- E. apply ext_assign; auto. exists []. now rewrite app_nil_r.
    + unfold assign in E. apply N.eqb_neq in F. rewrite F in E. inversion E; subst. destruct s; exact X.
  - cbn in A. destruct (Nat.lt_ge_cases k (decisionLevel s)) as [L|L].
    + destruct (undoUntil_spec s k sp ok I L) as [s1 [s2 [E [U1 [U2 [_ [I1 _]]]]]]]. rewrite E in R. inversion R; subst s2.
      pose proof (ext_In s0 s) as EI.
      assert (XX := X). destruct X as [[XL XD] XP XT XW XE].
      assert (LV : so_levels s' = firstn k (so_levels s)).
      { rewrite (u_levels _ _ _ _ U2), (u_levels _ _ _ _ U1), firstn_firstn. f_equal. lia. }
      assert (DK : decisionLevel s' = k) by (unfold decisionLevel in *; rewrite LV, firstn_length; lia).
      assert (P1 : posk s1 k = posk s k).
      { unfold posk at 1. rewrite (u_levels _ _ _ _ U1), (u_trail _ _ _ _ U1), firstn_length.
        pose proof (posk_lt s (decisionLevel s - 1) I ltac:(lia)).
        replace (Nat.min (posk s (decisionLevel s - 1)) (length (a_trail (so_as s)))) with (posk s (decisionLevel s - 1)) by lia.
        destruct (Nat.eq_dec k (decisionLevel s - 1)) as [-> |N].
        - apply nth_overflow. rewrite firstn_length. lia.
        - unfold posk. apply nth_firstn_lt; unfold decisionLevel in *; lia. }
      pose proof (posk_mono s k (decisionLevel s - 1) I ltac:(lia) ltac:(lia)) as PM.
      assert (LT : a_trail (so_as s') = firstn (posk s k) (a_trail (so_as s))).
      { rewrite (u_trail _ _ _ _ U2), (u_trail _ _ _ _ U1), P1, firstn_firstn. f_equal. lia. }
      assert (PG : (length (a_trail (so_as s0)) < posk s k)%nat).
      { rewrite <- XP. unfold posk. unfold decisionLevel in *. rewrite (nth_indep _ (length (a_trail (so_as s))) 0%nat) by lia.
        pose proof (nth_sorted_le (so_levels s) k (S (length (so_levels s0))) (proj1 (v_starts s I)) ltac:(lia) ltac:(lia)).
        pose proof (nth_sorted (so_levels s) (length (so_levels s0)) (proj1 (v_starts s I)) ltac:(lia)). lia. }
      assert (WS : forall v, a_word (so_as s') v = 0%N \/ a_word (so_as s') v = a_word (so_as s) v).
      { intros v. rewrite (u_word _ _ _ _ U2), (u_word _ _ _ _ U1).
        destruct (memv v (skipn (posk s1 k) (a_trail (so_as s1)))); auto.
        destruct (memv v (skipn (posk s (decisionLevel s - 1)) (a_trail (so_as s)))); auto. }
      assert (TT : firstn (length (a_trail (so_as s0))) (a_trail (so_as s')) = a_trail (so_as s0)).
      { rewrite LT, firstn_firstn. replace (Nat.min (length (a_trail (so_as s0))) (posk s k)) with (length (a_trail (so_as s0))) by lia. exact XT. }
      constructor.
      * split; [rewrite LV, firstn_firstn; replace (Nat.min (decisionLevel s0) k) with (decisionLevel s0) by lia; exact XL|lia].
      * rewrite LV. rewrite <- XP. apply nth_firstn_lt; unfold decisionLevel in *; lia.
      * exact TT.
      * intros q Hq. assert (In q (a_trail (so_as s'))).
        { rewrite <- TT in Hq. rewrite <- (firstn_skipn (length (a_trail (so_as s0))) (a_trail (so_as s'))). apply in_or_app. now left. }
        destruct (WS (fst q)) as [C|C].
        -- exfalso. apply (on_trail_value s' q I' H0). unfold value. rewrite C. reflexivity.
        -- unfold value, level. rewrite C. rewrite (u_reason _ _ _ _ U2), (u_reason _ _ _ _ U1). apply XW; auto.
      * intros v Hv. pose proof (XE v Hv) as Hv'.
        destruct (memv v (a_trail (so_as s))) eqn:M.
        { exfalso. apply memv_In in M as [q [Q1 Q2]]. pose proof (proj2 (ag_vars _ (Inv_agrees s I) q Q1)). congruence. }
        rewrite <- Hv'. apply valid_word. rewrite (u_word _ _ _ _ U2), (u_word _ _ _ _ U1).
        assert (M1 : forall n, memv v (skipn n (a_trail (so_as s))) = false).
        { intros n. apply memv_false. apply memv_false in M. intros C. apply M. rewrite <- (firstn_skipn n (a_trail (so_as s))), map_app. apply in_or_app. now right. }
        assert (M2 : forall n, memv v (skipn n (a_trail (so_as s1))) = false).
        { intros n. apply memv_false. apply memv_false in M. intros C. apply M. rewrite (u_trail _ _ _ _ U1) in C.
          apply in_map_iff in C as [q [Q1 Q2]]. apply in_map_iff. exists q. split; auto.
          assert (In q (firstn (posk s (decisionLevel s - 1)) (a_trail (so_as s)))).
          { rewrite <- (firstn_skipn n (firstn (posk s (decisionLevel s - 1)) (a_trail (so_as s)))). apply in_or_app. now right. }
          rewrite <- (firstn_skipn (posk s (decisionLevel s - 1)) (a_trail (so_as s))). apply in_or_app. now left. }
        rewrite M1, M2. reflexivity.
    + unfold undoUntil in R. destruct (Nat.leb_spec (decisionLevel s) k); [|lia]. inversion R; subst. exact X.
  - cbn in H. inversion R; subst. destruct X as [XL XP XT XW XE]. constructor; auto; unfold on_as; cbn [so_as so_levels].
    + intros q Hq. unfold value, level, setSeen, clearSeen; cbn [a_word a_reason so_as]; unfold upd. destruct (Nat.eqb_spec (fst q) v) as [E|E].
      * destruct (seen_word (a_word (so_as s) v) m H) as [B1 B2]. try rewrite B2; try rewrite B1. rewrite <- E. apply XW; auto.
      * apply XW; auto.
    + intros u Hu. apply XE in Hu. rewrite <- Hu. rewrite valid_iff by exact I. 
      change (Sol (setSeen (so_as s) v m) (so_levels s)) with (on_as s (setSeen (so_as s) v m)) in I'.
      change (setSeen (so_as s) v m) with (so_as (on_as s (setSeen (so_as s) v m))). rewrite valid_iff by exact I'.
      f_equal. f_equal. unfold level, setSeen, clearSeen, on_as; cbn [a_word so_as]; unfold upd. destruct (Nat.eqb_spec u v) as [-> |]; auto. apply seen_word; auto.
  - inversion R; subst. destruct X as [XL XP XT XW XE]. constructor; auto; unfold on_as; cbn [so_as so_levels].
    + intros q Hq. unfold value, level, setSeen, clearSeen; cbn [a_word a_reason so_as]; unfold upd. destruct (Nat.eqb_spec (fst q) v) as [E|E].
      * destruct (clear_seen_word (a_word (so_as s) v) (v_w32 s I v)) as [B1 B2]. try rewrite B2; try rewrite B1. rewrite <- E. apply XW; auto.
      * apply XW; auto.
    + intros u Hu. apply XE in Hu. rewrite <- Hu. rewrite valid_iff by exact I.
      change (clearSeen (so_as s) v) with (so_as (on_as s (clearSeen (so_as s) v))). rewrite valid_iff by exact I'.
      f_equal. f_equal. unfold level, setSeen, clearSeen, on_as; cbn [a_word so_as]; unfold upd. destruct (Nat.eqb_spec u v) as [-> |]; auto. apply clear_seen_word, (v_w32 s I).
  - cbn in H. inversion R; subst. unfold eliminate in *. destruct (valid (so_as s) v) eqn:V; [|destruct s; exact X].
    pose proof (ext_In s0 s) as EI. assert (XX := X). destruct X as [XL XP XT XW XE]. constructor; auto; unfold on_as; cbn [so_as so_levels].
    + intros q Hq. assert (fst q <> v).
      { intros C. apply (on_trail_value s q I); [apply EI; auto|]. now rewrite C. }
      unfold value, level, setSeen, clearSeen; cbn [a_word a_reason so_as]; unfold upd. destruct (Nat.eqb_spec (fst q) v); [contradiction|]. apply XW; auto.
    + intros u Hu. apply XE in Hu. destruct (Nat.eq_dec u v) as [-> |N]; [congruence|].
      rewrite <- Hu. apply valid_word. cbn. unfold upd. destruct (Nat.eqb_spec u v); [contradiction|reflexivity].
  - inversion R; subst. destruct X as [XL XP XT XW XE]. constructor; auto.
  - inversion R; subst. destruct X as [XL XP XT XW XE]. constructor; auto.
Qed.

Lemma ext_assume : forall s0 p s, Inv s0 -> op_ok s0 (OAssume p) -> value (so_as s0) (fst p) = 0%N -> run_op s0 (OAssume p) = Ok s -> ext s0 s.
Proof.
  intros s0 p s I [V L] F R. cbn in R. unfold assume in R. rewrite F in R. cbn [N.eqb] in R.
  destruct (N.of_nat (decisionLevel s0) =? maxLevel)%N; [discriminate|].
  unfold assign in R. rewrite F in R. cbn [N.eqb] in R. cbn in R. inversion R; subst. clear R.
  constructor; cbn [so_as so_levels a_trail a_word a_reason].
  - unfold decisionLevel. cbn. rewrite firstn_app_le, firstn_all, app_length by lia. cbn. split; [auto|lia].
  - unfold decisionLevel. rewrite app_nth2, Nat.sub_diag by lia. reflexivity.
  - rewrite firstn_app_le, firstn_all by lia. reflexivity.
  - intros q Hq. assert (fst q <> fst p).
    { intros C. apply (on_trail_value s0 q I Hq). now rewrite C. }
    unfold value, level, setSeen, clearSeen; cbn [a_word a_reason so_as]; unfold upd. destruct (Nat.eqb_spec (fst q) (fst p)); [contradiction|auto].
  - intros v Hv. destruct (Nat.eq_dec v (fst p)) as [-> |N]; [congruence|].
    rewrite <- Hv. apply valid_word. cbn. unfold upd. destruct (Nat.eqb_spec v (fst p)); [contradiction|reflexivity].
Qed.

Lemma ext_reach : forall ops s0 s s', Inv s -> ext s0 s -> Forall (above (decisionLevel s0)) ops -> reach s ops s' -> ext s0 s' /\ Inv s'.
Proof.
  induction ops as [|o ops IH]; intros s0 s s' I X F R; inversion R as [|? ? s1 ? ? K1 K2 K3]; subst; auto.
  inversion F as [|? ? F1 F2]; subst. destruct (run_op_Inv s o I K1) as [s1' [E I']]. rewrite E in K2. inversion K2; subst.
  apply (IH s0 s1); auto. exact (ext_step s0 s o s1 I I' X K1 F1 E).
Qed.

Lemma undo_exact : forall s0 p ops s sp ok, Inv s0 -> value (so_as s0) (fst p) = 0%N ->
  Forall (above (decisionLevel s0)) ops -> reach s0 (OAssume p :: ops) s ->
  exists s', undoUntil s (decisionLevel s0) sp ok = Ok s' /\
    so_levels s' = so_levels s0 /\ a_trail (so_as s') = a_trail (so_as s0) /\
    (forall v, valid (so_as s') v = true -> value (so_as s') v = value (so_as s0) v /\
       (value (so_as s0) v <> 0%N -> v <> 0%nat -> level (so_as s') v = level (so_as s0) v /\ a_reason (so_as s') v = a_reason (so_as s0) v)).
Proof.
  intros s0 p ops s sp ok I F A R. inversion R as [|? ? s1 ? ? OK1 R1 R2]; subst.
  pose proof (ext_assume _ _ _ I OK1 F R1) as X1.
  destruct (run_op_Inv s0 (OAssume p) I OK1) as [s1' [E1 I1]]. rewrite E1 in R1. inversion R1; subst s1'. clear R1.
  destruct (ext_reach _ _ _ _ I1 X1 A R2) as [X IS].
  destruct X as [[XL XD] XP XT XW XE].
  destruct (undoUntil_spec s (decisionLevel s0) sp ok IS XD) as [m [s' [E [U1 [U2 [_ [IM I']]]]]]].
  exists s'. split; [exact E|].
  assert (LV : so_levels s' = so_levels s0).
  { rewrite (u_levels _ _ _ _ U2), (u_levels _ _ _ _ U1), firstn_firstn.
    replace (Nat.min (decisionLevel s0) (decisionLevel s - 1)) with (decisionLevel s0) by lia. exact XL. }
  assert (P0 : posk s (decisionLevel s0) = length (a_trail (so_as s0))).
  { rewrite <- XP. unfold posk. apply nth_indep. exact XD. }
  assert (P1 : posk m (decisionLevel s0) = posk s (decisionLevel s0)).
  { unfold posk at 1. rewrite (u_levels _ _ _ _ U1), (u_trail _ _ _ _ U1), firstn_length.
    pose proof (posk_lt s (decisionLevel s - 1) IS ltac:(lia)).
    replace (Nat.min (posk s (decisionLevel s - 1)) (length (a_trail (so_as s)))) with (posk s (decisionLevel s - 1)) by lia.
    destruct (Nat.eq_dec (decisionLevel s0) (decisionLevel s - 1)) as [-> |N].
    - apply nth_overflow. rewrite firstn_length. lia.
    - unfold posk. apply nth_firstn_lt; unfold decisionLevel in *; lia. }
  pose proof (posk_mono s (decisionLevel s0) (decisionLevel s - 1) IS ltac:(lia) ltac:(lia)) as PM.
  assert (TR : a_trail (so_as s') = a_trail (so_as s0)).
  { rewrite (u_trail _ _ _ _ U2), (u_trail _ _ _ _ U1), P1, firstn_firstn, P0.
    rewrite P0 in PM. rewrite Nat.min_l by lia. exact XT. }
  split; [exact LV|]. split; [exact TR|].
  assert (WS : forall v, a_word (so_as s') v = 0%N \/ a_word (so_as s') v = a_word (so_as s) v).
  { intros v. rewrite (u_word _ _ _ _ U2), (u_word _ _ _ _ U1).
    destruct (memv v (skipn (posk m (decisionLevel s0)) (a_trail (so_as m)))); auto.
    destruct (memv v (skipn (posk s (decisionLevel s - 1)) (a_trail (so_as s)))); auto. }
  intros v Hv. destruct (Nat.eq_dec v 0) as [-> |N0].
  { destruct (v_zero s' I') as [_ [-> _]]. destruct (v_zero s0 I) as [_ [-> _]]. split; auto. congruence. }
  destruct (in_dec Nat.eq_dec v (map fst (a_trail (so_as s0)))) as [M|M].
  - apply in_map_iff in M as [q [Q1 Q2]]. subst v. assert (In q (a_trail (so_as s'))) by (rewrite TR; exact Q2).
    destruct (WS (fst q)) as [C|C].
    + exfalso. apply (on_trail_value s' q I' H). unfold value. rewrite C. reflexivity.
    + unfold value at 1, level at 1. rewrite C. rewrite (u_reason _ _ _ _ U2), (u_reason _ _ _ _ U1).
      destruct (XW q Q2) as [Y1 [Y2 Y3]]. split; auto.
  - assert (V' : value (so_as s') v = 0%N).
    { assert (~ In v (map fst (a_trail (so_as s')))) by (rewrite TR; exact M).
      destruct (v_off s' I' v N0 H) as [[G _]|[_ G]]; auto. rewrite valid_iff, G in Hv by exact I'. discriminate. }
    assert (VS : valid (so_as s) v = true).
    { destruct (WS v) as [C|C]; [|rewrite <- Hv; apply valid_word; auto].
      destruct (in_dec Nat.eq_dec v (map fst (a_trail (so_as s)))) as [M2|M2].
      - apply in_map_iff in M2 as [q [Q1 Q2]]. subst v. exact (proj2 (ag_vars _ (Inv_agrees s IS) q Q2)).
      - destruct (v_off s IS v N0 M2) as [[_ G]|[G1 G]]; [rewrite valid_iff, G by exact IS; reflexivity|].
        (* not on the trail: word untouched *)
        exfalso. assert (a_word (so_as s') v = a_word (so_as s) v).
        { rewrite (u_word _ _ _ _ U2), (u_word _ _ _ _ U1).
          assert (X1' : memv v (skipn (posk m (decisionLevel s0)) (a_trail (so_as m))) = false).
          { apply memv_false. intros Cx. apply M2. apply in_map_iff in Cx as [q [Q1 Q2]]. apply in_map_iff. exists q. split; auto.
            assert (In q (a_trail (so_as m))) by (rewrite <- (firstn_skipn (posk m (decisionLevel s0)) (a_trail (so_as m))); apply in_or_app; now right).
            rewrite (u_trail _ _ _ _ U1) in H. rewrite <- (firstn_skipn (posk s (decisionLevel s - 1)) (a_trail (so_as s))). apply in_or_app. now left. }
          assert (X2' : memv v (skipn (posk s (decisionLevel s - 1)) (a_trail (so_as s))) = false).
          { apply memv_false. intros Cx. apply M2. rewrite <- (firstn_skipn (posk s (decisionLevel s - 1)) (a_trail (so_as s))), map_app. apply in_or_app. now right. }
          rewrite X1', X2'. reflexivity. }
        unfold value in G1. rewrite <- H, C in G1. discriminate. }
    assert (V0 : valid (so_as s0) v = true).
    { destruct (valid (so_as s0) v) eqn:E0; auto. apply XE in E0. congruence. }
    destruct (v_off s0 I v N0 M) as [[G _]|[_ G]]; [|rewrite valid_iff, G in V0 by exact I; discriminate].
    rewrite V', G. split; auto. congruence.
Qed.

(** * Saved phases *)
Lemma save_pref_fields : forall rep x k, (rep < 256)%N -> (x < 4)%N -> (k < 4)%N ->
  pref_field (save_pref rep x) k = if (k =? 1)%N then x else pref_field rep k.
Proof.
  intros rep x k R X K. unfold pref_field, save_pref.
  assert (XB : forall i, N.testbit x i = (i <? 2)%N && N.testbit x i).
  { intros i. destruct (N.ltb_spec i 2); auto. now rewrite (tb_small x 2) by assumption. }
  apply N.bits_inj. intros i.
  assert (CK : (k = 0 \/ k = 1 \/ k = 2 \/ k = 3)%N) by lia.
  change 3%N with (N.ones 2). rewrite !N.land_spec, tb_shiftr, tb_ones, N.lor_spec, !N.land_spec, tb_shiftl.
  destruct (N.ltb_spec i 2) as [L|L].
  - assert (CI : (i = 0 \/ i = 1)%N) by lia. rewrite andb_true_r.
    destruct CK as [-> |[-> |[-> | ->]]]; cbn [N.eqb Pos.eqb]; rewrite ?N.land_spec, ?tb_shiftr, ?tb_ones;
      destruct CI as [-> | ->]; cbn -[N.testbit]; rewrite ?andb_true_r, ?andb_false_r, ?orb_false_r; try reflexivity;
      rewrite ?(tb_small x 2 2), ?(tb_small x 2 3), ?(tb_small x 2 4), ?(tb_small x 2 5) by (auto; lia); cbn; rewrite ?andb_true_r, ?andb_false_r, ?orb_false_r; try reflexivity.
  - rewrite andb_false_r. destruct (k =? 1)%N; [|now rewrite N.land_spec, tb_shiftr, tb_ones, (proj2 (N.ltb_ge i 2) L), andb_false_r].
    now rewrite (tb_small x 2).
Qed.

Lemma pos_level_posk : forall s i k, Inv s -> (k <= decisionLevel s)%nat -> (i < length (a_trail (so_as s)))%nat ->
  ((k < pos_level (so_levels s) i)%nat <-> (posk s k <= i)%nat).
Proof.
  intros s i k I K L. unfold posk, decisionLevel in *.
  pose proof (proj1 (v_starts s I)) as SS.
  revert k K. generalize dependent (length (a_trail (so_as s))). intros N L. clear I.
  induction (so_levels s) as [|a l IH]; intros k K.
  - cbn in *. assert (k = 0)%nat by lia. subst. cbn. lia.
  - inversion SS; subst. cbn in K. unfold pos_level. cbn [filter].
    destruct (Nat.leb_spec a i) as [A|A].
    + cbn [length]. destruct k as [|k]; cbn [nth]; [lia|].
      rewrite <- (IH H1 k ltac:(lia)). unfold pos_level. lia.
    + assert (Z : filter (fun st => Nat.leb st i) l = []).
      { clear - H2 A. induction l as [|b l IHl]; auto. inversion H2; subst. cbn. destruct (Nat.leb_spec b i); [lia|auto]. }
      rewrite Z. cbn [length]. split; [lia|]. intros C. exfalso.
      destruct k as [|k]; cbn [nth] in C; [lia|].
      destruct (Nat.lt_ge_cases k (length l)) as [D|D].
      * assert (In (nth k l N) l) by (apply nth_In; auto). rewrite Forall_forall in H2. specialize (H2 _ H). lia.
      * rewrite nth_overflow in C by lia. lia.
Qed.

Lemma nth_error_skip : forall (A : Type) n (l : list A) i, nth_error (skipn n l) i = nth_error l (n + i).
Proof. induction n; intros [|a l] i; cbn; auto. now destruct i. Qed.

Lemma memv_skip_level : forall s v k, Inv s -> (k <= decisionLevel s)%nat -> v <> 0%nat -> valid (so_as s) v = true ->
  memv v (skipn (posk s k) (a_trail (so_as s))) = negb (value (so_as s) v =? 0)%N && (N.of_nat k <? level (so_as s) v)%N.
Proof.
  intros s v k I K N0 V. destruct (memv v (skipn (posk s k) (a_trail (so_as s)))) eqn:M.
  - apply memv_In in M as [q [Q2 Q1]]. apply In_nth in Q2 as [i E]. subst v.
    rewrite nth_error_skip in E. destruct (v_on s I _ _ E) as [E1 E2]. rewrite E1, E2.
    assert (L : (posk s k + i < length (a_trail (so_as s)))%nat) by (apply nth_error_Some; congruence).
    pose proof (proj2 (pos_level_posk s _ k I K L) ltac:(lia)).
    destruct (N.ltb_spec (N.of_nat k) (N.of_nat (pos_level (so_levels s) (posk s k + i)))); [|lia].
    destruct (trueValue_cases q) as [-> | ->]; reflexivity.
  - symmetry. apply andb_false_iff. destruct (N.eqb_spec (value (so_as s) v) 0) as [Z|Z]; [now left|right].
    destruct (in_dec Nat.eq_dec v (map fst (a_trail (so_as s)))) as [J|J].
    + apply in_map_iff in J as [q [Q1 Q2]]. apply In_nth in Q2 as [i E]. subst v. destruct (v_on s I _ _ E) as [E1 E2]. rewrite E2.
      assert (L : (i < length (a_trail (so_as s)))%nat) by (apply nth_error_Some; congruence).
      apply N.ltb_ge. assert (~ (posk s k <= i)%nat).
      { intros C. apply memv_false in M. apply M. apply in_map. apply nth_error_In with (n := (i - posk s k)%nat).
        rewrite nth_error_skip. replace (posk s k + (i - posk s k))%nat with i by lia. exact E. }
      rewrite <- (pos_level_posk s i k I K L) in H. lia.
    + destruct (v_off s I v N0 J) as [[G _]|[_ G]]; [congruence|]. rewrite valid_iff, G in V by exact I. discriminate.
Qed.

Lemma phases : forall s k sp ok s', Inv s -> (k < decisionLevel s)%nat -> undoUntil s k sp ok = Ok s' ->
  forall v, v <> 0%nat -> valid (so_as s) v = true ->
  a_pref (so_as s') v =
   if negb (value (so_as s) v =? 0)%N && (N.of_nat k <? level (so_as s) v)%N && sp && (ok || (level (so_as s) v <? N.of_nat (decisionLevel s))%N)
   then save_pref (a_pref (so_as s) v) (value (so_as s) v) else a_pref (so_as s) v.
Proof.
  intros s k sp ok s' I K E v N0 V.
  destruct (undoUntil_spec s k sp ok I K) as [s1 [s2 [E' [U1 [U2 [_ [I1 I2]]]]]]]. rewrite E in E'. inversion E'; subst s2. clear E'.
  assert (D1 : decisionLevel s1 = (decisionLevel s - 1)%nat) by (eapply U_dl; eauto; lia).
  rewrite (u_pref _ _ _ _ U2).
  assert (M1 := memv_skip_level s v (decisionLevel s - 1) I ltac:(lia) N0 V).
  assert (LE : value (so_as s) v <> 0%N -> (level (so_as s) v <= N.of_nat (decisionLevel s))%N).
  { intros NZ. destruct (in_dec Nat.eq_dec v (map fst (a_trail (so_as s)))) as [J|J].
    - apply in_map_iff in J as [q [Q1 Q2]]. apply In_nth in Q2 as [i Ei]. subst v. destruct (v_on s I _ _ Ei) as [_ ->].
      pose proof (pos_level_le (so_levels s) i). unfold decisionLevel. lia.
    - destruct (v_off s I v N0 J) as [[G _]|[_ G]]; [congruence|]. rewrite valid_iff, G in V by exact I. discriminate. }
  assert (W1 := u_word _ _ _ _ U1 v). assert (P1 := u_pref _ _ _ _ U1 v).
  assert (V1 : valid (so_as s1) v = true).
  { destruct (memv v (skipn (posk s (decisionLevel s - 1)) (a_trail (so_as s)))).
    - unfold valid. rewrite W1. reflexivity.
    - rewrite <- V. now apply valid_word. }
  assert (M2 := memv_skip_level s1 v k I1 ltac:(lia) N0 V1).
  rewrite M2, P1, M1. rewrite M1 in W1. unfold value at 1 3, level at 1. rewrite W1.
  destruct (N.eqb_spec (value (so_as s) v) 0) as [Z|Z]; cbn [negb andb] in *.
  - unfold value in Z. rewrite Z. cbn [N.eqb negb andb]. rewrite !andb_false_r. reflexivity.
  - specialize (LE Z). destruct (N.ltb_spec (N.of_nat (decisionLevel s - 1)) (level (so_as s) v)) as [L|L].
    + change (N.land 0 3) with 0%N. cbn [N.eqb negb andb]. rewrite andb_false_r.
      destruct (N.ltb_spec (N.of_nat k) (level (so_as s) v)) as [L2|L2]; [|lia].
      destruct (N.ltb_spec (level (so_as s) v) (N.of_nat (decisionLevel s))) as [L3|L3]; [lia|].
      rewrite orb_false_r, andb_true_r. cbn [andb]. reflexivity.
    + rewrite andb_false_r. change (N.land (a_word (so_as s) v) 3) with (value (so_as s) v). fold (level (so_as s) v).
      change (N.shiftr (a_word (so_as s) v) 4) with (level (so_as s) v).
      apply N.eqb_neq in Z. rewrite Z. cbn [negb andb].
      destruct (N.ltb_spec (level (so_as s) v) (N.of_nat (decisionLevel s))) as [L3|L3]; [|lia].
      rewrite orb_true_r, andb_true_r, andb_comm.
      replace (value (so_as s1) v) with (value (so_as s) v) by (unfold value; now rewrite W1). reflexivity.
Qed.
