From Coq Require Import List Bool Arith ZArith Lia Permutation.
From Verif Require Import Base ClModel ClSpec ClProofs BpModel BpSpec BpProofs BpProofs2 BpProofs3.
Import ListNotations.

Lemma grow_dyn : forall n s s' D D' G, Core n s D G -> b_conf s = None -> Core n s' D' G -> (exists x, b_trail s' = b_trail s ++ x) ->
  b_front s' = b_front s -> b_cls s' = b_cls s -> b_wl s' = b_wl s -> wlok (b_wl s) s -> Dyn s G (Proc s) -> InvG n s' D' G.
Proof.
  intros n s s' D D' G K NC K' [x X] FR CS WL W [DW DU].
  assert (SUB : forall e, In e (Proc s') -> In e (Proc s)).
  { intros e E. apply (proc_sub n s' D' G K') in E. rewrite FR, X, firstn_grow in E by apply (k_front _ _ _ _ K). unfold Proc. rewrite NC. exact E. }
  split; [|split; [|split]]; auto.
  - rewrite WL. unfold wlok, cl in *. rewrite CS. exact W.
  - intros i c C. rewrite X. eapply Wcl_mono; eauto. apply (DW i). unfold cl in *. rewrite CS in C. exact C.
  - intros c C. rewrite X. eapply Ucl_mono; eauto.
Qed.
Lemma forceG_fields : forall s p w g, let s' := fst (forceG s p w g) in
  (exists x, b_trail s' = b_trail s ++ x) /\ b_front s' = b_front s /\ b_cls s' = b_cls s /\ b_wl s' = b_wl s.
Proof.
  intros s p w g. unfold forceG. destruct (isT s p); [|destruct (isF s p)]; cbn; sp; auto; try (exists []; now rewrite app_nil_r). eauto.
Qed.
Lemma undo_cls : forall s l, b_cls (undo s l) = b_cls s.
Proof. intros s l. unfold undo. destruct (Nat.ltb _ (b_dl s)); reflexivity. Qed.
Lemma forceAt_cls : forall s p l w, b_cls (fst (forceAt s p l w)) = b_cls s.
Proof.
  intros s p l w. unfold forceAt. destruct (Nat.eqb l (b_dl s)); [apply forceG_fields|]. destruct (_ && _); auto. destruct (_ && _); [destruct (_ <? _); reflexivity|].
  cbn zeta. destruct (isT _ p); cbn [fst]; [apply undo_cls|]. rewrite (proj1 (proj2 (proj2 (forceG_fields (undo s l) p w l)))). apply undo_cls.
Qed.

(** Backtracking as far as possible *)
Lemma undo_top : forall n s D G, Core n s D G -> b_conf s = None -> let s1 := undo s 0 in
  b_conf s1 = None /\ b_dl s1 = b_root s /\ b_root s1 = b_root s /\ (forall e, In e (b_trail s1) <-> In e (b_trail s) /\ e_lev e <= b_root s).
Proof.
  intros n s D G K NC s1. unfold s1. pose proof (k_root _ _ _ _ K) as R. destruct (Nat.lt_ge_cases (b_root s) (b_dl s)) as [LT|GE].
  - rewrite undo_max. cbn [Nat.max]. sp; [rewrite (undo_eq n s D G _ K (le_n _) LT); reflexivity..|]. intros e. apply (undo_in n s D G); auto.
  - rewrite undo_ge by (cbn; auto). sp; auto; [lia|]. intros e. split; [|tauto]. intros E. split; auto. pose proof (k_lv _ _ _ _ K e E). lia.
Qed.

Section Create.
Variables (n : nat) (s : st) (D : db) (G : list (list lit)) (f : flags) (c0 cp : list lit).
Let v := view s.
Let c := cp.
Hypothesis (I : InvG n s D G) (OK : b_conf s = None /\ (Z.of_nat (b_dl s) < varMax)%Z /\ Forall (good_var n) c0 /\
  (f_learnt f = true \/ b_dl s = 0 /\ (f_fw f < length cp)%nat /\ (f_sw f < length cp)%nat) /\
  (b_root s = 0 \/ exists p, In p c0 /\ forall e, In e (b_trail s) -> e_lit e = neg p -> b_root s < e_lev e)).
Hypothesis PREP : (cp = [lit_true] /\ trivially_true v c0) \/
  (distinct_vars cp /\ watches_first v cp /\ (forall p, In p cp -> In p c0 /\ ~ on_top v p) /\
   (forall p, In p c0 -> In p cp \/ (false_lit v p /\ s_lvl v (fst p) = 0%Z))).
Let K : Core n s D G := proj1 I.

Lemma cr_nc : b_conf s = None. Proof. apply OK. Qed.
Lemma cr_wf : wf_view v. Proof. apply (view_wf n s D G K). apply OK. Qed.
Lemma cr_vc : forall q, In q c0 -> fst q <= n.
Proof. destruct OK as [_ [_ [F _]]]. rewrite Forall_forall in F. intros q Q. apply F in Q. unfold good_var in Q. lia. Qed.
Lemma cr_nz : forall q, In q c0 -> fst q <> 0.
Proof. destruct OK as [_ [_ [F _]]]. rewrite Forall_forall in F. intros q Q. apply F in Q. unfold good_var in Q. lia. Qed.
Lemma cr_prep : (c = [lit_true] /\ trivially_true v c0) \/
  (distinct_vars c /\ watches_first v c /\ (forall p, In p c -> In p c0 /\ ~ on_top v p) /\
   (forall p, In p c0 -> In p c \/ (false_lit v p /\ s_lvl v (fst p) = 0%Z))).
Proof. exact PREP. Qed.
Lemma cr_zf : forall p, false_lit v p /\ s_lvl v (fst p) = 0%Z -> zf (b_trail s) p.
Proof. intros p [A B]. apply (top_zf n s D G K); auto. Qed.

Lemma top_stays : forall D' G', InvG n s D G -> Core n s D' G -> G' = G -> InvG n s D' G'.
Proof. intros D' G' [_ [A B]] C ->. split; [|split]; auto. Qed.

Lemma cr_zf0 : forall p, false_lit v p /\ s_lvl v (fst p) = 0%Z -> zf (kept 0 (b_trail s)) p.
Proof. intros p [A B]. apply (top_zf0 n s D G K); auto. Qed.
Lemma cr_root : b_root s = 0 \/ exists p, In p c0 /\ forall e, In e (b_trail s) -> e_lit e = neg p -> b_root s < e_lev e.
Proof. apply OK. Qed.

Lemma unit_inv : forall p, In p c0 -> (forall q, In q c0 -> q <> p -> zf (kept 0 (b_trail s)) q) ->
  InvG n (fst (forceAt s p 0 Fact)) (impD D c0) G.
Proof.
  intros p P Z.
  assert (CL : b_root s = 0 \/ forall e, In e (b_trail s) -> e_lit e = neg p -> b_root s < e_lev e).
  { destruct cr_root as [R|[x [X1 X2]]]; auto. destruct (lit_eq_dec x p) as [-> |N]; auto. exfalso. destruct (Z x X1 N) as [e [E1 [E2 E3]]].
    apply filter_In in E1 as [E1 E4]. apply Nat.leb_le in E4. specialize (X2 e E1 E2). lia. }
  assert (ZS : forall q, In q c0 -> q <> p -> zf (b_trail s) q).
  { intros q Q N. destruct (Z q Q N) as [e [E1 E2]]. exists e. split; auto. apply filter_In in E1. tauto. }
  assert (SAT : forall s1, InvG n s1 D G -> b_conf s1 = None -> tr (b_trail s1) p 0 -> InvG n s1 (impD D c0) G).
  { intros s1 I1 N1 T. split; [|apply I1]. apply core_sat; auto; [apply I1|apply cr_vc|]. exists p. auto. }
  assert (JW : forall t, (forall e, In e (b_trail s) -> e_lev e = 0 -> In e t) -> jw (impD D c0) t p Fact 0).
  { intros t IT. assert (ZT : forall q, In q c0 -> q <> p -> zf t q).
    { intros q Q N. destruct (Z q Q N) as [e [E1 E2]]. exists e. split; auto. apply filter_In in E1 as [E1 E3]. apply Nat.leb_le in E3. apply IT; auto. lia. }
    cbn. exists c0. split; [apply in_or_app; right; now left|]. split; [split; auto|]. split; [intros a []|]. intros q Q. destruct (lit_eq_dec q p); auto. }
  assert (TE : isT s p = true -> exists ep, In ep (b_trail s) /\ e_lit ep = p /\ lev s p = e_lev ep /\ logOf s p = e_log ep).
  { intros T. apply isT_iff in T as [ep [A B]]. exists ep. sp; auto; [apply (lev_in n s D G K); auto; unfold litOf; congruence|eapply log_in; eauto]. }
  unfold forceAt. destruct (Nat.eqb_spec 0 (b_dl s)) as [E|N].
  { unfold force. rewrite <- E. destruct (isT s p) eqn:T.
    - unfold forceG. rewrite T. cbn [fst]. apply SAT; auto; [apply cr_nc|]. apply isT_iff in T. rewrite E. apply (tTrue_lev _ _ _ _ _ K T).
    - destruct (forceG_fields s p Fact 0) as [F1 [F2 [F3 F4]]]. apply (grow_dyn n s _ D); auto; try apply I; [apply cr_nc|].
      apply core_unit; auto; [apply cr_nc|apply cr_vc]. }
  destruct (isT s p && (lev s p <=? 0)) eqn:X1.
  { apply andb_true_iff in X1 as [T L]. apply Nat.leb_le in L. destruct (TE T) as [ep [A [B [C1 C2]]]]. cbn [fst]. apply SAT; auto; [apply cr_nc|].
    exists ep. sp; auto. pose proof (k_log _ _ _ _ K ep A). lia. }
  destruct (isT s p && (logOf s p <? lev s p)) eqn:X2.
  { apply andb_true_iff in X2 as [T L]. apply Nat.ltb_lt in L. destruct (TE T) as [ep [A [B [C1 C2]]]]. rewrite T in X1. cbn [andb] in X1. apply Nat.leb_gt in X1.
    pose proof (k_log _ _ _ _ K ep A) as KL. destruct (Nat.ltb_spec 0 (logOf s p)) as [Y|Y]; cbn [fst].
    - apply (relog_inv n s D (impD D c0) G p 0 Fact ep); auto; try lia; [apply cr_nc| | |].
      + right. exists c0. sp; auto. apply cr_vc.
      + apply JW. intros e E1 E2. apply filter_In. split; auto. apply Nat.leb_le. lia.
      + apply locks_no. discriminate.
    - apply SAT; auto; [apply cr_nc|]. exists ep. sp; auto. lia. }
  pose proof (undo_inv n s D G 0 I) as I1. destruct (undo_top n s D G K cr_nc) as [U1 [U2 [U3 U4]]]. set (s1 := undo s 0) in *. cbn zeta.
  destruct (isT s1 p) eqn:T1; cbn [fst].
  - apply isT_iff in T1 as [ep [A B]]. assert (A1 := A). apply U4 in A as [A A']. assert (T : isT s p = true) by (apply isT_iff; exists ep; auto).
    rewrite T in X1, X2. cbn [andb] in X1, X2. apply Nat.leb_gt in X1. apply Nat.ltb_ge in X2.
    assert (C1 : lev s p = e_lev ep) by (apply (lev_in n s D G K); auto; unfold litOf; congruence). assert (C2 := log_in n s D G ep p K A B).
    apply (relog_inv n s1 D (impD D c0) G p 0 Fact ep); auto; try lia; [apply I1| | |].
    + right. exists c0. sp; auto. apply cr_vc.
    + apply JW. intros e E1 E2. apply filter_In. split; [apply U4; split; auto; lia|]. apply Nat.leb_le. lia.
    + apply locks_no. discriminate.
  - destruct (forceG_fields s1 p Fact 0) as [F1 [F2 [F3 F4]]]. apply (grow_dyn n s1 _ D); auto; try apply I1.
    apply core_unit; auto; [apply I1|apply cr_vc| |].
    + rewrite U2, U3. destruct CL as [CL|CL]; auto. right. split; auto. intros [e [E1 E2]]. apply U4 in E1 as [E1 E3]. specialize (CL e E1 E2). lia.
    + intros q Q NQ. destruct (Z q Q NQ) as [e [E1 E2]]. exists e. split; auto. apply filter_In in E1 as [E1 E3]. apply Nat.leb_le in E3. apply U4. split; auto. lia.
Qed.
Lemma empty_inv : (forall q, In q c0 -> zf (kept 0 (b_trail s)) q) -> InvG n (fst (forceAt s lit_false 0 Fact)) (impD D c0) G.
Proof.
  intros Z. assert (X := k_sent _ _ _ _ K).
  assert (R0 : b_root s = 0).
  { destruct cr_root as [R|[x [X1 X2]]]; auto. exfalso. destruct (Z x X1) as [e [E1 [E2 E3]]]. apply filter_In in E1 as [E1 E4]. apply Nat.leb_le in E4. specialize (X2 e E1 E2). lia. }
  assert (NT : forall s1, InvG n s1 D G -> isT s1 lit_false = false /\ isF s1 lit_false = true).
  { intros s1 I1. assert (X1 : tTrue (b_trail s1) lit_true) by (eapply tr_true, sent_tr, (k_sent _ _ _ _ (proj1 I1))).
    split; [|apply isF_iff; exact X1]. destruct (isT s1 lit_false) eqn:T; auto. apply isT_iff in T. exfalso. exact (tt_ff _ _ (k_nd _ _ _ _ (proj1 I1)) T X1). }
  pose proof (undo_inv n s D G 0 I) as I1. destruct (undo_top n s D G K cr_nc) as [U1 [U2 [U3 U4]]].
  assert (E : fst (forceAt s lit_false 0 Fact) = set_conf (undo s 0) (Some (lit_false, Fact))).
  { unfold forceAt. destruct (NT s I) as [N1 N2]. destruct (NT _ I1) as [N3 N4]. destruct (Nat.eqb_spec 0 (b_dl s)) as [E|N].
    - unfold force, forceG. rewrite N1, N2. cbn [fst]. rewrite undo_ge; auto. rewrite R0. cbn. lia.
    - rewrite N1. cbn [andb]. cbn zeta. rewrite N3. unfold forceG. rewrite N3, N4. reflexivity. }
  rewrite E. set (s1 := undo s 0) in *. apply (grow_dyn n s1 _ D); auto; try apply I1; [|exists []; cbn; now rewrite app_nil_r].
  apply core_empty; auto; try apply I1; [apply cr_vc|rewrite U2; auto|].
  intros q Q. destruct (Z q Q) as [e [E1 E2]]. exists e. split; auto. apply filter_In in E1 as [E1 E3]. apply Nat.leb_le in E3. apply U4. split; auto. lia.
Qed.

(** The stored clause *)
Lemma stored : forall p q rest, c = p :: q :: rest -> distinct_vars c -> watches_first v c -> (forall p, In p c -> In p c0 /\ ~ on_top v p) ->
  let x := status_prep v c (length c) in let fo := Z.testbit x 1 || Z.testbit x 2 in
  let imp := Nat.leb (length c) 3 && negb (f_expl f) in let c' := if imp then c else pick f c in
  x <> 9%Z /\ Permutation c c' /\ exists p' q' rest', c' = p' :: q' :: rest' /\
  (fo = true -> false_lit v q' /\ (forall r, In r rest' -> false_lit v r /\ (s_lvl v (fst r) <= s_lvl v (fst q'))%Z) /\
      (false_lit v p' -> (s_lvl v (fst q') <= s_lvl v (fst p'))%Z)) /\
  (fo = false -> ~ false_lit v p' /\ (false_lit v q' -> true_lit v p' /\ (s_lvl v (fst p') <= s_lvl v (fst q'))%Z)).
Proof.
  intros p q rest CE DV WF NT x fo imp c'.
  destruct (status_facts v p q rest cr_wf) as [S1 [S2 S3]]; try (apply NT; rewrite CE; cbn; auto); [rewrite <- CE; auto|].
  rewrite <- CE in S1, S2, S3. fold x in S1, S2, S3. fold fo in S2, S3. split; auto.
  destruct (f_learnt f || Nat.leb (length c) 2) eqn:FL.
  { assert (E : c' = c). { unfold c'. destruct imp; auto. unfold pick. now rewrite FL. }
    rewrite E. split; auto. exists p, q, rest. auto. }
  apply orb_false_iff in FL as [FL1 FL2]. apply Nat.leb_gt in FL2.
  destruct OK as [_ [_ [_ [[X|[DL [FW SW]]] _]]]]; [congruence|]. fold c in FW, SW.
  assert (FREE : forall r, In r c -> free_lit v r).
  { intros r R. destruct (wo_cases v cr_wf r) as [[F _]|[[F [_ H]]|[F [_ H]]]]; auto; exfalso.
    - apply (proj2 (NT r R)). change (s_dl v) with (Z.of_nat (b_dl s)) in H. rewrite DL in H. split; [|lia].
      unfold false_lit, pval in F. intros Z. rewrite Z in F. discriminate.
    - apply (proj2 (NT r R)). change (s_dl v) with (Z.of_nat (b_dl s)) in H. rewrite DL in H. split; [|lia].
      unfold true_lit, pval in F. intros Z. rewrite Z in F. discriminate. }
  assert (PERM : Permutation c c').
  { unfold c'. destruct imp; auto. unfold pick. rewrite FL1, (proj2 (Nat.leb_gt _ _) FL2). cbn [orb].
    eapply perm_trans; [apply (swap_perm c 0 (f_fw f)); lia|]. apply swap_perm; rewrite <- (Permutation_length (swap_perm c 0 (f_fw f) ltac:(lia) FW)); lia. }
  split; auto. destruct c' as [|p' [|q' rest']] eqn:CE'; [apply Permutation_length in PERM; cbn in PERM; lia|apply Permutation_length in PERM; cbn in PERM; lia|].
  exists p', q', rest'. split; auto. split.
  - intros FO. exfalso. destruct (S2 FO) as [F _]. specialize (FREE q ltac:(rewrite CE; cbn; auto)). unfold free_lit, false_lit in *. congruence.
  - intros _. assert (H : forall r, In r [p'; q'] -> ~ false_lit v r).
    { intros r R. assert (IR : In r c). { apply (Permutation_in r (Permutation_sym PERM)). cbn in *. tauto. }
      specialize (FREE r IR). unfold free_lit, false_lit in *. congruence. }
    split; [apply H; cbn; auto|]. intros Y. exfalso. apply (H q'); cbn; auto.
Qed.

Lemma new_open : forall p q, ~ false_lit v p -> (false_lit v q -> true_lit v p /\ (s_lvl v (fst p) <= s_lvl v (fst q))%Z) ->
  forall s1, b_trail s1 = b_trail s -> Proc s1 = Proc s -> fresh s1 p q.
Proof.
  intros p q A B s1 T P. unfold fresh. rewrite T, P. split.
  - intros e E1 E2. apply A. apply (val_false n s D G K). exists e. split; auto. apply proc_trail. auto.
  - intros e E1 E2. assert (IE : In e (b_trail s)) by (apply proc_trail; auto).
    destruct B as [B1 B2]; [apply (val_false n s D G K); exists e; auto|].
    apply (val_true n s D G K) in B1 as [x [X1 X2]]. exists x. sp; auto. pose proof (k_log _ _ _ _ K x X1).
    unfold v in B2. rewrite !val_lvl in B2. rewrite (lev_in n s D G K x p X1), (lev_in n s D G K e q IE) in B2; unfold litOf; try congruence; [lia|].
    rewrite E2. destruct q; reflexivity.
Qed.

Lemma createPrep_inv : exists G', InvG n (fst (createPrep s f cp)) (db_step s D (OCreate f false c0) (fst (createPrep s f cp))) G'.
Proof.
  unfold createPrep. fold v. fold c. set (x := status_prep v c (length c)). unfold db_step.
  destruct cr_prep as [[CE TR]|[DV [WF [NT CO]]]].
  { assert (X : x = 9%Z).
    { unfold x. rewrite CE. unfold status_prep. cbn [length nth Nat.ltb Nat.leb]. rewrite (proj2 (wo_max v cr_wf lit_true)); [reflexivity|].
      destruct (wv_true v cr_wf) as [A B]. split; auto. unfold true_lit, pval, lit_true. cbn [fst snd]. rewrite A. reflexivity. }
    rewrite X, Z.eqb_refl. cbn [fst]. rewrite Nat.eqb_refl. exists G. apply top_stays; auto. apply core_sat; auto; [apply cr_nc|apply cr_vc|].
    destruct TR as [p [A [[B C]|B]]]; exists p; split; auto. left. apply (top_zt n s D G K); auto. }
  destruct c as [|p [|q rest]] eqn:CE.
  - assert (X : x <> 9%Z). { unfold x, status_prep. cbn [length Nat.ltb Nat.leb]. pose proof (wv_dl v cr_wf). change (0 =? u32max)%Z with false. cbn [andb].
      change (varMax <? 0)%Z with false. cbn iota. rewrite (proj2 (Z.leb_le 0 (s_dl v))) by lia. cbn. discriminate. }
    rewrite (proj2 (Z.eqb_neq _ _) X). cbn [length Nat.leb nth].
    assert (E := forceAt_cls s lit_false 0 Fact).
    rewrite E, Nat.eqb_refl. exists G. apply empty_inv. intros q Q. destruct (CO q Q) as [[]|H]. apply cr_zf0. auto.
  - destruct (NT p (or_introl eq_refl)) as [P0 PT].
    assert (X : x <> 9%Z).
    { unfold x, status_prep. cbn [length Nat.ltb Nat.leb nth]. assert (PM := PT). rewrite <- (on_top_keepable v cr_wf) in PM. destruct PM as [_ PM].
      rewrite (proj2 (Z.eqb_neq _ _) PM). destruct (varMax <? watchOrder v p)%Z; [|destruct (watchOrder v p <=? s_dl v)%Z; [destruct (watchOrder v p =? 0)%Z|]]; destruct (_ && _); cbn; discriminate. }
    rewrite (proj2 (Z.eqb_neq _ _) X). cbn [length Nat.leb nth].
    assert (E := forceAt_cls s p 0 Fact).
    rewrite E, Nat.eqb_refl. exists G. apply unit_inv; auto. intros q Q N. destruct (CO q Q) as [[H|[]]|H]; [congruence|]. apply cr_zf0. auto.
  - rewrite <- CE in DV, WF, NT, CO. assert (CC : c = p :: q :: rest) by exact CE.
    destruct (stored p q rest CC DV WF NT) as [X [PERM [p' [q' [rest' [CE' [FT FF]]]]]]].
    fold c in CE. unfold x. rewrite <- CE in *. clear x.
    set (x := status_prep v c (length c)) in *. set (imp := Nat.leb (length c) 3 && negb (f_expl f)) in *.
    set (c' := if imp then c else pick f c) in *.
    assert (IML : imp = true -> length c <= 3) by (unfold imp; intros IE; apply andb_true_iff in IE as [IE _]; apply Nat.leb_le in IE; exact IE).
    clearbody c' imp.
    rewrite (proj2 (Z.eqb_neq _ _) X). assert (LC : 2 <= length c) by (rewrite CE; cbn; lia). rewrite (proj2 (Nat.leb_gt (length c) 1)) by lia.
    assert (DV' : NoDup (map fst c')) by (eapply Permutation_NoDup; [apply Permutation_map, PERM|exact DV]).
    assert (IN : forall r, In r c' <-> In r c) by (intros r; split; apply Permutation_in; auto; now apply Permutation_sym).
    assert (SB : sub (b_trail s) c' c0).
    { split; [intros r R; apply NT, IN; auto|]. intros r R. destruct (CO r R) as [H|H]; [left; apply IN; auto|right; apply cr_zf; auto]. }
    assert (SB0 : forall r, In r c0 -> In r c' \/ zf (kept 0 (b_trail s)) r).
    { intros r R. destruct (CO r R) as [H|H]; [left; apply IN; auto|right; apply cr_zf0; auto]. }
    assert (PQ : p' <> q'). { rewrite CE' in DV'. cbn in DV'. inversion DV' as [|? ? H]. intros ->. apply H. now left. }
    assert (PI : In p' c0) by (apply NT, IN; rewrite CE'; now left).
    set (s1 := if imp then add_imp s c' else attach s (mk_clause (f_shared f) c')).
    set (D1 := if imp then impD D c0 else expD D c0). set (G1 := if imp then c' :: G else G).
    set (w := if imp then _ else ByC (length (b_cls s))).
    assert (MK := mk_wf (f_shared f) c' ltac:(rewrite <- (Permutation_length PERM); lia) DV' ltac:(intros r R; apply cr_nz, NT, IN; auto)).
    destruct MK as [M1 [M2 [M3 M4]]]. assert (N0 : nth 0 c' lit_false = p') by (rewrite CE'; reflexivity). assert (NQ1 : nth 1 c' lit_false = q') by (rewrite CE'; reflexivity). rewrite N0 in M3. rewrite NQ1 in M4.
    assert (ST : b_trail s1 = b_trail s /\ Proc s1 = Proc s /\ b_conf s1 = b_conf s).
    { unfold s1, Proc. destruct imp; [|cbn; auto]. destruct (add_imp_fields s c') as [F1 [F2 [F3 [F4 [F5 F6]]]]]. rewrite F1, F2, F3, F6. auto. }
    destruct ST as [ST1 [ST2 ST3]]. rewrite cr_nc in ST3.
    assert (K1 : Core n s1 D1 G1).
    { unfold s1, D1, G1. destruct imp eqn:IE.
      - apply core_add_imp; auto; [apply cr_nc|apply cr_vc|]. assert (LEN : length c = length c') by (apply Permutation_length; exact PERM). specialize (IML eq_refl). change (length c' = 2 \/ length c' = 3). lia.
      - apply core_attach; auto; [apply cr_vc|]. split; [intros r R; apply (proj1 SB), M2; auto|]. intros r R. destruct (proj2 SB r R); auto. left. apply M2. auto. }
    assert (WL1 : wlok (b_wl s1) s1).
    { unfold s1. destruct imp.
      - destruct (add_imp_fields s c') as [F1 [F2 [F3 [F4 [F5 F6]]]]]. rewrite F5. unfold wlok, cl. rewrite F4. apply I.
      - apply attach_wlok; [apply I|]. apply M1. }
    (* the other clauses *)
    assert (OLD : forall s2, b_cls s2 = b_cls s1 -> b_wl s2 = b_wl s1 -> Core n s2 D1 G1 -> fresh s2 p' q' ->
      (forall c, Wcl (b_trail s1) (Proc s1) c -> Wcl (b_trail s2) (Proc s2) c) ->
      (forall c, Ucl (b_trail s1) (Proc s1) c -> Ucl (b_trail s2) (Proc s2) c) -> InvG n s2 D1 G1).
    { intros s2 CS WS K2 FR HW HU. pose proof (proj2 (proj2 I)) as [DW DU]. split; [|split; [|split]]; auto.
      - rewrite WS. unfold wlok, cl in *. rewrite CS. exact WL1.
      - intros i d Y. assert (Y1 : cl s1 i = Some d) by (unfold cl in *; congruence). unfold s1 in Y1. destruct imp.
        + destruct (add_imp_fields s c') as [F1 [F2 [F3 [F4 [F5 F6]]]]]. unfold cl in Y1. rewrite F4 in Y1. apply HW. rewrite ST1, ST2. apply (DW i d Y1).
        + rewrite attach_cl in Y1. destruct (Nat.eqb i (length (b_cls s))).
          * inversion Y1; subst d. apply fresh_W. rewrite M3, M4. exact FR.
          * apply HW. rewrite ST1, ST2. apply (DW i d Y1).
      - intros d Y. unfold G1 in Y. assert (Y1 : d = c' \/ In d G) by (destruct imp; [destruct Y; auto|auto]).
        destruct Y1 as [-> |Y1].
        + rewrite CE'. apply fresh_U; auto.
        + apply HU. rewrite ST1, ST2. apply DU. auto. }
    assert (DBE : forall s2, b_cls s2 = b_cls s1 -> (if Nat.eqb (length (b_cls s2)) (length (b_cls s)) then Db (d_imp D ++ [c0]) (d_exp D) else Db (d_imp D) (d_exp D ++ [Some c0])) = D1).
    { intros s2 E. rewrite E. unfold s1, D1. destruct imp.
      - destruct (add_imp_fields s c') as [_ [_ [_ [F4 _]]]]. rewrite F4, Nat.eqb_refl. reflexivity.
      - cbn. rewrite app_length. cbn. rewrite (proj2 (Nat.eqb_neq _ _)) by lia. reflexivity. }
    exists G1. rewrite N0, NQ1.
    destruct (Z.testbit x 1 || Z.testbit x 2) eqn:FO.
    + destruct (FT eq_refl) as [F1 [F2 F3]]. apply (val_false n s D G K) in F1 as [eq [E1 E2]].
      assert (LQ : lev s q' = e_lev eq). { apply (lev_in n s D G K); auto. unfold litOf. rewrite E2. destruct q'; reflexivity. }
      assert (FALSE : forall r, In r c' -> r <> p' -> exists e, In e (b_trail s) /\ e_lit e = neg r /\ e_lev e <= e_lev eq).
      { intros r R N. rewrite CE' in R. destruct R as [R|[R|R]]; [congruence|subst r; exists eq; auto|].
        destruct (F2 r R) as [A B]. apply (val_false n s D G K) in A as [e [A1 A2]]. exists e. sp; auto.
        unfold v in B. rewrite !val_lvl, LQ, (lev_in n s D G K e r A1) in B; [lia|]. unfold litOf. rewrite A2. destruct r; reflexivity. }
      set (t := kept (e_lev eq) (b_trail s)).
      assert (TL : forall e, In e (b_trail s) -> e_lev e <= e_lev eq -> In e t /\ e_log e <= e_lev eq).
      { intros e A B. split; [apply filter_In; split; auto; apply Nat.leb_le; auto|]. pose proof (k_log _ _ _ _ K e A). lia. }
      assert (ZT : forall r, zf (kept 0 (b_trail s)) r -> zf t r).
      { intros r [e [A1 [A2 A3]]]. exists e. sp; auto. apply filter_In in A1 as [A1 A4]. apply Nat.leb_le in A4. apply TL; auto. lia. }
      assert (BY : byc t p' (e_lev eq) c0).
      { split; auto. intros r R N. destruct (SB0 r R) as [A|A].
        - destruct (FALSE r A N) as [e [A1 [A2 A3]]]. exists e. destruct (TL e A1 A3). auto.
        - destruct (ZT r A) as [e [A1 [A2 A3]]]. exists e. sp; auto. lia. }
      rewrite LQ.
      destruct (new_forced n s1 D1 G1 p' q' eq w K1 ST3 (cr_vc p' PI)) as [N1 [N2 [N3 [N4 [N5 N6]]]]]; auto.
      * rewrite ST1. auto.
      * unfold w. destruct imp; [destruct c' as [|? [|? [|? ?]]]; apply locks_no; discriminate|].
        intros i d Y Z. inversion Y; subst i. unfold s1 in Z. rewrite attach_cl, Nat.eqb_refl in Z. inversion Z; subst d. exists false. auto.
      * rewrite ST1. fold t. unfold w, D1. destruct imp.
        -- assert (J : forall rs, (forall a, In a rs -> In (neg a) c' /\ neg a <> p') -> (forall r, In r c' -> r = p' \/ In (neg r) rs) ->
             exists c1, In c1 (d_imp (impD D c0)) /\ byc t p' (e_lev eq) c1 /\ cov t p' (e_lev eq) c1 rs).
           { intros rs R1 R2. exists c0. split; [cbn; apply in_or_app; right; now left|]. split; auto. split.
             - intros a A. destruct (R1 a A) as [A1 A2]. assert (X1 := proj2 BY (neg a) (proj1 SB _ A1) A2). now rewrite neg_neg in X1.
             - intros r R. destruct (SB0 r R) as [A|A]; [destruct (R2 r A); auto|]. right; right. auto. }
           specialize (IML eq_refl). rewrite (Permutation_length PERM) in IML. clear - J IML CE' DV'. subst c'. destruct rest' as [|r' [|? ?]]; [| |cbn in IML; lia].
           ++ apply J.
              ** intros a [<-|[]]. rewrite neg_neg. split; [cbn; auto|]. intros ->. cbn in DV'. inversion DV' as [|? ? X]. apply X. now left.
              ** intros r [<-|[<-|[]]]; cbn; auto.
           ++ apply J.
              ** intros a A. cbn in DV'. inversion DV' as [|? ? X _]; subst. destruct A as [<-|[<-|[]]]; cbn; rewrite neg_neg; (split; [auto|]); intros ->; apply X; cbn; auto.
              ** intros r [<-|[<-|[<-|[]]]]; cbn; auto.
        -- exists c0. split; auto. cbn. rewrite <- (k_len _ _ _ _ K). rewrite nth_error_app2 by lia. now rewrite Nat.sub_diag.
      * rewrite ST1. intros e A B. assert (FP : false_lit v p') by (apply (val_false n s D G K); exists e; auto).
        specialize (F3 FP). unfold v in F3. rewrite !val_lvl, LQ, (lev_in n s D G K e p' A) in F3; [lia|]. unfold litOf. rewrite B. destruct p'; reflexivity.
      * assert (RS : b_root s1 = b_root s) by (unfold s1; destruct imp; [apply add_imp_root|reflexivity]). rewrite RS, ST1. intros LR e A B.
        destruct cr_root as [R|[y [Y1 Y2]]]; [lia|]. destruct (lit_eq_dec y p') as [-> |NY]; [auto|]. exfalso.
        destruct (SB0 y Y1) as [H|[z [H1 [H2 _]]]].
        -- destruct (FALSE y H NY) as [z [H1 [H2 H3]]]. specialize (Y2 z H1 H2). lia.
        -- apply filter_In in H1 as [H1 H3]. apply Nat.leb_le in H3. specialize (Y2 z H1 H2). lia.
      * rewrite DBE by auto. apply OLD; auto.
    + destruct (FF eq_refl) as [F1 F2]. cbn [fst]. rewrite DBE by auto. apply OLD; auto. apply new_open; auto.
Qed.
End Create.

Lemma create_inv : forall n s D G f simp c0, InvG n s D G -> op_ok n s (OCreate f simp c0) ->
  exists G', InvG n (fst (create s f simp c0)) (db_step s D (OCreate f simp c0) (fst (create s f simp c0))) G'.
Proof.
  intros n s D G f simp c0 I [A1 [A2 [A3 [A4 [A5 A6]]]]]. unfold create. apply (createPrep_inv n s D G f c0 _ I); [sp; auto|].
  apply (prepare_vec_spec (view s)); auto. apply (view_wf n s D G (proj1 I)). exact A2.
Qed.
