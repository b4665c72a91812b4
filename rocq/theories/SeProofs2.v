From Coq Require Import List Bool Arith ZArith Lia Permutation.
From Verif Require Import Base ClModel ClSpec ClProofs BpModel BpSpec BpProofs BpProofs2 BpProofs3 BpProofs4 BpProofs5 CaModel CaSpec CaProofs7 SeModel SeSpec SeProofs.
Import ListNotations.

(** * The literals of a reason *)
Lemma perm_filter_neq : forall (l : list lit) p, NoDup l -> In p l -> Permutation l (p :: filter (fun q => negb (lit_eqb q p)) l).
Proof.
  induction l as [|a l IH]; intros p N I; [destruct I|]. inversion N; subst. cbn [filter]. destruct (lit_eqb a p) eqn:E.
  - apply lit_eqb_eq in E. subst a. cbn [negb]. apply perm_skip. rewrite filter_all; auto. intros q Q. apply negb_true_iff. destruct (lit_eqb q p) eqn:X; auto. apply lit_eqb_eq in X. subst q. contradiction.
  - cbn [negb]. destruct I as [-> |I]; [rewrite lit_eqb_refl in E; discriminate|]. eapply perm_trans; [apply perm_skip, (IH p H2 I)|apply perm_swap].
Qed.
Lemma others_perm : forall c b, wfc c -> Permutation (clits c) (head c b :: others c (head c b)).
Proof.
  intros c b W. assert (T : forall B tl, bd c = B -> (match B with Shared _ => False | _ => True end) -> clits c = h0 c :: h1 c :: tl ->
    (if lit_eqb (h2 c) lit_false then [] else h2 c :: tailOf B) = tl -> Permutation (clits c) (head c b :: others c (head c b))).
  { intros B tl EB SH E1 E2. assert (E3 : others c (head c b) = head c (lit_eqb (head c b) (h0 c)) :: tl).
    { unfold others. rewrite EB. destruct B; try contradiction; rewrite <- E2; reflexivity. }
    rewrite E3, E1. destruct b; cbn [head].
    - rewrite (proj2 (lit_eqb_neq _ _) (not_eq_sym (wf_01 c W))). cbn [head]. apply perm_swap.
    - rewrite lit_eqb_refl. cbn [head]. reflexivity. }
  destruct (bd c) as [x y|tl idx|ls] eqn:B.
  - apply (T (Small x y) (filter nf [h2 c; x; y])); auto; [unfold clits; rewrite B; reflexivity|].
    pose proof (wf_sm c W) as SM. unfold smOk in SM. rewrite B in SM. destruct SM as [S1 S2]. cbn [filter]. unfold nf, tailOf.
    destruct (lit_eqb (h2 c) lit_false) eqn:E2; cbn [negb].
    + apply lit_eqb_eq in E2. rewrite (S1 E2), (S2 (S1 E2)), lit_eqb_refl. reflexivity.
    + destruct (lit_eqb x lit_false) eqn:EX; cbn [negb].
      * apply lit_eqb_eq in EX. rewrite (S2 EX), lit_eqb_refl. reflexivity.
      * destruct (lit_eqb y lit_false); reflexivity.
  - apply (T (Large tl idx) (h2 c :: tl)); auto; [unfold clits; rewrite B; reflexivity|].
    destruct (lit_eqb (h2 c) lit_false) eqn:E2; auto. exfalso. apply lit_eqb_eq in E2. apply (wf_nz c W (h2 c)); [unfold clits; rewrite B; cbn; auto|]. rewrite E2. reflexivity.
  - assert (E : clits c = ls) by (unfold clits; rewrite B; reflexivity). unfold others. rewrite B, E. apply perm_filter_neq; [|rewrite <- E; apply (wf_h c W)].
    rewrite <- E. apply nodup_map_fst, (wf_nd c W).
Qed.
Lemma others_in : forall c b q, wfc c -> (In q (others c (head c b)) <-> In q (clits c) /\ q <> head c b).
Proof.
  intros c b q W. pose proof (others_perm c b W) as P. assert (N : NoDup (head c b :: others c (head c b))) by (eapply Permutation_NoDup; [exact P|apply nodup_map_fst, (wf_nd c W)]).
  inversion N as [|? ? N1 N2]; subst. split.
  - intros I. split; [apply (Permutation_in _ (Permutation_sym P)); now right|]. intros ->. contradiction.
  - intros [I X]. apply (Permutation_in _ P) in I as [I|I]; auto. congruence.
Qed.
Lemma others_nd : forall c b, wfc c -> NoDup (map fst (head c b :: others c (head c b))).
Proof. intros c b W. eapply Permutation_NoDup; [apply Permutation_map, (others_perm c b W)|apply (wf_nd c W)]. Qed.

Section Bridge.
Variables (n : nat) (s : st) (D : db) (G : list (list lit)).
Hypothesis (I : InvG n s D G) (SH : Shape s).
Let K : Core n s D G := proj1 I.
Let E := envOf s.
Definition GM (a : asg) : Prop := holds a lit_true = true /\ forall c, inDb D c -> sat_clause a c = true.

Lemma ent_of : forall p, In p (v_trail E) -> exists e, In e (b_trail s) /\ e_lit e = p /\ entry s (fst p) = Some e.
Proof. intros p H. cbn in H. apply in_map_iff in H as [e [<- H]]. exists e. sp; auto. apply (entry_in n s D G K); auto. Qed.
Lemma lv_of : forall e, In e (b_trail s) -> lv E (e_lit e) = e_lev e.
Proof. intros e H. unfold lv. cbn. rewrite (entry_in n s D G K e H : entry s (fst (e_lit e)) = Some e). reflexivity. Qed.
Lemma lv_neg : forall e q, In e (b_trail s) -> e_lit e = neg q -> lv E q = e_lev e.
Proof. intros e q H X. rewrite <- (lv_of e H), X. destruct q; reflexivity. Qed.
Lemma rs_of : forall e, In e (b_trail s) -> rs E (e_lit e) = reasonOf s (e_lit e) (e_why e).
Proof. intros e H. unfold rs. cbn. rewrite (entry_in n s D G K e H : entry s (fst (e_lit e)) = Some e). reflexivity. Qed.
Lemma dl_of : CaModel.dl E = b_dl s.
Proof. unfold CaModel.dl. cbn. rewrite map_length, seq_length. reflexivity. Qed.

Lemma gm_zero : forall a e, GM a -> In e (b_trail s) -> e_log e = 0 -> holds a (e_lit e) = true.
Proof.
  intros a e [G1 G2] H Z. apply (semantic_core n s D G 0 a K G2); auto; [|lia]. intros x X GV L. destruct GV as [W|[W|W]].
  - apply in_split in X as [t1 [t2 T]]. destruct (sh_dec s SH t1 x t2 T W) as [A [B _]]. lia.
  - exfalso. exact (sh_ext s SH x X W).
  - rewrite W. exact G1.
Qed.
Lemma gm_zf : forall a q, GM a -> zf (b_trail s) q -> holds a q = false.
Proof. intros a q H [e [E1 [E2 E3]]]. assert (X := gm_zero a e H E1 ltac:(lia)). rewrite E2, holds_neg in X. now apply negb_true_iff. Qed.
(** the clause of a reason: its literals are p, complements of the reason, or false on level 0 *)
Lemma reason_clause : forall t1 p w g r, (forall q, tTrue t1 q -> tTrue (b_trail s) q) -> (forall q, zf t1 q -> zf (b_trail s) q) -> jw D t1 p w g -> locks s p w -> plain w -> reasonOf s p w = Some r ->
  exists c0, inDb D c0 /\ In p c0 /\ (forall q, In q r -> q = lit_true \/ tr t1 q g) /\ (forall q, In q c0 -> q = p \/ In (neg q) r \/ zf (b_trail s) q) /\
    (forall q, In q c0 -> q <> p -> tr t1 (neg q) g).
Proof.
  intros t1 p w g r TT ZZ J LK PL R. destruct w; cbn in R; try discriminate; try (injection R as <-); cbn in J.
  - destruct J as [c0 [A [[B1 B2] [C1 C2]]]]. exists c0. sp; auto; [now left|intros q [<-|[]]; auto|]. intros q Q. destruct (C2 q Q) as [X|[[]|X]]; auto.
  - destruct J as [c0 [A [[B1 B2] [C1 C2]]]]. exists c0. sp; auto; [now left|]. intros q Q. destruct (C2 q Q) as [X|[X|X]]; auto.
  - destruct J as [c0 [A [[B1 B2] [C1 C2]]]]. exists c0. sp; auto; [now left|]. intros q' Q. destruct (C2 q' Q) as [X|[X|X]]; auto.
  - destruct J as [c0 [A [B1 B2]]]. destruct (k_rep2 _ _ _ _ K i c0 A) as [c C]. destruct (k_rep _ _ _ _ K i c C) as [W [c1 [C1 SB]]].
    assert (c1 = c0) by (pose proof (eq_trans (eq_sym C1) A) as X; now inversion X). subst c1.
    destruct (LK i c eq_refl C) as [b ->]. change (nth i (b_cls s) None) with (cl s i) in R. rewrite C in R. injection R as <-. exists c0. sp; auto.
    + right. eapply nth_error_In; eauto.
    + intros q Q. right. apply in_map_iff in Q as [x [<- Q]]. apply (others_in c b x W) in Q as [Q1 Q2]. apply B2; auto. apply SB. auto.
    + intros q Q. destruct (lit_eq_dec q (head c b)) as [X|X]; auto. right. destruct (proj2 SB q Q) as [Y|Y]; auto. left. apply in_map. apply (others_in c b q W). auto.
Qed.
Lemma clause_valid : forall a c0 p r, GM a -> inDb D c0 -> (forall q, In q c0 -> q = p \/ In (neg q) r \/ zf (b_trail s) q) -> (forall q, In q r -> holds a q = true) -> holds a p = true.
Proof.
  intros a c0 p r GA IN C H. pose proof (proj2 GA c0 IN) as S. apply existsb_exists in S as [x [X1 X2]]. destruct (C x X1) as [->|[X|X]]; auto; exfalso.
  - apply H in X. rewrite holds_neg, X2 in X. discriminate.
  - apply (gm_zf a x GA) in X. congruence.
Qed.

Lemma bridge_trail : trail_ok GM E.
Proof.
  constructor.
  - cbn. rewrite map_map. exact (k_nd _ _ _ _ K).
  - intros a [H _]. exact H.
  - cbn. destruct (k_sent _ _ _ _ K) as [e [E1 [E2 [E3 E4]]]]. assert (X := entry_in n s D G K e E1). unfold litOf in X. rewrite E2 in X. cbn in X. rewrite X. exact E3.
  - intros t1 p t2 q T Q. cbn in T. apply map_split in T as [u1 [x [u2 [U1 [U2 U3]]]]]. subst t1 p. apply in_map_iff in Q as [y [<- Y]].
    rewrite !lv_of by (rewrite U1; apply in_or_app; cbn; auto). apply (k_so _ _ _ _ K u1 x u2 U1 y Y).
  - intros p H. destruct (ent_of p H) as [e [E1 [<- _]]]. rewrite lv_of, dl_of by auto. apply (k_lv _ _ _ _ K); auto.
  - intros p r q H R Q. destruct (ent_of p H) as [e [E1 [<- _]]]. rewrite rs_of in R by auto.
    pose proof (k_lock _ _ _ _ K e E1) as LK. apply in_split in E1 as [t1 [t2 T]]. destruct (k_just _ _ _ _ K t1 e t2 T) as [W|[[W1 W2]|J]].
    + rewrite W in R. discriminate.
    + rewrite W2 in R. cbn in R. injection R as <-. destruct Q as [<-|[]]. now left.
    + assert (PL : plain (e_why e)). { split; intros Z; rewrite Z in R; discriminate. }
      destruct (reason_clause t1 (e_lit e) (e_why e) (e_log e) r) as [c0 [_ [_ [A _]]]]; auto; try (intros x X; rewrite T; (apply tt_app || apply tr_app); auto).
      destruct (A q Q) as [X|[e' [X1 [X2 X3]]]]; [now left|]. right. exists (map e_lit t1), (map e_lit t2). cbn. rewrite T, map_app. split; auto. rewrite <- X2. apply in_map; auto.
  - intros p r a H R GA Q. destruct (ent_of p H) as [e [E1 [<- _]]]. rewrite rs_of in R by auto.
    pose proof (k_lock _ _ _ _ K e E1) as LK. apply in_split in E1 as [t1 [t2 T]]. destruct (k_just _ _ _ _ K t1 e t2 T) as [W|[[W1 W2]|J]].
    + rewrite W in R. discriminate.
    + rewrite W1. apply GA.
    + assert (PL : plain (e_why e)). { split; intros Z; rewrite Z in R; discriminate. }
      destruct (reason_clause t1 (e_lit e) (e_why e) (e_log e) r) as [c0 [A1 [_ [_ [A2 _]]]]]; auto; try (intros x X; rewrite T; (apply tt_app || apply tr_app); auto).
      apply (clause_valid a c0 (e_lit e) r); auto.
  - intros p a H L GA. destruct (ent_of p H) as [e [E1 [<- _]]]. rewrite lv_of in L by auto. apply gm_zero; auto. pose proof (k_log _ _ _ _ K e E1). lia.
  - intros i Hi. rewrite dl_of in Hi. destruct (dec_split n s D G i K SH Hi) as [t1 [e [t2 [T [W [L [F _]]]]]]].
    assert (LS : levelStart E i = length t1).
    { unfold levelStart. cbn. set (f := fun i => length (filter (fun e => e_lev e <? i) (b_trail s))). change 0 with (f 0) at 2 || idtac.
      rewrite (nth_indep _ 0 (f 0)) by (rewrite map_length, seq_length; lia). rewrite map_nth, seq_nth by lia. unfold f. replace (1 + (i - 1)) with i by lia. rewrite F at 1. reflexivity. }
    assert (DE : decision E i = e_lit e).
    { unfold decision. fold (levelStart E i). rewrite LS. cbn. rewrite T, map_app. rewrite app_nth2; rewrite map_length; [|lia]. rewrite Nat.sub_diag. reflexivity. }
    assert (IE : In e (b_trail s)) by (rewrite T; apply in_or_app; right; now left).
    exists (map e_lit t1), (map e_lit t2). rewrite DE. cbn [v_trail E envOf]. sp.
    + unfold E. cbn. rewrite T, map_app. reflexivity.
    + rewrite map_length. symmetry. exact LS.
    + rewrite lv_of; auto.
    + rewrite rs_of, W; auto.
    + intros q Q. apply in_map_iff in Q as [y [<- Y]]. rewrite lv_of by (rewrite T; apply in_or_app; auto). rewrite F in Y. apply filter_In in Y as [_ Y]. apply Nat.ltb_lt; auto.
Qed.
Lemma dec_is : forall e, In e (b_trail s) -> e_why e = Dec -> e_lit e = decision E (e_lev e).
Proof.
  intros e H W. destruct (dec_unique n s D G e K SH H W) as [B [t1 [t2 [T F]]]]. destruct (dec_split n s D G (e_lev e) K SH B) as [u1 [x [u2 [U [W' [L [F' _]]]]]]].
  assert (TU : t1 = u1) by congruence. rewrite <- TU in U. assert (x = e). { pose proof (eq_trans (eq_sym T) U) as X. apply app_inv_head in X. congruence. } subst x.
  destruct (to_dec GM E bridge_trail (e_lev e)) as [v1 [v2 [V1 [V2 _]]]]; [rewrite dl_of; auto|].
  unfold decision. fold (levelStart E (e_lev e)). assert (LS : levelStart E (e_lev e) = length t1).
  { unfold levelStart. cbn. set (f := fun i => length (filter (fun e => e_lev e <? i) (b_trail s))).
    rewrite (nth_indep _ 0 (f 0)) by (rewrite map_length, seq_length; lia). rewrite map_nth, seq_nth by lia. unfold f. replace (1 + (e_lev e - 1)) with (e_lev e) by lia. rewrite F at 1. reflexivity. }
  rewrite LS. cbn. rewrite T, map_app, app_nth2; rewrite map_length; [|lia]. rewrite Nat.sub_diag. reflexivity.
Qed.
Lemma reason_some : forall e, In e (b_trail s) -> e_why e <> Dec -> reasonOf s (e_lit e) (e_why e) <> None.
Proof.
  intros e H W. pose proof (sh_ext s SH e H) as X. pose proof (in_split _ _ H) as [t1 [t2 T]]. destruct (k_just _ _ _ _ K t1 e t2 T) as [J|[[_ J]|J]]; [congruence|rewrite J; discriminate|].
  destruct (e_why e) eqn:Y; try congruence; cbn; try discriminate. cbn in J. destruct J as [c0 [J _]]. destruct (k_rep2 _ _ _ _ K i c0 J) as [c C].
  change (nth i (b_cls s) None) with (cl s i). rewrite C. discriminate.
Qed.
Lemma bridge_flips : noFlips E.
Proof.
  intros p H R L. destruct (ent_of p H) as [e [E1 [<- _]]]. rewrite rs_of in R by auto. rewrite lv_of by auto. apply dec_is; auto.
  destruct (e_why e) eqn:W; auto; exfalso; apply (reason_some e E1); try congruence; rewrite W; auto.
Qed.
Lemma bridge_flags : flags_ok E (flagsOf s).
Proof.
  constructor.
  - cbn. destruct (k_sent _ _ _ _ K) as [e [E1 [E2 [E3 E4]]]]. assert (X := entry_in n s D G K e E1). unfold litOf in X. rewrite E2 in X. cbn in X. rewrite X, E3. reflexivity.
  - intros p H. destruct (ent_of p H) as [e [E1 [<- X]]]. rewrite lv_of by auto. unfold seen. cbn. rewrite X. apply Nat.eqb_eq.
  - reflexivity.
Qed.
Lemma bridge_arcs : arcs_ok GM E.
Proof.
  intros p c H. cbn in H. rewrite in_app_iff in H.
  assert (FIN : forall c0 cs, (exists d, inDb D d /\ sub (b_trail s) cs d) -> (forall q, In q cs -> q = neg p \/ In q c0) -> forall a, GM a -> holds a (neg p) = true \/ exists x, In x c0 /\ holds a x = true).
  { intros c0 cs [d [D1 [D2 D3]]] Q a GA. pose proof (proj2 GA d D1) as S. apply existsb_exists in S as [x [X1 X2]].
    destruct (D3 x X1) as [X|X]; [|apply (gm_zf a x GA) in X; congruence]. destruct (Q x X) as [<-|Y]; eauto. }
  destruct H as [[H|H]|H].
  - apply in_map_iff in H as [q [<- H]]. destruct (k_gb _ _ _ _ K p q H) as [cs [C1 C2]]. destruct (k_good _ _ _ _ K cs C1) as [GC [ND [d [D1 D2]]]].
    split.
    + assert (PQ : neg p <> q). { intros <-. destruct cs as [|x [|y cs]]; [cbn in GC; contradiction|cbn in GC; contradiction|].
        assert (x = neg p) by (destruct (proj1 (C2 x) (or_introl eq_refl)); auto). assert (y = neg p) by (destruct (proj1 (C2 y) (or_intror (or_introl eq_refl))); auto). subst.
        cbn in ND. inversion ND as [|? ? Z _]. apply Z. now left. }
      cbn. constructor; [|constructor; [intros []|constructor]]. intros [X|[]]. apply PQ. apply (nd_lits cs _ _ ND); [apply C2; auto|apply C2; auto|]. change (fst (neg p)) with (fst p). congruence.
    + apply (FIN [q] cs); [exists d; split; auto; now left|]. intros x X. apply C2 in X. cbn. intuition.
  - apply in_map_iff in H as [[x y] [<- H]]. destruct (k_gt _ _ _ _ K p x y H) as [cs [C1 [LE C2]]]. destruct (k_good _ _ _ _ K cs C1) as [GC [ND [d [D1 D2]]]].
    split.
    + assert (P : NoDup (map fst [neg p; x; y])).
      { assert (N3 : NoDup [neg p; x; y]). { apply (@NoDup_incl_NoDup _ cs); [apply nodup_map_fst; auto|rewrite LE; cbn; lia|]. intros z Z. apply C2 in Z. cbn. intuition. }
        assert (P3 : Permutation cs [neg p; x; y]). { apply NoDup_Permutation; auto; [apply nodup_map_fst; auto|]. intros z. rewrite C2. cbn. intuition. }
        eapply Permutation_NoDup; [apply Permutation_map, P3|exact ND]. }
      cbn in P |- *. destruct p; exact P.
    + apply (FIN [x; y] cs); [exists d; split; auto; now left|]. intros z Z. apply C2 in Z. cbn. intuition.
  - apply in_flat_map in H as [i [H1 H2]]. destruct (nth i (b_cls s) None) as [d|] eqn:C; [|destruct H2]. destruct H2 as [<-|[]].
    destruct (proj1 (proj2 (proj1 (proj2 I) p) i) H1) as [d' [C' [b B]]]. unfold cl in C'. rewrite C in C'. injection C' as <-.
    destruct (k_rep _ _ _ _ K i d C) as [W [d0 [E1 SB]]]. rewrite B, neg_neg. split.
    + pose proof (others_nd d b W) as X. cbn in X |- *. destruct (head d b). exact X.
    + intros a GA. assert (X := FIN (others d (head d b)) (clits d)). rewrite B, neg_neg in X. apply X; auto.
      * exists d0. split; auto. right. eapply nth_error_In; eauto.
      * intros q Q. destruct (lit_eq_dec q (head d b)); auto. right. apply (others_in d b q W). auto.
Qed.

(** Conflicts *)
Lemma conf_facts : b_conf s <> None -> 0 < b_dl s -> exists c0, inDb D c0 /\ violated (b_trail s) c0 /\
  (forall q, In q (conflictLits s) -> q = lit_true \/ tTrue (b_trail s) q) /\ (forall q, In q c0 -> In (neg q) (conflictLits s) \/ zf (b_trail s) q).
Proof.
  intros C L. destruct (b_conf s) as [[p w]|] eqn:CE; [|congruence]. destruct (k_conf _ _ _ _ K p w CE) as [X|[_ [[_ X]|[T [J LK]]]]].
  - exfalso. subst w. exact (sh_conf s SH p CE).
  - lia.
  - assert (PL : plain w). { split; [intros ->; exact J|intros ->; exact (sh_conf s SH p CE)]. }
    assert (exists r, reasonOf s p w = Some r) as [r R].
    { destruct w; cbn; eauto; [destruct PL; congruence|destruct PL; congruence|]. cbn in J. destruct J as [c0 [J _]]. destruct (k_rep2 _ _ _ _ K i c0 J) as [c Y]. change (nth i (b_cls s) None) with (cl s i). rewrite Y. eauto. }
    destruct (reason_clause (b_trail s) p w (b_dl s) r) as [c0 [A1 [A2 [A3 [A4 A5]]]]]; auto.
    assert (CL : conflictLits s = neg p :: r) by (unfold conflictLits; rewrite CE, R; reflexivity). rewrite CL. exists c0. sp; auto.
    + intros q Q. destruct (lit_eq_dec q p) as [-> |N]; auto. eapply tr_true; eauto.
    + intros q [<-|Q]; [now right|]. destruct (A3 q Q) as [X|X]; auto. right. eapply tr_true; eauto.
    + intros q Q. destruct (A4 q Q) as [->|[X|X]]; [left; now left|left; now right|now right].
Qed.
Lemma tt_trail : forall q, tTrue (b_trail s) q -> In q (v_trail E).
Proof. intros q [e [A <-]]. cbn. apply in_map; auto. Qed.
Lemma conf_valid : b_conf s <> None -> 0 < b_dl s -> forall a, GM a -> exists q, In q (conflictLits s) /\ holds a q = false.
Proof.
  intros C L a GA. destruct (conf_facts C L) as [c0 [A1 [A2 [A3 A4]]]]. pose proof (proj2 GA c0 A1) as S. apply existsb_exists in S as [x [X1 X2]].
  destruct (A4 x X1) as [X|X]; [exists (neg x); split; auto; rewrite holds_neg, X2; reflexivity|]. apply (gm_zf a x GA) in X. congruence.
Qed.
Lemma bridge_conflict : forall o, b_conf s <> None -> b_root s < b_dl s -> conflict GM E o (conflictLits s) (flagsOf s).
Proof.
  intros o C L. constructor; [apply bridge_trail|apply bridge_flags| |rewrite dl_of; exact L|intros _; apply bridge_arcs].
  destruct (conf_facts C ltac:(lia)) as [c0 [A1 [A2 [A3 A4]]]]. constructor.
  - rewrite dl_of. lia.
  - intros q Q. destruct (A3 q Q) as [X|X]; auto. right. apply tt_trail; auto.
  - apply conf_valid; auto. lia.
  - assert (LT : Nat.max (b_dl s - 1) (b_root s) < b_dl s) by lia.
    pose proof (undo_inv n s D G (b_dl s - 1) I) as I'. rewrite undo_max in I'. rewrite (undo_eq n s D G (Nat.max (b_dl s - 1) (b_root s)) K ltac:(lia) LT) in I'.
    pose proof (quiet_of n _ D G I' eq_refl eq_refl c0 A1) as Q. cbn [b_trail] in Q. set (m := Nat.max (b_dl s - 1) (b_root s)) in *.
    assert (KEPT : forall q, In q c0 -> ~ tFalse (kept m (b_trail s)) q -> exists e, In e (b_trail s) /\ e_lit e = neg q /\ e_lev e = b_dl s /\ ~ zf (b_trail s) q).
    { intros q X NF. destruct (A2 q X) as [e [E1 E2]]. assert (GT : m < e_lev e).
      { destruct (Nat.le_gt_cases (e_lev e) m); auto. exfalso. apply NF. exists e. split; auto. apply filter_In. split; auto. now apply Nat.leb_le. }
      pose proof (k_lv _ _ _ _ K e E1). exists e. sp; auto; [lia|]. intros [x [X1 [X2 X3]]]. pose proof (k_log _ _ _ _ K x X1) as KL.
      assert (x = e) by (apply (nd_ent (b_trail s)); auto; [apply (k_nd _ _ _ _ K)|unfold litOf; congruence]). subst x. lia. }
    assert (exists q, In q c0 /\ ~ tFalse (kept m (b_trail s)) q) as [q [Q1 Q2]].
    { destruct Q as [[q [Q1 [e [Q2 Q3]]]]|[q [q' [Q1 [_ [_ [[_ Q2] _]]]]]]]; [|eauto]. exfalso. apply filter_In in Q2 as [Q2 _].
      apply (tt_ff (b_trail s) q (k_nd _ _ _ _ K)); [exists e; auto|apply A2; auto]. }
    destruct (KEPT q Q1 Q2) as [e [E1 [E2 [E3 E4]]]]. destruct (A4 q Q1) as [X|X]; [|contradiction]. exists (neg q). sp; auto.
    + rewrite <- E2. cbn. apply in_map. auto.
    + rewrite <- E2, lv_of, dl_of; auto.
  - intros p H1 H2 H3. destruct (ent_of p H1) as [e [X1 [<- _]]]. rewrite <- H2. apply bridge_flips; auto. rewrite H2, dl_of. lia.
Qed.
End Bridge.
