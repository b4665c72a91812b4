(** Proofs about PBBuilder, second part: the solver's constraints. *)
From Coq Require Import List Bool Arith ZArith Lia.
From Verif Require Import Base WcModel WcSpec WcProofs WcThms SbModel SbSpec SbProofs SbProofs2 PbModel PbSpec PbProofs.
Import ListNotations.

Section Pb.
Variable prop : list created -> list lit -> list lit * bool.
Hypothesis SP : soundProp prop.

Record W (x : pb) : Prop := {
  w_zero : forall a, satDb a (p_db x) -> a 0 = true;
  w_tr : forall l, In l (p_tr x) -> forall a, satDb a (p_db x) -> holds a l = true;
  w_ok : p_ok x = false -> forall a, ~ satDb a (p_db x);
  w_idx : forall k l, In (k, l) (p_idx x) -> forall a, satDb a (p_db x) -> holds a l = forallb (holds a) k;
  w_low : forall k l, In (k, l) (p_idx x) -> fst l < p_aux x;
  w_pos : 0 < p_aux x }.
Lemma w_ext : forall x a, W x -> satDb a (p_db x) -> extends a (topOf (p_tr x)).
Proof. intros x a H A. apply top_ext; [now apply (w_zero x H)|intros l L; now apply (w_tr x H)]. Qed.
Lemma top0 : forall tr, topOf tr 0 = Some true. Proof. reflexivity. Qed.
Lemma padd_db : forall x cs, p_db (padd prop x cs) = cs ++ p_db x /\ p_idx (padd prop x cs) = p_idx x /\ p_aux (padd prop x cs) = p_aux x /\ p_max (padd prop x cs) = p_max x /\ p_min (padd prop x cs) = p_min x.
Proof. intros x cs. unfold padd. destruct (prop (cs ++ p_db x) (p_tr x)) as [tr ok]. auto. Qed.
(** adding constraints to a state whose index is sound for the new constraints *)
Lemma padd_W : forall x cs, (forall a, satDb a (cs ++ p_db x) -> a 0 = true) -> (forall l, In l (p_tr x) -> forall a, satDb a (p_db x) -> holds a l = true) ->
  (forall k l, In (k, l) (p_idx x) -> forall a, satDb a (cs ++ p_db x) -> holds a l = forallb (holds a) k) -> (forall k l, In (k, l) (p_idx x) -> fst l < p_aux x) -> 0 < p_aux x -> W (padd prop x cs).
Proof.
  intros x cs H1 H2 H3 H4 H5. unfold padd. destruct (SP (cs ++ p_db x) (p_tr x)) as [ext [E1 [E2 E3]]]. { intros l L a A. apply satDb_app in A as [_ A]. auto. }
  destruct (prop (cs ++ p_db x) (p_tr x)) as [tr ok]. cbn [fst snd] in *. subst tr. constructor; cbn [p_db p_tr p_ok p_idx p_aux]; auto.
Qed.
Lemma W_add : forall x cs, W x -> W (padd prop x cs).
Proof. intros x cs [H1 H2 H3 H4 H5 H6]. apply padd_W; auto; intros; [|eapply H4; eauto]; try (apply satDb_app in H as [_ H]; auto). apply satDb_app in H0 as [_ H0]. auto. Qed.
Lemma W_aux : forall x v y, W x -> getAux x = Ok (v, y) -> W y /\ p_db y = p_db x /\ p_tr y = p_tr x /\ p_ok y = p_ok x /\ p_idx y = p_idx x /\ p_min y = p_min x /\ v = p_aux x /\ p_aux y = S v /\ v <= p_max x /\ p_max y = p_max x.
Proof.
  intros x v y [H1 H2 H3 H4 H5 H6] E. unfold getAux in E. destruct (Nat.leb_spec (p_aux x) (p_max x)); [|discriminate]. injection E as <- <-. cbn. sp; auto; try lia. constructor; cbn; auto. intros k l L. apply H5 in L. lia.
Qed.
Lemma W_min : forall x l, W x -> W (pmin x l). Proof. intros x l [H1 H2 H3 H4 H5 H6]. constructor; auto. Qed.
Lemma prod_clauses : forall a v k, satDb a (productClauses (v, false) k) <-> holds a (v, false) = forallb (holds a) k.
Proof.
  intros a v k. unfold productClauses, satDb. assert (D : den a (CClauses (map (fun l => [neg (v, false); l]) k ++ [map neg k ++ [(v, false)]])) <-> holds a (v, false) = forallb (holds a) k).
  { cbn [den]. unfold sat_cnf. rewrite forallb_app. rewrite andb_true_iff.
    assert (X1 : forallb (sat_clause a) (map (fun l => [neg (v, false); l]) k) = negb (holds a (v, false)) || forallb (holds a) k).
    { induction k as [|l k IH]; cbn [map forallb]; [now rewrite orb_true_r|]. rewrite IH. unfold sat_clause. cbn [existsb]. rewrite holds_neg'. destruct (holds a (v, false)), (holds a l); reflexivity. }
    assert (X2 : forallb (sat_clause a) [map neg k ++ [(v, false)]] = negb (forallb (holds a) k) || holds a (v, false)).
    { cbn [forallb]. rewrite andb_true_r. unfold sat_clause. rewrite existsb_app. cbn [existsb]. rewrite orb_false_r. f_equal. clear. induction k as [|l k IH]; cbn; auto. rewrite IH, holds_neg'. destruct (holds a l); reflexivity. }
    split.
    - intros [B1 B2]. pose proof (eq_trans (eq_sym X1) B1) as C1. pose proof (eq_trans (eq_sym X2) B2) as C2. destruct (holds a (v, false)), (forallb (holds a) k); cbn in C1, C2; congruence.
    - intros B. split; [refine (eq_trans X1 _)|refine (eq_trans X2 _)]; rewrite B; now destruct (forallb (holds a) k). }
  rewrite <- D. split; [intros H; apply H; now left|intros H c [<- |[]]; auto].
Qed.
Lemma lits_eqb_eq : forall l m, lits_eqb l m = true <-> l = m.
Proof. induction l as [|x l IH]; intros [|y m]; cbn; try (split; congruence). rewrite andb_true_iff, lit_eqb_eq, IH. split; [intros [-> ->]; auto|intros E; injection E; auto]. Qed.
Lemma lookup_in : forall idx k l, lookup idx k = Some l -> In (k, l) idx.
Proof. intros idx k l E. unfold lookup in E. destruct (find _ idx) as [[k' l']|] eqn:F in E; [|discriminate]. cbn in E. injection E as <-. apply find_some in F as [F1 F2]. cbn in F2. apply lits_eqb_eq in F2. now subst. Qed.
Lemma lookup_none : forall idx k l, lookup idx k = None -> ~ In (k, l) idx.
Proof. intros idx k l E I. unfold lookup in E. destruct (find _ idx) as [[k' l']|] eqn:F in E; [discriminate|]. eapply find_none in F; eauto. cbn in F. rewrite <- not_true_iff_false in F. apply F. now apply lits_eqb_eq. Qed.

(** Products *)
Lemma prod_step : forall x lits l y, W x -> addProduct prop x lits = Ok (l, y) ->
  W y /\ p_aux x <= p_aux y /\ p_min y = p_min x /\ p_max y = p_max x /\ (exists cs, p_db y = cs ++ p_db x) /\ (p_ok x = true -> (fst l = 0 \/ In l lits \/ fst l < p_aux y)) /\
  (forall a, satDb a (p_db y) <-> satDb a (p_db x) /\ holds a l = forallb (holds a) lits) /\
  (y = x \/ (l = (p_aux x, false) /\ p_aux y = S (p_aux x) /\ p_aux x <= p_max x)).
Proof.
  intros x lits l y WX E. unfold addProduct in E. destruct (p_ok x) eqn:OK; cbn [negb] in E.
  2:{ injection E as <- <-. sp; auto; try discriminate; [exists []; auto|]. intros a. split; [intros A|tauto]. exfalso. eapply w_ok; eauto. }
  destruct (productSubsumed 2 (topOf (p_tr x)) lits) as [r| |] eqn:PS; [|discriminate..]. cbn [bind] in E. apply psub_ok in PS; [|apply top0].
  assert (SEM : forall a, satDb a (p_db x) -> forallb (holds a) lits = match r with Subsumed l => holds a l | Product k => forallb (holds a) k end).
  { intros a A. eapply psub_sem; eauto; [now apply (w_zero x WX)|now apply w_ext]. }
  destruct r as [l0|k].
  - injection E as <- <-. sp; auto; [exists []; auto| |].
    + intros _. destruct PS as [[[Q _]|[k [K1 [K2 [K3 K4]]]]]]; [injection Q as ->; auto|]. destruct k as [|q [|q2 k]]; try discriminate; injection K4 as ->; auto. right; left. apply K2. now left.
    + intros a. split; [intros A; split; auto; symmetry; now apply SEM|tauto].
  - destruct (lookup (p_idx x) k) as [l0|] eqn:LK.
    + injection E as <- <-. apply lookup_in in LK. sp; auto; [exists []; auto| |].
      * intros _. right; right. eapply w_low; eauto.
      * intros a. split; [intros A; split; auto; rewrite SEM; auto; eapply w_idx; eauto|tauto].
    + destruct (getAux x) as [[v x1]| |] eqn:GA; [|discriminate..]. cbn [bind] in E. injection E as <- <-. destruct (W_aux x v x1 WX GA) as [W1 [D1 [T1 [O1 [I1 [M1 [V1 [A1 [V2 X1]]]]]]]]].
      destruct (padd_db (remember x1 k (v, false)) (productClauses (v, false) k)) as [P1 [P2 [P3 [P4 P5]]]]. cbn [remember p_db p_idx p_aux p_max p_min] in P1, P2, P3, P4, P5.
      assert (DB : forall a, satDb a (p_db (padd prop (remember x1 k (v, false)) (productClauses (v, false) k))) <-> satDb a (p_db x) /\ holds a (v, false) = forallb (holds a) k). { intros a. rewrite P1, satDb_app, prod_clauses, D1. tauto. }
      sp.
      * apply padd_W; cbn [remember p_db p_idx p_aux p_tr].
        -- intros a A. apply satDb_app in A as [_ A]. now apply (w_zero x1 W1).
        -- apply W1.
        -- intros k' l' [Q|Q] a A; apply satDb_app in A as [A' A]; [injection Q as <- <-; now apply prod_clauses|eapply w_idx; eauto].
        -- intros k' l' [Q|Q]; [injection Q as <- <-; cbn; lia|eapply w_low; eauto].
        -- lia.
      * rewrite P3. lia.
      * congruence.
      * congruence.
      * exists (productClauses (v, false) k). congruence.
      * intros _. right; right. rewrite P3. cbn. lia.
      * intros a. rewrite DB. split; intros [A B]; split; auto; [rewrite SEM; auto|rewrite SEM in B; auto].
      * right. subst v. sp; auto. congruence.
Qed.
Lemma create_step : forall x V lits bound y, W x -> PbModel.create prop x V lits bound false = Ok y ->
  W y /\ p_aux y = p_aux x /\ p_min y = p_min x /\ p_max y = p_max x /\ p_idx y = p_idx x /\ forall a, satDb a (p_db y) <-> satDb a (p_db x) /\ holds a V = (bound <=? wsum a lits)%Z.
Proof.
  intros x V lits bound y WX E. unfold PbModel.create in E. destruct (wc_create (topOf (p_tr x)) V lits bound false (WFlags false false)) as [[f cs]| |] eqn:WC; [|discriminate..]. cbn [bind] in E. injection E as <-.
  destruct (padd_db x (map (fun l => CClauses [[l]]) f ++ cs)) as [P1 [P2 [P3 [P4 P5]]]]. sp; auto; [now apply W_add|]. intros a. rewrite P1, satDb_app.
  split; intros [A B].
  - split; auto. apply (c09_ge_meaning _ _ _ _ _ _ _ WC a (w_ext x a WX B)). apply satDb_app in A as [A1 A2]. split; [|exact A2]. intros q Q. assert (T : satDb a [CClauses [[q]]]) by (intros d [<- |[]]; apply A1; apply in_map_iff; eauto). apply satDb_clause in T. cbn in T. now rewrite orb_false_r in T.
  - split; auto. apply (c09_ge_meaning _ _ _ _ _ _ _ WC a (w_ext x a WX A)) in B as [B1 B2]. apply satDb_app. split; [|exact B2]. intros d D. apply in_map_iff in D as [q [<- Q]]. cbn. now rewrite (B1 q Q).
Qed.
(** creation with any flags only adds constraints *)
Lemma create_W : forall x V lits bound eq y, W x -> PbModel.create prop x V lits bound eq = Ok y -> W y /\ p_aux y = p_aux x /\ p_idx y = p_idx x /\ p_max y = p_max x /\ exists cs, p_db y = cs ++ p_db x.
Proof.
  intros x V lits bound eq y WX E. unfold PbModel.create in E. destruct (wc_create _ V lits bound eq _) as [[f cs]| |]; [|discriminate..]. cbn [bind] in E. injection E as <-.
  destruct (padd_db x (map (fun l => CClauses [[l]]) f ++ cs)) as [P1 [P2 [P3 [P4 P5]]]]. sp; auto; [now apply W_add|eauto].
Qed.
Lemma step_W : forall x o l y, W x -> pstep prop x o = Ok (l, y) ->
  W y /\ p_aux x <= p_aux y /\ p_max y = p_max x /\ (exists cs, p_db y = cs ++ p_db x) /\ (forall k q, lookup (p_idx x) k = Some q -> lookup (p_idx y) k = Some q) /\
  forall lits, o = PProd lits -> forall a, satDb a (p_db y) -> holds a l = forallb (holds a) lits.
Proof.
  intros x o l y WX E. destruct o as [lits|lits b eq cw|lits]; cbn [pstep] in E.
  - destruct (prod_step x lits l y WX E) as [A1 [A2 [_ [A3 [A4 [_ [A5 A6]]]]]]]. sp; auto; [|intros ls Q a A; injection Q as <-; now apply A5].
    intros k q L. unfold addProduct in E. destruct (negb (p_ok x)); [now injection E as <- <-|]. destruct (productSubsumed 2 (topOf (p_tr x)) lits) as [[l0|k0]| |]; try discriminate; cbn [bind] in E; [now injection E as <- <-|].
    destruct (lookup (p_idx x) k0) as [l0|] eqn:LK; [now injection E as <- <-|]. destruct (getAux x) as [[v x1]| |] eqn:GA; [|discriminate..]. cbn [bind] in E. injection E as <- <-.
    destruct (W_aux x v x1 WX GA) as [_ [_ [_ [_ [I1 _]]]]]. destruct (padd_db (remember x1 k0 (v, false)) (productClauses (v, false) k0)) as [_ [P2 _]]. rewrite P2. cbn [remember p_idx]. rewrite I1. unfold lookup. cbn [find fst]. destruct (lits_eqb k0 k) eqn:Q; [|exact L]. apply lits_eqb_eq in Q. subst k0. congruence.
  - unfold paddConstraint in E. destruct (negb (p_ok x)); [injection E as <- <-; sp; auto; [exists []; auto|discriminate]|]. destruct (0 <? cw)%Z.
    + assert (GEN : (do '(v, x) <- getAux x; do x <- PbModel.create prop (pmin x [((v, true), cw)]) (v, false) lits b eq; Ok ((v, false), x)) = Ok (l, y) -> W y /\ p_aux x <= p_aux y /\ p_max y = p_max x /\ (exists cs, p_db y = cs ++ p_db x) /\ p_idx y = p_idx x).
      { clear E. intros E. destruct (getAux x) as [[v x1]| |] eqn:GA; [|discriminate..]. cbn [bind] in E. destruct (W_aux x v x1 WX GA) as [W1 [D1 [T1 [O1 [I1 [M1 [V1 [A1 [V2 X1]]]]]]]]].
        destruct (PbModel.create prop (pmin x1 [((v, true), cw)]) (v, false) lits b eq) as [z| |] eqn:C; [|discriminate..]. cbn [bind] in E. injection E as <- <-. apply create_W in C; [|now apply W_min]. destruct C as [C1 [C2 [C3 [C4 [cs C5]]]]]. cbn [pmin p_aux p_idx p_max p_db] in *. sp; auto; [lia|congruence|exists cs; congruence|congruence]. }
      destruct lits as [|[l0 w] [|e2 lits]].
      * destruct (GEN E) as [G1 [G2 [G3 [G4 G5]]]]. rewrite G5. sp; auto. discriminate.
      * destruct (if (w <? 0)%Z then _ else _) as [[[l1 w1] b1]| |] in E; [|discriminate..]. cbn [bind] in E. injection E as <- <-. cbn. sp; auto; [now apply W_min|exists []; auto|discriminate].
      * destruct (GEN E) as [G1 [G2 [G3 [G4 G5]]]]. rewrite G5. sp; auto. discriminate.
    + destruct (PbModel.create prop x (0, false) lits b eq) as [z| |] eqn:C; [|discriminate..]. cbn [bind] in E. injection E as <- <-. apply create_W in C; auto. destruct C as [C1 [C2 [C3 [C4 C5]]]]. rewrite C2, C3. sp; auto. discriminate.
  - injection E as <- <-. cbn. sp; auto; [now apply W_min|exists []; auto|discriminate].
Qed.
(** Calls without equalities: exact meaning *)
Lemma step_exact : forall x o l y, W x -> plain o -> pstep prop x o = Ok (l, y) ->
  (forall a, satDb a (p_db y) <-> satDb a (p_db x) /\ evOk a (o, l)) /\ (forall a, satDb a (p_db y) -> wsum a (p_min y) = (wsum a (p_min x) + evCost a (o, l))%Z) /\
  (p_ok x = true -> In (fst l) (opVars o) \/ fst l < p_aux y) /\ ((l = (p_aux x, false) /\ p_aux y = S (p_aux x) /\ p_aux x <= p_max x) \/ p_aux y = p_aux x) /\
  (p_aux y = p_aux x -> isHard (o, l) = false -> forall a, satDb a (p_db x) -> satDb a (p_db y)).
Proof.
  intros x o l y WX PL E. destruct o as [lits|lits b eq cw|lits]; cbn [pstep] in E.
  - destruct (prod_step x lits l y WX E) as [A1 [A2 [A3 [A4 [A5 [A6 [A7 A8]]]]]]]. sp.
    + exact A7.
    + intros a A. rewrite A3. cbn. lia.
    + intros OK. destruct (A6 OK) as [Q|[Q|Q]]; auto; [right; pose proof (w_pos y A1); lia|left; cbn; now apply in_map].
    + destruct A8 as [-> |A8]; auto.
    + intros Q _ a A. destruct A8 as [-> |[_ [A8 _]]]; auto. lia.
  - unfold paddConstraint in E. destruct (p_ok x) eqn:OK; cbn [negb] in E.
    2:{ injection E as <- <-. assert (N : forall a, ~ satDb a (p_db x)) by (apply (w_ok x WX OK)). sp; auto; try discriminate; [intros a; split; [intros A; destruct (N a A)|tauto]|intros a A; destruct (N a A)]. }
    destruct (0 <? cw)%Z eqn:CW.
    + assert (GEN : eq = false -> (do '(v, x) <- getAux x; do x <- PbModel.create prop (pmin x [((v, true), cw)]) (v, false) lits b eq; Ok ((v, false), x)) = Ok (l, y) ->
        (forall a, satDb a (p_db y) <-> satDb a (p_db x) /\ evOk a (PCon lits b eq cw, l)) /\ (forall a, satDb a (p_db y) -> wsum a (p_min y) = (wsum a (p_min x) + evCost a (PCon lits b eq cw, l))%Z) /\
        l = (p_aux x, false) /\ p_aux y = S (p_aux x) /\ p_aux x <= p_max x).
      { clear E. intros -> E. destruct (getAux x) as [[v x1]| |] eqn:GA; [|discriminate..]. cbn [bind] in E. destruct (W_aux x v x1 WX GA) as [W1 [D1 [T1 [O1 [I1 [M1 [V1 [A1 [V2 X1]]]]]]]]].
        destruct (PbModel.create prop (pmin x1 [((v, true), cw)]) (v, false) lits b false) as [z| |] eqn:C; [|discriminate..]. cbn [bind] in E. injection E as <- <-. apply create_step in C; [|now apply W_min]. destruct C as [C1 [C2 [C3 [C4 [C5 C6]]]]]. cbn [pmin p_aux p_idx p_max p_db p_min] in *.
        assert (DB : forall a, satDb a (p_db z) <-> satDb a (p_db x) /\ evOk a (PCon lits b false cw, (v, false))). { intros a. rewrite C6, D1. unfold evOk. cbn [fst snd]. rewrite CW. reflexivity. }
        sp; auto; try congruence. intros a A. rewrite C3, wsum_app, M1. f_equal. apply DB in A as [_ A]. unfold evOk in A. cbn [fst snd] in A. rewrite CW in A. unfold evCost. cbn [fst snd]. rewrite CW. cbn [andb]. rewrite <- A. cbn [wsum]. unfold holds. cbn [fst snd]. destruct (a v); cbn; lia. }
      assert (FIN : eq = false -> (do '(v, x) <- getAux x; do x <- PbModel.create prop (pmin x [((v, true), cw)]) (v, false) lits b eq; Ok ((v, false), x)) = Ok (l, y) ->
        (forall a, satDb a (p_db y) <-> satDb a (p_db x) /\ evOk a (PCon lits b eq cw, l)) /\ (forall a, satDb a (p_db y) -> wsum a (p_min y) = (wsum a (p_min x) + evCost a (PCon lits b eq cw, l))%Z) /\
        (true = true -> In (fst l) (opVars (PCon lits b eq cw)) \/ fst l < p_aux y) /\ ((l = (p_aux x, false) /\ p_aux y = S (p_aux x) /\ p_aux x <= p_max x) \/ p_aux y = p_aux x) /\ (p_aux y = p_aux x -> isHard (PCon lits b eq cw, l) = false -> forall a, satDb a (p_db x) -> satDb a (p_db y))).
      { intros Q1 Q2. destruct (GEN Q1 Q2) as [G1 [G2 [G3 [G4 G5]]]]. sp; auto; [intros _; right; rewrite G3; cbn; lia|lia]. }
      destruct lits as [|[l0 w] [|e2 lits]]; [apply FIN; auto| |apply FIN; auto]. clear GEN FIN. destruct PL as [-> PL]. specialize (PL (proj1 (Z.ltb_lt _ _) CW)).
      destruct (if (w <? 0)%Z then _ else _) as [[[l1 w1] b1]| |] eqn:NRM in E; [|discriminate..]. cbn [bind] in E. injection E as <- <-. cbn [pmin p_db p_min p_aux].
      set (q := if (w1 <? b1)%Z then (0, true) else l1).
      assert (HQ : forall a, a 0 = true -> holds a q = (b <=? wsum a [(l0, w)])%Z).
      { intros a Z0. cbn [wsum]. unfold q. destruct (Z.ltb_spec w 0) as [WN|WN].
        - unfold i32 in NRM. destruct ((int_min <=? - w)%Z && (- w <=? int_max)%Z); [|discriminate]. cbn [bind] in NRM. destruct (_ && _)%bool in NRM; [|discriminate]. injection NRM as <- <- <-.
          destruct (Z.ltb_spec (- w) (b + - w)) as [B|B]; [unfold holds at 1; cbn; rewrite Z0; cbn; symmetry; apply Z.leb_gt; destruct (holds a l0); lia|]. rewrite holds_neg'. destruct (holds a l0); cbn; symmetry; [apply Z.leb_gt|apply Z.leb_le]; lia.
        - injection NRM as <- <- <-. destruct (Z.ltb_spec w b) as [B|B]; [unfold holds at 1; cbn; rewrite Z0; cbn; symmetry; apply Z.leb_gt; destruct (holds a l0); lia|]. destruct (holds a l0); symmetry; [apply Z.leb_le|apply Z.leb_gt]; lia. }
      assert (FQ : fst q = 0 \/ fst q = fst l0). { unfold q. destruct (w1 <? b1)%Z; auto. right. destruct (w <? 0)%Z; [|now injection NRM as <- <- <-]. unfold i32 in NRM. destruct ((int_min <=? - w)%Z && (- w <=? int_max)%Z); [|discriminate]. cbn [bind] in NRM. destruct (_ && _)%bool in NRM; [|discriminate]. injection NRM as <- <- <-. reflexivity. }
      sp; auto.
      * intros a. split; [intros A; split; auto|tauto]. unfold evOk. cbn [fst snd]. rewrite CW. cbn [conHolds]. apply HQ. now apply (w_zero x WX).
      * intros a A. rewrite wsum_app. f_equal. unfold evCost. cbn [fst snd]. rewrite CW. cbn [andb conHolds]. rewrite <- HQ by now apply (w_zero x WX). cbn [wsum]. rewrite holds_neg'. destruct (holds a q); cbn; lia.
      * intros _. cbn [opVars map fst]. destruct FQ as [-> | ->]; [right; apply (w_pos x WX)|left; now left].
    + destruct (PbModel.create prop x (0, false) lits b eq) as [z| |] eqn:C; [|discriminate..]. cbn [bind] in E. injection E as <- <-. assert (eq = false) by (cbn in PL; destruct lits as [|[] [|]]; tauto). subst eq. apply create_step in C; auto. destruct C as [C1 [C2 [C3 [C4 [C5 C6]]]]]. sp; auto.
      * intros a. rewrite C6. unfold evOk. cbn [fst snd conHolds]. rewrite CW. unfold holds. cbn [fst snd]. rewrite xorb_false_r. split; intros [A B]; split; auto; rewrite (w_zero x WX a A) in *; auto.
      * intros a A. rewrite C3. unfold evCost. cbn [fst snd]. rewrite CW. cbn. lia.
      * intros _. right. cbn. rewrite C2. apply (w_pos x WX).
      * intros _ H. cbn in H. rewrite CW in H. discriminate.
  - injection E as <- <-. cbn [pmin p_db p_min p_aux]. sp; auto.
    + intros a. cbn. tauto.
    + intros a A. rewrite wsum_app. reflexivity.
    + intros _. right. cbn. apply (w_pos x WX).
Qed.
Lemma pinit_W : forall n m, W (pinit n m).
Proof. intros n m. constructor; cbn; try (intros; contradiction); try discriminate; try lia. intros a A. apply satDb_clause in A. cbn in A. unfold holds in A. cbn in A. now rewrite orb_false_r, xorb_false_r in A. Qed.
Lemma steps_W : forall ops x evs y, W x -> psteps prop x ops = Ok (evs, y) -> W y /\ p_aux x <= p_aux y /\ p_max y = p_max x /\ (forall a, satDb a (p_db y) -> satDb a (p_db x)) /\ map fst evs = ops /\
  (forall a lits l, satDb a (p_db y) -> In (PProd lits, l) evs -> holds a l = forallb (holds a) lits).
Proof.
  induction ops as [|o ops IH]; intros x evs y WX E; cbn in E; [injection E as <- <-; sp; auto; intros a lits l _ []|].
  destruct (pstep prop x o) as [[l z]| |] eqn:S; [|discriminate..]. cbn [bind] in E. destruct (psteps prop z ops) as [[evs' y']| |] eqn:S2; [|discriminate..]. cbn [bind] in E. injection E as <- <-.
  destruct (step_W x o l z WX S) as [W1 [A1 [M1 [[cs D1] [_ P1]]]]]. destruct (IH z evs' y' W1 S2) as [W2 [A2 [M2 [D2 [F2 P2]]]]]. sp; auto; [lia|congruence| |cbn; congruence|].
  - intros a A. apply D2 in A. rewrite D1 in A. now apply satDb_app in A.
  - intros a lits q A [Q|Q]; [injection Q as Q1 Q2; subst o q; eapply P1; eauto|eapply P2; eauto].
Qed.
Lemma steps_exact : forall ops x evs y, W x -> Forall plain ops -> psteps prop x ops = Ok (evs, y) ->
  (forall a, satDb a (p_db y) <-> satDb a (p_db x) /\ forall e, In e evs -> evOk a e) /\ (forall a, satDb a (p_db y) -> wsum a (p_min y) = (wsum a (p_min x) + evsCost a evs)%Z).
Proof.
  induction ops as [|o ops IH]; intros x evs y WX PL E; cbn in E; [injection E as <- <-; split; [intros a; split; [intros A; split; auto; intros e []|tauto]|intros; cbn; lia]|].
  destruct (pstep prop x o) as [[l z]| |] eqn:S; [|discriminate..]. cbn [bind] in E. destruct (psteps prop z ops) as [[evs' y']| |] eqn:S2; [|discriminate..]. cbn [bind] in E. injection E as <- <-. inversion PL as [|? ? P1 P2]; subst.
  destruct (step_W x o l z WX S) as [W1 _]. destruct (step_exact x o l z WX P1 S) as [E1 [E2 _]]. destruct (IH z evs' y' W1 P2 S2) as [F1 F2]. split.
  - intros a. rewrite F1, E1. split; [intros [[A B] C]; split; auto; intros e [<- |Q]; auto|intros [A B]; sp; auto; [apply B; now left|intros e Q; apply B; now right]].
  - intros a A. rewrite (F2 a A). apply F1 in A as [A _]. rewrite (E2 a A). cbn [evsCost]. lia.
Qed.
Lemma close_ok : forall k x, W x -> W (closeAux prop k x) /\ p_min (closeAux prop k x) = p_min x /\ (k = S (p_max x) - p_aux x -> forall a, satDb a (p_db (closeAux prop k x)) <-> satDb a (p_db x) /\ forall v, p_aux x <= v <= p_max x -> a v = false).
Proof.
  induction k as [|k IH]; intros x WX; cbn [closeAux].
  - sp; auto. intros Q a. split; [intros A; split; auto; intros; lia|tauto].
  - destruct (getAux x) as [[v y]| |] eqn:GA.
    + destruct (W_aux x v y WX GA) as [W1 [D1 [T1 [O1 [I1 [M1 [V1 [A1 [V2 X1]]]]]]]]]. pose proof (W_add y [CClauses [[(v, true)]]] W1) as W2. destruct (padd_db y [CClauses [[(v, true)]]]) as [P1 [P2 [P3 [P4 P5]]]]. set (z := padd prop y [CClauses [[(v, true)]]]) in *.
      assert (DZ : forall a, satDb a (p_db z) <-> satDb a (p_db x) /\ a v = false). { intros a. rewrite P1, satDb_app, satDb_clause, D1. cbn. unfold holds. cbn. rewrite orb_false_r, xorb_true_r. destruct (a v); cbn; intuition discriminate. }
      destruct (p_ok z) eqn:OZ.
      * destruct (IH z W2) as [B1 [B2 B3]]. sp; auto; [congruence|]. intros Q a. assert (QZ : k = S (p_max z) - p_aux z) by lia. rewrite (B3 QZ a), DZ. rewrite P3, P4, A1, X1. split.
        -- intros [[A B] C]. split; auto. intros u U. destruct (Nat.eq_dec u v) as [-> |N]; auto. apply C. lia.
        -- intros [A B]. sp; auto; [apply B; lia|]. intros u U. apply B. lia.
      * sp; auto; [congruence|]. intros Q a. split; [intros A; destruct (w_ok z W2 OZ a A)|]. intros [A B]. apply DZ. split; auto. apply B. lia.
    + sp; auto. unfold getAux in GA. destruct (Nat.leb_spec (p_aux x) (p_max x)); [discriminate|]. intros Q. lia.
    + sp; auto. unfold getAux in GA. destruct (Nat.leb_spec (p_aux x) (p_max x)); [discriminate|]. intros Q. lia.
Qed.
End Pb.
