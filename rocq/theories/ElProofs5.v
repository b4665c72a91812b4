(** Preprocessor: attaching clauses and adding resolvents *)
From Coq Require Import List Bool Arith ZArith NArith Lia Permutation.
Import ListNotations.
From Verif Require Import Base ElModel ElSpec ElProofs ElProofs2 ElProofs3 ElProofs4.

Lemma sat_cons a p (c : list lit) : sat_clause a (p :: c) = holds a p || sat_clause a c.
Proof. reflexivity. Qed.
Definition attF (id : nat) (s : st) (p : lit) : st := unmark (addOcc s (fst p) (id, snd p)) (fst p).
Lemma attF_occ id cl : forall s v,
  s_occ (fold_left (attF id) cl s) v = s_occ s v ++ map (fun p => (id, snd p)) (filter (fun p => fst p =? v) cl).
Proof.
  induction cl as [|p cl IH]; intros s v; cbn [fold_left filter map]; [now rewrite app_nil_r|].
  rewrite IH. cbn. unfold upd. rewrite (Nat.eqb_sym v (fst p)). destruct (fst p =? v) eqn:E; [|reflexivity].
  apply Nat.eqb_eq in E as <-. now rewrite <- app_assoc.
Qed.
Lemma attF_same id cl : forall s, let s' := fold_left (attF id) cl s in
  s_n s' = s_n s /\ s_cls s' = s_cls s /\ s_wat s' = s_wat s /\ s_tr s' = s_tr s /\ s_facts s' = s_facts s
  /\ s_q s' = s_q s /\ s_elim s' = s_elim s /\ s_top s' = s_top s.
Proof.
  induction cl as [|p cl IH]; intros s; cbn [fold_left]; [repeat split|].
  destruct (IH (attF id s p)) as (A1&A2&A3&A4&A5&A6&A7&A8). repeat split; auto.
Qed.
Lemma attF_lm id cl : forall s v,
  (In v (map fst cl) -> s_lm (fold_left (attF id) cl s) v = None)
  /\ (~ In v (map fst cl) -> s_lm (fold_left (attF id) cl s) v = s_lm s v).
Proof.
  induction cl as [|p cl IH]; intros s v; cbn [fold_left map]; [split; [intros []|auto]|].
  destruct (IH (attF id s p) v) as [A B]. split.
  - intros I. destruct (in_dec Nat.eq_dec v (map fst cl)) as [J|J]; [auto|]. rewrite B by auto.
    destruct I as [I|I]; [|tauto]. cbn. subst. apply upd_same.
  - intros N. rewrite B by (intros K; apply N; now right). cbn. apply upd_other. intros ->. apply N. now left.
Qed.
Lemma filter_var (cl : list lit) v : NoDup (map fst cl) ->
  filter (fun p => fst p =? v) cl = [] \/ exists p, filter (fun p => fst p =? v) cl = [p].
Proof.
  induction cl as [|p cl IH]; cbn; [auto|]. intros N. inversion N; subst. destruct (fst p =? v) eqn:E; [|auto].
  right. exists p. f_equal. apply Nat.eqb_eq in E. match goal with |- ?x = _ => destruct x as [|q r] eqn:K end; [auto|].
  exfalso. assert (I : In q (q :: r)) by now left. rewrite <- K in I.
  apply filter_In in I as [I Eq]. apply Nat.eqb_eq in Eq. apply H1. rewrite E, <- Eq. now apply in_map.
Qed.

Section El.
Context (R : asg -> Prop) (fz : nat -> bool) (w : world) (SW : soundWorld R fz w).
Context (Z0 : forall v, fz v = true -> v <> 0).
Notation F := (F R). Notation wf0 := (wf0 fz). Notation wfx := (wfx fz).

Lemma attach_ok X D s id cl s' : lits s id = Some cl -> cl <> [] -> wf0 D (relm D s) ->
  (forall v, ~ In id (s_wat s v)) ->
  (forall v, ~ In v X -> occOk (setC s id None) v (s_occ s v) /\ ~ In id (map fst (s_occ s v))) ->
  (forall v, s_lm s v = lmD D v \/ In v (map fst cl)) -> s_facts s = length D ->
  attach id s = Ok s' ->
  wfx X D s' /\ frame s s' /\ (forall j, lits s' j = lits s j) /\ s_tr s' = s_tr s
  /\ (forall j, j <> id -> fr j s s').
Proof.
  intros El Ne W Nw Ho Hm Ef H. unfold attach in H. apply bind_ok in H as (c & Hc & H). apply deref_ok in Hc as [Hc _].
  pose proof (lits_cls _ _ _ Hc) as El'. rewrite El in El'. injection El' as Ec.
  cbv zeta in H. rewrite <- Ec in H. match type of H with context [fold_left ?f cl s] => change f with (attF id) in H end. pose proof (attF_occ id cl s) as O1. pose proof (attF_lm id cl s) as M1. pose proof (attF_same id cl s) as S1.
  set (s1 := fold_left (attF id) cl s) in *. cbv zeta in S1. set (c2 := Pcl cl _ _ _) in *.
  destruct S1 as (A1&A2&A3&A4&A5&A6&A7&A8).
  apply bind_ok in H as (x & Hx & H). set (s2 := addWatch (setC s1 id (Some c2)) (fst x) id) in *.
  change (addToSubQueue id s2 = Ok s') in H.
  destruct (kat0 _ _ Hx Ne) as [t Ht]. cbn in Ht.
  assert (L2 : forall j, lits s2 j = lits s j).
  { intros j. change (lits s2 j) with (lits (setC s1 id (Some c2)) j). rewrite lits_setC. destruct (j =? id) eqn:E.
    - apply Nat.eqb_eq in E as ->. now rewrite El.
    - unfold lits. now rewrite A2. }
  pose proof (q_nd _ _ _ W id cl El) as Nd.
  assert (W2 : wf0 D s2).
  { destruct W as [Q1 Q2 Q3 Q4 Q5 Q6 Q7 Q8 Q9]. constructor; cbn -[lits]; rewrite ?A1, ?A4, ?A7; auto.
    - intros j y. rewrite L2. apply Q1.
    - intros j y. rewrite L2. apply Q2.
    - intros j y p. rewrite L2. apply Q3.
    - intros j h r v. rewrite L2. intros K. pose proof (Q4 j h r v K) as C. cbn in C. unfold upd. rewrite A3.
      destruct (v =? fst x) eqn:E; [|auto]. apply Nat.eqb_eq in E as ->. rewrite cnt_app. cbn.
      destruct (Nat.eq_dec id j) as [->|Nj]; [|lia]. rewrite K in El. injection El as <-. injection Ht as -> ->.
      rewrite Nat.eqb_refl. assert (cnt (s_wat s (fst x)) j = 0) by (apply count_occ_not_In; auto). lia.
    - intros v. destruct (in_dec Nat.eq_dec v (map fst cl)) as [J|J].
      + rewrite (proj1 (M1 v) J). symmetry. apply lmD_none. apply in_map_iff in J as (p & <- & J). now apply (Q3 id cl p El).
      + rewrite (proj2 (M1 v) J). destruct (Hm v); tauto. }
  assert (O2 : occs X s2).
  { intros v Nv. destruct (Ho v Nv) as ((X1 & X2 & X3) & X4). change (s_occ s2 v) with (s_occ s1 v). rewrite O1.
    assert (Ln : forall j c', j <> id -> lits s j = Some c' -> lits (setC s id None) j = Some c').
    { intros j c' Nj K. rewrite lits_setC. apply Nat.eqb_neq in Nj. now rewrite Nj. }
    split; [|split].
    - intros j c' d. rewrite L2. intros K I. apply in_app_iff. destruct (Nat.eq_dec j id) as [->|Nj].
      + right. rewrite El in K. injection K as <-. apply in_map_iff. exists (v, d). split; [auto|]. apply filter_In. cbn. rewrite Nat.eqb_refl. auto.
      + left. apply (X1 j c'); auto.
    - intros j c' d I. rewrite L2. intros K. apply in_app_iff in I as [I|I].
      + assert (Nj : j <> id). { intros ->. apply X4. apply in_map_iff. now exists (id, d). }
        apply (X2 j c' d); auto.
      + apply in_map_iff in I as (p & Ep & I). injection Ep as <- <-. apply filter_In in I as [I Ev]. apply Nat.eqb_eq in Ev.
        rewrite El in K. injection K as <-. rewrite <- Ev. now destruct p.
    - rewrite map_app. destruct (filter_var cl v Nd) as [K|[p K]]; rewrite K; cbn; [now rewrite app_nil_r|]. now apply NoDup_snoc. }
  assert (Fr2 : frame s s2).
  { constructor; cbn; auto. exists []. now rewrite A4, app_nil_r. }
  pose proof H as H0. apply (addToSubQueue_ok fz D) in H as (L3 & O3 & Ef3 & T3 & Fr3 & Wa3 & Lm3 & W3).
  split; [split; [auto|split]|].
  - eapply occs_lsub; [|exact O3|exact O2]. intros j y. now rewrite L3.
  - rewrite Ef3. change (s_facts s2) with (s_facts s1). congruence.
  - split; [eapply frame_trans; eauto|]. split; [intros j; now rewrite L3, L2|]. split; [rewrite T3; exact A4|].
    intros j Nj. split; [now rewrite L3, L2|]. split.
    + intros v. rewrite O3. change (s_occ s2 v) with (s_occ s1 v). rewrite O1, map_app. intros I. apply in_app_iff in I as [I|I]; [auto|].
      rewrite map_map in I. apply in_map_iff in I as (p & Ep & _). cbn in Ep. congruence.
    + intros _ v. rewrite Wa3. unfold s2, addWatch. cbn. unfold upd. rewrite A3. destruct (v =? fst x) eqn:E; [|auto].
      apply Nat.eqb_eq in E as ->. intros I. apply in_app_iff in I as [I|[I|[]]]; congruence.
Qed.

(** ** Collecting the literals of a resolvent *)
Definition MkF (D acc : list lit) (s : st) : Prop :=
  (forall p, In p acc -> s_lm s (fst p) = Some (snd p)) /\ (forall v, ~ In v (map fst acc) -> s_lm s v = lmD D v).
Lemma litVal_lm s s' p : lmOnly s s' -> litVal s' p = litVal s p.
Proof. intros (A1&A2&A3&A4&A5&A6&A7&A8&A9). unfold litVal, value. now rewrite A5, A8. Qed.

Lemma arLits_ok chk : forall ls acc s s' acc' stop,
  arLits chk ls acc s = (s', acc', stop) -> MkF (s_tr s) acc s -> NoDup (map fst ls) -> NoDup (map fst acc) ->
  (forall p, In p ls -> fst p <> 0 /\ s_elim s (fst p) = false) ->
  (forall p, In p ls -> ~ In (neg p) acc) -> (chk = false -> forall p, In p ls -> ~ In p acc) ->
  (forall p, In p acc -> ~ In (fst p) (map fst (s_tr s))) -> (forall p q, In p (s_tr s) -> In q (s_tr s) -> fst p = fst q -> p = q) ->
  lmOnly s s' /\ MkF (s_tr s) acc' s' /\ NoDup (map fst acc') /\ (forall p, In p acc' -> ~ In (fst p) (map fst (s_tr s)))
  /\ incl acc' (acc ++ ls)
  /\ (stop = true -> forall a, (forall p, In p (s_tr s) -> holds a p = true) -> sat_clause a ls = true)
  /\ (stop = false -> forall a, (forall p, In p (s_tr s) -> holds a p = true) ->
        (sat_clause a acc' = true <-> sat_clause a acc = true \/ sat_clause a ls = true)).
Proof.
  induction ls as [|l ls IH]; intros acc s s' acc' stop H M Nl Na V N1 N2 T1 T2; cbn in H.
  - injection H as <- <- <-. split; [apply lmOnly_refl|]. repeat (split; [assumption|]). split; [rewrite app_nil_r; apply incl_refl|].
    split; [discriminate|]. intros _ a _. cbn. split; [auto|]. intros [K|K]; [auto|discriminate].
  - cbn in Nl. inversion Nl as [|? ? Nl1 Nl2]; subst. destruct (V l (or_introl eq_refl)) as [Z E].
    (* literal skipped *)
    assert (Skip : arLits chk ls acc s = (s', acc', stop) ->
       (forall a, (forall p, In p (s_tr s) -> holds a p = true) -> holds a l = true -> sat_clause a acc = true) ->
       lmOnly s s' /\ MkF (s_tr s) acc' s' /\ NoDup (map fst acc') /\ (forall p, In p acc' -> ~ In (fst p) (map fst (s_tr s)))
       /\ incl acc' (acc ++ l :: ls)
       /\ (stop = true -> forall a, (forall p, In p (s_tr s) -> holds a p = true) -> sat_clause a (l :: ls) = true)
       /\ (stop = false -> forall a, (forall p, In p (s_tr s) -> holds a p = true) ->
             (sat_clause a acc' = true <-> sat_clause a acc = true \/ sat_clause a (l :: ls) = true))).
    { intros H0 Hs. apply IH in H0; auto.
      - destruct H0 as (A1 & A2 & A3 & A4 & A5 & A6 & A7). repeat (split; [assumption|]). split.
        { intros q Iq. apply A5 in Iq. apply in_app_iff in Iq. apply in_app_iff. cbn. tauto. }
        split.
        + intros Hb a Ta. rewrite sat_cons, (A6 Hb a Ta). apply orb_true_r.
        + intros Hb a Ta. rewrite (A7 Hb a Ta), sat_cons, orb_true_iff. split; [tauto|]. intros [K|[K|K]]; auto.
      - intros p I. apply V. now right.
      - intros p I. apply N1. now right.
      - intros Hc p I. apply N2; auto. now right. }
    destruct (falseL s l) eqn:Fl; cbn [negb andb] in H.
    { apply Skip; auto. intros a Ta Hl. exfalso. unfold falseL in Fl. destruct (litVal s l) as [[|]|] eqn:Ev; try discriminate.
      apply litVal_some in Ev; auto. apply Ta in Ev. rewrite holds_xorl, Hl in Ev. discriminate. }
    destruct (chk && markedL s l) eqn:Cm; cbn [negb andb] in H.
    { apply andb_true_iff in Cm as [-> Ml]. apply Skip; auto. intros a Ta Hl. apply sat_in. exists l. split; [|auto].
      unfold markedL in Ml. destruct (in_dec Nat.eq_dec (fst l) (map fst acc)) as [J|J].
      - apply in_map_iff in J as (q & Eq & J). pose proof (proj1 M q J) as K. rewrite Eq in K. rewrite K in Ml. apply eqb_prop in Ml.
        now rewrite <- (pair_eta q l).
      - rewrite (proj2 M _ J) in Ml. destruct (lmD (s_tr s) (fst l)) as [b|] eqn:Eb; [|discriminate]. apply eqb_prop in Ml. subst b.
        apply lmD_some in Eb. exfalso. apply Ta in Eb. change (holds a (neg l) = true) in Eb. rewrite holds_neg, Hl in Eb. discriminate. }
    destruct (trueL s l) eqn:Tl.
    + injection H as <- <- <-. split; [apply lmOnly_refl|]. repeat (split; [assumption|]). split; [apply incl_appl, incl_refl|].
      split; [|discriminate]. intros _ a Ta. unfold trueL in Tl. destruct (litVal s l) as [[|]|] eqn:Ev; try discriminate.
      apply litVal_some in Ev; auto. apply Ta in Ev. rewrite holds_xorl in Ev. apply sat_in. exists l. split; [now left|].
      destruct (holds a l); [auto|discriminate].
    + assert (Ev : litVal s l = None). { unfold falseL, trueL in *. destruct (litVal s l) as [[|]|]; try discriminate; auto. }
      apply litVal_none in Ev as (_ & _ & Nt).
      assert (Nacc : ~ In (fst l) (map fst acc)).
      { intros J. apply in_map_iff in J as (q & Eq & J). destruct (bool_dec (snd q) (snd l)) as [K|K].
        - assert (q = l) by now apply pair_eta. subst q. destruct chk; [|apply (N2 eq_refl l (or_introl eq_refl) J)].
          cbn in Cm. unfold markedL in Cm. rewrite (proj1 M l J), eqb_reflx in Cm. discriminate.
        - apply (N1 l (or_introl eq_refl)). replace (neg l) with q; [auto|]. apply pair_eta; [auto|]. cbn. destruct (snd q), (snd l); cbn; congruence. }
      set (s1 := mark s l) in *. assert (L1 : lmOnly s s1) by (repeat split).
      apply IH in H; auto.
      * destruct H as (A1 & A2 & A3 & A4 & A5 & A6 & A7). split; [eapply lmOnly_trans; eauto|].
        repeat (split; [assumption|]). split.
        { intros q Iq. apply A5 in Iq. rewrite <- app_assoc in Iq. exact Iq. }
        split.
        -- intros Hb a Ta. rewrite sat_cons, (A6 Hb a Ta). apply orb_true_r.
        -- intros Hb a Ta. rewrite (A7 Hb a Ta), sat_cons. unfold sat_clause at 1. rewrite existsb_app. cbn [existsb]. fold (sat_clause a acc). rewrite !orb_true_iff. intuition discriminate.
      * split.
        -- intros p I. apply in_app_iff in I as [I|[<-|[]]]; cbn.
           ++ rewrite upd_other; [now apply (proj1 M)|]. intros K. apply Nacc. rewrite <- K. now apply in_map.
           ++ apply upd_same.
        -- intros v Nv. cbn. rewrite map_app, in_app_iff in Nv. cbn in Nv. rewrite upd_other; [apply (proj2 M); tauto|]. intros ->. tauto.
      * rewrite map_app. cbn. now apply NoDup_snoc.
      * intros p I. apply V. now right.
      * intros p I K. apply in_app_iff in K as [K|[K|[]]]; [now apply (N1 p (or_intror I))|].
        apply Nl1. rewrite K. change (fst (neg p)) with (fst p). now apply in_map.
      * intros Hc p I K. apply in_app_iff in K as [K|[K|[]]]; [now apply (N2 Hc p (or_intror I))|]. apply Nl1. rewrite K. now apply in_map.
      * intros p I. apply in_app_iff in I as [I|[<-|[]]]; auto.
Qed.

Lemma tr_inj D s p q : wf0 D s -> In p (s_tr s) -> In q (s_tr s) -> fst p = fst q -> p = q.
Proof.
  intros W. pose proof (q_tnd _ _ _ W) as N. induction (s_tr s) as [|y l IH]; [intros []|]. cbn in N. inversion N; subst.
  intros [->|Ip] [Iq|Iq] E; auto.
  - exfalso. apply H1. rewrite E. now apply in_map.
  - subst. exfalso. apply H1. rewrite <- E. now apply in_map.
Qed.

Lemma unmarkAll_restore D s acc cl : NoDup (map fst acc) ->
  (forall p, In p acc -> ~ In (fst p) (map fst D)) ->
  (forall v, ~ In v (map fst acc) -> s_lm s v = lmD D v) -> incl cl acc ->
  (forall p, In p acc -> s_lm s (fst p) <> None -> In p cl) ->
  forall v, s_lm (unmarkAll s cl) v = lmD D v.
Proof.
  intros Nd ND M Ic Keep v. destruct (in_dec Nat.eq_dec v (map fst cl)) as [J|J].
  - rewrite unmarkAll_in by auto. symmetry. apply lmD_none. apply in_map_iff in J as (p & <- & J). apply ND. now apply Ic.
  - rewrite unmarkAll_out by auto. destruct (in_dec Nat.eq_dec v (map fst acc)) as [K|K]; [|auto].
    apply in_map_iff in K as (p & <- & K). destruct (s_lm s (fst p)) eqn:E.
    + exfalso. apply J. apply in_map. apply Keep; [auto|congruence].
    + symmetry. now apply lmD_none, ND.
Qed.

Lemma wfx_relm X D s s' : permTo s s' -> wf0 D (relm D s') -> (forall v, s_lm s' v = lmD D v) -> wfx X D s -> wfx X D s'.
Proof.
  intros P W M (W0 & O & E). split; [|split].
  - destruct W; constructor; auto.
  - eapply occs_permTo; eauto.
  - destruct P as (_ & _ & _ & P & _). congruence.
Qed.

Lemma addResolvent_ok n v id (lhs rhs : list lit) s s' b : wfx [v] (s_tr s) s -> s_elim s v = true -> freeIdOf [v] s id ->
  NoDup (map fst (tl lhs)) -> NoDup (map fst (tl rhs)) ->
  (forall p, In p (tl lhs) \/ In p (tl rhs) -> fst p <> 0 /\ s_elim s (fst p) = false) ->
  (forall p, In p (tl rhs) -> ~ In (neg p) (tl lhs)) ->
  addResolvent w n id lhs rhs s = Ok (s', b) ->
  (b = true -> wfx [v] (s_tr s') s' /\ frame s s'
     /\ (forall a, F s' a <-> F s a /\ sat_clause a (tl lhs ++ tl rhs) = true)
     /\ (forall j, j <> id -> fr j s s'))
  /\ (b = false -> forall a, ~ (F s a /\ sat_clause a (tl lhs ++ tl rhs) = true)).
Proof.
  intros W Ev Fi N1 N2 V Nt H. unfold addResolvent in H. pose proof W as (W0 & O0 & Ef0).
  assert (Sapp : forall a, sat_clause a (tl lhs ++ tl rhs) = true <-> sat_clause a (tl lhs) = true \/ sat_clause a (tl rhs) = true).
  { intros a. unfold sat_clause. rewrite existsb_app. apply orb_true_iff. }
  assert (FT : forall a, F s a -> forall p, In p (s_tr s) -> holds a p = true) by (intros a (_ & T & _); exact T).
  destruct (arLits false (tl lhs) [] s) as [[s1 acc1] st1] eqn:E1.
  assert (M0 : MkF (s_tr s) [] s).
  { split; [intros ? []|]. intros u _. apply (q_lm _ _ _ W0). }
  apply arLits_ok in E1; auto; [|apply NoDup_nil|intros p q Ip Iq; now apply (tr_inj _ _ p q W0)].
  destruct E1 as (L1 & M1 & Nd1 & ND1 & Inc1 & St1 & Sf1). cbn in Inc1.
  assert (T1 : s_tr s1 = s_tr s) by apply L1.
  assert (Trivial : forall s2 acc, lmOnly s s2 -> MkF (s_tr s) acc s2 -> NoDup (map fst acc) ->
     (forall p, In p acc -> ~ In (fst p) (map fst (s_tr s))) -> (forall a, F s a -> sat_clause a (tl lhs ++ tl rhs) = true) ->
     Ok (unmarkAll s2 acc, true) = Ok (s', b) ->
     (b = true -> wfx [v] (s_tr s') s' /\ frame s s'
       /\ (forall a, F s' a <-> F s a /\ sat_clause a (tl lhs ++ tl rhs) = true) /\ (forall j, j <> id -> fr j s s'))
     /\ (b = false -> forall a, ~ (F s a /\ sat_clause a (tl lhs ++ tl rhs) = true))).
  { intros s2 acc L2 M2 Nd2 ND2 S2 K. injection K as <- <-. split; [|discriminate]. intros _.
    assert (L3 : lmOnly s (unmarkAll s2 acc)) by (eapply lmOnly_trans; [exact L2|apply unmarkAll_only]).
    assert (Lv : forall u, s_lm (unmarkAll s2 acc) u = lmD (s_tr s) u).
    { apply (unmarkAll_restore (s_tr s) s2 acc acc); auto using incl_refl. apply M2. }
    replace (s_tr (unmarkAll s2 acc)) with (s_tr s) by (symmetry; apply L3).
    split; [|split; [|split]].
    - split; [|split].
      + apply (wf0_lm fz (s_tr s) s); auto. intros u. rewrite Lv. symmetry. apply (q_lm _ _ _ W0).
      + eapply lmOnly_occs; eauto.
      + destruct L3 as (_&_&_&_&_&K&_). congruence.
    - now apply lmOnly_frame.
    - intros a. rewrite <- (lmOnly_F R s _ a L3). split; [intros Fa; auto|tauto].
    - intros j _. apply fr_ext; [now apply lmOnly_lits|apply L3|apply L3]. }
  destruct st1.
  { apply (Trivial s1 acc1); auto. intros a Fa. apply Sapp. left. apply St1; auto. }
  destruct (arLits true (tl rhs) acc1 s1) as [[s2 acc2] st2] eqn:E2.
  apply arLits_ok in E2; auto; rewrite ?T1 in *; auto.
  2:{ intros p I. replace (s_elim s1) with (s_elim s) by (symmetry; apply L1). auto. }
  2:{ intros p I K. apply Inc1 in K. now apply (Nt p I). }
  2:{ discriminate. }
  2:{ intros p q Ip Iq. now apply (tr_inj _ _ p q W0). }
  destruct E2 as (L2 & M2 & Nd2 & ND2 & Inc2 & St2 & Sf2).
  assert (L02 : lmOnly s s2) by (eapply lmOnly_trans; eauto).
  destruct st2.
  { apply (Trivial s2 acc2); auto. intros a Fa. apply Sapp. right. apply St2; auto. }
  assert (Sacc : forall a, F s a -> sat_clause a acc2 = true <-> sat_clause a (tl lhs ++ tl rhs) = true).
  { intros a Fa. rewrite Sapp, (Sf2 eq_refl a), (Sf1 eq_refl a) by (apply FT; auto). cbn. intuition discriminate. }
  assert (Vacc : forall p, In p acc2 -> fst p <> 0 /\ s_elim s (fst p) = false).
  { intros p I. apply V. apply Inc2 in I. apply in_app_iff in I as [I|I]; [left; now apply Inc1|auto]. }
  apply bind_ok in H as ([[s3 cl] b3] & H3 & H).
  assert (Wr : wf0 (s_tr s) (relm (s_tr s) s2)).
  { apply (wf0_lm fz (s_tr s) s); [exact L02| |exact W0]. intros u. cbn. symmetry. apply (q_lm _ _ _ W0). }
  apply (subsumed_ok R fz (s_tr s) acc2 Nd2) in H3; auto; try apply M2.
  destruct H3 as (B1 & B2 & B3 & B4 & B5 & B6 & B7 & B8 & B9).
  assert (P03 : permTo s s3) by (eapply permTo_trans; [apply lmOnly_permTo; exact L02|exact B3]).
  assert (F2 : forall a, F s a <-> F s2 a) by (intros a; apply (lmOnly_F R); auto).
  assert (F3 : forall a, F s a <-> F s3 a) by (intros a; apply F_permTo; auto).
  assert (Fr3 : forall j, fr j s s3).
  { intros j. eapply fr_trans; [|apply B9]. apply fr_ext; [now apply lmOnly_lits|apply L02|apply L02]. }
  assert (Scl : forall a, F s a -> sat_clause a cl = true <-> sat_clause a (tl lhs ++ tl rhs) = true).
  { intros a Fa. rewrite <- (Sacc a Fa). split; [apply sat_incl; auto|]. apply B8. now apply F2. }
  assert (T3 : s_tr s3 = s_tr s) by apply P03.
  (* restored marks *)
  assert (Rst : forall s4, lmOnly s3 s4 -> (forall u, s_lm s4 u = lmD (s_tr s) u) ->
      wfx [v] (s_tr s) s4 /\ permTo s s4 /\ (forall j, fr j s s4)).
  { intros s4 L4 Lv4. assert (P4 : permTo s s4) by (eapply permTo_trans; [exact P03|now apply lmOnly_permTo]).
    split; [|split; [auto|]].
    - apply (wfx_relm _ _ s); auto. apply (wf0_lm fz (s_tr s) (relm (s_tr s) s3)); [exact L4|auto|exact B1].
    - intros j. eapply fr_trans; [apply Fr3|]. apply fr_ext; [now apply lmOnly_lits|apply L4|apply L4]. }
  assert (Lvu : forall u, s_lm (unmarkAll s3 cl) u = lmD (s_tr s) u).
  { apply (unmarkAll_restore (s_tr s) s3 acc2 cl); auto. apply B2. }
  destruct b3.
  { injection H as <- <-. split; [|discriminate]. intros _.
    destruct (Rst (unmarkAll s3 cl) (unmarkAll_only cl s3) Lvu) as (C1 & C2 & C3).
    replace (s_tr (unmarkAll s3 cl)) with (s_tr s) by (symmetry; apply C2).
    split; [auto|]. split; [now apply permTo_frame|]. split; [|auto]. intros a. rewrite <- (F_permTo R s _ a C2).
    split; [|tauto]. intros Fa. split; [auto|]. apply Sacc; auto. apply B7; auto. now apply F2. }
  destruct cl as [|u [|u2 cl']].
  - (* empty resolvent *)
    assert (s' = s3 /\ b = false) as [-> ->].
    { unfold force, litVal, value in H. cbn in H. injection H as <- <-. auto. }
    split; [discriminate|]. intros _ a (Fa & Sa). apply Scl in Sa; auto. discriminate.
  - (* unit *)
    destruct (Vacc u) as [Zu Eu]; [apply B4; now left|].
    destruct (Rst (unmark s3 (fst u)) ltac:(repeat split) Lvu) as (C1 & C2 & C3).
    set (s4 := unmark s3 (fst u)) in *.
    assert (E4 : s_elim s4 = s_elim s) by apply C2. assert (T4 : s_tr s4 = s_tr s) by apply C2.
    destruct C1 as (C1 & C1o & C1f).
    assert (F4 : forall a, F s a <-> F s4 a) by (intros a; now apply F_permTo).
    assert (Sat1 : forall a, F s a -> holds a u = true <-> sat_clause a (tl lhs ++ tl rhs) = true).
    { intros a Fa. rewrite <- (Scl a Fa). cbn. now rewrite orb_false_r. }
    destruct (force s4 u) as [s5 b5] eqn:E5. apply (force_ok R fz (s_tr s)) in E5 as (T5 & W5 & G5 & K5); auto; [|now rewrite E4].
    destruct b5.
    + destruct (propagate w s5) as [s6 b6] eqn:E6. apply (propagate_ok R fz w SW (s_tr s)) in E6 as (T6 & W6 & G6 & K6); auto.
      pose proof (trOnly_trans _ _ _ T5 T6) as T46.
      destruct b6.
      * assert (W6x : wfx [v] (s_tr s) s6).
        { split; [auto|]. split; [eapply trOnly_occs; eauto|]. destruct T46 as (_&_&_&_&_&K&_). congruence. }
        pose proof H as H0. apply (propagateFacts_okx R fz w SW Z0 [v] n _ _ _ _ W6x) in H as [A B].
        2:{ intros u' [<-|[]]. destruct T46 as (_&_&_&_&_&_&_&K&_). now rewrite K, E4. }
        assert (F6 : forall a, F s6 a <-> F s a /\ sat_clause a (tl lhs ++ tl rhs) = true).
        { intros a. rewrite (G6 eq_refl a), (G5 eq_refl a), <- F4. split.
          - intros [Fa Hu]. split; [auto|]. now apply Sat1.
          - intros [Fa Hu]. split; [auto|]. now apply Sat1. }
        split.
        -- intros Hb. destruct (A Hb) as (D1 & D2 & D3). split; [auto|]. split; [|split].
           ++ eapply frame_trans; [apply permTo_frame; exact C2|]. eapply frame_trans; [apply trOnly_frame; exact T46|]. auto.
           ++ intros a. rewrite <- (D3 a). apply F6.
           ++ intros j _. eapply fr_trans; [apply C3|]. eapply fr_trans; [apply fr_trOnly; exact T46|]. eapply fr_propagateFacts; eauto.
        -- intros Hb a Fa. apply (B Hb a). now apply F6.
      * injection H as <- <-. split; [discriminate|]. intros _ a [Fa Sa]. apply (K6 eq_refl a). apply (G5 eq_refl). split; [now apply F4|now apply Sat1].
    + injection H as <- <-. split; [discriminate|]. intros _ a [Fa Sa]. apply Sat1 in Sa; auto.
      assert (Fa4 : F s4 a) by now apply F4. rewrite (K5 eq_refl a Fa4) in Sa. discriminate.
  - (* a new clause *)
    set (cl := u :: u2 :: cl') in *. destruct (id <? s_n s3) eqn:Ei; [|discriminate].
    apply bind_ok in H as (s5 & H5 & H). injection H as <- <-. split; [|discriminate]. intros _.
    set (s4 := setC s3 id (Some (Pcl cl [] false 0%N))) in *.
    pose proof (freeId_fr _ _ _ _ Fi (Fr3 id) (proj1 P03)) as (Fi1 & Fi2 & Fi3 & Fi4).
    assert (L4 : forall j, lits s4 j = if j =? id then Some cl else lits s3 j).
    { intros j. unfold s4. now rewrite lits_setC. }
    apply (attach_ok [v] (s_tr s) s4 id cl) in H5.
    + destruct H5 as (A1 & A2 & A3 & A4 & A5).
      assert (Et : s_tr s5 = s_tr s) by (rewrite A4; exact T3). rewrite Et. split; [auto|]. split.
      * eapply frame_trans; [|exact A2]. pose proof (permTo_frame _ _ P03) as [K1 K2 K3 K4]. constructor; auto.
      * split.
        -- intros a. split.
           ++ intros (Ra & Ta & Ca). assert (Fa : F s a).
              { apply F3. split; [auto|]. rewrite T3. rewrite Et in Ta. split; [auto|]. intros j c Ej.
                apply (Ca j c). rewrite A3, L4. destruct (j =? id) eqn:E; [apply Nat.eqb_eq in E; congruence|auto]. }
              split; [auto|]. apply Scl; auto. apply (Ca id cl). now rewrite A3, L4, Nat.eqb_refl.
           ++ intros (Fa & Sa). apply Scl in Sa; auto. pose proof (proj1 (F3 a) Fa) as (Ra & Ta & Ca). split; [auto|]. split; [rewrite Et, <- T3; auto|].
              intros j c. rewrite A3, L4. destruct (j =? id); [intros K; injection K as <-; auto|apply Ca].
        -- intros j Nj. eapply fr_trans; [apply Fr3|]. eapply fr_trans; [|apply A5; auto].
           split; [rewrite L4; apply Nat.eqb_neq in Nj; now rewrite Nj|]. split; auto.
    + now rewrite L4, Nat.eqb_refl.
    + discriminate.
    + destruct B1 as [Q1 Q2 Q3 Q4 Q5 Q6 Q7 Q8 Q9].
      assert (L4' : forall j, lits (relm (s_tr s) s4) j = if j =? id then Some cl else lits s3 j) by exact L4.
      constructor; auto.
      * intros j c. rewrite L4'. destruct (j =? id) eqn:E; [apply Nat.eqb_eq in E as ->; intros _; exact Fi1|apply Q1].
      * intros j c. rewrite L4'. destruct (j =? id); [intros K; injection K as <-; auto|apply Q2].
      * intros j c p. rewrite L4'. destruct (j =? id); [|apply Q3]. intros K; injection K as <-. intros I. apply B4 in I.
        destruct (Vacc p I). split; [auto|]. split; [|auto]. cbn. replace (s_elim s3) with (s_elim s); [auto|]. symmetry; apply P03.
      * intros j h t u'. rewrite L4'. destruct (j =? id) eqn:E; [|apply Q4]. apply Nat.eqb_eq in E as ->. intros _. cbn.
        assert (cnt (s_wat s3 u') id = 0) as -> by (apply count_occ_not_In; auto). lia.
    + exact Fi4.
    + intros u' Nu. split; [|apply Fi3; auto]. assert (O3 : occs [v] s3) by (eapply occs_permTo; eauto).
      eapply occOk_lsub; [|apply (O3 u' Nu)]. intros j c. rewrite lits_setC. destruct (j =? id) eqn:E; [discriminate|]. rewrite L4, E. auto.
    + intros u'. destruct (in_dec Nat.eq_dec u' (map fst cl)) as [J|J]; [auto|]. left.
      change (s_lm s4 u') with (s_lm s3 u'). rewrite <- (Lvu u'). now rewrite unmarkAll_out.
    + change (s_facts s4) with (s_facts s3). replace (s_facts s3) with (s_facts s); [auto|]. symmetry; apply P03.
Qed.

(** what a candidate has to look like *)
Definition candOk (s : st) (x : list lit * list lit) : Prop :=
  NoDup (map fst (tl (fst x))) /\ NoDup (map fst (tl (snd x)))
  /\ (forall p, In p (tl (fst x)) \/ In p (tl (snd x)) -> fst p <> 0 /\ s_elim s (fst p) = false)
  /\ (forall p, In p (tl (snd x)) -> ~ In (neg p) (tl (fst x))).
Lemma bvResolve_ok n v : forall cands ids s s' b, wfx [v] (s_tr s) s -> s_elim s v = true ->
  NoDup (map fst ids) -> (forall k x, k < length cands -> nth_error ids k = Some x -> freeIdOf [v] s (fst x)) ->
  (forall x, In x cands -> candOk s x) ->
  bvResolve w n ids cands s = Ok (s', b) ->
  (b = true -> wfx [v] (s_tr s') s' /\ frame s s'
     /\ (forall a, F s' a <-> F s a /\ forall x, In x cands -> sat_clause a (tl (fst x) ++ tl (snd x)) = true))
  /\ (b = false -> forall a, ~ (F s a /\ forall x, In x cands -> sat_clause a (tl (fst x) ++ tl (snd x)) = true)).
Proof.
  induction cands as [|[c1 c2] cands IH]; intros ids s s' b W Ev Nd Fi Co H.
  - assert (Ok (s, true) = Ok (s', b)) as H0 by (destruct ids; exact H). injection H0 as <- <-. split; [intros _|discriminate]. split; [auto|]. split; [apply frame_refl|].
    intros a. split; [intros Fa; split; [auto|intros ? []]|tauto].
  - destruct ids as [|[id sg] ids]; [discriminate|]. cbn [bvResolve] in H. apply bind_ok in H as ([s1 b1] & H1 & H).
    destruct (Co (c1, c2) (or_introl eq_refl)) as (K1 & K2 & K3 & K4). cbn [fst snd] in *.
    cbn in Nd. inversion Nd as [|? ? Nd1 Nd2]; subst.
    apply (addResolvent_ok n v) in H1; auto; [|apply (Fi 0 (id, sg)); cbn; auto; lia].
    destruct H1 as [A B]. destruct b1.
    + destruct (A eq_refl) as (W1 & Fr1 & F1 & Id1). apply IH in H; auto.
      * destruct H as [A2 B2]. split.
        -- intros Hb. destruct (A2 Hb) as (C1 & C2 & C3). split; [auto|]. split; [eapply frame_trans; eauto|].
           intros a. rewrite (C3 a), (F1 a). split.
           ++ intros [[Fa Sa] Sc]. split; [auto|]. intros x [<-|I]; auto.
           ++ intros [Fa Sc]. split; [split; [auto|]|].
              ** apply (Sc (c1, c2)). now left.
              ** intros x I. apply Sc. now right.
        -- intros Hb a [Fa Sc]. apply (B2 Hb a). split; [apply F1; split; [auto|]|].
           ++ apply (Sc (c1, c2)). now left.
           ++ intros x I. apply Sc. now right.
      * now rewrite (f_elim _ _ Fr1).
      * intros k x Hk En. apply (freeId_fr _ s); [apply (Fi (S k) x); cbn; auto; lia| |apply Fr1].
        apply Id1. intros Ei. apply Nd1. rewrite <- Ei. apply in_map. eapply nth_error_In; eauto.
      * intros x I. destruct (Co x (or_intror I)) as (J1 & J2 & J3 & J4). repeat split; auto; try now apply (J3 p).
        rewrite (f_elim _ _ Fr1). now apply J3.
    + injection H as <- <-. split; [discriminate|]. intros _ a [Fa Sc]. apply (B eq_refl a). split; [auto|]. apply (Sc (c1, c2)). now left.
Qed.
End El.
