(** Preprocessor: subsumption *)
From Coq Require Import List Bool Arith ZArith NArith Lia.
Import ListNotations.
From Verif Require Import Base ElModel ElSpec ElProofs ElProofs2.

(** ** Marks *)
Definition lmOnly (s s' : st) : Prop :=
  s_n s' = s_n s /\ s_cls s' = s_cls s /\ s_occ s' = s_occ s /\ s_wat s' = s_wat s /\ s_tr s' = s_tr s
  /\ s_facts s' = s_facts s /\ s_q s' = s_q s /\ s_elim s' = s_elim s /\ s_top s' = s_top s.
Lemma lmOnly_refl s : lmOnly s s. Proof. repeat split. Qed.
Lemma lmOnly_trans a b c : lmOnly a b -> lmOnly b c -> lmOnly a c.
Proof.
  intros (A1&A2&A3&A4&A5&A6&A7&A8&A9) (B1&B2&B3&B4&B5&B6&B7&B8&B9). repeat (split; [congruence|]). congruence.
Qed.
Lemma markAll_only ps : forall s, lmOnly s (markAll s ps).
Proof.
  induction ps as [|p ps IH]; intros s; cbn; [apply lmOnly_refl|]. eapply lmOnly_trans; [|apply IH]. repeat split.
Qed.
Lemma unmarkAll_only ps : forall s, lmOnly s (unmarkAll s ps).
Proof.
  induction ps as [|p ps IH]; intros s; cbn; [apply lmOnly_refl|]. eapply lmOnly_trans; [|apply IH]. repeat split.
Qed.
Lemma markAll_out ps : forall s v, ~ In v (map fst ps) -> s_lm (markAll s ps) v = s_lm s v.
Proof.
  induction ps as [|p ps IH]; intros s v N; cbn; [auto|]. cbn in N. unfold markAll in IH. rewrite IH by tauto.
  cbn. apply upd_other. intros ->. tauto.
Qed.
Lemma markAll_in ps : forall s v b, NoDup (map fst ps) -> In (v, b) ps -> s_lm (markAll s ps) v = Some b.
Proof.
  induction ps as [|p ps IH]; intros s v b N I; [destruct I|]. cbn in N. inversion N; subst. destruct I as [->|I].
  - cbn. change (s_lm (markAll (mark s (v, b)) ps) v = Some b). rewrite markAll_out by auto. cbn. apply upd_same.
  - cbn. now apply IH.
Qed.
Lemma unmarkAll_out ps : forall s v, ~ In v (map fst ps) -> s_lm (unmarkAll s ps) v = s_lm s v.
Proof.
  induction ps as [|p ps IH]; intros s v N; cbn; [auto|]. cbn in N. unfold unmarkAll in IH. rewrite IH by tauto.
  cbn. apply upd_other. intros ->. tauto.
Qed.
Lemma unmarkAll_in ps : forall s v, In v (map fst ps) -> s_lm (unmarkAll s ps) v = None.
Proof.
  induction ps as [|p ps IH]; intros s v I; [destruct I|]. cbn.
  change (s_lm (unmarkAll (unmark s (fst p)) ps) v = None).
  destruct (in_dec Nat.eq_dec v (map fst ps)) as [J|J]; [now apply IH|].
  destruct I as [I|I]; [|tauto]. rewrite unmarkAll_out by auto. subst. cbn. apply upd_same.
Qed.
Lemma markAll_some s ps v b : NoDup (map fst ps) -> (In v (map fst ps) \/ s_lm s v = None) ->
  s_lm (markAll s ps) v = Some b <-> In (v, b) ps.
Proof.
  intros N H. split.
  - intros E. destruct (in_dec Nat.eq_dec v (map fst ps)) as [J|J].
    + apply in_map_iff in J as ([u d] & Eu & J). cbn in Eu; subst u.
      rewrite (markAll_in ps s v d N J) in E. injection E as <-. auto.
    + rewrite markAll_out in E by auto. destruct H as [H|H]; [tauto|congruence].
  - now apply markAll_in.
Qed.
Lemma restore s ps v : (forall p, In p ps -> s_lm s (fst p) = None) -> s_lm (unmarkAll (markAll s ps) ps) v = s_lm s v.
Proof.
  intros H. destruct (in_dec Nat.eq_dec v (map fst ps)) as [J|J].
  - rewrite unmarkAll_in by auto. apply in_map_iff in J as (p & <- & J). symmetry. now apply H.
  - rewrite unmarkAll_out by auto. now apply markAll_out.
Qed.

Definition subSpec (c other : list lit) (r r' : lit) : Prop :=
  r' = lit_false
  \/ (forall p, In p c -> In p other \/ (p = r' /\ In (neg p) other))
     /\ (r' = r \/ (r = lit_true /\ In r' c /\ In (neg r') other)).

Lemma pair_eta (p q : lit) : fst p = fst q -> snd p = snd q -> p = q.
Proof. destruct p, q; cbn; congruence. Qed.
Lemma subSmall_ok other c : (forall p, In p c -> fst p <> 0) -> forall r, subSpec c other r (subSmall c other r).
Proof.
  induction c as [|p c IH]; intros Z r; cbn.
  - right. split; [intros ? []|auto].
  - assert (Zc : forall q, In q c -> fst q <> 0) by (intros q I; apply Z; now right).
    match goal with |- context [find ?f other] => destruct (find f other) as [q|] eqn:E end; [|now left].
    apply find_some in E as [Iq Ev]. apply Nat.eqb_eq in Ev. destruct (Bool.eqb (snd p) (snd q)) eqn:Es.
    + apply eqb_prop in Es. pose proof (pair_eta p q Ev Es). subst q.
      destruct (IH Zc r) as [K|(K1 & K2)]; [now left|]. right. split.
      * intros q [<-|I]; auto.
      * destruct K2 as [K2|(K2 & K3 & K4)]; [auto|]. right. repeat split; auto. now right.
    + assert (q = neg p).
      { apply pair_eta; [now rewrite var_neg|]. cbn. destruct (snd p), (snd q); cbn in *; congruence. }
      subst q. destruct (negb (lit_eqb r lit_true) && negb (lit_eqb r p)) eqn:Er; [now left|].
      destruct (IH Zc p) as [K|(K1 & K2)]; [now left|]. right.
      assert (K3 : subSmall c other p = p).
      { destruct K2 as [K2|(K2 & _)]; [auto|]. exfalso. apply (Z p (or_introl eq_refl)). now rewrite K2. }
      rewrite K3 in *. split.
      * intros q [<-|I]; auto.
      * apply andb_false_iff in Er as [Er|Er]; apply negb_false_iff, lit_eqb_eq in Er; subst; [|auto].
        right. repeat split; auto. now left.
Qed.
Lemma subBig_ok s other c : (forall p, In p c -> fst p <> 0) ->
  (forall p b, In p c -> s_lm s (fst p) = Some b <-> In (fst p, b) other) ->
  forall r, subSpec c other r (subBig s c r).
Proof.
  induction c as [|p c IH]; intros Z M r; cbn.
  - right. split; [intros ? []|auto].
  - assert (Zc : forall q, In q c -> fst q <> 0) by (intros q I; apply Z; now right).
    assert (Mc : forall q b, In q c -> s_lm s (fst q) = Some b <-> In (fst q, b) other) by (intros q b I; apply M; now right).
    destruct (s_lm s (fst p)) as [b|] eqn:E; [|now left]. apply M in E; [|now left].
    assert (Em : markedL s (neg p) = Bool.eqb b (negb (snd p))).
    { unfold markedL. cbn. apply M in E; [|now left]. now rewrite E. }
    rewrite Em. destruct (Bool.eqb b (negb (snd p))) eqn:Es.
    + apply eqb_prop in Es. subst b. change (In (neg p) other) in E.
      destruct (negb (lit_eqb r lit_true) && negb (lit_eqb r p)) eqn:Er; [now left|].
      destruct (IH Zc Mc p) as [K|(K1 & K2)]; [now left|]. right.
      assert (K3 : subBig s c p = p).
      { destruct K2 as [K2|(K2 & _)]; [auto|]. exfalso. apply (Z p (or_introl eq_refl)). now rewrite K2. }
      rewrite K3 in *. split.
      * intros q [<-|I]; auto.
      * apply andb_false_iff in Er as [Er|Er]; apply negb_false_iff, lit_eqb_eq in Er; subst; [|auto].
        right. repeat split; auto. now left.
    + assert (Ip : In p other).
      { replace p with (fst p, b); [auto|]. apply pair_eta; cbn; auto. destruct b, (snd p); cbn in *; congruence. }
      destruct (IH Zc Mc r) as [K|(K1 & K2)]; [now left|]. right. split.
      * intros q [<-|I]; auto.
      * destruct K2 as [K2|(K2 & K3 & K4)]; [auto|]. right. repeat split; auto. now right.
Qed.

Section El.
Context (R : asg -> Prop) (fz : nat -> bool) (w : world) (SW : soundWorld R fz w).
Context (Z0 : forall v, fz v = true -> v <> 0).
Notation F := (F R). Notation wf0 := (wf0 fz). Notation wf := (wfx fz []).

Lemma wf0_lm D s s' : lmOnly s s' -> (forall v, s_lm s' v = s_lm s v) -> wf0 D s -> wf0 D s'.
Proof.
  intros (A1&A2&A3&A4&A5&A6&A7&A8&A9) L [Q1 Q2 Q3 Q4 Q5 Q6 Q7 Q8 Q9].
  assert (LL : forall j, lits s' j = lits s j) by (intros j; unfold lits; now rewrite A2).
  constructor; rewrite ?A1, ?A4, ?A5, ?A8; auto.
  - intros id c; rewrite LL; apply Q1.
  - intros id c; rewrite LL; apply Q2.
  - intros id c p; rewrite LL; apply Q3.
  - intros id h t v; rewrite LL; apply Q4.
  - intros v. now rewrite L.
Qed.
Lemma lmOnly_lits s s' : lmOnly s s' -> forall j, lits s' j = lits s j.
Proof. intros (_&A&_) j. unfold lits. now rewrite A. Qed.
Lemma lmOnly_frame s s' : lmOnly s s' -> frame s s'.
Proof. intros (A1&A2&A3&A4&A5&A6&A7&A8&A9). constructor; auto. exists []. now rewrite A5, app_nil_r. Qed.
Lemma lmOnly_F s s' a : lmOnly s s' -> F s a <-> F s' a.
Proof. intros L. apply F_ext; [apply L|now apply lmOnly_lits]. Qed.
Lemma lmOnly_occs x s s' : lmOnly s s' -> occs x s -> occs x s'.
Proof. intros L. apply occs_lsub; [intros j c; now rewrite (lmOnly_lits _ _ L)|apply L]. Qed.
Lemma lm_free D s id c p : wf0 D s -> lits s id = Some c -> In p c -> s_lm s (fst p) = None.
Proof. intros W E I. rewrite (q_lm _ _ _ W). apply lmD_none. now apply (q_var _ _ _ W _ _ _ E I). Qed.

Lemma subsumes_ok D s id oid c other r s' r' : wf0 D s -> lits s id = Some (k_lits c) -> lits s oid = Some (k_lits other) ->
  subsumes s c other r = (s', r') ->
  lmOnly s s' /\ (forall v, s_lm s' v = s_lm s v) /\ subSpec (k_lits c) (k_lits other) r r'.
Proof.
  intros W Hc Ho. unfold subsumes.
  assert (Zc : forall p, In p (k_lits c) -> fst p <> 0) by (intros p I; now apply (q_var _ _ _ W _ _ _ Hc I)).
  destruct (_ || negb _).
  { intros H; injection H as <- <-. split; [apply lmOnly_refl|]. split; [auto|]. now left. }
  destruct (_ || _).
  { intros H; injection H as <- <-. split; [apply lmOnly_refl|]. split; [auto|]. now apply subSmall_ok. }
  intros H; injection H as <- <-.
  split; [eapply lmOnly_trans; [apply markAll_only|apply unmarkAll_only]|]. split.
  - intros v. apply restore. intros p I. exact (lm_free _ _ _ _ _ W Ho I).
  - apply subBig_ok; auto. intros p b I. apply markAll_some; [exact (q_nd _ _ _ W _ _ Ho)|].
    right. exact (lm_free _ _ _ _ _ W Hc I).
Qed.

(** Occurrence lists *)
Lemma eraseL_sub x l : incl (eraseL x l) l.
Proof. induction l as [|y l IH]; cbn; [auto using incl_refl|]. destruct (lit_eqb y x); intros z; cbn; [tauto|]. intros [H|H]; auto. Qed.
Lemma eraseL_in x l y : In y l -> y <> x -> In y (eraseL x l).
Proof.
  induction l as [|z l IH]; cbn; [auto|]. intros [->|I] N.
  - apply lit_eqb_neq in N. rewrite N. now left.
  - destruct (lit_eqb z x); [auto|]. right. auto.
Qed.
Lemma eraseL_nd x (l : list lit) : NoDup (map fst l) -> NoDup (map fst (eraseL x l)) /\ (In x l -> ~ In (fst x) (map fst (eraseL x l))).
Proof.
  induction l as [|y l IH]; cbn; [split; [auto|intros []]|]. intros N; inversion N; subst.
  destruct (lit_eqb y x) eqn:E.
  - apply lit_eqb_eq in E as ->. auto.
  - apply lit_eqb_neq in E. destruct (IH H2) as [A B]. split.
    + cbn. constructor; [|auto]. intros I. apply H1. apply in_map_iff in I as (z & <- & I). apply in_map. eapply eraseL_sub; eauto.
    + intros [->|I]; [congruence|]. cbn. intros [K|K]; [|now apply B]. apply H1. rewrite K. now apply in_map.
Qed.
Lemma occOk_mid_dead s v id b A B : occOk s v (A ++ (id, b) :: B) ->
  (forall c, lits s id = Some c -> ~ In v (map fst c)) -> occOk s v (A ++ B).
Proof.
  intros (X & Y & Z) N. split; [|split].
  - intros j c d E I. specialize (X j c d E I). apply in_app_iff in X. cbn in X. apply in_app_iff.
    destruct X as [X|[X|X]]; auto. injection X as <- <-. exfalso. apply (N c E). apply in_map_iff. now exists (v, b).
  - intros j c d I. apply Y. apply in_app_iff. apply in_app_iff in I. cbn. tauto.
  - rewrite map_app in *. cbn in Z. now apply NoDup_remove_1 in Z.
Qed.
(** one clause changes; the list keeps its entry, which stays right *)
Lemma occOk_one s s' v id L : occOk s v L -> (forall j, j <> id -> lits s' j = lits s j) ->
  (forall c' d, lits s' id = Some c' -> In (v, d) c' -> exists c, lits s id = Some c /\ In (v, d) c) ->
  (forall c' c d, lits s' id = Some c' -> lits s id = Some c -> In (v, d) c -> In (v, d) c') ->
  (lits s id = None -> lits s' id = None) ->
  occOk s' v L.
Proof.
  intros (X & Y & Z) Lj H1 H2 H3. split; [|split; auto].
  - intros j c d E I. destruct (Nat.eq_dec j id) as [->|Nj].
    + destruct (H1 _ _ E I) as (c0 & E0 & I0). eapply X; eauto.
    + rewrite Lj in E by auto. eapply X; eauto.
  - intros j c d I E. destruct (Nat.eq_dec j id) as [->|Nj].
    + destruct (lits s id) as [c0|] eqn:E0; [|rewrite H3 in E by auto; discriminate]. eapply H2; eauto.
    + rewrite Lj in E by auto. eapply Y; eauto.
Qed.
(** one clause changes and loses [v]; its entry is taken out *)
Lemma occOk_lose s s' v id b A B : occOk s v (A ++ (id, b) :: B) -> (forall j, j <> id -> lits s' j = lits s j) ->
  (forall c', lits s' id = Some c' -> ~ In v (map fst c')) -> occOk s' v (A ++ B).
Proof.
  intros (X & Y & Z) Lj N. rewrite map_app in Z. cbn in Z. pose proof (NoDup_remove_2 _ _ _ Z) as Z2. split; [|split].
  - intros j c d E I. destruct (Nat.eq_dec j id) as [->|Nj].
    + exfalso. apply (N _ E). apply in_map_iff. now exists (v, d).
    + rewrite Lj in E by auto. specialize (X j c d E I). apply in_app_iff in X. cbn in X. apply in_app_iff.
      destruct X as [X|[X|X]]; auto. congruence.
  - intros j c d I E. destruct (Nat.eq_dec j id) as [->|Nj].
    + exfalso. apply Z2. rewrite <- map_app. apply in_map_iff. now exists (id, d).
    + rewrite Lj in E by auto. eapply Y; eauto. apply in_app_iff. apply in_app_iff in I. cbn. tauto.
  - rewrite map_app. now apply NoDup_remove_1 in Z.
Qed.

Lemma dropLit_ex p l : In p l -> exists l', dropLit p l = Some l'.
Proof.
  induction l as [|x l IH]; [intros []|]. cbn. destruct (lit_eqb x p) eqn:E; [eauto|].
  intros [->|I]; [rewrite lit_eqb_refl in E; discriminate|]. destruct (IH I) as [l' ->]. eauto.
Qed.
Lemma dropLit_novar p l l' : NoDup (map fst l) -> dropLit p l = Some l' -> ~ In (fst p) (map fst l').
Proof.
  intros N H. apply dropLit_in in H as (_ & a & b & -> & ->). rewrite map_app in *. cbn in N. now apply NoDup_remove_2 in N.
Qed.

Lemma bsClauses_ok D id c best cls : (k_lits c = [] \/ In best (k_lits c)) -> forall kept s s' kept' b,
  wf0 D s -> occs [fst best] s -> occOk s (fst best) (kept ++ cls) -> lits s id = Some (k_lits c) ->
  bsClauses w id c best cls kept s = Ok (s', kept', b) ->
  (b = true -> wf0 D s' /\ occs [fst best] s' /\ occOk s' (fst best) kept' /\ frame s s'
     /\ (forall a, F s a <-> F s' a) /\ s_facts s' = s_facts s)
  /\ (b = false -> forall a, ~ F s a).
Proof.
  intros Hbest. induction cls as [|[oid sg] cls IH]; intros kept s s' kept' b W O Ok Hc H; cbn in H.
  - injection H as <- <- <-. rewrite app_nil_r in Ok. split; [intros _|discriminate].
    split; [auto|]. split; [auto|]. split; [auto|]. split; [apply frame_refl|]. split; [tauto|auto].
  - assert (Okk : forall x, occOk s (fst best) (kept ++ x :: cls) -> occOk s (fst best) ((kept ++ [x]) ++ cls)).
    { intros x. now rewrite <- app_assoc. }
    apply bind_ok in H as (oo & Ho & H). apply getc_ok in Ho. destruct oo as [other|].
    2:{ apply IH in H; auto. eapply occOk_mid_dead; eauto. intros y E. apply lits_none in Ho. congruence. }
    apply lits_cls in Ho. destruct (oid =? id) eqn:Eid; [apply IH in H; auto|]. apply Nat.eqb_neq in Eid.
    destruct (subsumes _ _ _ _) as [s1 r'] eqn:Es. pose proof Es as Es0. apply (subsumes_ok D s id oid) in Es as (Lm & Lv & Sp); auto.
    pose proof (wf0_lm D _ _ Lm Lv W) as W1.
    pose proof (lmOnly_occs _ _ _ Lm O) as O1. pose proof (lmOnly_lits _ _ Lm) as L1.
    assert (Ok1 : occOk s1 (fst best) (kept ++ (oid, sg) :: cls)).
    { eapply occOk_lsub; [|exact Ok]. intros j y. now rewrite L1. }
    pose proof (fun a => lmOnly_F s s1 a Lm) as F1. pose proof (lmOnly_frame _ _ Lm) as Fr1.
    assert (Ef1 : s_facts s1 = s_facts s) by apply Lm.
    rewrite <- L1 in Hc, Ho.
    (* go back to the state after the comparison *)
    assert (Back : (b = true -> wf0 D s' /\ occs [fst best] s' /\ occOk s' (fst best) kept' /\ frame s1 s'
                      /\ (forall a, F s1 a <-> F s' a) /\ s_facts s' = s_facts s1)
                   /\ (b = false -> forall a, ~ F s1 a) ->
                   (b = true -> wf0 D s' /\ occs [fst best] s' /\ occOk s' (fst best) kept' /\ frame s s'
                      /\ (forall a, F s a <-> F s' a) /\ s_facts s' = s_facts s)
                   /\ (b = false -> forall a, ~ F s a)).
    { intros [A B]. split.
      - intros Hb. destruct (A Hb) as (B1 & B2 & B3 & B4 & B5 & B6). split; [auto|]. split; [auto|]. split; [auto|].
        split; [eapply frame_trans; eauto|]. split; [intros a; now rewrite F1|congruence].
      - intros Hb a Fa. apply (B Hb a). now apply F1. }
    apply Back. clear Back.
    destruct (lit_eqb r' lit_false) eqn:E1.
    { apply IH in H; auto. now rewrite <- app_assoc. }
    apply lit_eqb_neq in E1. destruct Sp as [Sp|(Sall & Sr)]; [congruence|].
    assert (Nd : NoDup (map fst (k_lits other))) by exact (q_nd _ _ _ W1 _ _ Ho).
    destruct (lit_eqb r' lit_true) eqn:E2.
    + (* subsumed *)
      apply lit_eqb_eq in E2. subst r'. apply bind_ok in H as (s2 & H2 & H).
      apply (detach_ok R fz D) in H2 as (c2 & Hc2 & N2 & L2 & W2 & Fr2 & O2 & Ef2 & T2 & F2); auto.
      rewrite Ho in Hc2. injection Hc2 as <-.
      assert (Ls : lsub s1 s2).
      { intros j y Ej. destruct (Nat.eq_dec j oid) as [->|Nj]; [congruence|]. now rewrite <- L2. }
      assert (FF : forall a, F s1 a <-> F s2 a).
      { intros a. rewrite F2. split; [tauto|]. intros Fa. split; [auto|]. destruct Fa as (_ & _ & Cl).
        assert (S : sat_clause a (k_lits c) = true) by (apply (Cl id); rewrite L2; auto).
        eapply sat_incl; [|exact S]. intros p I. destruct (Sall p I) as [K|[K _]]; [auto|].
        exfalso. assert (fst p <> 0) by now apply (q_var _ _ _ W1 _ _ _ Hc I). subst p. now apply H0. }
      apply IH in H; auto.
      * destruct H as [A B]. split.
        -- intros Hb. destruct (A Hb) as (B1 & B2 & B3 & B4 & B5 & B6). split; [auto|]. split; [auto|]. split; [auto|].
           split; [eapply frame_trans; eauto|]. split; [intros a; now rewrite FF|congruence].
        -- intros Hb a Fa. apply (B Hb a). now apply FF.
      * eapply occs_lsub; eauto.
      * eapply (occOk_lose s1 s2); eauto. intros c' Ec. congruence.
      * rewrite L2; auto.
    + (* self-subsumption *)
      apply lit_eqb_neq in E2. set (x := neg r') in *.
      assert (Ix : In x (k_lits other)).
      { destruct Sr as [Sr|(_ & _ & Sr)]; [|exact Sr]. destruct (Bool.eqb (snd best) sg) eqn:Eb; [congruence|].
        subst r'. destruct Ok1 as (_ & Y & _). specialize (Y oid (k_lits other) sg).
        assert (I0 : In (oid, sg) (kept ++ (oid, sg) :: cls)) by (apply in_app_iff; right; now left).
        specialize (Y I0 Ho). unfold x. replace (neg best) with (fst best, sg); [auto|].
        apply pair_eta; cbn; auto. destruct (snd best), sg; cbn in *; congruence. }
      destruct (dropLit_ex _ _ Ix) as [l' Hd].
      pose proof (dropLit_novar _ _ _ Nd Hd) as Nv. pose proof (dropLit_incl _ _ _ Hd) as Inc.
      set (s2 := if fst x =? fst best then s1 else eraseOcc s1 (fst x) (oid, snd x)) in *.
      assert (L2 : forall j, lits s2 j = lits s1 j) by (intros j; unfold s2; now destruct (_ =? _)).
      assert (Sn : s_n s2 = s_n s1 /\ s_elim s2 = s_elim s1 /\ s_tr s2 = s_tr s1 /\ s_lm s2 = s_lm s1 /\ s_wat s2 = s_wat s1
                /\ s_facts s2 = s_facts s1 /\ s_top s2 = s_top s1) by (unfold s2; destruct (_ =? _); repeat split).
      destruct Sn as (Sn1 & Sn2 & Sn3 & Sn4 & Sn5 & Sn6 & Sn7).
      assert (W2 : wf0 D s2).
      { eapply wf0_shrink; eauto; [intros j y; now rewrite L2|]. intros v j _. now rewrite Sn5. }
      assert (F2 : forall a, F s1 a <-> F s2 a) by (intros a; apply F_ext; auto).
      assert (O2 : forall v, v <> fst x -> s_occ s2 v = s_occ s1 v).
      { intros v Nx. unfold s2. destruct (_ =? _); [auto|]. cbn. now apply upd_other. }
      apply bind_ok in H as ([s3 b3] & H3 & H).
      apply (strengthenClause_ok R fz w SW Z0 D [fst best] s2 oid x s3 b3 (k_lits other) l') in H3; auto.
      * destruct H3 as [A3 B3]. destruct b3.
        -- destruct (A3 eq_refl) as (W3 & O3 & Fr3 & F3 & Eo3 & Ef3 & L3 & L3').
           apply bind_ok in H as (o2 & Ho2 & H). apply getc_ok in Ho2.
           assert (L31 : forall j, j <> oid -> lits s3 j = lits s1 j) by (intros j Nj; rewrite L3, L2; auto).
           apply IH in H; auto.
           ++ destruct H as [A B]. split.
              ** intros Hb. destruct (A Hb) as (B1 & B2 & B4 & B5 & B6 & B7). split; [auto|]. split; [auto|]. split; [auto|].
                 split.
                 { eapply frame_trans; [|exact B5]. eapply frame_trans; [|exact Fr3]. constructor; auto. exists []. now rewrite Sn3, app_nil_r. }
                 split; [intros a; now rewrite F2, F3|congruence].
              ** intros Hb a Fa. apply (B Hb a). now apply F3, F2.
           ++ change (fst r') with (fst x). destruct (fst x =? fst best) eqn:Ex; cbn [orb].
              ** apply Nat.eqb_eq in Ex. apply (occOk_lose s1 s3 _ oid sg); [exact Ok1|exact L31|]. intros c' Ec.
                 destruct L3' as [K|K]; [congruence|]. rewrite K in Ec. injection Ec as <-. now rewrite <- Ex.
              ** apply Nat.eqb_neq in Ex. destruct o2 as [k2|].
                 --- rewrite <- app_assoc. cbn. apply (occOk_one s1 s3 _ oid); [exact Ok1|exact L31| | |].
                     +++ intros c' d Ec Id. exists (k_lits other). split; [auto|]. destruct L3' as [K|K]; [congruence|].
                         rewrite K in Ec. injection Ec as <-. auto.
                     +++ intros c' c0 d Ec E0 I0. destruct L3' as [K|K]; [congruence|]. rewrite K in Ec. injection Ec as <-.
                         rewrite Ho in E0. injection E0 as <-. apply (dropLit_iff _ _ _ _ Nd Hd). split; [auto|]. intros K2. apply Ex. now rewrite <- K2.
                     +++ intros K. congruence.
                 --- apply (occOk_lose s1 s3 _ oid sg); [exact Ok1|exact L31|]. intros c' Ec. apply lits_none in Ho2. congruence.
           ++ rewrite L31; auto.
        -- injection H as <- <- <-. split; [discriminate|]. intros _ a Fa. apply (B3 eq_refl a). now apply F2.
      * rewrite L2. auto.
      * (* other occurrence lists *)
        intros v Nb. cbn [s_occ setC]. destruct (Nat.eq_dec v (fst x)) as [->|Nx].
        -- assert (Ex : fst x =? fst best = false) by (apply Nat.eqb_neq; intros K; apply Nb; left; now rewrite K).
           assert (Eo : s_occ s2 (fst x) = eraseL (oid, snd x) (s_occ s1 (fst x))).
           { unfold s2. rewrite Ex. cbn. apply upd_same. }
           rewrite Eo. destruct (O1 (fst x) Nb) as (X & Y & Z).
           pose proof (X oid (k_lits other) (snd x) Ho) as Xo. rewrite <- surjective_pairing in Xo. specialize (Xo Ix).
           destruct (eraseL_nd (oid, snd x) _ Z) as [Z1 Z2]. split; [|split; [|exact Z1]].
           ++ intros j y d. rewrite lits_setC. destruct (j =? oid) eqn:Ej.
              ** cbn. intros K; injection K as <-. intros I. exfalso. apply Nv. apply in_map_iff. now exists (fst x, d).
              ** rewrite L2. intros K I. apply eraseL_in; [eapply X; eauto|]. apply Nat.eqb_neq in Ej. congruence.
           ++ intros j y d I. rewrite lits_setC. destruct (j =? oid) eqn:Ej.
              ** apply Nat.eqb_eq in Ej as ->. exfalso. apply (Z2 Xo). cbn. apply in_map_iff. now exists (oid, d).
              ** rewrite L2. apply Y. eapply eraseL_sub; eauto.
        -- rewrite O2 by auto. eapply (occOk_one s1 _ _ oid); [apply O1; auto| | | |].
           ++ intros j Nj. rewrite lits_setC. apply Nat.eqb_neq in Nj. now rewrite Nj, L2.
           ++ intros c' d. rewrite lits_setC, Nat.eqb_refl. cbn. intros K; injection K as <-. intros I. exists (k_lits other). auto.
           ++ intros c' c0 d. rewrite lits_setC, Nat.eqb_refl. cbn. intros K; injection K as <-. intros K I. rewrite Ho in K. injection K as <-.
              apply (dropLit_iff _ _ _ _ Nd Hd). split; [auto|]. intros K. apply Nx. now rewrite <- K.
           ++ congruence.
      * (* what is left still follows *)
        intros a Fa. apply F2 in Fa. destruct Fa as (_ & _ & Cl). pose proof (Cl _ _ Ho) as So. pose proof (Cl _ _ Hc) as Sc.
        apply sat_in in So as (q & Iq & Hq). apply sat_in. destruct (lit_eq_dec q x) as [->|Nq].
        -- apply sat_in in Sc as (p & Ip & Hp). exists p. split; [|auto]. apply (dropLit_iff _ _ _ _ Nd Hd).
           destruct (Sall p Ip) as [K|[K _]].
           ++ split; [auto|]. intros ->.
              (* p = x = neg r': then x true, and r' in c must ... *)
              destruct Sr as [Sr|(_ & Sr & _)].
              ** destruct (Bool.eqb (snd best) sg); [congruence|]. destruct Hbest as [Hb|Hb]; [rewrite Hb in Ip; destruct Ip|].
                 rewrite <- Sr in Hb. pose proof (q_nd _ _ _ W1 _ _ Hc) as Ndc.
                 assert (x = r'); [|apply (neg_neq r'); auto].
                 assert (fst x = fst r') by reflexivity.
                 clear -Ndc Ip Hb H0. induction (k_lits c) as [|y l IHl]; [destruct Ip|]. cbn in Ndc. inversion Ndc; subst.
                 destruct Ip as [->|Ip], Hb as [Hb|Hb]; auto.
                 --- exfalso. apply H2. rewrite H0. now apply in_map.
                 --- subst. exfalso. apply H2. rewrite <- H0. now apply in_map.
              ** pose proof (q_nd _ _ _ W1 _ _ Hc) as Ndc.
                 assert (x = r'); [|apply (neg_neq r'); auto].
                 assert (fst x = fst r') by reflexivity.
                 clear -Ndc Ip Sr H0. induction (k_lits c) as [|y l IHl]; [destruct Ip|]. cbn in Ndc. inversion Ndc; subst.
                 destruct Ip as [->|Ip], Sr as [Hb|Hb]; auto.
                 --- exfalso. apply H2. rewrite H0. now apply in_map.
                 --- subst. exfalso. apply H2. rewrite <- H0. now apply in_map.
           ++ exfalso. subst p. unfold x in Hq. rewrite holds_neg, Hp in Hq. discriminate.
        -- exists q. split; [|auto]. apply (dropLit_iff _ _ _ _ Nd Hd). auto.
Qed.

Lemma wf_ext D s s' : (forall j, lits s' j = lits s j) -> s_occ s' = s_occ s -> s_wat s' = s_wat s -> (forall v, s_lm s' v = s_lm s v) ->
  s_tr s' = s_tr s -> s_elim s' = s_elim s -> s_n s' = s_n s -> s_facts s' = s_facts s -> wf D s -> wf D s'.
Proof.
  intros A1 A2 A3 A4 A5 A6 A7 A8 (W & O & E). split; [|split].
  - destruct W as [Q1 Q2 Q3 Q4 Q5 Q6 Q7 Q8 Q9]. constructor; rewrite ?A3, ?A5, ?A6, ?A7; auto.
    + intros id c; rewrite A1; apply Q1.
    + intros id c; rewrite A1; apply Q2.
    + intros id c p; rewrite A1; apply Q3.
    + intros id h t v; rewrite A1; apply Q4.
    + intros v; now rewrite A4.
  - eapply occs_lsub; eauto. intros j c. now rewrite A1.
  - congruence.
Qed.

Lemma bsQueue_ok n : forall s s' b, wf (s_tr s) s -> bsQueue w n s = Ok (s', b) ->
  (b = true -> wf (s_tr s') s' /\ frame s s' /\ (forall a, F s a <-> F s' a))
  /\ (b = false -> forall a, ~ F s a).
Proof.
  induction n as [|n IH]; intros s s' b W H; cbn in H; [discriminate|].
  destruct (s_q s) as [|id q] eqn:Eq.
  { injection H as <- <-. split; [|discriminate]. intros _. split; [auto|]. split; [apply frame_refl|tauto]. }
  destruct (w_time w (s_tick s)).
  { injection H as <- <-. split; [|discriminate]. intros _. split; [|split].
    - cbn. apply (wf_ext (s_tr s) s); auto.
    - constructor; auto. exists []. cbn. now rewrite app_nil_r.
    - intros a. apply F_ext; auto. }
  apply bind_ok in H as (co & Hc & H). apply getc_ok in Hc. cbn in Hc. destruct co as [c|].
  - match type of H with context [setC ?t id (Some ?k)] => set (c1 := k) in *; set (s1 := setC t id (Some c1)) in * end.
    assert (L1 : forall j, lits s1 j = lits s j).
    { intros j. unfold s1. rewrite lits_setC. destruct (j =? id) eqn:E; [|reflexivity]. apply Nat.eqb_eq in E as ->.
      cbn. symmetry. exact (lits_cls _ _ _ Hc). }
    assert (W1 : wf (s_tr s1) s1) by (apply (wf_ext (s_tr s) s); auto).
    apply bind_ok in H as (best & Hb & H). apply bind_ok in H as ([[s2 kept] b2] & H2 & H).
    set (s1' := tick s1) in *.
    assert (W1' : wf (s_tr s1) s1') by (apply (wf_ext (s_tr s1) s1); auto).
    destruct W1' as (W1a & W1b & W1c).
    assert (Hbest : k_lits c1 = [] \/ In best (k_lits c1)).
    { destruct (k_lits c1) as [|y r] eqn:El; [auto|]. right. unfold kat, ksize in Hb. rewrite El in Hb.
      assert (El' : k_lits c = y :: r) by exact El. rewrite El' in Hb.
      match type of Hb with context [nth_error _ ?j] => set (i := j) in * end.
      assert (Hi : i < length (y :: r)) by (apply Nat.mod_upper_bound; discriminate).
      rewrite nth_error_app1 in Hb by exact Hi.
      destruct (nth_error (y :: r) i) eqn:En; [|discriminate]. injection Hb as <-. eapply nth_error_In; eauto. }
    apply (bsClauses_ok (s_tr s1) id c1 best _ Hbest) in H2; auto.
    + destruct H2 as [A2 B2]. destruct b2.
      * destruct (A2 eq_refl) as (W2 & O2 & K2 & Fr2 & F2 & Ef2).
        apply bind_ok in H as ([s3 b3] & H3 & H).
        assert (Wk : wf (s_tr s1) (setOcc s2 (fst best) kept)).
        { split; [|split].
          - destruct W2; constructor; auto.
          - intros v _. cbn. unfold upd. destruct (v =? fst best) eqn:Ev.
            + apply Nat.eqb_eq in Ev as ->. exact K2.
            + apply Nat.eqb_neq in Ev. apply (O2 v). intros [K|[]]; congruence.
          - cbn. rewrite Ef2. exact W1c. }
        apply (propagateFacts_ok R fz w SW Z0 n _ _ _ _ Wk) in H3 as [A3 B3].
        assert (F02 : forall a, F s a <-> F (setOcc s2 (fst best) kept) a).
        { intros a. rewrite (F_ext R s s1'); auto. rewrite F2. apply F_ext; auto. }
        destruct b3.
        -- destruct (A3 eq_refl) as (W3 & Fr3 & F3). apply IH in H as [A B]; auto. split.
           ++ intros Hb'. destruct (A Hb') as (C1 & C2 & C3). split; [auto|]. split.
              ** eapply frame_trans; [|exact C2]. eapply frame_trans; [|exact Fr3]. destruct Fr2. constructor; auto.
              ** intros a. now rewrite F02, F3.
           ++ intros Hb' a Fa. apply (B Hb' a). now apply F3, F02.
        -- injection H as <- <-. split; [discriminate|]. intros _ a Fa. apply (B3 eq_refl a). now apply F02.
      * injection H as <- <-. split; [discriminate|]. intros _ a Fa. apply (B2 eq_refl a). apply (F_ext R s s1'); auto.
    + intros v _. apply W1b. intros [].
    + cbn. apply (W1b (fst best)). intros [].
    + unfold s1'. change (lits (tick s1) id) with (lits s1 id). rewrite L1. exact (lits_cls _ _ _ Hc).
  - apply IH in H.
    + destruct H as [A B]. split.
      * intros Hb. destruct (A Hb) as (C1 & C2 & C3). split; [auto|]. split.
        -- eapply frame_trans; [|exact C2]. constructor; auto. exists []. cbn. now rewrite app_nil_r.
        -- intros a. rewrite <- C3. apply F_ext; auto.
      * intros Hb a Fa. apply (B Hb a). apply (F_ext R s); auto.
    + apply (wf_ext (s_tr s) s); auto.
Qed.

Lemma backwardSubsume_ok n D s s' b : wf D s -> backwardSubsume w n s = Ok (s', b) ->
  (b = true -> wf (s_tr s') s' /\ frame s s' /\ (forall a, F s a <-> F s' a))
  /\ (b = false -> forall a, ~ F s a).
Proof.
  intros W H. unfold backwardSubsume in H. apply bind_ok in H as ([s1 b1] & H1 & H).
  apply (propagateFacts_ok R fz w SW Z0 n _ _ _ _ W) in H1 as [A1 B1]. destruct b1.
  - destruct (A1 eq_refl) as (W1 & Fr1 & F1). apply bsQueue_ok in H as [A B]; auto. split.
    + intros Hb. destruct (A Hb) as (C1 & C2 & C3). split; [auto|]. split; [eapply frame_trans; eauto|].
      intros a. now rewrite F1.
    + intros Hb a Fa. apply (B Hb a). now apply F1.
  - injection H as <- <-. split; [discriminate|]. intros _. auto.
Qed.
End El.
