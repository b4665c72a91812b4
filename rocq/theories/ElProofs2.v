(** Preprocessor: removal and strengthening of clauses, propagation of facts *)
From Coq Require Import List Bool Arith ZArith NArith Lia.
Import ListNotations.
From Verif Require Import Base ElModel ElSpec ElProofs.

Notation cnt := (count_occ Nat.eq_dec).

Lemma bind_ok {A B} (r : res A) (f : A -> res B) y : bind r f = Ok y -> exists x, r = Ok x /\ f x = Ok y.
Proof. destruct r; cbn; try discriminate. eauto. Qed.
Lemma deref_ok s id c : deref s id = Ok c -> s_cls s id = Some c /\ id < s_n s.
Proof.
  unfold deref, getc. destruct (id <? s_n s) eqn:E; [|discriminate]. cbn.
  destruct (s_cls s id); [|discriminate]. intros H; injection H as <-. split; auto. now apply Nat.ltb_lt.
Qed.
Lemma getc_ok s id c : getc s id = Ok c -> s_cls s id = c.
Proof. unfold getc. destruct (id <? s_n s); [|discriminate]. congruence. Qed.
Lemma lits_cls s id c : s_cls s id = Some c -> lits s id = Some (k_lits c).
Proof. unfold lits. now intros ->. Qed.
Lemma lits_none s id : s_cls s id = None -> lits s id = None.
Proof. unfold lits. now intros ->. Qed.
Lemma lits_some s id l : lits s id = Some l -> exists c, s_cls s id = Some c /\ k_lits c = l.
Proof. unfold lits. destruct (s_cls s id) as [c|]; [|discriminate]. intros H; injection H as <-. eauto. Qed.
Lemma lits_setC s id c j : lits (setC s id c) j = if j =? id then option_map k_lits c else lits s j.
Proof. unfold lits, setC, upd; cbn. now destruct (j =? id). Qed.

Lemma kat0 c p : kat c 0 = Ok p -> k_lits c <> [] -> exists t, k_lits c = p :: t.
Proof. unfold kat. destruct (k_lits c) as [|x t]; [congruence|]. cbn. intros H _. injection H as <-. eauto. Qed.
Lemma kat1 c p h y t : kat c 1 = Ok p -> k_lits c = h :: y :: t -> p = y.
Proof. unfold kat. intros H E. rewrite E in H. cbn in H. congruence. Qed.

Lemma cnt_erase id x l : cnt (eraseN id l) x <= cnt l x.
Proof.
  induction l as [|y l IH]; cbn; [auto|]. destruct (y =? id) eqn:E; cbn; destruct (Nat.eq_dec y x); lia.
Qed.
Lemma cnt_erase_same id l : cnt (eraseN id l) id = cnt l id - 1.
Proof.
  induction l as [|y l IH]; cbn; [auto|]. destruct (y =? id) eqn:E; cbn.
  - apply Nat.eqb_eq in E. subst. destruct (Nat.eq_dec id id); [lia|congruence].
  - apply Nat.eqb_neq in E. destruct (Nat.eq_dec y id); [congruence|auto].
Qed.
Lemma cnt_app x l m : cnt (l ++ m) x = cnt l x + cnt m x.
Proof. apply count_occ_app. Qed.
Lemma cnt_in x l : In x l <-> 1 <= cnt l x.
Proof. rewrite (count_occ_In Nat.eq_dec). lia. Qed.

Section El.
Context (R : asg -> Prop) (fz : nat -> bool) (w : world) (SW : soundWorld R fz w).
Context (Z0 : forall v, fz v = true -> v <> 0).
Notation F := (F R). Notation wf0 := (wf0 fz).

Lemma F_ext s s' a : s_tr s' = s_tr s -> (forall j, lits s' j = lits s j) -> F s a <-> F s' a.
Proof.
  intros T L. unfold ElProofs.F. rewrite T. split; intros (A & B & C); split; auto; split; auto; intros id c.
  - rewrite L. apply C.
  - rewrite <- L. apply C.
Qed.
Lemma F_drop s s' id c a : s_tr s' = s_tr s -> lits s id = Some c -> lits s' id = None ->
  (forall j, j <> id -> lits s' j = lits s j) -> F s a <-> F s' a /\ sat_clause a c = true.
Proof.
  intros T E N L. unfold ElProofs.F. rewrite T. split.
  - intros (A & B & C). split; [split; [auto|split; [auto|]]|eapply C; eauto].
    intros j x Ej. destruct (Nat.eq_dec j id) as [->|Nj]; [congruence|]. rewrite L in Ej by auto. eapply C; eauto.
  - intros ((A & B & C) & S). split; [auto|split; [auto|]]. intros j x Ej.
    destruct (Nat.eq_dec j id) as [->|Nj]; [congruence|]. rewrite <- L in Ej by auto. eapply C; eauto.
Qed.
Lemma F_repl s s' id c c' a : s_tr s' = s_tr s -> lits s id = Some c -> lits s' id = Some c' ->
  (forall j, j <> id -> lits s' j = lits s j) -> (F s a -> sat_clause a c' = true) ->
  (sat_clause a c' = true -> sat_clause a c = true) -> F s a <-> F s' a.
Proof.
  intros T E E' L H K. split.
  - intros Fa. pose proof (H Fa) as S. destruct Fa as (A & B & C). split; [auto|]. rewrite T. split; [auto|].
    intros j x Ej. destruct (Nat.eq_dec j id) as [->|Nj]; [congruence|]. rewrite L in Ej by auto. eapply C; eauto.
  - intros (A & B & C). rewrite T in B. split; [auto|split; [auto|]]. intros j x Ej.
    destruct (Nat.eq_dec j id) as [->|Nj].
    + rewrite E in Ej. injection Ej as <-. apply K. eapply C; eauto.
    + rewrite <- L in Ej by auto. eapply C; eauto.
Qed.

Lemma wf0_shrink D s s' : wf0 D s -> s_n s' = s_n s -> s_elim s' = s_elim s -> s_tr s' = s_tr s -> s_lm s' = s_lm s ->
  lsub s s' -> (forall v id, lits s' id <> None -> cnt (s_wat s' v) id <= cnt (s_wat s v) id) -> wf0 D s'.
Proof.
  intros [Q1 Q2 Q3 Q4 Q5 Q6 Q7 Q8 Q9] A B C E L W. constructor; rewrite ?A, ?B, ?C, ?E; auto.
  - intros id c H. apply (Q1 id c), L, H.
  - intros id c H. apply (Q2 id c), L, H.
  - intros id c p H. apply (Q3 id c p), L, H.
  - intros id h t v H. specialize (Q4 id h t v (L _ _ H)).
    assert (cnt (s_wat s' v) id <= cnt (s_wat s v) id) by (apply W; congruence). lia.
Qed.

Lemma detach_ok D s id s' : wf0 D s -> detach id s = Ok s' ->
  exists c, lits s id = Some c /\ lits s' id = None /\ (forall j, j <> id -> lits s' j = lits s j)
    /\ wf0 D s' /\ frame s s' /\ s_occ s' = s_occ s /\ s_facts s' = s_facts s /\ s_tr s' = s_tr s
    /\ forall a, F s a <-> F s' a /\ sat_clause a c = true.
Proof.
  intros W H. unfold detach in H. apply bind_ok in H as (c & Hc & H). apply bind_ok in H as (x & Hx & H).
  injection H as <-. apply deref_ok in Hc as [Hc _]. apply lits_cls in Hc. exists (k_lits c).
  set (s' := setC _ _ _).
  assert (N : lits s' id = None) by (unfold s'; rewrite lits_setC, Nat.eqb_refl; auto).
  assert (L : forall j, j <> id -> lits s' j = lits s j).
  { intros j Nj. unfold s'. rewrite lits_setC. apply Nat.eqb_neq in Nj. now rewrite Nj. }
  split; [auto|]. split; [auto|]. split; [auto|]. split; [|split; [|split; [auto|split; [auto|split; [auto|]]]]].
  - eapply wf0_shrink; eauto.
    + intros j y Ej. destruct (Nat.eq_dec j id) as [->|Nj]; [congruence|]. now rewrite <- L.
    + intros v j _. cbn. unfold upd. destruct (v =? fst x) eqn:E; [|auto]. apply Nat.eqb_eq in E as ->. apply cnt_erase.
  - constructor; auto. exists []. cbn. now rewrite app_nil_r.
  - intros a. apply (F_drop s s' id); auto.
Qed.

(** [dropLit] *)
Lemma dropLit_in p l : forall l', dropLit p l = Some l' -> In p l /\ exists a b, l = a ++ p :: b /\ l' = a ++ b.
Proof.
  induction l as [|x l IH]; cbn; [discriminate|]. intros l'. destruct (lit_eqb x p) eqn:E.
  - apply lit_eqb_eq in E as ->. intros H; injection H as <-. split; [now left|]. now exists [], l.
  - destruct (dropLit p l) as [r|]; [|discriminate]. intros H; injection H as <-.
    destruct (IH r eq_refl) as (I & a & b & -> & ->). split; [now right|]. now exists (x :: a), b.
Qed.
Lemma dropLit_iff p l l' q : NoDup (map fst l) -> dropLit p l = Some l' -> In q l' <-> In q l /\ q <> p.
Proof.
  intros N H. apply dropLit_in in H as (_ & a & b & -> & ->).
  rewrite map_app in N; cbn in N. apply NoDup_remove_2 in N. rewrite <- map_app in N.
  rewrite !in_app_iff. cbn. split.
  - intros I. split; [tauto|]. intros ->. apply N. apply in_map. now apply in_app_iff.
  - intros [[I|[I|I]] K]; subst; tauto.
Qed.
Lemma dropLit_nd p l l' : NoDup (map fst l) -> dropLit p l = Some l' -> NoDup (map fst l').
Proof.
  intros N H. apply dropLit_in in H as (_ & a & b & -> & ->). rewrite map_app in *. cbn in N.
  now apply NoDup_remove_1 in N.
Qed.
Lemma sat_in a c : sat_clause a c = true <-> exists p, In p c /\ holds a p = true.
Proof. unfold sat_clause. apply existsb_exists. Qed.
Lemma sat_incl a c d : incl c d -> sat_clause a c = true -> sat_clause a d = true.
Proof. rewrite !sat_in. intros I (p & H & K). exists p. auto. Qed.
Lemma dropLit_incl p l l' : dropLit p l = Some l' -> incl l' l.
Proof. intros H. apply dropLit_in in H as (_ & a & b & -> & ->). intros q. rewrite !in_app_iff; cbn. tauto. Qed.

Lemma addToSubQueue_ok D s id s' : addToSubQueue id s = Ok s' ->
  (forall j, lits s' j = lits s j) /\ s_occ s' = s_occ s /\ s_facts s' = s_facts s /\ s_tr s' = s_tr s /\ frame s s'
  /\ s_wat s' = s_wat s /\ s_lm s' = s_lm s /\ (wf0 D s -> wf0 D s').
Proof.
  intros H. unfold addToSubQueue in H. apply bind_ok in H as (c & Hc & H). apply deref_ok in Hc as [Hc _].
  injection H as <-. destruct (k_inq c).
  - split; [auto|]. split; [auto|]. split; [auto|]. split; [auto|]. split; [apply frame_refl|]. auto.
  - set (s' := setC _ _ _).
    assert (L : forall j, lits s' j = lits s j).
    { intros j. unfold s'. rewrite lits_setC. destruct (j =? id) eqn:E; [|reflexivity].
      apply Nat.eqb_eq in E as ->. cbn. symmetry. now apply lits_cls. }
    split; [auto|]. split; [auto|]. split; [auto|]. split; [auto|]. split; [constructor; auto; exists []; cbn; now rewrite app_nil_r|].
    split; [auto|]. split; [auto|]. intros W. eapply wf0_shrink; eauto.
    intros j y. now rewrite L.
Qed.

Lemma strengthenClause_ok D x s id l s' b c l' :
  wf0 D s -> lits s id = Some c -> dropLit l c = Some l' ->
  occs x (setC s id (Some (Pcl l' [] false 0%N))) ->
  (forall a, F s a -> sat_clause a l' = true) ->
  strengthenClause w id l s = Ok (s', b) ->
  (b = true -> wf0 D s' /\ occs x s' /\ frame s s' /\ (forall a, F s a <-> F s' a) /\ s_occ s' = s_occ s
     /\ s_facts s' = s_facts s /\ (forall j, j <> id -> lits s' j = lits s j)
     /\ (lits s' id = None \/ lits s' id = Some l'))
  /\ (b = false -> forall a, ~ F s a).
Proof.
  intros W Hc Hd Ho Hs H. unfold strengthenClause in H.
  apply bind_ok in H as (k & Hk & H). apply deref_ok in Hk as [Hk _].
  pose proof (lits_cls _ _ _ Hk) as Hk'. rewrite Hc in Hk'. injection Hk' as Hk'.
  apply bind_ok in H as (h & Hh & H). apply bind_ok in H as (s1 & H1 & H). apply bind_ok in H as (k2 & H2 & H).
  assert (Hk2 : k_lits k2 = l').
  { unfold strengthen in H2. rewrite <- Hk', Hd in H2. injection H2 as <-. reflexivity. }
  assert (Ne : k_lits k <> []).
  { rewrite <- Hk'. apply dropLit_in in Hd as [I _]. destruct c; [destruct I|congruence]. }
  destruct (kat0 _ _ Hh Ne) as [t Ht]. pose proof (q_nd _ _ _ W _ _ Hc) as Nd.
  (* the state with the clause replaced *)
  set (s2 := setC s1 id (Some k2)) in *.
  assert (P1 : s_n s1 = s_n s /\ s_elim s1 = s_elim s /\ s_tr s1 = s_tr s /\ s_lm s1 = s_lm s /\ s_occ s1 = s_occ s
            /\ s_cls s1 = s_cls s /\ s_top s1 = s_top s /\ s_facts s1 = s_facts s).
  { destruct (lit_eqb h l); [apply bind_ok in H1 as (y & _ & H1)|]; injection H1 as <-; repeat split. }
  destruct P1 as (En & Ee & Et & El & Eo & Ec & Ep & Ef).
  assert (L2 : forall j, lits s2 j = if j =? id then Some l' else lits s j).
  { intros j. unfold s2. rewrite lits_setC. cbn. rewrite Hk2. unfold lits. now rewrite Ec. }
  assert (W2 : wf0 D s2).
  { destruct W as [Q1 Q2 Q3 Q4 Q5 Q6 Q7 Q8 Q9]. constructor; cbn; rewrite ?En, ?Ee, ?Et, ?El; auto.
    - intros j y. rewrite L2. destruct (j =? id) eqn:E; [|apply Q1]. apply Nat.eqb_eq in E as ->. intros _. eapply Q1; eauto.
    - intros j y. rewrite L2. destruct (j =? id) eqn:E; [|apply Q2]. intros K; injection K as <-. eapply dropLit_nd; eauto.
    - intros j y p. rewrite L2. destruct (j =? id) eqn:E; [|apply Q3]. intros K; injection K as <-. intros I.
      eapply Q3; [exact Hc|]. eapply dropLit_incl; eauto.
    - intros j h2 t2 v. rewrite L2. destruct (j =? id) eqn:E.
      + apply Nat.eqb_eq in E as ->. intros K; injection K as K.
        rewrite Ht in Hk'. subst c. pose proof (Q4 _ _ _ v Hc) as C1.
        cbn in Hd. destruct (lit_eqb h l) eqn:E2.
        * injection Hd as ->. apply bind_ok in H1 as (y & Hy & H1). injection H1 as <-.
          rewrite K in *. pose proof (kat1 _ _ _ _ _ Hy Ht) as ->. cbn.
          cbn in Nd. inversion Nd as [|? ? Nd1 Nd2]; subst. cbn in Nd1.
          unfold upd. destruct (v =? fst h2) eqn:E3.
          -- apply Nat.eqb_eq in E3 as ->. rewrite cnt_app. cbn. destruct (Nat.eq_dec id id); [|congruence].
             rewrite Nat.eqb_refl. pose proof (Q4 _ _ _ (fst h2) Hc) as C2.
             destruct (fst h =? fst h2) eqn:E4; [apply Nat.eqb_eq in E4; exfalso; apply Nd1; auto|].
             rewrite (Nat.eqb_sym (fst h2) (fst h)), E4. lia.
          -- rewrite (Nat.eqb_sym (fst h2) v), E3. destruct (v =? fst h) eqn:E4.
             ++ rewrite cnt_erase_same. apply Nat.eqb_eq in E4 as ->. rewrite Nat.eqb_refl in C1. lia.
             ++ rewrite (Nat.eqb_sym (fst h) v), E4 in C1. lia.
        * destruct (dropLit l t) as [t'|]; [|discriminate]. injection Hd as Hd. subst l'. injection K as -> ->.
          injection H1 as <-. exact C1.
      + intros K. pose proof (Q4 _ _ _ v K) as C1. apply Nat.eqb_neq in E.
        assert (cnt (s_wat s1 v) j <= cnt (s_wat s v) j); [|lia].
        destruct (lit_eqb h l); [|injection H1 as <-; auto]. apply bind_ok in H1 as (y & _ & H1). injection H1 as <-.
        cbn. unfold upd. destruct (v =? fst y) eqn:E3.
        * rewrite cnt_app. cbn. destruct (Nat.eq_dec id j); [congruence|].
          apply Nat.eqb_eq in E3 as <-. destruct (v =? fst h) eqn:E4.
          -- apply Nat.eqb_eq in E4 as <-. pose proof (cnt_erase id j (s_wat s v)). lia.
          -- lia.
        * destruct (v =? fst h) eqn:E4; [|auto]. apply Nat.eqb_eq in E4 as <-. apply cnt_erase. }
  assert (O2 : occs x s2).
  { intros v Nv. specialize (Ho v Nv). cbn [s_occ setC] in Ho. replace (s_occ s2) with (s_occ s) by (symmetry; exact Eo).
    eapply occOk_lsub; [|exact Ho]. intros j y. rewrite L2, lits_setC. cbn. auto. }
  assert (F2 : forall a, F s a <-> F s2 a).
  { intros a. apply (F_repl s s2 id c l'); auto.
    - rewrite L2, Nat.eqb_refl. auto.
    - intros j Nj. rewrite L2. apply Nat.eqb_neq in Nj. now rewrite Nj.
    - apply sat_incl. eapply dropLit_incl; eauto. }
  assert (Fr2 : frame s s2).
  { constructor; cbn; auto. exists []. now rewrite Et, app_nil_r. }
  destruct (ksize k2 =? 1) eqn:E1.
  - (* unit *)
    apply bind_ok in H as (u & Hu & H). apply bind_ok in H as (s3 & H3 & H).
    apply Nat.eqb_eq in E1. unfold ksize in E1.
    destruct (kat0 _ _ Hu) as [t2 Ht2]; [intros K; rewrite K in E1; discriminate|].
    assert (t2 = []) by (rewrite Ht2 in E1; destruct t2; [auto|discriminate]). subst t2.
    apply (detach_ok D) in H3 as (c3 & Hc3 & N3 & L3 & W3 & Fr3 & O3 & Ef3 & T3 & F3); auto.
    rewrite L2, Nat.eqb_refl in Hc3. injection Hc3 as <-. rewrite Hk2 in Ht2.
    destruct (q_var _ _ _ W id c u Hc) as (Zu & Eu & _).
    { apply (dropLit_incl _ _ _ Hd). rewrite Ht2. now left. }
    destruct (force s3 u) as [s4 b4] eqn:E4.
    apply (force_ok R fz D) in E4 as (T4 & W4 & G4 & B4); auto.
    2:{ rewrite (f_elim _ _ Fr3). cbn. now rewrite Ee. }
    assert (F3' : forall a, F s a <-> F s3 a /\ holds a u = true).
    { intros a. rewrite F2, F3, Ht2. cbn. now rewrite orb_false_r. }
    destruct b4.
    + injection H as H. apply (propagate_ok R fz w SW D) in H as (T5 & W5 & G5 & B5); auto.
      split.
      * intros ->. split; [auto|]. pose proof (trOnly_trans _ _ _ T4 T5) as T.
        split; [|split; [|split; [|split; [|split; [|split]]]]].
        -- eapply trOnly_occs; [exact T|]. eapply occs_lsub; [|exact O3|exact O2].
           intros j y Ej. destruct (Nat.eq_dec j id) as [->|Nj]; [congruence|]. now rewrite <- L3.
        -- eapply frame_trans; [exact Fr2|]. eapply frame_trans; [exact Fr3|]. now apply trOnly_frame.
        -- intros a. rewrite F3', <- (G4 eq_refl a). now rewrite (G5 eq_refl a).
        -- destruct T as (_ & _ & T & _). rewrite T, O3. cbn. auto.
        -- destruct T as (_ & _ & _ & _ & _ & T & _). rewrite T, Ef3. cbn. auto.
        -- intros j Nj. rewrite (trOnly_lits _ _ T), L3, L2 by auto. apply Nat.eqb_neq in Nj. now rewrite Nj.
        -- left. now rewrite (trOnly_lits _ _ T).
      * intros -> a Fa. apply F3' in Fa. apply (G4 eq_refl) in Fa. now apply (B5 eq_refl a).
    + injection H as <- <-. split; [discriminate|]. intros _ a Fa. apply F3' in Fa as [Fa K].
      rewrite (B4 eq_refl a Fa) in K. discriminate.
  - apply bind_ok in H as (s3 & H3 & H). injection H as <- <-.
    apply (addToSubQueue_ok D) in H3 as (L3 & O3 & Ef3 & T3 & Fr3 & _ & _ & W3).
    split; [intros _|discriminate]. split; [auto|]. split; [|split; [|split; [|split; [|split; [|split]]]]].
    + eapply occs_lsub; [|exact O3|exact O2]. intros j y. now rewrite L3.
    + eapply frame_trans; eauto.
    + intros a. rewrite F2. apply F_ext; auto.
    + rewrite O3. cbn. auto.
    + rewrite Ef3. cbn. auto.
    + intros j Nj. rewrite L3, L2. apply Nat.eqb_neq in Nj. now rewrite Nj.
    + right. now rewrite L3, L2, Nat.eqb_refl.
Qed.

(** ** Facts *)
Lemma occOk_cons_dead s v id b L : occOk s v ((id, b) :: L) -> (forall c, lits s id = Some c -> ~ In v (map fst c)) -> occOk s v L.
Proof.
  intros (A & B & C) N. split; [|split].
  - intros j c d E I. destruct (A j c d E I) as [K|K]; [|auto]. injection K as <- <-.
    exfalso. apply (N c E). apply in_map_iff. now exists (v, b).
  - intros j c d I. apply B. now right.
  - now inversion C.
Qed.
Lemma pfClauses_ok D X l v cls : fst l = v -> forall s s' b,
  wf0 D s -> occs (v :: X) s -> occOk s v cls -> In l (s_tr s) ->
  pfClauses w l cls s = Ok (s', b) ->
  (b = true -> wf0 D s' /\ occs (v :: X) s' /\ frame s s' /\ (forall a, F s a <-> F s' a)
     /\ s_facts s' = s_facts s /\ (forall id c, lits s' id = Some c -> ~ In v (map fst c)))
  /\ (b = false -> forall a, ~ F s a).
Proof.
  intros Ev. induction cls as [|[id sg] cls IH]; intros s s' b W O Ok It H; cbn in H.
  - injection H as <- <-. split; [intros _|discriminate]. split; [auto|]. split; [auto|]. split; [apply frame_refl|].
    split; [tauto|]. split; [auto|]. intros id c E I. apply in_map_iff in I as ([u sg] & Eu & I). cbn in Eu; subst u.
    destruct Ok as [A _]. apply (A _ _ _ E I).
  - apply bind_ok in H as (co & Hc & H). apply getc_ok in Hc. destruct co as [c|].
    + apply lits_cls in Hc. pose proof Ok as (OA & OB & OC).
      pose proof (OB id _ sg (or_introl eq_refl) Hc) as Ic.
      destruct (Bool.eqb sg (snd l)) eqn:Es.
      * apply eqb_prop in Es. apply bind_ok in H as (s1 & H1 & H).
        apply (detach_ok D) in H1 as (c1 & Hc1 & N1 & L1 & W1 & Fr1 & O1 & Ef1 & T1 & F1); auto.
        assert (Ls : lsub s s1).
        { intros j y Ej. destruct (Nat.eq_dec j id) as [->|Nj]; [congruence|]. now rewrite <- L1. }
        apply IH in H; auto.
        -- destruct H as [Ht Hf].
           assert (FF : forall a, F s a <-> F s1 a).
           { intros a. rewrite F1. split; [tauto|]. intros Fa. split; [auto|]. rewrite Hc in Hc1. injection Hc1 as <-.
             apply sat_in. exists l. split; [|apply Fa; now rewrite T1].
             destruct l as [u t]; cbn in *; subst; auto. }
           split.
           ++ intros Hb. destruct (Ht Hb) as (A1 & A2 & A3 & A4 & A5 & A6). split; [auto|]. split; [auto|].
              split; [eapply frame_trans; eauto|]. split; [intros a; now rewrite FF|]. split; [congruence|auto].
           ++ intros Hb a Fa. apply (Hf Hb a). now apply FF.
        -- eapply occs_lsub; eauto.
        -- eapply occOk_cons_dead; [eapply occOk_lsub; eauto|]. intros y Ey. congruence.
        -- now rewrite T1.
      * apply bind_ok in H as ([s1 b1] & H1 & H).
        assert (Enl : neg l = (v, sg)).
        { destruct l as [u t]; cbn in *; subst. unfold neg; cbn. destruct sg, t; cbn in *; congruence. }
        destruct (dropLit (neg l) (k_lits c)) as [l'|] eqn:Hd.
        2:{ exfalso. rewrite Enl in Hd. clear -Ic Hd. induction (k_lits c) as [|y r IH2]; [destruct Ic|]. cbn in Hd.
            destruct (lit_eqb y (v, sg)) eqn:E; [discriminate|]. destruct (dropLit (v, sg) r) eqn:E2; [discriminate|].
            destruct Ic as [->|Ic]; [rewrite lit_eqb_refl in E; discriminate|]. auto. }
        pose proof (q_nd _ _ _ W _ _ Hc) as Nd.
        assert (Ndv : ~ In v (map fst l')).
        { rewrite Enl in Hd. apply dropLit_in in Hd as (_ & xa & xb & E1 & ->). rewrite E1, map_app in Nd. cbn in Nd.
          apply NoDup_remove_2 in Nd. now rewrite map_app. }
        apply (strengthenClause_ok D (v :: X) s id (neg l) s1 b1 (k_lits c) l') in H1; auto.
        -- destruct H1 as [Ht Hf]. destruct b1.
           ++ destruct (Ht eq_refl) as (W1 & O1 & Fr1 & F1 & Eo1 & Ef1 & L1 & L1').
              apply IH in H; auto.
              ** destruct H as [Ht2 Hf2]. split.
                 --- intros Hb. destruct (Ht2 Hb) as (A1 & A2 & A3 & A4 & A5 & A6). split; [auto|]. split; [auto|].
                     split; [eapply frame_trans; eauto|]. split; [intros a; now rewrite F1|]. split; [congruence|auto].
                 --- intros Hb a Fa. apply (Hf2 Hb a). now apply F1.
              ** (* occurrences of the remaining entries *)
                 inversion OC; subst. split; [|split; auto].
                 --- intros j y d Ej Ij. destruct (Nat.eq_dec j id) as [->|Nj].
                     +++ exfalso. destruct L1' as [K|K]; [congruence|]. rewrite K in Ej. injection Ej as <-.
                         apply Ndv. apply in_map_iff. now exists (fst l, d).
                     +++ rewrite L1 in Ej by auto. destruct (OA j y d Ej Ij) as [K|K]; [congruence|auto].
                 --- intros j y d Ij Ej. destruct (Nat.eq_dec j id) as [->|Nj].
                     +++ exfalso. match goal with K : ~ In id _ |- _ => apply K end. apply in_map_iff. now exists (id, d).
                     +++ rewrite L1 in Ej by auto. apply (OB j y d); [now right|auto].
              ** destruct (f_tr _ _ Fr1) as [r ->]. apply in_app_iff. auto.
           ++ injection H as <- <-. split; [discriminate|]. auto.
        -- (* other occurrence lists *)
           intros u Nu. cbn [s_occ setC]. destruct (O u Nu) as (A & B & C). split; [|split; auto].
           ++ intros j y d. rewrite lits_setC. destruct (j =? id) eqn:E; [|apply A].
              apply Nat.eqb_eq in E as ->. cbn. intros K; injection K as <-. intros I. eapply A; [exact Hc|].
              eapply dropLit_incl; eauto.
           ++ intros j y d I. rewrite lits_setC. destruct (j =? id) eqn:E; [|now apply B].
              apply Nat.eqb_eq in E as ->. cbn. intros K; injection K as <-.
              apply (dropLit_iff _ _ _ _ Nd Hd). split; [eapply B; eauto|]. rewrite Enl. intros K; injection K as -> ->. apply Nu; now left.
        -- intros a Fa. pose proof Fa as (_ & Tr & Cl). apply Tr in It. specialize (Cl _ _ Hc). apply sat_in in Cl as (q & Iq & Hq).
           apply sat_in. exists q. split; [|auto]. apply (dropLit_iff _ _ _ _ Nd Hd). split; [auto|]. intros ->.
           rewrite holds_neg, It in Hq. discriminate.
    + apply IH in H; auto. eapply occOk_cons_dead; eauto. intros y E. apply lits_none in Hc. congruence.
Qed.

Lemma lmD_snoc D l u : lmD (D ++ [l]) u = match lmD D u with Some b => Some b | None => if fst l =? u then Some (negb (snd l)) else None end.
Proof.
  unfold lmD. induction D as [|p D IH]; cbn; [now destruct (fst l =? u)|]. destruct (fst p =? u); auto.
Qed.
Lemma lmD_none D v : lmD D v = None <-> ~ In v (map fst D).
Proof.
  unfold lmD. induction D as [|p D IH]; cbn; [tauto|]. destruct (fst p =? v) eqn:E.
  - apply Nat.eqb_eq in E. split; [discriminate|]. intros K. exfalso. apply K. now left.
  - apply Nat.eqb_neq in E. rewrite IH. tauto.
Qed.
Lemma lmD_some D v b : lmD D v = Some b -> In (v, negb b) D.
Proof.
  unfold lmD. induction D as [|p D IH]; cbn; [discriminate|]. destruct (fst p =? v) eqn:E.
  - apply Nat.eqb_eq in E. cbn. intros K; injection K as <-. left. rewrite negb_involutive, <- E. now destruct p.
  - intros K. right. auto.
Qed.

Definition wfx (X : list nat) (D : list lit) (s : st) : Prop := wf0 D s /\ occs X s /\ s_facts s = length D.
Notation wf := (wfx []).

Lemma propagateFacts_okx X n : forall D s s' b, wfx X D s -> (forall v, In v X -> s_elim s v = true) ->
  propagateFacts w n s = Ok (s', b) ->
  (b = true -> wfx X (s_tr s') s' /\ frame s s' /\ (forall a, F s a <-> F s' a))
  /\ (b = false -> forall a, ~ F s a).
Proof.
  induction n as [|n IH]; intros D s s' b (W & O & Ef) HX H; cbn in H; [discriminate|].
  destruct (s_facts s =? length (s_tr s)) eqn:E.
  - apply Nat.eqb_eq in E. injection H as <- <-. split; [intros _|discriminate].
    destruct (q_tr _ _ _ W) as [r Er].
    assert (r = []) by (rewrite Er, app_length in E; destruct r; [auto|cbn in E; lia]). subst r. rewrite app_nil_r in Er.
    split; [|split; [apply frame_refl|tauto]]. rewrite Er. split; auto.
  - destruct (nth_error (s_tr s) (s_facts s)) as [l|] eqn:El; [|discriminate].
    apply bind_ok in H as ([s1 b1] & H1 & H). destruct (q_tr _ _ _ W) as [r Er].
    assert (exists r', r = l :: r') as [r' ->].
    { rewrite Er, Ef, nth_error_app2, Nat.sub_diag in El by lia. destruct r; cbn in El; [discriminate|]. injection El as ->. eauto. }
    cbn [s_occ setFacts] in H1.
    set (s0 := setFacts s (S (s_facts s))) in *.
    assert (W0 : wf0 D s0) by (destruct W; constructor; auto).
    apply (pfClauses_ok D X l (fst l)) in H1; auto.
    2:{ intros u Nu. apply (O u). intros K. apply Nu. now right. }
    2:{ apply (O (fst l)). intros K. apply HX in K. destruct (q_tvar _ _ _ W l) as [_ K2]; [rewrite Er; apply in_app_iff; right; now left|congruence]. }
    2:{ cbn. rewrite Er. apply in_app_iff. right. now left. }
    destruct H1 as [Ht Hf]. destruct b1.
    + destruct (Ht eq_refl) as (W1 & O1 & Fr1 & F1 & Ef1 & Nv).
      set (s2 := mark (clearOcc s1 (fst l)) (neg l)) in *.
      assert (L2 : forall j, lits s2 j = lits s1 j) by reflexivity.
      assert (W2 : wfx X (D ++ [l]) s2).
      { split; [|split].
        - destruct W1 as [Q1 Q2 Q3 Q4 Q5 [r1 Q6] Q7 Q8 Q9]. constructor; cbn; auto.
          + intros id c p Ej I. change (lits s1 id = Some c) in Ej. destruct (Q3 _ _ _ Ej I) as (A1 & A2 & A3).
            split; [auto|split; [auto|]]. rewrite map_app, in_app_iff. cbn. intros [K|[K|[]]]; [auto|].
            apply (Nv _ _ Ej). rewrite K. now apply in_map.
          + intros id h t v Ej. change (lits s1 id = Some (h :: t)) in Ej. unfold upd. destruct (v =? fst l); [cbn; lia|].
            eapply Q4; eauto.
          + intros v. rewrite lmD_snoc. unfold upd. cbn.
            assert (Dl : lmD D (fst l) = None).
            { apply lmD_none. pose proof (q_tnd _ _ _ W) as Nd. rewrite Er, map_app in Nd. cbn in Nd. apply NoDup_remove_2 in Nd.
              intros K. apply Nd, in_app_iff. auto. }
            destruct (v =? fst l) eqn:Ev.
            * apply Nat.eqb_eq in Ev as ->. now rewrite Dl, Nat.eqb_refl.
            * rewrite Q5, Nat.eqb_sym, Ev. now destruct (lmD D v).
          + destruct (f_tr _ _ Fr1) as [r2 Er2]. cbn in Er2. rewrite Er2, Er. exists (r' ++ r2).
            now rewrite <- !app_assoc.
        - intros v NX. cbn. unfold upd. destruct (v =? fst l) eqn:Ev.
          + apply Nat.eqb_eq in Ev as ->. split; [|split; [intros ? ? ? []|constructor]].
            intros id c d Ej I. exfalso. apply (Nv _ _ Ej). apply in_map_iff. now exists (fst l, d).
          + apply Nat.eqb_neq in Ev. apply (O1 v). intros [K|K]; [congruence|auto].
        - cbn. rewrite Ef1. cbn. rewrite app_length; cbn. lia. }
      apply (IH _ _ _ _ W2) in H as [Ht2 Hf2]; [|intros v Iv; cbn; rewrite (f_elim _ _ Fr1); cbn; auto].
      assert (FF : forall a, F s a <-> F s2 a) by exact F1.
      split.
      * intros Hb. destruct (Ht2 Hb) as (A & B & C). split; [auto|]. split.
        -- eapply frame_trans; [|exact B]. destruct Fr1. constructor; auto.
        -- intros a. now rewrite FF.
      * intros Hb a Fa. apply (Hf2 Hb a). now apply FF.
    + injection H as <- <-. split; [discriminate|]. exact Hf.
Qed.
Lemma propagateFacts_ok n D s s' b : wf D s -> propagateFacts w n s = Ok (s', b) ->
  (b = true -> wf (s_tr s') s' /\ frame s s' /\ (forall a, F s a <-> F s' a))
  /\ (b = false -> forall a, ~ F s a).
Proof. intros W. apply (propagateFacts_okx [] n D s s' b W). intros v []. Qed.
End El.
