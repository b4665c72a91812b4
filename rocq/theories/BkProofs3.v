(** The update after a model, and all steps. *)
From Coq Require Import List Bool Arith ZArith Lia.
Import ListNotations.
From Verif Require Import Base ClModel EnModel EnSpec BkModel BkSpec BkProofs BkProofs2.

Section Inv3.
Variables (n : nat) (F : list clause) (proj : option (nat -> bool)) (step : lit) (As : list lit).
Notation cov := (covers n (modeB proj)).
Notation U := (U n F proj As).
Notation J := (J n F proj step As).
Notation sep := (sep n proj step).
Notation sepAll := (sepAll n proj step).
Notation Dead := (Dead n F proj As).
Notation P' := (P' proj).
Notation nogoodOf := (nogoodOf n proj step).
Notation Inv := (Inv n F proj step As).

Lemma model_trail s : J s -> forall q, tr s q = true -> holds (modelB s) q = true.
Proof.
  intros HJ [v b] T. unfold holds, modelB. cbn [fst snd]. destruct b; [|change (v, false) with (pos v) in T; now rewrite T].
  destruct (tr s (pos v)) eqn:E; auto. exfalso. apply (j_cons _ _ _ _ _ s HJ (pos v) E). exact T.
Qed.
Lemma prefixLen_le P ds : prefixLen P ds <= length ds.
Proof. induction ds as [|d ds IH]; cbn; auto. destruct (P (fst d)); cbn; lia. Qed.
Lemma prefixLen_in P ds i d0 : i < prefixLen P ds -> P (fst (nth i ds d0)) = true.
Proof. revert i. induction ds as [|d ds IH]; cbn; intros i L; [lia|]. destruct (P (fst d)) eqn:E; [|lia]. destruct i; auto. apply IH. lia. Qed.
Lemma prefixLen_max P ds k d0 : k <= length ds -> (forall i, i < k -> P (fst (nth i ds d0)) = true) -> k <= prefixLen P ds.
Proof. revert k. induction ds as [|d ds IH]; cbn; intros k L H; [lia|]. destruct k; [lia|]. rewrite (H 0) by lia. apply le_n_S. apply IH; [lia|]. intros i Li. apply (H (S i)). lia. Qed.
Lemma nth_skipn {T} (l : list T) k i d : nth i (skipn k l) d = nth (k + i) l d.
Proof. revert l. induction k as [|k IH]; intros l; cbn; auto. destruct l; cbn; auto. now destruct i. Qed.

Section Upd.
Variable s : bst.
Hypothesis HJ : J s.
Hypothesis HS : sepAll s.
Hypothesis HC : cfl s = false.
Hypothesis HT : forall v, 1 <= v <= n -> tr s (pos v) = true \/ tr s (ngt v) = true.
Hypothesis HM : forall c, In c (clauses F s) -> sat_clause (modelB s) c = true.
Notation m := (modelB s).
Notation rep' := (rep s ++ [m]).
Definition sc : bst := commitLevel proj (setRep s rep').
Definition f' : nat := flip sc.

Lemma model_model : isModelB F As m.
Proof.
  split; [|split].
  - destruct (j_true _ _ _ _ _ s HJ) as (b & I). unfold modelB. apply tr_in, in_lits. right. exists 0, b. split; auto. lia.
  - apply forallb_forall. intros c I. apply HM. unfold clauses. apply in_or_app. now left.
  - intros p I. apply (model_trail s HJ). apply dec_tr. rewrite <- (j_as _ _ _ _ _ s HJ) in I. now apply in_firstn in I.
Qed.
Lemma model_new x : In x (rep s) -> ~ cov x m.
Proof.
  intros Ix C. rewrite cov_iff in C. destruct (HS x Ix) as [(p & I & V & E)|(y & j & I & _)].
  - assert (T : tr s p = true) by (apply tr_lits with (flip s); auto; apply (j_root _ _ _ _ _ s HJ)). apply (model_trail s HJ) in T. destruct V as [V1 V2]. unfold holds in T, E. rewrite (C _ V1 V2) in E. congruence.
  - destruct (j_pn _ _ _ _ _ s HJ _ _ I) as (Hp & _). assert (X : sat_clause m (nogoodOf x) = true) by (apply HM; unfold clauses; apply in_or_app; right; apply in_or_app; right; apply in_map_iff; eexists; split; [|exact I]; reflexivity).
    assert (St : holds m step = true) by (apply (model_trail s HJ); apply tr_lits with (root s); [pose proof (j_root _ _ _ _ _ s HJ); lia|apply (j_step _ _ _ _ _ s HJ)]).
    unfold BkProofs.nogoodOf in X. unfold BkProofs.P' in C. destruct proj as [Q|]; [|congruence]. unfold sat_clause in X. rewrite existsb_app in X. apply orb_true_iff in X as [X|X].
    + apply existsb_exists in X as (q & Iq & Eq). apply in_map_iff in Iq as (v & <- & Iv). apply filter_In in Iv as [Iv Qv]. apply in_seq in Iv. rewrite holds_neg in Eq. apply negb_true_iff in Eq.
      assert (holds m (litOf x v) = true); [|congruence]. apply litOf_val. apply C; auto. lia.
    + cbn in X. rewrite orb_false_r, holds_neg in X. apply negb_true_iff in X. congruence.
Qed.

Lemma sc_eq : exists mm, sc = setFlip (setRep s rep') f' mm /\ mm <= 2 /\ (proj = None -> mm <= 1 /\ f' = dl s) /\ (proj <> None -> mm = 2)
  /\ root s <= f' <= dl s /\ (rep s <> [] -> flip s <= f') /\ (forall k, root s < k <= f' -> P' (fst (decAt s k)) = true).
Proof.
  pose proof (j_root _ _ _ _ _ s HJ) as R. pose proof (j_mode _ _ _ _ _ s HJ) as (M2 & MN & MS). unfold f', sc, commitLevel, BkProofs.P', setBt. change (bmode (setRep s rep')) with (bmode s). change (dl (setRep s rep')) with (dl s). change (root (setRep s rep')) with (root s). change (dec (setRep s rep')) with (dec s).
  destruct proj as [Q|] eqn:EP.
  - destruct (Nat.leb_spec (bmode s) 2); [|lia]. cbn [flip setFlip]. set (pl := prefixLen Q (skipn (root s) (dec s))).
    assert (Lp : root s + pl <= dl s). { pose proof (prefixLen_le Q (skipn (root s) (dec s))) as X. fold pl in X. rewrite skipn_length in X. unfold dl in *. lia. }
    replace (max (min (root s + pl) (dl s)) (root s)) with (root s + pl) by lia. exists 2. split; [reflexivity|]. split; [auto|]. split; [discriminate|]. split; [auto|]. split; [lia|]. split.
    + intros NE. assert (flip s - root s <= pl); [|lia]. apply prefixLen_max with lit_false; [rewrite skipn_length; unfold dl in *; lia|]. intros i Li. rewrite nth_skipn.
      pose proof (j_pd _ _ _ _ _ s HJ NE (root s + i + 1)) as X. unfold BkProofs.P', decAt in X. replace (root s + i + 1 - 1) with (root s + i) in X by lia. apply X. lia.
    + intros k Lk. unfold decAt. pose proof (prefixLen_in Q (skipn (root s) (dec s)) (k - 1 - root s) lit_false) as X. rewrite nth_skipn in X. replace (root s + (k - 1 - root s)) with (k - 1) in X by lia. apply X. fold pl. lia.
  - specialize (MN eq_refl). destruct (Nat.leb_spec (bmode s) 1); [|lia]. cbn [flip setFlip]. replace (max (min (dl s) (dl s)) (root s)) with (dl s) by lia. exists 1. split; [reflexivity|]. split; [auto|]. split; [auto|]. split; [congruence|]. split; [lia|]. split; [lia|auto].
Qed.
Record Q (t : bst) : Prop := {
  q_J : J t; q_tr : forall p, tr t p = true -> holds m p = true; q_sep : forall x, In x (rep s) -> sep t f' x; q_cfl : cfl t = false;
  q_flip : flip t = f'; q_rep : rep t = rep'; q_cl : lrn t = lrn s /\ pn t = pn s; q_lits : forall k p, k <= f' -> In p (lits s k) -> In p (lits t k);
  q_root : root t = root s; q_mode : proj <> None -> bmode t <= 2
}.
Lemma sc_Q : Q sc.
Proof.
  destruct sc_eq as (mm & E & M2 & MN & MS & R & Hf & Hp). rewrite E. pose proof HJ as [A1 A2 A3 A4 A5 A6 A7 A8 A9 A10 A11 A12 A13 A14].
  assert (EU : forall M, U (setFlip (setRep s rep') f' mm) M -> U s M). { intros M [HM' HU]. split; auto. intros x Ix. apply HU. cbn. apply in_or_app. now left. }
  assert (SE : forall k x, sep s k x -> sep (setFlip (setRep s rep') f' mm) k x) by (intros k x; apply sep_mono; auto; intros j Lj Dj; split; [lia|auto]).
  assert (S1 : forall x, In x (rep s) -> sep s f' x). { intros x Ix. apply sep_le with (flip s); [apply Hf; intros Z; rewrite Z in Ix; contradiction|auto]. }
  constructor; auto; try (cbn; now auto); try (cbn; intros; lia).
  - constructor; auto.
    + intros x c I. destruct (A9 x c I) as (X & y & Y & Z). split; auto. exists y. split; auto. cbn. apply in_or_app. now left.
    + intros M k HU. apply A10. auto.
    + cbn. split; auto. split; [intros X; now apply MN|intros X; right; auto].
    + cbn. intros x k Ix Lk. apply in_app_or in Ix as [Ix|[<-|[]]].
      * destruct (Nat.le_gt_cases k (flip s)) as [X|X]; [destruct (A13 x k Ix) as [Y|Y]; [lia|left; now apply SE|now right]|]. left. apply SE. apply sep_le with (flip s); [lia|auto].
      * right. apply (model_trail s HJ). apply dec_tr. apply in_firstn with k. apply decAt_in. lia.
  - intros p T. apply (model_trail s HJ). exact T.
Qed.
Lemma undo_Q t k : Q t -> Q (undoImpl t k).
Proof.
  intros [A1 A2 A3 A4 A5 A6 [A7 A7'] A8 A9 A10]. destruct (undo_fields t k) as (F1 & F2 & F3 & F4 & F5 & F6).
  constructor; try congruence.
  - now apply undo_J.
  - intros p T. apply A2. apply tr_in in T. rewrite undo_dl in T. rewrite undo_lits in T by lia. apply tr_lits with (min (dl t) (K t k)); auto. lia.
  - intros x Ix. apply undo_sep; [unfold K; lia|auto].
  - unfold undoImpl. destruct (dl t <=? max k (flip t)); auto.
  - split; congruence.
  - intros j p Lj I. rewrite undo_lits by (unfold K; lia). auto.
  - rewrite F3. auto.
Qed.
Lemma force_Q t p b : Q t -> unit F t p = true -> Q (force t p b).
Proof.
  intros HQ Hu. pose proof HQ as [A1 A2 A3 A4 A5 A6 [A7 A7'] A8 A9 A10].
  assert (Hm : holds m p = true). { apply (unit_holds F t m p Hu); auto. intros c I. apply HM. unfold clauses in *. now rewrite A7, A7' in I. }
  assert (Fp : fl t p = false). { destruct (fl t p) eqn:E; auto. apply A2 in E. rewrite holds_neg, Hm in E. discriminate. }
  destruct (force_same t p b) as (B1 & B2 & B3 & B4 & B5 & B6 & B7). constructor; try congruence.
  - apply force_J; auto. intros M. now apply (unit_sound n F proj step As).
  - intros q T. destruct (force_cases t p b) as [[E _]|[(E & _ & Z)|(E & _)]]; rewrite ?E in T; auto. apply tr_new in T as [->|T]; auto.
  - intros x Ix. apply (A3 x) in Ix. revert Ix. apply sep_mono; [intros q; apply lits_force|now rewrite B6|]. intros j Lj Dj. unfold decAt, dl in *. rewrite B1. split; [lia|auto].
  - destruct (force_cases t p b) as [[E _]|[(E & _ & Z)|(E & _)]]; rewrite ?E; auto; congruence.
  - split; congruence.
  - intros k q Lk I. apply lits_force. auto.
  - rewrite B4. auto.
Qed.
Lemma reimply_Q t ps : Q t -> Q (reimply F t ps).
Proof. apply reimply_ind. intros t0 p H _ Hu. now apply force_Q. Qed.

Lemma sol_some P : proj = Some P -> solution n proj step s = nogoodOf m.
Proof. intros E. unfold solution, BkProofs.nogoodOf. rewrite E. reflexivity. Qed.
Lemma update_ok o x sp rst : exists s', update F o x sp rst sc (solution n proj step s) = Ok s' /\ Inv s' /\ rep s' = rep'.
Proof.
  unfold update. set (su := if rst then undoImpl sc 0 else sc). assert (Qu : Q su) by (unfold su; destruct rst; [apply undo_Q|]; apply sc_Q).
  unfold doUpdate. set (s1 := undoUntil F su (flip su) _ (o 0)).
  assert (Q1 : Q s1). { unfold s1, undoUntil. rewrite Nat.ltb_irrefl. cbn [andb]. apply reimply_Q, undo_Q, Qu. }
  assert (D1 : dl s1 = f').
  { unfold s1, undoUntil. rewrite Nat.ltb_irrefl. cbn [andb]. rewrite (same_dl _ _ (reimply_same F (o 0) _)), undo_dl. unfold K. pose proof (q_flip _ Qu) as X. pose proof (j_root _ _ _ _ _ su (q_J _ Qu)). lia. }
  clearbody s1. clear Qu. clearbody su. clear su.
  destruct Q1 as [A1 A2 A3 A4 A5 A6 [A7 A7'] A8 A9 A10]. destruct sc_eq as (mm & E & M2 & MN & MS & R & Hf & Hp).
  assert (Agree : forall M, U s1 M -> sats M (dec s1) -> (forall v, 1 <= v <= n -> P' v = true -> tr s1 (litOf m v) = true) -> False).
  { intros M HU H X. apply (proj2 HU m); [rewrite A6; apply in_or_app; right; now left|]. apply cov_iff. intros v V W. apply litOf_val. apply (sem_all _ _ _ _ _ s1 M A1 HU H). auto. }
  assert (Fin : forall t, J t -> sepAll t -> rep t = rep' -> exists s', Ok t = Ok s' /\ Inv s' /\ rep s' = rep') by (intros t X Y Z; exists t; split; [reflexivity|split; [split; [auto|now left]|auto]]).
  assert (BT : Dead s1 -> exists s', backtrack F (S (dl s1)) o s1 = Ok s' /\ Inv s' /\ rep s' = rep').
  { intros HD. destruct (backtrack_ok n F proj step As o (S (dl s1)) s1 A1 HD) as (s' & X & Y & Z); [left; congruence|lia|]. exists s'. split; [auto|split; [auto|congruence]]. }
  assert (CP : proj = None \/ exists P, proj = Some P) by (destruct proj; [right; eauto|now left]).
  destruct CP as [EP|(P & EP)].
  - (* no projection *)
    destruct (MN EP) as [_ Ef]. assert (ES : solution n proj step s = [if dl s =? 0 then lit_false else neg (decAt s (dl s))]) by (unfold solution; now rewrite EP). rewrite ES.
    assert (All : forall q, tr s q = true -> tr s1 q = true). { intros q T. apply tr_in in T. apply A8 in T; [|lia]. apply tr_lits with (dl s); auto. lia. }
    assert (X : fl s1 (if dl s =? 0 then lit_false else neg (decAt s (dl s))) = true).
    { unfold fl. apply All. destruct (Nat.eqb_spec (dl s) 0) as [Z|Z].
      - destruct (j_true _ _ _ _ _ s HJ) as (b & I). apply tr_in, in_lits. right. exists 0, b. split; [exact I|lia].
      - rewrite neg_neg. apply dec_tr. apply in_firstn with (dl s). apply decAt_in. lia. }
    cbn [filter]. rewrite X. cbn [negb]. apply BT. intros M HU H. apply (Agree M HU H). intros v V _. apply All. unfold litOf. unfold modelB.
    destruct (tr s (pos v)) eqn:Y; auto. destruct (HT v V); congruence.
  - (* projection *)
    assert (EPv : forall v, P' v = P v) by (intros v; unfold BkProofs.P'; now rewrite EP).
    assert (ES : solution n proj step s = map (fun v => neg (litOf m v)) (filter P (seq 1 n)) ++ [neg step]) by (unfold solution; now rewrite EP). rewrite ES.
    assert (EN : nogoodOf m = map (fun v => neg (litOf m v)) (filter P (seq 1 n)) ++ [neg step]) by (unfold BkProofs.nogoodOf; now rewrite EP).
    assert (Fs : fl s1 (neg step) = true). { unfold fl. rewrite neg_neg. apply tr_lits with (root s1); [pose proof (j_root _ _ _ _ _ s1 A1); lia|apply (j_step _ _ _ _ _ s1 A1)]. }
    set (sol := map (fun v => neg (litOf m v)) (filter P (seq 1 n)) ++ [neg step]) in *. set (nf := filter (fun p => negb (fl s1 p)) sol).
    assert (NFi : forall p, In p nf -> exists v, 1 <= v <= n /\ P v = true /\ p = neg (litOf m v) /\ fl s1 p = false).
    { intros p I. apply filter_In in I as [I Fp]. apply negb_true_iff in Fp. apply in_app_or in I as [I|[<-|[]]]; [|congruence]. apply in_map_iff in I as (v & <- & I). apply filter_In in I as [I Pv]. apply in_seq in I. exists v. split; [lia|auto]. }
    assert (NFa : forall v, 1 <= v <= n -> P v = true -> In (neg (litOf m v)) nf \/ tr s1 (litOf m v) = true).
    { intros v V W. destruct (fl s1 (neg (litOf m v))) eqn:X; [right; unfold fl in X; now rewrite neg_neg in X|left]. apply filter_In. rewrite X. split; auto. apply in_or_app. left. apply in_map_iff. exists v. split; auto. apply filter_In. split; auto. apply in_seq. lia. }
    assert (NFm : forall p, In p nf -> holds m p = false) by (intros p I; apply NFi in I as (v & _ & _ & -> & _); now rewrite holds_neg, litOf_holds).
    assert (NFt : forall p, In p nf -> tr s1 p = false) by (intros p I; destruct (tr s1 p) eqn:X; auto; apply A2 in X; rewrite NFm in X; auto; discriminate).
    assert (LV : forall v, fst (neg (litOf m v)) = v) by (intros v; unfold litOf; now destruct (m v)).
    destruct nf as [|p [|p2 nf']] eqn:ENF.
    + apply BT. intros M HU H. apply (Agree M HU H). intros v V W. rewrite EPv in W. destruct (NFa v V W) as [[]|X]; auto.
    + destruct (NFi p (or_introl eq_refl)) as (v & V & Pv & Ep & Fp). destruct (force_same s1 p true) as (B1 & B2 & B3 & B4 & B5 & B6 & B7).
      apply Fin; [| |congruence].
      * apply force_J; auto. intros M HU H. destruct (holds M p) eqn:X; auto. exfalso. apply (proj2 HU m); [rewrite A6; apply in_or_app; right; now left|]. apply cov_iff. intros w W1 W2. rewrite EPv in W2. apply litOf_val. destruct (NFa w W1 W2) as [[Y|[]]|Y]; [|now apply (sem_all _ _ _ _ _ s1 M A1 HU H)].
        rewrite Y, holds_neg in X. now apply negb_false_iff in X.
      * intros y Iy. rewrite B7, A6 in Iy. rewrite B3, A5. apply in_app_or in Iy as [Iy|[<-|[]]].
        -- apply A3 in Iy. revert Iy. apply sep_mono; [intros q; apply lits_force|now rewrite B6|]. intros j Lj Dj. unfold decAt, dl in *. rewrite B1. split; [lia|auto].
        -- left. exists p. split; [|split; [split; rewrite Ep, LV; [auto|now rewrite EPv]|apply NFm; now left]].
           destruct (force_cases s1 p true) as [[_ X]|[(_ & _ & X)|(-> & _ & _)]]; [rewrite NFt in X; [discriminate|now left]|congruence|]. apply in_lits. right. exists (dl s1), true. split; [now left|lia].
    + assert (ET : existsb (tr s1) (p :: p2 :: nf') = false). { destruct (existsb (tr s1) (p :: p2 :: nf')) eqn:X; auto. apply existsb_exists in X as (q & I & X). rewrite NFt in X; auto. }
      rewrite ET. set (y := if existsb (lit_eqb x) (p :: p2 :: nf') then x else p).
      assert (Iy : In y (p :: p2 :: nf')). { unfold y. destruct (existsb (lit_eqb x) (p :: p2 :: nf')) eqn:X; [apply existsb_exists in X as (q & I & X); apply lit_eqb_eq in X; now subst q|now left]. }
      destruct (NFi y Iy) as (v & V & Pv & Ey & Fy). pose proof (NFt y Iy) as Ty. pose proof (NFm y Iy) as Hy.
      destruct (assume_J n F proj step As s1 (neg y) A1 A4) as (J2 & _ & D2 & S2 & DA & DN); [now rewrite Ey, neg_neg; unfold litOf; destruct (m v)|exact Fy|unfold fl; now rewrite neg_neg|].
      set (s2 := assume s1 (neg y)) in *.
      assert (E2 : root s2 = root s1 /\ flip s2 = flip s1 /\ bmode s2 = bmode s1 /\ pn s2 = pn s1 /\ rep s2 = rep s1 /\ cfl s2 = cfl s1). { unfold s2. rewrite assume_free; [cbn; auto 10|exact Fy|unfold fl; now rewrite neg_neg]. }
      destruct E2 as (R2 & F2 & B2 & P2 & Rp2 & _). pose proof (j_root _ _ _ _ _ s1 A1) as R1. specialize (A10 ltac:(congruence)).
      assert (E3 : setBt s2 (dl s2) 2 = setFlip s2 (dl s2) 2). { unfold setBt. rewrite B2. destruct (Nat.leb_spec (bmode s1) 2); [|lia]. f_equal. lia. }
      rewrite E3. set (s3 := setFlip s2 (dl s2) 2). set (s4 := setPn s3 (pn s3 ++ [(y, sol)])).
      assert (PY : P' (fst (neg y)) = true). { rewrite EPv, Ey. cbn. unfold litOf. now destruct (m v). }
      assert (OLD : forall z k, In z (rep s1) -> root s1 < k <= dl s2 -> sep s2 (k - 1) z \/ holds z (decAt s2 k) = true).
      { intros z k Iz Lk. rewrite D2 in Lk. destruct (Nat.eq_dec k (S (dl s1))) as [->|N].
        - rewrite A6 in Iz. apply in_app_or in Iz as [Iz|[<-|[]]]; [left; apply S2; [lia|]; apply sep_le with f'; [lia|auto]|right]. rewrite DN, holds_neg. now rewrite Hy.
        - rewrite DA by lia. destruct (j_left _ _ _ _ _ s1 A1 z k Iz) as [X|X]; [lia| |now right]. left. apply S2; [lia|auto]. }
      assert (J3 : J s3).
      { apply setFlip_J; auto; try lia.
        - congruence.
        - rewrite R2, Rp2, D2. intros NE k Lk. destruct (Nat.eq_dec k (S (dl s1))) as [->|N]; [rewrite DN; exact PY|]. rewrite DA by lia. apply (j_pd _ _ _ _ _ s1 A1 NE). lia.
        - rewrite R2, Rp2. exact OLD. }
      assert (SE4 : forall k z, sep s3 k z -> sep s4 k z) by (intros k z; apply sep_mono; auto; [intros e Ie; cbn; apply in_or_app; now left|intros j Lj Dj; split; [lia|auto]]).
      apply Fin; [| |cbn; congruence].
      * pose proof J3 as [C1 C2 C3 C4 C5 C6 C7 C8 C9 C10 C11 C12 C13 C14]. constructor; auto.
        -- intros a c I. change (pn s4) with (pn s2 ++ [(y, sol)]) in I. apply in_app_or in I as [I|[I|[]]]; [apply (C9 a c I)|]. injection I as <- <-. split; [congruence|]. exists m. split; [change (rep s4) with (rep s2); rewrite Rp2, A6; apply in_or_app; right; now left|auto].
        -- intros z k Iz Lk. destruct (C13 z k Iz Lk) as [X|X]; [left; now apply SE4|now right].
      * intros z Iz. change (rep s4) with (rep s2) in Iz. rewrite Rp2, A6 in Iz. change (flip s4) with (dl s2). apply in_app_or in Iz as [Iz|[<-|[]]].
        -- apply SE4. apply sep_le with f'; [lia|]. apply A3 in Iz. apply S2 in Iz; [|lia]. exact Iz.
        -- right. exists y, (dl s2). split; [rewrite EN; cbn; apply in_or_app; right; now left|]. split; [lia|]. split; [change (dl s4) with (dl s2); lia|]. change (decAt s4 (dl s2)) with (decAt s2 (dl s2)). rewrite D2. exact DN.
Qed.
End Upd.
End Inv3.
