(** Preprocessor: [bceVe] and the loop around it *)
From Coq Require Import List Bool Arith ZArith NArith Lia Permutation.
Import ListNotations.
From Verif Require Import Base ElModel ElSpec ElProofs ElProofs2 ElProofs3 ElProofs4 ElProofs5 ElProofs6 ElProofs7.

Definition mapR (g : st -> st) (r : res st) : res st := match r with Ok s => Ok (g s) | Throws => Throws | UB => UB end.
Lemma bceVeRemove_elim id f v b s u : bceVeRemove id f v b (setElim s u) = mapR (fun s => setElim s u) (bceVeRemove id f v b s).
Proof.
  unfold bceVeRemove. change (deref (setElim s u) id) with (deref s id). destruct (deref s id) as [k| |]; cbn [bind mapR]; auto.
  destruct (kat k 0) as [x| |]; cbn [bind mapR]; auto. cbv zeta. f_equal.
  set (g := fun (s : st) (p : nat * bool) => if negb (fst p =? v) && f then eraseOcc s (fst p) (id, snd p) else s).
  assert (G : forall l t, fold_left g l (setElim t u) = setElim (fold_left g l t) u).
  { induction l as [|p l IH]; intros t; cbn [fold_left]; [auto|]. rewrite <- IH. f_equal. unfold g. destruct (_ && _); auto. }
  change (removeWatch (setElim s u) (fst x) id) with (setElim (removeWatch s (fst x) id) u). rewrite G. reflexivity.
Qed.
Lemma bvRemove_elim v u : forall cls cnt s, bvRemove v cls cnt (setElim s u) = mapR (fun s => setElim s u) (bvRemove v cls cnt s).
Proof.
  induction cls as [|[id b] cls IH]; intros cnt s; cbn [bvRemove]; [auto|].
  change (getc (setElim s u) id) with (getc s id). destruct (getc s id) as [[k|]| |]; cbn [bind mapR]; auto.
  rewrite bceVeRemove_elim. destruct (bceVeRemove id (0 <? cnt) v false s); cbn [bind mapR]; auto.
Qed.

Section El.
Context (R : asg -> Prop) (fz : nat -> bool) (w : world) (SW : soundWorld R fz w) (OR : onlyOn fz R).
Context (Z0 : forall v, fz v = true -> v <> 0).
Context (Q : asg -> Prop).
Notation F := (F R). Notation wf0 := (wf0 fz). Notation wfx := (wfx fz). Notation wf := (ElProofs2.wfx fz []).
Notation J := (J fz Q).

(** [nb]: without blocked clause elimination all removed clauses start with an eliminated variable *)
Context (nb : bool).
Definition hdE (el : nat -> bool) (T : list (bool * list lit)) : Prop := forall e, In e T -> exists x r, snd e = x :: r /\ el (fst x) = true.
Definition Inv (s : st) : Prop := wf (s_tr s) s /\ J None (s_top s) (F s) /\ (forall a, Q a -> F s a) /\ (nb = true -> hdE (s_elim s) (s_top s)).
Definition post (s' : st) (b : bool) : Prop := (b = true -> Inv s') /\ (b = false -> forall a, ~ Q a).

Lemma Inv_step s s' : Inv s -> wf (s_tr s') s' -> frame s s' -> (forall a, F s a <-> F s' a) -> Inv s'.
Proof.
  intros (W & HJ & HQ & HH) W' Fr E. split; [auto|]. rewrite (f_top _ _ Fr), (f_elim _ _ Fr). split; [|split; [intros a K; apply E; auto|auto]].
  now apply (J_ext _ _ _ _ (F s)).
Qed.
Lemma bs_post n s s' b : Inv s -> backwardSubsume w n s = Ok (s', b) -> post s' b.
Proof.
  intros I H. pose proof I as (W & HJ & HQ & HH). apply (backwardSubsume_ok R fz w SW Z0 n _ _ _ _ W) in H as [A B]. split; intros Hb.
  - destruct (A Hb) as (C1 & C2 & C3). eapply Inv_step; eauto.
  - intros a K. apply (B Hb a). auto.
Qed.

Lemma wfx_setOcc X D s v L : wfx X D s -> occOk s v L -> wfx X D (setOcc s v L).
Proof.
  intros (W & O & E) K. split; [|split; [|auto]].
  - destruct W; constructor; auto.
  - intros u Nu. cbn. unfold upd. destruct (u =? v) eqn:Eu; [apply Nat.eqb_eq in Eu as ->; exact K|exact (O u Nu)].
Qed.
Lemma F_indep v D s : wf0 D s -> fz v = false -> s_elim s v = true -> indep v (F s).
Proof.
  intros W Hf He a b Hab (Ra & Ta & Ca). 
  assert (Hh : forall p, fst p <> v -> holds b p = holds a p) by (intros p N; unfold holds; now rewrite Hab).
  split; [|split].
  - apply (OR a); auto. intros u Fu. apply Hab. congruence.
  - intros p I. rewrite Hh; [now apply Ta|]. intros G. destruct (q_tvar _ _ _ W p I) as [_ G2]. congruence.
  - intros id c E. apply sat_in. specialize (Ca id c E). apply sat_in in Ca as (p & I & Hp). exists p. split; [auto|]. rewrite Hh; auto.
    intros G. destruct (q_var _ _ _ W _ _ _ E I) as (_ & G2 & _). congruence.
Qed.
Lemma sat_app a c d : sat_clause a (c ++ d) = sat_clause a c || sat_clause a d.
Proof. unfold sat_clause. apply existsb_app. Qed.

Lemma ve_ok n v cls s s1 s2 b s' ok maxCnt :
  wf (s_tr s) s -> J None (s_top s) (F s) -> (forall a, Q a -> F s a) -> (nb = true -> hdE (s_elim s) (s_top s)) -> fz v = false -> value s v = None ->
  occOk s v cls -> (forall x, In x cls -> lits s (fst x) <> None) ->
  lmOnly s s1 -> (forall u, s_lm s1 u = s_lm s u) ->
  b_cnt b <= maxCnt -> (b_cnt b <= maxCnt -> length (b_cands b) = b_cnt b) ->
  (forall x, In x (b_cands b) -> exists i j ci cj, In (i, false) cls /\ In (j, true) cls /\ lits s i = Some ci /\ lits s j = Some cj
        /\ ~ triv v ci cj /\ x = (toFront v ci, toFront v cj)) ->
  (forall i j ci cj, In (i, false) cls -> In (j, true) cls -> lits s i = Some ci -> lits s j = Some cj ->
        triv v ci cj \/ In (toFront v ci, toFront v cj) (b_cands b)) ->
  bvRemove v cls (b_cnt b) (setElim s1 v) = Ok s2 ->
  bvResolve w n cls (b_cands b) s2 = Ok (s', ok) ->
  (ok = true -> Inv (clearOcc s' v)) /\ (ok = false -> forall a, ~ Q a).
Proof.
  intros (W & O & Ef) HJ HQ HH Hf Hv K Lv Lo Lm Hle Hlen Cin Call H1 H2.
  destruct (value_none _ _ Hv) as (Vz & Ve & Vt).
  rewrite bvRemove_elim in H1. destruct (bvRemove v cls (b_cnt b) s1) as [s3| |] eqn:H3; cbn [mapR] in H1; try discriminate. injection H1 as <-.
  assert (L1 : forall j, lits s1 j = lits s j) by (now apply lmOnly_lits).
  assert (W1 : wf0 (s_tr s) s1) by (eapply wf0_lm; eauto).
  assert (O1 : occs [v] s1). { intros u Nu. apply (lmOnly_occs [] s s1 Lo O). auto. }
  assert (K1 : occOk s1 v cls). { eapply occOk_lsub; [|exact K]. intros j c. now rewrite L1. }
  destruct (bvRemove_ok R fz Q (s_tr s) v cls (b_cnt b) s1 s3 W1 O1 K1) as (Cs & W3 & O3 & Nv & (N3 & E3 & T3 & Fa3) & Tp & F3 & C2 & C3 & Ls & Fi & Fr); auto.
  { intros x I. rewrite L1. auto. }
  assert (Es1 : s_elim s1 = s_elim s) by apply Lo. assert (Ts1 : s_tr s1 = s_tr s) by apply Lo. assert (Fs1 : s_facts s1 = s_facts s) by apply Lo.
  assert (Tp1 : s_top s1 = s_top s) by apply Lo.
  set (s4 := setElim s3 v) in *.
  assert (W4 : wf0 (s_tr s) s4).
  { destruct W3 as [Q1 Q2 Q3 Q4 Q5 Q6 Q7 Q8 Q9]. constructor; auto.
    - intros id c p E I. destruct (Q3 id c p E I) as (A & B & C). split; [auto|]. split; [|auto]. cbn. unfold upd.
      destruct (fst p =? v) eqn:Ep; [|auto]. apply Nat.eqb_eq in Ep. exfalso. apply (Nv id c (snd p) E). rewrite <- Ep. now destruct p.
    - intros p I. destruct (Q8 p I) as (A & B). split; [auto|]. cbn. unfold upd.
      destruct (fst p =? v) eqn:Ep; [|auto]. apply Nat.eqb_eq in Ep. exfalso. apply Vt. rewrite <- Ep, <- Ts1, <- T3. now apply in_map.
    - intros u. cbn. unfold upd. destruct (u =? v) eqn:Eu; [apply Nat.eqb_eq in Eu as ->; auto|auto]. }
  assert (T4 : s_tr s4 = s_tr s) by (cbn; congruence).
  assert (Wx4 : wfx [v] (s_tr s4) s4).
  { split; [rewrite T4; exact W4|]. split; [exact O3|]. rewrite T4. cbn. congruence. }
  assert (E4 : s_elim s4 v = true) by (cbn; apply upd_same).
  (* shape of the removed clauses *)
  assert (Sh : forall i ci sg, lits s i = Some ci -> In (v, sg) ci ->
     exists t, toFront v ci = (v, sg) :: t /\ Permutation ci ((v, sg) :: t) /\ ~ In v (map fst t)).
  { intros i ci sg Ei Iv. apply toFront_ok; auto. exact (q_nd _ _ _ W _ _ Ei). }
  assert (InC : forall i sg ci, In (i, sg) cls -> lits s i = Some ci -> In (v, sg) ci).
  { intros i sg ci I Ei. destruct K as (_ & K2 & _). eapply K2; eauto. }
  assert (Res : forall a, F s3 a -> allSat a Cs -> forall x, In x (b_cands b) -> sat_clause a (tl (fst x) ++ tl (snd x)) = true).
  { intros a Fa Al x I. destruct (Cin x I) as (i & j & ci & cj & I1 & I2 & Ei & Ej & _ & ->).
    destruct (Sh i ci false Ei (InC _ _ _ I1 Ei)) as (t & Et & Pt & _). destruct (Sh j cj true Ej (InC _ _ _ I2 Ej)) as (t' & Et' & Pt' & _).
    rewrite Et, Et'. cbn [fst snd tl].
    assert (S1 : sat_clause a ci = true) by (apply Al, (C3 i ci false); [now rewrite L1|now apply (InC i)]).
    assert (S2 : sat_clause a cj = true) by (apply Al, (C3 j cj true); [now rewrite L1|now apply (InC j)]).
    rewrite (sat_perm _ _ _ Pt), sat_cons in S1. rewrite (sat_perm _ _ _ Pt'), sat_cons in S2. rewrite sat_app.
    unfold holds in S1, S2. cbn in S1, S2. destruct (a v), (sat_clause a t), (sat_clause a t'); auto. }
  assert (F1 : forall a, F s a <-> F s3 a /\ allSat a Cs). { intros a. rewrite (lmOnly_F R s s1 a Lo). apply F3. }
  apply (bvResolve_ok R fz w SW Z0 n v) in H2 as [A B]; auto.
  2:{ apply K. }
  2:{ intros k x Hk Ex. rewrite Hlen in Hk by auto. destruct (Fi k x Hk Ex) as (G1 & G2 & G3 & G4). repeat split; auto. }
  2:{ intros x I. destruct (Cin x I) as (i & j & ci & cj & I1 & I2 & Ei & Ej & Nt & ->).
      destruct (Sh i ci false Ei (InC _ _ _ I1 Ei)) as (t & Et & Pt & Nv1). destruct (Sh j cj true Ej (InC _ _ _ I2 Ej)) as (t' & Et' & Pt' & Nv2).
      unfold candOk. rewrite Et, Et'. cbn [fst snd tl].
      assert (Nd : forall (c : list lit) sg (u : list lit), NoDup (map fst c) -> Permutation c ((v, sg) :: u) -> NoDup (map fst u)).
      { intros c sg u Nc Pc. eapply Permutation_NoDup in Nc; [|apply Permutation_map, Pc]. cbn in Nc. now inversion Nc. }
      split; [eapply Nd; [exact (q_nd _ _ _ W _ _ Ei)|exact Pt]|]. split; [eapply Nd; [exact (q_nd _ _ _ W _ _ Ej)|exact Pt']|].
      assert (Ti : forall p, In p t -> In p ci) by (intros p Ip; eapply Permutation_in; [apply Permutation_sym, Pt|now right]).
      assert (Tj : forall p, In p t' -> In p cj) by (intros p Ip; eapply Permutation_in; [apply Permutation_sym, Pt'|now right]).
      split.
      - assert (G : forall k (c u : list lit) p, lits s k = Some c -> (forall p, In p u -> In p c) -> ~ In v (map fst u) -> In p u -> fst p <> 0 /\ s_elim s4 (fst p) = false).
        { intros k c u p Ek Su Nu Ip. destruct (q_var _ _ _ W _ _ _ Ek (Su _ Ip)) as (G1 & G2 & _). split; [auto|]. cbn. unfold upd.
          destruct (fst p =? v) eqn:Ep; [apply Nat.eqb_eq in Ep; exfalso; apply Nu; rewrite <- Ep; now apply in_map|]. now rewrite E3, Es1. }
        intros p [Ip|Ip]; [eapply (G i ci t)|eapply (G j cj t')]; eauto.
      - intros p Ip In'. apply Nt. exists p. split; [auto|]. split; [|auto]. intros G. apply Nv2. rewrite <- G. now apply in_map. }
  split; intros Hok.
  - destruct (A Hok) as (W5 & Fr5 & F5). set (s5 := clearOcc s' v).
    assert (Ev5 : s_elim s' v = true) by (rewrite (f_elim _ _ Fr5); exact E4).
    assert (Wf5 : wf (s_tr s5) s5).
    { destruct W5 as (Wa & Wb & Wc). split; [|split; [|exact Wc]].
      { assert (Nd5 : ~ In v (map fst (s_tr s'))).
        { intros G. apply in_map_iff in G as (p & Ep & Ip). destruct (q_tvar _ _ _ Wa p Ip) as [_ G]. congruence. }
        destruct Wa as [Q1 Q2 Q3 Q4 Q5 Q6 Q7 Q8 Q9]. constructor; auto.
        - intros id h t u E. cbn. unfold upd. destruct (u =? v); [cbn; lia|]. exact (Q4 id h t u E).
        - intros u. cbn. unfold upd. destruct (u =? v) eqn:Eu; [|apply Q5]. apply Nat.eqb_eq in Eu as ->. symmetry. now apply lmD_none. }
      intros u _. destruct (Nat.eq_dec u v) as [->|Nu].
      - cbn. rewrite upd_same. split; [|split; [intros ? ? ? []|constructor]]. intros id c d E I.
        destruct (q_var _ _ _ Wa _ _ _ E I) as (_ & G & _). cbn in G. congruence.
      - cbn. rewrite upd_other by auto. apply Wb. intros [G|[]]. congruence. }
    assert (F5' : forall a, F s5 a <-> F s3 a /\ forall x, In x (b_cands b) -> sat_clause a (tl (fst x) ++ tl (snd x)) = true) by exact F5.
    assert (Top : s_top s5 = map (pair false) (map (toFront v) (rev Cs)) ++ s_top s).
    { change (s_top s5) with (s_top s'). rewrite (f_top _ _ Fr5). change (s_top s4) with (s_top s3). rewrite Tp, Tp1. f_equal.
      rewrite <- map_rev, map_map. reflexivity. }
    split; [auto|]. split; [|split].
    + rewrite Top. apply (J_ext _ _ _ _ (fun a => F s5 a /\ allSat a [])); [intros a; split; [tauto|intros G; split; [auto|intros ? []]]|].
      apply (J_group fz Q v); auto; cbn [app].
      * apply (F_indep v (s_tr s5)); auto. apply Wf5.
      * intros d I. apply in_map_iff in I as (c & <- & I). apply in_rev in I. destruct (C2 _ I) as (i & sg & Ei & Iv & _).
        rewrite L1 in Ei. destruct (Sh i c sg Ei Iv) as (t & Et & _ & Nt). exists (v, sg), t. auto.
      * assert (G : forall i ci t j cj t' a, lits s i = Some ci -> In (i, false) cls -> toFront v ci = (v, false) :: t ->
            lits s j = Some cj -> In (j, true) cls -> toFront v cj = (v, true) :: t' -> F s5 a -> sat_clause a t = true \/ sat_clause a t' = true).
        { intros i ci t j cj t' a Ei Ii Et Ej Ij Et' Fa. destruct (Call i j ci cj Ii Ij Ei Ej) as [(z & Z1 & Z2 & Z3)|Z].
          - destruct (Sh i ci false Ei (InC _ _ _ Ii Ei)) as (u & Eu & Pu & _). destruct (Sh j cj true Ej (InC _ _ _ Ij Ej)) as (u' & Eu' & Pu' & _).
            assert (u = t) by congruence. assert (u' = t') by congruence. subst u u'.
            eapply Permutation_in in Z1; [|exact Pu']. destruct Z1 as [Z1|Z1]; [subst z; cbn in Z2; congruence|].
            eapply Permutation_in in Z3; [|exact Pu]. destruct Z3 as [Z3|Z3]; [apply (f_equal fst) in Z3; cbn in Z3; congruence|].
            destruct (holds a z) eqn:Hz; [right; eapply satL; eauto|left; eapply satL; eauto; now rewrite holds_neg, Hz].
          - apply F5' in Fa as [_ Fa]. specialize (Fa _ Z). rewrite Et, Et' in Fa. cbn [fst snd tl] in Fa. rewrite sat_app in Fa. now apply orb_true_iff in Fa. }
        intros x c y d Ix Iy Exy a Fa. apply in_map_iff in Ix as (c1 & Ec1 & I1). apply in_map_iff in Iy as (c2 & Ec2 & I2).
        apply in_rev in I1. apply in_rev in I2. destruct (C2 _ I1) as (i & sg & Ei & Iv & Ii). destruct (C2 _ I2) as (j & sg' & Ej & Iv' & Ij).
        rewrite L1 in Ei, Ej. destruct (Sh i c1 sg Ei Iv) as (t & Et & _ & _). destruct (Sh j c2 sg' Ej Iv') as (t' & Et' & _ & _).
        rewrite Et in Ec1. injection Ec1 as <- <-. rewrite Et' in Ec2. injection Ec2 as <- <-. cbn in Exy. injection Exy as ->.
        destruct sg; cbn [negb] in *; [destruct (G j c2 t' i c1 t a); auto|apply (G i c1 t j c2 t' a); auto].
      * intros G. now destruct G.
      * apply (J_ext _ _ _ _ (F s)); [|auto]. intros a. rewrite F1, F5'.
        assert (Al : allSat a (map (toFront v) (rev Cs)) <-> allSat a Cs).
        { unfold allSat. assert (Eq : forall c, In c Cs -> sat_clause a (toFront v c) = sat_clause a c).
          { intros c I. destruct (C2 _ I) as (i & sg & Ei & Iv & _). rewrite L1 in Ei. destruct (Sh i c sg Ei Iv) as (t & Et & Pt & _).
            rewrite Et. symmetry. now apply sat_perm. }
          split.
          - intros H c I. rewrite <- Eq by auto. apply H. apply in_map. now apply -> in_rev.
          - intros H d I. apply in_map_iff in I as (c & <- & I). apply in_rev in I. rewrite Eq by auto. auto. }
        rewrite Al. split; [|tauto]. intros [G1 G2]. split; [split; [auto|]|auto]. now apply Res.
    + intros a Qa. apply F5'. apply HQ, F1 in Qa as [G1 G2]. split; [auto|]. now apply Res.
    + intros Hn e I. rewrite Top in I. assert (Ee : forall u, s_elim s u = true -> s_elim s5 u = true).
      { intros u Eu. change (s_elim s5) with (s_elim s'). rewrite (f_elim _ _ Fr5). cbn. unfold upd. destruct (u =? v); [auto|]. now rewrite E3, Es1. }
      apply in_app_iff in I as [I|I].
      * apply in_map_iff in I as (d & <- & I). apply in_map_iff in I as (c & <- & I). apply in_rev in I. destruct (C2 _ I) as (i & sg & Ei & Iv & _).
        rewrite L1 in Ei. destruct (Sh i c sg Ei Iv) as (t & Et & _). exists (v, sg), t. split; [auto|]. exact Ev5.
      * destruct (HH Hn e I) as (x & r & G1 & G2). exists x, r. auto.
  - intros a Qa. apply (B Hok a). apply HQ, F1 in Qa as [G1 G2]. split; [exact G1|]. now apply Res.
Qed.

Lemma bvOuter_nb v maxCnt : forall poss negs s blocked b s' negs' blocked' b', bvOuter s v maxCnt 0 poss negs blocked b = Ok (s', negs', blocked', b') -> blocked' = blocked.
Proof.
  assert (Inner : forall S L negs done b done' lm' b' stop, bvInner S v maxCnt 0 L negs done false b = Ok (done', lm', b', stop) -> lm' = false).
  { intros S L. induction negs as [|[j mk] negs IH]; intros done b done' lm' b' stop H; cbn [bvInner] in H; [injection H as <- <- <- <-; auto|].
    apply bind_ok in H as (k & _ & H). destruct (trivialResolvent S (k_lits k) v); [eauto|]. cbv zeta in H. destruct (_ <=? maxCnt); [eauto|].
    destruct (_ =? 0); [injection H as <- <- <- <-; auto|eauto]. }
  induction poss as [|i poss IH]; intros negs s blocked b s' negs' blocked' b' H; cbn [bvOuter] in H; [now injection H as <- <- <- <-|].
  apply bind_ok in H as (k & _ & H). cbv zeta in H. apply bind_ok in H as ([[[n1 l1] b1] st1] & H1 & H). apply Inner in H1. subst l1.
  destruct st1; [now injection H as <- <- <- <-|eauto].
Qed.
Lemma bceVe_ok o n v useOcc s s' b : (nb = true -> o_bce o = 0) -> Inv s -> fz v = false -> bceVe w o n v useOcc s = Ok (s', b) -> post s' b.
Proof.
  intros Hnb I Hf H. unfold bceVe in H. destruct (value s v) as [x|] eqn:Hv.
  - injection H as <- <-. split; [auto|discriminate].
  - cbv zeta in H. pose proof I as (W & HJ & HQ & HH). set (cls := liveOcc s (s_occ s v)) in *.
    pose proof (proj1 (proj2 W) v (fun x => x)) as Ov. 
    assert (K : occOk s v cls) by (now apply liveOcc_ok).
    assert (Lv : forall x, In x cls -> lits s (fst x) <> None) by (intros x Ix; now apply liveOcc_spec in Ix).
    clearbody cls. set (s0 := setOcc s v cls) in *.
    assert (W0 : wf (s_tr s0) s0) by (now apply wfx_setOcc).
    set (maxCnt := if useOcc then length cls else 0) in *. clearbody maxCnt.
    apply bind_ok in H as ([[[s1 negs1] blocked] bb] & H1 & H).
    set (negs := map (fun j => (j, 1 <? o_bce o)) (withSign true cls)) in *.
    assert (En : map fst negs = withSign true cls) by (unfold negs; rewrite map_map; cbn; apply map_id).
    assert (Pin : forall i, In i (withSign false cls) <-> In (i, false) cls) by (intros; apply withSign_in).
    assert (Nin : forall i, In i (map fst negs) <-> In (i, true) cls) by (intros; rewrite En; apply withSign_in).
    assert (Nb : nb = true -> blocked = [] /\ b_mm bb = 0).
    { intros Hn. apply Hnb in Hn. split; [rewrite Hn in H1; now apply bvOuter_nb in H1|].
      apply (bvOuter_ok fz Q (s_tr s0) v maxCnt (o_bce o) s0) in H1; auto.
      - destruct H1 as (_&_&_&_&_&_&_&_&_&_&G). rewrite Hn in G. cbn in G. lia.
      - apply W0.
      - apply lmOnly_refl.
      - intros i Ii. apply in_app_iff in Ii as [Ii|Ii]; [apply Pin in Ii|apply Nin in Ii]; exact (Lv _ Ii). }
    apply (bvOuter_ok fz Q (s_tr s0) v maxCnt (o_bce o) s0) in H1; auto.
    2:{ apply W0. }
    2:{ apply lmOnly_refl. }
    2:{ intros i Ii. apply in_app_iff in Ii as [Ii|Ii]; [apply Pin in Ii|apply Nin in Ii]; exact (Lv _ Ii). }
    destruct H1 as (Lo & Lm & Em & Cc & Cl & _ & Ci & Ca & Cb & Cn & Cm). cbn [b_cnt b_cands b_mm] in *.
    apply bind_ok in H as ([s2 ok] & H2 & H).
    assert (P2 : post s2 ok).
    { destruct (b_cnt bb <=? maxCnt) eqn:Ec.
      - apply Nat.leb_le in Ec. apply bind_ok in H2 as (s3 & H3 & H2). apply bind_ok in H2 as ([s4 ok4] & H4 & H2).
        assert (G : (ok4 = true -> Inv (clearOcc s4 v)) /\ (ok4 = false -> forall a, ~ Q a)).
        { eapply (ve_ok n v cls s0 s1 s3 bb s4 ok4 maxCnt); eauto.
          - intros x Ix. destruct (Ci x Ix) as [[]|(i & j & ci & cj & A1 & A2 & A3)]. exists i, j, ci, cj. apply Pin in A1. apply Nin in A2. auto.
          - intros i j ci cj Ii Ij. apply (Ca Ec); [now apply Pin|now apply Nin]. }
        destruct G as [G1 G2]. destruct ok4; injection H2 as <- <-; split; auto; discriminate.
      - apply bind_ok in H2 as (s3 & H3 & H2). apply bind_ok in H2 as (s4 & H4 & H2). injection H2 as <- <-. split; [intros _|discriminate].
        destruct (value_none _ _ Hv) as (Vz & Ve & Vt).
        assert (W1 : wf (s_tr s0) s1).
        { destruct W0 as (A & B & C). split; [eapply wf0_lm; eauto|]. split; [eapply lmOnly_occs; eauto|]. destruct Lo as (_&_&_&_&_&E&_). congruence. }
        assert (T1 : s_tr s1 = s_tr s0) by apply Lo. assert (Tp1 : s_top s1 = s_top s0) by apply Lo.
        assert (L1 : forall j, lits s1 j = lits s0 j) by (now apply lmOnly_lits).
        assert (F1 : forall a, F s0 a <-> F s1 a) by (intros a; now apply lmOnly_F).
        assert (Bp : forall i ci, lits s0 i = Some ci -> In (i, false) cls -> In (v, false) ci) by (intros i ci Ei Ii; eapply (proj1 (proj2 K)); eauto).
        assert (Bn : forall i ci, lits s0 i = Some ci -> In (i, true) cls -> In (v, true) ci) by (intros i ci Ei Ii; eapply (proj1 (proj2 K)); eauto).
        assert (Kc : forall i ci sg, lits s0 i = Some ci -> In (v, sg) ci -> In (i, sg) cls) by (intros i ci sg Ei Iv; eapply (proj1 K); eauto).
        assert (HE : nb = true -> hdE (s_elim s4) (s_top s4)).
        { intros Hn. destruct (Nb Hn) as [-> Em0]. cbn in H3. injection H3 as <-. rewrite Em0 in H4. destruct negs1; cbn in H4; injection H4 as <-;
            destruct Lo as (_&_&_&_&_&_&_&-> & ->); exact (HH Hn). }
        apply (bvBlocked_ok R fz OR Q (s_tr s0) v Hf) in H3 as (B1 & B2 & B3 & B4 & B5 & B6 & B7 & B8 & B9).
        + apply (bvBlockedNeg_ok R fz OR Q (s_tr s0) v Hf) in H4 as (C1 & C2 & C3 & C4 & C5 & C6 & C7 & C8 & C9); auto.
          * assert (T4 : s_tr s4 = s_tr s0) by congruence. split; [|split; [auto|split; auto]]. rewrite T4. split; [auto|]. split; [auto|].
            rewrite C9, B9. apply W1.
          * rewrite B8, T1. exact Vt.
          * intros Nm j Ij. apply (blk_lsub v s1); [auto|]. destruct (Cn j Ij) as [Ij' G]. specialize (G Nm).
            assert (Ijc : In (j, true) cls) by (apply Nin; change j with (fst (j, true)); now apply in_map).
            intros C E. rewrite L1 in E. exists true. split; [eapply Bn; eauto|]. intros i ci Ei Iv. rewrite L1 in Ei. cbn [negb] in Iv.
            destruct (G i ci C) as (z & Z1 & Z2 & Z3); auto; [apply Pin; eapply Kc; eauto|]. exists (neg z). split; [auto|]. split; [auto|].
            replace (neg (neg z)) with z by (destruct z; unfold neg; cbn; now rewrite negb_involutive). auto.
        + rewrite T1. exact Vt.
        + apply W1.
        + apply W1.
        + rewrite Tp1. apply (J_ext _ _ _ _ (F s)); auto.
        + intros a Qa. apply F1. exact (HQ a Qa).
        + intros i Ii. destruct (Cb i Ii) as [[]|[Ip G]]. apply Pin in Ip. intros C E. rewrite L1 in E. exists false. split; [eapply Bp; eauto|].
          intros j cj Ej Iv. rewrite L1 in Ej. cbn [negb] in Iv. apply (G C j cj); auto. apply Nin. eapply Kc; eauto. }
    destruct ok.
    + destruct (o_iters o); [injection H as <- <-; exact P2|]. eapply bs_post; [|exact H]. now apply P2.
    + injection H as <- <-. split; [discriminate|]. intros _. now apply P2.
Qed.

Lemma eliminateVars_ok o n : (nb = true -> o_bce o = 0) -> (forall v, fz v = true -> o_frozen o v = true) -> forall picks s s' b, Inv s -> eliminateVars w o n picks s = Ok (s', b) -> post s' b.
Proof.
  intros Hnb Hz. induction picks as [|[v u] picks IH]; intros s s' b I H; cbn [eliminateVars] in H.
  - injection H as <- <-. split; [auto|discriminate].
  - destruct (o_frozen o v) eqn:Ev; [eauto|]. apply bind_ok in H as ([s1 b1] & H1 & H).
    apply bceVe_ok in H1 as [A B]; auto. 2:{ destruct (fz v) eqn:E; [apply Hz in E; congruence|auto]. }
    destruct b1; [eauto|]. injection H as <- <-. split; [discriminate|auto].
Qed.
Lemma rounds_ok o n : (nb = true -> o_bce o = 0) -> (forall v, fz v = true -> o_frozen o v = true) -> forall script s s' b, Inv s -> rounds w o n script s = Ok (s', b) -> post s' b.
Proof.
  intros Hnb Hz. induction script as [|[brk picks] script IH]; intros s s' b I H; cbn [rounds] in H.
  - injection H as <- <-. split; [auto|discriminate].
  - apply bind_ok in H as ([s1 b1] & H1 & H). apply bs_post in H1 as [A B]; auto. destruct b1; cbn [negb] in H.
    + destruct brk; [injection H as <- <-; split; [auto|discriminate]|]. apply bind_ok in H as ([s2 b2] & H2 & H).
      apply eliminateVars_ok in H2 as [A2 B2]; auto. destruct b2; [eauto|]. injection H as <- <-. split; [discriminate|auto].
    + injection H as <- <-. split; [discriminate|auto].
Qed.
End El.
