From Coq Require Import List Bool Arith ZArith Lia.
Import ListNotations.
From Verif Require Import Base LpSpec LpProofs SrModel DsSpec DsProofs CpModel CpSpec CpProofs CpProofs2 UfModel UfSpec DgModel DgSpec DgProofs DgProofs2.

Lemma inSet_in U x : inSet U x = true <-> In x U.
Proof. unfold inSet. rewrite existsb_exists. split; [intros (y & I & E); apply Nat.eqb_eq in E; now subst|]. intros I. exists x. split; [auto|apply Nat.eqb_refl]. Qed.
Lemma norm_pos N M ls q : bodyT N M (Norm ls) = true -> In q (posAtoms (Norm ls)) -> N q = true.
Proof.
  cbn. rewrite forallb_forall. intros H I. apply in_map_iff in I as ([p s] & E & I). cbn in E. subst p. apply filter_In in I as [I S]. cbn in S. destruct s; [discriminate|]. apply (H (q, false) I).
Qed.

Section Graph.
Variables (pr : prep) (sc : nat -> option nat) (ign : nat -> bool) (fls : lit -> bool) (noScc : nat) (sccAtoms : list nat) (A : asg).
Hypothesis GI : graphInput pr sc ign noScc sccAtoms.
Hypothesis HB : CpSpec.bodiesOk pr A.
Hypothesis HF : forall l, fls l = true -> holds A l = false.
Hypothesis H0 : A 0 = true.
Notation gas := (gAtoms pr sc ign fls sccAtoms).
Notation o := (bodyOrder pr sc fls gas).
Notation g := (addSccs pr sc ign fls noScc sccAtoms).
Notation tb := (theBody pr).
Notation M := (atomsOf pr A).
Notation P := (rulesOf pr).

Lemma true_gas a k : M a = true -> sc a = Some k -> In a gas.
Proof.
  intros Ha E. apply gas_in with noScc; [exact GI|]. unfold relAtom. rewrite (sc_ign _ _ _ _ _ GI a k E), E. cbn. unfold atomsOf in Ha. destruct (fls (p_lit pr a)) eqn:F; [|reflexivity]. apply HF in F. congruence.
Qed.
Lemma alit_aid a : In a gas -> alit g (aid gas a) = p_lit pr a.
Proof. intros I. unfold alit. destruct (atom_aid pr sc ign fls noScc sccAtoms a I) as [-> _]. reflexivity. Qed.
Lemma blit_bid i : In i o -> blit g (bid o i) = b_lit (tb i).
Proof. intros I. unfold blit. rewrite body_bid by auto. apply mk_lit. Qed.

(** sums over the subgoals *)
Definition predsL (k : nat) (l : list (lit * Z)) : list (nat * Z) :=
  map (fun p => (aid gas (fst p), snd p)) (filter (fun p => relAtom pr sc ign fls (fst p) && match sc (fst p) with Some j => j =? k | None => false end)
    (map (fun x => (fst (fst x), snd x)) (filter (fun x : lit * Z => negb (snd (fst x))) l))).
Definition extsL (k : nat) (l : list (lit * Z)) : list (lit * Z) :=
  map (fun x => (goalLit pr (fst x), snd x))
    (filter (fun x => (snd (fst x) || negb (match sc (fst (fst x)) with Some j => j =? k | None => false end)) && negb (fls (goalLit pr (fst x)))) l).

Lemma sum_fwd k L V : (forall a, In a gas -> V a = inSet L (aid gas a)) -> forall l, (forall x, In x l -> (0 <= snd x)%Z) ->
  (sumT (without M V) M l <= sumOut g (holds A) L (predsL k l) + sumLits (holds A) (extsL k l))%Z.
Proof.
  intros HV. induction l as [|[[p s] w] l IH]; intros Hw; [cbn; lia|]. specialize (IH (fun x I => Hw x (or_intror I))). pose proof (Hw _ (or_introl eq_refl)) as W. cbn [snd] in W.
  cbn [sumT fold_right fst snd]. fold (sumT (without M V) M l). unfold predsL, extsL in *. cbn [filter fst snd map]. destruct s; cbn [negb orb andb]; cbn [map filter fst snd].
  - (* negative *) unfold litT. cbn [fst snd]. assert (E : holds A (goalLit pr (p, true)) = negb (M p)) by (rewrite goal_holds; reflexivity). destruct (M p) eqn:Ep; cbn [negb] in *.
    + destruct (fls (goalLit pr (p, true))) eqn:F; cbn [negb map sumLits fst snd]; [lia|]. rewrite E. lia.
    + assert (F : fls (goalLit pr (p, true)) = false) by (destruct (fls (goalLit pr (p, true))) eqn:F; [apply HF in F; congruence|auto]). rewrite F. cbn [negb map sumLits fst snd]. rewrite E. lia.
  - unfold litT. cbn [fst snd]. assert (E : holds A (goalLit pr (p, false)) = M p) by (rewrite goal_holds; reflexivity).
    destruct (match sc p with Some j => j =? k | None => false end) eqn:Es; cbn [negb andb].
    + rewrite andb_true_r. destruct (relAtom pr sc ign fls p) eqn:R.
      * cbn [map sumOut fst snd]. assert (Ip : In p gas) by (now apply gas_in with noScc). rewrite alit_aid by auto. unfold without at 1. rewrite (HV p Ip). unfold atomsOf at 1. destruct (holds A (p_lit pr p)), (inSet L (aid gas p)); cbn [andb negb]; lia.
      * assert (X : M p = false). { destruct (M p) eqn:Ep; [|reflexivity]. destruct (sc p) as [j|] eqn:Ej; [|discriminate]. pose proof (true_gas p j Ep Ej) as I. apply (gas_in _ _ _ _ _ _ GI) in I. congruence. }
        unfold without at 1. rewrite X. cbn. exact IH.
    + rewrite andb_false_r. destruct (fls (goalLit pr (p, false))) eqn:F; cbn [negb map sumLits fst snd].
      * apply HF in F. unfold without at 1. assert (X : M p = false) by congruence. rewrite X. cbn. exact IH.
      * rewrite E. unfold without at 1. destruct (M p), (V p); cbn [andb negb]; lia.
Qed.
Lemma sum_bwd k L V : (forall a, In a gas -> V a = inSet L (aid gas a)) -> (forall a, V a = true -> sc a = Some k) -> forall l, (forall x, In x l -> (0 <= snd x)%Z) ->
  (sumOut g (holds A) L (predsL k l) + sumLits (holds A) (extsL k l) <= sumT (without M V) M l)%Z.
Proof.
  intros HV HK. induction l as [|[[p s] w] l IH]; intros Hw; [cbn; lia|]. specialize (IH (fun x I => Hw x (or_intror I))). pose proof (Hw _ (or_introl eq_refl)) as W. cbn [snd] in W.
  cbn [sumT fold_right fst snd]. fold (sumT (without M V) M l). unfold predsL, extsL in *. cbn [filter fst snd map]. destruct s; cbn [negb orb andb]; cbn [map filter fst snd].
  - unfold litT. cbn [fst snd]. assert (E : holds A (goalLit pr (p, true)) = negb (M p)) by (rewrite goal_holds; reflexivity).
    destruct (fls (goalLit pr (p, true))) eqn:F; cbn [negb map sumLits fst snd]; [destruct (M p); cbn [negb]; lia|]. rewrite E. destruct (M p); cbn [negb]; lia.
  - unfold litT. cbn [fst snd]. assert (E : holds A (goalLit pr (p, false)) = M p) by (rewrite goal_holds; reflexivity).
    destruct (match sc p with Some j => j =? k | None => false end) eqn:Es; cbn [negb andb].
    + rewrite andb_true_r. destruct (relAtom pr sc ign fls p) eqn:R.
      * cbn [map sumOut fst snd]. assert (Ip : In p gas) by (now apply gas_in with noScc). rewrite alit_aid by auto. unfold without at 1. rewrite (HV p Ip). unfold atomsOf at 1. destruct (holds A (p_lit pr p)), (inSet L (aid gas p)); cbn [andb negb]; lia.
      * destruct (without M V p); lia.
    + rewrite andb_false_r. destruct (fls (goalLit pr (p, false))) eqn:F; cbn [negb map sumLits fst snd]; [destruct (without M V p); lia|].
      rewrite E. unfold without at 1. assert (X : V p = false). { destruct (V p) eqn:Ev; [|reflexivity]. apply HK in Ev. rewrite Ev, Nat.eqb_refl in Es. discriminate. } rewrite X. destruct (M p); cbn [andb negb]; lia.
Qed.

Lemma mk_agg i k bound ls : bodyScc sc (tb i) = Some k -> b_body (tb i) = Agg bound ls ->
  n_bound (mkBody pr sc ign fls noScc gas i) = Some bound /\ n_preds (mkBody pr sc ign fls noScc gas i) = predsL k ls /\ n_exts (mkBody pr sc ign fls noScc gas i) = extsL k ls.
Proof. intros E1 E2. unfold mkBody. rewrite E1. rewrite E2. cbn [n_bound n_preds n_exts]. unfold bPreds, bExts, posGoals. rewrite E2. cbn [goalsW]. auto. Qed.
Lemma mk_norm i ls : b_body (tb i) = Norm ls -> n_bound (mkBody pr sc ign fls noScc gas i) = None.
Proof. intros E. unfold mkBody. rewrite E. destruct (bodyScc sc (tb i)); reflexivity. Qed.
Lemma mk_none i : bodyScc sc (tb i) = None -> n_bound (mkBody pr sc ign fls noScc gas i) = None.
Proof. intros E. unfold mkBody. rewrite E. reflexivity. Qed.

Lemma true_atom_aid x : holds A (alit g x) = true -> exists a, In a gas /\ x = aid gas a.
Proof. intros H. destruct (atom_cases pr sc ign fls noScc sccAtoms GI x) as [(a & I & E)|(_ & _ & _ & E)]; [eauto|]. rewrite E in H. unfold holds, litFalse, ngt in H. cbn in H. rewrite H0 in H. discriminate. Qed.

Lemma true_hasVar l : holds A l = true -> hasVar l = true.
Proof. intros H. unfold hasVar. destruct (lit_eqb l litFalse) eqn:E; [|reflexivity]. apply lit_eqb_eq in E. subst l. unfold holds, litFalse, ngt in H. cbn in H. rewrite H0 in H. discriminate. Qed.
Lemma founded_fwd : posP P -> foundedModel P M -> founded g (holds A).
Proof.
  intros Hp F L NE HL. set (V := fun a => relAtom pr sc ign fls a && inSet L (aid gas a)).
  assert (HV : forall a, In a gas -> V a = inSet L (aid gas a)) by (intros a I; unfold V; apply (gas_in _ _ _ _ _ _ GI) in I; now rewrite I).
  assert (VM : forall a, V a = true -> In a gas /\ M a = true /\ In (aid gas a) L).
  { intros a E. unfold V in E. apply andb_true_iff in E as [R I]. apply inSet_in in I. assert (Ia : In a gas) by now apply gas_in with noScc. split; [auto|]. split; [|auto]. destruct (HL _ I) as [_ T]. now rewrite alit_aid in T. }
  destruct (F V) as (r & Ir & (h & Kh & Vh) & Hb & K).
  - intros a E. now apply VM.
  - destruct L as [|x L]; [congruence|]. destruct (true_atom_aid x) as (a & Ia & E); [now apply HL; left|]. exists a. rewrite HV by auto. apply inSet_in. rewrite <- E. now left.
  - destruct (rule_body _ _ _ _ _ GI r h Ir Kh) as (b & t & Ib & J & Eb & Eh & G). apply theBody_ex in Ib as (i & Li & Ei). destruct (VM h Vh) as (Ih & Mh & IL).
    assert (Tb : holds A (b_lit (tb i)) = true). { rewrite (HB (tb i)) by now apply theBody_in. rewrite Ei, <- Eb. apply bodyT_mono with (without M V); auto using without_sub. }
    assert (Is : In i (supBodies pr fls h)). { apply supBodies_in. split; [auto|]. split; [|rewrite Ei; eauto]. unfold relBody. destruct (fls (b_lit (tb i))) eqn:Ef; [apply HF in Ef; congruence|reflexivity]. }
    assert (Io : In i o) by (apply o_in; eauto).
    exists (aid gas h), (bid o i). split; [auto|]. split; [apply (gw_heads g (graph_wf _ _ _ _ _ _ GI)); rewrite body_bid, mk_heads by auto; apply in_map; rewrite headOrder_in; apply bHeads_in; split; [now apply (gas_in _ _ _ _ _ _ GI)|rewrite Ei; eauto]|].
    split; [now rewrite blit_bid|]. intros Es. assert (Es' : sameScc g (bid o i) (aid gas h) = true) by (now apply Nat.eqb_eq). apply (sameScc_ok _ _ _ _ _ _ GI) in Es' as (k & E1 & E2); auto. rewrite body_bid by auto. rewrite Eb, <- Ei in Hb. destruct (b_body (tb i)) as [ls|bound ls] eqn:EB.
    + rewrite (mk_norm i ls EB). intros p w Ip IpL. assert (Iq : In p (preds g (bid o i))) by (unfold preds; rewrite body_bid by auto; apply in_map_iff; exists (p, w); auto).
      destruct (preds_gas _ _ _ _ _ _ GI _ _ Iq) as (_ & q & _ & _ & Ig & ->). apply (preds_in _ _ _ _ _ _ GI) in Iq as [Iq _]; auto. rewrite EB in Iq. apply norm_pos with (q := q) in Hb; auto. unfold without in Hb. apply andb_true_iff in Hb as [_ Hb]. rewrite HV in Hb by auto. apply inSet_in in IpL. rewrite IpL in Hb. discriminate.
    + destruct (mk_agg i k bound ls E1 EB) as (-> & -> & ->). cbn [bodyT] in Hb. apply Z.leb_le in Hb. eapply Z.le_trans; [exact Hb|]. apply sum_fwd; [auto|]. specialize (Hp r Ir). rewrite Eb, <- Ei, EB in Hp. exact Hp.
Qed.

Lemma founded_bwd : founded g (holds A) -> compFounded P sc M.
Proof.
  intros F k U HU (u & Hu). set (L := map (aid gas) (filter U gas)).
  assert (HG : forall a, U a = true -> In a gas) by (intros a Ha; destruct (HU a Ha); now apply true_gas with k).
  assert (HL : forall a, In a gas -> U a = inSet L (aid gas a)).
  { intros a Ia. destruct (inSet L (aid gas a)) eqn:E.
    - apply inSet_in in E. unfold L in E. apply in_map_iff in E as (b & Eb & Ib). apply filter_In in Ib as [Ib Ub]. apply aid_inj in Eb; auto. now subst b.
    - destruct (U a) eqn:Ea; [|reflexivity]. rewrite <- E. symmetry. apply inSet_in. apply in_map. apply filter_In. auto. }
  destruct (F L) as (x & b & Ix & Ib & Te & Ee).
  - intros E. assert (X : In (aid gas u) L) by (apply in_map; apply filter_In; auto). rewrite E in X. destruct X.
  - intros x Ix. apply in_map_iff in Ix as (a & <- & Ia). apply filter_In in Ia as [Ia Ua]. split; [now apply atom_aid|]. rewrite alit_aid by auto. now apply HU.
  - apply in_map_iff in Ix as (a & <- & Ia). apply filter_In in Ia as [Ia Ua]. destruct (atom_aid pr sc ign fls noScc sccAtoms a Ia) as [Eat _]. rewrite Eat in Ib. cbn [mkAtom a_bodies] in Ib. apply in_map_iff in Ib as (i & <- & Ii).
    assert (Is : In i (supBodies pr fls a)) by (unfold adjOrder in Ii; apply in_app_or in Ii; rewrite !filter_In in Ii; tauto). assert (Io : In i o) by (apply o_in; eauto).
    apply supBodies_in in Is as (Li & Ri & t & J & G). pose proof (theBody_in pr i Li) as It. rewrite blit_bid in Te by auto. assert (Vb : hasVar (b_lit (tb i)) = true) by now apply true_hasVar. rewrite (HB (tb i) It) in Te.
    destruct (rule_ex _ _ _ _ _ GI (tb i) (a, t) It J) as (r & Ir & Rh & Rb & _). cbn [fst] in Rh. exists r. split; [auto|]. rewrite Rh, Rb. split; [exists a; split; [now left|auto]|]. split; [|intros _ h [<-|[]] _; auto].
    destruct (gi_goals _ _ _ _ _ GI (tb i) It) as [_ Hp].
    destruct (existsb U (posAtoms (b_body (tb i)))) eqn:Ex.
    + apply existsb_exists in Ex as (p & Ip & Up). destruct (HU a Ua) as [_ Sa]. destruct (HU p Up) as [_ Sp]. pose proof (bodyScc_rec _ _ _ _ _ GI (tb i) (a, t) p k It Vb J Sa Ip Sp) as Ek.
      assert (Sm : sameScc g (bid o i) (aid gas a) = true) by (apply (sameScc_ok _ _ _ _ _ _ GI); eauto). apply Nat.eqb_eq in Sm. specialize (Ee Sm). rewrite body_bid in Ee by auto. destruct (b_body (tb i)) as [ls|bound ls] eqn:EB.
      * exfalso. rewrite (mk_norm i ls EB) in Ee. assert (Iq : In (aid gas p) (preds g (bid o i))) by (apply (preds_in _ _ _ _ _ _ GI); [auto|auto|rewrite EB; eauto]). unfold preds in Iq. rewrite body_bid in Iq by auto. apply in_map_iff in Iq as ([q w] & Eq & Iq). cbn [fst] in Eq. subst q. apply (Ee _ _ Iq). apply in_map, filter_In. auto.
      * destruct (mk_agg i k bound ls Ek EB) as (E1 & E2 & E3). rewrite E1, E2, E3 in Ee. cbn [bodyT]. apply Z.leb_le. eapply Z.le_trans; [exact Ee|]. apply sum_bwd; auto. intros c Uc. now apply HU.
    + apply litT_posAtoms with M; auto. intros p Ip Mp. unfold without. rewrite Mp. cbn. destruct (U p) eqn:Up; [|reflexivity]. assert (X : existsb U (posAtoms (b_body (tb i))) = true) by (apply existsb_exists; eauto). congruence.
Qed.

Lemma founded_graph : posP P -> supported true P M -> (founded g (holds A) <-> foundedModel P M).
Proof.
  intros Hp S. split; [|now apply founded_fwd]. intros F. destruct (gi_comp _ _ _ _ _ GI) as (rank & R1 & R2). apply comp_foundedI with ign sc rank; auto using founded_bwd.
  - intros r h p Ir Ih Ip Hb Mh Mp Hi Hj. apply R2; auto. destruct (rule_body _ _ _ _ _ GI r h Ir Ih) as (b & t & Ib & It & Eb & _). exists b, t. rewrite <- Eb. split; [auto|]. split; [|split; [auto|split; [auto|split; now apply true_hasVar]]].
    apply true_hasVar. rewrite (HB b Ib), <- Eb. exact Hb.
  - intros a Ha. now apply (gi_ign _ _ _ _ _ GI).
Qed.
Lemma bodies_respected : UfSpec.bodiesOk g A.
Proof.
  intros b p w Nb I T. assert (J : In p (preds g b)) by (unfold preds; apply in_map_iff; exists (p, w); auto). destruct (preds_gas _ _ _ _ _ _ GI _ _ J) as (i & q & Io & -> & Iq & ->).
  rewrite blit_bid in T by auto. destruct (o_rel pr sc ign fls sccAtoms i Io) as [L _]. rewrite (HB (tb i) (theBody_in pr i L)) in T. apply (preds_in _ _ _ _ _ _ GI) in J as (J & k & E1 & E2); auto. rewrite alit_aid by auto.
  destruct (b_body (tb i)) as [ls|bound ls] eqn:EB; [now apply norm_pos with (q := q) in T|]. rewrite body_bid in Nb by auto. destruct (mk_agg i k bound ls E1 EB) as (E & _). congruence.
Qed.
End Graph.

Lemma plain_posP pr sc ign noScc sccAtoms : graphInput pr sc ign noScc sccAtoms -> posP (rulesOf pr).
Proof. intros GI r I. apply rules_in in I as (b & I & [(a & -> & _)|[(a & -> & _)|(hs & -> & _)]]); cbn; now apply (gi_goals _ _ _ _ _ GI). Qed.
