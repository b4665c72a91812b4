From Coq Require Import List Bool Arith ZArith Lia.
Import ListNotations.
From Verif Require Import Base LpSpec LpProofs SrModel DsSpec DsProofs CpModel CpSpec CpProofs CpProofs2 UfModel UfSpec DgModel DgSpec DgProofs.

Lemma relAtom_sc pr sc ign fls a : relAtom pr sc ign fls a = true -> ign a = false /\ (exists k, sc a = Some k) /\ fls (p_lit pr a) = false.
Proof.
  unfold relAtom. rewrite !andb_true_iff. intros [[H1 H2] H3]. split; [now destruct (ign a)|]. split; [destruct (sc a); [eauto|discriminate]|now destruct (fls (p_lit pr a))].
Qed.
Lemma theBody_in pr i : i < length (p_bodies pr) -> In (theBody pr i) (p_bodies pr).
Proof. intros L. now apply nth_In. Qed.
Lemma theBody_ex pr b : In b (p_bodies pr) -> exists i, i < length (p_bodies pr) /\ theBody pr i = b.
Proof. intros I. apply (In_nth _ _ (Pb (Norm []) VFree litFalse [] [])) in I as (i & L & E). exists i. auto. Qed.
Lemma supBodies_in pr fls a i : In i (supBodies pr fls a) <-> i < length (p_bodies pr) /\ relBody pr fls i = true /\ exists t, In (a, t) (b_heads (theBody pr i)) /\ isGamma t = false.
Proof.
  unfold supBodies. rewrite distinct_in, filter_In, in_flat_map. split.
  - intros [[(j & J & I) R] _]. apply in_seq in J. apply in_map_iff in I as ([x t] & <- & I). apply filter_In in I as [I E]. cbn in E. apply andb_true_iff in E as [E1 E2]. apply Nat.eqb_eq in E1. subst x. split; [lia|]. split; [auto|]. exists t. split; [auto|now destruct (isGamma t)].
  - intros (L & R & t & I & G). split; [|intros []]. split; [|auto]. exists i. split; [apply in_seq; lia|]. apply in_map_iff. exists (a, t). split; [reflexivity|]. apply filter_In. split; [auto|]. cbn. now rewrite Nat.eqb_refl, G.
Qed.
Lemma sameAs_true sc a s : sameAs sc a s = true <-> exists k, s = Some k /\ sc a = Some k.
Proof.
  unfold sameAs. destruct s as [k|], (sc a) as [j|]; split; try discriminate; try (intros (q & X & Y); discriminate).
  - intros E. apply Nat.eqb_eq in E. subst j. eauto.
  - intros (q & X & Y). injection X as ->. injection Y as ->. apply Nat.eqb_refl.
Qed.
Lemma depBodies_in pr sc fls a i : In i (depBodies pr sc fls a) <-> i < length (p_bodies pr) /\ In a (posAtoms (b_body (theBody pr i))) /\ relBody pr fls i = true /\ exists k, bodyScc sc (theBody pr i) = Some k /\ sc a = Some k.
Proof.
  unfold depBodies. rewrite filter_In, in_seq, !andb_true_iff, mem_in, posGoals_atoms, sameAs_true. intuition lia.
Qed.

Section Graph.
Variables (pr : prep) (sc : nat -> option nat) (ign : nat -> bool) (fls : lit -> bool) (noScc : nat) (sccAtoms : list nat).
Hypothesis GI : graphInput pr sc ign noScc sccAtoms.
Notation gas := (gAtoms pr sc ign fls sccAtoms).
Notation o := (bodyOrder pr sc fls gas).
Notation g := (addSccs pr sc ign fls noScc sccAtoms).
Notation tb := (theBody pr).

Lemma gas_in a : In a gas <-> relAtom pr sc ign fls a = true.
Proof.
  unfold gAtoms. rewrite filter_In. split; [tauto|]. intros R. split; [|auto]. apply (gi_atoms _ _ _ _ _ GI). destruct (relAtom_sc _ _ _ _ _ R) as (_ & (k & E) & _). congruence.
Qed.
Lemma gas_nodup : NoDup gas.
Proof. apply filter_nodup, (gi_nodup _ _ _ _ _ GI). Qed.
Lemma o_nodup : NoDup o.
Proof. apply bodyOrder_nodup. constructor. Qed.
Lemma o_in i : In i o <-> exists a, In a gas /\ (In i (supBodies pr fls a) \/ In i (depBodies pr sc fls a)).
Proof. unfold bodyOrder. rewrite bodyOrder_in. split; [intros [[]|H]; auto|auto]. Qed.
Lemma o_rel i : In i o -> i < length (p_bodies pr) /\ relBody pr fls i = true.
Proof. intros I. apply o_in in I as (a & _ & [I|I]); [apply supBodies_in in I|apply depBodies_in in I]; tauto. Qed.

Lemma atom_aid a : In a gas -> atomOf g (aid gas a) = mkAtom pr sc ign fls noScc gas o a /\ aid gas a < nAtoms g.
Proof.
  intros I. pose proof (idx_lt a gas I) as L. split.
  - unfold atomOf, aid, addSccs. cbn [g_atoms nth]. rewrite nth_indep with (d' := mkAtom pr sc ign fls noScc gas o 0) by (rewrite map_length; exact L). rewrite map_nth. now rewrite (idx_nth a 0 gas I).
  - unfold nAtoms, addSccs, aid. cbn [g_atoms length]. rewrite map_length. lia.
Qed.
Lemma atom_cases x : (exists a, In a gas /\ x = aid gas a) \/ (a_bodies (atomOf g x) = [] /\ a_succs (atomOf g x) = [] /\ a_ext (atomOf g x) = [] /\ alit g x = litFalse).
Proof.
  destruct x as [|j]; [right; cbn; auto|]. destruct (Nat.lt_ge_cases j (length gas)) as [L|L].
  - left. exists (nth j gas 0). split; [now apply nth_In|]. unfold aid. f_equal. symmetry. apply nth_idx; [apply gas_nodup|auto].
  - right. unfold alit, atomOf, addSccs. cbn [g_atoms nth]. rewrite nth_overflow by (rewrite map_length; lia). cbn. auto.
Qed.
Lemma aid_inj a b : In a gas -> In b gas -> aid gas a = aid gas b -> a = b.
Proof. intros Ia Ib E. unfold aid in E. injection E as E. now apply idx_inj in E. Qed.
Lemma body_bid i : In i o -> bodyOf g (bid o i) = mkBody pr sc ign fls noScc gas i.
Proof.
  intros I. pose proof (idx_lt i o I) as L. unfold bodyOf, bid, addSccs. cbn [g_bodies]. rewrite nth_indep with (d' := mkBody pr sc ign fls noScc gas 0) by (rewrite map_length; exact L). rewrite map_nth. now rewrite (idx_nth i 0 o I).
Qed.
Lemma body_cases b : (exists i, In i o /\ b = bid o i) \/ (n_heads (bodyOf g b) = [] /\ n_preds (bodyOf g b) = [] /\ n_exts (bodyOf g b) = [] /\ n_bound (bodyOf g b) = None).
Proof.
  destruct (Nat.lt_ge_cases b (length o)) as [L|L].
  - left. exists (nth b o 0). split; [now apply nth_In|]. symmetry. apply nth_idx; [apply o_nodup|auto].
  - right. unfold bodyOf, addSccs. cbn [g_bodies]. rewrite nth_overflow by (rewrite map_length; lia). cbn. auto.
Qed.
Lemma bid_inj i j : In i o -> In j o -> bid o i = bid o j -> i = j.
Proof. apply idx_inj. Qed.

(** ** the component of a body *)
Lemma rule_ex b h : In b (p_bodies pr) -> In h (b_heads b) -> exists r, In r (rulesOf pr) /\ r_head r = [fst h] /\ r_body r = b_body b /\ (r_choice r = false <-> snd h = ENormal).
Proof.
  intros I J. destruct h as [a t]. cbn. destruct (gi_plain _ _ _ _ _ GI b I) as [_ Hp]. destruct (Hp _ J) as [E|E]; cbn in E; subst t.
  - exists (Rule false [a] (b_body b)). split; [apply rules_in; exists b; split; [auto|left; eauto]|]. cbn. intuition.
  - exists (Rule true [a] (b_body b)). split; [apply rules_in; exists b; split; [auto|right; left; eauto]|]. cbn. intuition discriminate.
Qed.
Lemma rule_body r h : In r (rulesOf pr) -> In h (r_head r) -> exists b t, In b (p_bodies pr) /\ In (h, t) (b_heads b) /\ r_body r = b_body b /\ r_head r = [h] /\ isGamma t = false.
Proof.
  intros I J. apply rules_in in I as (b & I & [(a & -> & K)|[(a & -> & K)|(hs & -> & K)]]); cbn in *.
  - destruct J as [->|[]]. exists b, ENormal. auto.
  - destruct J as [->|[]]. exists b, EChoice. auto.
  - destruct (gi_plain _ _ _ _ _ GI b I) as [E _]. rewrite E in K. destruct K.
Qed.
Lemma goalSccs_in b s : In s (goalSccs sc b) <-> exists p, In p (posAtoms b) /\ sc p = Some s.
Proof.
  unfold goalSccs. rewrite in_flat_map. split.
  - intros ([p w] & I & J). cbn in J. destruct (sc p) as [k|] eqn:E; [|destruct J]. destruct J as [<-|[]]. exists p. split; [|auto]. apply posGoals_atoms. apply in_map_iff. exists (p, w). auto.
  - intros (p & I & E). apply posGoals_atoms, in_map_iff in I as ([q w] & Eq & I). cbn in Eq. subst q. exists (p, w). split; [auto|]. cbn. rewrite E. now left.
Qed.
Lemma sc_ign a k : sc a = Some k -> ign a = false.
Proof. intros E. destruct (ign a) eqn:Ei; [|reflexivity]. destruct (gi_ign _ _ _ _ _ GI a Ei) as [X _]. congruence. Qed.

Lemma dep_in b h p i j : In b (p_bodies pr) -> hasVar (b_lit b) = true -> In h (b_heads b) -> In p (posAtoms (b_body b)) -> sc (fst h) = Some i -> sc p = Some j -> dependsOn pr (fst h) p.
Proof. intros I V J K E1 E2. exists b, (snd h). split; [auto|]. split; [auto|]. split; [now destruct h|]. split; [auto|]. split; apply (gi_var _ _ _ _ _ GI); congruence. Qed.
Lemma headScc_some b s : In b (p_bodies pr) -> hasVar (b_lit b) = true -> forall hs, (forall h, In h hs -> In h (b_heads b)) ->
  let gs := goalSccs sc (b_body b) in headScc sc (map (fun s => s mod 64) gs) (existsb (fun s => 63 <? s) gs) gs hs = Some s -> exists h, In h hs /\ sc (fst h) = Some s /\ In s gs.
Proof.
  intros Ib Vb hs Hs gs. induction hs as [|h hs IH]; cbn [headScc]; [discriminate|]. intros E.
  assert (IH' : headScc sc (map (fun s => s mod 64) gs) (existsb (fun s => 63 <? s) gs) gs hs = Some s -> exists h0, In h0 (h :: hs) /\ sc (fst h0) = Some s /\ In s gs).
  { intros X. destruct IH as (h' & I' & X'); [intros q Q; apply Hs; now right|auto|]. exists h'. split; [now right|auto]. }
  destruct (sc (fst h)) as [k|] eqn:Ek; [|auto]. destruct (mem (k mod 64) (map (fun s0 => s0 mod 64) gs) && (negb (existsb (fun s0 => 63 <? s0) gs) || mem k gs)) eqn:Em; [|auto].
  injection E as ->. apply andb_true_iff in Em as [E1 E2]. exists h. split; [now left|]. split; [auto|].
  apply orb_true_iff in E2 as [E2|E2]; [|now apply mem_in]. apply mem_in, in_map_iff in E1 as (q & Eq & Iq).
  assert (L : q <= 63). { destruct (Nat.le_gt_cases q 63) as [L|L]; [auto|]. assert (X : existsb (fun s0 => 63 <? s0) gs = true) by (apply existsb_exists; exists q; split; [auto|apply Nat.ltb_lt; lia]). rewrite X in E2. discriminate. }
  assert (Ls : s <= q). { pose proof Iq as Iq'. unfold gs in Iq'. apply goalSccs_in in Iq' as (p & Ip & Ep). apply (gi_order _ _ _ _ _ GI (fst h) p); auto. eapply dep_in; eauto. apply Hs. now left. }
  rewrite !Nat.mod_small in Eq by lia. now subst q.
Qed.
Lemma headScc_found mask large gs : forall hs h s, In h hs -> sc (fst h) = Some s -> mem (s mod 64) mask = true -> mem s gs = true -> exists k, headScc sc mask large gs hs = Some k.
Proof.
  induction hs as [|x hs IH]; intros h s I E M1 M2; [destruct I|]. cbn [headScc]. destruct I as [->|I].
  - rewrite E, M1, M2, orb_true_r. cbn. eauto.
  - destruct (sc (fst x)) as [k|]; [|eauto]. destruct (mem (k mod 64) mask && (negb large || mem k gs)); eauto.
Qed.
Lemma bodyScc_some b s : In b (p_bodies pr) -> hasVar (b_lit b) = true -> bodyScc sc b = Some s -> exists h p, In h (b_heads b) /\ sc (fst h) = Some s /\ In p (posAtoms (b_body b)) /\ sc p = Some s.
Proof. intros I V E. apply (headScc_some b s I V (b_heads b)) in E as (h & J & E1 & E2); [|auto]. apply goalSccs_in in E2 as (p & Ip & Ep). exists h, p. auto. Qed.
Lemma bodyScc_rec b h p k : In b (p_bodies pr) -> hasVar (b_lit b) = true -> In h (b_heads b) -> sc (fst h) = Some k -> In p (posAtoms (b_body b)) -> sc p = Some k -> bodyScc sc b = Some k.
Proof.
  intros I V J Eh Ip Ep. assert (Ig : In k (goalSccs sc (b_body b))) by (apply goalSccs_in; eauto).
  destruct (headScc_found (map (fun s => s mod 64) (goalSccs sc (b_body b))) (existsb (fun s => 63 <? s) (goalSccs sc (b_body b))) (goalSccs sc (b_body b)) (b_heads b) h k J Eh) as (s & E); [apply mem_in, in_map_iff; eauto|now apply mem_in|].
  fold (bodyScc sc b) in E. destruct (Nat.eq_dec s k) as [->|Ne]; [auto|]. exfalso.
  destruct (bodyScc_some b s I V E) as (h' & p' & J' & Eh' & Ip' & Ep'). destruct (gi_comp _ _ _ _ _ GI) as (rank & R1 & R2).
  destruct (R2 (fst h) p') as [X|[X _]]; [eapply dep_in; eauto|now apply sc_ign in Eh|now apply sc_ign in Ep'| |congruence].
  destruct (R2 (fst h') p) as [Y|[Y _]]; [eapply dep_in; eauto|now apply sc_ign in Eh'|now apply sc_ign in Ep| |congruence].
  assert (rank p = rank (fst h)) by (apply R1; congruence). assert (rank p' = rank (fst h')) by (apply R1; congruence). lia.
Qed.

(** ** the parts of a node *)
Lemma bHeads_in b a : In a (bHeads pr sc ign fls b) <-> relAtom pr sc ign fls a = true /\ exists t, In (a, t) (b_heads b) /\ isGamma t = false.
Proof.
  unfold bHeads. rewrite in_map_iff. split.
  - intros ([x t] & E & I). cbn in E. subst x. apply filter_In in I as [I R]. cbn in R. apply andb_true_iff in R as [R1 R2]. split; [auto|]. exists t. split; [auto|now destruct (isGamma t)].
  - intros (R & t & I & G). exists (a, t). split; [reflexivity|]. apply filter_In. split; [auto|]. cbn. now rewrite G, R.
Qed.
Lemma headOrder_in s hs a : In a (headOrder sc s hs) <-> In a hs.
Proof.
  unfold headOrder. rewrite in_app_iff, <- in_rev, !filter_In. destruct (match s with Some k => match sc a with Some j => k =? j | None => false end | None => false end); cbn; intuition.
Qed.
Lemma mk_heads i : n_heads (mkBody pr sc ign fls noScc gas i) = map (aid gas) (headOrder sc (bodyScc sc (tb i)) (bHeads pr sc ign fls (tb i))).
Proof. unfold mkBody. destruct (bodyScc sc (tb i)); [destruct (b_body (tb i))|]; reflexivity. Qed.
Lemma mk_scc i : n_scc (mkBody pr sc ign fls noScc gas i) = match bodyScc sc (tb i) with Some k => k | None => noScc end.
Proof. unfold mkBody. destruct (bodyScc sc (tb i)); [destruct (b_body (tb i))|]; reflexivity. Qed.
Lemma mk_lit i : n_lit (mkBody pr sc ign fls noScc gas i) = b_lit (tb i).
Proof. unfold mkBody. destruct (bodyScc sc (tb i)); [destruct (b_body (tb i))|]; reflexivity. Qed.
Lemma mk_preds i : n_preds (mkBody pr sc ign fls noScc gas i) = match bodyScc sc (tb i) with Some k => bPreds pr sc ign fls gas (tb i) k | None => [] end.
Proof. unfold mkBody. destruct (bodyScc sc (tb i)); [destruct (b_body (tb i))|]; reflexivity. Qed.
Lemma mk_ext i : (match n_bound (mkBody pr sc ign fls noScc gas i) with Some _ => true | None => false end) = isExtB pr sc i.
Proof. unfold mkBody, isExtB. destruct (bodyScc sc (tb i)); [destruct (b_body (tb i))|destruct (b_body (tb i))]; reflexivity. Qed.
Lemma bPreds_in b k x w : In (x, w) (bPreds pr sc ign fls gas b k) <-> exists p, x = aid gas p /\ relAtom pr sc ign fls p = true /\ sc p = Some k /\ In (p, w) (posGoals (b_body b)).
Proof.
  unfold bPreds. rewrite in_map_iff. split.
  - intros ([p w'] & E & I). apply filter_In in I as [I R]. cbn in *. injection E as <- <-. apply andb_true_iff in R as [R1 R2]. exists p. split; [auto|]. split; [auto|]. split; [|auto]. destruct (sc p) as [j|]; [|discriminate]. apply Nat.eqb_eq in R2. now subst.
  - intros (p & -> & R & E & I). exists (p, w). split; [reflexivity|]. apply filter_In. split; [auto|]. cbn. now rewrite R, E, Nat.eqb_refl.
Qed.
Lemma preds_in i p : In i o -> In p gas -> (In (aid gas p) (preds g (bid o i)) <-> In p (posAtoms (b_body (tb i))) /\ exists k, bodyScc sc (tb i) = Some k /\ sc p = Some k).
Proof.
  intros I Ip. unfold preds. rewrite body_bid, mk_preds by auto. destruct (bodyScc sc (tb i)) as [k|]; [|split; [intros []|intros (_ & k & E & _); discriminate]]. split.
  - intros J. apply in_map_iff in J as ([x w] & E & J). cbn in E. subst x. apply bPreds_in in J as (q & E & R & Eq & J). apply aid_inj in E; [subst q|auto|now apply gas_in]. split; [|eauto]. apply posGoals_atoms, in_map_iff. exists (p, w). auto.
  - intros (J & k' & E1 & E2). injection E1 as <-. apply posGoals_atoms, in_map_iff in J as ([q w] & E & J). cbn in E. subst q. apply in_map_iff. exists (aid gas p, w). split; [reflexivity|]. apply bPreds_in. exists p. split; [auto|]. split; [now apply gas_in|auto].
Qed.
Lemma preds_gas b x : In x (preds g b) -> exists i p, In i o /\ b = bid o i /\ In p gas /\ x = aid gas p.
Proof.
  intros J. destruct (body_cases b) as [(i & I & ->)|(_ & E & _)]; [|unfold preds in J; rewrite E in J; destruct J]. unfold preds in J. rewrite body_bid, mk_preds in J by auto. destruct (bodyScc sc (tb i)) as [k|]; [|destruct J].
  apply in_map_iff in J as ([y w] & E & J). cbn in E. subst y. apply bPreds_in in J as (q & E & R & _). exists i, q. split; [auto|]. split; [auto|]. split; [now apply gas_in|auto].
Qed.
Lemma preds_nodup b : NoDup (preds g b).
Proof.
  destruct (body_cases b) as [(i & I & ->)|(_ & E & _)]; [|unfold preds; rewrite E; constructor]. unfold preds. rewrite body_bid, mk_preds by auto. destruct (bodyScc sc (tb i)) as [k|]; [|constructor].
  unfold bPreds. rewrite map_map. cbn. apply o_rel in I as [L _]. destruct (gi_goals _ _ _ _ _ GI (tb i) (theBody_in pr i L)) as [N _]. apply posGoals_nodup in N.
  set (f := fun p : nat * Z => relAtom pr sc ign fls (fst p) && match sc (fst p) with Some k0 => k0 =? k | None => false end).
  assert (Hf : forall p, f p = true -> In (fst p) gas) by (intros p E; unfold f in E; apply andb_true_iff in E as [E _]; now apply gas_in).
  revert N Hf. generalize (posGoals (b_body (tb i))) f. intros l f' N Hf. induction l as [|[p w] l IH]; [constructor|]. cbn in N. inversion N as [|? ? N1 N2]; subst. cbn [filter]. destruct (f' (p, w)) eqn:Ef; [|auto]. cbn [map fst]. constructor; [|auto].
  intros J. apply in_map_iff in J as ([q w'] & E & J). apply filter_In in J as [J Fq]. cbn in E. apply aid_inj in E; [|now apply (Hf (q, w'))|now apply (Hf (p, w))]. subst q. apply N1. apply in_map_iff. exists (p, w'). auto.
Qed.
Lemma scc_atom a : In a gas -> exists k, sc a = Some k /\ a_scc (atomOf g (aid gas a)) = k.
Proof. intros I. destruct (atom_aid a I) as [E _]. rewrite E. apply gas_in in I. destruct (relAtom_sc _ _ _ _ _ I) as (_ & (k & Ek) & _). exists k. split; [auto|]. cbn. now rewrite Ek. Qed.
Lemma sameScc_ok i a : In i o -> In a gas -> (sameScc g (bid o i) (aid gas a) = true <-> exists k, bodyScc sc (tb i) = Some k /\ sc a = Some k).
Proof.
  intros I Ia. unfold sameScc. destruct (scc_atom a Ia) as (k & Ek & ->). rewrite body_bid, mk_scc by auto. rewrite Nat.eqb_eq. split.
  - intros E. exists k. split; [|auto]. destruct (bodyScc sc (tb i)); [congruence|]. exfalso. apply (gi_noScc _ _ _ _ _ GI a). congruence.
  - intros (j & E1 & E2). rewrite E1. congruence.
Qed.

Lemma dep_o a i : In a gas -> In i (depBodies pr sc fls a) -> In i o.
Proof. intros Ia I. apply o_in. eauto. Qed.
Lemma sup_o a i : In a gas -> In i (supBodies pr fls a) -> In i o.
Proof. intros Ia I. apply o_in. eauto. Qed.
Lemma isExt_ok i : In i o -> isExt g (bid o i) = isExtB pr sc i.
Proof. intros I. unfold isExt. rewrite body_bid by auto. apply mk_ext. Qed.
Lemma dep_nodup a : NoDup (depBodies pr sc fls a).
Proof. apply filter_nodup, seq_NoDup. Qed.

Lemma graph_wf : gwf g.
Proof.
  constructor.
  - intros b x. split.
    + intros J. destruct (body_cases b) as [(i & I & ->)|(E & _)]; [|rewrite E in J; destruct J]. rewrite body_bid, mk_heads in J by auto. apply in_map_iff in J as (a & <- & J). rewrite headOrder_in in J. apply bHeads_in in J as (R & t & J & G).
      assert (Ia : In a gas) by now apply gas_in. destruct (atom_aid a Ia) as [E _]. rewrite E. cbn [mkAtom a_bodies]. apply in_map. assert (Is : In i (supBodies pr fls a)) by (apply supBodies_in; destruct (o_rel i I); eauto).
      unfold adjOrder. apply in_or_app. rewrite !filter_In. destruct (sameAs sc a (bodyScc sc (tb i))); cbn; auto.
    + intros J. destruct (atom_cases x) as [(a & Ia & ->)|(E & _)]; [|rewrite E in J; destruct J]. destruct (atom_aid a Ia) as [E _]. rewrite E in J. cbn [mkAtom a_bodies] in J. apply in_map_iff in J as (i & <- & J).
      assert (Is : In i (supBodies pr fls a)) by (unfold adjOrder in J; apply in_app_or in J; rewrite !filter_In in J; tauto). pose proof (sup_o a i Ia Is) as I. rewrite body_bid, mk_heads by auto. apply in_map. rewrite headOrder_in. apply bHeads_in. split; [now apply gas_in|]. apply supBodies_in in Is. apply Is.
  - intros b x J. destruct (body_cases b) as [(i & I & ->)|(E & _)]; [|rewrite E in J; destruct J]. rewrite body_bid, mk_heads in J by auto. apply in_map_iff in J as (a & <- & J). rewrite headOrder_in in J. apply bHeads_in in J as (R & _). apply atom_aid. now apply gas_in.
  - intros b h1 x h2 E Es y Iy. destruct (body_cases b) as [(i & I & ->)|(E' & _)]; [|rewrite E' in E; destruct h1; discriminate]. rewrite body_bid, mk_heads in E by auto.
    set (hs := bHeads pr sc ign fls (tb i)) in *. set (s := bodyScc sc (tb i)) in *.
    unfold headOrder in E. set (same := fun a => match s with Some k => match sc a with Some j => k =? j | None => false end | None => false end) in *. rewrite map_app in E.
    assert (Hg : forall a, In a hs -> In a gas) by (intros a J; apply gas_in; now apply bHeads_in in J).
    assert (Hs : forall a, In a hs -> (sameScc g (bid o i) (aid gas a) = true <-> same a = true)).
    { intros a J. rewrite sameScc_ok by auto. fold s. unfold same. destruct s as [k|]; [|split; [intros (q & X & _); discriminate|discriminate]]. destruct (sc a) as [j|]; [|split; [intros (q & _ & X); discriminate|discriminate]]. rewrite Nat.eqb_eq. split; [intros (q & X & Y); congruence|intros ->; eauto]. }
    apply app_eq_app in E as (l & [(E1 & E2)|(E1 & E2)]).
    + (* x lies in the part of other components unless l is empty *)
      destruct l as [|z l].
      * rewrite app_nil_r in E1. subst h1. apply in_map_iff in Iy as (a & <- & Ia). apply filter_In in Ia as [Ia Sa]. now apply Hs.
      * assert (X : In z (map (aid gas) (filter same hs))) by (rewrite E1; apply in_or_app; right; now left). assert (Y : In y (map (aid gas) (filter same hs))) by (rewrite E1; apply in_or_app; now left). apply in_map_iff in Y as (a & <- & Ia). apply filter_In in Ia as [Ia Sa]. now apply Hs.
    + exfalso. assert (X := in_or_app l (x :: h2) x (or_intror (or_introl eq_refl))). rewrite <- E2 in X. apply in_map_iff in X as (a & <- & Ia). apply in_rev in Ia. apply filter_In in Ia as [Ia Sa]. apply (Hs a Ia) in Es. unfold same in Es. rewrite Es in Sa. discriminate.
  - intros b x. split.
    + intros J. destruct (atom_cases x) as [(a & Ia & ->)|(_ & E & _)]; [|rewrite E in J; destruct J]. destruct (atom_aid a Ia) as [E _]. rewrite E in J. cbn [mkAtom a_succs] in J. apply in_map_iff in J as (i & <- & J). apply filter_In in J as [J N]. pose proof (dep_o a i Ia J) as I. rewrite isExt_ok by auto. split; [now destruct (isExtB pr sc i)|]. apply preds_in; auto. apply depBodies_in in J. tauto.
    + intros [N J]. destruct (preds_gas b x J) as (i & a & I & -> & Ia & ->). rewrite isExt_ok in N by auto. apply preds_in in J; auto. destruct (atom_aid a Ia) as [E _]. rewrite E. cbn [mkAtom a_succs]. apply in_map. apply filter_In. split; [|now rewrite N]. apply depBodies_in. destruct (o_rel i I). tauto.
  - intros b n x. split.
    + intros J. destruct (atom_cases x) as [(a & Ia & ->)|(_ & _ & E & _)]; [|rewrite E in J; destruct J]. destruct (atom_aid a Ia) as [E _]. rewrite E in J. cbn [mkAtom a_ext] in J. apply in_map_iff in J as (i & Ei & J). apply filter_In in J as [J N]. pose proof (dep_o a i Ia J) as I. injection Ei as <- <-. rewrite isExt_ok by auto. split; [auto|].
      rewrite <- (body_bid i I). fold (preds g (bid o i)). apply nth_error_idx; [apply preds_nodup|]. split; [|reflexivity]. apply preds_in; auto. apply depBodies_in in J. tauto.
    + intros [N J]. apply nth_error_idx in J as [J En]; [|apply preds_nodup]. destruct (preds_gas b x J) as (i & a & I & -> & Ia & ->). rewrite isExt_ok in N by auto. apply preds_in in J; auto. destruct (atom_aid a Ia) as [E _]. rewrite E. cbn [mkAtom a_ext]. apply in_map_iff. exists i. split.
      * f_equal. rewrite <- (body_bid i I). exact En.
      * apply filter_In. split; [|auto]. apply depBodies_in. destruct (o_rel i I). tauto.
  - intros x. destruct (atom_cases x) as [(a & Ia & ->)|(_ & E & _)]; [|rewrite E; constructor]. destruct (atom_aid a Ia) as [E _]. rewrite E. cbn [mkAtom a_succs]. apply map_nodup; [|apply filter_nodup, dep_nodup]. intros i j Hi Hj. apply filter_In in Hi, Hj. apply bid_inj; apply (dep_o a); tauto.
  - intros x. destruct (atom_cases x) as [(a & Ia & ->)|(_ & _ & E & _)]; [|rewrite E; constructor]. destruct (atom_aid a Ia) as [E _]. rewrite E. cbn [mkAtom a_ext]. rewrite map_map. cbn [fst]. apply map_nodup; [|apply filter_nodup, dep_nodup]. intros i j Hi Hj. apply filter_In in Hi, Hj. apply bid_inj; apply (dep_o a); tauto.
  - apply preds_nodup.
  - intros b x J. destruct (preds_gas b x J) as (i & a & I & -> & Ia & ->). now apply atom_aid.
  - intros b x J. destruct (preds_gas b x J) as (i & a & I & -> & Ia & ->). apply preds_in in J; auto. now apply sameScc_ok.
  - intros b e J. destruct (body_cases b) as [(i & I & ->)|(_ & E1 & E2 & _)]; [|unfold goals in J; rewrite E1, E2 in J; destruct J].
    unfold goals in J. rewrite body_bid in J by auto. destruct (o_rel i I) as [L _]. destruct (gi_goals _ _ _ _ _ GI (tb i) (theBody_in pr i L)) as [_ Hp].
    assert (Hw : forall e, In e (goalsW (b_body (tb i))) -> (0 <= snd e)%Z). { intros q Q. destruct (b_body (tb i)); cbn in *; [|auto]. apply in_map_iff in Q as (l & <- & _). cbn. lia. }
    apply in_app_or in J as [J|J].
    + apply in_map_iff in J as ([x w] & <- & J). cbn [snd]. rewrite mk_preds in J. destruct (bodyScc sc (tb i)); [|destruct J]. apply bPreds_in in J as (p & _ & _ & _ & J). apply posGoals_in in J. now apply Hw in J.
    + assert (J' : exists k, In e (bExts pr sc fls (tb i) k)). { unfold mkBody in J. destruct (bodyScc sc (tb i)) as [k|]; [|destruct J]. destruct (b_body (tb i)); cbn [n_exts] in J; [destruct J|eauto]. }
      destruct J' as [k J']. unfold bExts in J'. apply in_map_iff in J' as (q & <- & J'). apply filter_In in J' as [J' _]. cbn [snd]. now apply Hw.
Qed.
End Graph.
