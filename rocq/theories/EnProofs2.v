From Coq Require Import List Bool Arith ZArith Lia Permutation.
From Verif Require Import Base ClModel ClSpec ClProofs BpModel BpSpec BpProofs BpProofs2 BpProofs3 BpProofs4 BpProofs5 CaModel CaSpec CaProofs7 CaThms SeModel SeSpec SeProofs SeProofs2 SeProofs3 SeProofs4 SeProofs5 EnModel EnSpec EnProofs.
Import ListNotations.

(** * The nogood of a model *)
Lemma nodup_inj : forall (X Y : Type) (f : X -> Y) l, NoDup l -> (forall x y, In x l -> In y l -> f x = f y -> x = y) -> NoDup (map f l).
Proof.
  intros X Y f l H. induction H as [|x l N H IH]; cbn; intros INJ; [constructor|constructor].
  - intros Z. apply in_map_iff in Z as [y [E1 E2]]. apply N. rewrite (INJ x y (or_introl eq_refl) (or_intror E2) (eq_sym E1)). exact E2.
  - apply IH. intros a b A B. apply INJ; auto.
Qed.
Lemma nodup_flat : forall (g : nat -> list lit) l, NoDup l -> (forall v q, In q (g v) -> fst q = v) -> (forall v, length (g v) <= 1) -> NoDup (map fst (flat_map g l)).
Proof.
  intros g l H A B. induction H as [|x l N H IH]; cbn; [constructor|]. rewrite map_app. specialize (B x). destruct (g x) as [|q [|? ?]] eqn:E; cbn in *; auto; [|lia].
  constructor; auto. intros Z. apply in_map_iff in Z as [y [E1 E2]]. apply in_flat_map in E2 as [v [V1 V2]]. apply N.
  rewrite <- (A x q) by (rewrite E; now left). rewrite <- E1, (A v y V2). exact V1.
Qed.
Lemma sat_false : forall a c, sat_clause a c = false <-> forall q, In q c -> holds a q = false.
Proof.
  intros a c. unfold sat_clause. split.
  - intros H q Q. destruct (holds a q) eqn:E; auto. assert (existsb (holds a) c = true) by (apply existsb_exists; eauto). congruence.
  - intros H. destruct (existsb (holds a) c) eqn:E; auto. apply existsb_exists in E as [q [Q1 Q2]]. rewrite H in Q2; auto.
Qed.

Section M.
Variables (n : nat) (s : st) (D : db) (G : list (list lit)).
Hypothesis (I : InvG n s D G) (SH : Shape s) (TOT : total n s).
Let K : Core n s D G := proj1 I.

Lemma dec_ent : forall i, 1 <= i <= b_dl s -> exists e, In e (b_trail s) /\ e_why e = Dec /\ e_lev e = i /\ e_lit e = decision (envOf s) i.
Proof. intros i H. destruct (sh_all s SH i H) as [e [E1 [E2 E3]]]. exists e. sp; auto. rewrite (dec_is n s D G I SH e E1 E2), E3. reflexivity. Qed.
Lemma ent_good : forall e, In e (b_trail s) -> 1 <= e_lev e -> good_var n (e_lit e).
Proof.
  intros e E L. split; [|apply (k_var _ _ _ _ K e E)]. destruct (fst (e_lit e)) eqn:Z; [|lia]. exfalso.
  destruct (k_sent _ _ _ _ K) as [e0 [E1 [E2 [E3 E4]]]]. assert (e = e0); [|subst; lia].
  assert (X : entry s 0 = Some e). { pose proof (entry_in n s D G K e E) as X. unfold litOf in X. rewrite Z in X. exact X. }
  assert (Y : entry s 0 = Some e0). { pose proof (entry_in n s D G K e0 E1) as Y. unfold litOf in Y. rewrite E2 in Y. exact Y. } congruence.
Qed.
Lemma true_holds : forall p, tTrue (b_trail s) p -> holds (modelOf s) p = true.
Proof.
  intros [v b] T. unfold holds, modelOf. cbn. destruct b; cbn.
  - destruct (isT s (v, false)) eqn:X; auto. apply isT_iff in X. exfalso. exact (tt_ff (b_trail s) (v, false) (k_nd _ _ _ _ K) X T).
  - rewrite (proj2 (isT_iff s (v, false)) T). reflexivity.
Qed.
Lemma trueLit_true : forall v, 1 <= v <= n -> tTrue (b_trail s) (trueLit s v).
Proof.
  intros v V. unfold trueLit. destruct (isT s (v, false)) eqn:E; [now apply isT_iff|]. apply isT_iff. specialize (TOT v V). rewrite E in TOT. cbn in TOT. destruct (isT s (v, true)); auto.
Qed.
Lemma trueLit_var : forall v, fst (trueLit s v) = v.
Proof. intros v. unfold trueLit. destruct (isT s (v, false)); reflexivity. Qed.
Lemma lit_cases : forall v sg, (v, sg) <> trueLit s v -> (v, sg) = neg (trueLit s v).
Proof. intros v sg N. unfold trueLit in *. destruct (isT s (v, false)); destruct sg; solve [reflexivity | exfalso; apply N; reflexivity]. Qed.

Variables (md : mode) (A : list (lit * nat)).
Hypothesis (MO : mode_ok n md A) (AO : AsOk s A).
Let raw := match md with Decisions => decisionNogood s | Project proj dom step => projectNogood n proj dom step s end.
Lemma nogood_raw : nogood n md s = raw /\ raw <> [] \/ nogood n md s = [lit_false] /\ raw = [].
Proof. unfold nogood. fold raw. destruct raw; [right|left]; split; auto; discriminate. Qed.
Hypothesis GA : goodA n A.

Lemma raw_in : forall q, In q raw -> match md with
  | Decisions => exists i, 1 <= i <= b_dl s /\ q = neg (decision (envOf s) i)
  | Project proj dom step => (exists v, 1 <= v <= n /\ proj v = true /\ q = neg (trueLit s v) /\ (forall sg, dom v = Some sg -> q = (v, sg))) \/ exists p, step = Some p /\ q = neg p
  end.
Proof.
  intros q Q. unfold raw in Q. destruct md as [|proj dom step].
  - unfold decisionNogood in Q. apply in_map_iff in Q as [i [<- H]]. apply in_rev, in_seq in H. exists i. split; auto. lia.
  - unfold projectNogood in Q. apply in_app_or in Q as [Q|Q].
    + apply in_flat_map in Q as [v [V1 V2]]. apply in_seq in V1. left. exists v. destruct (proj v) eqn:P; [|easy]. split; [lia|]. split; auto. unfold projectLit in V2. destruct (dom v) as [sg|].
      * destruct (lit_eqb (v, sg) (trueLit s v)) eqn:E; [easy|]. destruct V2 as [<-|[]].
        assert (N : (v, sg) <> trueLit s v) by (intros Z; rewrite (proj2 (lit_eqb_eq _ _) Z) in E; discriminate). split; [apply lit_cases; auto|]. intros sg' [= <-]. reflexivity.
      * destruct V2 as [<-|[]]. split; auto. discriminate.
    + right. destruct step as [p|]; [|easy]. destruct Q as [<-|[]]. eauto.
Qed.
Lemma raw_false : forall q, In q raw -> tFalse (b_trail s) q /\ good_var n q.
Proof.
  intros q Q. apply raw_in in Q. destruct md as [|proj dom step].
  - destruct Q as [i [H ->]]. destruct (dec_ent i H) as [e [E1 [E2 [E3 E4]]]]. rewrite <- E4. split.
    + unfold tFalse. exists e. split; auto. destruct (e_lit e) as [v []]; reflexivity.
    + destruct (ent_good e E1 ltac:(lia)) as [X Y]. unfold good_var. destruct (e_lit e). cbn in *. auto.
  - destruct Q as [[v [V [P [-> _]]]]|[p [-> ->]]].
    + split; [|unfold good_var; pose proof (trueLit_var v); destruct (trueLit s v); cbn in *; subst; exact V].
      unfold tFalse. replace (neg (neg (trueLit s v))) with (trueLit s v) by (destruct (trueLit s v) as [? []]; reflexivity). apply trueLit_true; auto.
    + destruct MO as [_ [l L]]. destruct (a_true _ _ AO p l L) as [_ [e [E1 [E2 _]]]]. split.
      * exists e. split; auto. rewrite E2. destruct p as [? []]; reflexivity.
      * destruct (GA p l L) as [X Y]. unfold good_var. destruct p. cbn in *. auto.
Qed.
Lemma raw_distinct : distinct_vars raw.
Proof.
  unfold distinct_vars, raw. destruct md as [|proj dom step].
  - unfold decisionNogood. rewrite map_map. apply nodup_inj; [apply NoDup_rev, seq_NoDup|]. intros i j Hi Hj E. apply in_rev, in_seq in Hi. apply in_rev, in_seq in Hj.
    destruct (dec_ent i ltac:(lia)) as [e [E1 [E2 [E3 E4]]]]. destruct (dec_ent j ltac:(lia)) as [e' [F1 [F2 [F3 F4]]]]. rewrite <- E4, <- F4 in E.
    assert (Y : litOf e = litOf e'). { unfold litOf. destruct (e_lit e), (e_lit e'). exact E. }
    assert (X : entry s (litOf e) = Some e) by (apply (entry_in n s D G K); auto). rewrite Y, (entry_in n s D G K e' F1) in X. congruence.
  - unfold projectNogood. rewrite map_app. set (g := fun v => _).
    assert (GV : forall v q, In q (g v) -> fst q = v /\ proj v = true).
    { intros v q Q. unfold g in Q. destruct (proj v) eqn:P; [|easy]. split; auto. unfold projectLit in Q. destruct (dom v); [destruct (lit_eqb _ _); [easy|]|]; destruct Q as [<-|[]]; auto.
      pose proof (trueLit_var v). destruct (trueLit s v). exact H. }
    assert (N1 : NoDup (map fst (flat_map g (seq 1 n)))).
    { apply nodup_flat; [apply seq_NoDup|intros v q Q; apply (GV v q Q)|]. intros v. unfold g. destruct (proj v); [|cbn; lia]. unfold projectLit. destruct (dom v); [destruct (lit_eqb _ _)|]; cbn; lia. }
    destruct step as [p|]; [|cbn; rewrite app_nil_r; auto]. destruct MO as [PF _]. apply (Permutation_NoDup (Permutation_cons_append _ _)). constructor; auto.
    intros Z. apply in_map_iff in Z as [y [Y1 Y2]]. apply in_flat_map in Y2 as [v [_ V]]. destruct (GV v y V) as [W1 W2]. destruct p as [x b]. cbn in *. congruence.
Qed.

Lemma nogood_distinct : distinct_vars (nogood n md s).
Proof. destruct nogood_raw as [[-> _]|[-> _]]; [apply raw_distinct|]. repeat constructor. easy. Qed.
Lemma nogood_good : Forall (good_var n) (nogood n md s) \/ nogood n md s = [lit_false].
Proof. destruct nogood_raw as [[-> _]|[-> _]]; auto. left. apply Forall_forall. intros q Q. apply raw_false; auto. Qed.
Lemma nogood_false : forall q, In q (nogood n md s) -> tFalse (b_trail s) q.
Proof.
  destruct nogood_raw as [[-> _]|[-> _]]; [intros q Q; apply raw_false; auto|]. intros q [<-|[]]. eapply tr_true, sent_tr, (k_sent _ _ _ _ K).
Qed.
(** A model that is covered violates the nogood, ... *)
Lemma covered_false : forall a, holds a lit_true = true -> (forall p l, In (p, l) A -> holds a p = true) -> covers n md (modelOf s) a -> sat_clause a (nogood n md s) = false.
Proof.
  intros a H0 HA CV. apply sat_false. intros q Q. destruct nogood_raw as [[E _]|[E _]]; rewrite E in Q; [|destruct Q as [<-|[]]; change lit_false with (neg lit_true); rewrite holds_neg, H0; reflexivity].
  destruct (raw_false q Q) as [FQ GQ]. assert (HF : holds (modelOf s) q = false).
  { apply true_holds in FQ. rewrite holds_neg in FQ. now apply negb_true_iff in FQ. }
  apply raw_in in Q. destruct md as [|proj dom step].
  - cbn in CV. specialize (CV (fst q) GQ). unfold holds in *. rewrite <- CV. exact HF.
  - destruct Q as [[v [V [P [-> HD]]]]|[p [-> ->]]].
    + cbn in CV. specialize (CV v V P). destruct (dom v) as [sg|] eqn:DE.
      * specialize (HD sg eq_refl). rewrite HD in *. destruct (holds a (v, sg)) eqn:X; auto. rewrite CV in HF; auto.
      * unfold holds in *. assert (FV : fst (neg (trueLit s v)) = v) by (pose proof (trueLit_var v) as TV; destruct (trueLit s v); exact TV). rewrite FV in *. rewrite <- CV. exact HF.
    + destruct MO as [_ [l L]]. rewrite holds_neg, (HA p l L). reflexivity.
Qed.
(** ... and a model that violates it is covered. *)
Lemma false_covered : forall a, holds a lit_true = true -> (forall c, inDb D c -> sat_clause a c = true) -> sat_clause a (nogood n md s) = false -> covers n md (modelOf s) a.
Proof.
  intros a H0 HD SF. rewrite sat_false in SF. assert (SR : forall q, In q raw -> holds a q = false).
  { intros q Q. apply SF. destruct nogood_raw as [[-> _]|[_ E]]; auto. rewrite E in Q. destruct Q. }
  clear SF. unfold raw in SR. destruct md as [|proj dom step].
  - assert (HT : forall e, In e (b_trail s) -> holds a (e_lit e) = true).
    { intros e E. apply (semantic_core n s D G (b_dl s) a K HD); auto.
      - intros x X GV _. destruct GV as [W|[W|W]].
        + destruct (in_split _ _ X) as [t1 [t2 T]]. destruct (sh_dec s SH t1 x t2 T W) as [L [_ _]]. pose proof (k_lv _ _ _ _ K x X).
          assert (Y : In (neg (e_lit x)) (decisionNogood s)). { unfold decisionNogood. apply in_map_iff. exists (e_lev x). rewrite <- (dec_is n s D G I SH x X W). split; auto. apply -> in_rev. apply in_seq. lia. }
          apply SR in Y. rewrite holds_neg in Y. now apply negb_false_iff in Y.
        + exfalso. exact (sh_ext s SH x X W).
        + rewrite W. exact H0.
      - pose proof (k_lv _ _ _ _ K e E). pose proof (k_log _ _ _ _ K e E). lia. }
    intros v V. pose proof (trueLit_true v V) as [e [E1 E2]]. specialize (HT e E1). rewrite E2 in HT. pose proof (true_holds _ (trueLit_true v V)) as HM.
    unfold holds in *. rewrite trueLit_var in *. destruct (snd (trueLit s v)), (a v), (modelOf s v); cbn in *; congruence.
  - intros v V P. assert (IN : forall q, In q (projectLit dom s v) -> holds a q = false).
    { intros q Q. apply SR. unfold projectNogood. apply in_or_app. left. apply in_flat_map. exists v. split; [apply in_seq; lia|]. rewrite P. exact Q. }
    unfold projectLit in IN. pose proof (true_holds _ (trueLit_true v V)) as HM. destruct (dom v) as [sg|].
    + intros HA. destruct (lit_eqb (v, sg) (trueLit s v)) eqn:E; [apply lit_eqb_eq in E; now rewrite E|]. rewrite IN in HA; [discriminate|now left].
    + specialize (IN _ (or_introl eq_refl)). rewrite holds_neg in IN. apply negb_false_iff in IN. unfold holds in *. rewrite trueLit_var in *.
      destruct (snd (trueLit s v)), (a v), (modelOf s v); cbn in *; congruence.
Qed.
End M.

Section S.
Variable n : nat.
Hypothesis NV : (Z.of_nat n < varMax)%Z.
Variables (md : mode) (A : list (lit * nat)).
Hypothesis (MO : mode_ok n md A) (GA : goodA n A).

Definition modelState (x : sv) : Prop := b_conf (q_st x) = None /\ b_front (q_st x) = length (b_trail (q_st x)) /\ hasFree n (q_st x) = false.
Lemma model_facts : forall x F, SI n x F A -> modelState x -> let m := modelOf (q_st x) in let c := nogood n md (q_st x) in
  isModel m F A /\ holds m lit_true = true /\ (forall a, holds a lit_true = true -> isModel a F A -> sat_clause a c = false -> covers n md m a) /\
  (forall a, holds a lit_true = true -> (forall p l, In (p, l) A -> holds a p = true) -> covers n md m a -> sat_clause a c = false).
Proof.
  intros x F S0 [M1 [M2 M3]] m c. destruct (total_model n x F A S0 M1 M2 M3) as [TOT MM]. destruct S0 as [D [G [I [SH [DO AO]]]]]. sp; auto.
  - apply (true_holds n (q_st x) D G I). eapply tr_true, sent_tr, (k_sent _ _ _ _ (proj1 I)).
  - intros a H0 [A1 A2] SF. apply (false_covered n (q_st x) D G I SH TOT md A); auto. apply (o_mod _ _ _ _ DO); auto.
  - intros a H0 A2 CV. apply (covered_false n (q_st x) D G I SH TOT md A); auto.
Qed.

Lemma update_ok : forall x F w k rst ex sh, SI n x F A -> modelState x -> exists x' b, update w k x rst ex sh (nogood n md (q_st x)) = Ok (x', b) /\
  (SI n x' (F ++ [nogood n md (q_st x)]) A /\ Forall (good_var n) (nogood n md (q_st x)) \/ dead x' /\ forall a, holds a lit_true = true -> isModel a F A -> sat_clause a (nogood n md (q_st x)) = false).
Proof.
  intros x F w k rst ex sh S0 [M1 [M2 M3]]. set (c := nogood n md (q_st x)). destruct (total_model n x F A S0 M1 M2 M3) as [TOT _].
  assert (FC : distinct_vars c /\ (Forall (good_var n) c \/ c = [lit_false]) /\ forall q, In q c -> tFalse (b_trail (q_st x)) q).
  { destruct S0 as [D [G [I [SH [DO AO]]]]]. sp; [apply (nogood_distinct n (q_st x) D G I SH md A)|apply (nogood_good n (q_st x) D G I SH TOT md A)|apply (nogood_false n (q_st x) D G I SH TOT md A)]; auto. }
  destruct FC as [DV [GC FC]]. set (x0 := if rst then restart x else x).
  assert (X0 : SI n x0 F A /\ b_conf (q_st x0) = None /\ forall e, In e (b_trail (q_st x0)) -> In e (b_trail (q_st x))).
  { unfold x0. destruct rst; [|auto]. destruct (restart_si n x F A S0) as [R1 [R2 _]]. sp; auto. destruct S0 as [D [G [I _]]]. intros e. apply (undo_sub n (q_st x) D G 0 e (proj1 I)). }
  destruct X0 as [S1 [NC SB]].
  assert (NT : forall q, In q c -> ~ tTrue (b_trail (q_st x0)) q).
  { intros q Q [e [E1 E2]]. destruct S0 as [D [G [I _]]]. apply (tt_ff _ q (k_nd _ _ _ _ (proj1 I))); [exists e; split; auto|apply FC; auto]. }
  unfold update. fold x0. destruct (nogood_si n NV x0 F A (Flags true ex sh 0 0) c S1 NC eq_refl DV NT GC) as [[S2 [R2 [T1 T2]]]|[E [DE FA]]].
  - assert (GV : Forall (good_var n) c). { destruct S2 as [D [G [_ [_ [DO _]]]]]. apply (o_gvF _ _ _ _ DO). apply in_or_app. right. now left. }
    destruct (addNogood x0 _ c) as [x1 ok]. cbn [fst snd] in *. destruct ok; [exists x1, true; split; auto|]. specialize (T2 eq_refl).
    destruct (Nat.lt_ge_cases (b_root (q_st x1)) (b_dl (q_st x1))) as [LT|GE].
    + destruct x1 as [s1 L1]. cbn [q_st] in *. destruct (learn_si n NV s1 L1 (F ++ [c]) A w k S2 T2 LT) as [x' [E [S3 _]]]. exists x', true. auto.
    + unfold resolveConflict. rewrite (proj2 (Nat.ltb_ge _ _) GE). exists x1, false. auto.
  - destruct (addNogood x0 _ c) as [x1 ok]. cbn [fst snd] in *. rewrite E. unfold resolveConflict. rewrite (proj2 (Nat.ltb_ge _ _) (proj2 DE)). exists x1, false. split; auto. right. split; auto.
    intros a H0 [A1 A2]. destruct S1 as [D [G [I [SH [DO AO]]]]]. apply sat_false. intros q Q. destruct (FA q Q) as [e [E1 [E2 E3]]].
    assert (X : holds a (e_lit e) = true).
    { apply (root_true n (q_st x0) D G A a (proj1 I) SH AO); auto. apply (o_mod _ _ _ _ DO); auto. }
    rewrite E2, holds_neg in X. now apply negb_true_iff in X.
Qed.

Lemma sat_app : forall a F c, sat_cnf a (F ++ [c]) = sat_cnf a F && sat_clause a c.
Proof. intros a F c. unfold sat_cnf. rewrite forallb_app. cbn. now rewrite andb_true_r. Qed.

Definition ready (x : sv) (F : list clause) : Prop := SI n x F A \/ dead x /\ forall a, holds a lit_true = true -> ~ isModel a F A.
Lemma ready_solve : forall w rounds fuel x F, picks n w -> ready x F -> exists x' v, solve rounds fuel n w x = Ok (x', v) /\
  match v with
  | VTrue => SI n x' F A /\ modelState x'
  | VFalse => forall a, holds a lit_true = true -> ~ isModel a F A
  | VFree => rounds = 0 \/ exists k s, w_limit w k s = true
  | VFuel => fuel < bound n
  end.
Proof.
  intros w rounds fuel x F PK [S0|[DE UN]].
  - destruct (solve_ok n NV w F A fuel PK rounds x S0) as [x' [v [E [S1 [_ PO]]]]]. exists x', v. split; auto. destruct PO as [[-> [[-> _]|[_ [_ X]]]]|[NF PO]]; auto. destruct v; unfold post in PO.
    + split; auto.
    + intros a _. apply (conflict_unsat n x' F A S1 GA); tauto.
    + contradiction.
    + unfold bound. lia.
  - destruct rounds as [|rounds]; [exists x, VFree; split; auto|]. destruct fuel as [|fuel].
    + exists x, VFuel. split; [|unfold bound; lia]. cbn [solve]. unfold search. destruct (b_conf (q_st x)) as [cf|] eqn:CE; [reflexivity|]. destruct DE as [Z _]. congruence.
    + exists x, VFalse. split; auto. apply dead_solve. auto.
Qed.

Definition ordered (ms : list asg) : Prop := forall l1 m l2 m', ms = l1 ++ m :: l2 -> In m' l2 -> ~ covers n md m m'.
Lemma ordered_nil : ordered [].
Proof. intros l1 m l2 m' X. destruct l1; discriminate. Qed.
Lemma enum_ok : forall k rounds fuel r, (forall i, picks n (r_w (r i))) -> forall x F, ready x F -> exists ms v, enum k rounds fuel n md r x = Ok (ms, v) /\
  (forall m, In m ms -> isModel m F A /\ holds m lit_true = true) /\ ordered ms /\
  (v = VFalse -> forall a, holds a lit_true = true -> isModel a F A -> exists m, In m ms /\ covers n md m a) /\
  match v with VTrue => False | VFalse => length ms < k | VFree => length ms = k \/ rounds = 0 \/ exists i j s, w_limit (r_w (r i)) j s = true | VFuel => fuel < bound n end.
Proof.
  intros k rounds fuel r PK. induction k as [|k IH]; intros x F RD; cbn [enum].
  - exists [], VFree. sp; auto; try easy. apply ordered_nil.
  - destruct (ready_solve (r_w (r k)) rounds fuel x F (PK k) RD) as [x1 [v [E PO]]]. rewrite E. cbn [bind]. destruct v.
    + destruct PO as [S1 MS]. destruct (model_facts x1 F S1 MS) as [MM [MT [CV1 CV2]]].
      destruct (update_ok x1 F (r_w (r k)) 0 (r_rst (r k)) (r_expl (r k)) (r_shared (r k)) S1 MS) as [x2 [b [EU U]]]. rewrite EU. cbn [bind]. set (c := nogood n md (q_st x1)) in *. set (m := modelOf (q_st x1)) in *.
      assert (RD2 : ready x2 (F ++ [c])).
      { destruct U as [[S2 _]|[DE UN]]; [now left|right]. split; auto. intros a H0 [A1 A2]. rewrite sat_app in A1. apply andb_true_iff in A1 as [A1 A3].
        rewrite (UN a H0 (conj A1 A2)) in A3. discriminate. }
      destruct (IH x2 (F ++ [c]) RD2) as [ms [v' [E2 [P1 [P2 [P3 P4]]]]]]. rewrite E2. cbn [bind]. exists (m :: ms), v'. sp; auto.
      * intros m' [<-|H]; auto. destruct (P1 m' H) as [[X1 X2] X3]. rewrite sat_app in X1. apply andb_true_iff in X1 as [X1 _]. split; auto. split; auto.
      * intros l1 u l2 u' X IN CV. destruct l1 as [|z l1]; cbn in X; injection X as -> X.
        -- subst ms. destruct (P1 u' IN) as [[X1 X2] X3]. rewrite sat_app in X1. apply andb_true_iff in X1 as [_ X1]. rewrite (CV2 u' X3 X2 CV) in X1. discriminate.
        -- exact (P2 l1 u l2 u' X IN CV).
      * intros V a H0 [A1 A2]. destruct (sat_clause a c) eqn:SC; [|exists m; split; [now left|apply CV1; auto; split; auto]].
        destruct (P3 V a H0) as [m' [M1 M2]]; [split; auto; rewrite sat_app, A1, SC; reflexivity|]. exists m'. split; auto. now right.
      * destruct v'; cbn [length]; auto; [lia|]. destruct P4 as [P4|P4]; auto.
    + exists [], VFalse. sp; try easy; [apply ordered_nil| |cbn; lia]. intros _ a H0 M. exfalso. exact (PO a H0 M).
    + exists [], VFree. sp; try easy; [apply ordered_nil|]. right. destruct PO as [PO|[i [s L]]]; auto. right. exists k, i, s. exact L.
    + exists [], VFuel. sp; try easy. apply ordered_nil.
Qed.

(** * The number of models *)
Definition sig (m : asg) : list bool := map m (match md with Decisions => seq 1 n | Project proj _ _ => filter proj (seq 1 n) end).
Lemma sig_covers : forall m m', sig m = sig m' -> covers n md m m'.
Proof.
  intros m m' E. unfold sig in E. assert (X : forall l v, map m l = map m' l -> In v l -> m v = m' v).
  { intros l v. induction l as [|x l IH]; cbn; [easy|]. intros Z [<-|H]; injection Z as Z1 Z2; auto. }
  destruct md as [|proj dom step].
  - intros v V. apply (X _ v E). apply in_seq. lia.
  - intros v V P. assert (Y : m v = m' v). { apply (X _ v E). apply filter_In. split; auto. apply in_seq. lia. }
    destruct (dom v); auto. unfold holds. cbn [fst snd]. rewrite Y. auto.
Qed.
Fixpoint vecs (k : nat) : list (list bool) := match k with O => [[]] | S k => map (cons true) (vecs k) ++ map (cons false) (vecs k) end.
Lemma vecs_in : forall l, In l (vecs (length l)).
Proof. induction l as [|[] l IH]; cbn; auto; apply in_or_app; [left|right]; now apply in_map. Qed.
Lemma vecs_len : forall k, length (vecs k) = Nat.pow 2 k.
Proof. induction k as [|k IH]; cbn; auto. rewrite app_length, !map_length, IH. lia. Qed.
Lemma ordered_len : forall ms, ordered ms -> length ms <= Nat.pow 2 (width n md).
Proof.
  intros ms O. assert (ND : NoDup (map sig ms)).
  { revert O. induction ms as [|m ms IH]; intros O; cbn; constructor.
    - intros Z. apply in_map_iff in Z as [m' [E IN]]. apply (O [] m ms m' eq_refl IN). apply sig_covers. auto.
    - apply IH. intros l1 x l2 x' E. apply (O (m :: l1)). now rewrite E. }
  rewrite <- (map_length sig), <- vecs_len. apply NoDup_incl_length; auto. intros v V. apply in_map_iff in V as [m [<- _]].
  replace (width n md) with (length (sig m)); [apply vecs_in|]. unfold sig, width. rewrite map_length. destruct md; auto. apply seq_length.
Qed.
End S.
