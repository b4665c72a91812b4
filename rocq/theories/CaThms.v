(** C16-C19: learnt clauses are entailed and asserting, minimisation is exact, cores are correct. *)
From Coq Require Import List Bool Arith Lia.
From Verif Require Import Base ClModel CaModel CaSpec CaProofs CaProofs6 CaProofs7.
Import ListNotations.

(** C16: the analysis of a conflict never violates an assertion nor reads outside the trail, and its
    clause holds in all models of the problem: for every implication graph and for all settings of
    minimisation, reverse arcs and clause representation.  If the representation may be the decision sequence,
    no decision was flipped without reason. *)
Theorem c16_entailed : forall G E o conf f, conflict G E o conf f -> (o_rep o = 1 \/ o_rep o = 3 -> noFlips E) ->
  exists r, analyzeConflict E o conf f = Ok r /\ forall a, G a -> sat_clause a (r_cc r) = true.
Proof.
  exact (fun G E o conf f C N => match ca_ok G E o conf f C with
    ex_intro _ r (conj A (conj _ (conj B _))) => ex_intro _ r (conj A (B N)) end).
Qed.
Print Assumptions c16_entailed.

(** C17: in all modes all literals of the clause are false, the first one was assigned on the conflict level, the others on
    positive levels up to the returned level, which is smaller; the second literal is one of the returned level. *)
Theorem c17_asserting : forall G E o conf f, conflict G E o conf f ->
  exists r, analyzeConflict E o conf f = Ok r /\ assertingAt E (r_cc r) (r_level r).
Proof.
  exact (fun G E o conf f C => match ca_ok G E o conf f C with
    ex_intro _ r (conj A (conj B _)) => ex_intro _ r (conj A B) end).
Qed.
Print Assumptions c17_asserting.

(** After undoing the levels above the returned one, the first literal is unassigned and the others are still false. *)
Theorem c17_unit_after_backjump : forall G E o conf f r, conflict G E o conf f -> analyzeConflict E o conf f = Ok r ->
  exists u cs, r_cc r = u :: cs /\
    let left := filter (fun p => Nat.leb (lv E p) (r_level r)) (v_trail E) in
    (forall l, In l cs -> In (neg l) left) /\ ~ In u left /\ ~ In (neg u) left.
Proof. exact (fun G E o conf f r C R => ca_backjump G E o conf f C r R). Qed.
Print Assumptions c17_unit_after_backjump.

(** The analysis leaves all seen flags and level marks as it found them. *)
Theorem c17_flags_restored : forall G E o conf f r, conflict G E o conf f -> analyzeConflict E o conf f = Ok r ->
  (forall v, f_seen (r_fl r) v = f_seen f v) /\ (forall l, f_mark (r_fl r) l = f_mark f l).
Proof.
  exact (fun G E o conf f r C R => match ca_ok G E o conf f C with
    ex_intro _ r' (conj A (conj _ (conj _ (conj S' (conj M' _))))) =>
      match f_equal (fun x => match x with Ok y => y | _ => r' end) (eq_trans (eq_sym A) R) in _ = y return
        (forall v, f_seen (r_fl y) v = f_seen f v) /\ (forall l, f_mark (r_fl y) l = f_mark f l) with eq_refl => conj S' M' end end).
Qed.
Print Assumptions c17_flags_restored.

(** The reported lbd: exact if the clause is not replaced; never below the number of levels and never above the size. *)
Theorem c17_lbd : forall G E o conf f, conflict G E o conf f -> exists r, analyzeConflict E o conf f = Ok r /\
  (o_rep o = 0 -> r_lbd r = lbdOf E (r_cc r)) /\ lbdOf E (r_cc r) <= r_lbd r <= length (r_cc r).
Proof.
  exact (fun G E o conf f C => match ca_ok G E o conf f C with
    ex_intro _ r (conj A (conj _ (conj _ (conj _ (conj _ (conj B (conj D _))))))) => ex_intro _ r (conj A (conj B D)) end).
Qed.
Print Assumptions c17_lbd.

(** Clauses that depend on the current step (that contain the complement of the tag literal besides the asserted literal) are
    flagged as tagged, clauses without its variable are not; the largest variable (for the test for auxiliary
    variables) is the largest variable of the clause. *)
Theorem c17_info : forall G E o conf f, conflict G E o conf f -> exists r, analyzeConflict E o conf f = Ok r /\
  (In (neg (o_tag o)) (tl (r_cc r)) -> r_tagged r = true) /\ (r_tagged r = true -> exists l, In l (tl (r_cc r)) /\ fst l = fst (o_tag o)) /\
  (forall l, In l (r_cc r) -> fst l <= r_max r) /\ (exists l, In l (r_cc r) /\ fst l = r_max r).
Proof.
  exact (fun G E o conf f C => match ca_ok G E o conf f C with
    ex_intro _ r (conj A (conj _ (conj _ (conj _ (conj _ (conj _ (conj _ D))))))) => ex_intro _ r (conj A D) end).
Qed.
Print Assumptions c17_info.

(** C18: without reverse arcs and replacement, minimisation drops from the clause exactly those literals (other than the first) that follow from
    the remaining ones: those whose reasons consist of literals of the clause and of level 0 (local), or that are
    redundant by repeated application of this rule over levels occurring in the clause (recursive). *)
Theorem c18_exact : forall G E o conf f, conflict G E o conf f -> o_rep o = 0 -> o_rev o = 0 -> o_antes o < 3 ->
  exists r r0 u cs cs0, analyzeConflict E o conf f = Ok r /\
    analyzeConflict E (Opt 3 (o_rec o) 0 0 (o_compress o) (o_tag o)) conf f = Ok r0 /\ r_cc r = u :: cs /\ r_cc r0 = u :: cs0 /\
    forall l, In l cs <-> In l cs0 /\ ~ (if o_rec o then redundant E (o_antes o) (map neg cs0) (neg l) else locally E (o_antes o) (map neg cs0) (neg l)).
Proof. exact (fun G E o conf f C => ca_min G E o conf f C). Qed.
Print Assumptions c18_exact.
(** In particular it is a subset; that it is entailed and asserting is part of C16 and C17. *)
Theorem c18_subset : forall G E o conf f, conflict G E o conf f -> o_rep o = 0 -> o_rev o = 0 -> o_antes o < 3 ->
  exists r r0, analyzeConflict E o conf f = Ok r /\ analyzeConflict E (Opt 3 (o_rec o) 0 0 (o_compress o) (o_tag o)) conf f = Ok r0 /\
    (exists u cs cs0, r_cc r = u :: cs /\ r_cc r0 = u :: cs0) /\ incl (r_cc r) (r_cc r0) /\
    (forall a, G a -> sat_clause a (r_cc r) = true) /\ assertingAt E (r_cc r) (r_level r).
Proof.
  intros G E o conf f C H1 H2 H3. destruct (ca_min G E o conf f C H1 H2 H3) as [r [r0 [u [cs [cs0 [A1 [A2 [A3 [A4 A5]]]]]]]]].
  exists r, r0. sp; auto; [eauto| | |].
  - rewrite A3, A4. intros l [<-|Hl]; [cbn; auto|right; now apply A5].
  - destruct (ca_ok G E o conf f C) as [r' [B1 [B2 [B3 _]]]]. rewrite A1 in B1. injection B1 as <-. apply B3. rewrite H1. intros [|]; discriminate.
  - destruct (ca_ok G E o conf f C) as [r' [B1 [B2 [B3 _]]]]. rewrite A1 in B1. injection B1 as <-. exact B2.
Qed.
Print Assumptions c18_subset.

(** C19: on a conflict under assumptions the core is found without violating an assertion; it consists of
    assumptions, each at most once, and no model of the problem contains it; the flags are restored. *)
Theorem c19_core : forall G E conf f, trail_ok G E -> flags_ok E f -> dl E <= v_root E -> noFlips E ->
  (forall q, In q conf -> q = lit_true \/ In q (v_trail E)) -> (forall a, G a -> exists q, In q conf /\ holds a q = false) ->
  exists f' core, resolveToCore E false conf f = Ok (f', core) /\
    (forall q, In q core -> exists i, 1 <= i <= v_root E /\ q = decision E i) /\ NoDup core /\
    (forall a, G a -> exists q, In q core /\ holds a q = false) /\
    (forall v, f_seen f' v = f_seen f v) /\ (forall l, f_mark f' l = false).
Proof.
  intros G E conf f TO FO RO NF HT HV.
  destruct (core_spec G E TO f FO false conf HT (fun _ => HV) ltac:(discriminate)) as [f' [core [A1 [A2 [A3 [A4 [A5 A6]]]]]]].
  exists f', core. sp; auto. intros q Hq. destruct (A4 q Hq) as [i [B1 B2]]. exists i. split; auto. lia.
Qed.
Print Assumptions c19_core.
(** Without learning, all assumptions together are reported to be the core, provided that they contradict the problem. *)
Theorem c19_core_no_learning : forall G E conf f, trail_ok G E -> flags_ok E f -> dl E <= v_root E -> noFlips E ->
  (forall q, In q conf -> q = lit_true \/ In q (v_trail E)) ->
  (forall a, G a -> exists i, 1 <= i <= dl E /\ holds a (decision E i) = false) ->
  exists f' core, resolveToCore E true conf f = Ok (f', core) /\
    (forall q, In q core -> exists i, 1 <= i <= v_root E /\ q = decision E i) /\ NoDup core /\
    (forall a, G a -> exists q, In q core /\ holds a q = false).
Proof.
  intros G E conf f TO FO RO NF HT HV.
  destruct (core_spec G E TO f FO true conf HT ltac:(discriminate)) as [f' [core [A1 [A2 [A3 [A4 [A5 A6]]]]]]].
  - intros _ _ a Ga. destruct (HV a Ga) as [i [H1 H2]]. exists (decision E i). split; auto. apply in_map. apply in_seq. lia.
  - exists f', core. sp; auto. intros q Hq. destruct (A4 q Hq) as [i [B1 B2]]. exists i. split; auto. lia.
Qed.
Print Assumptions c19_core_no_learning.

(** A concrete conflict: decisions 1, 2, 5; 1 -> 3, 2 & 3 -> 4, 5 -> 6, 4 & 6 -> 7, 3 & 6 -> 8, not (7 & 8 & 2); 6 -> 2. *)
Definition t (n : nat) : lit := (n, false).
Definition exF : list clause := [[neg (t 1); t 3]; [neg (t 2); neg (t 3); t 4]; [neg (t 5); t 6]; [neg (t 4); neg (t 6); t 7]; [neg (t 3); neg (t 6); t 8]; [neg (t 7); neg (t 8); neg (t 2)]; [t 2; neg (t 6)]].
Definition exG (a : asg) : Prop := holds a lit_true = true /\ sat_cnf a exF = true.
Definition exE : env := Env [t 1; t 3; t 2; t 4; t 5; t 6; t 7; t 8]
  (fun v => match v with 1 | 3 => 1 | 2 | 4 => 2 | 5 | 6 | 7 | 8 => 3 | _ => 0 end)
  (fun v => match v with 3 => Some [t 1] | 4 => Some [t 2; t 3] | 6 => Some [t 5] | 7 => Some [t 4; t 6] | 8 => Some [t 3; t 6] | _ => None end)
  (fun v => match v with 3 | 6 => 2 | _ => 1 end) [0; 2; 4] 0
  (fun p => if lit_eqb p (neg (t 2)) then [[neg (t 6)]] else []) (fun _ => []).
Definition exf : fl := Fl (fun v => Nat.eqb v 0) (fun _ => false).
Definition exconf : list lit := [t 7; t 8; t 2].

Ltac splits H t1 := repeat (destruct t1 as [|? t1]; cbn in H; [injection H as <- <-|injection H as <- H]); try (destruct t1; discriminate H).
Ltac lits := repeat match goal with H : _ \/ _ |- _ => destruct H | H : False |- _ => destruct H end; subst.
Ltac ear k := right; match goal with |- exists t1 t2, v_trail ?E = _ /\ _ => exists (firstn k (v_trail E)), (skipn (S k) (v_trail E)) end; split; [reflexivity|cbn; tauto].
Ltac ear1 := first [ear 1|ear 2|ear 3|ear 5|ear 6|ear 7].
Lemma valid_from : forall a r p, sat_clause a (map neg r ++ [p]) = true -> (forall q, In q r -> holds a q = true) -> holds a p = true.
Proof.
  intros a r p H Hq. apply existsb_exists in H as [x [H1 H2]]. apply in_app_iff in H1 as [H1|[<-|[]]]; auto.
  apply in_map_iff in H1 as [q [<- H1]]. rewrite holds_neg, (Hq q H1) in H2. discriminate.
Qed.
Lemma ex_trail : trail_ok exG exE.
Proof.
  constructor.
  - cbn. repeat constructor; cbn; lia.
  - intros a [H _]. exact H.
  - reflexivity.
  - intros t1 p t2 q H Hq. cbn in H. splits H t1; cbn in Hq; lits; cbn; lia.
  - intros p H. cbn in H. lits; cbn; lia.
  - intros p r q H R Hq. cbn in H. lits; cbn in R; try discriminate R; injection R as <-; cbn in Hq; lits; ear1.
  - intros p r a H R [_ Ga] Hq. cbn in H. unfold sat_cnf, exF in Ga. cbn [forallb] in Ga. repeat rewrite andb_true_iff in Ga.
    destruct Ga as [G1 [G2 [G3 [G4 [G5 _]]]]].
    lits; cbn in R; try discriminate R; injection R as <-;
      [apply (valid_from a [t 1])|apply (valid_from a [t 2; t 3])|apply (valid_from a [t 5])|apply (valid_from a [t 4; t 6])|apply (valid_from a [t 3; t 6])]; assumption.
  - intros p a H L _. cbn in H. lits; discriminate L.
  - intros i Hi. cbn in Hi. assert (I : i = 1 \/ i = 2 \/ i = 3) by lia. destruct I as [->|[->| ->]].
    + exists [], [t 3; t 2; t 4; t 5; t 6; t 7; t 8]. cbn. repeat split; auto; easy.
    + exists [t 1; t 3], [t 4; t 5; t 6; t 7; t 8]. cbn. repeat split; auto. intros q H. lits; cbn; lia.
    + exists [t 1; t 3; t 2; t 4], [t 6; t 7; t 8]. cbn. repeat split; auto. intros q H. lits; cbn; lia.
Qed.
Lemma ex_arcs : arcs_ok exG exE.
Proof.
  intros p c H. cbn in H. destruct H as [H|[]]. destruct (lit_eqb p (neg (t 2))) eqn:P; [|destruct H]. apply lit_eqb_eq in P. subst p. destruct H as [<-|[]]. split.
  - cbn. repeat constructor; cbn; lia.
  - intros a [_ Ga]. rewrite neg_neg. unfold sat_cnf, exF in Ga. cbn [forallb] in Ga. repeat rewrite andb_true_iff in Ga. destruct Ga as [_ [_ [_ [_ [_ [_ [G7 _]]]]]]].
    unfold sat_clause in G7. cbn [existsb] in G7. apply orb_true_iff in G7 as [G7|G7]; auto. right. exists (neg (t 6)). split; [cbn; auto|]. now rewrite orb_false_r in G7.
Qed.
Lemma ex_conflict : forall o, conflict exG exE o exconf exf.
Proof.
  intros o. constructor.
  - exact ex_trail.
  - constructor; [reflexivity| |reflexivity]. intros p H. cbn in H. lits; cbn; split; discriminate.
  - constructor.
    + cbn. lia.
    + intros q H. right. cbn in *. tauto.
    + intros a [_ Ga]. unfold sat_cnf, exF in Ga. cbn [forallb] in Ga. repeat rewrite andb_true_iff in Ga. destruct Ga as [_ [_ [_ [_ [_ [G6 _]]]]]].
      unfold sat_clause in G6. cbn [existsb] in G6. rewrite !orb_true_iff in G6. rewrite !holds_neg, !negb_true_iff in G6. unfold exconf.
      destruct G6 as [G6|[G6|[G6|G6]]]; [exists (t 7)|exists (t 8)|exists (t 2)|discriminate]; cbn; auto.
    + exists (t 7). cbn. auto 10.
    + intros p H L R. cbn in H. lits; cbn in L, R; try discriminate; reflexivity.
  - cbn. lia.
  - intros _. exact ex_arcs.
Qed.
Lemma ex_noFlips : noFlips exE.
Proof. intros p H R L. cbn in H. lits; cbn in R; try discriminate; reflexivity. Qed.
(** There are models, so entailment is not trivial. *)
Example ex_model : exG (fun v => match v with 0 | 1 | 3 => true | _ => false end).
Proof. split; reflexivity. Qed.
(** Unminimised: ~6 ~2 ~3 ~4; minimised: ~6 ~2 ~3 with level 2; with the reverse arc 6 -> 2: ~6 ~3 with level 1; as decision
    sequence: ~6 ~2 ~1. *)
Definition show (o : opt) : option (list lit * nat * nat * bool * nat) :=
  match analyzeConflict exE o exconf exf with Ok r => Some (r_cc r, r_level r, r_lbd r, r_tagged r, r_max r) | _ => None end.
Example c16_nonvacuous :
  show (Opt 3 false 0 0 0 (t 3)) = Some ([neg (t 6); neg (t 2); neg (t 3); neg (t 4)], 2, 3, true, 6) /\
  show (Opt 0 false 0 0 0 (t 1)) = Some ([neg (t 6); neg (t 2); neg (t 3)], 2, 3, false, 6) /\
  show (Opt 0 true 1 0 0 (t 1)) = Some ([neg (t 6); neg (t 3)], 1, 2, false, 6) /\
  show (Opt 3 false 0 1 0 (t 1)) = Some ([neg (t 6); neg (t 2); neg (t 1)], 2, 3, true, 6) /\
  show (Opt 3 false 0 2 0 (t 3)) = Some ([neg (t 6); neg (t 2); neg (t 3)], 2, 3, true, 6).
Proof. vm_compute. repeat split. Qed.
Example c17_nonvacuous : conflict exG exE (Opt 0 true 2 3 0 (t 1)) exconf exf /\ noFlips exE.
Proof. exact (conj (ex_conflict _) ex_noFlips). Qed.
Example c18_nonvacuous : locally exE 0 [t 2; t 4; t 3] (t 4) /\ ~ redundant exE 0 [t 2; t 4; t 3] (t 3).
Proof.
  split.
  - exists [t 2; t 3]. split; [reflexivity|]. split; [cbn; lia|]. intros q Hq. right. cbn in *. tauto.
  - intros R. inversion R as [x r R1 R2 R3 R4]; subst. cbn in R1. injection R1 as <-. assert (N : ~ (top exE (t 1) \/ In (t 1) [t 2; t 4; t 3])).
    { intros [[Z|[_ Z]]|Z]; [discriminate|discriminate|]. cbn in Z. lits; discriminate. }
    specialize (R4 (t 1) (or_introl eq_refl) N). inversion R4 as [x r Z1 _ _ _]; subst. discriminate Z1.
Qed.
(** The same state, entered with the assumptions 1, 2 and 5. *)
Definition exA : env := Env (v_trail exE) (v_lev exE) (v_why exE) (v_ty exE) (v_starts exE) 3 (v_short exE) (v_long exE).
Example c19_nonvacuous : trail_ok exG exA /\ noFlips exA /\ dl exA <= v_root exA /\
  match resolveToCore exA false exconf exf with Ok (_, core) => core = [t 5; t 2; t 1] | _ => False end.
Proof. split; [|split; [|split; [cbn; lia|vm_compute; reflexivity]]]. - destruct ex_trail; constructor; auto. - exact ex_noFlips. Qed.

(** With a decision that was flipped without a reason, the decision sequence is not entailed. *)
Definition flE : env := Env [t 1; t 2; t 5; t 3] (fun v => match v with 1 | 2 | 5 => 1 | 3 => 2 | _ => 0 end) (fun _ => None) (fun _ => 0) [0; 3] 0 (fun _ => []) (fun _ => []).
Definition flG (a : asg) : Prop := holds a lit_true = true /\ sat_clause a [neg (t 3); neg (t 2); neg (t 5)] = true.
Lemma fl_trail : trail_ok flG flE.
Proof.
  constructor.
  - cbn. repeat constructor; cbn; lia.
  - intros a [H _]. exact H.
  - reflexivity.
  - intros t1 p t2 q H Hq. cbn in H. splits H t1; cbn in Hq; lits; cbn; lia.
  - intros p H. cbn in H. lits; cbn; lia.
  - intros p r q H R Hq. discriminate.
  - intros p r a H R. discriminate.
  - intros p a H L _. cbn in H. lits; discriminate L.
  - intros i Hi. cbn in Hi. assert (I : i = 1 \/ i = 2) by lia. destruct I as [->| ->].
    + exists [], [t 2; t 5; t 3]. cbn. repeat split; auto; easy.
    + exists [t 1; t 2; t 5], []. cbn. repeat split; auto. intros q H. lits; cbn; lia.
Qed.
Theorem c16_decision_sequence_refuted : exists G E o conf f r a, conflict G E o conf f /\ o_rep o = 1 /\
  analyzeConflict E o conf f = Ok r /\ G a /\ sat_clause a (r_cc r) = false.
Proof.
  exists flG, flE, (Opt 3 false 0 1 0 (t 9)), [t 3; t 2; t 5], exf.
  eexists _, (fun v => match v with 2 => false | _ => true end). split; [|split; [reflexivity|split; [vm_compute; reflexivity|split; [split; reflexivity|reflexivity]]]].
  constructor; [exact fl_trail| | |cbn; lia|cbn; congruence].
  - constructor; [reflexivity| |reflexivity]. intros p H. cbn in H. lits; cbn; split; discriminate.
  - constructor.
    + cbn. lia.
    + intros q H. right. cbn in *. tauto.
    + intros a [_ G6]. unfold sat_clause in G6. cbn [existsb] in G6. rewrite !orb_true_iff in G6. rewrite !holds_neg, !negb_true_iff in G6.
      destruct G6 as [G6|[G6|[G6|G6]]]; [exists (t 3)|exists (t 2)|exists (t 5)|discriminate]; cbn; auto.
    + exists (t 3). cbn. auto 10.
    + intros p H L R. cbn in H. lits; cbn in L; try discriminate; reflexivity.
Qed.
Print Assumptions c16_decision_sequence_refuted.
(** Likewise the core does not account for flipped decisions. *)
Theorem c19_flipped_refuted : exists G E conf f f' core a, trail_ok G E /\ (forall q, In q conf -> In q (v_trail E)) /\
  (forall a, G a -> exists q, In q conf /\ holds a q = false) /\ resolveToCore E false conf f = Ok (f', core) /\
  G a /\ forall q, In q core -> holds a q = true.
Proof.
  exists flG, flE, [t 3; t 2; t 5], exf. eexists _, _, (fun v => match v with 2 => false | _ => true end). split; [exact fl_trail|]. split; [|split; [|split; [vm_compute; reflexivity|split; [split; reflexivity|]]]].
  - intros q H. cbn in *. tauto.
  - intros a [_ G6]. unfold sat_clause in G6. cbn [existsb] in G6. rewrite !orb_true_iff in G6. rewrite !holds_neg, !negb_true_iff in G6.
    destruct G6 as [G6|[G6|[G6|G6]]]; [exists (t 3)|exists (t 2)|exists (t 5)|discriminate]; cbn; auto.
  - intros q [<-|[]]. reflexivity.
Qed.
Print Assumptions c19_flipped_refuted.
