From Coq Require Import List Bool Arith ZArith Lia Permutation.
From Verif Require Import Base ClModel ClSpec ClProofs BpModel BpSpec BpProofs BpProofs2 BpProofs3 BpProofs4 BpProofs5 CaModel CaSpec CaProofs7 CaThms SeModel SeSpec SeProofs SeProofs2 SeProofs3 SeProofs4 SeProofs5 EnModel EnSpec.
Import ListNotations.

(** * Adding a clause on any level *)
Definition same (s s' : st) : Prop := b_trail s' = b_trail s /\ b_dl s' = b_dl s /\ b_root s' = b_root s /\ b_conf s' = b_conf s.
Lemma same_undo : forall s s' l, same s s' -> same (undo s l) (undo s' l).
Proof. intros s s' l [A [B [C E]]]. unfold same, undo. rewrite A, B, C. destruct (Nat.ltb _ _); cbn; auto. Qed.
Lemma same_shape : forall s s', same s s' -> Shape s -> Shape s'.
Proof.
  intros s s' [A [B [C E]]] S. apply (shape_grow s s' [] S); auto; [now rewrite app_nil_r|easy|]. unfold NE. rewrite E. apply S.
Qed.
Lemma same_as : forall s s' A, same s s' -> AsOk s A -> AsOk s' A.
Proof. intros s s' A [X [_ [R _]]] H. apply (as_grow s s' A []); auto; [now rewrite app_nil_r|easy]. Qed.
Lemma same_isT : forall s s' p, same s s' -> isT s' p = isT s p.
Proof. intros s s' p [A _]. unfold isT. now rewrite A. Qed.

Lemma undo_sub : forall n s D G l e, Core n s D G -> In e (b_trail (undo s l)) -> In e (b_trail s).
Proof.
  intros n s D G l e K H. destruct (Nat.lt_ge_cases (Nat.max l (b_root s)) (b_dl s)) as [X|X]; [|rewrite undo_ge in H; auto].
  rewrite undo_max, (undo_eq n s D G _ K (Nat.le_max_r _ _) X) in H. cbn in H. apply filter_In in H. apply H.
Qed.
Lemma undo_low : forall n s D G l e, Core n s D G -> In e (b_trail s) -> e_lev e <= Nat.max l (b_root s) -> In e (b_trail (undo s l)).
Proof.
  intros n s D G l e K H L. destruct (Nat.lt_ge_cases (Nat.max l (b_root s)) (b_dl s)) as [X|X]; [|rewrite undo_ge; auto].
  rewrite undo_max, (undo_eq n s D G _ K (Nat.le_max_r _ _) X). cbn. apply filter_In. split; auto. now apply Nat.leb_le.
Qed.
Lemma undo_dl : forall s l, b_root s <= b_dl s -> b_dl (undo s l) <= Nat.max l (b_root s) /\ b_root (undo s l) = b_root s.
Proof. intros s l R. unfold undo. destruct (Nat.ltb_spec (Nat.max l (b_root s)) (b_dl s)); cbn; lia. Qed.

Section F.
Variables (n : nat) (s : st) (D : db) (G : list (list lit)) (A : list (lit * nat)).
Hypothesis (K : Core n s D G) (SH : Shape s) (AO : AsOk s A).

Lemma forceAt_eq : forall s1 p l w, same s s1 -> ~ tTrue (b_trail s) p -> isT (undo s1 l) p = false /\ fst (forceAt s1 p l w) = fst (forceG (undo s1 l) p w l) /\ snd (forceAt s1 p l w) = snd (forceG (undo s1 l) p w l).
Proof.
  intros s1 p l w SM NT. assert (T : isT s1 p = false). { rewrite (same_isT s s1 p SM). destruct (isT s p) eqn:X; auto. apply isT_iff in X. contradiction. }
  assert (T2 : isT (undo s1 l) p = false).
  { rewrite (same_isT _ _ p (same_undo s s1 l SM)). destruct (isT (undo s l) p) eqn:X; auto. apply isT_iff in X as [e [E1 E2]]. exfalso. apply NT. exists e. split; auto. eapply undo_sub; eauto. }
  split; auto. unfold forceAt. destruct (Nat.eqb_spec l (b_dl s1)) as [E|N].
  - rewrite undo_ge by lia. unfold force. rewrite E. auto.
  - rewrite T. cbn [andb]. cbn zeta. rewrite T2. auto.
Qed.
Lemma forceAt_shape : forall s1 p l w, same s s1 -> ~ tTrue (b_trail s) p -> plain w ->
  Shape (fst (forceAt s1 p l w)) /\ AsOk (fst (forceAt s1 p l w)) A /\ b_root (fst (forceAt s1 p l w)) = b_root s /\ (snd (forceAt s1 p l w) = true -> b_conf s = None -> b_conf (fst (forceAt s1 p l w)) = None) /\
  (snd (forceAt s1 p l w) = false -> b_conf (fst (forceAt s1 p l w)) <> None).
Proof.
  intros s1 p l w SM NT PL. destruct (forceAt_eq s1 p l w SM NT) as [T [E E']]. rewrite E, E'. pose proof (same_undo s s1 l SM) as SU.
  pose proof (same_shape _ _ SU (shape_undo n s D G l K SH)) as S1. pose proof (same_as _ _ A SU (as_undo n s D G A l K AO)) as A1.
  assert (R : b_root (undo s1 l) = b_root s). { destruct SU as [_ [_ [-> _]]]. apply undo_dl. apply (k_root _ _ _ _ K). }
  unfold forceG. rewrite T. destruct (isF (undo s1 l) p) eqn:FF; cbn [fst snd].
  - sp; try discriminate; [|apply (as_grow (undo s1 l) _ A []); auto; [cbn; now rewrite app_nil_r|easy]|exact R].
    apply (shape_grow (undo s1 l) _ [] S1); auto; [cbn; now rewrite app_nil_r|easy|]. intros q X. cbn in X. injection X as _ X. apply (proj2 PL). auto.
  - sp; auto; try discriminate; [|eapply (as_grow (undo s1 l) _ A _); eauto; [reflexivity|]; intros e [<-|[]] W; exfalso; apply (proj1 PL); auto|].
    + apply (shape_grow (undo s1 l) _ [Ent p (b_dl (undo s1 l)) w l] S1); auto; [|apply (sh_conf _ S1)]. intros e [<-|[]]. exact PL.
    + intros _ NC. cbn. destruct SU as [_ [_ [_ ->]]]. unfold undo. destruct (Nat.ltb _ _); auto.
Qed.
Lemma forceAt_dead : forall s1 p l w, same s s1 -> (exists e, In e (b_trail s) /\ e_lit e = neg p /\ e_lev e <= b_root s) -> l <= b_root s ->
  snd (forceAt s1 p l w) = false /\ b_conf (fst (forceAt s1 p l w)) <> None /\ b_dl (fst (forceAt s1 p l w)) <= b_root (fst (forceAt s1 p l w)).
Proof.
  intros s1 p l w SM [e [E1 [E2 E3]]] L.
  assert (NT : ~ tTrue (b_trail s) p). { intros T. apply (tt_ff _ _ (k_nd _ _ _ _ K) T). exists e. auto. }
  destruct (forceAt_eq s1 p l w SM NT) as [T [E E']]. rewrite E, E'. pose proof (same_undo s s1 l SM) as SU.
  assert (FF : isF (undo s1 l) p = true). { unfold isF. rewrite (same_isT _ _ _ SU). apply isT_iff. exists e. split; auto. eapply undo_low; eauto. lia. }
  unfold forceG. rewrite T, FF. cbn [fst snd]. sp; auto; [discriminate|]. destruct (undo_dl s l (k_root _ _ _ _ K)) as [U1 U2]. destruct SU as [_ [V1 [V2 _]]]. cbn. rewrite V1, V2. lia.
Qed.

Hypothesis (DLB : (Z.of_nat (b_dl s) < varMax)%Z).
Let W := view_wf n s D G K DLB.
Lemma false_not : ~ tTrue (b_trail s) lit_false.
Proof. intros T. apply (tt_ff _ _ (k_nd _ _ _ _ K) T). eapply tr_true, sent_tr, (k_sent _ _ _ _ K). Qed.

Lemma add_same : forall (imp : bool) sh c, same s (if imp then add_imp s c else attach s (mk_clause sh c)).
Proof. intros imp sh c. unfold same. destruct imp; [unfold add_imp; destruct c as [|? [|? [|? [|? ?]]]]|]; cbn; auto. Qed.
Lemma why_plain : forall (imp : bool) c i, plain (if imp then match c with [_; q] => By1 (neg q) | _ => By2 (neg (nth 1 c lit_false)) (neg (nth 2 c lit_false)) end else ByC i).
Proof. intros imp c i. destruct imp; [destruct c as [|? [|? [|? ?]]]|]; split; discriminate. Qed.

Lemma createPrep_shape : forall f c, f_learnt f = true -> (forall q, In q c -> ~ tTrue (b_trail s) q) ->
  let r := createPrep s f c in Shape (fst r) /\ AsOk (fst r) A /\ b_root (fst r) = b_root s /\ (snd r = true -> b_conf s = None -> b_conf (fst r) = None) /\ (snd r = false -> b_conf (fst r) <> None).
Proof.
  intros f c FL NT r. unfold r, createPrep. destruct (Z.eqb _ 9); [cbn [fst snd]; sp; auto; discriminate|].
  assert (N0 : forall i, ~ tTrue (b_trail s) (nth i c lit_false)).
  { intros i. destruct (Nat.lt_ge_cases i (length c)) as [X|X]; [apply NT, nth_In; auto|rewrite nth_overflow by auto; apply false_not]. }
  destruct (Nat.leb (length c) 1).
  { apply forceAt_shape; auto; [unfold same; auto|split; discriminate]. }
  assert (PK : pick f c = c) by (unfold pick; rewrite FL; reflexivity). rewrite PK. set (imp := _ && _).
  assert (C : (if imp then c else c) = c) by (destruct imp; auto). rewrite C.
  pose proof (add_same imp (f_shared f) c) as SM. set (s1 := if imp then _ else _) in *. pose proof (why_plain imp c (length (b_cls s))) as PL. set (w := if imp then match c with _ => _ end else ByC _) in *.
  destruct (_ || _); cbn [fst snd]; [apply forceAt_shape; auto|].
  destruct SM as [M1 [M2 [M3 M4]]]. sp; auto; [apply (same_shape s)|apply (same_as s)| |discriminate]; unfold same; auto. intros _ X. congruence.
Qed.
Lemma createPrep_dead : forall f c, f_learnt f = true -> watches_first (view s) c ->
  (forall q, In q c -> ~ on_top (view s) q /\ exists e, In e (b_trail s) /\ e_lit e = neg q /\ e_lev e <= b_root s) ->
  let r := createPrep s f c in snd r = false /\ b_conf (fst r) <> None /\ b_dl (fst r) <= b_root (fst r).
Proof.
  intros f c FL WF FA r. unfold r, createPrep.
  assert (FV : forall q, In q c -> false_lit (view s) q). { intros q Q. apply (val_false n s D G K). destruct (FA q Q) as [_ [e [E1 [E2 _]]]]. exists e. auto. }
  assert (N9 : status_prep (view s) c (length c) <> 9%Z).
  { destruct c as [|p [|q rest]].
    - unfold status_prep. cbn [length Nat.ltb Nat.leb]. pose proof (wv_dl _ W). change (0 =? u32max)%Z with false. cbn [andb].
      change (varMax <? 0)%Z with false. cbn iota. rewrite (proj2 (Z.leb_le 0 (s_dl (view s)))) by lia. cbn. discriminate.
    - unfold status_prep. cbn [length Nat.ltb Nat.leb nth]. assert (Y : watchOrder (view s) p <> u32max).
      { intros Z. apply (wo_max (view s) W p) in Z as [Z _]. specialize (FV p (or_introl eq_refl)). unfold true_lit, false_lit in *. congruence. }
      rewrite (proj2 (Z.eqb_neq _ _) Y). destruct (varMax <? watchOrder (view s) p)%Z; [|destruct (watchOrder (view s) p <=? s_dl (view s))%Z; [destruct (watchOrder (view s) p =? 0)%Z|]]; destruct (_ && _); vm_compute; discriminate.
    - apply status_facts; auto; apply FA; cbn; auto. }
  rewrite (proj2 (Z.eqb_neq _ _) N9). destruct c as [|p [|q rest]].
  - cbn [length Nat.leb nth]. apply forceAt_dead; [unfold same; auto| |lia]. destruct (k_sent _ _ _ _ K) as [e [E1 [E2 [E3 E4]]]]. exists e. sp; auto. lia.
  - cbn [length Nat.leb nth]. apply forceAt_dead; [unfold same; auto| |lia]. apply FA. now left.
  - destruct (status_facts (view s) p q rest W) as [_ [_ S3]]; try (apply FA; cbn; auto); auto. change (Nat.leb (length (p :: q :: rest)) 1) with false. cbv iota.
    destruct (Z.testbit _ 1 || Z.testbit _ 2) eqn:T; [|exfalso; apply (proj1 (S3 eq_refl)), FV; now left].
    assert (PK : pick f (p :: q :: rest) = p :: q :: rest) by (unfold pick; rewrite FL; reflexivity). rewrite PK. set (imp := Nat.leb (length (p :: q :: rest)) 3 && negb (f_expl f)).
    assert (C : (if imp then p :: q :: rest else p :: q :: rest) = p :: q :: rest) by (destruct imp; auto). rewrite !C.
    change (nth 0 (p :: q :: rest) lit_false) with p. change (nth 1 (p :: q :: rest) lit_false) with q.
    apply forceAt_dead; [apply add_same|apply FA; now left|].
    destruct (FA q) as [_ [e [E1 [E2 E3]]]]; [cbn; auto|]. rewrite (lev_in n s D G K e q E1); auto. unfold litOf. rewrite E2. destruct q; reflexivity.
Qed.
Lemma prep_facts : forall c, distinct_vars c -> (forall q, In q c -> ~ tTrue (b_trail s) q) ->
  let R := prepare_vec (view s) false c in watches_first (view s) R /\ (forall p, In p R -> In p c /\ ~ on_top (view s) p).
Proof.
  intros c DV NT R. destruct (prepare_vec_spec (view s) W false c (or_intror DV)) as [_ [[E TR]|[_ [X [Y _]]]]]; [|auto]. exfalso.
  destruct TR as [p [P1 [[P2 P3]|P2]]]; [apply (NT p P1); apply (val_true n s D G K); auto|].
  apply in_split in P1 as [l1 [l2 E1]]. unfold distinct_vars in DV. rewrite E1 in DV, P2. rewrite map_app in DV. cbn in DV. apply NoDup_remove_2 in DV. apply DV.
  assert (X : neg p <> p) by (destruct p as [v b]; cbn; intros Z; injection Z as Z; destruct b; discriminate). apply in_app_or in P2 as [P2|[P2|P2]].
  - apply in_or_app. left. apply in_map_iff. exists (neg p). split; [destruct p; reflexivity|auto].
  - congruence.
  - apply in_or_app. right. apply in_map_iff. exists (neg p). split; [destruct p; reflexivity|auto].
Qed.
End F.

Section S.
Variable n : nat.
Hypothesis NV : (Z.of_nat n < varMax)%Z.

Lemma db_add : forall s s1 F D G L f simp c, Core n s D G -> DbOk n F D L -> Forall (good_var n) c -> DbOk n (F ++ [c]) (db_step s D (OCreate f simp c) s1) L.
Proof.
  intros s s1 F D G L f simp c K [O1 O2 O3 O4 O5] GV. pose proof (k_len _ _ _ _ K) as KL.
  assert (IN : forall d, inDb (db_step s D (OCreate f simp c) s1) d <-> inDb D d \/ d = c).
  { intros d. unfold inDb, db_step. destruct (Nat.eqb _ _); cbn [d_imp d_exp]; rewrite in_app_iff; cbn [In]; split.
    - intros [[H|[H|[]]]|H]; auto.
    - intros [[H|H]|H]; auto.
    - intros [H|[H|[H|[]]]]; auto. injection H as H. auto.
    - intros [[H|H]|H]; auto. subst d. auto. }
  assert (IF : forall d, In d (F ++ [c]) <-> In d F \/ d = c) by (intros d; rewrite in_app_iff; cbn; intuition).
  constructor.
  - intros a A0 SF d H. unfold sat_cnf in SF. rewrite forallb_forall in SF. apply IN in H as [H| ->]; [|apply SF, IF; auto]. apply O1; auto. apply forallb_forall. intros z Z. apply SF, IF. auto.
  - intros d H. unfold db_step. apply IF in H as [H| ->].
    + destruct (O2 d H) as [X|[i [X Y]]]; [left|right; exists i]; destruct (Nat.eqb _ _); cbn; auto; [apply in_or_app; auto|].
      split; auto. rewrite nth_error_app1; auto. apply nth_error_Some. congruence.
    + destruct (Nat.eqb _ _); cbn; [left; apply in_or_app; right; now left|]. right. exists (length (d_exp D)). rewrite nth_error_app2, Nat.sub_diag by lia. split; auto. intros Z. apply O3 in Z. lia.
  - intros i H. apply O3 in H. unfold db_step. destruct (Nat.eqb _ _); cbn; auto. rewrite app_length. lia.
  - intros d H. apply IF in H as [H| ->]; auto.
  - intros d H. apply IN in H as [H| ->]; auto.
Qed.

Definition dead (x : sv) : Prop := b_conf (q_st x) <> None /\ b_dl (q_st x) <= b_root (q_st x).
Lemma dead_dec : forall (s : st) (c : list lit), (forall q, In q c -> exists e, In e (b_trail s) /\ e_lit e = neg q /\ e_lev e <= b_root s) \/ exists q, In q c /\ forall e, In e (b_trail s) -> e_lit e = neg q -> b_root s < e_lev e.
Proof.
  intros s c. induction c as [|q c [IH|[x [X1 X2]]]]; [left; intros q []| |right; exists x; split; auto; now right].
  destruct (existsb (fun e => lit_eqb (e_lit e) (neg q) && Nat.leb (e_lev e) (b_root s)) (b_trail s)) eqn:E.
  - left. intros y [<-|Y]; auto. apply existsb_exists in E as [e [E1 E2]]. apply andb_true_iff in E2 as [E2 E3]. exists e. sp; auto; [now apply lit_eqb_eq|now apply Nat.leb_le].
  - right. exists q. split; [now left|]. intros e E1 E2. destruct (Nat.lt_ge_cases (b_root s) (e_lev e)) as [|X]; auto. exfalso.
    assert (existsb (fun e => lit_eqb (e_lit e) (neg q) && Nat.leb (e_lev e) (b_root s)) (b_trail s) = true); [|congruence].
    apply existsb_exists. exists e. split; auto. rewrite E2. rewrite (proj2 (lit_eqb_eq _ _) eq_refl). cbn. now apply Nat.leb_le.
Qed.
(** Adding a nogood: the invariants hold with it, or it is violated on the root level *)
Lemma nogood_si : forall x F A f c, SI n x F A -> b_conf (q_st x) = None -> f_learnt f = true -> distinct_vars c -> (forall q, In q c -> ~ tTrue (b_trail (q_st x)) q) ->
  (Forall (good_var n) c \/ c = [lit_false]) ->
  let r := addNogood x f c in
  (SI n (fst r) (F ++ [c]) A /\ b_root (q_st (fst r)) = b_root (q_st x) /\ (snd r = true -> b_conf (q_st (fst r)) = None) /\ (snd r = false -> b_conf (q_st (fst r)) <> None)) \/
  (snd r = false /\ dead (fst r) /\ forall q, In q c -> exists e, In e (b_trail (q_st x)) /\ e_lit e = neg q /\ e_lev e <= b_root (q_st x)).
Proof.
  intros x F A f c [D [G [I [SH [DO AO]]]]] NC FL DV NT GV. set (s := q_st x) in *. pose proof (proj1 I) as K.
  assert (DLB : (Z.of_nat (b_dl s) < varMax)%Z) by (pose proof (dl_bound n s D G K SH); lia).
  destruct (prep_facts n s D G K DLB c DV NT) as [WF SB]. unfold addNogood. fold s. unfold create.
  assert (DEAD : (forall q, In q c -> exists e, In e (b_trail s) /\ e_lit e = neg q /\ e_lev e <= b_root s) -> let r := createPrep s f (prepare_vec (view s) false c) in snd r = false /\ b_conf (fst r) <> None /\ b_dl (fst r) <= b_root (fst r)).
  { intros H. apply (createPrep_dead n s D G K DLB); auto. intros q Q. destruct (SB q Q) as [Q1 Q2]. auto. }
  destruct (dead_dec s c) as [Y|Y].
  - right. specialize (DEAD Y). cbv zeta in DEAD. destruct (createPrep s f _) as [s1 ok]. cbn [fst snd] in *. unfold dead. cbn. tauto.
  - left. assert (GV' : Forall (good_var n) c).
    { destruct GV as [GV|GV]; auto. exfalso. destruct Y as [q [Q1 Q2]]. subst c. destruct Q1 as [<-|[]]. destruct (k_sent _ _ _ _ K) as [e [E1 [E2 [E3 E4]]]]. specialize (Q2 e E1 E2). lia. }
    destruct (createPrep_shape n s D G A K SH AO f (prepare_vec (view s) false c) FL) as [S1 [S2 [S3 [S4 S5]]]]; [intros q Q; apply NT, SB; auto|].
    destruct (create_inv n s D G f false c I) as [G' I'].
    { unfold op_ok. sp; auto. }
    unfold create in I'. destruct (createPrep s f _) as [s1 ok]. cbn [fst snd q_st] in *. sp; auto.
    exists (db_step s D (OCreate f false c) s1), G'. cbn [q_st q_lrn]. sp; auto. eapply db_add; eauto.
Qed.

Lemma dead_solve : forall x w rounds fuel, dead x -> solve (S rounds) (S fuel) n w x = Ok (x, VFalse).
Proof.
  intros x w rounds fuel [D1 D2]. cbn [solve]. unfold search. destruct (b_conf (q_st x)) as [cf|] eqn:CE; [|congruence].
  cbn [loop]. unfold resolveConflict. rewrite (proj2 (Nat.ltb_ge _ _) D2). cbn [bind]. rewrite CE. reflexivity.
Qed.
(** Literals true on the root levels *)
Lemma root_true : forall s D G A a, Core n s D G -> Shape s -> AsOk s A -> holds a lit_true = true -> (forall c, inDb D c -> sat_clause a c = true) ->
  (forall p l, In (p, l) A -> holds a p = true) -> forall e, In e (b_trail s) -> e_lev e <= b_root s -> holds a (e_lit e) = true.
Proof.
  intros s D G A a K SH AO H0 HD HA e E L. apply (semantic_core n s D G (b_root s) a K HD); auto.
  - intros x X GV LX. destruct GV as [Wh|[Wh|Wh]].
    + destruct (in_split _ _ X) as [t1 [t2 T]]. destruct (sh_dec s SH t1 x t2 T Wh) as [_ [Z _]]. apply (HA _ (e_lev x)). apply (a_dec _ _ AO); auto. lia.
    + exfalso. exact (sh_ext s SH x X Wh).
    + rewrite Wh. exact H0.
  - pose proof (k_log _ _ _ _ K e E). lia.
Qed.
End S.
