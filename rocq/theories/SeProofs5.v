From Coq Require Import List Bool Arith ZArith Lia Permutation.
From Verif Require Import Base ClModel ClSpec ClProofs BpModel BpSpec BpProofs BpProofs2 BpProofs3 BpProofs4 BpProofs5 CaModel CaSpec CaProofs7 CaThms SeModel SeSpec SeProofs SeProofs2 SeProofs3 SeProofs4.
Import ListNotations.

Section S.
Variable n : nat.
Hypothesis NV : (Z.of_nat n < varMax)%Z.

(** * Adding clauses on level 0 *)
Lemma forceAt_ext : forall s p l w, plain w -> l = b_dl s -> ext s (fst (forceAt s p l w)).
Proof. intros s p l w P ->. unfold forceAt. rewrite Nat.eqb_refl. apply forceG_ext; auto. Qed.
Lemma createPrep_ext0 : forall s D G f c, Core n s D G -> b_dl s = 0 -> let s' := fst (createPrep s f c) in
  (exists x, b_trail s' = b_trail s ++ x /\ forall e, In e x -> plain (e_why e)) /\ b_dl s' = b_dl s /\ b_root s' = b_root s /\ (NE s -> NE s').
Proof.
  intros s D G f c K DL s'. assert (E : forall t x, ext t x -> b_trail t = b_trail s -> b_dl t = b_dl s -> b_root t = b_root s -> (NE s -> NE t) ->
    (exists y, b_trail x = b_trail s ++ y /\ forall e, In e y -> plain (e_why e)) /\ b_dl x = b_dl s /\ b_root x = b_root s /\ (NE s -> NE x)).
  { intros t x [[y [Y1 Y2]] [X1 [X2 [_ X3]]]] T1 T2 T3 T4. sp; try congruence; auto. exists y. rewrite Y1, T1. split; auto. intros e H. apply Y2; auto. }
  unfold s', createPrep. destruct (Z.eqb _ 9); [apply (E s); auto; apply ext_refl|].
  destruct (Nat.leb (length c) 1); [apply (E s); auto; apply forceAt_ext; auto; split; discriminate|].
  set (imp := _ && _). set (c1 := if imp then c else _). set (s1 := if imp then _ else _). set (w := if imp then _ else ByC _).
  assert (F1 : b_trail s1 = b_trail s /\ b_dl s1 = b_dl s /\ b_root s1 = b_root s /\ b_conf s1 = b_conf s).
  { unfold s1. destruct imp; [unfold add_imp; destruct c1 as [|? [|? [|? [|? ?]]]]|]; auto. }
  destruct F1 as [A1 [A2 [A3 A4]]]. assert (NN : NE s -> NE s1) by (unfold NE; rewrite A4; auto).
  destruct (_ || _); cbn [fst]; [|apply (E s1); auto; apply ext_refl].
  apply (E s1); auto. apply forceAt_ext; [unfold w; destruct imp; [destruct c1 as [|? [|? [|? ?]]]|]; split; discriminate|].
  rewrite A2, DL. unfold lev. destruct (entry s _) as [e|] eqn:EE; auto. apply find_some_ent in EE as [E1 _]. pose proof (k_lv _ _ _ _ K e E1). lia.
Qed.
Definition bnd (x : sv) : Prop := b_conf (q_st x) <> None -> b_dl (q_st x) <= b_root (q_st x).
Lemma add_si : forall x F A f c, SI n x F A -> b_conf (q_st x) = None -> b_dl (q_st x) = 0 -> Forall (good_var n) c ->
    (f_learnt f = false /\ f_fw f < length (prepare_vec (view (q_st x)) true c) /\ f_sw f < length (prepare_vec (view (q_st x)) true c) \/ f_learnt f = true) ->
  SI n (fst (addClause x f c)) (F ++ [c]) A /\ bnd (fst (addClause x f c)).
Proof.
  intros x F A f c [D [G [I [SH [DO AO]]]]] NC DL GV FL. unfold addClause. set (s := q_st x) in *.
  pose proof (createPrep_ext0 s D G f (prepare_vec (view s) true c) (proj1 I) DL) as EX. cbv zeta in EX. fold (create s f true c) in EX.
  destruct (create_inv n s D G f true c I) as [G' I'].
  { unfold op_ok. sp; auto; [rewrite DL; reflexivity|tauto|]. left. pose proof (k_root _ _ _ _ (proj1 I)). lia. }
  destruct (create s f true c) as [s1 ok]. cbn [fst] in *. destruct EX as [[y [Y1 Y2]] [E1 [E2 E3]]]. split.
  - exists (db_step s D (OCreate f true c) s1), G'. cbn [q_st q_lrn]. sp; auto.
    + eapply shape_grow; eauto. apply E3. apply SH.
    + destruct DO as [O1 O2 O3 O4 O5]. pose proof (k_len _ _ _ _ (proj1 I)) as KL.
      assert (IN : forall d, inDb (db_step s D (OCreate f true c) s1) d <-> inDb D d \/ d = c).
      { intros d. unfold inDb, db_step. destruct (Nat.eqb _ _); cbn [d_imp d_exp]; rewrite in_app_iff; cbn [In]; split.
        - intros [[H|[H|[]]]|H]; auto.
        - intros [[H|H]|H]; auto.
        - intros [H|[H|[H|[]]]]; auto. injection H as H. auto.
        - intros [[H|H]|H]; auto. subst d. auto. }
      assert (IF : forall d, In d (F ++ [c]) <-> In d F \/ d = c) by (intros d; rewrite in_app_iff; cbn; intuition).
      constructor.
      * intros a A0 SF d H. unfold sat_cnf in SF. rewrite forallb_forall in SF. apply IN in H as [H| ->]; [|apply SF, IF; auto]. apply O1; auto. apply forallb_forall. intros z Z. apply SF, IF. auto.
      * intros d H. unfold db_step. apply IF in H as [H| ->].
        -- destruct (O2 d H) as [X|[i [X Y]]]; [left|right; exists i]; destruct (Nat.eqb _ _); cbn; auto; [apply in_or_app; auto|].
           split; auto. rewrite nth_error_app1; auto. apply nth_error_Some. congruence.
        -- destruct (Nat.eqb _ _); cbn; [left; apply in_or_app; right; now left|]. right. exists (length (d_exp D)). rewrite nth_error_app2, Nat.sub_diag by lia. split; auto. intros Z. apply O3 in Z. lia.
      * intros i H. apply O3 in H. unfold db_step. destruct (Nat.eqb _ _); cbn; auto. rewrite app_length. lia.
      * intros d H. apply IF in H as [H| ->]; auto.
      * intros d H. apply IN in H as [H| ->]; auto.
    + eapply as_grow; eauto. intros e H W. destruct (Y2 e H). contradiction.
  - unfold bnd. cbn [q_st]. lia.
Qed.
(** * Assumptions *)
Lemma pop_root : forall s k, b_root (popRootLevel s k) = b_root s - Nat.min k (b_root s).
Proof. intros s k. unfold popRootLevel, undo. destruct (Nat.ltb _ _); reflexivity. Qed.
Lemma pop_dl : forall s D G k, Core n s D G -> b_dl (popRootLevel s k) = b_root s - Nat.min k (b_root s).
Proof.
  intros s D G k K. pose proof (k_root _ _ _ _ K). unfold popRootLevel, undo. cbn [setRoot b_root b_dl]. rewrite Nat.max_id.
  destruct (Nat.ltb_spec (b_root s - Nat.min k (b_root s)) (b_dl s)); cbn [b_dl setRoot]; lia.
Qed.
Lemma pop_si : forall x F A k, SI n x F A -> SI n (popRoot x k) F (filter (fun a => Nat.leb (snd a) (b_root (q_st (popRoot x k)))) A) /\ bnd (popRoot x k).
Proof.
  intros x F A k [D [G [I [SH [DO AO]]]]]. split.
  - exists D, G. cbn [popRoot q_st q_lrn]. sp; auto; [apply pop_inv; auto|eapply shape_pop; eauto; apply I|eapply as_pop; eauto; apply I].
  - intros _. cbn [popRoot q_st]. rewrite pop_root, (pop_dl _ D G); auto. apply I.
Qed.
Lemma filter_leb_all : forall s A, AsOk s A -> filter (fun a => Nat.leb (snd a) (b_root s)) A = A.
Proof. intros s A AO. apply filter_all. intros [p l] H. cbn. apply Nat.leb_le. apply (a_true _ _ AO p l H). Qed.
Lemma as_add : forall s A p, AsOk s A -> isT s p = true -> (forall e, In e (b_trail s) -> e_lev e <= b_root s) -> AsOk s (A ++ [(p, b_root s)]).
Proof.
  intros s A p [A1 A2] T LV. constructor.
  - intros q l H. apply in_app_or in H as [H|[H|[]]]; auto. injection H as <- <-. split; auto. apply isT_iff in T as [e [E1 E2]]. exists e. sp; auto.
  - intros e E W Le. apply in_or_app. auto.
Qed.
Lemma push_si : forall x F A p, SI n x F A -> bnd x -> good_var n p -> goodA n A -> exists x' ok, pushRoot n x p = Ok (x', ok) /\
  SI n x' F (if ok || Nat.ltb (b_root (q_st x)) (b_root (q_st x')) then A ++ [(p, b_root (q_st x'))] else A) /\ bnd x' /\ (b_root (q_st x') = b_root (q_st x) \/ b_root (q_st x') = S (b_root (q_st x))) /\
  (ok = false -> forall a, isModel a F A -> holds a p = false).
Proof.
  intros [s L] F A p S0 BD GV GA. unfold pushRoot. cbn [q_st q_lrn]. destruct (b_conf s) as [cf|] eqn:CE.
  { exists (Sv s L), false. cbn [q_st orb]. rewrite Nat.ltb_irrefl. sp; auto. intros _ a M. exfalso. apply (conflict_unsat n (Sv s L) F A S0 GA) with a; auto; cbn; [congruence|apply BD; cbn; congruence]. }
  set (s1 := if Nat.eqb (b_dl s) (b_root s) then s else popRootLevel s 0).
  assert (S1 : SI n (Sv s1 L) F A /\ b_conf s1 = None /\ b_dl s1 = b_root s /\ b_root s1 = b_root s).
  { unfold s1. destruct (Nat.eqb_spec (b_dl s) (b_root s)) as [X|X]; [sp; auto|]. destruct S0 as [D [G [I [SH [DO AO]]]]]. cbn [q_st q_lrn] in *.
    assert (R : b_root (popRootLevel s 0) = b_root s) by (rewrite pop_root; lia). sp.
    - exists D, G. cbn [q_st q_lrn]. sp; auto; [apply pop_inv; auto|eapply shape_pop; eauto; apply I|]. pose proof (as_pop n s D G A 0 (proj1 I) SH AO) as Y. rewrite R, filter_leb_all in Y; auto.
    - unfold popRootLevel, undo. destruct (Nat.ltb _ _); auto.
    - rewrite (pop_dl s D G 0 (proj1 I)). lia.
    - auto. }
  destruct S1 as [S1 [NC1 [DL1 RT1]]]. destruct (prop_si n s1 L F A S1 NC1) as [s2 [ok2 [P2 [S2 [DL2 [RT2 [_ [OK1 OK2]]]]]]]]. rewrite P2. destruct ok2.
  2:{ exists (Sv s2 L), false. cbn [q_st orb]. rewrite RT2, RT1, Nat.ltb_irrefl. split; [auto|split; [auto|split; [unfold bnd; cbn; lia|split; [cbn; lia|]]]]. intros _ a M. exfalso. apply (conflict_unsat n (Sv s2 L) F A S2 GA) with a; auto; cbn; lia. }
  destruct (OK1 eq_refl) as [NC2 FR2]. destruct (isT s2 p) eqn:T.
  { exists (Sv s2 L), true. cbn [q_st orb]. split; [auto|split; [|split; [unfold bnd; cbn; congruence|split; [cbn; lia|discriminate]]]]. destruct S2 as [D [G [I [SH [DO AO]]]]]. exists D, G. cbn [q_st q_lrn] in *. sp; auto. apply as_add; auto.
    intros e E. pose proof (k_lv _ _ _ _ (proj1 I) e E). lia. }
  destruct (isF s2 p) eqn:T'.
  { exists (Sv s2 L), false. cbn [q_st orb]. rewrite RT2, RT1, Nat.ltb_irrefl. split; [auto|split; [auto|split; [unfold bnd; cbn; congruence|split; [cbn; lia|]]]]. intros _ a [M1 M2].
    destruct S2 as [D [G [I [SH [DO AO]]]]]. cbn [q_st q_lrn] in *. apply isF_iff in T' as [e [E1 E2]].
    assert (X : holds (at0 a) (e_lit e) = true).
    { apply (all_true n s2 D G A (at0 a) (proj1 I) SH AO); auto; [lia|apply (o_mod _ _ _ _ DO); [reflexivity|rewrite (at0_cnf n); auto; apply (o_gvF _ _ _ _ DO)]|]. intros q l H. rewrite (at0_lit n); eauto. }
    rewrite E2, holds_neg, (at0_lit n) in X by auto. now apply negb_true_iff. }
  cbn [orb]. assert (FRE : tFree (b_trail s2) p) by (split; [apply isT_no|apply isF_no]; auto).
  set (s3 := pushRootLevel (assume s2 p)). assert (R3 : b_root s3 = S (b_root s)).
  { unfold s3, assume, pushRootLevel, setRoot. rewrite T, T'. cbn [orb b_root b_dl]. lia. }
  assert (S3 : SI n (Sv s3 L) F (A ++ [(p, S (b_root s))]) /\ b_conf s3 = None /\ b_dl s3 = S (b_root s)).
  { destruct S2 as [D [G [I [SH [DO AO]]]]]. cbn [q_st q_lrn] in *. sp.
    - exists D, G. cbn [q_st q_lrn]. sp; auto.
      + apply push_inv, assume_inv; auto. apply GV.
      + apply shape_root. eapply shape_assume; eauto. apply I.
      + rewrite <- RT1, <- RT2. apply as_push; auto; [lia|]. apply (k_lv _ _ _ _ (proj1 I)).
    - unfold s3, assume. rewrite T, T'. exact NC2.
    - unfold s3, assume. rewrite T, T'. cbn. lia. }
  destruct S3 as [S3 [NC3 DL3]]. destruct (prop_si n s3 L F _ S3 NC3) as [s4 [ok4 [P4 [S4 [DL4 [RT4 [_ [OK3 OK4]]]]]]]]. rewrite P4.
  exists (Sv s4 L), ok4. cbn [q_st]. rewrite RT4, R3. rewrite (proj2 (Nat.ltb_lt _ _)) by lia. rewrite orb_true_r. sp; auto.
  - unfold bnd. cbn. lia.
  - intros -> a [M1 M2]. destruct (holds a p) eqn:HP; auto. exfalso. apply (conflict_unsat n (Sv s4 L) F _ S4) with a; auto; cbn; [|lia|].
    + intros q l H. apply in_app_or in H as [H|[H|[]]]; [eapply GA; eauto|]. injection H as <- <-. auto.
    + split; auto. intros q l H. apply in_app_or in H as [H|[H|[]]]; [eapply M2; eauto|]. injection H as <- <-. auto.
Qed.
(** * Restarts and removal of learnt clauses *)
Lemma restart_si : forall x F A, SI n x F A -> SI n (restart x) F A /\ (b_conf (q_st x) = None -> b_conf (q_st (restart x)) = None) /\ b_root (q_st (restart x)) = b_root (q_st x) /\ bnd (restart x).
Proof.
  intros x F A [D [G [I [SH [DO AO]]]]]. sp.
  - exists D, G. cbn [restart q_st q_lrn]. sp; auto; [apply undo_inv; auto|eapply shape_undo; eauto; apply I|eapply as_undo; eauto; apply I].
  - cbn. unfold undo. destruct (Nat.ltb _ _); auto.
  - cbn. unfold undo. destruct (Nat.ltb _ _); auto.
  - intros _. cbn [restart q_st]. unfold undo. destruct (Nat.ltb_spec (Nat.max 0 (b_root (q_st x))) (b_dl (q_st x))); cbn; lia.
Qed.
Lemma drop_si : forall x F A i, SI n x F A -> b_conf (q_st x) = None -> SI n (dropOne x i) F A /\ b_conf (q_st (dropOne x i)) = None /\ b_root (q_st (dropOne x i)) = b_root (q_st x).
Proof.
  intros x F A i [D [G [I [SH [DO AO]]]]] NC. unfold dropOne. destruct (existsb _ _) eqn:EX; [|sp; auto; exists D, G; auto]. apply existsb_exists in EX as [j [J1 J2]]. apply Nat.eqb_eq in J2. subst j.
  set (s := q_st x) in *. pose proof (remove_inv n s D G i I NC) as I'. 
  assert (FD : b_trail (remove s i) = b_trail s /\ b_dl (remove s i) = b_dl s /\ b_root (remove s i) = b_root s /\ b_conf (remove s i) = b_conf s).
  { unfold remove. destruct (nth i (b_cls s) None) as [c|]; [destruct (locked s i c)|]; auto. }
  destruct FD as [F1 [F2 [F3 F4]]]. cbn [q_st]. sp; try congruence.
  exists (db_step s D (ORemove i) (remove s i)), G. cbn [q_st q_lrn]. sp; auto.
  - apply (shape_grow s _ []); auto; [rewrite app_nil_r; auto|easy|]. unfold NE. rewrite F4. apply SH.
  - destruct DO as [O1 O2 O3 O4 O5]. unfold db_step. destruct (nth i (b_cls (remove s i)) None) as [c|]; [constructor; auto|].
    assert (IN : forall c, inDb (Db (d_imp D) (put_at (d_exp D) i None)) c -> inDb D c).
    { intros c [H|H]; [now left|right]. cbn [d_exp] in H. apply In_nth_error in H as [j J]. destruct (Nat.eq_dec j i) as [-> |N].
      - rewrite put_at_nth_error_same in J; [discriminate|]. apply O3; auto.
      - rewrite put_at_nth_error_other in J by auto. eapply nth_error_In; eauto. }
    constructor; [| | |auto|auto].
    + intros a A0 SF c C. apply (O1 a A0 SF). auto.
    + intros c C. destruct (O2 c C) as [H|[j [J1' J2']]]; auto. right. exists j. cbn [d_exp]. assert (j <> i) by (intros ->; auto). rewrite put_at_nth_error_other by auto. split; auto. intros Z. apply J2'. apply in_remove in Z. tauto.
    + intros j J. apply in_remove in J as [J _]. cbn [d_exp]. rewrite put_at_length. auto.
  - apply (as_grow s _ A []); auto; [rewrite app_nil_r; auto|easy].
Qed.
Lemma reduce_si : forall l x F A, SI n x F A -> b_conf (q_st x) = None -> SI n (reduce x l) F A /\ b_conf (q_st (reduce x l)) = None /\ b_root (q_st (reduce x l)) = b_root (q_st x).
Proof.
  induction l as [|i l IH]; intros x F A S0 NC; cbn [reduce fold_left]; auto. fold (reduce (dropOne x i) l).
  destruct (drop_si x F A i S0 NC) as [S1 [NC1 R1]]. destruct (IH _ F A S1 NC1) as [S2 [NC2 R2]]. sp; auto. congruence.
Qed.
Lemma solve_ok : forall w F A fuel, picks n w -> forall rounds x, SI n x F A -> exists x' v, solve rounds fuel n w x = Ok (x', v) /\ SI n x' F A /\ b_root (q_st x') = b_root (q_st x) /\
  (v = VFree /\ (rounds = 0 /\ x' = x \/ 0 < rounds /\ b_conf (q_st x') = None /\ exists k s, w_limit w k s = true) \/ v <> VFree /\ post n w fuel [] x' v).
Proof.
  intros w F A fuel PK. induction rounds as [|rounds IH]; intros x S0; cbn [solve].
  - exists x, VFree. sp; auto.
  - destruct (search_ok n NV w F A fuel x PK S0) as [x1 [v [E [S1 [R1 PO]]]]]. rewrite E. cbn [bind]. destruct v; try (exists x1; eexists; sp; [reflexivity|auto..]; right; split; [discriminate|exact PO]).
    destruct PO as [NC1 LM]. set (x2 := if w_restart w rounds (q_st x1) then restart x1 else x1).
    assert (S2 : SI n x2 F A /\ b_conf (q_st x2) = None /\ b_root (q_st x2) = b_root (q_st x1)).
    { unfold x2. destruct (w_restart w rounds (q_st x1)); auto. destruct (restart_si x1 F A S1) as [Y1 [Y2 [Y3 _]]]. sp; auto. }
    destruct S2 as [S2 [NC2 R2]]. destruct (reduce_si (w_reduce w rounds (q_st x2)) x2 F A S2 NC2) as [S3 [NC3 R3]].
    destruct (IH _ S3) as [x' [v [E2 [S4 [R4 PO]]]]]. exists x', v. sp; auto; [congruence|].
    destruct PO as [[-> [[-> ->]|[Z1 [Z2 Z3]]]]|PO]; auto; left; split; auto; right; sp; auto; lia.
Qed.

(** * Sessions *)
Lemma init_si : SI n (Sv init []) [] [].
Proof.
  pose proof (init_inv n) as I. exists (Db [] []), []. cbn [q_st q_lrn]. sp; auto; [apply shape_init| |].
  - constructor; cbn; try easy; [intros a _ _ c [[]|[]]|intros c [[]|[]]].
  - constructor; [easy|]. cbn. intros e [<-|[]] W. discriminate.
Qed.
Lemma sess_ok : forall x F A, sess n x F A -> SI n x F A /\ bnd x /\ goodA n A.
Proof.
  intros x F A H. induction H as [|x F A f c H [S [B GA]] NC DL GV FL|x F A p x' ok H [S [B GA]] GV E|x F A k H [S [B GA]]|x F A fuel w x' v H [S [B GA]] PK E V|x F A rounds fuel w x' v H [S [B GA]] PK E V|x F A H [S [B GA]]|x F A l H [S [B GA]] NC].
  - sp; [apply init_si|intros X; cbn in X; congruence|intros p l []].
  - destruct (add_si x F A f c S NC DL GV FL). sp; auto.
  - destruct (push_si x F A p S B GV GA) as [y [o [E' [S' [B' _]]]]]. rewrite E in E'. injection E' as <- <-. sp; auto.
    destruct (ok || _); auto. intros q l Q. apply in_app_or in Q as [Q|[Q|[]]]; [eapply GA; eauto|]. injection Q as <- _. auto.
  - destruct (pop_si x F A k S) as [Y1 Y2]. change (q_st (popRoot x k)) with (popRootLevel (q_st x) k) in Y1. rewrite pop_root in Y1. replace (b_root (q_st x) - Nat.min k (b_root (q_st x))) with (b_root (q_st x) - k) in Y1 by lia. sp; auto. intros q l Q. apply filter_In in Q as [Q _]. eapply GA; eauto.
  - destruct (search_ok n NV w F A fuel x PK S) as [y [u [E' [S' [R PO]]]]]. rewrite E in E'. injection E' as <- <-. sp; auto. intros X. destruct v; cbn in PO; try tauto; congruence.
  - destruct (solve_ok w F A fuel PK rounds x S) as [y [u [E' [S' [R PO]]]]]. rewrite E in E'. injection E' as <- <-. sp; auto.
    destruct PO as [[_ [[_ ->]|[_ [X _]]]]|[_ PO]]; auto; [intros Y; congruence|]. intros X. destruct v; cbn in PO; try tauto; destruct PO; congruence.
  - destruct (restart_si x F A S) as [Y1 [Y2 [Y3 Y4]]]. sp; auto.
  - destruct (reduce_si l x F A S NC) as [Y1 [Y2 _]]. sp; auto. intros X. congruence.
Qed.
(** * Cores *)
Lemma core_ok : forall x F A, SI n x F A -> goodA n A -> b_conf (q_st x) <> None -> b_dl (q_st x) <= b_root (q_st x) -> 0 < b_dl (q_st x) -> exists c, coreOf x = Ok c /\ NoDup c /\
  (forall p, In p c -> exists l, In (p, l) A) /\ forall a, sat_cnf a F = true -> exists p, In p c /\ holds a p = false.
Proof.
  intros x F A [D [G [I [SH [DO AO]]]]] GA CF DL D0. set (s := q_st x) in *. unfold coreOf. fold s.
  destruct (c19_core (GM D) (envOf s) (conflictLits s) (flagsOf s)) as [f' [core [E [C1 [C2 [C3 _]]]]]].
  - eapply bridge_trail; eauto.
  - eapply bridge_flags; eauto.
  - rewrite dl_of. exact DL.
  - eapply bridge_flips; eauto.
  - destruct (conf_facts n s D G I SH CF D0) as [c0 [_ [_ [X _]]]]. intros q Q. destruct (X q Q) as [Y|Y]; auto. right. eapply tt_trail; eauto.
  - eapply conf_valid; eauto.
  - rewrite E. cbn [bind]. exists core. sp; auto.
    + intros p P. destruct (C1 p P) as [i [Q1 ->]]. cbn in Q1. assert (Q2 : 1 <= i <= b_dl s) by (pose proof (k_root _ _ _ _ (proj1 I)); lia).
      destruct (sh_all s SH i Q2) as [e [E1 [E2 E3]]]. exists i. pose proof (dec_is n s D G I SH e E1 E2) as X. rewrite E3 in X. rewrite <- X, <- E3. apply (a_dec _ _ AO); auto. lia.
    + intros a SF. destruct (C3 (at0 a)) as [p [P1 P2]].
      { split; [reflexivity|]. apply (o_mod _ _ _ _ DO); [reflexivity|]. rewrite (at0_cnf n); auto. apply (o_gvF _ _ _ _ DO). }
      exists p. split; auto. rewrite (at0_lit n) in P2; auto. destruct (C1 p P1) as [i [Q1 ->]]. cbn in Q1. assert (Q2 : 1 <= i <= b_dl s) by (pose proof (k_root _ _ _ _ (proj1 I)); lia).
      destruct (sh_all s SH i Q2) as [e [E1 [E2 E3]]]. pose proof (dec_is n s D G I SH e E1 E2) as X. rewrite E3 in X. rewrite <- X. apply (GA _ i). rewrite <- E3. apply (a_dec _ _ AO); auto. lia.
Qed.
End S.
