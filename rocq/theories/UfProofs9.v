(** Unfounded set check: reasons *)
From Coq Require Import List Bool Arith ZArith Lia.
From Verif Require Import Base UfModel UfRun UfSpec UfProofs UfProofs2 UfProofs3 UfProofs4 UfProofs5 UfProofs6 UfProofs7.
Import ListNotations.
Local Open Scope Z_scope.

Lemma lit_eqb_eq : forall p q, lit_eqb p q = true -> p = q.
Proof. intros [v s] [w t] E. unfold lit_eqb in E. cbn in E. apply andb_true_iff in E. destruct E as [E1 E2]. apply Nat.eqb_eq in E1. apply eqb_prop in E2. congruence. Qed.
Lemma addReasonLit_in : forall r p, In p (addReasonLit r p) /\ incl r (addReasonLit r p).
Proof.
  intros r p. unfold addReasonLit. destruct (existsb (lit_eqb p) r) eqn:E.
  - apply existsb_exists in E. destruct E as (q & Q1 & Q2). apply lit_eqb_eq in Q2. subst. split; auto. apply incl_refl.
  - split; [apply in_or_app; right; left; auto|]. intros q Q. apply in_or_app. auto.
Qed.
Fixpoint sumPs (f : nat -> bool) (ps : list (nat * Z)) : Z := match ps with [] => 0 | (p, w) :: ps => (if f p then w else 0) + sumPs f ps end.
Lemma sumPs_3 : forall (f1 f2 f3 : nat -> bool) ps, (forall e, In e ps -> 0 <= snd e) -> (forall p, In p (map fst ps) -> Z.b2z (f1 p) + Z.b2z (f2 p) + Z.b2z (f3 p) <= 1) -> sumPs f1 ps + sumPs f2 ps + sumPs f3 ps <= sumPs (fun _ => true) ps.
Proof.
  intros f1 f2 f3 ps. induction ps as [|[p w] ps IH]; intros WN H; cbn [sumPs]; [lia|]. specialize (IH (fun e I => WN e (or_intror I)) (fun q I => H q (or_intror I))). specialize (H p (or_introl eq_refl)). specialize (WN (p, w) (or_introl eq_refl)). cbn in WN.
  destruct (f1 p), (f2 p), (f3 p); cbn in H; lia.
Qed.
Lemma sumPs_ge : forall (f1 f2 f3 : nat -> bool) ps, (forall e, In e ps -> 0 <= snd e) -> (forall p, In p (map fst ps) -> f1 p || f2 p || f3 p = true) -> sumPs (fun _ => true) ps <= sumPs f1 ps + sumPs f2 ps + sumPs f3 ps.
Proof.
  intros f1 f2 f3 ps. induction ps as [|[p w] ps IH]; intros WN H; cbn [sumPs]; [lia|]. specialize (IH (fun e I => WN e (or_intror I)) (fun q I => H q (or_intror I))). specialize (H p (or_introl eq_refl)). specialize (WN (p, w) (or_introl eq_refl)). cbn in WN.
  destruct (f1 p), (f2 p), (f3 p); cbn in H; try discriminate; lia.
Qed.
Lemma sumLits_2 : forall (f1 f2 : lit -> bool) es, (forall e, In e es -> 0 <= snd e) -> (forall p, f1 p && f2 p = false) -> sumLits f1 es + sumLits f2 es <= sumLits (fun _ => true) es.
Proof.
  intros f1 f2 ps. induction ps as [|[p w] ps IH]; intros WN H; cbn [sumLits]; [lia|]. specialize (IH (fun e I => WN e (or_intror I)) H). specialize (H p). specialize (WN (p, w) (or_introl eq_refl)). cbn in WN.
  destruct (f1 p), (f2 p); cbn in H; try discriminate; lia.
Qed.
Lemma sumLits_ge : forall (f1 f2 : lit -> bool) es, (forall e, In e es -> 0 <= snd e) -> (forall p, f1 p || f2 p = true) -> sumLits (fun _ => true) es <= sumLits f1 es + sumLits f2 es.
Proof.
  intros f1 f2 ps. induction ps as [|[p w] ps IH]; intros WN H; cbn [sumLits]; [lia|]. specialize (IH (fun e I => WN e (or_intror I)) H). specialize (H p). specialize (WN (p, w) (or_introl eq_refl)). cbn in WN.
  destruct (f1 p), (f2 p); cbn in H; try discriminate; lia.
Qed.
Lemma sumLits_app : forall T a b, sumLits T (a ++ b) = sumLits T a + sumLits T b.
Proof. induction a as [|[p w] a IH]; intros b; cbn; auto. rewrite IH. lia. Qed.
Lemma sumLits_nn : forall T es, (forall e, In e es -> 0 <= snd e) -> 0 <= sumLits T es.
Proof. intros T es. induction es as [|[p w] es IH]; intros WN; cbn; [lia|]. specialize (IH (fun e I => WN e (or_intror I))). specialize (WN (p, w) (or_introl eq_refl)). cbn in WN. destruct (T p); lia. Qed.
Section Uf.
Variable g : graph.
Hypothesis W : gwf g.
Notation nA := (nAtoms g).
Notation nB := (length (g_bodies g)).
Variable A : pasg.
Notation ff l := (isFalse A l).
Lemma sumLits_map : forall T ps, sumLits T (map (fun p => (alit g (fst p), snd p)) ps) = sumPs (fun p => T (alit g p)) ps.
Proof. intros T ps. induction ps as [|[p w] ps IH]; cbn; auto. rewrite IH. auto. Qed.
Lemma sumOut_ps : forall T U ps, sumOut g T U ps = sumPs (fun p => T (alit g p) && negb (inSet U p)) ps.
Proof. intros T U ps. induction ps as [|[p w] ps IH]; cbn; auto. rewrite IH. auto. Qed.
Lemma slack_eq : forall b, slack g b = sumPs (fun _ => true) (n_preds (bodyOf g b)) + sumLits (fun _ => true) (n_exts (bodyOf g b)) - bound g b.
Proof.
  intros b. unfold slack, bound. replace (fold_right Z.add 0 (map snd (goals g b))) with (sumLits (fun _ => true) (goals g b)).
  - unfold goals. rewrite sumLits_app, sumLits_map. auto.
  - induction (goals g b) as [|[l w] gs IH]; cbn; auto. rewrite IH. auto.
Qed.
Lemma wt_goal : forall b e, In e (n_exts (bodyOf g b)) -> 0 <= snd e.
Proof. intros b e I. apply (gw_wt _ W b). unfold goals. apply in_or_app. auto. Qed.
Lemma wt_pred : forall b e, In e (n_preds (bodyOf g b)) -> 0 <= snd e.
Proof. intros b [p w] I. change (0 <= snd (alit g (fst (p, w)), snd (p, w))). apply (gw_wt _ W b). unfold goals. apply in_or_app. left. apply in_map_iff. exists (p, w). auto. Qed.
Lemma extLoop_w : forall k ps s, (forall e, In e ps -> 0 <= snd e) -> let t := s - sumPs (inUfs g A k) ps in (extLoop g A k true ps s < 0 -> t < 0) /\ (0 <= extLoop g A k true ps s -> extLoop g A k true ps s = t).
Proof.
  intros k ps. induction ps as [|[p w] ps IH]; intros s WN; cbn zeta; cbn [extLoop sumPs]; [lia|]. assert (NN : 0 <= sumPs (inUfs g A k) ps). { clear IH. assert (WN' : forall e, In e ps -> 0 <= snd e) by (intros; apply WN; right; auto). clear WN. induction ps as [|[q v] ps IH]; cbn; [lia|]. specialize (IH (fun e I => WN' e (or_intror I))). specialize (WN' (q, v) (or_introl eq_refl)). cbn in WN'. destruct (inUfs g A k q); lia. }
  pose proof (WN (p, w) (or_introl eq_refl)) as WP. cbn in WP. destruct (Z.ltb_spec s 0) as [LT|GE]; [destruct (inUfs g A k p); lia|]. specialize (IH (if inUfs g A k p then s - w else s) (fun e I => WN e (or_intror I))). cbn zeta in IH. destruct (inUfs g A k p); lia.
Qed.
Lemma extLoop_c : forall k ps s, 0 <= s -> (forall e, In e ps -> inUfs g A k (fst e) = false) -> 0 <= extLoop g A k false ps s.
Proof.
  intros k ps. induction ps as [|[p w] ps IH]; intros s GE H; cbn [extLoop]; auto. replace (s <? 0) with false by (symmetry; apply Z.ltb_ge; auto). pose proof (H (p, w) (or_introl eq_refl)) as E. cbn in E. rewrite E. apply IH; auto. intros e I. apply H. right. auto.
Qed.
Lemma addFalse_incl : forall gs s r, incl r (addFalse A gs s r).
Proof.
  induction gs as [|[p w] gs IH]; intros s r; cbn [addFalse]; [apply incl_refl|]. destruct (ff p && (0 <=? s)); auto. eapply incl_tran; [|apply IH]. apply addReasonLit_in.
Qed.
Lemma addFalse_sound : forall (M : asg) gs s r, (forall e, In e gs -> 0 <= snd e) -> (forall p, In p (addFalse A gs s r) -> holds M p = false) -> s - sumLits (fun p => ff p) gs < 0 -> s - sumLits (fun p => ff p && negb (holds M p)) gs < 0.
Proof.
  intros M gs. induction gs as [|[p w] gs IH]; intros s r WN HM LT; cbn [addFalse sumLits] in *; [lia|]. assert (WN' : forall e, In e gs -> 0 <= snd e) by (intros; apply WN; right; auto). pose proof (WN (p, w) (or_introl eq_refl)) as WP. cbn in WP.
  destruct (ff p) eqn:FP; cbn [andb] in *.
  - destruct (Z.leb_spec 0 s) as [GE|NG].
    + assert (MP : holds M p = false) by (apply HM; apply addFalse_incl; exact (proj1 (addReasonLit_in _ _))). rewrite MP. cbn. specialize (IH (s - w) _ WN' HM). lia.
    + pose proof (sumLits_nn (fun p => ff p && negb (holds M p)) gs WN'). destruct (negb (holds M p)); lia.
  - specialize (IH s r WN' HM). lia.
Qed.
Section Reason.
Variable k : ck.
Variable uscc : nat.
Definition PR (b : nat) (R : list lit) : Prop :=
  if negb (isExt g b) || negb (Nat.eqb (n_scc (bodyOf g b)) uscc) then
    ff (blit g b) = true -> n_scc (bodyOf g b) <> uscc \/ 0 <= extLoop g A k false (n_preds (bodyOf g b)) 0 -> In (blit g b) R
  else 0 <= extLoop g A k true (n_preds (bodyOf g b)) (slack g b) ->
    if ff (blit g b) then In (blit g b) R else exists r0, incl (addFalse A (goals g b) (extLoop g A k true (n_preds (bodyOf g b)) (slack g b)) r0) R.
Lemma PR_mono : forall b R R', incl R R' -> PR b R -> PR b R'.
Proof.
  intros b R R' I. unfold PR. destruct (_ || _); [intros H F C; apply I; auto|]. intros H C. specialize (H C). destruct (ff (blit g b)); [apply I; auto|]. destruct H as (r0 & H). exists r0. eapply incl_tran; eauto.
Qed.
Lemma addIf_ok : forall b picked r picked' r', addIfReason g A k uscc (picked, r) b = (picked', r') -> (forall c, In c picked -> PR c r) -> (forall c, In c picked' -> PR c r') /\ PR b r' /\ incl r r'.
Proof.
  intros b picked r picked' r' E HP. unfold addIfReason in E. destruct (negb (isExt g b) || negb (Nat.eqb (n_scc (bodyOf g b)) uscc)) eqn:K.
  - assert (PB : forall R, (ff (blit g b) = true -> n_scc (bodyOf g b) <> uscc \/ 0 <= extLoop g A k false (n_preds (bodyOf g b)) 0 -> In (blit g b) R) -> PR b R) by (intros R H; unfold PR; rewrite K; exact H).
    destruct (_ && _ && _) eqn:C; injection E as <- <-.
    + destruct (addReasonLit_in r (blit g b)) as [I1 I2]. sp; auto. intros c Ic. eapply PR_mono; eauto.
    + sp; auto using incl_refl. apply PB. intros F H. rewrite F in C. cbn in C. destruct (existsb (lit_eqb (blit g b)) r) eqn:X.
      * apply existsb_exists in X. destruct X as (q & Q1 & Q2). apply lit_eqb_eq in Q2. congruence.
      * cbn in C. apply orb_false_iff in C. destruct C as [C1 C2]. apply negb_false_iff in C1. apply Nat.eqb_eq in C1. apply Z.leb_gt in C2. destruct H as [H|H]; [contradiction|lia].
  - destruct (existsb (Nat.eqb b) picked) eqn:P; cbn [negb] in E; injection E as <- <-.
    + sp; auto using incl_refl. apply HP. apply existsb_exists in P. destruct P as (c & P1 & P2). apply Nat.eqb_eq in P2. congruence.
    + set (s := extLoop g A k true (n_preds (bodyOf g b)) (slack g b)). 
      assert (R : PR b (if 0 <=? s then if ff (blit g b) then addReasonLit r (blit g b) else addFalse A (goals g b) s r else r) /\ incl r (if 0 <=? s then if ff (blit g b) then addReasonLit r (blit g b) else addFalse A (goals g b) s r else r)).
      { unfold PR. rewrite K. fold s. destruct (Z.leb_spec 0 s) as [L|L]; [|split; [intros; lia|apply incl_refl]]. destruct (ff (blit g b)).
        - destruct (addReasonLit_in r (blit g b)). split; auto.
        - split; [|apply addFalse_incl]. intros _. exists r. apply incl_refl. }
      destruct R as [R1 R2]. sp; auto. intros c [<-|Ic]; auto. eapply PR_mono; eauto.
Qed.
Lemma addBodies_ok : forall bs picked r picked' r', fold_left (addIfReason g A k uscc) bs (picked, r) = (picked', r') -> (forall c, In c picked -> PR c r) -> (forall c, In c picked' -> PR c r') /\ (forall b, In b bs -> PR b r') /\ incl r r'.
Proof.
  induction bs as [|b bs IH]; intros picked r picked' r' E HP; cbn [fold_left] in E.
  - injection E as <- <-. sp; auto using incl_refl. intros b [].
  - destruct (addIfReason g A k uscc (picked, r) b) as [p1 r1] eqn:E1. destruct (addIf_ok _ _ _ _ _ E1 HP) as (H1 & H2 & H3). destruct (IH _ _ _ _ E H1) as (I1 & I2 & I3). sp; auto.
    + intros c [<-|Ic]; auto. eapply PR_mono; eauto.
    + eapply incl_tran; eauto.
Qed.
Lemma addAtoms_ok : forall us picked r picked' r', fold_left (fun s x => if ff (alit g x) then s else fold_left (addIfReason g A k uscc) (a_bodies (atomOf g x)) s) us (picked, r) = (picked', r') -> (forall c, In c picked -> PR c r) ->
  (forall x b, In x us -> ff (alit g x) = false -> In b (a_bodies (atomOf g x)) -> PR b r') /\ incl r r'.
Proof.
  induction us as [|x us IH]; intros picked r picked' r' E HP; cbn [fold_left] in E.
  - injection E as <- <-. split; [intros x b []|apply incl_refl].
  - destruct (if ff (alit g x) then (picked, r) else fold_left (addIfReason g A k uscc) (a_bodies (atomOf g x)) (picked, r)) as [p1 r1] eqn:E1.
    assert (H : (forall c, In c p1 -> PR c r1) /\ (ff (alit g x) = false -> forall b, In b (a_bodies (atomOf g x)) -> PR b r1) /\ incl r r1).
    { destruct (ff (alit g x)); [injection E1 as <- <-; sp; auto using incl_refl; discriminate|]. destruct (addBodies_ok _ _ _ _ _ E1 HP) as (H1 & H2 & H3). auto. }
    destruct H as (H1 & H2 & H3). destruct (IH _ _ _ _ E H1) as (I1 & I2). split; [|eapply incl_tran; eauto]. intros y b [<-|Y] FY IB; [|eapply I1; eauto]. eapply PR_mono; eauto.
Qed.
End Reason.
Lemma reason_sound : forall k U (M : asg), unf g A U -> upClosed g A -> (forall y, k_uf k y = true -> In y U) -> (forall y, In y U -> ff (alit g y) = false -> k_uf k y = true) -> (forall y, In y U -> (y < nA)%nat) ->
  (forall y z, In y U -> In z U -> a_scc (atomOf g y) = a_scc (atomOf g z)) -> founded g (holds M) -> bodiesOk g M -> (forall p, In p (computeReason g A k U) -> holds M p = false) ->
  forall y, In y U -> ff (alit g y) = false -> holds M (alit g y) = false.
Proof.
  intros k U M UN UP UF1 UF2 RG SC FO BO HR y0 IY0 FY0. destruct (holds M (alit g y0)) eqn:HY0; auto. exfalso.
  set (V := filter (fun y => negb (ff (alit g y)) && holds M (alit g y)) U). assert (IV : forall y, In y V <-> In y U /\ ff (alit g y) = false /\ holds M (alit g y) = true). { intros y. unfold V. rewrite filter_In, andb_true_iff, negb_true_iff. tauto. }
  assert (EU : exists x0 U0, U = x0 :: U0) by (destruct U; [destruct IY0|eauto]). destruct EU as (x0 & U0 & EU). set (uscc := a_scc (atomOf g x0)) in *.
  assert (RE : computeReason g A k U = snd (fold_left (fun s x => if ff (alit g x) then s else fold_left (addIfReason g A k uscc) (a_bodies (atomOf g x)) s) U ([], []))) by (rewrite EU; reflexivity). rewrite RE in HR.
  destruct (fold_left (fun s x => if ff (alit g x) then s else fold_left (addIfReason g A k uscc) (a_bodies (atomOf g x)) s) U ([], [])) as [pk R] eqn:FE. cbn [snd] in HR.
  destruct (addAtoms_ok _ _ _ _ _ _ _ FE) as [HP _]; [intros c []|].
  destruct (FO V) as (y & b & Y1 & Y2 & HB & Y3).
  - intros E. assert (X : In y0 V) by (apply IV; auto). rewrite E in X. destruct X.
  - intros y Y. apply IV in Y. destruct Y as (Y1 & Y2 & Y3). auto.
  - apply IV in Y1. destruct Y1 as (IY & FY & HY). specialize (HP y b IY FY Y2). assert (SY : a_scc (atomOf g y) = uscc). { apply SC; auto. rewrite EU. left. auto. }
    assert (NF : ff (blit g b) = true -> ~ In (blit g b) R). { intros _ I. rewrite (HR _ I) in HB. discriminate. }
    unfold PR in HP. destruct (Nat.eqb_spec (n_scc (bodyOf g b)) uscc) as [SB|SB].
    + assert (SS : sameScc g b y = true) by (unfold sameScc; rewrite SB, SY; apply Nat.eqb_refl). specialize (Y3 (eq_trans SB (eq_sym SY))). cbn [negb] in HP. rewrite orb_false_r in HP.
      destruct (n_bound (bodyOf g b)) as [bd|] eqn:NB.
      * assert (X : isExt g b = true) by (unfold isExt; rewrite NB; auto). rewrite X in HP. cbn [negb] in HP. pose proof (wt_goal b) as WE. pose proof (wt_pred b) as WP. set (ps := n_preds (bodyOf g b)) in *. set (es := n_exts (bodyOf g b)) in *.
        pose proof (extLoop_w k ps (slack g b) WP) as [EL1 EL2]. set (s := extLoop g A k true ps (slack g b)) in *. rewrite sumOut_ps in Y3.
        assert (KEY : slack g b - sumPs (inUfs g A k) ps - sumLits (fun p => ff p && negb (holds M p)) (goals g b) < 0).
        { destruct (Z.ltb_spec s 0) as [LS|GS].
          - specialize (EL1 LS). enough (0 <= sumLits (fun p => ff p && negb (holds M p)) (goals g b)) by lia. apply sumLits_nn. apply (gw_wt _ W b).
          - specialize (EL2 GS). specialize (HP GS). destruct (ff (blit g b)) eqn:FB; [elim (NF eq_refl HP)|]. destruct HP as (r0 & HP). rewrite <- EL2. apply addFalse_sound with (r := r0).
            + apply (gw_wt _ W b).
            + intros p Ip. apply HR. apply HP. auto.
            + destruct (UN y b IY FY Y2 FB) as (_ & _ & UE). specialize (UE X). unfold bound in UE. rewrite NB in UE.
              assert (CE : sumP g b (cOut g A U b) = sumPs (fun p => negb (ff (alit g p)) && negb (inSet U p)) ps + sumLits (fun l => negb (ff l)) es).
              { pose proof (sum_split g b (fun l => negb (ff l)) U) as SP. rewrite sumOut_ps in SP. exact SP. }
              rewrite EL2, slack_eq. unfold bound. rewrite NB. unfold goals. rewrite sumLits_app, sumLits_map. fold ps es.
              pose proof (sumPs_ge (fun p => negb (ff (alit g p)) && negb (inSet U p)) (inUfs g A k) (fun p => ff (alit g p)) ps WP) as G1. pose proof (sumLits_ge (fun l => negb (ff l)) (fun l => ff l) es WE) as G2.
              assert (H1 : forall p, In p (map fst ps) -> negb (ff (alit g p)) && negb (inSet U p) || inUfs g A k p || ff (alit g p) = true).
              { intros p _. unfold inUfs. destruct (ff (alit g p)) eqn:FP; cbn; [rewrite orb_true_r; auto|]. destruct (inSet U p) eqn:MU; cbn; auto. apply mem_In in MU. rewrite (UF2 p MU FP). auto. }
              assert (H2 : forall p, negb (ff p) || ff p = true) by (intros p; destruct (ff p); auto). specialize (G1 H1). specialize (G2 H2). lia. }
        rewrite slack_eq in KEY. unfold bound in KEY. rewrite NB in KEY. unfold goals in KEY. rewrite sumLits_app, sumLits_map in KEY. fold ps es in KEY.
        pose proof (sumPs_3 (fun p => holds M (alit g p) && negb (inSet V p)) (inUfs g A k) (fun p => ff (alit g p) && negb (holds M (alit g p))) ps WP) as G1. pose proof (sumLits_2 (holds M) (fun p => ff p && negb (holds M p)) es WE) as G2.
        assert (H1 : forall p, In p (map fst ps) -> Z.b2z (holds M (alit g p) && negb (inSet V p)) + Z.b2z (inUfs g A k p) + Z.b2z (ff (alit g p) && negb (holds M (alit g p))) <= 1).
        { intros p _. unfold inUfs. destruct (ff (alit g p)) eqn:FP; cbn; [rewrite andb_false_r; destruct (holds M (alit g p)), (inSet V p); cbn; lia|]. rewrite andb_true_r. destruct (k_uf k p) eqn:KU; cbn; [|destruct (_ && _); cbn; lia]. destruct (holds M (alit g p)) eqn:HP'; cbn; [|lia].
          assert (IP : inSet V p = true) by (apply mem_In; apply IV; auto). rewrite IP. cbn. lia. }
        assert (H2 : forall p, holds M p && (ff p && negb (holds M p)) = false) by (intros p; destruct (holds M p), (ff p); auto). specialize (G1 H1). specialize (G2 H2). lia.
      * assert (X : isExt g b = false) by (unfold isExt; rewrite NB; auto). rewrite X in HP. cbn [negb orb] in HP.
        assert (NOV : forall p, In p (preds g b) -> In p U -> ff (alit g p) = true). { intros p IP IU. destruct (ff (alit g p)) eqn:FP; auto. exfalso. unfold preds in IP. apply in_map_iff in IP. destruct IP as ((p', w) & <- & IP). cbn in *. apply (Y3 p' w IP). apply IV. sp; auto. eapply BO; eauto. }
        destruct (ff (blit g b)) eqn:FB.
        -- apply (NF eq_refl). apply HP; auto. right. apply extLoop_c; [lia|]. intros [p w] IP. cbn. unfold inUfs. destruct (k_uf k p) eqn:KU; auto. cbn. apply UF1 in KU. rewrite (NOV p); auto. unfold preds. change p with (fst (p, w)). apply in_map. auto.
        -- destruct (UN y b IY FY Y2 FB) as (_ & UE & _). destruct (UE X) as (p & IP & IU). rewrite (UP b p X IP (NOV p IP IU)) in FB. discriminate.
    + cbn [negb] in HP. rewrite orb_true_r in HP. destruct (ff (blit g b)) eqn:FB.
      * apply (NF eq_refl). apply HP; auto.
      * destruct (UN y b IY FY Y2 FB) as (SS & _). unfold sameScc in SS. apply Nat.eqb_eq in SS. congruence.
Qed.
(** Unfounded sets stay unfounded *)
Lemma unf_mono : forall A' U, subA A A' -> unf g A U -> unf g A' U.
Proof.
  intros A' U SA UN x b IX FX IB FB. assert (NF : forall l, isFalse A' l = false -> ff l = false). { intros l F. destruct (ff l) eqn:E; auto. rewrite (SA l E) in F. discriminate. }
  destruct (UN x b IX (NF _ FX) IB (NF _ FB)) as (U1 & U2 & U3). sp; auto. intros X. specialize (U3 X). eapply Z.le_lt_trans; [|exact U3]. apply sum_le; auto. intros i LI CO. unfold cOut in *. destruct (nth_error (goals g b) i) as [(l, w)|]; [|discriminate]. apply andb_true_iff in CO. destruct CO as [C1 C2]. apply negb_true_iff in C1. rewrite (NF l C1), C2. auto.
Qed.
Lemma unf_pop : forall x U, upClosed g A -> ff (alit g x) = true -> unf g A (x :: U) -> unf g A U.
Proof.
  intros x U UP FX UN y b IY FY IB FB. destruct (UN y b (or_intror IY) FY IB FB) as (U1 & U2 & U3). sp; auto.
  - intros X. destruct (U2 X) as (p & P1 & [<-|P2]); [|exists p; auto]. rewrite (UP b x X P1 FX) in FB. discriminate.
  - intros X. specialize (U3 X). eapply Z.le_lt_trans; [|exact U3]. apply sum_le; auto. intros i LI CO. unfold cOut in *. destruct (nth_error (goals g b) i) as [(l, w)|] eqn:NG; [|discriminate]. apply andb_true_iff in CO. destruct CO as [C1 C2]. rewrite C1. cbn. destruct (nth_error (preds g b) i) as [p|] eqn:NP; auto.
    unfold inSet in *. cbn. destruct (Nat.eqb_spec p x) as [->|D]; auto. destruct (goal_in g b i x NP) as (w' & NG'). rewrite NG in NG'. injection NG' as -> _. rewrite FX in C1. discriminate.
Qed.
End Uf.
