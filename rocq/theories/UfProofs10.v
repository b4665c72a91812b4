(** Unfounded set check: all histories *)
From Coq Require Import List Bool Arith ZArith Lia Permutation.
From Verif Require Import Base UfModel UfRun UfSpec UfProofs UfProofs2 UfProofs3 UfProofs4 UfProofs5 UfProofs6 UfProofs7 UfProofs8 UfProofs9.
Import ListNotations.

Section Uf.
Variable g : graph.
Hypothesis W : gwf g.
Notation nA := (nAtoms g).
Variable A0 : pasg.
Definition good (M : asg) : Prop := founded g (holds M) /\ bodiesOk g M /\ extends M A0.
Definition sound (c : list lit) : Prop := forall M, good M -> sat_clause M c = true.
Definition Phase (L : list pasg) (A : pasg) (k : ck) (p : phase) : Prop :=
  match p with
  | Forcing xs => Rest g L A (fun x => In x xs) k /\ (forall y, k_uf k y = false) /\ k_todo k = [] /\ (forall x, In x xs -> sound [neg (alit g x)])
  | Open => Rest g L A none k /\ (forall y, k_uf k y = false)
  | Falsify u r => Rest g L A (fun x => In x u) k /\ (forall y, k_uf k y = true -> In y u) /\ (forall y, In y u -> isFalse A (alit g y) = false -> k_uf k y = true) /\ unf g A u /\ (forall y, In y u -> (y < nA)%nat) /\
      (forall y z, In y u -> In z u -> a_scc (atomOf g y) = a_scc (atomOf g z)) /\ (forall R, r = Some R -> (forall p, In p R -> isFalse A p = true) /\ forall y, In y u -> isFalse A (alit g y) = false -> sound (neg (alit g y) :: R))
  | Fix => Rest g L A none k /\ k_todo k = [] /\ k_inv k = [] /\ (forall y, k_uf k y = false)
  | Conf => Rest g L A (fun _ => True) k /\ k_todo k = [] /\ (forall y, k_uf k y = false)
  end.
Definition chain (L : list pasg) : Prop := forall L1 B L2, L = L1 ++ B :: L2 -> forall C, In C L2 -> subA C B.
Definition Inv (s : st) : Prop := chain (s_cur s :: s_lev s) /\ Phase (s_lev s) (s_cur s) (s_k s) (s_ph s) /\ forall c, In c (s_ng s) -> sound c.
Lemma chain_cur : forall A L, chain (A :: L) -> forall B, In B L -> subA B A.
Proof. intros A L C B IB. apply (C [] A L eq_refl B IB). Qed.
Lemma chain_assign : forall A A' L, chain (A :: L) -> subA A A' -> chain (A' :: L).
Proof.
  intros A A' L C S1 L1 B L2 E D ID. destruct L1 as [|X L1]; cbn in E; injection E as E1 E2.
  - subst. intros l F. apply S1. apply (chain_cur A L2 C D ID). auto.
  - subst. apply (C (A :: L1) B L2); auto.
Qed.
Lemma chain_back : forall A L1 B L2, chain (A :: L1 ++ B :: L2) -> chain (B :: L2).
Proof. intros A L1 B L2 C M1 X M2 E. apply (C (A :: L1 ++ M1) X M2). rewrite E. cbn. rewrite <- app_assoc. auto. Qed.
Lemma chain_level : forall A L, chain (A :: L) -> chain (A :: A :: L).
Proof.
  intros A L C L1 B L2 E D ID. destruct L1 as [|X L1]; cbn in E; injection E as E1 E2.
  - subst. destruct ID as [<-|ID]; [intros l F; auto|]. apply (chain_cur _ L C D ID).
  - apply (C L1 B L2); auto.
Qed.
Lemma neg_sat : forall M l, holds M l = false -> holds M (neg l) = true.
Proof. intros M [v []]; unfold holds, neg; cbn; destruct (M v); cbn; auto; discriminate. Qed.
Lemma phase_assign : forall L A k p l A' k', p <> Conf -> Phase L A k p -> assigned g A k l A' k' -> Phase L A' k' (afterAssign p) /\ subA A A'.
Proof.
  intros L A k p l A' k' NC PH AS. assert (NF : forall S2 : subA A A', forall q, isFalse A' q = false -> isFalse A q = false). { intros S2 q F. destruct (isFalse A q) eqn:E; auto. rewrite (S2 q E) in F. discriminate. }
  destruct p as [xs| |u r| |]; cbn in PH; cbn [afterAssign Phase]; try contradiction.
  - destruct PH as (R & UF & TD & SO). destruct (rest_assign g W _ _ _ _ _ _ _ R AS) as (R' & U' & S' & V'). destruct AS. sp; auto.
  - destruct PH as (R & UF). destruct (rest_assign g W _ _ _ _ _ _ _ R AS) as (R' & U' & S' & V'). sp; auto. rewrite U'. auto.
  - destruct PH as (R & U1 & U2 & U3 & U4 & U5 & U6). destruct (rest_assign g W _ _ _ _ _ _ _ R AS) as (R' & U' & S' & V'). specialize (NF S'). rewrite U'. sp; auto.
    + apply (unf_mono g W A); auto.
    + intros R0 E. destruct (U6 R0 E) as [Y1 Y2]. split; auto.
  - destruct PH as (R & TD & IV & UF). destruct (rest_assign g W _ _ _ _ _ _ _ R AS) as (R' & U' & S' & V'). sp; auto. rewrite U'. auto.
Qed.
Lemma reason_false : forall A k U p, In p (computeReason g A k U) -> isFalse A p = true.
Proof.
  intros A k U. destruct U as [|x0 U0] eqn:EU; [intros p []|]. rewrite <- EU.
  assert (RE : computeReason g A k U = snd (fold_left (fun s x => if isFalse A (alit g x) then s else fold_left (addIfReason g A k (a_scc (atomOf g x0))) (a_bodies (atomOf g x)) s) U ([], []))) by (rewrite EU; reflexivity). rewrite RE. clear RE EU.
  set (ok := fun r : list lit => forall p, In p r -> isFalse A p = true). assert (AR : forall r p, ok r -> isFalse A p = true -> ok (addReasonLit r p)). { intros r p O F q Q. unfold addReasonLit in Q. destruct (existsb _ r); auto. apply in_app_or in Q. destruct Q as [|[<-|[]]]; auto. }
  assert (AF : forall gs s r, ok r -> ok (addFalse A gs s r)). { induction gs as [|[p w] gs IH]; intros s r O; cbn; auto. destruct (isFalse A p) eqn:F; cbn; auto. destruct (0 <=? s)%Z; auto. }
  assert (AI : forall u s b, ok (snd s) -> ok (snd (addIfReason g A k u s b))). { intros u [pk r] b O. cbn in O. unfold addIfReason. destruct (_ || _). destruct (isFalse A (blit g b)) eqn:F; cbn; auto. destruct (_ && _); cbn; auto. destruct (negb _); cbn; auto. destruct (0 <=? _)%Z; auto. destruct (isFalse A (blit g b)) eqn:F; auto. }
  assert (AB : forall u bs s, ok (snd s) -> ok (snd (fold_left (addIfReason g A k u) bs s))). { intros u. induction bs as [|b bs IH]; intros s O; cbn; auto. }
  assert (AX : forall u us s, ok (snd s) -> ok (snd (fold_left (fun s x => if isFalse A (alit g x) then s else fold_left (addIfReason g A k u) (a_bodies (atomOf g x)) s) us s))). { intros u. induction us as [|x us IH]; intros s O; cbn; auto. apply IH. destruct (isFalse A (alit g x)); auto. }
  apply AX. intros p [].
Qed.
Lemma compute_sound : forall L A k u r, Phase L A k (Falsify u r) -> upClosed g A -> forall y, In y u -> isFalse A (alit g y) = false -> sound (neg (alit g y) :: computeReason g A k u).
Proof.
  intros L A k u r (R & U1 & U2 & U3 & U4 & U5 & U6) UP y IY FY M (FO & BO & EX). unfold sat_clause. cbn [existsb]. destruct (existsb (holds M) (computeReason g A k u)) eqn:E; [apply orb_true_r|]. rewrite orb_false_r. apply neg_sat.
  apply (reason_sound g W A k u M); auto. intros p Ip. destruct (holds M p) eqn:H; auto. enough (existsb (holds M) (computeReason g A k u) = true) by congruence. apply existsb_exists. eauto.
Qed.
Lemma true_nf : forall A l, isTrue A l = true -> isFalse A l = false.
Proof. intros A l. unfold isTrue, isFalse. destruct (pval A l) as [[]|]; auto. Qed.
Lemma none_nf : forall A l, A (fst l) = None -> isFalse A l = false.
Proof. intros A l E. unfold isFalse, pval. rewrite E. auto. Qed.
Lemma assigned_free : forall A k l A' k', assigned g A k (neg l) A' k' -> isFalse A l = false.
Proof. intros A k l A' k' AS. destruct AS. apply none_nf. destruct l; auto. Qed.
Lemma reasonFor_sound : forall distinct L A k u r, Phase L A k (Falsify u r) -> upClosed g A -> (forall y, In y u -> isFalse A (alit g y) = false -> sound (neg (alit g y) :: reasonFor g distinct A k u r)) /\ (forall p, In p (reasonFor g distinct A k u r) -> isFalse A p = true).
Proof.
  intros ds L A k u r PH UP. pose proof (compute_sound _ _ _ _ _ PH UP) as CS. pose proof (reason_false A k u) as CF. unfold reasonFor. destruct r as [R|]; auto. destruct ds; auto. destruct PH as (_ & _ & _ & _ & _ & _ & U6). destruct (U6 R eq_refl). auto.
Qed.
Lemma phase_conf : forall L A k p, p <> Conf -> Phase L A k p -> Phase L A (giveUp p k) Conf.
Proof.
  intros L A k p NC PH. destruct p as [xs| |u r| |]; cbn in PH; try contradiction.
  - destruct PH as (R & UF & _). apply (rest_giveUp g L A _ k (Forcing xs) R UF).
  - destruct PH as (R & UF). apply (rest_giveUp g L A _ k Open R UF).
  - destruct PH as (R & UF & _). apply (rest_giveUp g L A _ k (Falsify u r) R UF).
  - destruct PH as (R & _ & _ & UF). apply (rest_giveUp g L A _ k Fix R UF).
Qed.
Lemma phase_rest : forall L A k p, Phase L A k p -> exists H, Rest g L A H k.
Proof. intros L A k p PH. destruct p; cbn in PH; [eexists; apply PH ..]. Qed.
Lemma step_inv : forall distinct s t, Inv s -> step g distinct s t -> Inv t.
Proof.
  intros ds s t (CH & PH & NG) ST. destruct ST as [L A k p n l A' k' NC AS|L A k x xs n FX|L A k x xs n TX|L A k x xs n A' k' AS|L A k n|L A k n k' UP E|L A k n x u k' UP E|L A k x u r n UP FX|L A k x u r n A' k' UP AS|L A k x u r n UP TX|L A k r n|L A k p n NC|L A k n|L1 B L2 A k p n PP];
    unfold Inv in *; cbn [s_cur s_lev s_k s_ph s_ng] in *.
  - destruct (phase_assign _ _ _ _ _ _ _ NC PH AS) as [P S1]. sp; auto. eapply chain_assign; eauto.
  - sp; auto. cbn in *. destruct PH as (R & UF & TD & SO). sp; auto. eapply rest_H; [exact R|]. cbn. intros y _ FY [<-|Y]; auto. congruence.
  - destruct PH as (R & UF & TD & SO). sp; auto.
    + cbn. sp; auto. eapply rest_H; [exact R|]. auto.
    + intros c [<-|I]; auto. apply SO. left. auto.
  - assert (NC : Forcing (x :: xs) <> Conf) by discriminate. destruct (phase_assign _ _ _ _ _ _ _ NC PH AS) as [P S1]. sp.
    + eapply chain_assign; eauto.
    + cbn in *. destruct P as (R & UF & TD & SO). sp; auto. eapply rest_H; [exact R|]. cbn. intros y _ FY [<-|Y]; auto. destruct AS as [evs AN PE]. exfalso. revert FY. unfold isFalse, pval, assign. destruct (alit g x) as [v sg]. cbn. rewrite Nat.eqb_refl. destruct sg; discriminate.
    + intros c [<-|I]; auto. destruct PH as (_ & _ & _ & SO). apply SO. left. auto.
  - sp; auto. cbn in *. destruct PH as (R & UF & TD & SO). sp; auto.
  - cbn in PH. destruct PH as (R & UF). destruct (findUfs_ok g W L A k (chain_cur _ _ CH) R UF) as (U & k2 & F1 & F2 & F3 & F4 & F5 & F6 & F7 & F8). rewrite E in F1. injection F1 as <- <-. sp; auto. cbn. sp; auto.
    intros y. destruct (k_uf k' y) eqn:Y; auto. apply F4 in Y. destruct Y.
  - cbn in PH. destruct PH as (R & UF). destruct (findUfs_ok g W L A k (chain_cur _ _ CH) R UF) as (U & k2 & F1 & F2 & F3 & F4 & F5 & F6 & F7 & F8). rewrite E in F1. injection F1 as <- <-. sp; auto. cbn [Phase]. sp; auto.
    + intros y Y. apply F4. auto.
    + intros y Y _. apply F4. auto.
    + intros y Y. apply F5. auto.
    + intros R0 D. discriminate D.
  - sp; auto. cbn [Phase] in *. destruct PH as (R & U1 & U2 & U3 & U4 & U5 & U6). sp.
    + eapply rest_uf with (k := k); try reflexivity. eapply rest_H; [exact R|]. cbn. intros y _ FY [<-|Y]; auto. congruence.
    + cbn. unfold upd. intros y. destruct (Nat.eqb_spec y x) as [->|D]; [discriminate|]. intros Y. destruct (U1 y Y); auto. congruence.
    + cbn. unfold upd. intros y IY FY. destruct (Nat.eqb_spec y x) as [->|D]; [congruence|]. apply U2; auto. right. auto.
    + eapply unf_pop; eauto.
    + intros y Y. apply U4. right. auto.
    + intros y z Y Z0. apply U5; right; auto.
    + intros R0 E. destruct (U6 R0 E) as [Y1 Y2]. split; auto. intros y Y. apply Y2. right. auto.
  - destruct (reasonFor_sound ds _ _ _ _ _ PH UP) as [RS RF]. assert (NC : Falsify (x :: u) r <> Conf) by discriminate. destruct (phase_assign _ _ _ _ _ _ _ NC PH AS) as [P S1]. sp.
    + eapply chain_assign; eauto.
    + cbn [Phase afterAssign] in *. destruct P as (R & U1 & U2 & U3 & U4 & U5 & U6). sp; auto. intros R0 E. injection E as <-. split; auto. intros y Y FY. apply RS; auto. destruct (isFalse A (alit g y)) eqn:F; auto. rewrite (S1 _ F) in FY. discriminate.
    + intros c [<-|I]; auto. apply RS; [left; auto|]. eapply assigned_free; eauto.
  - sp; auto.
    + apply phase_conf; auto. discriminate.
    + intros c [<-|I]; auto. eapply compute_sound; eauto. left. auto. apply true_nf. auto.
  - sp; auto. cbn in *. destruct PH as (R & U1 & _). sp; auto. intros y. destruct (k_uf k y) eqn:Y; auto. destruct (U1 y Y).
  - sp; auto. apply phase_conf; auto.
  - destruct PH as (R & TD & IV & UF). sp; auto. apply chain_level; auto. cbn. sp; auto. apply rest_level; auto.
  - assert (R : (exists H, Rest g (L1 ++ B :: L2) A H k) /\ k_todo k = [] /\ forall y, k_uf k y = false). { destruct PP; subst p; cbn in PH; destruct PH as (R & TD & UF); sp; eauto. destruct UF; auto. }
    destruct R as ((H & R) & TD & UF). sp; auto. eapply chain_back; eauto. cbn. sp; auto. eapply rest_back; eauto.
Qed.
Lemma start_inv : exists s, start g A0 = Ok s /\ Inv s /\ s_cur s = A0.
Proof.
  unfold start. destruct (init_ok g W A0) as (k & E & IK). rewrite E. cbn [bind]. eexists. split; [reflexivity|]. split; auto. unfold Inv. cbn. sp; auto.
  - intros L1 B L2 EL C IC. destruct L1 as [|X L1]; injection EL as _ EL; [subst; destruct IC|]. destruct L1; discriminate.
  - apply (o_rest g A0 k IK).
  - apply (o_uf g A0 k IK).
  - destruct (o_rest g A0 k IK) as [_ _ _]. unfold init in E. pose proof (in_all g W A0 _ (le_n _)) as [N1 (N2 & N3 & N4 & N5) N6 N7 N8]. set (k0 := fold_left _ _ _) in *. clearbody k0.
    destruct (propAdd_ap g W [] A0 (subNil A0) any (length (g_bodies g)) any k0 (S nA) nA k0 F0 eq_refl N1 (Nat.le_succ_diag_r _)) as (k' & E' & P1 & P2 & P3). unfold propagateSource in E. rewrite P1 in E. injection E as <-. rewrite (g_todo _ _ _ _ (p_fr _ _ _ _ _ _ _ _ _ _ _ _ P2)). auto.
  - intros x IX M (FO & BO & EX). cbn. rewrite orb_false_r. apply neg_sat. unfold unsourced in IX. apply filter_In in IX. destruct IX as [I1 I2]. apply in_seq in I1. apply negb_true_iff in I2. apply (init_sound g W A0 k M); auto; [|lia].
    intros l F. unfold isFalse, pval in F. unfold holds. destruct l as [v sg]. cbn in *. destruct (A0 v) as [b|] eqn:AV; [|discriminate]. rewrite (EX v b AV). destruct b, sg; cbn in *; congruence.
  - intros c [].
Qed.
Lemma steps_inv : forall distinct s t, Inv s -> steps g distinct s t -> Inv t.
Proof. intros ds s t I ST. induction ST; [exact I|]. eapply step_inv; [apply IHST; exact I|eassumption]. Qed.
(** The sets found are unfounded *)
Lemma unf_external : forall A U x b, unf g A U -> In x U -> isFalse A (alit g x) = false -> In b (a_bodies (atomOf g x)) -> ~ external g (notFalse A) U b x.
Proof.
  intros A U x b UN IX FX IB [HB EX]. unfold notFalse in HB. apply negb_true_iff in HB. destruct (UN x b IX FX IB HB) as (SS & U1 & U2). unfold sameScc in SS. apply Nat.eqb_eq in SS. specialize (EX SS). destruct (n_bound (bodyOf g b)) as [bd|] eqn:NB.
  - assert (X : isExt g b = true) by (unfold isExt; rewrite NB; auto). specialize (U2 X). unfold bound in U2. rewrite NB in U2. rewrite <- sum_split in EX. unfold notFalse in EX. unfold cOut in U2. lia.
  - assert (X : isExt g b = false) by (unfold isExt; rewrite NB; auto). destruct (U1 X) as (p & P1 & P2). unfold preds in P1. apply in_map_iff in P1. destruct P1 as ((p', w) & <- & P1). apply (EX p' w P1). auto.
Qed.
End Uf.
