(** From the invariant to assignments. *)
From Coq Require Import List Bool Arith ZArith Lia Permutation Sorted.
From Verif Require Import Base MnModel MnSpec MnProofs MnProofs2 MnProofs3 MnProofs4 MnProofs5 MnProofs6 MzModel MzSpec MzProofs MzProofs2 MzProofs3 MzProofs4 MzProofs5 MzProofs6 MzProofs7.
Import ListNotations.
Open Scope Z_scope.

Section P.
Variable d : data.
Hypothesis DO : DOk d.
Notation n := (numRules d).
Notation len := (length (lits d)).
Notation opt c := (fun j => nth j (c_opt c) 0).

Definition trues (a : asg) : list nat := filter (fun i => holds a (litAt d i)) (seq 0 len).
Lemma sum_seq : forall a j l k, (forall i, (i < length l)%nat -> nth (k + i) (lits d) (lit_true, 0) = nth i l (lit_true, 0)) -> sumOf d l j a = sumI d (filter (fun i => holds a (litAt d i)) (seq k (length l))) j.
Proof.
  intros a j l. induction l as [|x l IH]; intros k H; auto. cbn [sumOf length seq filter]. pose proof (H 0%nat ltac:(cbn; lia)) as H0. rewrite Nat.add_0_r in H0. cbn in H0.
  assert (X : litAt d k = fst x) by (unfold litAt; rewrite H0; auto). rewrite X. rewrite (IH (S k)); [|intros i L; specialize (H (S i) ltac:(cbn; lia)); rewrite Nat.add_succ_comm; exact H].
  destruct (holds a (fst x)); cbn [sumI]; auto. unfold Wt. rewrite H0. auto.
Qed.
Lemma data_sum : forall a j, dataSum d j a = sumI d (trues a) j.
Proof. intros a j. unfold dataSum, trues. change (litsOf (d_lits d)) with (lits d). apply sum_seq. intros i L. auto. Qed.
Lemma trues_in : forall a i, In i (trues a) <-> (i < len)%nat /\ holds a (litAt d i) = true.
Proof. intros a i. unfold trues. rewrite filter_In, in_seq. split; intros [A B]; split; auto; lia. Qed.
Lemma trues_nd : forall a, NoDup (trues a).
Proof. intros a. unfold trues. apply NoDup_filter, seq_NoDup. Qed.
Lemma exceed : forall a l B, NoDup l -> (forall i, In i l -> (i < len)%nat /\ holds a (litAt d i) = true) -> lexGt n (sumI d l) (fun j => nth j B 0) -> exceeds d a B.
Proof.
  intros a l B N H G. unfold exceeds. assert (Q : lexGt n (fun j => sumI d (trues a) j + 0) (fun j => nth j B 0)).
  { apply (sub_gt d DO l (trues a) (fun _ => 0)); auto.
    - apply trues_nd.
    - intros i I. apply trues_in. auto.
    - intros i I. apply trues_in in I. apply I.
    - eapply gt_ext; [|exact G]. intros j _. cbn beta. lia. }
  eapply gt_ext; [|exact Q]. intros j _. cbn beta. rewrite data_sum. lia.
Qed.
Lemma no_exceed : forall a l B, NoDup l -> (forall i, In i l -> (i < len)%nat) -> (forall i, (i < len)%nat -> holds a (litAt d i) = true -> In i l) -> ~ lexGt n (sumI d l) (fun j => nth j B 0) -> ~ exceeds d a B.
Proof.
  intros a l B N R H G X. apply G. unfold exceeds in X. assert (Q : lexGt n (fun j => sumI d l j + 0) (fun j => nth j B 0)).
  { apply (sub_gt d DO (trues a) l (fun _ => 0)); auto.
    - apply trues_nd.
    - intros i I. apply trues_in in I. apply H; apply I.
    - eapply gt_ext; [|exact X]. intros j _. cbn beta. rewrite data_sum. lia. }
  eapply gt_ext; [|exact Q]. intros j _. cbn beta. lia.
Qed.
Lemma var_inj : forall i j, (i < len)%nat -> (j < len)%nat -> fst (litAt d i) = fst (litAt d j) -> i = j.
Proof.
  intros i j I J E. pose proof (d_nd d DO) as N. rewrite NoDup_nth with (d := 0%nat) in N. apply N; try (rewrite map_length; auto).
  transitivity (fst (litAt d i)); [exact (map_nth (fun x : lit * Z => fst (fst x)) (lits d) (lit_true, 0) i)|]. rewrite E. symmetry. exact (map_nth (fun x : lit * Z => fst (fst x)) (lits d) (lit_true, 0) j).
Qed.
(** An assignment with a given set of true literals *)
Definition mk (P : nat -> bool) (f : asg) : asg := fun v => match find (fun j => Nat.eqb (fst (litAt d j)) v) (seq 0 len) with Some j => xorb (P j) (snd (litAt d j)) | None => f v end.
Lemma mk_at : forall P f i, (i < len)%nat -> mk P f (fst (litAt d i)) = xorb (P i) (snd (litAt d i)).
Proof.
  intros P f i L. unfold mk. destruct (find (fun j => Nat.eqb (fst (litAt d j)) (fst (litAt d i))) (seq 0 len)) as [j|] eqn:F.
  - apply find_some in F. destruct F as [F1 F2]. apply in_seq in F1. apply Nat.eqb_eq in F2. assert (j = i) by (apply var_inj; auto; lia). subst. auto.
  - exfalso. pose proof (find_none _ _ F i ltac:(apply in_seq; lia)) as Q. cbn beta in Q. rewrite Nat.eqb_refl in Q. discriminate.
Qed.
Lemma mk_holds : forall P f i, (i < len)%nat -> holds (mk P f) (litAt d i) = P i.
Proof. intros P f i L. unfold holds. rewrite mk_at by auto. destruct (P i), (snd (litAt d i)); auto. Qed.
Lemma true_holds : forall a e x, extends a (pv e) -> valOf e x -> holds a x = true.
Proof. intros a e x E V. destruct (val_ent _ _ V) as [m [A B]]. unfold holds. rewrite (E (fst x) (e_val m)) by (unfold pv; rewrite A; auto). rewrite B. destruct (snd x); auto. Qed.
Lemma agree_holds : forall a e i k, agrees a e k -> valOf e (litAt d i) -> (lv d e i <= k)%nat -> holds a (litAt d i) = true.
Proof. intros a e i k G V L. destruct (val_ent _ _ V) as [m [A B]]. unfold lv, levelOf in L. rewrite A in L. unfold holds. rewrite (G _ m A L). rewrite B. destruct (snd (litAt d i)); auto. Qed.

(** * The recorded bounds *)
Definition Old (e e' : env) (B0 : list Z) : Prop := forall v m stop B, v_asn e' v = Some m -> e_why m = Some (stop, B) -> (exists m0, v_asn e v = Some m0 /\ e_why m0 = Some (stop, B)) \/ B = B0.
Lemma old_trans : forall e1 e2 e3 B, Old e1 e2 B -> Old e2 e3 B -> Old e1 e3 B.
Proof. intros e1 e2 e3 B H1 H2 v m stop B0 A W. destruct (H2 v m stop B0 A W) as [[m0 [A0 W0]]|Q]; auto. apply (H1 v m0); auto. Qed.
Lemma old_asn : forall e e' B, v_asn e' = v_asn e -> Old e e' B.
Proof. intros e e' B E v m stop B0 A W. left. exists m. rewrite E in A. auto. Qed.
Lemma old_undo : forall e c k e' c' B, undoTo d e c k = (e', c') -> Old e e' B.
Proof.
  intros e c k e' c' B E v m stop B0 A W. left. unfold undoTo in E. destruct (undoLevels d (v_dl e - Nat.min k (v_dl e)) (v_dl e) (v_uw e) c) as [uw c1]. inversion E; subst. cbn [v_asn] in A. destruct (cut_some e (Nat.min k (v_dl e)) v m A) as [m0 [M1 [_ [_ [M4 _]]]]]. exists m0. split; congruence.
Qed.
Lemma old_force : forall e p il stop B ok e', force e p il stop B = (ok, e') -> Old e e' B.
Proof.
  intros e p il stop B ok e' F. unfold force in F.
  assert (U : forall m, e_why m = Some (stop, B) -> Old e (Ev (upd (v_asn e) (fst p) (Some m)) (v_dl e) (v_uw e) (v_min e) (v_bt e)) B).
  { intros m W v m1 s1 B1 A W1. cbn [v_asn] in A. unfold upd in A. destruct (Nat.eqb_spec v (fst p)); [inversion A; subst m1; right; congruence|left; exists m1; auto]. }
  destruct (v_asn e (fst p)) as [m|]; [|inversion F; subst; apply U; auto].
  destruct (Bool.eqb (e_val m) (negb (snd p))); [|inversion F; subst; apply old_asn; auto].
  destruct (Nat.eqb il (v_dl e) || Nat.leb (e_lev m) il || Nat.leb (e_eff m) il); inversion F; subst; [apply old_asn; auto|apply U; auto].
Qed.
Lemma pop_opt : forall st c, c_opt (popLoop d st c) = c_opt c.
Proof. induction st as [|[i nd] st IH]; intros c; cbn [popLoop]; auto. destruct (subW d (c_sum c) (wAt d i) (c_act c)). destruct nd; auto. rewrite IH. auto. Qed.
Lemma undo_opt : forall m dl uw c, c_opt (snd (undoLevels d m dl uw c)) = c_opt c.
Proof.
  induction m as [|m IH]; intros dl uw c; cbn [undoLevels]; auto. destruct (existsb (Nat.eqb dl) uw); rewrite IH; auto. unfold undoLevel. destruct (c_posSt c); auto. 
  cbn [c_pos]. match goal with |- context [if ?b then _ else _] => destruct b end; cbn [setAct setPos c_opt]; apply pop_opt.
Qed.
Lemma old_loop : forall newOpt rest idx e c il lw stop r e' c', propLoop d newOpt rest idx e c il lw stop = (r, e', c') -> Old e e' (c_opt c) /\ c_opt c' = c_opt c.
Proof.
  intros newOpt rest. induction rest as [|[x w] rest IH]; intros idx e c il lw stop r e' c' P; cbn [propLoop] in P; [inversion P; subst; split; auto; apply old_asn; auto|].
  destruct (c_seen c idx || negb newOpt && isFalse (pv e) x); [apply (IH _ _ _ _ _ _ _ _ _ P)|].
  destruct (if lw =? w then (true, c_act c) else impW d (c_sum c) w (c_opt c) (c_act c)) as [bb act]. destruct bb; cbn [negb] in P; [|inversion P; subst; split; auto; apply old_asn; auto].
  destruct (if newOpt && negb (lw =? w) then computeImplicationSet d e (setAct c act) w else (il, stop)) as [il1 stop1].
  destruct (negb (isFalse (pv e) x) || Nat.ltb il1 (v_dl e) && Nat.ltb il1 (levelOf e (fst x))); [|destruct (IH _ _ _ _ _ _ _ _ _ P) as [Q1 Q2]; auto].
  destruct (if Nat.eqb il1 (v_dl e) then (e, setAct c act) else undoUntil d e (setAct c act) il1) as [e1 c1] eqn:U.
  assert (Q : Old e e1 (c_opt c) /\ c_opt c1 = c_opt c).
  { destruct (Nat.eqb il1 (v_dl e)); [inversion U; subst; split; auto; apply old_asn; auto|]. split; [eapply old_undo; exact U|]. unfold undoUntil, undoTo in U. pose proof (undo_opt (v_dl e - Nat.min (Nat.max il1 (v_bt e)) (v_dl e)) (v_dl e) (v_uw e) (setAct c act)) as O. destruct (undoLevels d (v_dl e - Nat.min (Nat.max il1 (v_bt e)) (v_dl e)) (v_dl e) (v_uw e) (setAct c act)). inversion U; subst. exact O. }
  destruct Q as [Q1 Q2]. destruct (force e1 (neg x) il1 stop1 (c_opt c1)) as [ok e2] eqn:F. pose proof (old_force _ _ _ _ _ _ _ F) as Q3. rewrite Q2 in Q3. destruct ok.
  - destruct (IH _ _ _ _ _ _ _ _ _ P) as [Q4 Q5]. rewrite Q2 in *. split; auto. apply (old_trans e e2); auto. apply (old_trans e e1); auto.
  - inversion P; subst. split; auto. apply (old_trans e e1); auto.
Qed.
Lemma step_old : forall s s', step d s s' -> Old (t_e s) (t_e s') (c_opt (t_c s')).
Proof.
  intros s s' ST. destruct ST; cbn [t_e t_c].
  - intros v m1 stop B A W. cbn [setAsn v_asn] in A. unfold upd in A. destruct (Nat.eqb_spec v (fst x)); [inversion A; subst m1; discriminate|left; exists m1; auto].
  - apply old_asn. auto.
  - unfold propagate in H3. destruct (pushUndo d e c i) as [e1 c1] eqn:PU. unfold propagateImpl in H3. destruct (old_loop _ _ _ _ _ _ _ _ _ _ _ H3) as [Q1 Q2]. rewrite Q2. apply (old_trans e e1); auto. apply old_asn. unfold pushUndo in PU. destruct (Nat.eqb (lastUndoLevel d e c) (v_dl e)); inversion PU; subst; auto.
  - eapply old_undo. exact H1.
  - eapply old_undo. exact H1.
  - apply old_asn. auto.
  - unfold propagateImpl in H1. destruct (old_loop _ _ _ _ _ _ _ _ _ _ _ H1) as [Q1 Q2]. rewrite Q2. exact Q1.
Qed.
End P.
