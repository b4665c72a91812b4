(** The propagation loop. *)
From Coq Require Import List Bool Arith ZArith Lia Permutation Sorted.
From Verif Require Import Base MnModel MnSpec MnProofs MnProofs2 MnProofs3 MnProofs4 MnProofs5 MnProofs6 MzModel MzProofs MzProofs2 MzProofs3 MzProofs4.
Import ListNotations.
Open Scope Z_scope.

Section P.
Variable d : data.
Hypothesis DO : DOk d.
Notation n := (numRules d).
Notation len := (length (lits d)).
Notation opt c := (fun j => nth j (c_opt c) 0).

Lemma lev_mono : forall i j, (i <= j < len)%nat -> (levelAt d i <= levelAt d j)%nat.
Proof.
  intros i j L. destruct (Nat.le_gt_cases (levelAt d i) (levelAt d j)) as [Q|Q]; auto. exfalso. apply (d_sort d DO i j L). exists (levelAt d j). sp.
  - apply (d_lev d DO). lia.
  - intros k K. rewrite !(d_low d DO) by lia. auto.
  - rewrite (d_low d DO i) by lia. apply (d_high d DO). lia.
Qed.
Lemma skipn_cons : forall (A : Type) i (l : list A) x, (i < length l)%nat -> skipn i l = nth i l x :: skipn (S i) l.
Proof. induction i as [|i IH]; intros [|y l] x L; cbn in L; try lia; auto. cbn [skipn nth]. rewrite (IH l x) by lia. auto. Qed.
Lemma val_false : forall e x, isFalse (pv e) x = true -> exists m, v_asn e (fst x) = Some m /\ e_val m = snd x.
Proof. intros e x V. unfold isFalse, pval, pv in V. destruct (v_asn e (fst x)) as [m|]; [|discriminate]. exists m. split; auto. cbn in V. destruct (e_val m), (snd x); cbn in *; congruence. Qed.
Lemma false_val : forall e x k, falseAt e x k -> isFalse (pv e) x = true.
Proof. intros e x k [m [A [B _]]]. unfold isFalse, pval, pv. rewrite A. cbn. rewrite B. destruct (snd x); reflexivity. Qed.
Lemma true_not_false : forall e x k, valOf e x -> falseAt e x k -> False.
Proof. intros e x k V [m [A [B _]]]. destruct (val_ent _ _ V) as [m' [A' B']]. assert (m = m') by congruence. subst. rewrite B in B'. destruct (snd x); discriminate. Qed.
Lemma false_mono : forall e x k l, falseAt e x k -> (k <= l)%nat -> falseAt e x l.
Proof. intros e x k l [m [A [B C]]] L. exists m. sp; auto. lia. Qed.
Lemma inv_act : forall e c b a, Inv d e c b -> (a < n)%nat -> eqUpTo a (c_sum c) (c_opt c) -> Inv d e (setAct c a) b.
Proof.
  intros e c b a I A E. destruct I as [C LV W B]. constructor; auto. constructor; unfold setAct, idxs; cbn [c_opt c_sum c_undo c_posSt c_seen c_pos c_act]; auto; try apply C.
Qed.
Lemma inv_pos : forall e c b p, Inv d e c b -> (p <= len)%nat -> (forall j, (j < p)%nat -> In j (idxs c) \/ falseAt e (litAt d j) (Nat.max (topLev d e (c_undo c)) b)) -> Inv d e (setPos c p) b.
Proof.
  intros e c b p I A E. destruct I as [C LV W B]. constructor; auto. constructor; unfold setPos, idxs; cbn [c_opt c_sum c_undo c_posSt c_seen c_pos c_act]; auto; try apply C.
Qed.
Lemma idx_lv : forall e c b i, Inv d e c b -> In i (idxs c) -> (lv d e i <= v_dl e)%nat.
Proof. intros e c b i I X. pose proof (uok_top d e b _ _ _ i (i_uok _ _ _ _ _ (n_ci _ _ _ _ I)) X). pose proof (inv_top d e c b I). lia. Qed.
Lemma sum_gt : forall e c b g, Inv d e c b -> (lexGt n (fun j => nth j (c_sum c) 0 + g j) (opt c) <-> lexGt n (fun j => sumI d (idxs c) j + g j) (opt c)).
Proof. intros e c b g I. split; apply lex_ext; intros j J; rewrite (i_sum _ _ _ _ _ (n_ci _ _ _ _ I)); lia. Qed.
(** If a literal does not exceed the bound then the literals behind it do not either. *)
Lemma rest_ok : forall e c b i j, Inv d e c b -> (i <= j < len)%nat -> ~ lexGt n (fun k => sumI d (idxs c) k + Wt d i k) (opt c) -> ~ lexGt n (fun k => sumI d (idxs c) k + Wt d j k) (opt c).
Proof. intros e c b i j I L N G. apply N. apply (le_gt d (sumI d (idxs c)) (Wt d j) (Wt d i)); auto. apply (d_sort d DO); auto. Qed.
Lemma tight_ok : forall e c b i k, Inv d e c b -> ~ lexGt n (fun k => sumI d (idxs c) k + Wt d i k) (opt c) -> TightI d e c k i.
Proof.
  intros e c b i k I N _ G. exfalso. apply N. pose proof (sk_mono d DO e c b k (Nat.max k (v_dl e)) (Wt d i) (opt c) I ltac:(lia) G) as Q. eapply gt_ext; [|exact Q]. intros j _. cbn beta. rewrite (sk_all d e c b); auto. lia.
Qed.

Lemma loop_sum : forall rest idx e c b lastW r e' c', rest = skipn idx (lits d) -> (idx <= len)%nat -> Inv d e c b -> topLev d e (c_undo c) = v_dl e ->
  (forall j, (j < idx)%nat -> In j (idxs c) \/ falseAt e (litAt d j) (v_dl e)) -> ((idx < len)%nat -> (c_act c <= levelAt d idx)%nat) ->
  (0 <= lastW -> exists i, (i < len)%nat /\ wAt d i = lastW /\ lexGt n (fun j => sumI d (idxs c) j + Wt d i j) (opt c)) ->
  propLoop d false rest idx e c (v_dl e) lastW (length (c_undo c)) = (r, e', c') ->
  Ext e e' /\ Inv d e' c' b /\ c_opt c' = c_opt c /\ c_undo c' = c_undo c /\
  (if r then forall i, (i < len)%nat -> TightI d e' c' (v_dl e) i else exists i, (i < len)%nat /\ valOf e' (litAt d i) /\ ~ In i (idxs c') /\ lexGt n (fun j => sumI d (idxs c') j + Wt d i j) (opt c')).
Proof.
  intros rest. induction rest as [|[x w] rest IH]; intros idx e c b lastW r e' c' RE IL I TP DN AL LW P; cbn [propLoop] in P.
  - inversion P; subst. sp; auto; [apply ext_refl|]. intros i L X G. assert (idx = len). { apply f_equal with (f := @length _) in RE. rewrite skipn_length in RE. cbn in RE. lia. }
    destruct (DN i ltac:(lia)) as [Q|Q]; auto. specialize (X Q). pose proof (idx_lv _ _ _ _ I Q). lia.
  - assert (LT : (idx < len)%nat). { destruct (Nat.eq_dec idx len); [|lia]. subst. rewrite skipn_all in RE. discriminate. }
    rewrite (skipn_cons _ idx (lits d) (lit_true, 0) LT) in RE. inversion RE as [[RE1 RE2]]. specialize (AL LT).
    assert (X1 : x = litAt d idx) by (unfold litAt; rewrite <- RE1; auto). assert (X2 : w = wAt d idx) by (unfold wAt; rewrite <- RE1; auto). clear RE RE1.
    assert (ALN : forall a, (a <= levelAt d idx)%nat -> (S idx < len)%nat -> (a <= levelAt d (S idx))%nat) by (intros a Q R; pose proof (lev_mono idx (S idx) ltac:(lia)); lia).
    destruct (c_seen c idx || (negb false && isFalse (pv e) x)) eqn:SK.
    + apply (IH (S idx) e c b lastW r e' c'); auto; try lia. intros j J. destruct (Nat.eq_dec j idx) as [->|NE]; [|apply DN; lia].
      apply orb_prop in SK. destruct SK as [SK|SK]; [left; apply (i_seen _ _ _ _ _ (n_ci _ _ _ _ I)); auto|]. right. cbn in SK. rewrite X1 in SK. destruct (val_false _ _ SK) as [m [A B]]. pose proof (n_lev _ _ _ _ I _ _ A). exists m. sp; auto. lia.
    + apply orb_false_elim in SK. destruct SK as [SK1 SK2]. cbn [negb andb] in SK2.
      assert (NS : ~ In idx (idxs c)) by (intros Q; apply (i_seen _ _ _ _ _ (n_ci _ _ _ _ I)) in Q; congruence).
      remember (if lastW =? w then (true, c_act c) else impW d (c_sum c) w (c_opt c) (c_act c)) as ba eqn:BA. destruct ba as [bb act].
      assert (BB : (bb = true <-> lexGt n (fun j => sumI d (idxs c) j + Wt d idx j) (opt c)) /\ (act <= levelAt d idx)%nat /\ eqUpTo act (c_sum c) (c_opt c)).
      { destruct (Z.eqb_spec lastW w) as [E|E].
        - inversion BA; subst bb act. sp; auto; [|apply (i_eq _ _ _ _ _ (n_ci _ _ _ _ I))]. split; auto. intros _. destruct (LW ltac:(rewrite E, X2; apply (d_wnn d DO); auto)) as [i [L1 [L2 L3]]]. eapply gt_ext; [|exact L3]. intros j _. cbn beta. rewrite (d_same d DO i idx); auto. congruence.
        - rewrite X2 in BA. destruct (imp_at d DO idx LT (c_sum c) (c_opt c) (c_act c) AL (i_eq _ _ _ _ _ (n_ci _ _ _ _ I))) as [Q1 [Q2 Q3]]. rewrite <- BA in *. cbn [fst snd] in *. sp; auto. rewrite Q1. apply (sum_gt e c b); auto. }
      destruct BB as [B1 [B2 B3]]. pose proof (d_lev d DO idx ltac:(lia)) as LN. assert (I1 : Inv d e (setAct c act) b) by (apply inv_act; auto; lia).
      destruct bb; cbn [negb] in P.
      * cbn [andb] in P. rewrite SK2 in P. cbn [negb orb] in P. rewrite Nat.eqb_refl in P. cbv zeta in P. rewrite X1 in P.
        destruct (force e (neg (litAt d idx)) (v_dl e) (length (c_undo c)) (c_opt (setAct c act))) as [ok e1] eqn:F. 
        assert (GT : lexGt n (fun j => sumI d (idxs c) j + Wt d idx j) (opt c)) by (apply B1; auto).
        pose proof (force_spec d e (setAct c act) b idx (v_dl e) (length (c_undo c)) e1 ok I1 LT ltac:(lia) ltac:(cbn; lia)) as FS. cbn [setAct c_undo c_opt] in FS. rewrite (bottom_all (nat * bool)%type) in FS.
        specialize (FS ltac:(intros u U; apply (idx_lv e c b); auto) GT F). destruct ok.
        -- destruct FS as [X [I2 FA]].
           rewrite <- (x_dl _ _ X) in P. change (length (c_undo c)) with (length (c_undo (setAct c act))) in P.
           destruct (IH (S idx) e1 (setAct c act) b w r e' c' RE2 ltac:(lia) I2) as [Y [I3 [O3 [U3 R3]]]]; auto.
           ++ rewrite (x_dl _ _ X). cbn [setAct c_undo]. rewrite (ext_top d e e1); auto. intros i Q. apply (i_in _ _ _ _ _ (n_ci _ _ _ _ I) i Q).
           ++ intros j J. rewrite (x_dl _ _ X). destruct (Nat.eq_dec j idx) as [->|NE]; [right; auto|]. destruct (DN j ltac:(lia)) as [Q|Q]; auto. right. apply (ext_false e e1); auto.
           ++ intros _. exists idx. sp; auto.
           ++ sp; auto; [|destruct r; auto; rewrite (x_dl _ _ X) in R3; auto].
              destruct X as [X1' X2' X3' X4' X5'], Y as [Y1 Y2 Y3 Y4 Y5]. constructor; try congruence. intros v m A. destruct (X5' v m A) as [m' [M1 [M2 [M3 M4]]]]. destruct (Y5 v m' M1) as [m'' [N1 [N2 [N3 N4]]]]. exists m''. sp; auto; try congruence. lia.
        -- destruct FS as [-> V]. inversion P; subst. sp; auto; [apply ext_refl|]. exists idx. sp; auto.
      * inversion P; subst. assert (NG : ~ lexGt n (fun j => sumI d (idxs c) j + Wt d idx j) (opt c)) by (intros Q; apply B1 in Q; discriminate).
        assert (I2 : Inv d e' (setPos (setAct c act) idx) b).
        { apply inv_pos; auto; try lia. intros j J. cbn [setAct c_undo]. rewrite TP. destruct (DN j J) as [Q|Q]; auto. right. apply (false_mono _ _ _ _ Q). lia. }
        sp; auto; [apply ext_refl|]. intros i L. destruct (Nat.le_gt_cases idx i) as [Q|Q].
        -- apply (tight_ok e' _ b); auto. change (idxs (setPos (setAct c act) idx)) with (idxs c). cbn [setPos setAct c_opt]. apply (rest_ok e' c b idx); auto.
        -- intros X G. destruct (DN i Q) as [R|R]; auto. specialize (X R). pose proof (idx_lv _ _ _ _ I R). lia.
Qed.
End P.
