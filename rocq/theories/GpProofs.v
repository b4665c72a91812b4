From Coq Require Import List Bool Arith Lia.
From Verif Require Import Base ImModel ImSpec ImProofs GpModel GpSpec.
Import ListNotations.
Ltac sp := repeat match goal with |- _ /\ _ => split end.

(** * Flipped literals stay in the list of implied literals *)
Definition cover (s : st) (q : lit) (l : nat) : Prop := exists e, In e (t_il s) /\ e_lit e = q /\ e_lev e <= l /\ (e_lev e = l -> e_null e = true).
Definition cov (k : nat) (s s' : st) : Prop := forall q l, l <= k -> cover s q l -> cover s' q l.
Lemma cov_refl : forall k s s', t_il s' = t_il s -> cov k s s'.
Proof. intros k s s' E q l _ [e [A B]]. exists e. rewrite E. auto. Qed.
Lemma cov_trans : forall k s s' s'', cov k s s' -> cov k s' s'' -> cov k s s''.
Proof. intros k s s' s'' A B q l L C. auto. Qed.
(** decisions are only removed from the end *)
Definition cuts (s s' : st) : Prop := exists n, t_dec s' = firstn n (t_dec s).
Lemma cuts_refl : forall s s', t_dec s' = t_dec s -> cuts s s'.
Proof. intros s s' E. exists (length (t_dec s)). rewrite firstn_all. auto. Qed.
Lemma cuts_trans : forall s s' s'', cuts s s' -> cuts s' s'' -> cuts s s''.
Proof. intros s s' s'' [n A] [m B]. exists (Nat.min m n). rewrite B, A, firstn_firstn. auto. Qed.
Lemma cuts_DL : forall s s', cuts s s' -> DL s' <= DL s.
Proof. intros s s' [n A]. unfold DL. rewrite A, firstn_length. lia. Qed.

Lemma force1_il : forall s p, t_il (fst (force1 s p)) = t_il s /\ t_dec (fst (force1 s p)) = t_dec s.
Proof. intros s p. unfold force1. destruct (isT s p); auto. destruct (isT s (neg p)); auto. Qed.
Lemma il_loop_kept : forall es s ok, snd (il_loop s ok es) = filter (fun e => (e_lev e <=? DL s) && ((e_lev e <? DL s) || e_null e)) es /\
  t_il (fst (il_loop s ok es)) = t_il s /\ t_dec (fst (il_loop s ok es)) = t_dec s.
Proof.
  induction es as [|e es IH]; intros s ok; cbn [il_loop filter]; [auto|]. destruct (Nat.leb_spec (e_lev e) (DL s)) as [L|L]; cbn [andb].
  - destruct (if ok then force1 s (e_lit e) else (s, false)) as [s1 ok1] eqn:E.
    assert (F : t_il s1 = t_il s /\ t_dec s1 = t_dec s). { destruct ok; [|injection E as <- _; auto]. pose proof (force1_il s (e_lit e)) as F. rewrite E in F. exact F. }
    destruct F as [F1 F2]. destruct (IH s1 ok1) as [A [B C]]. destruct (il_loop s1 ok1 es) as [s2 k]. cbn [fst snd] in *. unfold DL in *. rewrite F2 in A. subst k. rewrite B, C, F1, F2.
    destruct ((e_lev e <? length (t_dec s)) || e_null e); auto.
  - apply IH.
Qed.
Lemma il_assign_cov : forall k s, k <= DL s -> cov k s (il_assign s) /\ t_dec (il_assign s) = t_dec s.
Proof.
  intros k s K. unfold il_assign. destruct (il_loop_kept (skipn (t_front s) (t_il s)) s (negb (hasConflict s))) as [A [B C]].
  destruct (il_loop s (negb (hasConflict s)) (skipn (t_front s) (t_il s))) as [s1 kp]. cbn [fst snd] in *. cbn [set_il t_dec]. split; auto.
  intros q l L [e [E1 [E2 [E3 E4]]]]. exists e. sp; auto. cbn [set_il t_il]. rewrite <- (firstn_skipn (t_front s) (t_il s)) in E1. apply in_app_or in E1. apply in_or_app. destruct E1 as [E1|E1]; auto. right. subst kp. apply filter_In. split; auto.
  apply andb_true_iff. split; [apply Nat.leb_le; lia|]. apply orb_true_iff. destruct (Nat.eq_dec (e_lev e) (DL s)) as [X|X]; [right; apply E4; lia|left; apply Nat.ltb_lt; lia].
Qed.
Lemma undoImpl_cov : forall k s l, cov k s (undoImpl s l) /\ cuts s (undoImpl s l).
Proof.
  intros k s l. unfold undoImpl. destruct (DL s <=? Nat.max l (t_flip s)); split; [apply cov_refl|apply cuts_refl|apply cov_refl|]; auto. eexists. reflexivity.
Qed.
Lemma undo2_cov : forall k s l m, k <= DL (undo2 s l m) -> cov k s (undo2 s l m) /\ cuts s (undo2 s l m).
Proof.
  intros k s l m. unfold undo2. set (s1 := if _ && _ then _ else _). assert (E1 : t_il s1 = t_il s /\ t_dec s1 = t_dec s) by (unfold s1; destruct (_ && _); auto). destruct E1 as [E1 E2].
  destruct (undoImpl_cov k s1 l) as [C1 C2]. set (s2 := undoImpl s1 l) in *.
  assert (C3 : cov k s s2) by (eapply cov_trans; [apply cov_refl; exact E1|exact C1]). assert (C4 : cuts s s2) by (eapply cuts_trans; [apply cuts_refl; exact E2|exact C2]).
  destruct (il_active s2); auto. intros K. assert (ED : DL (il_assign s2) = DL s2) by (unfold DL; rewrite (proj2 (il_assign_cov 0 s2 ltac:(lia))); auto).
  destruct (il_assign_cov k s2 ltac:(lia)) as [D1 D2]. split; [eapply cov_trans; eauto|eapply cuts_trans; [exact C4|apply cuts_refl; auto]].
Qed.
Lemma setStop_il : forall s, t_il (setStop s) = t_il s /\ t_dec (setStop s) = t_dec s.
Proof. intros s. unfold setStop. destruct (hasConflict s); auto. Qed.
Lemma clearStop_il : forall s, t_il (clearStop s) = t_il s /\ t_dec (clearStop s) = t_dec s.
Proof. intros s. unfold clearStop. destruct (t_conf s); auto. Qed.
Lemma setBt_il : forall s l m, t_il (setBt s l m) = t_il s /\ t_dec (setBt s l m) = t_dec s.
Proof. intros s l m. unfold setBt. destruct (_ <=? _); auto. Qed.
Lemma backtrack_cov : forall k fuel s, let s' := fst (backtrack_loop fuel s) in k <= DL s' -> cov k s s' /\ cuts s s'.
Proof.
  intros k. induction fuel as [|fuel IH]; intros s; cbn zeta; cbn [backtrack_loop].
  - cbn. intros _. split; [apply cov_refl|apply cuts_refl]; auto.
  - destruct (Nat.eqb (DL s) (t_root s)).
    + cbn. intros _. destruct (setStop_il s). split; [apply cov_refl|apply cuts_refl]; auto.
    + set (s1 := undo2 s (DL s - 1) 2). set (s2 := setBt s1 (DL s1) 1). destruct (setBt_il s1 (DL s1) 1) as [B1 B2]. fold s2 in B1, B2.
      assert (STEP : forall s3, t_il s3 = t_il s2 -> t_dec s3 = t_dec s2 -> k <= DL s3 -> cov k s s3 /\ cuts s s3).
      { intros s3 I3 D3 K. assert (D1 : DL s3 = DL s1) by (unfold DL; rewrite D3, B2; auto). destruct (undo2_cov k s (DL s - 1) 2) as [U1 U2]; [fold s1; lia|]. fold s1 in U1, U2. split.
        - eapply cov_trans; [exact U1|]. apply cov_refl. congruence.
        - eapply cuts_trans; [exact U2|]. apply cuts_refl. congruence. }
      destruct (hasConflict s2).
      * intros K. destruct (IH s2 K) as [C1 C2]. destruct (STEP s2 eq_refl eq_refl) as [S1 S2]; [apply cuts_DL in C2; cbn zeta in *; lia|]. split; [eapply cov_trans|eapply cuts_trans]; eauto.
      * pose proof (force1_il s2 (neg (nth (DL s - 1) (t_dec s) (0, false)))) as [F1 F2]. destruct (force1 s2 _) as [s3 ok]. cbn [fst] in F1, F2. destruct ok; cbn [fst].
        -- intros K. unfold il_add, DL in K. cbn [set_il t_dec] in K. destruct (STEP s3 F1 F2 K) as [S1 S2]. split.
           ++ intros q l L C. destruct (S1 q l L C) as [e [E1 E2]]. exists e. split; auto. cbn. apply in_or_app. auto.
           ++ eapply cuts_trans; [exact S2|]. apply cuts_refl. auto.
        -- intros K. destruct (IH s3 K) as [C1 C2]. destruct (STEP s3 F1 F2) as [S1 S2]; [apply cuts_DL in C2; cbn zeta in *; lia|]. split; [eapply cov_trans|eapply cuts_trans]; eauto.
Qed.
Lemma replace_cov : forall il e x, In x il -> exists y, In y (replace_first il e) /\ (y = x \/ e_lit y = e_lit x /\ e_lev y < e_lev x).
Proof.
  induction il as [|z il IH]; intros e x X; [destruct X|]. cbn [replace_first]. destruct (lit_eqb (e_lit z) (e_lit e)) eqn:E.
  - destruct X as [-> |X]; [|exists x; cbn; auto]. destruct (Nat.ltb_spec (e_lev e) (e_lev x)) as [L|L].
    + exists e. cbn. split; auto. right. split; auto. apply lit_eqb_eq in E. auto.
    + exists x. cbn. auto.
  - destruct X as [-> |X]; [exists x; cbn; auto|]. destruct (IH e x X) as [y [Y1 Y2]]. exists y. cbn. auto.
Qed.
Lemma forceIL_cov : forall k s e, cov k s (fst (forceIL s e)) /\ cuts s (fst (forceIL s e)).
Proof.
  intros k s e. unfold forceIL. destruct (_ && _); [split; [apply cov_refl|apply cuts_refl]; auto|]. destruct (isT s (e_lit e) && _).
  - split; [|apply cuts_refl; auto]. cbn [fst]. intros q l L [x [X1 [X2 [X3 X4]]]]. destruct (replace_cov (t_il s) e x X1) as [y [Y1 [-> |[Y2 Y3]]]]; [exists x; auto|]. exists y. cbn. sp; auto; [congruence|lia|lia].
  - destruct (undoImpl_cov k s (e_lev e)) as [U1 U2]. set (s1 := undoImpl s (e_lev e)) in *. set (s2 := if Nat.eqb (DL s1) (e_lev e) then s1 else il_add s1 e).
    destruct (force1_il s2 (e_lit e)) as [F1 F2]. split.
    + eapply cov_trans; [exact U1|]. intros q l L [x [X1 X2]]. exists x. split; auto. rewrite F1. unfold s2. destruct (Nat.eqb _ _); auto. cbn. apply in_or_app. auto.
    + eapply cuts_trans; [exact U2|]. apply cuts_refl. rewrite F2. unfold s2. destruct (Nat.eqb _ _); auto.
Qed.
Lemma run_cov : forall s o k, k <= DL (run s o) -> cov k s (run s o) /\ (match o with OAssume _ => True | _ => cuts s (run s o) end).
Proof.
  intros s o k. destruct o as [p|p l n|l|l m|l m|n|n| | | |]; cbn [run]; intros K.
  - split; auto. apply cov_refl. unfold assume. destruct (isT s p); auto. destruct (isT s (neg p)); auto.
  - unfold forceAt. destruct (Nat.eqb _ _); [|apply forceIL_cov]. destruct (force1_il s p). split; [apply cov_refl|apply cuts_refl]; auto.
  - apply undoImpl_cov.
  - apply undo2_cov. auto.
  - destruct (setBt_il s l m). split; [apply cov_refl|apply cuts_refl]; auto.
  - split; [apply cov_refl|apply cuts_refl]; auto.
  - unfold popRoot in *. destruct (clearStop_il s) as [A B]. destruct (undo2_cov k _ _ _ K) as [U1 U2]. split; [eapply cov_trans; [|exact U1]; apply cov_refl; exact A|eapply cuts_trans; [|exact U2]; apply cuts_refl; exact B].
  - unfold backtrack in *. apply backtrack_cov. auto.
  - destruct (hasConflict s); split; [apply cov_refl|apply cuts_refl|apply cov_refl|apply cuts_refl]; auto.
  - destruct (setStop_il s). split; [apply cov_refl|apply cuts_refl]; auto.
  - destruct (clearStop_il s). split; [apply cov_refl|apply cuts_refl]; auto.
Qed.

(** * The literal flipped by backtracking is recorded *)
Lemma il_assign_lev : forall s, t_root (il_assign s) = t_root s /\ t_flip (il_assign s) = t_flip s /\ t_mode (il_assign s) = t_mode s.
Proof.
  intros s. assert (L : forall es s ok, t_root (fst (il_loop s ok es)) = t_root s /\ t_flip (fst (il_loop s ok es)) = t_flip s /\ t_mode (fst (il_loop s ok es)) = t_mode s).
  { clear. induction es as [|e es IH]; intros s ok; cbn [il_loop]; auto. destruct (e_lev e <=? DL s); auto.
    destruct (if ok then force1 s (e_lit e) else (s, false)) as [s1 ok1] eqn:E. assert (F : t_root s1 = t_root s /\ t_flip s1 = t_flip s /\ t_mode s1 = t_mode s).
    { destruct ok; [|injection E as <- _; auto]. unfold force1 in E. destruct (isT s (e_lit e)); [|destruct (isT s (neg (e_lit e)))]; injection E as <- _; auto. }
    specialize (IH s1 ok1). destruct (il_loop s1 ok1 es) as [s2 k]. cbn [fst] in *. intuition congruence. }
  unfold il_assign. specialize (L (skipn (t_front s) (t_il s)) s (negb (hasConflict s))). destruct (il_loop s _ _) as [s1 k]. exact L.
Qed.
Lemma undo2_step : forall s, t_root s < DL s -> t_flip s <= DL s -> t_mode s <= 2 ->
  let s1 := undo2 s (DL s - 1) 2 in t_dec s1 = firstn (DL s - 1) (t_dec s) /\ t_root s1 = t_root s /\ t_flip s1 <= DL s - 1 /\ t_mode s1 = t_mode s.
Proof.
  intros s R F M. unfold undo2. rewrite (proj2 (Nat.leb_le _ _) M), andb_true_r.
  set (a := if DL s - 1 <? t_flip s then set_lev s (t_root s) (Nat.max (t_root s) (DL s - 1)) (t_mode s) else s).
  assert (A : t_dec a = t_dec s /\ t_root a = t_root s /\ t_flip a <= DL s - 1 /\ t_mode a = t_mode s).
  { unfold a. destruct (Nat.ltb_spec (DL s - 1) (t_flip s)); cbn; sp; auto; lia. }
  destruct A as [A1 [A2 [A3 A4]]].
  assert (B : t_dec (undoImpl a (DL s - 1)) = firstn (DL s - 1) (t_dec s) /\ t_root (undoImpl a (DL s - 1)) = t_root s /\ t_flip (undoImpl a (DL s - 1)) <= DL s - 1 /\ t_mode (undoImpl a (DL s - 1)) = t_mode s).
  { unfold undoImpl. rewrite Nat.max_l by auto. replace (DL a) with (DL s) by (unfold DL; rewrite A1; auto). destruct (Nat.leb_spec (DL s) (DL s - 1)); [lia|]. cbn. rewrite A1. auto. }
  destruct (il_active _); auto. destruct B as [B1 [B2 [B3 B4]]]. destruct (il_assign_lev (undoImpl a (DL s - 1))) as [C1 [C2 C3]]. destruct (il_assign_cov 0 (undoImpl a (DL s - 1)) ltac:(lia)) as [_ C4].
  cbn zeta. sp; congruence.
Qed.
Lemma backtrack_flip : forall fuel s, let s' := fst (backtrack_loop fuel s) in DL s < fuel -> t_root s <= DL s -> t_flip s <= DL s -> t_mode s <= 2 -> hasConflict s' = false ->
  cover s' (neg (nth (DL s') (t_dec s) (0, false))) (DL s') /\ DL s' < DL s.
Proof.
  induction fuel as [|fuel IH]; intros s; cbn zeta; cbn [backtrack_loop]; intros FU R F M; [lia|]. destruct (Nat.eqb_spec (DL s) (t_root s)) as [E|E].
  - cbn [fst]. unfold setStop. destruct (hasConflict s) eqn:H; intros X; exfalso; [|discriminate]. unfold hasConflict in *. cbn in X. congruence.
  - destruct (undo2_step s ltac:(lia) F M) as [S1 [S2 [S3 S4]]]. set (s1 := undo2 s (DL s - 1) 2) in *. set (s2 := setBt s1 (DL s1) 1).
    assert (D1 : DL s1 = DL s - 1) by (unfold DL in *; rewrite S1, firstn_length; lia).
    assert (A : t_dec s2 = t_dec s1 /\ t_root s2 = t_root s /\ t_flip s2 <= DL s - 1 /\ t_mode s2 <= 2).
    { unfold s2, setBt. destruct (t_mode s1 <=? 1); cbn; sp; auto; lia. }
    destruct A as [A1 [A2 [A3 A4]]]. assert (D2 : DL s2 = DL s - 1) by (unfold DL in *; congruence).
    assert (REC : forall s3, t_dec s3 = t_dec s2 -> t_root s3 = t_root s -> t_flip s3 <= DL s - 1 -> t_mode s3 <= 2 -> hasConflict (fst (backtrack_loop fuel s3)) = false ->
      cover (fst (backtrack_loop fuel s3)) (neg (nth (DL (fst (backtrack_loop fuel s3))) (t_dec s) (0, false))) (DL (fst (backtrack_loop fuel s3))) /\ DL (fst (backtrack_loop fuel s3)) < DL s).
    { intros s3 X1 X2 X3 X4 X5. assert (D3 : DL s3 = DL s - 1) by (unfold DL in *; congruence). destruct (IH s3) as [C1 C2]; try lia; auto. split; [|lia].
      rewrite X1, A1, S1, nth_firstn in C1 by lia. exact C1. }
    destruct (hasConflict s2).
    + intros X. apply REC; auto.
    + destruct (force1 s2 (neg (nth (DL s - 1) (t_dec s) (0, false)))) as [s3 ok] eqn:FE. assert (G : t_dec s3 = t_dec s2 /\ t_root s3 = t_root s2 /\ t_flip s3 = t_flip s2 /\ t_mode s3 = t_mode s2).
      { unfold force1 in FE. destruct (isT s2 _); [|destruct (isT s2 _)]; injection FE as <- _; auto. }
      destruct G as [G1 [G2 [G3 G4]]]. destruct ok; cbn [fst].
      * intros _. assert (D3 : DL s3 = DL s - 1) by (unfold DL in *; congruence). set (inv := neg (nth (DL s - 1) (t_dec s) (0, false))) in *. set (s' := il_add s3 (Ent inv (DL s3) true)). assert (DS : DL s' = DL s - 1) by exact D3. rewrite DS. split; [|lia].
        exists (Ent inv (DL s3) true). cbn. sp; auto; [apply in_or_app; cbn; auto|lia].
      * intros X. apply REC; auto; congruence.
Qed.

(** * Histories *)
Definition fst2 (f : fact) : lit * nat := fst f.
Lemma hist_reach : forall T s fs, hist T s fs -> reach s (map fst2 fs).
Proof.
  induction 1 as [|s fs o H IH OK J]; [constructor|]. pose proof (reach_op _ _ _ IH OK) as R. unfold live_step in R.
  rewrite map_app, map_map. unfold fst2 at 2. cbn. rewrite map_id.
  match goal with |- reach _ (?A ++ _) => assert (E : filter (fun x => snd x <=? DL (run s o)) (map fst2 fs) = A) end; [|rewrite <- E; exact R].
  clear. induction fs as [|f fs IH]; auto. cbn. destruct f as [[p l] k]; cbn. destruct (l <=? DL (run s o)); cbn; rewrite IH; auto.
Qed.
(** Facts in the order of their justification. *)
Definition okf (T : asg -> Prop) (s : st) (pre : list fact) (f : fact) : Prop :=
  match f with
  | (p, l, Dec) => 0 < l /\ l <= DL s /\ nth (l - 1) (t_dec s) (0, false) = p
  | (p, l, Flip) => cover s p l
  | (p, l, Forced) => forall a, T a -> (forall q m k, In (q, m, k) pre -> m <= l -> holds a q = true) -> holds a p = true
  end.
Definition okfs (T : asg -> Prop) (s : st) (fs : list fact) : Prop := forall pre f post, fs = pre ++ f :: post -> okf T s pre f /\ snd (fst f) <= DL s.
Lemma filter_split : forall (A : Type) (g : A -> bool) l pre x post, filter g l = pre ++ x :: post -> exists pre' post', l = pre' ++ x :: post' /\ pre = filter g pre' /\ g x = true.
Proof.
  induction l as [|y l IH]; intros pre x post E; cbn in E; [destruct pre; discriminate|]. destruct (g y) eqn:G.
  - destruct pre as [|z pre]; cbn in E; injection E as E1 E2.
    + subst y. exists [], l. auto.
    + subst z. destruct (IH _ _ _ E2) as [a [b [B1 [B2 B3]]]]. exists (y :: a), b. subst. cbn. rewrite G. auto.
  - destruct (IH _ _ _ E) as [a [b [B1 [B2 B3]]]]. exists (y :: a), b. subst. cbn. rewrite G. auto.
Qed.
Lemma snoc_split : forall (A : Type) (l : list A) y pre x post, l ++ [y] = pre ++ x :: post -> (pre = l /\ x = y /\ post = []) \/ exists post', l = pre ++ x :: post' /\ post = post' ++ [y].
Proof.
  intros A l y pre x post E. destruct post as [|p post] using rev_ind.
  - left. apply app_inj_tail in E. intuition.
  - right. rewrite app_comm_cons, app_assoc in E. apply app_inj_tail in E. destruct E as [E ->]. exists post. auto.
Qed.
Lemma made_small : forall s o s', made s o s' = [] \/ exists x, made s o s' = [x].
Proof. intros s o s'. destruct o; cbn; eauto; [destruct (_ =? _)|destruct (hasConflict s')]; eauto. Qed.
Lemma okfs_hist : forall T s fs, hist T s fs -> okfs T s fs.
Proof.
  induction 1 as [|s fs o H IH OK J]; [intros pre f post E; destruct pre; discriminate|].
  destruct (reach_Inv _ _ (hist_reach _ _ _ H)) as [I M2]. destruct (i_ord _ _ I) as [O1 [O2 [O3 [O4 O5]]]]. set (s' := run s o) in *.
  assert (OLD : forall pre f post, filter (fun f => snd (fst f) <=? DL s') fs = pre ++ f :: post -> okf T s' pre f /\ snd (fst f) <= DL s').
  { intros pre f post E. destruct (filter_split _ _ _ _ _ _ E) as [pre' [post' [E1 [E2 E3]]]]. destruct (IH _ _ _ E1) as [A B]. apply Nat.leb_le in E3. split; auto.
    destruct f as [[p l] k]. cbn [fst snd] in *. destruct k; cbn [okf] in *.
    - destruct A as [A1 [A2 A3]]. sp; auto. assert (C : (exists p, o = OAssume p) \/ cuts s s').
      { unfold s'. destruct (run_cov s o 0 ltac:(lia)) as [_ C]. destruct o; eauto. }
      destruct C as [[p' ->]|[n C]].
      + unfold s'. cbn. unfold assume. destruct (isT s p'); auto. destruct (isT s (neg p')); auto. cbn. rewrite app_nth1; auto. unfold DL in *. lia.
      + rewrite C. rewrite nth_firstn; auto. unfold DL in *. rewrite C, firstn_length in E3. lia.
    - destruct (run_cov s o (DL s') ltac:(reflexivity)) as [C _]. apply C; auto.
    - intros a TA HA. apply A; auto. intros q m k Q L. apply (HA q m k); auto. subst pre. apply filter_In. split; auto. apply Nat.leb_le. cbn. lia. }
  intros pre f post E. destruct (made_small s o s') as [Z|[[p l] Z]]; rewrite Z in E; cbn [map] in E.
  - rewrite app_nil_r in E. eauto.
  - apply snoc_split in E. destruct E as [[E1 [E2 E3]]|[post' [E1 E2]]]; [|eauto]. subst f. cbn [fst snd]. destruct o as [p'|p' l' n'|l'|l' m|l' m|n'|n'| | | |]; cbn [made kindOf okf] in *; try discriminate.
    + destruct (Nat.eqb_spec (DL s') (S (DL s))) as [X|X]; [|discriminate]. injection Z as Z1 Z2. subst p' l. cbn [okf]. sp; try lia. unfold s' in *. cbn in *. unfold assume in *. destruct (isT s p); [unfold DL in X; cbn in X; lia|]. destruct (isT s (neg p)); [unfold DL in X; cbn in X; lia|].
      cbn. replace (DL s - 0) with (length (t_dec s)) by (unfold DL; lia). rewrite nth_middle. auto.
    + injection Z as -> ->. assert (LD : l <= DL s').
      { destruct (reach_Inv _ _ (reach_op _ _ _ (hist_reach _ _ _ H) OK)) as [I' _]. apply (proj1 (i_b _ _ I' p l ltac:(unfold live_step; apply in_or_app; right; cbn; auto))). }
      split; auto. intros a TA HA. cbn in J. apply J; auto. intros q m k Q L. apply (HA q m k); auto. subst pre. apply filter_In. split; auto. apply Nat.leb_le. cbn [fst snd]. lia.
    + destruct (hasConflict s') eqn:HC; [discriminate|]. injection Z as <- <-. destruct (backtrack_flip (S (DL s)) s) as [C1 C2]; try lia; auto.
Qed.

(** what holds on a level holds in every remaining model under the decisions of that level *)
Lemma split_at : forall (A : Type) (l : list A) x, In x l -> exists pre post, l = pre ++ x :: post.
Proof. intros. apply in_split. auto. Qed.
Lemma under_le : forall s l m a, under s l a -> m <= l -> under s m a.
Proof. intros s l m a U L i I. apply U. lia. Qed.
Lemma closure : forall T s fs a, okfs T s fs -> T a -> (forall p l, In (p, l, Flip) fs -> under s l a -> holds a p = true) ->
  forall p l k, In (p, l, k) fs -> under s l a -> holds a p = true.
Proof.
  intros T s fs a O TA FL. enough (K : forall n pre f post, length pre < n -> fs = pre ++ f :: post -> under s (snd (fst f)) a -> holds a (fst (fst f)) = true).
  { intros p l k I U. destruct (split_at fact _ _ I) as [pre [post E]]. apply (K (S (length pre)) pre (p, l, k) post); auto. }
  induction n as [|n IH]; intros pre f post L E U; [lia|]. destruct (O pre f post E) as [A B]. destruct f as [[p l] k]. cbn [fst snd] in *. destruct k; cbn in A.
  - destruct A as [A1 [A2 A3]]. subst p. apply U. lia.
  - apply (FL p l); auto. rewrite E. apply in_or_app. cbn. auto.
  - apply A; auto. intros q m k Q LQ. destruct (split_at fact _ _ Q) as [pre2 [post2 E2]]. apply (IH pre2 (q, m, k) (post2 ++ (p, l, Forced) :: post)).
    + subst pre. rewrite app_length in L. cbn in L. lia.
    + rewrite E, E2, <- app_assoc. reflexivity.
    + cbn. eapply under_le; eauto.
Qed.

(** * Guiding paths *)
Section G.
Variables (aux : nat -> bool) (tag : lit) (frozen : nat -> bool).
Lemma copyDecs_spec : forall s n i a0 ds a, copyDecs aux s i n a0 = (ds, a) ->
  (forall p, In p ds <-> exists j, i <= j < i + n /\ decision s j = p /\ aux (fst p) = false).
Proof.
  intros s. induction n as [|n IH]; intros i a0 ds a E p; cbn [copyDecs] in E.
  - injection E as <- <-. split; [intros []|]. intros [j [L _]]. lia.
  - destruct (aux (fst (decision s i))) eqn:AX; cbn [negb] in E.
    + rewrite (IH _ _ _ _ E p). split; intros [j [L R]]; exists j; split; auto; try lia. assert (j <> i) by (intros ->; destruct R as [<- R]; congruence). lia.
    + destruct (copyDecs aux s (S i) n a0) as [l a'] eqn:E2. injection E as <- <-. cbn [In]. rewrite (IH _ _ _ _ E2 p). split.
      * intros [<- |[j [L R]]]; [exists i; split; [lia|auto]|exists j; split; [lia|auto]].
      * intros [j [L R]]. destruct (Nat.eq_dec j i) as [-> |]; [left; tauto|right; exists j; split; [lia|auto]].
Qed.
(** for models in which the tag literal holds *)
Variables (T : asg -> Prop) (s : st) (fs : list fact).
Hypothesis H : hist T s fs.
Lemma hist_inv : Inv s (map fst2 fs) /\ okfs T s fs.
Proof. split; [apply reach_Inv; eapply hist_reach; eauto|apply okfs_hist; auto]. Qed.
Lemma ent_fact : forall e, In e (t_il s) -> exists l k, l <= e_lev e /\ In (e_lit e, l, k) fs.
Proof.
  intros e E. destruct hist_inv as [I _]. destruct (i_ent _ _ I e E) as [l [L1 L2]]. apply in_map_iff in L2. destruct L2 as [[[p l'] k] [X Y]]. cbn in X. injection X as -> ->. eauto.
Qed.
Lemma copy_sound : forall a, T a -> remaining s fs a -> sat (copyGuidingPath aux s) a.
Proof.
  intros a TA [R1 R2] p. unfold copyGuidingPath. destruct (copyDecs aux s 1 (t_root s) (S (t_root s))) as [ds k] eqn:E. intros P. apply in_app_or in P. destruct P as [P|P].
  - apply (copyDecs_spec _ _ _ _ _ _ E) in P. destruct P as [j [L [<- _]]]. apply R1. lia.
  - apply in_map_iff in P. destruct P as [e [<- P]]. apply filter_In in P. destruct P as [P1 P2]. apply andb_true_iff in P2. destruct P2 as [P2 _]. apply andb_true_iff in P2. destruct P2 as [P2 _]. apply Nat.leb_le in P2.
    destruct (ent_fact e P1) as [l [k' [L1 L2]]]. apply (closure T s fs a (proj2 hist_inv) TA R2 _ _ _ L2). eapply under_le; [exact R1|lia].
Qed.
Lemma copy_complete : forall a, T a -> holds a tag = true -> splittable aux tag frozen s = true -> sat (copyGuidingPath aux s) a ->
  under s (t_root s) a /\ forall p l k, In (p, l, k) fs -> l <= t_root s -> holds a p = true.
Proof.
  intros a TA TG SP ST. unfold splittable in SP. destruct (_ || _); [discriminate|]. apply andb_true_iff in SP. destruct SP as [S1 S2]. apply negb_true_iff in S1. apply negb_true_iff in S2.
  unfold copyGuidingPath in ST. destruct (copyDecs aux s 1 (t_root s) (S (t_root s))) as [ds ka] eqn:E.
  assert (U : under s (t_root s) a).
  { intros i L. change (holds a (nth i (t_dec s) (0, false))) with (holds a (nth i (t_dec s) (0, false))). replace i with (S i - 1) by lia. change (holds a (decision s (S i)) = true).
    destruct (aux (fst (decision s (S i)))) eqn:AX.
    - assert (X : decision s (S i) = tag). { destruct (lit_eqb (decision s (S i)) tag) eqn:Q; [apply lit_eqb_eq; auto|]. exfalso. assert (Z : existsb (fun i => aux (fst (decision s i)) && negb (lit_eqb (decision s i) tag)) (seq 1 (t_root s + 2 - 1)) = true); [|congruence].
        apply existsb_exists. exists (S i). rewrite AX, Q. split; auto. apply in_seq. lia. }
      rewrite X. auto.
    - apply ST. apply in_or_app. left. apply (copyDecs_spec _ _ _ _ _ _ E). exists (S i). split; [lia|auto]. }
  split; auto. destruct hist_inv as [I O].
  enough (K : forall l0 n pre f post, length pre < n -> fs = pre ++ f :: post -> snd (fst f) = l0 -> l0 <= t_root s -> holds a (fst (fst f)) = true).
  { intros p l k Q L. destruct (split_at fact _ _ Q) as [pre [post EQ]]. apply (K l (S (length pre)) pre (p, l, k) post); auto. }
  induction l0 as [l0 IHl] using lt_wf_ind. induction n as [|n IH]; intros pre f post LN EQ L0 LR; [lia|]. destruct (O pre f post EQ) as [A B]. destruct f as [[p l] k]. cbn [fst snd] in *. subst l. destruct k; cbn in A.
  - destruct A as [A1 [A2 A3]]. subst p. apply U. lia.
  - destruct A as [e [E1 [E2 [E3 E4]]]]. assert (LOW : e_lev e < l0 -> holds a p = true).
    { intros LT. destruct (ent_fact e E1) as [l' [k' [L1 L2]]]. rewrite E2 in L2. destruct (split_at fact _ _ L2) as [pre2 [post2 EQ2]]. apply (IHl l' ltac:(lia) (S (length pre2)) pre2 (p, l', k') post2); auto. lia. }
    destruct (Nat.eq_dec (e_lev e) l0) as [EL|EL]; [|apply LOW; lia]. destruct (aux (fst p)) eqn:AX.
    + assert (X : p = tag). { destruct (lit_eqb p tag) eqn:Q; [apply lit_eqb_eq; auto|]. exfalso. match type of S2 with ?X = false => assert (Z : X = true); [|congruence] end. apply existsb_exists. exists e. split; auto. rewrite E2, AX, Q, (E4 EL). rewrite (proj2 (Nat.ltb_lt _ _)) by lia. reflexivity. }
      rewrite X. exact TG.
    + apply ST. apply in_or_app. right. apply in_map_iff. exists e. split; auto. apply filter_In. split; auto. rewrite (E4 EL), E2, AX. cbn. rewrite !andb_true_r. apply Nat.leb_le. lia.
  - apply A; auto. intros q m k Q LQ. destruct (split_at fact _ _ Q) as [pre2 [post2 EQ2]]. assert (EQ3 : fs = pre2 ++ (q, m, k) :: (post2 ++ (p, l0, Forced) :: post)) by (rewrite EQ, EQ2, <- app_assoc; reflexivity).
    destruct (Nat.eq_dec m l0) as [-> |ML].
    + apply (IH pre2 (q, l0, k) _) with (3 := eq_refl) (2 := EQ3); auto. apply (f_equal (@length fact)) in EQ2. rewrite app_length in EQ2. cbn in EQ2. lia.
    + apply (IHl m ltac:(lia) (S (length pre2)) pre2 (q, m, k) _) with (2 := EQ3); auto. lia.
Qed.
Lemma split_parts : forall s' out a, split aux tag frozen s = Some (s', out) -> T a -> holds a tag = true ->
  (remaining s fs a <-> remaining s' fs a \/ sat out a) /\ ~ (remaining s' fs a /\ sat out a).
Proof.
  intros s' out a SP TA TG. unfold split in SP. destruct (splittable aux tag frozen s) eqn:SB; [|discriminate]. cbn [negb] in SP.
  assert (R' : t_root (pushRoot s 1) = S (t_root s)).
  { destruct hist_inv as [I _]. destruct (i_ord _ _ I) as [O1 [O2 [O3 [O4 O5]]]]. unfold splittable in SB. destruct (Nat.eqb_spec (DL s) (t_root s)) as [X|X]; [discriminate|]. cbn. lia. }
  change (Nat.min (DL s) (t_root s + 1)) with (t_root (pushRoot s 1)) in SP. injection SP as E1 E2. subst s' out. change (Nat.min (DL s) (t_root s + 1)) with (t_root (pushRoot s 1)).
  rewrite R'. set (d := decision (pushRoot s 1) (S (t_root s))). assert (DD : d = nth (t_root s) (t_dec s) (0, false)) by (unfold d, decision; cbn; rewrite Nat.sub_0_r; auto).
  assert (NEW : remaining (pushRoot s 1) fs a <-> remaining s fs a /\ holds a d = true).
  { unfold remaining. rewrite R'. change (under (pushRoot s 1)) with (under s). split.
    - intros [A B]. sp; auto; [eapply under_le; [exact A|lia]|]. rewrite DD. apply A. lia.
    - intros [[A B] D]. split; auto. intros i L. destruct (Nat.eq_dec i (t_root s)) as [-> |]; [rewrite <- DD; auto|]. apply A. lia. }
  assert (OUT : sat (copyGuidingPath aux s ++ [neg d]) a <-> sat (copyGuidingPath aux s) a /\ holds a d = false).
  { unfold sat. split.
    - intros A. split; [intros p P; apply A; apply in_or_app; auto|]. specialize (A (neg d)). rewrite holds_neg in A. apply negb_true_iff. apply A. apply in_or_app. cbn. auto.
    - intros [A B] p P. apply in_app_or in P. destruct P as [P|[<- |[]]]; auto. rewrite holds_neg, B. auto. }
  rewrite NEW, OUT. split; [|intros [[_ A] [_ B]]; congruence]. split.
  - intros R. destruct (holds a d) eqn:D; [auto|right]. split; auto. apply copy_sound; auto.
  - intros [[R _]|[C D]]; auto. destruct (copy_complete a TA TG SB C) as [A B]. split; auto. intros p l P U. destruct (Nat.le_gt_cases l (t_root s)) as [L|L]; [eapply B; eauto|]. exfalso. specialize (U (t_root s) L). rewrite <- DD in U. congruence.
Qed.
End G.
