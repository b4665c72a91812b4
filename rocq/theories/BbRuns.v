(** Building concrete runs of branch and bound (used for examples and counterexamples). *)
From Coq Require Import List Bool Arith ZArith Lia.
From Verif Require Import Base BbModel BbSpec BbProofs.
Import ListNotations.
Open Scope Z_scope.

(** A finite set of cost vectors *)
Definition costs (l : list cost) : cost -> Prop := fun c => In c l.
(** ** Concrete runs *)
Section Runs.
Variables (n : nat) (M : cost -> Prop) (racy : bool) (s0 : state) (t : nat).
(** There is a run that ends with shared data s, solver t in state x and reports r *)
Definition At (s : shared) (x : thread) (r : list (nat * Z)) : Prop := exists st, reach n M racy s0 st /\ g_sh st = s /\ g_th st t = x /\ g_rep st = r.
Definition idle (x : thread) : bool := match t_pc x with Idle | Search _ => true | _ => false end.
Lemma idle_ok : forall x, idle x = true -> t_pc x = Idle \/ exists g, t_pc x = Search g.
Proof. intros x. unfold idle. destruct (t_pc x); try discriminate; eauto. Qed.
Lemma a_init : At (g_sh s0) (g_th s0 t) (g_rep s0). Proof. exists s0. split; [apply r_init|auto]. Qed.
Ltac go L := intros; let st := fresh "st" in let Q := fresh "Q" in match goal with H : At _ _ _ |- _ => destruct H as [st [Q [<- [<- <-]]]] end; eexists; split; [eapply r_step; [exact Q|]; eapply L; eauto|]; cbn [setTh setSh addRep g_sh g_th g_rep]; rewrite ?Nat.eqb_refl; auto.
Lemma a_pass : forall s x r, At s x r -> idle x = true -> active (t_dm x) && negb (checkNext s) = false ->
  At s (afterPass n x (checkNext s) (s_gen s) (passFrom n n 0 (appLev0 n (checkNext s) (t_dm x)) (upper s) (s_lower s) (t_dm x))) r.
Proof. intros s x r A I. apply idle_ok in I. go st_pass. Qed.
Lemma a_ok : forall s x r seq, At s x r -> t_pc x = Returned true seq -> At s (move x (t_dm x) (Search seq)) r.
Proof. go st_ok. Qed.
Lemma a_stop : forall s x r seq, At s x r -> t_pc x = Returned false seq -> At s (move x (relaxBound n false s (t_dm x)) Stopped) r.
Proof. go st_stop. Qed.
Lemma a_model : forall s x r c, At s x r -> t_pc x = Search (s_gen s) -> t_path x c -> within n c (m_opt (t_dm x)) -> At (setOptimum s c) (move x (doubleStep (t_dm x)) Idle) r.
Proof. go st_model. Qed.
Definition rep1 (r : list (nat * Z)) (p : option (nat * Z)) : list (nat * Z) := match p with Some x => x :: r | None => r end.
Lemma a_unsat : forall s x r g, At s x r -> t_pc x = Search g -> (forall c, t_path x c -> ~ within n c (m_opt (t_dm x))) ->
  let u := handleUnsat n (t_share x) s (t_dm x) in At (snd (fst u)) (move x (snd u) (if fst (fst (fst u)) then Idle else Done)) (rep1 r (snd (fst (fst u)))).
Proof.
  intros s x r g [st [R [<- [<- <-]]]] A B u. eexists. split; [eapply r_step; [exact R|]; eapply (st_unsat n M racy st t (g_th st t) g (fst (fst (fst u))) (snd (fst (fst u))) (snd (fst u)) (snd u)); auto|].
  - fold u. destruct u as [[[m p] s] d]. reflexivity.
  - cbn [setTh setSh addRep g_sh g_th g_rep]. rewrite Nat.eqb_refl. auto.
Qed.
Lemma a_fail : forall s x r, At s x r -> t_pc x = Stopped ->
  let u := handleUnsat n (t_share x) s (t_dm x) in At (snd (fst u)) (move x (snd u) (if fst (fst (fst u)) then Idle else Done)) (rep1 r (snd (fst (fst u)))).
Proof.
  intros s x r [st [R [<- [<- <-]]]] A u. eexists. split; [eapply r_step; [exact R|]; eapply (st_fail n M racy st t (g_th st t) (fst (fst (fst u))) (snd (fst (fst u))) (snd (fst u)) (snd u)); auto|].
  - fold u. destruct u as [[[m p] s] d]. reflexivity.
  - cbn [setTh setSh addRep g_sh g_th g_rep]. rewrite Nat.eqb_refl. auto.
Qed.
Lemma a_enter : forall s x r, At s x r -> idle x = true -> active (t_dm x) && negb (checkNext s) = false -> racy || (checkNext s && negb (isLin (m_type (t_dm x)))) = true ->
  At s (move x (t_dm x) (Reading (checkNext s) (s_gen s) None 0 (appLev0 n (checkNext s) (t_dm x)) None)) r.
Proof. intros s x r A I. apply idle_ok in I. go st_enter. Qed.
Lemma a_buf : forall s x r a seq i k, At s x r -> t_pc x = Reading a seq None i k None -> At s (move x (t_dm x) (Reading a seq (Some (Nat.odd (s_gen s))) i k None)) r.
Proof. go st_buf. Qed.
Lemma a_up : forall s x r a seq p i k, At s x r -> t_pc x = Reading a seq (Some p) i k None -> (i < n)%nat -> At s (move x (t_dm x) (Reading a seq (Some p) i k (Some (at_ (buf s p) i)))) r.
Proof. go st_up. Qed.
Lemma a_low : forall s x r a seq p i k U, At s x r -> t_pc x = Reading a seq (Some p) i k (Some U) -> At s (afterVisit x a seq p i (visit n k i U (at_ (s_lower s) i) (t_dm x))) r.
Proof. go st_low. Qed.
Lemma a_other : forall s x r c, At s x r -> M c -> (if Nat.eqb (s_gen s) 0 then within n c (upper s) else less n c (upper s)) -> At (setOptimum s c) x r.
Proof. go st_other. Qed.
Lemma a_otherLow : forall s x r i L, At s x r -> (i < n)%nat -> L <= bMax -> s_gen s <> 0%nat \/ i = 0%nat ->
    (forall c, M c -> within n c (upper s) -> forall j, (j < i)%nat -> at_ c j = at_ (upper s) j) ->
    (forall c, M c -> within n c (upper s) -> L <= at_ c i) -> At (snd (incLower s i L)) x r.
Proof. go st_otherLow. Qed.
End Runs.
(** Deciding the lexicographic order *)
Fixpoint lexb (k i : nat) (a b : cost) : bool :=
  match k with O => false | S k => (nth i a 0 <? nth i b 0) || ((nth i a 0 =? nth i b 0) && lexb k (S i) a b) end.
Lemma lexb_ex : forall k i a b, lexb k i a b = true <-> exists j, (j < k)%nat /\ (forall m, (m < j)%nat -> nth (i + m) a 0 = nth (i + m) b 0) /\ nth (i + j) a 0 < nth (i + j) b 0.
Proof.
  induction k as [|k IH]; intros i a b; cbn [lexb]; [split; [discriminate|intros [j [H _]]; lia]|].
  rewrite orb_true_iff, andb_true_iff, Z.ltb_lt, Z.eqb_eq, IH. split.
  - intros [H|[H [j [J1 [J2 J3]]]]].
    + exists 0%nat. rewrite Nat.add_0_r. split; [lia|]. split; [intros m X; lia|exact H].
    + exists (S j). rewrite Nat.add_succ_r. split; [lia|]. split; [|exact J3]. intros [|m] X; [rewrite Nat.add_0_r; exact H|]. rewrite Nat.add_succ_r. apply J2. lia.
  - intros [[|j] [J1 [J2 J3]]].
    + left. rewrite Nat.add_0_r in J3. exact J3.
    + right. split; [specialize (J2 0%nat); rewrite Nat.add_0_r in J2; apply J2; lia|]. exists j. split; [lia|]. split; [|rewrite Nat.add_succ_r in J3; exact J3].
      intros m X. specialize (J2 (S m)). rewrite Nat.add_succ_r in J2. apply J2. lia.
Qed.
Lemma lexb_lt : forall n a b, lexLt n a b <-> lexb n 0 a b = true.
Proof. intros n a b. rewrite lexb_ex. reflexivity. Qed.
Lemma lexb_le : forall n a b, lexLe n a b <-> lexb n 0 b a = false.
Proof. intros n a b. unfold lexLe. rewrite lexb_lt. destruct (lexb n 0 b a); split; try discriminate; try reflexivity. intros H. exfalso. auto. Qed.
Lemma lexb_within : forall n a b, lexb n 0 b a = false -> within n a b.
Proof. intros n a b H. apply within_lt. intros X. apply lexb_lt in X. rewrite X in H. discriminate. Qed.
Lemma lexb_not_within : forall n a b, lexb n 0 b a = true -> ~ within n a b.
Proof. intros n a b H W. apply within_lt in W. apply W. apply lexb_lt. exact H. Qed.
Lemma lexb_less : forall n a b, lexb n 0 a b = true -> less n a b.
Proof. intros n a b H. apply lexb_lt in H. exact H. Qed.
Lemma costs_not : forall n l v, forallb (fun c => lexb n 0 v c) l = true -> forall c, costs l c -> ~ within n c v.
Proof. intros n l v H c C. apply lexb_not_within. rewrite forallb_forall in H. apply H, C. Qed.
Definition problemb (n : nat) (l : list cost) (B0 low0 : cost) : bool :=
  Nat.ltb 0 n && Nat.eqb (length B0) n && Nat.eqb (length low0) n && forallb (fun b => b <=? bMax) B0 &&
  (forallb (fun b => b =? bMax) B0 || (nth 0 B0 0 <? bMax - 1)) && forallb (fun x => (- 4611686018427387904 <=? x) && (x <=? bMax)) low0 &&
  forallb (fun c => Nat.eqb (length c) n && forallb (fun p => (fst p <=? snd p) && (snd p <=? 4611686018427387903)) (combine low0 c)) l.
Lemma all_max : forall B0, forallb (fun b => b =? bMax) B0 = true -> B0 = repeat bMax (length B0).
Proof. induction B0 as [|b B0 IH]; intros H; auto. cbn [forallb] in H. apply andb_true_iff in H as [H1 H2]. apply Z.eqb_eq in H1. cbn [length repeat]. rewrite <- (IH H2), H1. reflexivity. Qed.
Lemma problem_ok : forall n l B0 low0, problemb n l B0 low0 = true -> Problem n (costs l) B0 low0.
Proof.
  intros n l B0 low0 H. unfold problemb in H. rewrite !andb_true_iff in H. destruct H as [[[[[[H1 H2] H3] H4] H5] H6] H7].
  apply Nat.ltb_lt in H1. apply Nat.eqb_eq in H2. apply Nat.eqb_eq in H3. rewrite forallb_forall in H4. rewrite forallb_forall in H6. rewrite forallb_forall in H7. constructor; auto.
  - intros i. destruct (Nat.lt_ge_cases i (length B0)) as [X|X]; [apply Z.leb_le, H4, nth_In, X|]. rewrite nth_overflow by auto. unfold bMax. lia.
  - apply orb_true_iff in H5 as [H5|H5]; [left; rewrite <- H2; apply all_max, H5|right; apply Z.ltb_lt, H5].
  - intros i I. rewrite <- H3 in I. pose proof (H6 (nth i low0 0) (nth_In _ _ I)) as X. apply andb_true_iff in X as [X1 X2]. apply Z.leb_le in X1. apply Z.leb_le in X2. auto.
  - intros c C. pose proof (H7 c C) as X. apply andb_true_iff in X as [X _]. apply Nat.eqb_eq, X.
  - intros c i C I. pose proof (H7 c C) as X. apply andb_true_iff in X as [X1 X2]. apply Nat.eqb_eq in X1. rewrite forallb_forall in X2.
    assert (Y : In (nth i low0 0, nth i c 0) (combine low0 c)) by (rewrite <- combine_nth by congruence; apply nth_In; rewrite combine_length; lia).
    apply X2 in Y. cbn [fst snd] in Y. apply andb_true_iff in Y as [Y1 Y2]. apply Z.leb_le in Y1. apply Z.leb_le in Y2. auto.
Qed.
Ltac nrm R := cbv -[At costs] in R.
