From Coq Require Import List Bool Arith ZArith Lia Permutation.
From Verif Require Import Base ClModel ClSpec ClProofs BpModel BpSpec BpProofs BpProofs2.
Import ListNotations.

(** * The view of the solver *)
Section View.
Variables (n : nat) (s : st) (D : db) (G : list (list lit)).
Hypothesis (K : Core n s D G).

Lemma entry_in : forall e, In e (b_trail s) -> entry s (litOf e) = Some e.
Proof. intros e E. apply find_ent; auto. apply (k_nd _ _ _ _ K). Qed.
Lemma lev_in : forall e p, In e (b_trail s) -> litOf e = fst p -> lev s p = e_lev e.
Proof. intros e p E H. unfold lev. rewrite <- H, (entry_in e E). reflexivity. Qed.
Lemma val_true : forall p, true_lit (view s) p <-> tTrue (b_trail s) p.
Proof.
  intros p. unfold true_lit, pval, view. cbn. split.
  - destruct (entry s (fst p)) as [e|] eqn:E; [|discriminate]. apply find_some_ent in E as [E1 E2]. intros H. exists e. split; auto.
    destruct p as [v b], e as [[v' b'] l w g]. cbn in *. unfold litOf in E2. cbn in E2. subst v'. destruct b, b'; cbn in H; congruence.
  - intros [e [E1 E2]]. rewrite <- E2. change (fst (e_lit e)) with (litOf e). rewrite (entry_in e E1). cbn. destruct (snd (e_lit e)); reflexivity.
Qed.
Lemma val_false : forall p, false_lit (view s) p <-> tFalse (b_trail s) p.
Proof.
  intros p. unfold tFalse. rewrite <- val_true. unfold false_lit, true_lit. rewrite pval_neg. destruct (pval (s_val (view s)) p) as [[|]|]; cbn; split; congruence.
Qed.
Lemma val_free : forall p, free_lit (view s) p <-> tFree (b_trail s) p.
Proof.
  intros p. unfold tFree. rewrite <- val_true, <- val_false. unfold free_lit, false_lit, true_lit.
  destruct (pval (s_val (view s)) p) as [[|]|]; cbn; split; try congruence; intros X; try (destruct X; congruence); split; congruence.
Qed.
Lemma val_lvl : forall p, s_lvl (view s) (fst p) = Z.of_nat (lev s p).
Proof. intros p. unfold lev. cbn. destruct (entry s (fst p)); reflexivity. Qed.
Lemma view_wf : (Z.of_nat (b_dl s) < varMax)%Z -> wf_view (view s).
Proof.
  intros H. constructor.
  - destruct (k_sent _ _ _ _ K) as [e [E1 [E2 [E3 E4]]]]. assert (X := entry_in e E1). unfold litOf in X. rewrite E2 in X. cbn in *. rewrite X, E2. cbn. split; auto. lia.
  - intros v b V. cbn in *. destruct (entry s v) as [e|] eqn:E; [|discriminate]. apply find_some_ent in E as [E1 _]. pose proof (k_lv _ _ _ _ K e E1). lia.
  - cbn. lia.
Qed.
Lemma top_zf : forall q, false_lit (view s) q -> s_lvl (view s) (fst q) = 0%Z -> zf (b_trail s) q.
Proof.
  intros q F L. apply val_false in F as [e [E1 E2]]. exists e. sp; auto. rewrite val_lvl in L.
  rewrite (lev_in e q E1) in L; [pose proof (k_log _ _ _ _ K e E1); lia|]. unfold litOf. rewrite E2. destruct q; reflexivity.
Qed.
Lemma top_zt : forall q, true_lit (view s) q -> s_lvl (view s) (fst q) = 0%Z -> tr (b_trail s) q 0.
Proof.
  intros q F L. apply val_true in F as [e [E1 E2]]. exists e. sp; auto. rewrite val_lvl in L.
  rewrite (lev_in e q E1) in L; [pose proof (k_log _ _ _ _ K e E1); lia|]. unfold litOf. congruence.
Qed.
Lemma top_zf0 : forall q, false_lit (view s) q -> s_lvl (view s) (fst q) = 0%Z -> zf (kept 0 (b_trail s)) q.
Proof.
  intros q F L. apply val_false in F as [e [E1 E2]]. exists e. rewrite val_lvl in L.
  rewrite (lev_in e q E1) in L; [pose proof (k_log _ _ _ _ K e E1)|unfold litOf; rewrite E2; destruct q; reflexivity].
  sp; auto; [|lia]. apply filter_In. split; auto. apply Nat.leb_le. lia.
Qed.
End View.

Lemma status_facts : forall v p q rest, wf_view v -> ~ on_top v p -> ~ on_top v q -> watches_first v (p :: q :: rest) ->
  let x := status_prep v (p :: q :: rest) (length (p :: q :: rest)) in
  x <> 9%Z /\
  (Z.testbit x 1 || Z.testbit x 2 = true -> false_lit v q /\ (forall r, In r rest -> false_lit v r /\ (s_lvl v (fst r) <= s_lvl v (fst q))%Z) /\
      (false_lit v p -> (s_lvl v (fst q) <= s_lvl v (fst p))%Z)) /\
  (Z.testbit x 1 || Z.testbit x 2 = false -> ~ false_lit v p /\ (false_lit v q -> true_lit v p /\ (s_lvl v (fst p) <= s_lvl v (fst q))%Z)).
Proof.
  intros v p q rest W NP NQ [W1 W2] x.
  assert (R2 : forall r, In r rest -> (watchOrder v r <= watchOrder v q)%Z).
  { intros r R. specialize (W2 r R). rewrite (better_wo v W) in W2. lia. }
  rewrite (better_wo v W) in W1.
  assert (PP := NP). assert (QQ := NQ). rewrite <- (on_top_keepable v W) in PP, QQ. unfold keepable in PP, QQ.
  pose proof (wv_dl v W) as DL. destruct PP as [P1 P2]. destruct QQ as [Q1 Q2].
  assert (RQ : false_lit v q -> forall r, In r rest -> false_lit v r /\ (s_lvl v (fst r) <= s_lvl v (fst q))%Z).
  { intros FQ r R. specialize (R2 r R). destruct (wo_cases v W q) as [[F H]|[[F [H H']]|[F [H H']]]]; unfold free_lit, true_lit, false_lit in *; try congruence.
    destruct (wo_cases v W r) as [[G J]|[[G [J J']]|[G [J J']]]]; unfold u32max, varMax in *; try lia. split; auto. lia. }
  unfold x, status_prep. change (Nat.ltb 0 (length (p :: q :: rest))) with true. change (Nat.ltb 1 (length (p :: q :: rest))) with true. cbn [nth].
  rewrite (proj2 (Z.eqb_neq _ _) P2).
  destruct (wo_cases v W p) as [[FP HP]|[[FP [HP HP']]|[FP [HP HP']]]]; destruct (wo_cases v W q) as [[FQ HQ]|[[FQ [HQ HQ']]|[FQ [HQ HQ']]]];
    rewrite HP, HQ in *; unfold u32max, varMax, free_lit, false_lit, true_lit in *; try lia.
  all: repeat match goal with
  | |- context [(?a <? ?b)%Z] => destruct (Z.ltb_spec a b); try lia
  | |- context [(?a <=? ?b)%Z] => destruct (Z.leb_spec a b); try lia
  | |- context [(?a =? ?b)%Z] => destruct (Z.eqb_spec a b); try lia
  end; cbn [andb].
  all: sp; [cbn; discriminate|intros X; cbn in X|intros X; cbn in X]; try discriminate X.
  all: try (sp; [congruence|intros Y; congruence]).
  all: try (sp; [congruence|auto|intros Y; try congruence; lia]).
  all: try (sp; [congruence|intros _; split; [auto|lia]]).
Qed.

(** * Adding clauses *)
Ltac kd K := destruct K as [k_nd0 k_lv0 k_so0 k_sent0 k_var0 k_front0 k_queue0 k_just0 k_lock0 k_len0 k_rep0 k_rep20 k_good0 k_imp0 k_gb0 k_gt0 k_conf0 k_vc0 k_log0 k_root0].
Definition impD (D : db) (c0 : list lit) : db := Db (d_imp D ++ [c0]) (d_exp D).
Definition expD (D : db) (c0 : list lit) : db := Db (d_imp D) (d_exp D ++ [Some c0]).
Lemma jst_mono : forall D D' t e, (forall c, In c (d_imp D) -> In c (d_imp D')) ->
  (forall i c, nth_error (d_exp D) i = Some (Some c) -> nth_error (d_exp D') i = Some (Some c)) -> jst D t e -> jst D' t e.
Proof.
  intros D D' t e A B [J|[J|J]]; [now left|now (right; left)|right; right].
  destruct (e_why e); cbn in *; auto; destruct J as [c0 [J1 J2]]; exists c0; auto.
Qed.
Lemma in_impD : forall D c0 c, In c (d_imp D) -> In c (d_imp (impD D c0)).
Proof. intros. cbn. apply in_or_app; auto. Qed.
Lemma inDb_impD : forall D c0 c, inDb (impD D c0) c <-> inDb D c \/ c = c0.
Proof. intros D c0 c. unfold inDb. cbn. rewrite in_app_iff. cbn. intuition. Qed.
Lemma inDb_expD : forall D c0 c, inDb (expD D c0) c <-> inDb D c \/ c = c0.
Proof. intros D c0 c. unfold inDb. cbn. rewrite in_app_iff. cbn. intuition congruence. Qed.

Section Add.
Variables (n : nat) (s : st) (D : db) (G : list (list lit)) (c0 : list lit).
Hypothesis (K : Core n s D G) (NC : b_conf s = None) (VC : forall q, In q c0 -> fst q <= n).

Lemma core_sat : (exists p, In p c0 /\ (tr (b_trail s) p 0 \/ In (neg p) c0)) -> Core n s (impD D c0) G.
Proof.
  intros H. generalize K. intros K1. kd K1. constructor; auto.
  - intros t1 e t2 E. apply (jst_mono D); eauto. intros c. apply in_impD.
  - intros c C. destruct (k_good0 c C) as [A [B [d [E F]]]]. sp; auto. exists d. split; auto. apply in_impD; auto.
  - intros d E. cbn in E. apply in_app_or in E as [E|[E|[]]]; [|subst d; left; auto]. apply k_imp0. auto.
  - congruence.
  - intros c q C. apply inDb_impD in C as [C|C]; [eauto|subst c; auto].
Qed.

Lemma core_unit : forall p, b_dl s = 0 \/ (b_dl s <= b_root s /\ ~ tFalse (b_trail s) p) -> In p c0 -> (forall q, In q c0 -> q <> p -> zf (b_trail s) q) ->
  isT s p = false -> Core n (fst (forceG s p Fact 0)) (impD D c0) G.
Proof.
  intros p DL P H T. unfold forceG. rewrite T. destruct (isF s p) eqn:F; cbn [fst].
  - apply isF_iff in F. destruct DL as [DL|[_ DL]]; [|contradiction]. generalize K. intros K1. kd K1. constructor; auto.
    + intros t1 e t2 E. apply (jst_mono D); eauto. intros c. apply in_impD.
    + intros c C. destruct (k_good0 c C) as [A [B [d [E F']]]]. sp; auto. exists d. split; auto. apply in_impD; auto.
    + intros d E. right; right. cbn. split; [congruence|auto].
    + intros q w E. right. split; [|left; cbn in E; inversion E; subst; auto]. exists c0. split; [apply inDb_impD; auto|]. intros r R. destruct (lit_eq_dec r p) as [-> |N]; auto. apply zf_false. apply (H r R N).
    + intros c q C. apply inDb_impD in C as [C|C]; [eauto|subst c; auto].
  - pose proof (isT_no _ _ T) as T'. pose proof (isF_no _ _ F) as F'.
    assert (TP : forall w, tr (b_trail s ++ [Ent p (b_dl s) w 0]) p 0).
    { intros w. exists (Ent p (b_dl s) w 0). sp; auto. apply in_or_app; right; now left. }
    generalize K. intros K1. kd K1. constructor; cbn; auto.
    + apply nd_snoc; auto.
    + intros x X. apply in_app_or in X as [X|[X|[]]]; auto. subst x. cbn. lia.
    + intros t1 x t2 E e' E'. apply snoc_split in E as [[-> [-> ->]]|[t3 [E ->]]]; [cbn; auto|]. eauto.
    + apply sent_app; auto.
    + intros x X. apply in_app_or in X as [X|[X|[]]]; auto. subst x. cbn. apply VC. auto.
    + rewrite app_length. cbn. lia.
    + intros x X. rewrite skipn_snoc in X by auto. apply in_app_or in X as [X|[X|[]]]; auto. subst x. reflexivity.
    + intros t1 x t2 E. apply snoc_split in E as [[-> [-> ->]]|[t3 [E ->]]].
      * right; right. cbn. exists c0. split; [apply in_or_app; right; now left|]. split; [split; auto; intros q Q N; apply H; auto|]. split; [intros a []|]. intros q Q. destruct (lit_eq_dec q p); auto.
      * apply (jst_mono D); eauto. intros c. apply in_impD.
    + intros x X. apply in_app_or in X as [X|[X|[]]].
      * exact (k_lock0 x X).
      * subst x. intros i c Y. discriminate.
    + intros i c C. destruct (k_rep0 i c C) as [A [d [B1 B2]]]. split; auto. exists d. split; auto. apply sub_app; auto.
    + intros c C. destruct (k_good0 c C) as [A [B [d [C1 C2]]]]. sp; auto. exists d. split; auto; [apply in_or_app; auto|apply sub_app; auto].
    + intros d E. apply in_app_or in E as [E|[E|[]]]; [|subst d; left; exists p; split; auto].
      destruct (k_imp0 d E) as [[q [A B]]|[[c [A B]]|A]]; auto.
      * left. exists q. split; auto. destruct B; auto. left. apply tr_app; auto.
      * right; left. exists c. split; auto. apply sub_app; auto.
    + intros q w' E. congruence.
    + intros c q C. apply inDb_impD in C as [C|C]; [eauto|subst c; auto].
    + intros x X. apply in_app_or in X as [X|[X|[]]]; auto. subst x. cbn. lia.
Qed.
Lemma core_empty : b_dl s = 0 -> (forall q, In q c0 -> zf (b_trail s) q) -> forall x, Core n (set_conf s (Some (x, Fact))) (impD D c0) G.
Proof.
  intros DL H x. generalize K. intros K1. kd K1. constructor; auto.
  - intros t1 e t2 E. apply (jst_mono D); eauto. intros c. apply in_impD.
  - intros c C. destruct (k_good0 c C) as [A [B [d [E F']]]]. sp; auto. exists d. split; auto. apply in_impD; auto.
  - intros d E. right; right. cbn. split; [congruence|auto].
  - intros q w E. right. split; [|left; cbn in E; inversion E; subst; auto]. exists c0. split; [apply inDb_impD; auto|]. intros r R. apply zf_false. auto.
  - intros c q C. apply inDb_impD in C as [C|C]; [eauto|subst c; auto].
Qed.
End Add.

(** Binary and ternary clauses *)
Definition pushb (b : lit -> list lit) x y := upd b (neg x) (b (neg x) ++ [y]).
Definition pusht (t : lit -> list (lit * lit)) x y z := upd t (neg x) (t (neg x) ++ [(y, z)]).
Lemma push_in : forall (A : Type) (b : lit -> list A) x y p q, In q (upd b x (b x ++ [y]) p) <-> In q (b p) \/ (p = x /\ q = y).
Proof.
  intros A b x y p q. destruct (lit_eq_dec p x) as [-> |N].
  - rewrite upd_same, in_app_iff. cbn. intuition.
  - rewrite upd_other by auto. intuition.
Qed.
Lemma add_imp_fields : forall s c, b_trail (add_imp s c) = b_trail s /\ b_front (add_imp s c) = b_front s /\ b_dl (add_imp s c) = b_dl s /\
  b_cls (add_imp s c) = b_cls s /\ b_wl (add_imp s c) = b_wl s /\ b_conf (add_imp s c) = b_conf s.
Proof. intros s c. unfold add_imp. destruct c as [|a [|b [|d [|? ?]]]]; cbn; sp; auto. Qed.
Lemma add_imp_root : forall s c, b_root (add_imp s c) = b_root s.
Proof. intros s c. unfold add_imp. destruct c as [|a [|b [|d [|? ?]]]]; reflexivity. Qed.
Lemma add_imp_mono : forall s c, (forall p q, In q (b_bin s p) -> In q (b_bin (add_imp s c) p)) /\ (forall p q, In q (b_tern s p) -> In q (b_tern (add_imp s c) p)).
Proof.
  intros s c. unfold add_imp. destruct c as [|a [|b [|d [|? ?]]]]; cbn; split; auto; intros p q H; rewrite ?push_in; auto.
Qed.
Lemma add_imp_gc : forall s c, length c = 2 \/ length c = 3 -> gc (add_imp s c) c.
Proof.
  intros s c H. unfold add_imp. destruct c as [|a [|b [|d [|? ?]]]]; cbn in H; try lia; cbn; rewrite ?push_in; intuition.
Qed.
Lemma add_imp_bin : forall s c p q, In q (b_bin (add_imp s c) p) -> In q (b_bin s p) \/ (forall x, In x c <-> x = neg p \/ x = q).
Proof.
  intros s c p q. unfold add_imp. destruct c as [|a [|b [|d [|? ?]]]]; cbn; auto. rewrite !push_in.
  intros [[H|[-> ->]]|[-> ->]]; auto; right; intros x; rewrite neg_neg; cbn; intuition.
Qed.
Lemma add_imp_tern : forall s c p u v, In (u, v) (b_tern (add_imp s c) p) -> In (u, v) (b_tern s p) \/ length c = 3 /\ (forall x, In x c <-> x = neg p \/ x = u \/ x = v).
Proof.
  intros s c p u v. unfold add_imp. destruct c as [|a [|b [|d [|? ?]]]]; cbn; auto. rewrite !push_in.
  intros [[[H|[-> E]]|[-> E]]|[-> E]]; auto; inversion E; subst; right; (split; [reflexivity|]); intros x; rewrite neg_neg; cbn; intuition.
Qed.
Lemma core_add_imp : forall n s D G c c0, Core n s D G -> b_conf s = None -> (forall q, In q c0 -> fst q <= n) ->
  length c = 2 \/ length c = 3 -> NoDup (map fst c) -> sub (b_trail s) c c0 -> Core n (add_imp s c) (impD D c0) (c :: G).
Proof.
  intros n s D G c c0 K NC VC LE ND SB. destruct (add_imp_fields s c) as [F1 [F2 [F3 [F4 [F5 F6]]]]]. destruct (add_imp_mono s c) as [M1 M2].
  kd K. constructor; rewrite ?F1, ?F2, ?F3, ?F4, ?F6, ?add_imp_root; auto.
  - intros t1 e t2 E. apply (jst_mono D); eauto. intros d. apply in_impD.
  - intros e E i d X Y. unfold cl in Y. rewrite F4 in Y. apply (k_lock0 e E i d X Y).
  - intros i d Y. unfold cl in Y. rewrite F4 in Y. apply (k_rep0 i d Y).
  - intros i d Y. unfold cl. rewrite F4. apply (k_rep20 i d Y).
  - intros d [<-|E].
    + sp; auto; [apply add_imp_gc; auto|]. exists c0. split; auto. cbn. apply in_or_app. right. now left.
    + destruct (k_good0 d E) as [A [B [d0 [C1 C2]]]]. sp; auto.
      * destruct d as [|x [|y [|z [|? ?]]]]; cbn in *; intuition.
      * exists d0. split; auto. apply in_impD; auto.
  - intros d E. cbn in E. apply in_app_or in E as [E|[E|[]]].
    + destruct (k_imp0 d E) as [A|[[x [A B]]|[A _]]]; [left; auto|right; left|congruence]. exists x. split; auto. now right.
    + subst d. right; left. exists c. split; auto. now left.
  - intros p q H. apply add_imp_bin in H as [H|H].
    + destruct (k_gb0 p q H) as [x [A B]]. exists x. split; auto. now right.
    + exists c. split; auto. now left.
  - intros p x y H. apply add_imp_tern in H as [H|H].
    + destruct (k_gt0 p x y H) as [z [A B]]. exists z. split; auto. now right.
    + exists c. destruct H. sp; auto. now left.
  - congruence.
  - intros d q C. apply inDb_impD in C as [C|C]; [eauto|subst d; auto].
Qed.

(** Other clauses *)
Lemma mk_wf : forall sh (c : list lit), 2 <= length c -> NoDup (map fst c) -> (forall q, In q c -> fst q <> 0) ->
  wfc (mk_clause sh c) /\ (forall q, In q (clits (mk_clause sh c)) <-> In q c) /\ h0 (mk_clause sh c) = nth 0 c lit_false /\ h1 (mk_clause sh c) = nth 1 c lit_false.
Proof.
  intros sh c LE ND NZ. assert (NF : forall q, In q c -> nf q = true).
  { intros q Q. apply nf_iff. intros ->. apply (NZ _ Q). reflexivity. }
  assert (FE : filter nf c = c) by (apply filter_all; auto).
  assert (PERM : Permutation (clits (mk_clause sh c)) c).
  { unfold mk_clause. destruct (Nat.leb (length c) 5) eqn:L.
    - apply Nat.leb_le in L. destruct c as [|a [|b [|d [|x [|y [|? ?]]]]]]; cbn in LE, L; try lia; unfold clits; cbn [bd h0 h1 h2 nth]; cbn [filter].
      + reflexivity.
      + rewrite (NF d) by (cbn; tauto). change (nf lit_false) with false. reflexivity.
      + rewrite (NF d), (NF x) by (cbn; tauto). change (nf lit_false) with false. reflexivity.
      + rewrite (NF d), (NF x), (NF y) by (cbn; tauto). reflexivity.
    - apply Nat.leb_gt in L. destruct sh; [reflexivity|]. destruct c as [|a [|b [|d r]]]; cbn in L; try lia. reflexivity. }
  assert (H0 : h0 (mk_clause sh c) = nth 0 c lit_false) by reflexivity.
  assert (H1 : h1 (mk_clause sh c) = nth 1 c lit_false) by reflexivity.
  assert (H2 : h2 (mk_clause sh c) = nth 2 c lit_false) by reflexivity.
  assert (IN : forall q, In q (clits (mk_clause sh c)) <-> In q c).
  { intros q. split; apply Permutation_in; auto. now apply Permutation_sym. }
  assert (NTH : forall i j, i < length c -> j < length c -> nth i c lit_false = nth j c lit_false -> i = j).
  { apply NoDup_nth. apply nodup_map_fst; auto. }
  sp; auto. constructor.
  - eapply Permutation_NoDup; [apply Permutation_sym, Permutation_map, PERM|auto].
  - intros q Q. apply NZ, IN. auto.
  - intros b. apply IN. destruct b; cbn [head]; rewrite ?H0, ?H1; apply nth_In; lia.
  - rewrite H0, H1. intros E. apply NTH in E; lia.
  - rewrite H2. destruct (Nat.lt_ge_cases 2 (length c)) as [L|L]; [right; apply IN, nth_In; auto|left; apply nth_overflow; auto].
  - intros b. rewrite H2. destruct (Nat.lt_ge_cases 2 (length c)) as [L|L].
    + intros E. destruct b; cbn [head] in E; rewrite ?H0, ?H1 in E; apply NTH in E; lia.
    + rewrite (nth_overflow c) by auto. destruct b; cbn [head]; rewrite ?H0, ?H1; intros E.
      * apply (NZ (nth 1 c lit_false)); [apply nth_In; lia|]. rewrite <- E. reflexivity.
      * apply (NZ (nth 0 c lit_false)); [apply nth_In; lia|]. rewrite <- E. reflexivity.
  - unfold smOk, mk_clause. cbn [bd h2]. destruct (Nat.leb (length c) 5); [|destruct sh; exact I].
    assert (N : forall i, nth i c lit_false = lit_false -> nth (S i) c lit_false = lit_false).
    { intros i E. apply nth_overflow. destruct (Nat.lt_ge_cases i (length c)) as [L|L]; [|lia]. exfalso. apply (NZ (nth i c lit_false)); [apply nth_In; auto|]. rewrite E. reflexivity. }
    split; apply N.
Qed.

Lemma attach_cl : forall s c j, cl (attach s c) j = if Nat.eqb j (length (b_cls s)) then Some c else cl s j.
Proof.
  intros s c j. unfold cl, attach. cbn. destruct (Nat.eqb_spec j (length (b_cls s))) as [-> |N].
  - rewrite app_nth2 by lia. now rewrite Nat.sub_diag.
  - destruct (Nat.lt_ge_cases j (length (b_cls s))) as [L|L]; [apply app_nth1; auto|].
    rewrite nth_overflow by (rewrite app_length; cbn; lia). rewrite nth_overflow; auto.
Qed.
Lemma cl_lt : forall s i c, cl s i = Some c -> i < length (b_cls s).
Proof. intros s i c H. unfold cl in H. destruct (Nat.lt_ge_cases i (length (b_cls s))); auto. rewrite nth_overflow in H by auto. discriminate. Qed.
Lemma core_attach : forall n s D G c c0, Core n s D G -> b_conf s = None -> (forall q, In q c0 -> fst q <= n) ->
  wfc c -> sub (b_trail s) (clits c) c0 -> Core n (attach s c) (expD D c0) G.
Proof.
  intros n s D G c c0 K NC VC W SB.
  assert (OLD : forall i d, nth_error (d_exp D) i = Some (Some d) -> nth_error (d_exp (expD D c0)) i = Some (Some d)).
  { intros i d H. cbn. rewrite nth_error_app1; auto. apply nth_error_Some. congruence. }
  kd K. constructor; auto.
  - intros t1 e t2 E. apply (jst_mono D); eauto.
  - intros e E i d X Y. rewrite attach_cl in Y. destruct (Nat.eqb_spec i (length (b_cls s))) as [-> |N]; [|exact (k_lock0 e E i d X Y)].
    exfalso. apply in_split in E as [t1 [t2 E]]. destruct (k_just0 t1 e t2 E) as [J|[J|J]].
    + congruence.
    + destruct J; congruence.
    + rewrite X in J. cbn in J. destruct J as [d0 [J _]]. assert (length (b_cls s) < length (d_exp D)) by (apply nth_error_Some; congruence). lia.
  - cbn. rewrite !app_length. cbn. lia.
  - intros i d Y. rewrite attach_cl in Y. destruct (Nat.eqb_spec i (length (b_cls s))) as [-> |N].
    + inversion Y; subst d. split; auto. exists c0. split; auto. cbn. rewrite nth_error_app2 by lia. rewrite k_len0, Nat.sub_diag. reflexivity.
    + destruct (k_rep0 i d Y) as [A [d0 [B1 B2]]]. split; auto. exists d0. split; auto.
  - intros i d Y. rewrite attach_cl. destruct (Nat.eqb_spec i (length (b_cls s))) as [-> |N]; [eauto|]. cbn in Y.
    assert (LI : i < length (d_exp D ++ [Some c0])) by (apply nth_error_Some; intros Z; discriminate (eq_trans (eq_sym Z) Y)).
    rewrite app_length in LI. cbn in LI. rewrite nth_error_app1 in Y by lia. exact (k_rep20 i d Y).
  - intros p w E. cbn in E. congruence.
  - intros d q C. apply inDb_expD in C as [C|C]; [eauto|subst d; auto].
Qed.

Lemma attach_wlok : forall s c, wlok (b_wl s) s -> h0 c <> h1 c -> wlok (b_wl (attach s c)) (attach s c).
Proof.
  intros s c WL N q. set (i := length (b_cls s)).
  assert (NI : forall r, ~ In i (b_wl s r)). { intros r R. apply (proj2 (WL r) i) in R as [d [R _]]. apply cl_lt in R. unfold i in R. lia. }
  assert (E : b_wl (attach s c) q = b_wl s q ++ (if lit_eqb q (neg (h0 c)) || lit_eqb q (neg (h1 c)) then [i] else [])).
  { unfold attach. cbn. unfold upd. destruct (lit_eqb q (neg (h1 c))) eqn:E1.
    - apply lit_eqb_eq in E1. subst q. destruct (lit_eqb (neg (h1 c)) (neg (h0 c))) eqn:E0; auto.
      apply lit_eqb_eq in E0. apply neg_inj in E0. congruence.
    - destruct (lit_eqb q (neg (h0 c))) eqn:E0; cbn; [apply lit_eqb_eq in E0; now subst q|now rewrite app_nil_r]. }
  destruct (WL q) as [W1 W2]. rewrite E. split.
  - destruct (lit_eqb q (neg (h0 c)) || lit_eqb q (neg (h1 c))); [|now rewrite app_nil_r].
    eapply Permutation_NoDup; [apply Permutation_cons_append|]. constructor; auto.
  - intros j. rewrite in_app_iff, W2. rewrite attach_cl. fold i. destruct (Nat.eqb_spec j i) as [-> |NE].
    + split.
      * intros [[d [H _]]|H]; [apply cl_lt in H; unfold i in H; lia|]. exists c. split; auto.
        destruct (lit_eqb q (neg (h0 c))) eqn:E0; [apply lit_eqb_eq in E0; exists false; auto|].
        destruct (lit_eqb q (neg (h1 c))) eqn:E1; [apply lit_eqb_eq in E1; exists true; auto|]. destruct H.
      * intros [d [H [b B]]]. inversion H; subst d. right. destruct b; cbn [head] in B; subst q; rewrite lit_eqb_refl, ?orb_true_r; now left.
    + split; [intros [H|H]; auto|auto]. destruct (_ || _); destruct H; [congruence|contradiction].
Qed.

(** A literal gets another reason and a lower level on which it is implied *)
Definition relogf (p : lit) (l : nat) (w : why) (e : ent) : ent := if lit_eqb (e_lit e) p then Ent p (e_lev e) w l else e.
Lemma relogf_same : forall p l w e, e_lit (relogf p l w e) = e_lit e /\ e_lev (relogf p l w e) = e_lev e.
Proof. intros p l w e. unfold relogf. destruct (lit_eqb (e_lit e) p) eqn:E; auto. apply lit_eqb_eq in E. cbn. auto. Qed.
Section Relog.
Variables (n : nat) (s : st) (D D' : db) (G : list (list lit)) (p : lit) (l : nat) (w : why) (ep : ent).
Hypothesis (K : Core n s D G) (NC : b_conf s = None) (EP : In ep (b_trail s)) (EL : e_lit ep = p) (LL : l < e_lev ep) (LG : l <= e_log ep) (LR : e_lev ep <= b_root s).
Hypothesis (DD : D' = D \/ exists c0, D' = impD D c0 /\ In p c0 /\ l = 0 /\ (forall q, In q c0 -> fst q <= n)).
Hypothesis (JW : jw D' (kept l (b_trail s)) p w l) (LK : locks s p w).
Let s' := relog s p l w.
Lemma relog_trail : b_trail s' = map (relogf p l w) (b_trail s).
Proof. reflexivity. Qed.
Lemma relog_mono : forall t q L, (forall e, In e t -> In e (b_trail s)) -> tr t q L -> tr (map (relogf p l w) t) q L.
Proof.
  intros t q L IN [e [A [B C]]]. exists (relogf p l w e). sp; [apply in_map; auto|destruct (relogf_same p l w e); congruence|].
  unfold relogf. destruct (lit_eqb (e_lit e) p) eqn:E; auto. apply lit_eqb_eq in E. cbn.
  assert (e = ep). { apply (nd_ent (b_trail s)); auto; [apply (k_nd _ _ _ _ K)|unfold litOf; congruence]. } subst e. lia.
Qed.
Lemma relog_tr : forall q L, tr (b_trail s) q L -> tr (b_trail s') q L.
Proof. intros q L H. rewrite relog_trail. apply relog_mono; auto. Qed.
Lemma relog_p : tr (b_trail s') p l.
Proof.
  exists (relogf p l w ep). rewrite relog_trail. sp; [apply in_map; auto|destruct (relogf_same p l w ep); congruence|].
  unfold relogf. rewrite EL, lit_eqb_refl. cbn. lia.
Qed.
Lemma relog_sub : forall c c0, sub (b_trail s) c c0 -> sub (b_trail s') c c0.
Proof. intros c c0 [A B]. split; auto. intros q Q. destruct (B q Q); auto. right. apply relog_tr. auto. Qed.
Lemma relog_core : Core n s' D' G.
Proof.
  pose proof relog_trail as RT. pose proof relog_tr as TR. pose proof relog_mono as RM. pose proof relog_sub as RS. pose proof relog_p as RP.
  generalize K. intros K1. kd K1.
  assert (DJ : forall t e, jst D t e -> jst D' t e).
  { intros t e. destruct DD as [->|[c0 [-> _]]]; auto. apply jst_mono; auto. intros c. apply in_impD. }
  assert (DI : forall c, In c (d_imp D) -> In c (d_imp D')). { destruct DD as [->|[c0 [-> _]]]; auto. intros c. apply in_impD. }
  assert (DE : d_exp D' = d_exp D). { destruct DD as [->|[c0 [-> _]]]; auto. }
  constructor; auto.
  - rewrite RT, map_map. replace (map (fun x => litOf (relogf p l w x)) (b_trail s)) with (map litOf (b_trail s)); auto.
    apply map_ext. intros e. unfold litOf. destruct (relogf_same p l w e). congruence.
  - intros e E. rewrite RT in E. apply in_map_iff in E as [e0 [<- E]]. destruct (relogf_same p l w e0) as [_ ->]. apply (k_lv0 e0 E).
  - intros t1 e t2 H e' E'. rewrite RT in H. apply map_split in H as [u1 [x [u2 [B1 [B2 B3]]]]]. subst t1 e. apply in_map_iff in E' as [e0 [<- E0]].
    destruct (relogf_same p l w e0) as [_ ->]. destruct (relogf_same p l w x) as [_ ->]. eauto.
  - destruct k_sent0 as [e [E1 [E2 [E3 E4]]]]. exists e. sp; auto. rewrite RT. apply in_map_iff. exists e. split; auto.
    unfold relogf. destruct (lit_eqb (e_lit e) p) eqn:E; auto. apply lit_eqb_eq in E. exfalso.
    assert (e = ep). { apply (nd_ent (b_trail s)); auto. unfold litOf. congruence. } subst e. lia.
  - intros e E. rewrite RT in E. apply in_map_iff in E as [e0 [<- E]]. unfold litOf. destruct (relogf_same p l w e0) as [-> _]. apply (k_var0 e0 E).
  - rewrite RT, map_length. auto.
  - intros e E. rewrite RT in E. rewrite skipn_map in E. apply in_map_iff in E as [e0 [<- E]]. destruct (relogf_same p l w e0) as [_ ->]. apply (k_queue0 e0 E).
  - intros t1 e t2 H. rewrite RT in H. apply map_split in H as [u1 [x [u2 [B1 [B2 B3]]]]]. subst t1 e.
    assert (IX : In x (b_trail s)) by (rewrite B1; apply in_or_app; right; now left).
    unfold relogf at 2. destruct (lit_eqb (e_lit x) p) eqn:E.
    + apply lit_eqb_eq in E. assert (x = ep) by (apply (nd_ent (b_trail s)); auto; unfold litOf; congruence). subst x.
      right; right. cbn [e_lit e_why e_log]. revert JW. apply jw_trail. intros q L HL [z [Z1 [Z2 Z3]]]. apply filter_In in Z1 as [Z1 Z4]. apply Nat.leb_le in Z4.
      apply RM; [intros y Y; rewrite B1; apply in_or_app; auto|]. exists z. sp; auto.
      rewrite B1 in Z1. apply in_app_or in Z1 as [Z1|[Z1|Z1]]; auto; [subst z; lia|]. exfalso. apply in_split in Z1 as [v1 [v2 V]].
      pose proof (k_so0 (u1 ++ ep :: v1) z v2) as X. rewrite <- app_assoc in X. cbn in X. rewrite <- V in X. specialize (X B1 ep). rewrite in_app_iff in X. cbn in X. intuition lia.
    + apply DJ. destruct (k_just0 u1 x u2 B1) as [J|[J|J]]; [now left|now (right; left)|right; right]. revert J. apply jw_trail. intros q L HL. apply RM. intros y Y. rewrite B1. apply in_or_app; auto.
  - intros e E. rewrite RT in E. apply in_map_iff in E as [e0 [<- E]]. unfold relogf. destruct (lit_eqb (e_lit e0) p); [exact LK|exact (k_lock0 e0 E)].
  - cbn. rewrite DE. auto.
  - intros i c C. destruct (k_rep0 i c C) as [A [d [B1 B2]]]. split; auto. exists d. rewrite DE. auto.
  - intros i c C. rewrite DE in C. apply (k_rep20 i c C).
  - intros c C. destruct (k_good0 c C) as [A [B [d [C1 C2]]]]. sp; auto. exists d. auto.
  - intros d E. assert (X : In d (d_imp D) \/ In p d /\ l = 0). { destruct DD as [->|[c0 [-> [C1 [C2 C3]]]]]; auto. cbn in E. apply in_app_or in E as [E|[<-|[]]]; auto. }
    destruct X as [X|[X L0]]; [|left; exists p; split; auto; left; subst l; exact RP].
    destruct (k_imp0 d X) as [[q [A B]]|[[c [A B]]|[A _]]]; [left|right; left|congruence].
    + exists q. split; auto. destruct B; auto.
    + exists c. auto.
  - intros q w' E. cbn in E. congruence.
  - intros d q C Q. assert (X : inDb D d \/ fst q <= n). { destruct DD as [->|[c0 [-> [C1 [C2 C3]]]]]; auto. apply inDb_impD in C as [C|C]; auto. subst d. auto. }
    destruct X; eauto.
  - intros e E. rewrite RT in E. apply in_map_iff in E as [e0 [<- E]]. unfold relogf. destruct (lit_eqb (e_lit e0) p) eqn:X; [|apply (k_log0 e0 E)].
    apply lit_eqb_eq in X. assert (e0 = ep) by (apply (nd_ent (b_trail s)); auto; unfold litOf; congruence). subst e0. cbn. lia.
Qed.
Lemma relog_proc : forall e, In e (Proc s') <-> exists e0, In e0 (Proc s) /\ e = relogf p l w e0.
Proof.
  intros e. unfold Proc. change (b_conf s') with (b_conf s). rewrite NC. change (b_front s') with (b_front s). rewrite relog_trail, firstn_map, in_map_iff.
  split; intros [x X]; exists x; intuition.
Qed.
Lemma relog_W : forall c, Wcl (b_trail s) (Proc s) c -> Wcl (b_trail s') (Proc s') c.
Proof. intros c W b e E1 E2. apply relog_proc in E1 as [e0 [E1 ->]]. destruct (relogf_same p l w e0) as [X ->]. apply relog_tr. apply (W b e0); auto. congruence. Qed.
Lemma relog_U : forall c, Ucl (b_trail s) (Proc s) c -> Ucl (b_trail s') (Proc s') c.
Proof.
  intros c U a L A H. apply relog_tr. apply (U a L A). intros b B1 B2. destruct (H b B1 B2) as [e [E1 [E2 E3]]]. apply relog_proc in E1 as [e0 [E1 ->]].
  destruct (relogf_same p l w e0) as [X Y]. exists e0. sp; auto; congruence.
Qed.
Lemma relog_inv : InvG n s D G -> InvG n s' D' G.
Proof.
  intros [_ [WL [DW DU]]]. split; [apply relog_core|split; [|split]]; auto.
  - intros i c C. apply relog_W. apply (DW i c C).
  - intros c C. apply relog_U. auto.
Qed.
End Relog.

(** What the first two literals of a new clause must satisfy *)
Definition fresh (s : st) (p q : lit) : Prop :=
  (forall e, In e (Proc s) -> e_lit e <> neg p) /\ (forall e, In e (Proc s) -> e_lit e = neg q -> tr (b_trail s) p (e_lev e)).
Lemma fresh_W : forall s c, fresh s (h0 c) (h1 c) -> Wcl (b_trail s) (Proc s) c.
Proof.
  intros s c [A B] b e E1 E2. destruct b; cbn [head negb] in *.
  - apply B; auto.
  - exfalso. apply (A e); auto.
Qed.
Lemma fresh_U : forall s p q rest, p <> q -> fresh s p q -> Ucl (b_trail s) (Proc s) (p :: q :: rest).
Proof.
  intros s p q rest N [A B] a L I H. destruct (lit_eq_dec a p) as [-> |NP].
  - destruct (H q ltac:(cbn; auto) ltac:(congruence)) as [e [E1 [E2 E3]]]. destruct (B e E1 E2) as [x [X1 [X2 X3]]]. exists x. sp; auto. lia.
  - destruct (H p ltac:(cbn; auto) ltac:(congruence)) as [e [E1 [E2 E3]]]. exfalso. apply (A e); auto.
Qed.
Lemma proc_trail : forall s e, In e (Proc s) -> In e (b_trail s).
Proof.
  intros s e E. unfold Proc in E. destruct (b_conf s); [apply filter_In in E; tauto|].
  rewrite <- (firstn_skipn (b_front s) (b_trail s)). apply in_or_app. auto.
Qed.

Definition nfres (n : nat) (D : db) (G : list (list lit)) (s s' : st) (p q : lit) : Prop :=
  Core n s' D G /\ b_cls s' = b_cls s /\ b_wl s' = b_wl s /\
  (forall c, Wcl (b_trail s) (Proc s) c -> Wcl (b_trail s') (Proc s') c) /\
  (forall c, Ucl (b_trail s) (Proc s) c -> Ucl (b_trail s') (Proc s') c) /\ fresh s' p q.
Lemma nf_trans : forall n D G s s1 s' p q, b_cls s1 = b_cls s -> b_wl s1 = b_wl s ->
  (forall c, Wcl (b_trail s) (Proc s) c -> Wcl (b_trail s1) (Proc s1) c) ->
  (forall c, Ucl (b_trail s) (Proc s) c -> Ucl (b_trail s1) (Proc s1) c) -> nfres n D G s1 s' p q -> nfres n D G s s' p q.
Proof. intros n D G s s1 s' p q A B W U [K [C1 [C2 [C3 [C4 C5]]]]]. unfold nfres. sp; auto; congruence. Qed.
Lemma fresh_true : forall n s D G p q eq, Core n s D G -> In eq (b_trail s) -> e_lit eq = neg q -> tr (b_trail s) p (e_lev eq) -> fresh s p q.
Proof.
  intros n s D G p q eq K IQ EQ T. split.
  - intros e E1 E2. apply (tt_ff (b_trail s) p (k_nd _ _ _ _ K)); [eapply tr_true; eauto|]. exists e. split; auto. apply proc_trail; auto.
  - intros e E1 E2. replace e with eq; auto. apply (nd_ent (b_trail s)); auto; [apply (k_nd _ _ _ _ K)|apply proc_trail; auto|unfold litOf; congruence].
Qed.
Lemma nf_force : forall n s D G p q eq w, Core n s D G -> b_conf s = None -> fst p <= n ->
  In eq (b_trail s) -> e_lit eq = neg q -> locks s p w -> jw D (b_trail s) p w (e_lev eq) ->
  e_lev eq = b_dl s \/ b_dl s <= b_root s /\ isT s p = false /\ isF s p = false ->
  (forall e, In e (b_trail s) -> e_lit e = neg p -> e_lev eq <= e_lev e) ->
  nfres n D G s (fst (forceG s p w (e_lev eq))) p q.
Proof.
  intros n s D G p q eq w K NC V IQ EQ LK J LD FP. set (l := e_lev eq) in *.
  assert (LE : l <= b_dl s) by (apply (k_lv _ _ _ _ K); auto).
  destruct (forceG_spec n s D G p w l K NC V J LK LE ltac:(tauto)) as [K' [GR [C1 [C2 [OK NO]]]]].
  set (s' := fst (forceG s p w l)) in *. destruct GR as [[x X] [FR [DL _]]].
  assert (SUB : forall e, In e (Proc s') -> In e (Proc s)).
  { intros e E. apply (proc_sub n s' D G K') in E. rewrite FR, X, firstn_grow in E by apply (k_front _ _ _ _ K). unfold Proc. rewrite NC. exact E. }
  assert (IQ' : In eq (b_trail s')) by (rewrite X; apply in_or_app; auto).
  unfold nfres. sp; auto; [rewrite X; intros c C; eapply Wcl_mono; eauto|rewrite X; intros c C; eapply Ucl_mono; eauto|].
  destruct (snd (forceG s p w l)) eqn:OKE.
  - destruct (OK eq_refl) as [_ T]. apply (fresh_true n s' D G p q eq); auto. fold l. destruct LD as [LD|[LD [T1 T2]]].
    + rewrite LD, <- DL. apply (tTrue_lev _ _ _ _ _ K' T).
    + unfold s', forceG. rewrite T1, T2. cbn. exists (Ent p (b_dl s) w l). sp; auto. apply in_or_app. right. now left.
  - destruct (NO eq_refl) as [CF TE]. destruct LD as [LD|[_ [T1 T2]]]; [|unfold forceG in OKE; rewrite T1, T2 in OKE; discriminate].
    assert (PL : forall e, In e (Proc s') -> In e (b_trail s) /\ e_lev e < l).
    { intros e A. unfold Proc in A. destruct (b_conf s'); [|congruence]. apply filter_In in A as [A B]. apply Nat.ltb_lt in B. rewrite TE in A. split; auto. lia. }
    split.
    + intros e A B. apply PL in A as [A A']. specialize (FP e A B). lia.
    + intros e A B. exfalso. pose proof (PL e A) as [Y X1]. assert (e = eq). { apply (nd_ent (b_trail s)); auto; [apply (k_nd _ _ _ _ K)|unfold litOf; congruence]. } subst e. unfold l in X1. lia.
Qed.
Lemma log_in : forall n s D G e p, Core n s D G -> In e (b_trail s) -> e_lit e = p -> logOf s p = e_log e.
Proof. intros n s D G e p K E H. unfold logOf. rewrite <- H. change (fst (e_lit e)) with (litOf e). rewrite (entry_in n s D G K e E). reflexivity. Qed.
Lemma new_forced : forall n s D G p q eq w, Core n s D G -> b_conf s = None -> fst p <= n ->
  In eq (b_trail s) -> e_lit eq = neg q -> locks s p w -> jw D (kept (e_lev eq) (b_trail s)) p w (e_lev eq) ->
  (forall e, In e (b_trail s) -> e_lit e = neg p -> e_lev eq <= e_lev e) ->
  (e_lev eq < b_root s -> forall e, In e (b_trail s) -> e_lit e = neg p -> b_root s < e_lev e) ->
  nfres n D G s (fst (forceAt s p (e_lev eq) w)) p q.
Proof.
  intros n s D G p q eq w K NC V IQ EQ LK JW FP CL. set (l := e_lev eq) in *.
  assert (LD : l <= b_dl s) by (apply (k_lv _ _ _ _ K); auto).
  assert (J : jw D (b_trail s) p w l). { revert JW. apply jw_trail. intros x L _ [e [A B]]. exists e. split; auto. apply filter_In in A. tauto. }
  assert (SAME : fresh s p q -> nfres n D G s s p q) by (intros F; unfold nfres; sp; auto).
  unfold forceAt. destruct (Nat.eqb_spec l (b_dl s)) as [E|N].
  { unfold force. rewrite <- E. apply nf_force; auto. }
  assert (TE : isT s p = true -> exists ep, In ep (b_trail s) /\ e_lit ep = p /\ lev s p = e_lev ep /\ logOf s p = e_log ep).
  { intros T. apply isT_iff in T as [ep [A B]]. exists ep. sp; auto; [apply (lev_in n s D G K); auto; unfold litOf; congruence|eapply log_in; eauto]. }
  destruct (isT s p && (lev s p <=? l)) eqn:X1.
  { apply andb_true_iff in X1 as [T L]. apply Nat.leb_le in L. destruct (TE T) as [ep [A [B [C1 C2]]]]. cbn [fst]. apply SAME.
    apply (fresh_true n s D G p q eq); auto. exists ep. sp; auto. pose proof (k_log _ _ _ _ K ep A). fold l. lia. }
  destruct (isT s p && (logOf s p <? lev s p)) eqn:X2.
  { apply andb_true_iff in X2 as [T L]. apply Nat.ltb_lt in L. destruct (TE T) as [ep [A [B [C1 C2]]]]. rewrite T in X1. cbn in X1. apply Nat.leb_gt in X1.
    pose proof (k_log _ _ _ _ K ep A) as KL. destruct (Nat.ltb_spec l (logOf s p)) as [Y|Y]; cbn [fst].
    - assert (K' : Core n (relog s p l w) D G) by (apply (relog_core n s D D G p l w ep); auto; lia).
      unfold nfres. sp; auto.
      + intros c. apply (relog_W n s D D G p l w ep); auto; lia.
      + intros c. apply (relog_U n s D D G p l w ep); auto; lia.
      + apply (fresh_true n _ D G p q (relogf p l w eq)); auto.
        * rewrite relog_trail. apply in_map. auto.
        * destruct (relogf_same p l w eq). congruence.
        * destruct (relogf_same p l w eq) as [_ ->]. apply (relog_p s p l w ep); auto; lia.
    - apply SAME. apply (fresh_true n s D G p q eq); auto. exists ep. sp; auto. fold l. lia. }
  set (s1 := undo s l). set (m := Nat.max l (b_root s)).
  assert (S1 : Core n s1 D G /\ b_conf s1 = None /\ b_cls s1 = b_cls s /\ b_wl s1 = b_wl s /\ b_dl s1 = m /\ b_root s1 = b_root s /\
     (forall e, In e (b_trail s1) <-> In e (b_trail s) /\ e_lev e <= m) /\
     (forall c, Wcl (b_trail s) (Proc s) c -> Wcl (b_trail s1) (Proc s1) c) /\ (forall c, Ucl (b_trail s) (Proc s) c -> Ucl (b_trail s1) (Proc s1) c)).
  { unfold s1. destruct (Nat.lt_ge_cases m (b_dl s)) as [LT|GE].
    - rewrite undo_max. fold m. assert (R : b_root s <= m) by lia. pose proof (undo_in n s D G m) as UI. pose proof (undo_core n s D G (b_root s) m K LT R ltac:(auto)) as UC.
      pose proof (undo_W n s D G (b_root s) m K LT R) as UW. pose proof (undo_U n s D G (b_root s) m K LT R) as UU. rewrite setRoot_id in *.
      sp; auto; rewrite (undo_eq n s D G m K R LT); auto.
    - pose proof (k_root _ _ _ _ K). rewrite undo_ge by (fold m; auto). sp; auto; [lia|]. intros e. split; [|tauto]. intros E. split; auto. pose proof (k_lv _ _ _ _ K e E). lia. }
  destruct S1 as [K1 [NC1 [E2 [E3 [E4 [E5 [UI [UW UU]]]]]]]].
  assert (IQ1 : In eq (b_trail s1)) by (apply UI; split; auto; fold l; lia).
  assert (LK1 : locks s1 p w). { intros i c X Y. unfold cl in Y. rewrite E2 in Y. apply (LK i c X Y). }
  apply (nf_trans n D G s s1); auto. destruct (isT s1 p) eqn:T1; cbn [fst].
  - apply isT_iff in T1 as [ep [A B]]. apply UI in A as [A A']. assert (T : isT s p = true) by (apply isT_iff; exists ep; auto).
    rewrite T in X1, X2. cbn in X1, X2. apply Nat.leb_gt in X1. apply Nat.ltb_ge in X2.
    assert (C1 : lev s p = e_lev ep) by (apply (lev_in n s D G K); auto; unfold litOf; congruence). assert (C2 := log_in n s D G ep p K A B).
    assert (A1 : In ep (b_trail s1)) by (apply UI; auto). assert (LR : e_lev ep <= b_root s1) by lia.
    assert (JW1 : jw D (kept l (b_trail s1)) p w l).
    { revert JW. apply jw_trail. intros x L _ [e [Y1 Y2]]. exists e. split; auto. apply filter_In in Y1 as [Y1 Y3]. apply filter_In. split; auto. apply UI. apply Nat.leb_le in Y3. split; auto. lia. }
    assert (K' : Core n (relog s1 p l w) D G) by (apply (relog_core n s1 D D G p l w ep); auto; lia).
    unfold nfres. sp; auto.
    + intros c. apply (relog_W n s1 D D G p l w ep); auto; lia.
    + intros c. apply (relog_U n s1 D D G p l w ep); auto; lia.
    + apply (fresh_true n _ D G p q (relogf p l w eq)); auto.
      * rewrite relog_trail. apply in_map. auto.
      * destruct (relogf_same p l w eq). congruence.
      * destruct (relogf_same p l w eq) as [_ ->]. apply (relog_p s1 p l w ep); auto; lia.
  - apply nf_force; auto.
    + revert JW. apply jw_trail. intros x L _ [e [Y1 Y2]]. exists e. split; auto. apply filter_In in Y1 as [Y1 Y3]. apply UI. apply Nat.leb_le in Y3. split; auto. lia.
    + fold l. rewrite E4, E5. destruct (Nat.le_gt_cases (b_root s) l); [left; lia|right]. sp; auto; [lia|].
      destruct (isF s1 p) eqn:F1; auto. apply isF_iff in F1 as [e [A B]]. apply UI in A as [A A']. specialize (CL ltac:(lia) e A B). lia.
    + intros e A B. apply UI in A as [A _]. apply FP; auto.
Qed.

(** Picking other watches among free literals *)
Lemma set_nth_put : forall (l : list lit) i x, i < length l -> set_nth i x l = put_at l i x.
Proof. induction l as [|a l IH]; cbn; intros i x H; [lia|]. destruct i as [|i]; [reflexivity|]. unfold set_nth in *. cbn. f_equal. apply IH. lia. Qed.
Lemma swap_perm : forall (l : list lit) i j, i < length l -> j < length l -> Permutation l (swap i j l).
Proof.
  intros l i j I J. unfold swap. rewrite (set_nth_put l i) by auto. rewrite set_nth_put by (rewrite put_at_length; auto).
  apply Permutation_cons_inv with (a := nth j l lit_true).
  eapply perm_trans; [apply (perm_put l i (nth j l lit_true) lit_true I)|].
  eapply perm_trans; [apply (perm_put (put_at l i (nth j l lit_true)) j (nth i l lit_true) lit_true); rewrite put_at_length; auto|].
  destruct (Nat.eq_dec i j) as [<-|N]; [rewrite put_at_same by auto|rewrite put_at_other by auto]; reflexivity.
Qed.
