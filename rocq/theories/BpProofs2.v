From Coq Require Import List Bool Arith ZArith Lia Permutation.
From Verif Require Import Base ClModel ClSpec ClProofs BpModel BpSpec BpProofs.
Import ListNotations.

Definition InvG (n : nat) (s : st) (D : db) (G : list (list lit)) : Prop := Core n s D G /\ wlok (b_wl s) s /\ Dyn s G (Proc s).

Lemma Dyn_sub : forall s G P P', Dyn s G P -> (forall e, In e P' -> In e P) -> Dyn s G P'.
Proof.
  intros s G P P' [A B] I. split.
  - intros i c C b e E1 E2. exact (A i c C b e (I e E1) E2).
  - intros c C a L H1 H2. apply (B c C a L H1). intros b X Y. destruct (H2 b X Y) as [e [E1 E2]]. exists e. auto.
Qed.
Lemma proc_sub : forall n s D G, Core n s D G -> forall e, In e (Proc s) -> In e (firstn (b_front s) (b_trail s)).
Proof.
  intros n s D G K e H. unfold Proc in H. destruct (b_conf s); auto.
  apply filter_In in H as [H1 H2]. apply Nat.ltb_lt in H2.
  rewrite <- (firstn_skipn (b_front s) (b_trail s)) in H1. apply in_app_or in H1 as [H1|H1]; auto.
  apply (k_queue _ _ _ _ K) in H1. lia.
Qed.
Lemma inv_of : forall n s D G, Core n s D G -> wlok (b_wl s) s -> Dyn s G (firstn (b_front s) (b_trail s)) -> InvG n s D G.
Proof. intros n s D G A B C. split; [|split]; auto. apply (Dyn_sub _ _ _ _ C). apply (proc_sub n s D G A). Qed.

Lemma propagate_spec : forall n D G fuel s, InvG n s D G -> b_conf s = None ->
  forall s' r, propagate fuel s = (s', r) ->
  InvG n s' D G /\ b_dl s' = b_dl s /\ (exists x, b_trail s' = b_trail s ++ x) /\
  (r = Some true -> b_conf s' = None /\ b_front s' = length (b_trail s')) /\
  (r = Some false -> b_conf s' <> None /\ b_front s' = length (b_trail s')) /\
  (r = None -> b_front s' = b_front s + fuel).
Proof.
  induction fuel as [|fuel IH]; intros s I NC s' r E; cbn [propagate] in E.
  - inversion E; subst. sp; auto; try congruence; exists []; now rewrite app_nil_r.
  - destruct I as [K [WL DY]]. destruct (nth_error (b_trail s) (b_front s)) as [e|] eqn:NE.
    + destruct (prop1 s (e_lit e)) as [s1 ok] eqn:P.
      assert (DY0 := DY). unfold Proc in DY. rewrite NC in DY.
      destruct (prop1_spec n s D G e K WL DY NC NE s1 ok P) as [K1 [WL1 [F1 [D1 [[x1 T1] [DY1 [OK NO]]]]]]].
      destruct ok.
      * destruct (OK eq_refl) as [NC1 DY2]. assert (I1 : InvG n s1 D G). { apply inv_of; auto. rewrite F1. auto. }
        destruct (IH s1 I1 NC1 s' r E) as [A [B [[x C] [X1 [X2 X3]]]]]. sp; auto; try congruence.
        -- exists (x1 ++ x). rewrite C, T1. now rewrite app_assoc.
        -- intros H. rewrite (X3 H), F1. lia.
      * inversion E; subst s' r. specialize (NO eq_refl). sp; cbn; auto; try congruence; eauto.
        split; [|split].
        -- apply core_set_front; auto. pose proof (k_front _ _ _ _ K1). lia.
        -- exact WL1.
        -- apply (Dyn_sub (set_front s1 (length (b_trail s1))) G (firstn (b_front s) (b_trail s))); [exact DY1|].
           intros x X. unfold Proc in X. cbn in X. destruct (b_conf s1) as [cf|] eqn:CF; [|congruence].
           apply filter_In in X as [X1 X2]. apply Nat.ltb_lt in X2. rewrite D1 in X2. rewrite T1 in X1.
           assert (LT : b_front s < length (b_trail s)) by (apply nth_error_Some; congruence).
           assert (EL : e_lev e = b_dl s).
           { apply (k_queue _ _ _ _ K). destruct (nth_error_split _ _ NE) as [l1 [l2 [S1 S2]]]. rewrite S1, <- S2. rewrite skipn_app, skipn_all, Nat.sub_diag. now left. }
           rewrite <- (firstn_skipn (S (b_front s)) (b_trail s ++ x1)) in X1. apply in_app_or in X1 as [X1|X1].
           ++ rewrite firstn_grow in X1 by lia. rewrite (nth_error_split_firstn _ _ _ _ NE) in X1.
              apply in_app_or in X1 as [X1|[X1|[]]]; auto. subst x. lia.
           ++ rewrite <- T1, <- F1 in X1. apply (k_queue _ _ _ _ K1) in X1. lia.
    + inversion E; subst. apply nth_error_None in NE. pose proof (k_front _ _ _ _ K). sp; auto; try congruence; try (split; [|split]; auto; fail).
      * exists []; now rewrite app_nil_r.
      * intros _. split; auto. lia.
Qed.

Lemma trail_bound : forall n s D G, Core n s D G -> length (b_trail s) <= S n.
Proof.
  intros n s D G K. rewrite <- (map_length litOf). rewrite <- (seq_length (S n) 0).
  apply NoDup_incl_length; [apply (k_nd _ _ _ _ K)|]. intros v V. apply in_map_iff in V as [e [E1 E2]]. subst v.
  apply in_seq. pose proof (k_var _ _ _ _ K e E2). lia.
Qed.
Lemma propagate_total : forall n D G s, InvG n s D G -> b_conf s = None -> forall s' r, propagate (S (S n)) s = (s', r) -> r <> None.
Proof.
  intros n D G s I NC s' r E H. destruct (propagate_spec n D G _ s I NC s' r E) as [[K _] [_ [_ [_ [_ X]]]]].
  specialize (X H). pose proof (k_front _ _ _ _ K). pose proof (trail_bound _ _ _ _ K). lia.
Qed.

(** * Undoing levels *)
Lemma filter_all : forall (A : Type) (f : A -> bool) l, (forall x, In x l -> f x = true) -> filter f l = l.
Proof. induction l; cbn; intros H; auto. rewrite (H a (or_introl eq_refl)). f_equal. auto. Qed.
Lemma filter_none : forall (A : Type) (f : A -> bool) l, (forall x, In x l -> f x = false) -> filter f l = [].
Proof. induction l; cbn; intros H; auto. rewrite (H a (or_introl eq_refl)). auto. Qed.
Lemma filter_prefix : forall (t : list ent) l, (forall t1 e t2, t = t1 ++ e :: t2 -> forall e', In e' t1 -> e_lev e' <= e_lev e) ->
  exists r, t = filter (fun e => Nat.leb (e_lev e) l) t ++ r.
Proof.
  induction t as [|e t IH]; intros l H; [exists []; reflexivity|]. cbn [filter].
  destruct (Nat.leb_spec (e_lev e) l) as [L|L].
  - destruct (IH l) as [r R]. { intros t1 x t2 E x' X. apply (H (e :: t1) x t2); [cbn; congruence|now right]. }
    exists r. cbn. f_equal. exact R.
  - exists (e :: t). rewrite filter_none; auto. intros x X. apply Nat.leb_gt.
    apply in_split in X as [l1 [l2 X]]. pose proof (H (e :: l1) x l2 ltac:(cbn; congruence) e (or_introl eq_refl)). lia.
Qed.

Definition readd (l : nat) (e : ent) : ent := Ent (e_lit e) l (e_why e) (e_log e).
Definition kept (l : nat) (t : list ent) : list ent := filter (fun e => Nat.leb (e_lev e) l) t.
Definition again (l : nat) (t : list ent) : list ent := map (readd l) (filter (fun e => Nat.ltb l (e_lev e) && Nat.leb (e_log e) l) t).
Lemma nd_filter2 : forall (A B : Type) (h : A -> B) (f g : A -> bool) t, NoDup (map h t) -> (forall x, f x = true -> g x = false) ->
  NoDup (map h (filter f t) ++ map h (filter g t)).
Proof.
  intros A B h f g t N X. induction t as [|a t IH]; cbn; [constructor|]. cbn in N. inversion N as [|? ? N1 N2]; subst.
  assert (Y : forall u, In (h a) (map h (filter u t)) -> False).
  { intros u H. apply N1. apply in_map_iff in H as [x [H1 H2]]. apply filter_In in H2. rewrite <- H1. apply in_map. tauto. }
  destruct (f a) eqn:F.
  - rewrite (X a F). cbn. constructor; auto. intros H. apply in_app_or in H as [H|H]; exact (Y _ H).
  - destruct (g a); auto. cbn. apply NoDup_Add with (a := h a) (l := map h (filter f t) ++ map h (filter g t)).
    + apply Add_app.
    + split; auto. intros H. apply in_app_or in H as [H|H]; exact (Y _ H).
Qed.
Lemma app_split : forall (A : Type) (x y t1 t2 : list A) e, x ++ y = t1 ++ e :: t2 ->
  (exists t3, x = t1 ++ e :: t3 /\ t2 = t3 ++ y) \/ (exists t3, t1 = x ++ t3 /\ y = t3 ++ e :: t2).
Proof.
  induction x as [|a x IH]; intros y t1 t2 e H.
  - right. exists t1. auto.
  - destruct t1 as [|b t1]; cbn in H; inversion H; subst.
    + left. exists x. auto.
    + destruct (IH y t1 t2 e H2) as [[t3 [A1 A2]]|[t3 [A1 A2]]]; [left|right]; exists t3; subst; auto.
Qed.
Lemma filter_split : forall (A : Type) (f : A -> bool) t t1 e t2, filter f t = t1 ++ e :: t2 -> exists u1 u2, t = u1 ++ e :: u2 /\ t1 = filter f u1.
Proof.
  induction t as [|a t IH]; cbn; intros t1 e t2 H; [destruct t1; discriminate|]. destruct (f a) eqn:F.
  - destruct t1 as [|b t1]; cbn in H; inversion H; subst; [exists [], t; auto|].
    destruct (IH t1 e t2 H2) as [u1 [u2 [X1 X2]]]. exists (b :: u1), u2. subst. cbn. rewrite F. auto.
  - destruct (IH t1 e t2 H) as [u1 [u2 [X1 X2]]]. exists (a :: u1), u2. subst. cbn. rewrite F. auto.
Qed.
Lemma map_split : forall (A B : Type) (f : A -> B) t t1 e t2, map f t = t1 ++ e :: t2 -> exists u1 x u2, t = u1 ++ x :: u2 /\ t1 = map f u1 /\ e = f x.
Proof.
  induction t as [|a t IH]; cbn; intros t1 e t2 H; [destruct t1; discriminate|].
  destruct t1 as [|b t1]; cbn in H; inversion H; subst; [exists [], a, t; auto|].
  destruct (IH t1 e t2 H2) as [u1 [x [u2 [X1 [X2 X3]]]]]. exists (a :: u1), x, u2. subst. auto.
Qed.

Lemma setRoot_id : forall s, setRoot s (b_root s) = s.
Proof. destruct s; reflexivity. Qed.
Lemma jw_trail : forall D t t' p w g, (forall q L, L <= g -> tr t q L -> tr t' q L) -> jw D t p w g -> jw D t' p w g.
Proof.
  intros D t t' p w g H. assert (B : forall c0, byc t p g c0 -> byc t' p g c0). { intros c0 [A B]. split; auto. }
  assert (C : forall c0 rs, cov t p g c0 rs -> cov t' p g c0 rs).
  { intros c0 rs [A C]. split; [intros; apply H; auto|]. intros q Q. destruct (C q Q) as [X|[X|X]]; auto. right. right. apply H; auto. lia. }
  destruct w; cbn; auto.
  - intros [c0 [X [Y Z]]]. exists c0. auto.
  - intros [c0 [X [Y Z]]]. exists c0. auto.
  - intros [c0 [X [Y Z]]]. exists c0. auto.
  - intros [c0 [X Y]]. exists c0. auto.
Qed.

Section Undo.
Variables (n : nat) (s : st) (D : db) (G : list (list lit)) (r l : nat).
Hypothesis (K : Core n s D G) (LT : l < b_dl s) (RL : r <= l) (RR : r = b_root s \/ r = l).
Let s' := undo (setRoot s r) l.
Lemma undo_eqG : s' = St (kept l (b_trail s) ++ again l (b_trail s)) (length (kept l (b_trail s))) l (b_bin s) (b_tern s) (b_cls s) (b_wl s) None r.
Proof. unfold s', undo. cbn [setRoot b_root b_dl b_trail]. rewrite Nat.max_l by exact RL. rewrite (proj2 (Nat.ltb_lt _ _) LT). reflexivity. Qed.
Lemma undo_inG : forall e, In e (b_trail s') <-> (In e (b_trail s) /\ e_lev e <= l) \/ (exists e0, In e0 (b_trail s) /\ l < e_lev e0 /\ e_log e0 <= l /\ e = readd l e0).
Proof.
  intros e. rewrite undo_eqG. cbn. rewrite in_app_iff. unfold kept, again. rewrite filter_In, Nat.leb_le, in_map_iff.
  split; (intros [H|H]; [now left|right]).
  - destruct H as [e0 [A B]]. apply filter_In in B as [B C]. apply andb_true_iff in C as [C1 C2]. apply Nat.ltb_lt in C1. apply Nat.leb_le in C2. exists e0. auto.
  - destruct H as [e0 [A [B [C E]]]]. exists e0. split; auto. apply filter_In. split; auto. apply andb_true_iff. split; [apply Nat.ltb_lt|apply Nat.leb_le]; auto.
Qed.
Lemma undo_tr : forall p L, L <= l -> tr (b_trail s) p L -> tr (b_trail s') p L.
Proof.
  intros p L H [e [A [B C]]]. destruct (Nat.le_gt_cases (e_lev e) l) as [X|X].
  - exists e. sp; auto. apply undo_inG. auto.
  - exists (readd l e). sp; auto. apply undo_inG. right. exists e. sp; auto. lia.
Qed.
Lemma undo_tr0 : forall p, tr (b_trail s) p 0 -> tr (b_trail s') p 0.
Proof. intros p. apply undo_tr. lia. Qed.
Lemma undo_tr_back : forall p L, tr (b_trail s') p L -> tr (b_trail s) p L.
Proof. intros p L [e [A [B C]]]. apply undo_inG in A as [[A _]|[e0 [A [_ [_ ->]]]]]; [exists e; auto|exists e0; auto]. Qed.
Lemma undo_sub : forall c c0, sub (b_trail s) c c0 -> sub (b_trail s') c c0.
Proof. intros c c0 [A B]. split; auto. intros q Q. destruct (B q Q); auto. right. apply undo_tr0. auto. Qed.
Lemma undo_prefix : exists x, b_trail s = kept l (b_trail s) ++ x.
Proof. unfold kept. apply filter_prefix. apply (k_so _ _ _ _ K). Qed.
Lemma undo_core : Core n s' D G.
Proof.
  destruct undo_prefix as [x R]. pose proof undo_inG as UI. pose proof undo_eqG as UE. pose proof undo_sub as US. pose proof undo_tr0 as U0.
  assert (A1 : b_cls s' = b_cls s) by (rewrite UE; auto). assert (A2 : b_dl s' = l) by (rewrite UE; auto).
  assert (A3 : b_front s' = length (kept l (b_trail s))) by (rewrite UE; auto).
  assert (A4 : b_bin s' = b_bin s) by (rewrite UE; auto). assert (A5 : b_tern s' = b_tern s) by (rewrite UE; auto).
  assert (A6 : b_conf s' = None) by (rewrite UE; auto). assert (A7 : b_root s' = r) by (rewrite UE; auto).
  assert (A8 : b_trail s' = kept l (b_trail s) ++ again l (b_trail s)) by (rewrite UE; auto).
  clearbody s'. generalize K. intros [k_nd0 k_lv0 k_so0 k_sent0 k_var0 k_front0 k_queue0 k_just0 k_lock0 k_len0 k_rep0 k_rep20 k_good0 k_imp0 k_gb0 k_gt0 k_conf0 k_vc0 k_log0 k_root0].
  assert (LV : forall e, In e (b_trail s') -> e_lev e <= l). { intros e E. apply UI in E as [E|[e0 [_ [_ [_ ->]]]]]; [tauto|cbn; lia]. }
  constructor; auto.
  - rewrite A8, map_app. unfold again. rewrite map_map. cbn. change (fun x0 : ent => litOf (readd l x0)) with litOf. apply nd_filter2; auto.
    intros e E. apply Nat.leb_le in E. apply andb_false_iff. left. apply Nat.ltb_ge. auto.
  - rewrite A2. auto.
  - intros t1 e t2 H e' E'. rewrite A8 in H. apply app_split in H as [[t3 [H _]]|[t3 [H1 H2]]].
    + apply (k_so0 t1 e (t3 ++ x)); auto. rewrite R, H, <- app_assoc. reflexivity.
    + assert (E : e_lev e = l). { apply map_split in H2 as [u1 [y [u2 [_ [_ ->]]]]]. reflexivity. }
      rewrite E. apply LV. rewrite A8, H2. subst t1. rewrite app_assoc. apply in_or_app. auto.
  - destruct k_sent0 as [e [E1 [E2 [E3 E4]]]]. exists e. sp; auto. apply UI. left. split; auto. lia.
  - intros e E. apply UI in E as [E|[e0 [E [_ [_ ->]]]]]; [apply k_var0; tauto|]. apply (k_var0 e0 E).
  - rewrite A3, A8, app_length. lia.
  - intros e E. rewrite A3, A8, skipn_app, skipn_all, Nat.sub_diag in E. cbn in E. apply in_map_iff in E as [e0 [<- _]]. auto.
  - intros t1 e t2 H. rewrite A8 in H. apply app_split in H as [[t3 [H _]]|[t3 [H1 H2]]].
    + apply (k_just0 t1 e (t3 ++ x)). rewrite R, H, <- app_assoc. reflexivity.
    + apply map_split in H2 as [u1 [y [u2 [B1 [B2 B3]]]]]. assert (FY : l < e_lev y /\ e_log y <= l).
      { assert (In y (filter (fun e : ent => (l <? e_lev e) && (e_log e <=? l)) (b_trail s))) as X by (rewrite B1; apply in_or_app; right; now left).
        apply filter_In in X as [_ X]. apply andb_true_iff in X as [X1 X2]. apply Nat.ltb_lt in X1. apply Nat.leb_le in X2. auto. }
      apply filter_split in B1 as [w1 [w2 [W1 W2]]]. pose proof (k_just0 w1 y w2 W1) as J. subst e. unfold jst in *. cbn [readd e_why e_lit e_log].
      destruct J as [J|[J|J]]; auto. right. right. revert J. apply jw_trail. intros q L HL [z [Z1 [Z2 Z3]]].
      destruct (Nat.le_gt_cases (e_lev z) l) as [X|X].
      * exists z. sp; auto. subst t1. apply in_or_app. left. apply filter_In. split; [rewrite W1; apply in_or_app; auto|now apply Nat.leb_le].
      * exists (readd l z). sp; auto. subst t1 t3. apply in_or_app. right. apply in_map. rewrite W2. apply filter_In. split; auto. apply andb_true_iff. split; [now apply Nat.ltb_lt|apply Nat.leb_le; lia].
  - intros e E i c X Y. unfold cl in Y. rewrite A1 in Y. apply UI in E as [[E _]|[e0 [E [_ [_ ->]]]]]; [exact (k_lock0 e E i c X Y)|exact (k_lock0 e0 E i c X Y)].
  - congruence.
  - intros i c C. unfold cl in C. rewrite A1 in C. destruct (k_rep0 i c C) as [B1 [c0 [B2 B3]]]. split; auto. exists c0. auto.
  - intros i c C. unfold cl. rewrite A1. eauto.
  - intros c C. destruct (k_good0 c C) as [B1 [B2 [c0 [B3 B4]]]]. sp; eauto. unfold gc in *. rewrite A4, A5. auto.
  - intros c0 C. destruct (k_imp0 c0 C) as [[p [B1 B2]]|[[c [B1 B2]]|[_ B]]]; [left|right; left|lia].
    + exists p. split; auto. destruct B2; auto.
    + exists c. auto.
  - rewrite A4. auto.
  - rewrite A5. auto.
  - congruence.
  - intros e E. rewrite A7. apply UI in E as [[E X]|[e0 [E [X [Y ->]]]]].
    + pose proof (k_log0 e E). destruct RR; lia.
    + pose proof (k_log0 e0 E). cbn. destruct RR; lia.
  - lia.
Qed.
Lemma undo_procG : forall e, In e (Proc s') <-> In e (b_trail s) /\ e_lev e <= l.
Proof.
  intros e. unfold Proc. rewrite undo_eqG. cbn. rewrite firstn_app, firstn_all, Nat.sub_diag. cbn. rewrite app_nil_r. unfold kept. rewrite filter_In, Nat.leb_le. tauto.
Qed.
Lemma undo_proc : forall e, In e (Proc s') -> In e (Proc s).
Proof.
  intros e E. apply undo_procG in E as [E1 E2]. unfold Proc. destruct (b_conf s).
  - apply filter_In. split; auto. apply Nat.ltb_lt. lia.
  - rewrite <- (firstn_skipn (b_front s) (b_trail s)) in E1. apply in_app_or in E1 as [E1|E1]; auto.
    apply (k_queue _ _ _ _ K) in E1. lia.
Qed.
Lemma undo_proc_lev : forall e, In e (Proc s') -> e_lev e <= l.
Proof. intros e E. apply undo_procG in E. tauto. Qed.
Lemma undo_W : forall c, Wcl (b_trail s) (Proc s) c -> Wcl (b_trail s') (Proc s') c.
Proof. intros c W b e E1 E2. apply undo_tr; [apply undo_proc_lev; auto|]. apply (W b e); auto. apply undo_proc. auto. Qed.
Lemma undo_U : forall c, Ucl (b_trail s) (Proc s) c -> Ucl (b_trail s') (Proc s') c.
Proof.
  intros c U a L A H. assert (X : tr (b_trail s) a (min L l)).
  { apply (U a (min L l) A). intros b B1 B2. destruct (H b B1 B2) as [e [E1 [E2 E3]]]. exists e. sp; auto; [apply undo_proc; auto|]. pose proof (undo_proc_lev e E1). lia. }
  apply undo_tr in X; [|lia]. destruct X as [e [E1 [E2 E3]]]. exists e. sp; auto. lia.
Qed.
Lemma undo_wlok : wlok (b_wl s) s -> wlok (b_wl s') s'.
Proof. rewrite undo_eqG. auto. Qed.
Lemma undo_invG : InvG n s D G -> InvG n s' D G.
Proof.
  intros [_ [WL [DW DU]]]. split; [|split; [|split]].
  - apply undo_core; auto.
  - apply undo_wlok; auto.
  - intros i c C. apply undo_W; auto. apply (DW i). rewrite undo_eqG in C by auto. exact C.
  - intros c C. apply undo_U; auto.
Qed.
End Undo.

(** Ordinary backtracking never has to assign literals again. *)
Lemma undo_eq : forall n s D G l, Core n s D G -> b_root s <= l -> l < b_dl s ->
  undo s l = St (kept l (b_trail s)) (length (kept l (b_trail s))) l (b_bin s) (b_tern s) (b_cls s) (b_wl s) None (b_root s).
Proof.
  intros n s D G l K RL LT. pose proof (undo_eqG s (b_root s) l LT RL) as E. rewrite setRoot_id in E. rewrite E. f_equal.
  unfold again. rewrite filter_none, app_nil_r; auto. intros e X. pose proof (k_log _ _ _ _ K e X). apply andb_false_iff. rewrite Nat.ltb_ge, Nat.leb_gt. lia.
Qed.
Lemma undo_in : forall n s D G l e, Core n s D G -> b_root s <= l -> l < b_dl s -> In e (b_trail (undo s l)) <-> In e (b_trail s) /\ e_lev e <= l.
Proof. intros n s D G l e K RL LT. rewrite (undo_eq n s D G l K RL LT). cbn. unfold kept. rewrite filter_In, Nat.leb_le. tauto. Qed.
Lemma undo_max : forall s l, undo s l = undo s (Nat.max l (b_root s)).
Proof. intros s l. unfold undo. rewrite <- Nat.max_assoc, Nat.max_id. reflexivity. Qed.
Lemma undo_ge : forall s l, b_dl s <= Nat.max l (b_root s) -> undo s l = s.
Proof. intros s l H. unfold undo. destruct (Nat.ltb_spec (Nat.max l (b_root s)) (b_dl s)); auto. lia. Qed.
Lemma undo_inv : forall n s D G l, InvG n s D G -> InvG n (undo s l) D G.
Proof.
  intros n s D G l I. destruct (Nat.lt_ge_cases (Nat.max l (b_root s)) (b_dl s)) as [H|H]; [|rewrite undo_ge; auto].
  rewrite undo_max. rewrite <- (setRoot_id s) at 1. apply undo_invG; auto; try lia. apply (proj1 I).
Qed.

(** * Root levels *)
Lemma setRoot_core : forall n s D G r, Core n s D G -> b_root s <= r -> r <= b_dl s -> Core n (setRoot s r) D G.
Proof.
  intros n s D G r [k_nd0 k_lv0 k_so0 k_sent0 k_var0 k_front0 k_queue0 k_just0 k_lock0 k_len0 k_rep0 k_rep20 k_good0 k_imp0 k_gb0 k_gt0 k_conf0 k_vc0 k_log0 k_root0] A B. constructor; auto.
  intros e E. apply k_log0 in E. cbn. lia.
Qed.
Lemma push_inv : forall n s D G, InvG n s D G -> InvG n (pushRootLevel s) D G.
Proof.
  intros n s D G [K X]. split; [|exact X]. apply setRoot_core; auto.
  - pose proof (k_root _ _ _ _ K). lia.
  - lia.
Qed.
Lemma pop_inv : forall n s D G k, InvG n s D G -> InvG n (popRootLevel s k) D G.
Proof.
  intros n s D G k I. unfold popRootLevel. set (r := b_root s - Nat.min k (b_root s)). pose proof (k_root _ _ _ _ (proj1 I)) as R.
  destruct (Nat.lt_ge_cases r (b_dl s)) as [H|H].
  - apply undo_invG; auto. apply (proj1 I).
  - rewrite undo_ge; [|cbn; lia]. replace r with (b_root s) by lia. rewrite setRoot_id. auto.
Qed.

(** * Decisions and literals forced from outside *)
Lemma assume_inv : forall n s D G p, InvG n s D G -> b_conf s = None -> b_front s = length (b_trail s) -> fst p <= n -> InvG n (assume s p) D G.
Proof.
  intros n s D G p I NC FR V. unfold assume. destruct (isT s p) eqn:T; [exact I|]. destruct (isF s p) eqn:F; [exact I|]. cbn [orb].
  pose proof (isT_no _ _ T) as T'. pose proof (isF_no _ _ F) as F'. destruct I as [K [WL DY]].
  set (e := Ent p (S (b_dl s)) Dec (S (b_dl s))). apply inv_of.
  - destruct K as [k_nd0 k_lv0 k_so0 k_sent0 k_var0 k_front0 k_queue0 k_just0 k_lock0 k_len0 k_rep0 k_rep20 k_good0 k_imp0 k_gb0 k_gt0 k_conf0 k_vc0 k_log0 k_root0]. constructor; cbn; auto.
    + apply nd_snoc; auto.
    + intros x X. apply in_app_or in X as [X|[X|[]]]; [apply k_lv0 in X; lia|]. subst x. cbn. lia.
    + intros t1 x t2 H e' E'. apply snoc_split in H as [[-> [-> ->]]|[t3 [H ->]]]; [cbn; apply k_lv0 in E'; lia|]. eauto.
    + apply sent_app; auto.
    + intros x X. apply in_app_or in X as [X|[X|[]]]; auto. subst x. exact V.
    + rewrite app_length. cbn. lia.
    + intros x X. rewrite skipn_snoc in X by auto. rewrite FR, skipn_all in X. destruct X as [X|[]]. subst x. reflexivity.
    + intros t1 x t2 H. apply snoc_split in H as [[-> [-> ->]]|[t3 [H ->]]]; [|eauto]. left. reflexivity.
    + intros x X. apply in_app_or in X as [X|[X|[]]].
      * exact (k_lock0 x X).
      * subst x. intros i c Y. discriminate.
    + intros i c C. destruct (k_rep0 i c C) as [A [c0 [B1 B2]]]. split; auto. exists c0. split; auto. apply sub_app; auto.
    + intros c C. destruct (k_good0 c C) as [A [B [c0 [C1 C2]]]]. sp; auto. exists c0. split; auto. apply sub_app; auto.
    + intros c0 C. destruct (k_imp0 c0 C) as [[q [A B]]|[[c [A B]]|[A _]]]; [left|right; left|congruence].
      * exists q. split; auto. destruct B; auto. left. apply tr_app; auto.
      * exists c. split; auto. apply sub_app; auto.
    + intros q w' E. congruence.
    + intros x X. apply in_app_or in X as [X|[X|[]]]; auto. subst x. cbn. lia.
  - exact WL.
  - cbn [b_front b_trail]. rewrite firstn_grow by lia. unfold Proc in DY. rewrite NC in DY. destruct DY as [DW DU]. split.
    + intros i c C. apply (Wcl_mono _ [e] (firstn (b_front s) (b_trail s))); auto. apply (DW i c C).
    + intros c C. apply (Ucl_mono _ [e] (firstn (b_front s) (b_trail s))); auto.
Qed.
Lemma force_dyn : forall n s D G p w, Core n s D G -> b_conf s = None -> fst p <= n -> jw D (b_trail s) p w (b_dl s) -> locks s p w ->
  let s' := fst (force s p w) in
  (forall c, Wcl (b_trail s) (Proc s) c -> Wcl (b_trail s') (Proc s') c) /\ (forall c, Ucl (b_trail s) (Proc s) c -> Ucl (b_trail s') (Proc s') c).
Proof.
  intros n s D G p w K NC V J LK s'. destruct (force_spec n s D G p w K NC V J LK) as [K' [[[x X] [FR _]] _]]. fold s' in K', X, FR.
  assert (SUB : forall e, In e (Proc s') -> In e (Proc s)).
  { intros e E. apply (proc_sub n s' D G K') in E. rewrite FR, X, firstn_grow in E by apply (k_front _ _ _ _ K). unfold Proc. rewrite NC. exact E. }
  rewrite X. split; intros c C; [eapply Wcl_mono; eauto|eapply Ucl_mono; eauto].
Qed.
Lemma force_inv : forall n s D G p w, InvG n s D G -> b_conf s = None -> fst p <= n -> jw D (b_trail s) p w (b_dl s) -> locks s p w -> InvG n (fst (force s p w)) D G.
Proof.
  intros n s D G p w [K [WL [DW DU]]] NC V J LK. destruct (force_spec n s D G p w K NC V J LK) as [K' [GR [C1 [C2 _]]]].
  destruct (force_dyn n s D G p w K NC V J LK) as [F1 F2]. split; [|split; [|split]]; auto.
  - rewrite C2. unfold wlok, cl in *. rewrite C1. exact WL.
  - intros i c C. apply F1. apply (DW i). unfold cl in *. rewrite C1 in C. exact C.
Qed.

(** * Removing clauses *)
Lemma put_at_nth_id : forall (A : Type) (l : list A) i x, nth_error l i = Some x -> put_at l i x = l.
Proof. induction l; destruct i; cbn; intros x H; try discriminate; [congruence|]. f_equal. apply IHl. auto. Qed.
Lemma put_at_over : forall (A : Type) (l : list A) i x, length l <= i -> put_at l i x = l.
Proof. induction l; destruct i; cbn; intros x H; auto; try lia. f_equal. apply IHl. lia. Qed.
Lemma put_at_nth_error_same : forall (A : Type) (l : list A) i x, i < length l -> nth_error (put_at l i x) i = Some x.
Proof. induction l; destruct i; cbn; intros x H; auto; try lia. apply IHl. lia. Qed.
Lemma in_put_at : forall (A : Type) (l : list A) i x y, In y (put_at l i x) -> y = x \/ In y l.
Proof. induction l; destruct i; cbn; intros x y H; auto; destruct H; auto. apply IHl in H. tauto. Qed.
Lemma nodup_rm : forall l i, NoDup l -> NoDup (List.remove Nat.eq_dec i l).
Proof.
  induction l; cbn; intros i H; [constructor|]. inversion H; subst. destruct (Nat.eq_dec i a); auto. constructor; auto.
  intros X. apply in_remove in X. tauto.
Qed.
Lemma in_rm : forall l i j, In j (List.remove Nat.eq_dec i l) <-> In j l /\ j <> i.
Proof. intros l i j. split; [apply in_remove|]. intros [A B]. apply in_in_remove; auto. Qed.

Lemma remove_inv : forall n s D G i, InvG n s D G -> b_conf s = None -> InvG n (remove s i) (db_step s D (ORemove i) (remove s i)) G.
Proof.
  intros n s D G i I NC. unfold db_step, remove. destruct (nth i (b_cls s) None) as [c|] eqn:C.
  2: { rewrite C. replace (Db (d_imp D) (put_at (d_exp D) i None)) with D; auto.
       destruct D as [di de]. cbn. f_equal. destruct (nth_error de i) as [[c0|]|] eqn:E.
       - destruct (k_rep2 _ _ _ _ (proj1 I) i c0 E) as [c X]. unfold cl in X. congruence.
       - symmetry. apply put_at_nth_id. auto.
       - symmetry. apply put_at_over. apply nth_error_None. auto. }
  destruct (locked s i c) eqn:LK; [rewrite C; exact I|].
  destruct I as [K [WL [DW DU]]].
  assert (CI : cl s i = Some c) by exact C.
  assert (LI : i < length (b_cls s)). { destruct (Nat.lt_ge_cases i (length (b_cls s))); auto. rewrite nth_overflow in C by auto. discriminate. }
  assert (NL : forall e, In e (b_trail s) -> e_why e <> ByC i).
  { intros e E W. destruct (k_lock _ _ _ _ K e E i c W CI) as [b B]. unfold locked in LK. apply orb_false_iff in LK as [L1 L2].
    assert (R : reasonIs s (head c b) i = true).
    { unfold reasonIs. apply andb_true_iff. split; [apply isT_iff; exists e; auto|]. unfold entry.
      rewrite (find_ent (b_trail s) (fst (head c b)) e); auto; [|apply (k_nd _ _ _ _ K)|unfold litOf; congruence].
      destruct e as [el ev ew eg]. cbn in W. rewrite W. apply Nat.eqb_refl. }
    destruct b; cbn [head] in R; congruence. }
  set (s' := set_cls _ _).
  assert (CS : forall j, cl s' j = if Nat.eqb i j then None else cl s j).
  { intros j. unfold cl, s'. cbn. destruct (Nat.eqb_spec i j) as [<-|N]; [apply put_at_same; auto|apply put_at_other; auto]. }
  replace (nth i (b_cls s') None) with (@None cls). 2: { symmetry. specialize (CS i). unfold cl in CS. rewrite CS, Nat.eqb_refl. reflexivity. }
  set (D' := Db (d_imp D) (put_at (d_exp D) i None)).
  assert (ND : forall j c0, nth_error (d_exp D') j = Some (Some c0) -> j <> i /\ nth_error (d_exp D) j = Some (Some c0)).
  { intros j c0 H. cbn in H. destruct (Nat.eq_dec i j) as [<-|N].
    - rewrite put_at_nth_error_same in H; [discriminate|]. rewrite (k_len _ _ _ _ K). auto.
    - rewrite put_at_nth_error_other in H by auto. auto. }
  assert (IDB : forall c0, inDb D' c0 -> inDb D c0).
  { intros c0 [H|H]; [now left|]. cbn in H. apply in_put_at in H as [H|H]; [discriminate|now right]. }
  split; [|split; [|split]].
  - destruct K as [k_nd0 k_lv0 k_so0 k_sent0 k_var0 k_front0 k_queue0 k_just0 k_lock0 k_len0 k_rep0 k_rep20 k_good0 k_imp0 k_gb0 k_gt0 k_conf0 k_vc0 k_log0 k_root0]. constructor; auto.
    + intros t1 e t2 H. destruct (k_just0 t1 e t2 H) as [J|[J|J]]; [now left|now (right; left)|right; right].
      destruct (e_why e) as [| | | | |j] eqn:W; auto. cbn in *. destruct J as [c0 [J1 J2]]. exists c0. split; auto.
      rewrite put_at_nth_error_other; auto. intros <-. apply (NL e); auto. change (b_trail s') with (b_trail s) in H. rewrite H. apply in_or_app. right. now left.
    + intros e E j d X Y. rewrite CS in Y. destruct (Nat.eqb i j); [discriminate|]. exact (k_lock0 e E j d X Y).
    + cbn. rewrite !put_at_length. auto.
    + intros j d Y. rewrite CS in Y. destruct (Nat.eqb_spec i j) as [|N]; [discriminate|]. destruct (k_rep0 j d Y) as [A [c0 [B1 B2]]].
      split; auto. exists c0. split; auto. cbn. rewrite put_at_nth_error_other; auto.
    + intros j c0 H. apply ND in H as [N H]. rewrite CS. destruct (Nat.eqb_spec i j) as [|]; [congruence|]. eauto.
    + intros q w H. cbn in H. congruence.
    + intros c0 q H. apply k_vc0. apply IDB. auto.
  - unfold wlok. intros q. cbn [s' set_cls set_wl b_wl].
    destruct (k_rep _ _ _ _ K i c CI) as [WC _].
    set (w1 := upd (b_wl s) (neg (h0 c)) (List.remove Nat.eq_dec i (b_wl s (neg (h0 c))))).
    assert (X : forall q, NoDup (upd w1 (neg (h1 c)) (List.remove Nat.eq_dec i (w1 (neg (h1 c)))) q) /\
       forall j, In j (upd w1 (neg (h1 c)) (List.remove Nat.eq_dec i (w1 (neg (h1 c)))) q) <-> In j (b_wl s q) /\ j <> i).
    { assert (Y : forall q, NoDup (w1 q) /\ forall j, In j (w1 q) <-> In j (b_wl s q) /\ (j <> i \/ q <> neg (h0 c))).
      { intros r. destruct (WL r) as [N1 N2]. unfold w1. destruct (lit_eq_dec r (neg (h0 c))) as [-> |N].
        - rewrite upd_same. split; [apply nodup_rm; auto|]. intros j. rewrite in_rm. tauto.
        - rewrite upd_other by auto. split; auto. intros j. tauto. }
      intros r. destruct (Y r) as [Y1 Y2]. destruct (WL r) as [N1 N2]. destruct (lit_eq_dec r (neg (h1 c))) as [-> |N].
      - rewrite upd_same. split; [apply nodup_rm; auto|]. intros j. rewrite in_rm, Y2. tauto.
      - rewrite upd_other by auto. split; auto. intros j. rewrite Y2. split; [|tauto]. intros [A B]; split; auto.
        intros ->. destruct B as [B|B]; [congruence|]. apply N2 in A as [d [A1 [b A2]]]. rewrite CI in A1. inversion A1; subst d.
        destruct b; cbn [head] in A2; congruence. }
    destruct (X q) as [X1 X2]. split; [exact X1|]. intros j. rewrite X2. destruct (WL q) as [_ N2]. rewrite N2, CS.
    destruct (Nat.eqb_spec i j) as [<-|N]; split.
    + intros [_ A]. congruence.
    + intros [d [A _]]. discriminate.
    + tauto.
    + intros A. split; auto.
  - intros j d Y. rewrite CS in Y. destruct (Nat.eqb i j); [discriminate|]. apply (DW j d Y).
  - exact DU.
Qed.
