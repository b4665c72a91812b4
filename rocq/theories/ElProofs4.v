(** Preprocessor: forward subsumption and adding of resolvents *)
From Coq Require Import List Bool Arith ZArith NArith Lia Permutation.
Import ListNotations.
From Verif Require Import Base ElModel ElSpec ElProofs ElProofs2 ElProofs3.

(** ** Reordering of clauses *)
Definition lperm (s s' : st) : Prop := forall j,
  match lits s j, lits s' j with
  | Some c, Some c' => Permutation c c'
  | None, None => True
  | _, _ => False
  end.
Lemma lperm_refl s : lperm s s.
Proof. intros j. destruct (lits s j); auto. Qed.
Lemma lperm_trans a b c : lperm a b -> lperm b c -> lperm a c.
Proof.
  intros H K j. specialize (H j). specialize (K j). destruct (lits a j), (lits b j), (lits c j); try tauto.
  eapply Permutation_trans; eauto.
Qed.
Lemma lperm_sym a b : lperm a b -> lperm b a.
Proof. intros H j. specialize (H j). destruct (lits a j), (lits b j); try tauto. now apply Permutation_sym. Qed.
Lemma lperm_some s s' j c' : lperm s s' -> lits s' j = Some c' -> exists c, lits s j = Some c /\ Permutation c c'.
Proof. intros H E. specialize (H j). rewrite E in H. destruct (lits s j) as [c|]; [eauto|tauto]. Qed.
Lemma lperm_none s s' j : lperm s s' -> lits s j = None -> lits s' j = None.
Proof. intros H E. specialize (H j). rewrite E in H. destruct (lits s' j); tauto. Qed.
Lemma lperm_eq s s' : (forall j, lits s' j = lits s j) -> lperm s s'.
Proof. intros H j. rewrite H. destruct (lits s j); auto. Qed.

Lemma occOk_lperm s s' v L : lperm s s' -> occOk s v L -> occOk s' v L.
Proof.
  intros H (A & B & C). split; [|split; auto].
  - intros j c d E I. apply (lperm_some _ _ _ _ H) in E as (c0 & E & P). eapply A; eauto.
    apply (Permutation_in (l:=c)); [now apply Permutation_sym|auto].
  - intros j c d I E. apply (lperm_some _ _ _ _ H) in E as (c0 & E & P). eapply Permutation_in; eauto.
Qed.
Lemma sat_perm a c c' : Permutation c c' -> sat_clause a c = true -> sat_clause a c' = true.
Proof. intros P. apply sat_incl. intros p. now apply Permutation_in. Qed.

Definition permTo (s s' : st) : Prop :=
  s_n s' = s_n s /\ s_occ s' = s_occ s /\ s_tr s' = s_tr s /\ s_facts s' = s_facts s /\ s_elim s' = s_elim s
  /\ s_top s' = s_top s /\ lperm s s'.
Lemma permTo_refl s : permTo s s.
Proof. repeat (split; [reflexivity|]). apply lperm_refl. Qed.
Lemma permTo_trans a b c : permTo a b -> permTo b c -> permTo a c.
Proof.
  intros (A1&A2&A3&A4&A5&A6&A7) (B1&B2&B3&B4&B5&B6&B7). repeat (split; [congruence|]). eapply lperm_trans; eauto.
Qed.
Lemma permTo_frame s s' : permTo s s' -> frame s s'.
Proof. intros (A1&A2&A3&A4&A5&A6&A7). constructor; auto. exists []. now rewrite A3, app_nil_r. Qed.
Lemma lmOnly_permTo s s' : lmOnly s s' -> permTo s s'.
Proof. intros L. pose proof (lmOnly_lits _ _ L) as E. destruct L as (A1&A2&A3&A4&A5&A6&A7&A8&A9). repeat (split; [auto|]). now apply lperm_eq. Qed.

(** what happens to an unused id *)
Definition fr (j : nat) (s s' : st) : Prop :=
  (lits s j = None -> lits s' j = None)
  /\ (forall v, In j (map fst (s_occ s' v)) -> In j (map fst (s_occ s v)))
  /\ (lits s j = None -> forall v, In j (s_wat s' v) -> In j (s_wat s v)).
Lemma fr_refl j s : fr j s s. Proof. repeat split; auto. Qed.
Lemma fr_trans j a b c : fr j a b -> fr j b c -> fr j a c.
Proof. intros (A1 & A2 & A3) (B1 & B2 & B3). repeat split; auto. Qed.
Lemma fr_ext j s s' : (forall i, lits s' i = lits s i) -> s_occ s' = s_occ s -> s_wat s' = s_wat s -> fr j s s'.
Proof. intros A B C. split; [now rewrite A|]. rewrite B, C. auto. Qed.
Definition freeIdOf (X : list nat) (s : st) (id : nat) : Prop :=
  id < s_n s /\ lits s id = None /\ (forall v, ~ In v X -> ~ In id (map fst (s_occ s v))) /\ (forall v, ~ In id (s_wat s v)).
Lemma freeId_fr X s s' id : freeIdOf X s id -> fr id s s' -> s_n s' = s_n s -> freeIdOf X s' id.
Proof.
  intros (A & B & C & D) (E1 & E2 & E3) En. rewrite <- En in A. repeat split; auto. 
  - intros v Nv I. apply (C v Nv). auto.
  - intros v I. apply (D v). auto.
Qed.

(** *** the operations of the previous files and unused ids *)
Lemma fr_trOnly j s s' : trOnly s s' -> fr j s s'.
Proof. intros T. apply fr_ext; [now apply trOnly_lits|apply T|apply T]. Qed.
Lemma eraseN_sub x l y : In y (eraseN x l) -> In y l.
Proof. induction l as [|z l IH]; cbn; [auto|]. destruct (z =? x); cbn; [auto|]. intros [H|H]; auto. Qed.
Lemma fr_detach j id s s' : detach id s = Ok s' -> fr j s s'.
Proof.
  intros H. unfold detach in H. apply bind_ok in H as (c & Hc & H). apply bind_ok in H as (x & Hx & H). injection H as <-.
  split; [|split; [auto|]].
  - rewrite lits_setC. destruct (j =? id); auto.
  - intros _ v. cbn. unfold upd. destruct (v =? fst x) eqn:E; [|auto]. apply Nat.eqb_eq in E as ->. apply eraseN_sub.
Qed.
Lemma fr_addToSub j id s s' : addToSubQueue id s = Ok s' -> fr j s s'.
Proof.
  intros H. apply (addToSubQueue_ok (fun _ => false) [] s) in H as (L & O & _ & _ & _ & W & _). now apply fr_ext.
Qed.
Lemma force_trOnly s p s' b : force s p = (s', b) -> trOnly s s'.
Proof.
  unfold force. destruct (litVal s p); intros H; injection H as <- _; [apply trOnly_refl|].
  repeat (split; [reflexivity|]). now exists [p].
Qed.
Lemma forceAll_trOnly ps : forall s s' b, forceAll s ps = (s', b) -> trOnly s s'.
Proof.
  induction ps as [|p ps IH]; intros s s' b; cbn; [intros H; injection H as <- _; apply trOnly_refl|].
  destruct (force s p) as [s1 b1] eqn:E. apply force_trOnly in E. destruct b1.
  - intros H. eapply trOnly_trans; [exact E|]. eapply IH; eauto.
  - intros H; injection H as <- _. auto.
Qed.
Lemma propagate_trOnly w s s' b : propagate w s = (s', b) -> trOnly s s'.
Proof.
  assert (T : trOnly s (tick s)) by (repeat (split; [reflexivity|]); exists []; cbn; now rewrite app_nil_r).
  unfold propagate. destruct (w_prop _ _ _).
  - intros H. eapply trOnly_trans; [exact T|]. eapply forceAll_trOnly; eauto.
  - intros H; injection H as <- _. auto.
Qed.
Lemma fr_strengthen w j id l s s' b : strengthenClause w id l s = Ok (s', b) -> fr j s s'.
Proof.
  intros H. unfold strengthenClause in H. apply bind_ok in H as (c & Hc & H). apply deref_ok in Hc as [Hc _].
  apply lits_cls in Hc.
  apply bind_ok in H as (x & _ & H). apply bind_ok in H as (s1 & H1 & H). apply bind_ok in H as (c2 & _ & H).
  assert (A : fr j s (setC s1 id (Some c2))).
  { assert (B : s_cls s1 = s_cls s /\ s_occ s1 = s_occ s /\ (j <> id -> forall v, In j (s_wat s1 v) -> In j (s_wat s v))).
    { destruct (lit_eqb x l); [apply bind_ok in H1 as (y & _ & H1)|]; injection H1 as <-; repeat split; auto.
      intros Nj v. cbn. unfold upd. destruct (v =? fst y) eqn:E; [|destruct (v =? fst x) eqn:E2; [|auto]].
      - apply Nat.eqb_eq in E as ->. intros I. apply in_app_iff in I as [I|[I|[]]]; [|congruence].
        destruct (fst y =? fst x) eqn:E2; [apply Nat.eqb_eq in E2 as ->; now apply eraseN_sub in I|auto].
      - apply Nat.eqb_eq in E2 as ->. apply eraseN_sub. }
    destruct B as (B1 & B2 & B3). split; [|split].
    - intros N. rewrite lits_setC. destruct (j =? id) eqn:E; [apply Nat.eqb_eq in E; congruence|]. unfold lits. now rewrite B1.
    - cbn. rewrite B2. auto.
    - intros N v. cbn. apply B3. intros ->. congruence. }
  eapply fr_trans; [exact A|]. destruct (ksize c2 =? 1).
  - apply bind_ok in H as (u & _ & H). apply bind_ok in H as (s3 & H3 & H).
    eapply fr_trans; [eapply fr_detach; eauto|]. destruct (force s3 u) as [s4 b4] eqn:E4.
    apply force_trOnly in E4. eapply fr_trans; [apply fr_trOnly; eauto|]. destruct b4.
    + injection H as H. apply fr_trOnly. eapply propagate_trOnly; eauto.
    + injection H as <- _. apply fr_refl.
  - apply bind_ok in H as (s3 & H3 & H). injection H as <- _. eapply fr_addToSub; eauto.
Qed.
Lemma fr_pf w j l cls : forall s s' b, pfClauses w l cls s = Ok (s', b) -> fr j s s'.
Proof.
  induction cls as [|[id sg] cls IH]; intros s s' b H; cbn in H; [injection H as <- _; apply fr_refl|].
  apply bind_ok in H as (c & _ & H). destruct c; [|eauto]. destruct (Bool.eqb sg (snd l)).
  - apply bind_ok in H as (s1 & H1 & H). eapply fr_trans; [eapply fr_detach; eauto|eauto].
  - apply bind_ok in H as ([s1 b1] & H1 & H). apply (fr_strengthen w j) in H1. destruct b1.
    + eapply fr_trans; eauto.
    + injection H as <- _. auto.
Qed.
Lemma fr_propagateFacts w j n : forall s s' b, propagateFacts w n s = Ok (s', b) -> fr j s s'.
Proof.
  induction n as [|n IH]; intros s s' b H; cbn in H; [discriminate|].
  destruct (_ =? _); [injection H as <- _; apply fr_refl|]. destruct (nth_error _ _) as [l|]; [|discriminate].
  apply bind_ok in H as ([s1 b1] & H1 & H). apply (fr_pf w j) in H1.
  assert (A : fr j s s1) by exact H1. destruct b1.
  - apply IH in H. eapply fr_trans; [exact A|]. eapply fr_trans; [|exact H]. split; [auto|]. split.
    + intros v. cbn. unfold upd. destruct (v =? fst l); [intros []|auto].
    + intros _ v. cbn. unfold upd. destruct (v =? fst l); [intros []|auto].
  - injection H as <- _. exact A.
Qed.

(** ** Searching for an unmarked literal *)
Lemma fum_ok s size : forall m x y, fum s size x m = Ok y ->
  x <= y /\ (x <= size -> y <= size)
  /\ (forall i, x <= i < y -> exists p, nth_error m (i - x) = Some p /\ markedL s p = true)
  /\ (y <> size -> exists p, nth_error m (y - x) = Some p /\ markedL s p = false).
Proof.
  induction m as [|p m IH]; intros x y; cbn.
  - destruct (x =? size) eqn:E; [|discriminate]. intros H; injection H as <-. apply Nat.eqb_eq in E.
    repeat split; auto; intros; lia.
  - destruct (x =? size) eqn:E.
    + intros H; injection H as <-. apply Nat.eqb_eq in E. repeat split; auto; intros; lia.
    + apply Nat.eqb_neq in E. destruct (markedL s p) eqn:M.
      * intros H. apply IH in H as (A & B & C & D). repeat split; [lia|lia| |].
        -- intros i Hi. destruct (Nat.eq_dec i x) as [->|Ni]; [rewrite Nat.sub_diag; cbn; eauto|].
           replace (i - x) with (S (i - S x)) by lia. cbn. apply C. lia.
        -- intros Hy. replace (y - x) with (S (y - S x)) by lia. cbn. auto.
      * intros H; injection H as <-. repeat split; [lia|lia|intros; lia|]. intros _. rewrite Nat.sub_diag. cbn. eauto.
Qed.
Lemma nth_skipn {A} x : forall (l : list A) k, nth_error (skipn x l) k = nth_error l (x + k).
Proof. induction x as [|x IH]; intros [|y l] k; cbn; auto. now destruct k. Qed.
Lemma findU_ok s c x y : findUnmarkedLit s c x = Ok y ->
  x <= y /\ (x <= ksize c -> y <= ksize c)
  /\ (forall i, x <= i < y -> exists p, nth_error (k_lits c ++ k_old c) i = Some p /\ markedL s p = true)
  /\ (y <> ksize c -> exists p, nth_error (k_lits c ++ k_old c) y = Some p /\ markedL s p = false).
Proof.
  intros H. apply fum_ok in H as (A & B & C & D). split; [auto|]. split; [auto|]. split.
  - intros i Hi. destruct (C i Hi) as (p & E & M). rewrite nth_skipn in E. exists p. split; [|auto].
    now replace (x + (i - x)) with i in E by lia.
  - intros N. destruct (D N) as (p & E & M). rewrite nth_skipn in E. exists p. split; [|auto].
    now replace (x + (y - x)) with y in E by lia.
Qed.
Lemma putAt_perm {A} (q h : A) : forall t k, nth_error t k = Some q -> Permutation (h :: t) (q :: putAt t k h).
Proof.
  induction t as [|y t IH]; intros k E; [destruct k; discriminate|]. destruct k as [|k]; cbn in *.
  - injection E as ->. apply perm_swap.
  - eapply Permutation_trans; [apply perm_swap|]. eapply Permutation_trans; [apply perm_skip, (IH _ E)|]. apply perm_swap.
Qed.
Lemma putAt_app {A} (h : A) o : forall t k, k < length t -> putAt (t ++ o) k h = putAt t k h ++ o.
Proof. induction t as [|y t IH]; intros k E; cbn in *; [lia|]. destruct k; cbn; [auto|]. rewrite IH; auto. lia. Qed.
Lemma putAt_len {A} (h : A) : forall t k, length (putAt t k h) = length t.
Proof. induction t as [|y t IH]; intros k; cbn; [auto|]. destruct k; cbn; auto. Qed.
Lemma putAt_nth {A} (h : A) : forall t k j, k < length t -> nth_error (putAt t k h) j = if j =? k then Some h else nth_error t j.
Proof.
  induction t as [|y t IH]; intros k j E; cbn in *; [lia|]. destruct k, j; cbn; auto. apply IH. lia.
Qed.
(** the exchange inside the clause *)
Lemma swp_in (c : list lit) o h t x : c = h :: t -> 1 <= x < length c ->
  exists q, nth_error t (x - 1) = Some q /\ swp x (c ++ o) = (q :: putAt t (x - 1) h) ++ o
            /\ firstn (length c) (swp x (c ++ o)) = q :: putAt t (x - 1) h.
Proof.
  intros -> Hx. cbn [length] in Hx. destruct x as [|k]; [lia|]. cbn [swp app]. replace (S k - 1) with k by lia.
  rewrite nth_error_app1 by lia. destruct (nth_error t k) as [q|] eqn:E; [|apply nth_error_None in E; lia].
  exists q. split; [auto|]. rewrite putAt_app by lia. split; [auto|]. cbn. f_equal.
  rewrite firstn_app, putAt_len, Nat.sub_diag. cbn. rewrite app_nil_r. apply firstn_all2. now rewrite putAt_len.
Qed.

Section El.
Context (R : asg -> Prop) (fz : nat -> bool) (w : world) (SW : soundWorld R fz w).
Context (Z0 : forall v, fz v = true -> v <> 0).
Notation F := (F R). Notation wf0 := (wf0 fz). Notation wfx := (wfx fz).

Lemma F_lperm s s' a : s_tr s' = s_tr s -> lperm s s' -> F s a <-> F s' a.
Proof.
  intros T P. unfold ElProofs.F. rewrite T. split; intros (A & B & C); split; auto; split; auto; intros id c E.
  - apply (lperm_some _ _ _ _ P) in E as (c0 & E & Q). eapply sat_perm; eauto.
  - apply (lperm_some _ _ _ _ (lperm_sym _ _ P)) in E as (c0 & E & Q). eapply sat_perm; eauto.
Qed.
Lemma F_permTo s s' a : permTo s s' -> F s a <-> F s' a.
Proof. intros (A1&A2&A3&A4&A5&A6&A7). now apply F_lperm. Qed.
Lemma occs_permTo X s s' : permTo s s' -> occs X s -> occs X s'.
Proof. intros (A1&A2&A3&A4&A5&A6&A7) O v N. rewrite A2. eapply occOk_lperm; eauto. Qed.

(** the state with the marks of the facts only *)
Definition relm (D : list lit) (s : st) : st :=
  St (s_n s) (s_cls s) (s_occ s) (s_wat s) (lmD D) (s_tr s) (s_facts s) (s_q s) (s_elim s) (s_top s) (s_tick s).

Section Sub.
Context (D cl0 : list lit).
Context (Bnd : NoDup (map fst cl0)) (BD : forall p, In p cl0 -> ~ In (fst p) (map fst D)).

Definition Mk (s : st) : Prop :=
  (forall p, In p cl0 -> s_lm s (fst p) = Some (snd p) \/ s_lm s (fst p) = None)
  /\ (forall v, ~ In v (map fst cl0) -> s_lm s v = lmD D v).
Definition Inv (s : st) : Prop := forall a, F s a -> sat_clause a cl0 = true ->
  exists p, In p cl0 /\ markedL s p = true /\ holds a p = true.

Lemma marked_in s id c p : Mk s -> wf0 D (relm D s) -> lits s id = Some c -> In p c -> markedL s p = true -> In p cl0.
Proof.
  intros (M1 & M2) W E I. unfold markedL. destruct (in_dec Nat.eq_dec (fst p) (map fst cl0)) as [J|J].
  - apply in_map_iff in J as (q & Eq & J). specialize (M1 q J). rewrite Eq in M1. destruct M1 as [->| ->]; [|discriminate].
    intros K. apply eqb_prop in K. now rewrite <- (pair_eta q p).
  - rewrite (M2 _ J). destruct (lmD D (fst p)) eqn:K; [|discriminate]. exfalso.
    assert (lmD D (fst p) = None) by (apply lmD_none; now apply (q_var _ _ _ W id c p E I)). congruence.
Qed.
Lemma some_in s id c p : Mk s -> wf0 D (relm D s) -> lits s id = Some c -> In p c -> s_lm s (fst p) <> None ->
  markedL s p = false -> In (neg p) cl0.
Proof.
  intros (M1 & M2) W E I N Mf. destruct (in_dec Nat.eq_dec (fst p) (map fst cl0)) as [J|J].
  - apply in_map_iff in J as (q & Eq & J). specialize (M1 q J). rewrite Eq in M1. destruct M1 as [K|K]; [|congruence].
    unfold markedL in Mf. rewrite K in Mf. replace (neg p) with q; [auto|]. apply pair_eta; [auto|].
    cbn. destruct (snd q), (snd p); cbn in *; congruence.
  - exfalso. apply N. rewrite (M2 _ J). apply lmD_none. now apply (q_var _ _ _ W id c p E I).
Qed.
Lemma Mk_unmark s v : In v (map fst cl0) -> Mk s -> Mk (unmark s v).
Proof.
  intros I (M1 & M2). split.
  - intros p Ip. cbn. unfold upd. destruct (fst p =? v); auto.
  - intros u Nu. cbn. rewrite upd_other; [auto|]. intros ->. auto.
Qed.
Lemma marked_unmark s v p : fst p <> v -> markedL (unmark s v) p = markedL s p.
Proof. intros N. unfold markedL. cbn. now rewrite upd_other. Qed.
Lemma Mk_marked_var s p q : Mk s -> In p cl0 -> In q cl0 -> fst p = fst q -> p = q.
Proof.
  intros _. clear -Bnd. induction cl0 as [|y l IH]; [intros []|]. cbn in Bnd. inversion Bnd; subst.
  intros [->|Ip] [Iq|Iq] E; auto.
  - exfalso. apply H1. rewrite E. now apply in_map.
  - subst. exfalso. apply H1. rewrite <- E. now apply in_map.
Qed.

(** a clause all of whose literals but [h] are marked: [~h] may be dropped *)
Lemma Inv_unmark s id h t : Mk s -> wf0 D (relm D s) -> Inv s -> lits s id = Some t -> In h t ->
  (forall p, In p t -> p <> h -> markedL s p = true) -> In (neg h) cl0 -> Inv (unmark s (fst h)).
Proof.
  intros M W Iv E Ih Ha In0 a Fa Sa. 
  assert (Fa' : F s a) by (apply (F_ext R s (unmark s (fst h))); auto).
  destruct (Iv a Fa' Sa) as (p & Ip & Mp & Hp). destruct (Nat.eq_dec (fst p) (fst h)) as [Ep|Np].
  - assert (p = neg h) by (apply (Mk_marked_var s); auto). subst p.
    destruct Fa' as (_ & _ & Cl). specialize (Cl _ _ E). apply sat_in in Cl as (q & Iq & Hq).
    assert (Nq : q <> h). { intros ->. rewrite holds_neg, Hq in Hp. discriminate. }
    pose proof (Ha q Iq Nq) as Mq. exists q. split; [eapply marked_in; eauto|].
    rewrite marked_unmark; [auto|]. intros K. apply Nq.
    pose proof (q_nd _ _ _ W id t E) as Nd. clear -Nd Iq Ih K. induction t as [|y l IH]; [destruct Iq|].
    cbn in Nd. inversion Nd; subst. destruct Iq as [->|Iq], Ih as [Ih|Ih]; auto.
    + exfalso. apply H1. rewrite K. now apply in_map.
    + subst. exfalso. apply H1. rewrite <- K. now apply in_map.
  - exists p. rewrite marked_unmark; auto.
Qed.

Definition WW (s : st) (v : nat) (L : list nat) : Prop := wf0 D (relm D (setWat s v L)).

(** moving a watch *)
Lemma WW_move s c c' id v h' kept r : WW s v (kept ++ id :: r) -> s_cls s id = Some c ->
  Permutation (k_lits c) (k_lits c') -> (k_lits c' <> [] -> exists t, k_lits c' = h' :: t) -> fst h' <> v ->
  (forall h t, k_lits c = h :: t -> fst h = v) ->
  WW (addWatch (setC s id (Some c')) (fst h') id) v (kept ++ r).
Proof.
  intros W Ec P Hh Nv Hv. set (s2 := addWatch _ _ _).
  assert (L2 : forall j, lits (relm D (setWat s2 v (kept ++ r))) j = if j =? id then Some (k_lits c') else lits s j).
  { intros j. change (lits (relm D (setWat s2 v (kept ++ r))) j) with (lits (setC s id (Some c')) j). now rewrite lits_setC. }
  pose proof (lits_cls _ _ _ Ec) as El.
  destruct W as [Q1 Q2 Q3 Q4 Q5 Q6 Q7 Q8 Q9]. constructor; auto.
  - intros j y. rewrite L2. destruct (j =? id) eqn:E; [|apply Q1]. apply Nat.eqb_eq in E as ->. intros _. exact (Q1 id _ El).
  - intros j y. rewrite L2. destruct (j =? id) eqn:E; [|apply Q2]. intros K; injection K as <-.
    pose proof (Q2 id _ El) as N. eapply Permutation_NoDup; [|exact N]. now apply Permutation_map.
  - intros j y p. rewrite L2. destruct (j =? id) eqn:E; [|apply Q3]. intros K; injection K as <-. intros I.
    apply (Q3 id _ p El). apply (Permutation_in (l:=k_lits c')); [now apply Permutation_sym|]. auto.
  - intros j h t u. rewrite L2. cbn [relm s_wat setWat]. destruct (j =? id) eqn:E.
    + apply Nat.eqb_eq in E as ->. intros K; injection K as K.
      destruct (k_lits c) as [|h0 t0] eqn:Ek; [apply Permutation_nil in P; congruence|].
      pose proof (Hv h0 t0 eq_refl) as Hv0. destruct (Hh ltac:(congruence)) as [t' Ht']. rewrite K in Ht'. injection Ht' as -> ->.
      assert (Q4' : forall u, cnt (s_wat (relm D (setWat s v (kept ++ id :: r))) u) id <= if fst h0 =? u then 1 else 0).
      { intros u'. apply (Q4 id h0 t0 u'). exact El. }
      cbn [relm s_wat setWat] in Q4'. unfold upd at 1. specialize (Q4' u). unfold upd in Q4'. destruct (u =? v) eqn:Eu.
      * apply Nat.eqb_eq in Eu as ->. rewrite cnt_app in *. cbn in Q4'. destruct (Nat.eq_dec id id); [|congruence].
        rewrite Hv0, Nat.eqb_refl in Q4'. lia.
      * rewrite Hv0, Nat.eqb_sym, Eu in Q4'. unfold s2, addWatch. cbn. unfold upd. destruct (u =? fst h') eqn:Eh.
        -- apply Nat.eqb_eq in Eh as ->. rewrite cnt_app, Nat.eqb_refl. cbn. destruct (Nat.eq_dec id id); [lia|congruence].
        -- lia.
    + apply Nat.eqb_neq in E. intros K. pose proof (Q4 j h t u K) as C. cbn [relm s_wat setWat] in C.
      unfold upd at 1. unfold upd in C at 1. destruct (u =? v) eqn:Eu.
      * rewrite cnt_app in *. cbn in C. destruct (Nat.eq_dec id j); [congruence|]. lia.
      * unfold s2, addWatch. cbn. unfold upd. destruct (u =? fst h') eqn:Eh; [|auto].
        apply Nat.eqb_eq in Eh as ->. rewrite cnt_app. cbn. destruct (Nat.eq_dec id j); [congruence|]. lia.
Qed.

Lemma WW_wf s v L : WW s v L -> (forall id c, lits s id = Some c -> NoDup (map fst c))
  /\ (forall id c p, lits s id = Some c -> In p c -> ~ In (fst p) (map fst D))
  /\ forall id h t, lits s id = Some (h :: t) -> In id L -> fst h = v.
Proof.
  intros W. split; [|split].
  - intros id c E. exact (q_nd _ _ _ W id c E).
  - intros id c p E I. now apply (q_var _ _ _ W id c p E I).
  - intros id h t E I. pose proof (q_wat _ _ _ W id h t v E) as C. cbn in C. rewrite upd_same in C.
    apply cnt_in in I. destruct (fst h =? v) eqn:K; [now apply Nat.eqb_eq in K|lia].
Qed.
Lemma WW_cut s v L L' : WW s v L -> (forall id, cnt L' id <= cnt L id) -> WW s v L'.
Proof.
  intros W H. unfold WW. apply (wf0_shrink fz D _ _ W); auto; [intros ? ? K; exact K|].
  intros u id _. cbn. unfold upd. destruct (u =? v); auto.
Qed.
Lemma WW_lm s s' v L : lmOnly s s' -> WW s v L -> WW s' v L.
Proof.
  intros E W. pose proof (lmOnly_lits _ _ E) as El. destruct E as (A1&A2&A3&A4&A5&A6&A7&A8&A9).
  unfold WW. apply (wf0_shrink fz D _ _ W); auto.
  - intros j y K. cbn in *. rewrite <- K. symmetry. apply El.
  - intros u id _. cbn. rewrite A4. auto.
Qed.
Lemma subWatch_ok l : In l cl0 -> forall ws kept str s s' kept' str' x,
  WW s (fst l) (kept ++ ws) -> Mk s -> Inv s -> s_lm s (fst l) = Some (snd l) ->
  subWatch l ws kept str s = Ok (s', kept', str', x) ->
  WW s' (fst l) kept' /\ Mk s' /\ Inv s' /\ permTo s s'
  /\ (x = RSub -> forall a, F s a -> sat_clause a cl0 = true)
  /\ (x = RRem -> s_lm s' (fst l) = None)
  /\ (forall v, s_lm s' v <> None -> s_lm s v <> None)
  /\ (forall j, lits s j = None -> (forall v, v <> fst l -> In j (s_wat s' v) -> In j (s_wat s v)) /\ (In j kept' -> In j (kept ++ ws))).
Proof.
  intros Il. induction ws as [|id ws IH]; intros kept str s s' kept' str' x W M Iv Ml H; cbn [subWatch] in H.
  - injection H as <- <- <- <-. rewrite app_nil_r in *. split; [auto|]. split; [auto|]. split; [auto|]. split; [apply permTo_refl|].
    split; [discriminate|]. split; [discriminate|]. split; [auto|]. auto.
  - apply bind_ok in H as (c & Hc & H). apply deref_ok in Hc as [Hc _]. pose proof (lits_cls _ _ _ Hc) as El.
    apply bind_ok in H as (h & Hh & H). apply bind_ok in H as (y & Hy & H).
    apply findU_ok in Hy as (Y1 & Y2 & Y3 & Y4).
    destruct (WW_wf _ _ _ W) as (Wn & WD & Ww).
    assert (Hv : forall h0 t0, k_lits c = h0 :: t0 -> fst h0 = fst l).
    { intros h0 t0 E. eapply Ww; [rewrite El, E; eauto|]. apply in_app_iff; right; now left. }
    (* everything behind the head is marked *)
    assert (Tl : forall t, y = ksize c -> k_lits c = h :: t -> forall q, In q t -> markedL s q = true).
    { intros t Ey Et q Iq. apply In_nth_error in Iq as [k Ek].
      destruct (Y3 (S k)) as (p & E & Mp).
      - rewrite Ey. unfold ksize. rewrite Et. cbn. assert (k < length t) by (apply nth_error_Some; congruence). lia.
      - rewrite Et in E. cbn in E. rewrite nth_error_app1 in E by (apply nth_error_Some; congruence). congruence. }
    assert (Ne : y = ksize c -> exists t, k_lits c = h :: t).
    { intros Ey. apply kat0; auto. intros K. unfold ksize in Ey. rewrite K in Ey. cbn in Ey. lia. }
    assert (Wr : wf0 D (relm D (setWat s (fst l) (kept ++ id :: ws)))) by exact W.
    destruct (lit_eqb h l) eqn:Ehl.
    + apply lit_eqb_eq in Ehl. subst h. destruct (y =? ksize c) eqn:Ey.
      * apply Nat.eqb_eq in Ey. injection H as <- <- <- <-. split; [auto|]. split; [auto|]. split; [auto|]. split; [apply permTo_refl|].
        split; [|split; [discriminate|split; auto]]. intros _ a Fa.
        destruct (Ne Ey) as [t Et]. destruct Fa as (_ & _ & Cl). pose proof (Cl _ _ El) as S. rewrite Et in S.
        eapply sat_incl; [|exact S]. intros q [<-|Iq]; [auto|].
        apply (marked_in (setWat s (fst l) (kept ++ id :: ws)) id (k_lits c)); auto.
        -- rewrite Et. now right.
        -- apply (Tl t); auto.
      * apply Nat.eqb_neq in Ey. set (c' := Pcl _ _ _ _) in H.
        assert (Ec0 : k_lits c' = firstn (ksize c) (swp y (k_lits c ++ k_old c))) by reflexivity. clearbody c'. cbv zeta in H. apply bind_ok in H as (h' & Hh' & H).
        destruct (fst h' =? fst l) eqn:Eh; [discriminate|]. apply Nat.eqb_neq in Eh.
        set (s2 := addWatch (setC s id (Some c')) (fst h') id) in *.
        (* the clause after the exchange *)
        assert (K : Permutation (k_lits c) (k_lits c') /\ (k_lits c' <> [] -> exists t, k_lits c' = h' :: t)
                    /\ (k_lits c <> [] -> exists t, k_lits c = l :: t /\ nth_error t (y - 1) = Some h' /\ k_lits c' = h' :: putAt t (y - 1) l)
                    /\ ksize c' = ksize c).
        { destruct (k_lits c) as [|h0 t0] eqn:Ek.
          - assert (Ec1 : k_lits c' = []). { rewrite Ec0. unfold ksize. rewrite Ek. reflexivity. }
            rewrite Ec1. split; [auto|]. split; [congruence|]. split; [congruence|]. unfold ksize. now rewrite Ec1, Ek.
          - assert (h0 = l). { unfold kat in Hh. rewrite Ek in Hh. cbn in Hh. congruence. } subst h0.
            assert (Hy2 : 1 <= y < length (k_lits c)).
            { unfold ksize in *. rewrite Ek in *. cbn [length] in *. lia. }
            destruct (swp_in (k_lits c) (k_old c) l t0 y Ek Hy2) as (q & Eq & Es & Ef).
            assert (Ec' : k_lits c' = q :: putAt t0 (y - 1) l). { rewrite Ec0, <- Ek. exact Ef. }
            assert (h' = q). { unfold kat in Hh'. rewrite Ec' in Hh'. cbn in Hh'. congruence. } subst q.
            rewrite Ec'. split; [now apply putAt_perm|]. split; [eauto|]. split; [intros _; exists t0; auto|].
            unfold ksize. rewrite Ec', Ek. cbn. now rewrite putAt_len. }
        destruct K as (Pm & Hd' & Ct & Ks).
        assert (W2 : WW s2 (fst l) (kept ++ ws)) by (eapply WW_move; eauto).
        assert (P2 : permTo s s2).
        { repeat (split; [reflexivity|]). intros j. change (lits s2 j) with (lits (setC s id (Some c')) j). rewrite lits_setC.
          destruct (j =? id) eqn:Ej; [apply Nat.eqb_eq in Ej as ->; rewrite El; exact Pm|]. destruct (lits s j); auto. }
        assert (M2 : Mk s2) by exact M.
        assert (Iv2 : Inv s2). { intros a Fa. apply (F_permTo _ _ a P2) in Fa. exact (Iv a Fa). }
        assert (Wt : forall j, lits s j = None -> forall v, In j (s_wat s2 v) -> In j (s_wat s v)).
        { intros j Nj v. unfold s2, addWatch. cbn. unfold upd. destruct (v =? fst h') eqn:Ev; [|auto]. apply Nat.eqb_eq in Ev as ->.
          intros I. apply in_app_iff in I as [I|[I|[]]]; [auto|]. congruence. }
        assert (N2 : forall j, lits s j = None -> lits s2 j = None) by (intros j; apply lperm_none; apply P2).
        (* finish: any later state *)
        assert (Fin : forall s3 str3, lmOnly s2 s3 -> Mk s3 -> Inv s3 -> s_lm s3 (fst l) = Some (snd l) ->
          (forall v, s_lm s3 v <> None -> s_lm s v <> None) ->
          subWatch l ws kept str3 s3 = Ok (s', kept', str', x) ->
          WW s' (fst l) kept' /\ Mk s' /\ Inv s' /\ permTo s s'
          /\ (x = RSub -> forall a, F s a -> sat_clause a cl0 = true)
          /\ (x = RRem -> s_lm s' (fst l) = None)
          /\ (forall v, s_lm s' v <> None -> s_lm s v <> None)
          /\ (forall j, lits s j = None -> (forall v, v <> fst l -> In j (s_wat s' v) -> In j (s_wat s v)) /\ (In j kept' -> In j (kept ++ id :: ws)))).
        { intros s3 str3 L3 M3 Iv3 Ml3 Mm3 H3. apply IH in H3; auto; [|eapply WW_lm; eauto].
          destruct H3 as (A1 & A2 & A3 & A4 & A5 & A6 & A7 & A8).
          assert (P3 : permTo s s3) by (eapply permTo_trans; [exact P2|now apply lmOnly_permTo]).
          split; [auto|]. split; [auto|]. split; [auto|]. split; [eapply permTo_trans; eauto|]. split.
          - intros Ex a Fa. apply A5; auto. apply (F_permTo s s3); auto.
          - split; [auto|]. split; [auto|]. intros j Nj. assert (N3 : lits s3 j = None) by (rewrite (lmOnly_lits _ _ L3); auto).
            destruct (A8 j N3) as [B1 B2]. split.
            + intros v Nv I. apply Wt; auto. replace (s_wat s2) with (s_wat s3) by apply L3. apply B1; auto.
            + intros I. specialize (B2 I). apply in_app_iff in B2. apply in_app_iff. cbn. tauto. }
        destruct (s_lm s2 (fst h')) as [b|] eqn:Eb.
        -- apply bind_ok in H as (z & Hz & H). destruct (z =? ksize c') eqn:Ez.
           ++ apply Nat.eqb_eq in Ez. apply findU_ok in Hz as (Z1 & Z2 & Z3 & Z4).
              assert (Ne' : k_lits c <> []).
              { intros K. assert (ksize c = 0) by (unfold ksize; now rewrite K). lia. }
              destruct (Ct Ne') as (t & Et & Ek & Ec').
              assert (Yl : y - 1 < length t) by (apply nth_error_Some; congruence).
              assert (Hmf : markedL s h' = false).
              { destruct (Y4 Ey) as (p & E & Mp). rewrite Et in E. cbn in E. destruct y as [|y']; [lia|]. cbn in E.
                replace (S y' - 1) with y' in * by lia. rewrite nth_error_app1 in E by lia. congruence. }
              assert (Ih' : In h' (k_lits c)). { rewrite Et. right. eapply nth_error_In; eauto. }
              assert (Inh : In (neg h') cl0).
              { apply (some_in (setWat s (fst l) (kept ++ id :: ws)) id (k_lits c)); auto.
                change (s_lm s2 (fst h') <> None). rewrite Eb. discriminate. }
              assert (All : forall p, In p (k_lits c') -> p <> h' -> markedL s2 p = true).
              { rewrite Ec'. intros p [<-|I] Np; [congruence|]. apply In_nth_error in I as [j Ej]. rewrite putAt_nth in Ej by auto.
                destruct (j =? y - 1) eqn:Ejy.
                - injection Ej as <-. unfold markedL. change (s_lm s2 (fst l)) with (s_lm s (fst l)). rewrite Ml. apply eqb_reflx.
                - apply Nat.eqb_neq in Ejy. assert (Jl : j < length t) by (apply nth_error_Some; congruence).
                  destruct (Nat.lt_ge_cases (S j) y) as [Lt|Ge].
                  + destruct (Y3 (S j)) as (q & Eq & Mq); [lia|]. rewrite Et in Eq. cbn in Eq. rewrite nth_error_app1 in Eq by auto.
                    change (markedL s p = true). congruence.
                  + destruct (Z3 (S j)) as (q & Eq & Mq).
                    { split; [lia|]. rewrite Ez, Ks. unfold ksize. rewrite Et. cbn. lia. }
                    rewrite Ec' in Eq. cbn in Eq. rewrite nth_error_app1 in Eq by (rewrite putAt_len; auto).
                    rewrite putAt_nth in Eq by auto. apply Nat.eqb_neq in Ejy. rewrite Ejy in Eq. congruence. }
              apply Fin in H; auto.
              ** repeat split.
              ** apply Mk_unmark; auto. change (fst h') with (fst (neg h')). now apply in_map.
              ** assert (El2 : lits s2 id = Some (k_lits c')).
                 { change (lits (setC s id (Some c')) id = Some (k_lits c')). now rewrite lits_setC, Nat.eqb_refl. }
                 assert (Inv (unmark (setWat s2 (fst l) (kept ++ ws)) (fst h'))).
                 { apply (Inv_unmark _ id h' (k_lits c')); auto. rewrite Ec'. now left. }
                 intros a Fa. apply H0. apply (F_ext R (unmark s2 (fst h'))); auto.
              ** cbn. rewrite upd_other by congruence. exact Ml.
              ** intros v. cbn. unfold upd. destruct (v =? fst h'); [congruence|auto].
           ++ apply Fin in H; auto. apply lmOnly_refl.
        -- apply Fin in H; auto. apply lmOnly_refl.
    + apply lit_eqb_neq in Ehl. destruct (y =? ksize c) eqn:Ey.
      * apply Nat.eqb_eq in Ey. injection H as <- <- <- <-. destruct (Ne Ey) as [t Et]. pose proof (Hv _ _ Et) as Eh.
        assert (Enl : neg h = l).
        { apply pair_eta; [auto|]. cbn. destruct (bool_dec (snd h) (snd l)) as [K|K]; [exfalso; apply Ehl; now apply pair_eta|].
          destruct (snd h), (snd l); cbn; congruence. }
        split; [eapply WW_lm; [|exact W]; repeat split|]. split; [apply Mk_unmark; auto; now apply in_map|]. split.
        { assert (Inv (unmark (setWat s (fst l) (kept ++ id :: ws)) (fst h))).
          { apply (Inv_unmark _ id h (k_lits c)); auto.
            - rewrite Et. now left.
            - rewrite Et. intros p [<-|I] Np; [congruence|]. apply (Tl t); auto.
            - now rewrite Enl. }
          rewrite Eh in H. intros a Fa. apply H. apply (F_ext R (unmark s (fst l))); auto. }
        split; [apply lmOnly_permTo; repeat split|]. split; [discriminate|]. split; [intros _; cbn; apply upd_same|].
        split; [|auto]. intros v. cbn. unfold upd. destruct (v =? fst l); [congruence|auto].
      * apply IH in H; auto; [|now rewrite <- app_assoc].
        destruct H as (A1 & A2 & A3 & A4 & A5 & A6 & A7 & A8). repeat (split; [assumption|]).
        intros j Nj. destruct (A8 j Nj) as [B1 B2]. split; [auto|]. rewrite <- app_assoc in B2. exact B2.
Qed.

Lemma subLits_ok : forall cl done str s s' cl' str' b,
  wf0 D (relm D s) -> Mk s -> Inv s -> incl (done ++ cl) cl0 -> NoDup (map fst (done ++ cl)) ->
  (forall p, In p cl0 -> s_lm s (fst p) <> None -> In p (done ++ cl)) ->
  subLits cl done str s = Ok (s', cl', str', b) ->
  wf0 D (relm D s') /\ Mk s' /\ Inv s' /\ permTo s s' /\ incl cl' cl0 /\ NoDup (map fst cl')
  /\ (forall p, In p cl0 -> s_lm s' (fst p) <> None -> In p cl')
  /\ (b = true -> forall a, F s a -> sat_clause a cl0 = true)
  /\ (forall j, fr j s s').
Proof.
  induction cl as [|l cl IH]; intros done str s s' cl' str' b W M Iv Ic Nd Keep H; cbn in H.
  - injection H as <- <- <- <-. rewrite app_nil_r in *. repeat (split; [assumption|]). split; [apply permTo_refl|].
    repeat (split; [assumption|]). split; [discriminate|]. intros; apply fr_refl.
  - assert (Il : In l cl0) by (apply Ic, in_app_iff; right; now left).
    assert (Sk : forall s1, (forall v, s_lm s1 v <> None -> s_lm s v <> None) -> s_lm s1 (fst l) = None ->
       forall p, In p cl0 -> s_lm s1 (fst p) <> None -> In p (done ++ cl)).
    { intros s1 Mm Nl p Ip Np. specialize (Keep p Ip (Mm _ Np)). apply in_app_iff in Keep. apply in_app_iff.
      destruct Keep as [K|[K|K]]; auto. subst. congruence. }
    assert (Ic' : incl (done ++ cl) cl0).
    { intros p I. apply Ic. apply in_app_iff in I. apply in_app_iff. cbn. tauto. }
    assert (Nd' : NoDup (map fst (done ++ cl))).
    { rewrite map_app in *. cbn in Nd. now apply NoDup_remove_1 in Nd. }
    destruct (s_lm s (fst l)) as [b0|] eqn:El.
    + assert (Ml : s_lm s (fst l) = Some (snd l)) by (destruct (proj1 M l Il); congruence). clear El b0.
      apply bind_ok in H as ([[[s1 kept] str1] x] & H1 & H).
      apply subWatch_ok in H1; auto.
      2:{ apply (wf0_shrink fz D _ _ W); auto; [intros ? ? K; exact K|]. intros u id _. cbn. unfold upd. destruct (u =? fst l) eqn:E; [|auto].
          apply Nat.eqb_eq in E as ->. auto. }
      destruct H1 as (A1 & A2 & A3 & A4 & A5 & A6 & A7 & A8).
      set (s2 := setWat s1 (fst l) kept) in *.
      assert (P2 : permTo s s2) by exact A4.
      assert (I2 : Inv s2). { intros a Fa. apply (A3 a). apply (F_ext R s1 s2); auto. }
      assert (Fr2 : forall j, fr j s s2).
      { intros j. split; [apply lperm_none, P2|]. split.
        - replace (s_occ s2) with (s_occ s); [auto|]. symmetry. apply P2.
        - intros Nj v. cbn. unfold upd. destruct (A8 j Nj) as [B1 B2]. destruct (v =? fst l) eqn:E; [apply Nat.eqb_eq in E as ->; auto|].
          apply Nat.eqb_neq in E. apply B1; auto. }
      destruct x.
      * injection H as <- <- <- <-. repeat (split; [assumption|]). split; [|auto].
        intros p Ip Np. apply Keep; auto.
      * apply IH in H; auto; [|apply Sk; [exact A7|auto]]. destruct H as (B1 & B2 & B3 & B4 & B5 & B6 & B7 & B8 & B9).
        split; [assumption|]. split; [assumption|]. split; [assumption|]. split; [eapply permTo_trans; eauto|].
        split; [assumption|]. split; [assumption|]. split; [assumption|]. split.
        -- intros Hb a Fa. apply B8; auto. apply (F_permTo s s2); auto.
        -- intros j. eapply fr_trans; eauto.
      * assert (Ea : (done ++ [l]) ++ cl = done ++ l :: cl) by now rewrite <- app_assoc.
        apply IH in H; auto; rewrite ?Ea; auto.
        -- destruct H as (B1 & B2 & B3 & B4 & B5 & B6 & B7 & B8 & B9).
           split; [assumption|]. split; [assumption|]. split; [assumption|]. split; [eapply permTo_trans; eauto|].
           split; [assumption|]. split; [assumption|]. split; [assumption|]. split.
           ++ intros Hb a Fa. apply B8; auto. apply (F_permTo s s2); auto.
           ++ intros j. eapply fr_trans; eauto.
    + apply IH in H; auto. apply Sk; auto.
Qed.

Lemma last_perm {A} (r : list A) d : r <> [] -> Permutation r (last r d :: removelast r).
Proof.
  intros N. rewrite (app_removelast_last d N) at 1. eapply Permutation_trans; [apply Permutation_app_comm|]. cbn. auto.
Qed.
Lemma prune_ok s : forall n pre post str r, prune s n pre post str = r -> NoDup (map fst (pre ++ post)) ->
  incl r (pre ++ post) /\ NoDup (map fst r)
  /\ (forall p, In p (pre ++ post) -> s_lm s (fst p) <> None -> In p r).
Proof.
  induction n as [|n IH]; intros pre post str r H Nd; cbn in H.
  { subst r. split; [apply incl_refl|]. auto. }
  destruct post as [|p post]; [subst r; split; [apply incl_refl|auto]|].
  destruct (s_lm s (fst p)) eqn:E.
  - apply IH in H; rewrite <- app_assoc in *; auto.
  - set (post' := match post with [] => [] | _ => last post p :: removelast post end) in *.
    assert (P : Permutation post post').
    { unfold post'. destruct post as [|y t]; [auto|]. apply last_perm. discriminate. }
    assert (Nd' : NoDup (map fst (pre ++ post'))).
    { rewrite map_app in *. cbn in Nd. apply NoDup_remove_1 in Nd. eapply Permutation_NoDup; [|exact Nd].
      apply Permutation_app_head, Permutation_map, P. }
    assert (I1 : incl (pre ++ post') (pre ++ p :: post)).
    { intros q I. apply in_app_iff in I. apply in_app_iff. destruct I as [I|I]; [auto|]. right. right.
      eapply Permutation_in; [apply Permutation_sym, P|auto]. }
    assert (I2 : forall q, In q (pre ++ p :: post) -> s_lm s (fst q) <> None -> In q (pre ++ post')).
    { intros q I Nq. apply in_app_iff in I. apply in_app_iff. destruct I as [I|[I|I]]; [auto|subst; congruence|].
      right. eapply Permutation_in; eauto. }
    destruct (_ =? 0)%Z.
    + subst r. auto.
    + apply IH in H as (A & B & C); auto. split; [|split; auto]. intros q I. auto.
Qed.

Lemma subsumed_ok s s' cl' b : wf0 D (relm D s) -> (forall p, In p cl0 -> s_lm s (fst p) = Some (snd p)) ->
  (forall v, ~ In v (map fst cl0) -> s_lm s v = lmD D v) ->
  subsumed cl0 s = Ok (s', cl', b) ->
  wf0 D (relm D s') /\ Mk s' /\ permTo s s' /\ incl cl' cl0 /\ NoDup (map fst cl')
  /\ (forall p, In p cl0 -> s_lm s' (fst p) <> None -> In p cl')
  /\ (b = true -> forall a, F s a -> sat_clause a cl0 = true)
  /\ (forall a, F s a -> sat_clause a cl0 = true -> sat_clause a cl' = true)
  /\ (forall j, fr j s s').
Proof.
  intros W M1 M2 H. unfold subsumed in H. apply bind_ok in H as ([[[s1 cl1] str1] b1] & H1 & H).
  apply subLits_ok in H1; auto; cbn; auto using incl_refl.
  - destruct H1 as (A1 & A2 & A3 & A4 & A5 & A6 & A7 & A8 & A9).
    assert (S : forall a r, F s a -> sat_clause a cl0 = true -> (forall p, In p cl0 -> s_lm s1 (fst p) <> None -> In p r) -> sat_clause a r = true).
    { intros a r Fa Sa Hr. apply (F_permTo _ _ a A4) in Fa. destruct (A3 a Fa Sa) as (p & Ip & Mp & Hp).
      apply sat_in. exists p. split; [|auto]. apply Hr; [auto|]. unfold markedL in Mp. intros K. rewrite K in Mp. discriminate. }
    destruct b1.
    + injection H as <- <- <-. repeat (split; [assumption|]). split; [|auto]. intros a Fa Sa. eapply S; eauto.
    + injection H as <- <- <-. split; [assumption|]. split; [assumption|]. split; [assumption|].
      destruct (0 <? str1)%Z.
      * destruct (prune_ok s1 (length cl1) [] cl1 str1 _ eq_refl A6) as (B1 & B2 & B3). cbn in B1, B3.
        split; [intros p I; auto|]. split; [auto|]. split; [auto|]. split; [discriminate|]. split; [|auto].
        intros a Fa Sa. apply (S a); auto.
      * repeat (split; [assumption|]). split; [|auto]. intros a Fa Sa. eapply S; eauto.
  - split; [intros p I; left; auto|auto].
  - intros a Fa Sa. apply sat_in in Sa as (p & I & Hp). exists p. split; [auto|]. split; [|auto].
    unfold markedL. rewrite M1 by auto. apply eqb_reflx.
Qed.
End Sub.
End El.
