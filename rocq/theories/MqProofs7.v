(** The broadcast queue: every step is defined and preserves the invariants. *)
From Coq Require Import List Arith Bool Lia.
From Verif Require Import Base MqModel MqSpec MqProofs MqProofs2 MqProofs3 MqProofs4 MqProofs5 MqProofs6.
Import ListNotations.

Section P.
Variable A : Type.
Notation item := (item A). Notation pc := (pc A). Notation st := (st A). Notation ev := (ev A). Notation gh := (gh A).
Notation len g := (length (g_ord g)). Notation TR := (TR A). Notation rc := (rc A). Notation dcnt := (dcnt A). Notation pend := (pend A). Notation lag := (lag A).
Notation inCon := (inCon A). Notation ids := (ids A).

Ltac un := unfold goto, setNext, setRefs, setData, setTail, setTop, setBrk, setCid, setCnt; cbn [s_next s_refs s_data s_tail s_top s_brk s_cid s_pc s_cnt].
Ltac gn := cbn [g_ord g_pos g_tp g_stk g_rel].

(** Same observations of control states. *)
Definition sameObs (p p' : pc) : Prop :=
  pubOwn p' = pubOwn p /\ relOwn p' = relOwn p /\ (forall q, lf p' q = lf p q) /\ relaxed p' = relaxed p /\ publishing p' = publishing p /\
  pend p' = pend p /\ lag p' = lag p /\ inCon p' = inCon p /\ c345 p' = c345 p.

Lemma dcnt_same (s s' : st) (g g' : gh) n : (forall u, c345 (s_pc s' u) = c345 (s_pc s u)) -> g_rel g' = g_rel g -> dcnt s g n -> dcnt s' g' n.
Proof. intros E R [((u & H) & ->)|(H & ->)]; unfold MqProofs6.dcnt; rewrite R; [left; split; [exists u; now rewrite E|reflexivity]|right; split; [intros u; rewrite E; apply H|reflexivity]]. Qed.

Lemma obs_upd B (f : pc -> B) (h : nat -> pc) t p' u : f p' = f (h t) -> f (upd h t p' u) = f (h u).
Proof. intros E. unfold upd. destruct (Nat.eqb_spec u t); [now subst|reflexivity]. Qed.

Lemma rc_same (s s' : st) (g g' : gh) u : inCon (s_pc s' u) = inCon (s_pc s u) -> g_pos g' u = g_pos g u -> rc s' g' u = rc s g u.
Proof. intros E P. unfold MqProofs6.rc. now rewrite E, P. Qed.

Definition sameT (p p' : pc) : Prop := pend p' = pend p /\ lag p' = lag p /\ inCon p' = inCon p /\ c345 p' = c345 p.
Lemma tr_obs m tr (s s' : st) (g g' : gh) t p' : TR m tr s g -> sameT (s_pc s t) p' -> s_pc s' = upd (s_pc s) t p' -> s_cnt s' = s_cnt s ->
  g_ord g' = g_ord g -> g_pos g' = g_pos g -> g_tp g <= g_tp g' -> g_rel g' = g_rel g -> TR m (tr ++ []) s' g'.
Proof.
  intros T (O6 & O7 & O8 & O9) Ep Ec Eo Epos Et Er. rewrite app_nil_r. apply (tr_silent A m tr s s' g g' T); auto.
  - intros u. apply rc_same; [rewrite Ep; now apply (obs_upd _ inCon)|now rewrite Epos].
  - intros n. apply dcnt_same; [|exact Er]. intros u. rewrite Ep. now apply (obs_upd _ c345).
  - intros u. rewrite Ep. now apply (obs_upd _ pend).
  - intros u. rewrite Ep. now apply (obs_upd _ lag).
Qed.

(** Steps that change the control state and the node owned by the thread only. *)
Lemma local_ok m tr (s s' : st) g t p' : Inv m s g -> TR m tr s g -> t < m -> sameObs (s_pc s t) p' -> lag (s_pc s t) = false ->
  (c34 (s_pc s t) = true -> c34 p' = true) ->
  s_pc s' = upd (s_pc s) t p' -> s_cid s' = s_cid s -> s_tail s' = s_tail s -> s_top s' = s_top s -> s_brk s' = s_brk s -> s_cnt s' = s_cnt s ->
  (forall a, own (s_pc s t) <> Some a -> s_next s' a = s_next s a /\ s_refs s' a = s_refs s a /\ s_data s' a = s_data s a) ->
  pcOk m s' g t -> exists g', Inv m s' g' /\ TR m (tr ++ []) s' g'.
Proof.
  intros I T L O NL C Ep Ec Et Eo Eb En Em PC. exists g. pose proof O as (O1 & O2 & O3 & O4 & O5 & O6 & O7 & O8 & O9). split.
  - apply (keep A m s s' g t I L); rewrite ?Ep, ?upd_eq; auto.
    + intros u N. now apply upd_neq.
    + intros u. now rewrite Ec.
    + rewrite O4. auto.
    + rewrite O5. auto.
  - apply (tr_obs m tr s s' g g t p'); auto. unfold sameT; auto.
Qed.
Lemma go_ok m tr (s : st) g t p' : Inv m s g -> TR m tr s g -> t < m -> sameObs (s_pc s t) p' -> lag (s_pc s t) = false ->
  (c34 (s_pc s t) = true -> c34 p' = true) -> pcOk m (goto t p' s) g t -> exists g', Inv m (goto t p' s) g' /\ TR m (tr ++ []) (goto t p' s) g'.
Proof. intros I T L O NL C PC. apply (local_ok m tr s (goto t p' s) g t p'); auto. Qed.

(** safe only depends on the control states through pubOwn and lf. *)
Lemma safe_goto (s : st) g t p' n : pubOwn p' = pubOwn (s_pc s t) -> (forall q, lf p' q = lf (s_pc s t) q) -> safe s g t n -> safe (goto t p' s) g t n.
Proof.
  intros P F [(u & H)|(i & x & H1 & H2)].
  - left. exists u. cbn. rewrite (obs_upd _ pubOwn); assumption.
  - right. exists i, x. cbn. rewrite upd_eq, F. auto.
Qed.

Ltac obs := unfold sameObs; cbn; repeat split; reflexivity.
Ltac obk := match goal with k : kind |- _ => destruct k; obs end.

Lemma ptr_ok m (s : st) g a : Inv m s g -> 1 <= a < s_brk s -> ptr s a = true.
Proof. intros I H. unfold ptr. apply andb_true_intro. split; [apply Nat.leb_le|apply Nat.ltb_lt]; lia. Qed.
Lemma node_ok (s : st) a : 2 <= a < s_brk s -> node s a = true.
Proof. intros H. unfold node. apply andb_true_intro. split; [apply Nat.leb_le|apply Nat.ltb_lt]; lia. Qed.

Lemma mem_own (f : nat -> nat) n v a : Some n <> Some a -> upd f n v a = f a.
Proof. intros H. apply upd_neq. congruence. Qed.

Section Step.
Variables (m : nat) (tr : list ev) (s : st) (g : gh) (t : nat).
Hypothesis I : Inv m s g.
Hypothesis T : TR m tr s g.
Hypothesis L : t < m.

Definition good (r : res (st * list ev)) : Prop := exists s' e, r = Ok (s', e) /\ exists g', Inv m s' g' /\ TR m (tr ++ e) s' g'.

Lemma good_ok s' e : (exists g', Inv m s' g' /\ TR m (tr ++ e) s' g') -> good (Ok (s', e)).
Proof. intros H. exists s', e. auto. Qed.

Lemma own_rng n : own (s_pc s t) = Some n -> 2 <= n < s_brk s.
Proof. intros O. now apply (i_own I) in O. Qed.


Ltac start Q := unfold run1; rewrite Q; pose proof (i_pc I t) as PC; unfold pcOk in PC; rewrite Q in PC.
Ltac gok := apply good_ok; match goal with |- exists g', Inv m (goto t ?p s) g' /\ _ => apply (go_ok m tr s g t p I T L) end;
  [match goal with Q : s_pc s t = _ |- _ => rewrite Q end; first [obs|obk]|match goal with Q : s_pc s t = _ |- _ => rewrite Q end; reflexivity
  |match goal with Q : s_pc s t = _ |- _ => rewrite Q end; cbn; auto|unfold pcOk; un; rewrite upd_eq].
Ltac sT Q := unfold sameT; rewrite Q; repeat split; reflexivity.

Lemma eta_tail : setTail (s_tail s) s = s.
Proof. destruct s; reflexivity. Qed.

Lemma st_pop0 k i : s_pc s t = Pop0 k i -> good (run1 m t s).
Proof.
  intros Q. start Q. destruct (Nat.eqb_spec (s_top s) 0) as [E|E].
  - apply good_ok. exists g. split; [apply inv_alloc; auto|].
    apply (tr_obs m tr s _ g g t (enter k i (s_brk s))); auto; try reflexivity. destruct k; sT Q.
  - gok. pose proof (i_stk I) as C. destruct (g_stk g) as [|a r] eqn:S; cbn in C; [lia|]. destruct C as (E' & _).
    assert (H : In (s_top s) (g_stk g)) by (rewrite S, E'; now left). split; [exact (stk_ge I _ H)|]. left. rewrite <- S. exact H.
Qed.
Lemma st_pop1 k i n : s_pc s t = Pop1 k i n -> good (run1 m t s).
Proof.
  intros Q. start Q. destruct PC as (V & PC). rewrite (ptr_ok m s g n I ltac:(lia)). gok. split; [exact V|]. destruct PC as [H|H]; [left; auto|right].
  apply safe_goto; [rewrite Q; reflexivity|rewrite Q; reflexivity|exact H].
Qed.
Lemma st_pop2 k i n nx : s_pc s t = Pop2 k i n nx -> good (run1 m t s).
Proof.
  intros Q. start Q. destruct (Nat.eqb_spec (s_top s) n) as [E|E].
  - apply good_ok. destruct (inv_pop A m s g t k i n nx I L Q E) as (g' & I' & E1 & E2 & E3 & E4). exists g'. split; [exact I'|].
    apply (tr_obs m tr s _ g g' t (Ini0 k i n)); auto; try lia. destruct k; sT Q.
  - gok. exact Logic.I.
Qed.
Ltac lok Q p := apply good_ok; apply (local_ok m tr s _ g t p I T L);
  [rewrite Q; first [obs|obk]|rewrite Q; reflexivity|rewrite Q; cbn; solve [discriminate|auto]|reflexivity|reflexivity|reflexivity|reflexivity|reflexivity|reflexivity
  |rewrite Q; cbn [own pubOwn relOwn]; intros ? ?; un; rewrite ?upd_neq by congruence; auto
  |unfold pcOk; un; rewrite upd_eq].
Lemma st_ini0 k i n : s_pc s t = Ini0 k i n -> good (run1 m t s).
Proof.
  intros Q. start Q. assert (R := own_rng n ltac:(rewrite Q; reflexivity)). rewrite (ptr_ok m s g n I ltac:(lia)). lok Q (Ini1 k i n). rewrite upd_eq. auto.
Qed.
Lemma st_ini1 k i n : s_pc s t = Ini1 k i n -> good (run1 m t s).
Proof.
  intros Q. start Q. assert (R := own_rng n ltac:(rewrite Q; reflexivity)). rewrite (node_ok s n ltac:(lia)). lok Q (Ini2 k i n). rewrite upd_eq. destruct PC. auto.
Qed.
Lemma st_ini2 k i n : s_pc s t = Ini2 k i n -> good (run1 m t s).
Proof.
  intros Q. start Q. assert (R := own_rng n ltac:(rewrite Q; reflexivity)). rewrite (node_ok s n ltac:(lia)). destruct PC as (P1 & P2 & P3). rewrite P1.
  lok Q (enter k i n). destruct k; unfold enter, fresh; un; rewrite upd_eq; auto.
Qed.
Lemma st_pub0 i n : s_pc s t = Pub0 i n -> good (run1 m t s).
Proof.
  intros Q. start Q. gok. split; [exact PC|]. exists (g_tp g). repeat split; [apply (i_pos I)|lia|apply (i_tail I)].
Qed.
Lemma st_pub1 i n a : s_pc s t = Pub1 i n a -> good (run1 m t s).
Proof.
  intros Q. start Q. destruct PC as (F & j & J). pose proof (at_lpos I t a j L J) as LP. assert (Ea : a = nodeAt (g_ord g) j) by apply J.
  rewrite (ptr_ok m s g a I) by (rewrite Ea; exact (lpos_ge I j LP)). gok. split; [exact F|]. exists j. split; [exact J|].
  destruct LP as (L1 & L2). rewrite Ea, (i_chain I j L1 L2). destruct (le_lt_dec (len g) j); [left; apply nodeAt_over; lia|right; auto].
Qed.
Lemma st_pub2 i n a an : s_pc s t = Pub2 i n a an -> good (run1 m t s).
Proof.
  intros Q. start Q. destruct PC as (F & j & J & H). destruct (Nat.eqb_spec a (s_tail s)); cbn [negb].
  - destruct (Nat.eqb_spec an 0); cbn [negb]; gok; (split; [exact F|]); [exists j; exact J|]. exists j. destruct H as [H|(H1 & H2)]; [congruence|auto].
  - gok. split; [exact F|]. exists j. exact J.
Qed.
Lemma st_pub3 i n a an : s_pc s t = Pub3 i n a an -> good (run1 m t s).
Proof.
  intros Q. start Q. destruct PC as (F & j & J & H1 & H2). pose proof (at_lpos I t a j L J) as LP. pose proof (i_tp I) as TP.
  destruct (Nat.eqb_spec (s_tail s) a) as [E|E].
  - assert (Ej : g_tp g = j). { apply (lpos_inj I); [exact (tail_lpos I t L)|exact LP|]. rewrite <- (i_tail I), E. apply J. }
    apply good_ok. rewrite H2. eexists. split; [eapply (inv_tail A m s _ g t (Pub4 i n a) (S j) I L eq_refl)|]; try (rewrite Q; reflexivity); try (rewrite Q; cbn; auto; fail).
    + lia.
    + intros X. lia.
    + unfold pcOk; un; gn. rewrite upd_eq. split; [exact F|]. exists j. destruct J as (J1 & J2 & J3). repeat split; gn; auto; lia.
    + apply (tr_obs m tr s _ g _ t (Pub4 i n a)); auto; gn; try reflexivity; try lia. sT Q.
  - gok. split; [exact F|]. exists j. exact J.
Qed.
Lemma rc_le u : rc s g u <= len g.
Proof. unfold MqProofs6.rc. pose proof (i_pos I u). pose proof (i_tp I). destruct (inCon (s_pc s u)); lia. Qed.
Lemma rel_len : g_rel g <= len g.
Proof. destruct (rel_le I); lia. Qed.
Lemma link_good n i a p' : pubOwn (s_pc s t) = Some n -> fresh m s n i -> lf (s_pc s t) (g_pos g t) = g_pos g t - 1 -> publishing (s_pc s t) = true -> c345 (s_pc s t) = false ->
  c34 (s_pc s t) = false -> pend (s_pc s t) = Some i -> lag (s_pc s t) = false -> inCon (s_pc s t) = false ->
  g_tp g = len g -> a = nodeAt (g_ord g) (g_tp g) -> (p' = Pub5 i n a \/ (p' = Rel2 i n /\ relaxed (s_pc s t) = true)) ->
  good (Ok (goto t p' (setNext a n s), [])).
Proof.
  intros O F LF Pb C345 C34 Pe Lg Ic TP -> P'. apply good_ok. eexists. split; [eapply (inv_link A m s _ g t n i p' I L eq_refl TP O F LF Pb C34 P')|].
  rewrite app_nil_r. destruct i as (id, v).
  assert (Pe' : pend p' = Some (id, v)) by (destruct P' as [->|(-> & _)]; reflexivity).
  apply (tr_link A m tr s _ g _ t n id v T); gn; auto.
  - intros u. unfold MqProofs6.rc; un; gn. rewrite (obs_upd _ inCon); [reflexivity|]. rewrite Ic. destruct P' as [->|(-> & _)]; reflexivity.
  - apply rc_le.
  - apply rel_len.
  - intros k. apply dcnt_same; [|reflexivity]. intros u. un. apply (obs_upd _ c345). rewrite C345. destruct P' as [->|(-> & _)]; reflexivity.
  - intros u. un. apply (obs_upd _ pend). now rewrite Pe.
  - un. rewrite upd_eq. destruct P' as [->|(-> & _)]; reflexivity.
  - intros u N. un. now apply upd_neq.
Qed.
Lemma st_pub4 i n a : s_pc s t = Pub4 i n a -> good (run1 m t s).
Proof.
  intros Q. start Q. destruct PC as (F & j & J). pose proof (at_lpos I t a j L J) as LP. pose proof (i_tp I) as TP. assert (Ea : a = nodeAt (g_ord g) j) by apply J.
  rewrite (ptr_ok m s g a I) by (rewrite Ea; exact (lpos_ge I j LP)). destruct (Nat.eqb_spec (s_next s a) 0) as [E|E].
  - assert (Ej : j = len g).
    { destruct LP as (L1 & L2). rewrite Ea, (i_chain I j L1 L2) in E. destruct (Nat.eq_dec j (len g)); [assumption|]. exfalso.
      assert (LP' : lpos g (S j)) by (split; lia). pose proof (lpos_ge I _ LP'). lia. }
    destruct J as (J1 & J2 & J3).
    apply (link_good n i a (Pub5 i n a)); try (rewrite Q; reflexivity); auto; [lia|]. rewrite J3. f_equal. lia.
  - gok. exact F.
Qed.
Lemma in_firstn_nth (l : list (nat * item)) j n i k : nth_error l j = Some (n, i) -> j < k -> In (fst i) (firstn k (ids l)).
Proof.
  revert j k. induction l as [|x l IH]; intros [|j] [|k]; cbn; try discriminate; try lia.
  - intros H _. injection H as ->. now left.
  - intros H Lk. right. apply (IH j k H). lia.
Qed.
Lemma ret_good i tp' : pend (s_pc s t) = Some i -> lag (s_pc s t) = true -> publishing (s_pc s t) = true -> pubOwn (s_pc s t) = None -> relOwn (s_pc s t) = None ->
  lf (s_pc s t) (g_pos g t) = g_pos g t - 1 -> c34 (s_pc s t) = false -> c345 (s_pc s t) = false -> inCon (s_pc s t) = false ->
  g_tp g <= tp' <= len g -> (exists j n, nth_error (g_ord g) j = Some (n, i) /\ j < tp') ->
  (len g = S tp' -> tp' = g_tp g /\ (forall i n a, s_pc s t = Pub5 i n a -> a <> nodeAt (g_ord g) (g_tp g)) /\ (forall i n, s_pc s t <> Rel2 i n)) ->
  good (Ok (goto t Idle (setTail (nodeAt (g_ord g) tp') s), [Ret t (fst i)])).
Proof.
  intros Pe Lg Pb PO RO LF C34 C345 Ic Ht (j & n & Hn & Hj) LG. apply good_ok. eexists. split.
  - eapply (inv_tail A m s _ g t Idle tp' I L eq_refl); auto; try discriminate. unfold pcOk; un. now rewrite upd_eq.
  - assert (IC : forall u, inCon (upd (s_pc s) t Idle u) = inCon (s_pc s u)) by (intros u; apply (obs_upd _ inCon); now rewrite Ic).
    eapply (tr_event A m tr s _ g _ (Ret t (fst i)) T); gn; try reflexivity; try lia; try discriminate.
    + intros u. rewrite received_plain by reflexivity. unfold MqProofs6.rc; un; gn. rewrite IC. apply (t_got _ _ _ _ _ T).
    + rewrite deleted_plain by reflexivity. destruct (t_del _ _ _ _ _ T) as (k & D & E). exists k. split; [|exact E]. revert D. apply dcnt_same; [|reflexivity]. intros u. un.
      apply (obs_upd _ c345). now rewrite C345.
    + intros u x. un. unfold upd. destruct (Nat.eqb_spec u t); [discriminate|auto].
    + intros u id E. injection E as <- <-. exact (in_firstn_nth _ _ _ _ _ Hn Hj).
Qed.
Lemma st_pub5 i n a : s_pc s t = Pub5 i n a -> good (run1 m t s).
Proof.
  intros Q. start Q. destruct PC as (j & J & H). pose proof (at_lpos I t a j L J) as LP. pose proof (i_tp I) as TP. pose proof (nth_lt _ _ _ _ H) as Lj.
  assert (Ej : s_tail s = a <-> g_tp g = j).
  { split; intros E.
    - apply (lpos_inj I); [exact (tail_lpos I t L)|exact LP|]. rewrite <- (i_tail I), E. apply J.
    - rewrite (i_tail I), E. symmetry. apply J. }
  destruct (Nat.eqb_spec (s_tail s) a) as [E|E].
  - apply Ej in E. rewrite <- (nodeAt_nth _ _ _ _ H). apply (ret_good i (S j)); try (rewrite Q; reflexivity); try lia. exists j, n. auto.
  - assert (g_tp g <> j) by tauto. destruct J as (J1 & J2 & J3). rewrite <- eta_tail at 1. rewrite (i_tail I).
    apply (ret_good i (g_tp g)); try (rewrite Q; reflexivity); try lia; [exists j, n; split; [exact H|lia]|].
    intros X. split; [reflexivity|]. split; [|intros i0 n0; rewrite Q; discriminate]. intros i0 n0 a0. rewrite Q. intros Y Z. injection Y as -> -> ->. apply E. now rewrite Z, (i_tail I).
Qed.
Lemma rel_tp : relaxed (s_pc s t) = true -> lag (s_pc s t) = false -> g_tp g = len g.
Proof.
  intros R Lg. pose proof (i_tp I) as TP. destruct (Nat.eq_dec (len g) (S (g_tp g))) as [E|E]; [|lia]. exfalso. destruct (i_lag I E) as (u & H).
  assert (u = t). { symmetry. apply (i_mx I t u R). destruct H as [(? & ? & ? & X & _)|(? & ? & X)]; rewrite X; reflexivity. }
  subst u. destruct H as [(? & ? & ? & X & _)|(? & ? & X)]; rewrite X in *; discriminate.
Qed.
Lemma st_rel0 i n : s_pc s t = Rel0 i n -> good (run1 m t s).
Proof. intros Q. start Q. gok. split; [exact PC|]. apply (i_tail I). Qed.
Lemma st_rel1 i n a : s_pc s t = Rel1 i n a -> good (run1 m t s).
Proof.
  intros Q. start Q. destruct PC as (F & Ea). rewrite (ptr_ok m s g a I) by (rewrite Ea; exact (lpos_ge I _ (tail_lpos I t L))).
  apply (link_good n i a (Rel2 i n)); try (rewrite Q; reflexivity); auto; [apply rel_tp; rewrite Q; reflexivity|]. right. split; [reflexivity|rewrite Q; reflexivity].
Qed.
Lemma st_rel2 i n : s_pc s t = Rel2 i n -> good (run1 m t s).
Proof.
  intros Q. start Q. destruct PC as (H & E). rewrite <- (nodeAt_nth _ _ _ _ H). apply (ret_good i (S (g_tp g))); try (rewrite Q; reflexivity); try lia. exists (g_tp g), n. auto.
Qed.
Lemma st_con0 : s_pc s t = Con0 -> good (run1 m t s).
Proof.
  intros Q. start Q. pose proof (i_cid I t) as CI. pose proof (i_tp I) as TP. pose proof (i_pos I t) as PT.
  destruct (Nat.eqb_spec (s_cid s t) (s_tail s)) as [E|E].
  - apply good_ok. exists g. assert (EP : g_pos g t = g_tp g). { apply (lpos_inj I); [apply (hold I t); [exact L|lia|lia]|exact (tail_lpos I t L)|]. now rewrite <- CI, E, (i_tail I). }
    split.
    + apply (keep A m s _ g t I L); un; rewrite ?upd_eq, ?Q; auto; try reflexivity; try discriminate.
      * intros u N. now apply upd_neq.
      * unfold pcOk; un. now rewrite upd_eq.
    + assert (IC : forall u, inCon (upd (s_pc s) t Idle u) = inCon (s_pc s u)) by (intros u; apply (obs_upd _ inCon); now rewrite Q).
      apply (tr_event A m tr s _ g _ (Empty t) T); try reflexivity; try discriminate.
      * intros u. rewrite received_plain by reflexivity. unfold MqProofs6.rc; un. rewrite IC. apply (t_got _ _ _ _ _ T).
      * rewrite deleted_plain by reflexivity. destruct (t_del _ _ _ _ _ T) as (k & D & E'). exists k. split; [|exact E']. revert D. apply dcnt_same; [|reflexivity]. intros u. un.
        apply (obs_upd _ c345). now rewrite Q.
      * intros u x. un. unfold upd. destruct (Nat.eqb_spec u t); [discriminate|auto].
      * intros u X id R. injection X as <-. rewrite (t_got _ _ _ _ _ T). unfold MqProofs6.rc. rewrite Q. cbn. rewrite EP. exact (t_ret _ _ _ _ _ T _ R).
  - gok. destruct (Nat.eq_dec (g_pos g t) (g_tp g)) as [X|X]; [|lia]. exfalso. apply E. rewrite CI, X, (i_tail I). reflexivity.
Qed.
Lemma st_con1 : s_pc s t = Con1 -> good (run1 m t s).
Proof.
  intros Q. start Q. pose proof (i_cid I t) as CI. pose proof (i_tp I) as TP. assert (LP : lpos g (g_pos g t)) by (apply (hold I t); [exact L|lia|lia]).
  assert (LP' : lpos g (S (g_pos g t))) by (apply (hold I t); [exact L|lia|lia]).
  rewrite (ptr_ok m s g _ I) by (rewrite CI; exact (lpos_ge I _ LP)).
  assert (En : s_next s (s_cid s t) = nodeAt (g_ord g) (S (g_pos g t))) by (rewrite CI; apply (i_chain I); apply LP).
  pose proof (lpos_ge I _ LP') as G. rewrite <- En in G. destruct (Nat.eqb_spec (s_next s (s_cid s t)) 0); [lia|].
  apply good_ok. eexists. split; [apply (inv_con1 A m s g t I L Q)|]. rewrite app_nil_r. apply (tr_silent A m tr s _ g _ T); gn; auto.
  - intros u. unfold MqProofs6.rc; un; gn. unfold upd. destruct (Nat.eqb_spec u t); [subst u; rewrite Q; cbn; lia|reflexivity].
  - intros k. apply dcnt_same; [|reflexivity]. intros u. un. apply (obs_upd _ c345). now rewrite Q.
  - intros u. un. apply (obs_upd _ pend). now rewrite Q.
  - intros u. un. apply (obs_upd _ lag). now rewrite Q.
Qed.
Lemma st_con2 n : s_pc s t = Con2 n -> good (run1 m t s).
Proof.
  intros Q. start Q. destruct (Nat.eqb_spec n 1) as [E|E].
  - destruct PC as (P1 & P2). assert (Ep : g_pos g t = 1).
    { destruct (g_pos g t) as [|[|k]] eqn:Z; [lia|reflexivity|]. exfalso. cbn in P2. pose proof (i_rl I t L) as R. rewrite Q, Z in R. cbn in R.
      destruct (nth_error (g_ord g) k) as [(a & x)|] eqn:Y; [|lia]. pose proof (live_ge I _ (live_in g _ _ _ Y ltac:(lia))). lia. }
    apply good_ok. exists g. split.
    + apply (keep A m s _ g t I L); un; rewrite ?upd_eq, ?Q; auto; try reflexivity; try discriminate.
      * intros u N. now apply upd_neq.
      * cbn. lia.
      * unfold pcOk; un. rewrite upd_eq. lia.
    + apply (tr_obs m tr s _ g g t Rd); auto. sT Q.
  - destruct (dec_facts A m s g t n I L Q E) as (D1 & D2 & D3 & D4 & x & D5 & D6 & D7).
    rewrite (node_ok s n) by exact (live_ge I _ (live_in g _ _ _ D5 D3)).
    pose proof (lf_deck A m s g t n I L Q E Rd (fun _ => eq_refl)) as LK. destruct (s_refs s n) as [|r] eqn:Er; [discriminate|].
    destruct (Nat.eqb_spec r 0) as [Z|Z].
    + subst r. apply good_ok. destruct (inv_last A m s g t n I L Q E Er) as (I' & Rk). eexists. split; [exact I'|]. rewrite app_nil_r.
      assert (Nc : forall u, c345 (s_pc s u) = true -> False).
      { intros u C. pose proof (i_pc I u) as PU. assert (u <> t) by (intros ->; rewrite Q in C; discriminate).
        assert (Lu : u < m). { destruct (le_lt_dec m u) as [H'|H']; [|exact H']. destruct (i_m I u H') as (X & _). rewrite X in C. discriminate. }
        pose proof (i_rl I' u Lu) as R. gn. revert R. un. gn. rewrite upd_neq by assumption. unfold pcOk in PU. destruct (s_pc s u); try discriminate; cbn; lia. }
      assert (NL : forall u, lag (upd (s_pc s) t (Con3 n) u) = lag (s_pc s u)) by (intros u; apply (obs_upd _ lag); now rewrite Q).
      assert (NP : forall u, pend (upd (s_pc s) t (Con3 n) u) = pend (s_pc s u)) by (intros u; apply (obs_upd _ pend); now rewrite Q).
      assert (NI : forall u, inCon (upd (s_pc s) t (Con3 n) u) = inCon (s_pc s u)) by (intros u; apply (obs_upd _ inCon); now rewrite Q).
      apply (tr_silent A m tr s _ g _ T); gn; un; auto.
      * intros u. unfold MqProofs6.rc; un; gn. now rewrite NI.
      * intros k [((u & C) & _)|(_ & ->)]; [exfalso; exact (Nc u C)|]. left. gn. split; [exists t; un; now rewrite upd_eq|lia].
    + apply good_ok. exists g. split; [apply (inv_dec A m s g t n I L Q E r Er Z)|]. apply (tr_obs m tr s _ g g t Rd); auto. sT Q.
Qed.
Lemma st_con3 n : s_pc s t = Con3 n -> good (run1 m t s).
Proof. intros Q. start Q. assert (R := own_rng n ltac:(rewrite Q; reflexivity)). rewrite (ptr_ok m s g n I ltac:(lia)). gok. intuition. Qed.
Lemma st_con4 n nx : s_pc s t = Con4 n nx -> good (run1 m t s).
Proof.
  intros Q. start Q. apply good_ok. exists g. split; [apply (inv_con4 A m s g t n nx I L Q)|]. apply (tr_obs m tr s _ g g t (Con5 n)); auto. sT Q.
Qed.
Lemma firstn_snoc B (l : list B) k x : nth_error l k = Some x -> firstn (S k) l = firstn k l ++ [x].
Proof. revert k; induction l; intros [|k]; cbn; try discriminate; [intros H; injection H as ->; reflexivity|]. intros H. now rewrite <- (IHl k H). Qed.
Lemma st_con5 n : s_pc s t = Con5 n -> good (run1 m t s).
Proof.
  intros Q. start Q. assert (On : own (s_pc s t) = Some n) by (rewrite Q; reflexivity). assert (R := own_rng n On). rewrite (node_ok s n ltac:(lia)).
  destruct PC as (C1 & C2 & C3 & C4 & C5). rewrite C4. unfold lastOf. destruct (nth_error (g_ord g) (g_rel g - 1)) as [(a & i)|] eqn:E.
  2:{ exfalso. apply nth_error_None in E. pose proof rel_len. lia. }
  cbn [option_map snd]. apply good_ok. exists g. split.
  - apply (keep A m s _ g t I L); un; rewrite ?upd_eq, ?Q; auto; try reflexivity; try discriminate.
    + intros u N. now apply upd_neq.
    + cbn [own pubOwn relOwn]. intros b Nb. rewrite upd_neq by congruence. auto.
    + unfold pcOk; un. rewrite !upd_eq. split; [lia|reflexivity].
  - assert (IC : forall u, inCon (upd (s_pc s) t (Psh0 n) u) = inCon (s_pc s u)) by (intros u; apply (obs_upd _ inCon); now rewrite Q).
    apply (tr_event A m tr s _ g _ (Del (fst i) (snd i)) T); try reflexivity; try discriminate.
    + intros u. rewrite received_app. cbn. rewrite app_nil_r. unfold MqProofs6.rc; un. rewrite IC. apply (t_got _ _ _ _ _ T).
    + exists (g_rel g). split.
      * right. split; [|reflexivity]. intros u. un. destruct (Nat.eq_dec u t) as [->|N]; [now rewrite upd_eq|]. rewrite upd_neq by exact N.
        destruct (c345 (s_pc s u)) eqn:C; [|reflexivity]. exfalso. apply N. apply (i_own2 I u t n); [|exact On]. pose proof (i_pc I u) as PU. unfold pcOk in PU.
        destruct (s_pc s u); try discriminate; unfold own; cbn; f_equal; destruct PU as (_ & _ & X & _); congruence.
      * rewrite deleted_app. cbn. destruct (t_del _ _ _ _ _ T) as (k & [(_ & ->)|(X & _)] & E'); [|specialize (X t); rewrite Q in X; discriminate].
        rewrite E'. assert (X : nth_error (ids (g_ord g)) (g_rel g - 1) = Some (fst i)) by (unfold MqProofs6.ids; rewrite nth_error_map; unfold MqModel.item in *; now rewrite E).
        apply firstn_snoc in X. rewrite <- X. f_equal. lia.
    + intros u x. un. unfold upd. destruct (Nat.eqb_spec u t); [discriminate|auto].
    + intros id v X u Lu. injection X as <- <-. rewrite (t_got _ _ _ _ _ T). apply (in_firstn_nth _ _ _ _ _ E). pose proof (i_rl I u Lu) as RL. unfold MqProofs6.rc.
      assert (lf (s_pc s u) (g_pos g u) <= g_pos g u - 1) by (unfold lf; destruct (s_pc s u); lia). destruct (inCon (s_pc s u)); lia.
Qed.
Lemma st_psh0 n : s_pc s t = Psh0 n -> good (run1 m t s).
Proof. intros Q. start Q. gok. exact PC. Qed.
Lemma st_psh1 n a : s_pc s t = Psh1 n a -> good (run1 m t s).
Proof.
  intros Q. start Q. assert (R := own_rng n ltac:(rewrite Q; reflexivity)). rewrite (ptr_ok m s g n I ltac:(lia)). lok Q (@Psh2 A n a). rewrite upd_eq. destruct PC. auto.
Qed.
Lemma st_psh2 n a : s_pc s t = Psh2 n a -> good (run1 m t s).
Proof.
  intros Q. start Q. destruct (Nat.eqb_spec (s_top s) a) as [E|E].
  - apply good_ok. destruct (inv_push A m s g t n a I L Q E) as (g' & I' & E1 & E2 & E3 & E4). exists g'. split; [exact I'|].
    apply (tr_obs m tr s _ g g' t Rd); auto; try lia. sT Q.
  - gok. destruct PC as (P1 & P2 & _). auto.
Qed.
Lemma st_rd : s_pc s t = Rd -> good (run1 m t s).
Proof.
  intros Q. start Q. pose proof (i_cid I t) as CI. pose proof (i_tp I) as TP. pose proof (i_pos I t) as PT.
  assert (LP : lpos g (g_pos g t)) by (apply (hold I t); [exact L|lia|lia]).
  destruct (g_pos g t) as [|k] eqn:Z; [lia|]. cbn in CI. destruct (nth_error (g_ord g) k) as [(a & i)|] eqn:E; [|apply nth_error_None in E; lia].
  assert (Rk : g_rel g <= k) by (destruct LP; lia). destruct (i_refs I _ _ _ E Rk) as (_ & D). rewrite CI. rewrite (node_ok s a) by exact (live_ge I _ (live_in g _ _ _ E Rk)).
  rewrite D. apply good_ok. exists g. split.
  - apply (keep A m s _ g t I L); un; rewrite ?upd_eq, ?Q; auto; try reflexivity; try discriminate.
    + intros u N. now apply upd_neq.
    + unfold pcOk; un. now rewrite upd_eq.
  - apply (tr_event A m tr s _ g _ (Got t (fst i) (snd i)) T); try reflexivity; try discriminate.
    + intros u. rewrite received_app. cbn. rewrite (t_got _ _ _ _ _ T). unfold MqProofs6.rc; un. destruct (Nat.eqb_spec t u) as [->|N].
      * rewrite upd_eq, Q, Z. cbn [MqProofs6.inCon Nat.sub]. rewrite Nat.sub_0_r. symmetry. apply firstn_snoc. unfold MqProofs6.ids. rewrite nth_error_map. unfold MqModel.item in *. now rewrite E.
      * rewrite upd_neq by congruence. cbn. now rewrite app_nil_r.
    + rewrite deleted_app. cbn. rewrite app_nil_r. destruct (t_del _ _ _ _ _ T) as (n & Dn & E'). exists n. split; [|exact E']. revert Dn. apply dcnt_same; [|reflexivity]. intros u. un.
      apply (obs_upd _ c345). now rewrite Q.
    + intros u x. un. unfold upd. destruct (Nat.eqb_spec u t); [discriminate|auto].
    + intros u id v X. injection X as <- <- <-. apply (t_item _ _ _ _ _ T a). apply nth_error_In in E. destruct i. exact E.
Qed.

Lemma run_good : s_pc s t <> Idle -> good (run1 m t s).
Proof.
  intros N. destruct (s_pc s t) eqn:Q; [congruence|..]; eauto using st_pop0, st_pop1, st_pop2, st_ini0, st_ini1, st_ini2, st_pub0, st_pub1, st_pub2, st_pub3, st_pub4, st_pub5, st_rel0, st_rel1,
    st_rel2, st_con0, st_con1, st_con2, st_con3, st_con4, st_con5, st_psh0, st_psh1, st_psh2, st_rd.
Qed.
End Step.
End P.
