(** Invariants of the broadcast queue, continued: effect of a step on the other threads; steps that leave the ghost state alone. *)
From Coq Require Import List Arith Bool Lia.
From Verif Require Import Base MqModel MqProofs.
Import ListNotations.

Section P.
Variable A : Type.
Notation item := (item A). Notation pc := (pc A). Notation st := (st A). Notation ev := (ev A). Notation gh := (gh A).
Notation len g := (length (g_ord g)).

Lemma pcOk_evo m (s : st) (g : gh) (s' : st) (g' : gh) u e :
  pcOk m s g u -> s_pc s' u = s_pc s u -> g_pos g' u = g_pos g u -> g_ord g' = g_ord g ++ e ->
  g_tp g <= g_tp g' -> g_tp g <= len g -> g_pos g u <= g_tp g -> s_brk s <= s_brk s' ->
  (forall n, own (s_pc s u) = Some n -> s_next s' n = s_next s n /\ s_refs s' n = s_refs s n /\ s_data s' n = s_data s n) ->
  (forall n, In n (g_stk g) -> (In n (g_stk g') /\ s_next s' n = s_next s n) \/ safe s' g' u n) ->
  (forall w n, pubOwn (s_pc s w) = Some n -> safe s' g' u n) ->
  (relaxed (s_pc s u) = true -> g_tp g' = g_tp g /\ len g' = len g) ->
  (c345 (s_pc s u) = true -> g_rel g' = g_rel g /\ s_next s' 1 = s_next s 1) ->
  pcOk m s' g' u.
Proof.
  intros H Ep Epos Eo T1 T2 T3 Eb Ho Hs Hw Hr Hc.
  assert (Hsafe : forall n, safe s g u n -> safe s' g' u n).
  { intros n [(w & W)|(i & x & L & N)]; [exact (Hw _ _ W)|]. right. exists i, x. rewrite Ep, Epos, Eo. split; [exact L|]. rewrite nth_error_app1; [exact N|].
    apply nth_error_Some. congruence. }
  assert (Hat : forall a j, atOk g u a j -> atOk g' u a j).
  { intros a j (P1 & P2 & P3). unfold MqProofs.atOk. rewrite Epos, Eo, nodeAt_app by lia. repeat split; [exact P1|lia|exact P3]. }
  assert (Hn : forall p, p <= len g -> nodeAt (g_ord g') p = nodeAt (g_ord g) p) by (intros p L; rewrite Eo; apply nodeAt_app, L).
  assert (Hl : len g <= len g') by (rewrite Eo, app_length; lia).
  assert (Hf : forall n i, own (s_pc s u) = Some n -> fresh m s n i -> fresh m s' n i).
  { intros n i O (F1 & F2 & F3). destruct (Ho n O) as (O1 & O2 & O3). repeat split; congruence. }
  assert (Hne : forall i x, nth_error (g_ord g) i = Some x -> nth_error (g_ord g') i = Some x).
  { intros i x X. rewrite Eo, nth_error_app1; [exact X|]. apply nth_error_Some. congruence. }
  assert (Hlast : 1 <= g_rel g -> g_rel g <= len g -> g_rel g' = g_rel g -> lastOf g' = lastOf g).
  { intros L1 L2 Er. unfold MqProofs.lastOf. rewrite Er, Eo, nth_error_app1 by lia. reflexivity. }
  unfold MqProofs.pcOk in *. rewrite Ep. destruct (s_pc s u) eqn:Q; auto; unfold MqProofs.own in Ho; cbn in Ho, Hr, Hc.
  - destruct H as (V & [X|X]); (split; [lia|]); [|right; auto]. destruct (Hs _ X) as [(Y & _)|Y]; auto.
  - destruct H as (V & [(X & E)|X]); (split; [lia|]); [|right; auto]. destruct (Hs _ X) as [(Y & Z)|Y]; [left; split; congruence|right; auto].
  - destruct (Ho n eq_refl) as (O1 & O2 & O3). congruence.
  - destruct (Ho n eq_refl) as (O1 & O2 & O3). destruct H. split; congruence.
  - destruct (Ho n eq_refl) as (O1 & O2 & O3). destruct H as (H1 & H2 & H3). repeat split; congruence.
  - destruct H as (H1 & j & H2). split; [apply Hf; auto|]. eauto.
  - destruct H as (H1 & j & H2 & H3). split; [apply Hf; auto|]. exists j. split; [auto|]. destruct H3 as [H3|(H3 & H4)]; [auto|right]. split; [lia|]. now rewrite Hn by lia.
  - destruct H as (H1 & j & H2 & H3 & H4). split; [apply Hf; auto|]. exists j. split; [auto|]. split; [lia|]. now rewrite Hn by lia.
  - destruct H as (H1 & j & H2). split; [apply Hf; auto|]. eauto.
  - destruct H as (j & H2 & H3). exists j. split; auto.
  - destruct H as (H1 & H2). split; [apply Hf; auto|]. destruct (Hr eq_refl) as (-> & _). now rewrite Hn by lia.
  - destruct (Hr eq_refl) as (R1 & R2). destruct H as (H1 & H2). rewrite R1. split; [auto|lia].
  - rewrite Epos. lia.
  - rewrite Epos, Hn by lia. exact H.
  - destruct (Ho n eq_refl) as (O1 & O2 & O3). destruct (Hc eq_refl) as (C1 & C2). destruct H as (H1 & H2 & H3 & H4 & H5 & H6).
    rewrite C1, C2, Epos, O1, O3, Hlast, !Hn by lia. auto 10.
  - destruct (Ho n eq_refl) as (O1 & O2 & O3). destruct (Hc eq_refl) as (C1 & C2). destruct H as (H1 & H2 & H3 & H4 & H5 & H6).
    rewrite C1, C2, Epos, O3, Hlast, !Hn by lia. auto 10.
  - destruct (Ho n eq_refl) as (O1 & O2 & O3). destruct (Hc eq_refl) as (C1 & C2). destruct H as (H1 & H2 & H3 & H4 & H5).
    rewrite C1, C2, Epos, O3, Hlast, !Hn by lia. auto 10.
  - destruct (Ho n eq_refl) as (O1 & O2 & O3). rewrite Epos. destruct H. split; [auto|congruence].
  - destruct (Ho n eq_refl) as (O1 & O2 & O3). rewrite Epos. destruct H. split; [auto|congruence].
  - destruct (Ho n eq_refl) as (O1 & O2 & O3). rewrite Epos. destruct H as (H1 & H2 & H3). repeat split; [auto|congruence|congruence].
  - rewrite Epos. lia.
Qed.

(** Steps that change nothing but the control state of thread t and the node it owns. *)
Definition lag (p : pc) : bool := match p with Pub5 _ _ _ | Rel2 _ _ => true | _ => false end.

Lemma chainS_ext (f h : nat -> nat) l : forall x, (forall a, In a l -> f a = h a) -> chainS f x l -> chainS h x l.
Proof. induction l; cbn; [auto|]. intros x H (-> & C). split; [reflexivity|]. apply IHl; [auto|]. rewrite <- (H a); auto. Qed.

Lemma count_ext m f h : (forall u, u < m -> f u = h u) -> count m f = count m h.
Proof. intros H. unfold count. f_equal. apply filter_ext_in. intros a X. apply in_seq in X. apply H. lia. Qed.

Lemma keep m (s s' : st) (g : gh) t :
  Inv m s g -> t < m -> (forall u, u <> t -> s_pc s' u = s_pc s u) -> (forall u, s_cid s' u = s_cid s u) -> s_tail s' = s_tail s -> s_top s' = s_top s -> s_brk s' = s_brk s ->
  (forall a, own (s_pc s t) <> Some a -> s_next s' a = s_next s a /\ s_refs s' a = s_refs s a /\ s_data s' a = s_data s a) ->
  pubOwn (s_pc s' t) = pubOwn (s_pc s t) -> relOwn (s_pc s' t) = relOwn (s_pc s t) -> lf (s_pc s' t) (g_pos g t) = lf (s_pc s t) (g_pos g t) ->
  (relaxed (s_pc s' t) = true -> relaxed (s_pc s t) = true \/ forall u, u <> t -> publishing (s_pc s u) = false) ->
  (publishing (s_pc s' t) = true -> publishing (s_pc s t) = true \/ forall u, u <> t -> relaxed (s_pc s u) = false) ->
  lag (s_pc s t) = false -> (c34 (s_pc s t) = true -> c34 (s_pc s' t) = true) -> pcOk m s' g t -> Inv m s' g.
Proof.
  intros I L Ep Ec Et Eo Eb Em P1 P2 P3 M1 M2 NL C34 PC.
  assert (Q1 : forall u, pubOwn (s_pc s' u) = pubOwn (s_pc s u)) by (intros u; destruct (Nat.eq_dec u t) as [->|N]; [exact P1|now rewrite Ep]).
  assert (Q2 : forall u, relOwn (s_pc s' u) = relOwn (s_pc s u)) by (intros u; destruct (Nat.eq_dec u t) as [->|N]; [exact P2|now rewrite Ep]).
  assert (Q : forall u, own (s_pc s' u) = own (s_pc s u)) by (intros u; unfold MqProofs.own; now rewrite Q1, Q2).
  assert (Q3 : forall u, lf (s_pc s' u) (g_pos g u) = lf (s_pc s u) (g_pos g u)) by (intros u; destruct (Nat.eq_dec u t) as [->|N]; [exact P3|now rewrite Ep]).
  assert (Mn : forall a, In a (live g ++ g_stk g) \/ a < 2 -> s_next s' a = s_next s a /\ s_refs s' a = s_refs s a /\ s_data s' a = s_data s a).
  { intros a H. apply Em. intros O. destruct (i_own I _ _ O) as (X & Y). destruct H; [tauto|lia]. }
  assert (Mo : forall u n, u <> t -> own (s_pc s u) = Some n -> s_next s' n = s_next s n /\ s_refs s' n = s_refs s n /\ s_data s' n = s_data s n).
  { intros u n N O. apply Em. intros O'. apply N. exact (i_own2 I _ _ _ O O'). }
  assert (Ml : forall p, lpos g p -> s_next s' (nodeAt (g_ord g) p) = s_next s (nodeAt (g_ord g) p)).
  { intros p H. apply Mn. destruct p; [right; cbn; lia|left]. apply in_or_app; left. apply lpos_node; [exact H|lia]. }
  constructor.
  - intros u H. rewrite Ep by lia. exact (i_m I u H).
  - rewrite Eb. exact (i_brk I).
  - exact (i_nd I).
  - rewrite Eb. exact (i_rng I).
  - intros u a. rewrite Q, Eb. exact (i_own I u a).
  - intros u w a. rewrite !Q. exact (i_own2 I u w a).
  - intros a H. rewrite Eb in H. destruct (i_all I a H) as [X|(u & X)]; [auto|right]. exists u. now rewrite Q.
  - intros p X Y. rewrite Ml by now split. exact (i_chain I p X Y).
  - intros i a x X Y. destruct (i_refs I i a x X Y) as (R1 & R2). destruct (Mn a) as (_ & -> & ->).
    + left. apply in_or_app. left. exact (live_in g i a x X Y).
    + split; [|exact R2]. rewrite R1. apply count_ext. intros u _. now rewrite Q3.
  - rewrite Et. exact (i_tail I).
  - exact (i_tp I).
  - exact (i_pos I).
  - intros u. rewrite Ec. exact (i_cid I u).
  - intros u H. rewrite Q3. exact (i_rl I u H).
  - destruct (i_min I) as [X|(u & X & Y)]; [auto|right]. exists u. now rewrite Q3.
  - rewrite Eo. apply (chainS_ext (s_next s)); [|exact (i_stk I)]. intros a H. symmetry. apply Mn. left. apply in_or_app. now right.
  - intros a H. destruct (Mn a) as (_ & _ & ->); [left; apply in_or_app; now right|]. exact (i_sdata I a H).
  - destruct (i_head I) as [X|[X|(u & X)]]; [auto|right; left|right; right].
    + destruct (Mn 1) as (-> & _); [right; lia|]. exact X.
    + exists u. destruct (Nat.eq_dec u t) as [->|N]; [auto|]. now rewrite Ep.
  - intros u. destruct (Nat.eq_dec u t) as [->|N]; [exact PC|]. apply (pcOk_evo m s g s' g u []); try reflexivity; auto.
    + exact (i_pc I u).
    + now rewrite app_nil_r.
    + apply (i_tp I).
    + apply (i_pos I).
    + rewrite Eb. lia.
    + intros n O. exact (Mo u n N O).
    + intros n H. left. split; [exact H|]. apply Mn. left. apply in_or_app. now right.
    + intros w n H. left. exists w. now rewrite Q1.
    + intros _. split; [reflexivity|]. apply Mn. right. lia.
  - intros u w R P. destruct (Nat.eq_dec u t) as [->|Nu], (Nat.eq_dec w t) as [->|Nw]; [reflexivity| | |].
    + rewrite Ep in P by exact Nw. destruct (M1 R) as [X|X]; [exact (i_mx I _ _ X P)|]. rewrite X in P by exact Nw. discriminate.
    + rewrite Ep in R by exact Nu. destruct (M2 P) as [X|X]; [exact (i_mx I _ _ R X)|]. rewrite X in R by exact Nu. discriminate.
    + rewrite Ep in R, P by assumption. exact (i_mx I _ _ R P).
  - intros X. destruct (i_lag I X) as (u & Y). exists u. assert (u <> t).
    { intros ->. destruct Y as [(i & n & a & E & _)|(i & n & E)]; rewrite E in NL; discriminate. }
    now rewrite Ep.
Qed.

End P.
