(** Invariants of the broadcast queue, continued: linking, moving the tail, consuming, releasing. *)
From Coq Require Import List Arith Bool Lia.
From Verif Require Import Base MqModel MqProofs MqProofs2.
Import ListNotations.

Section P.
Variable A : Type.
Notation item := (item A). Notation pc := (pc A). Notation st := (st A). Notation ev := (ev A). Notation gh := (gh A).
Notation len g := (length (g_ord g)).

Ltac un := unfold goto, setNext, setRefs, setData, setTail, setTop, setBrk, setCid, setCnt; cbn [s_next s_refs s_data s_tail s_top s_brk s_cid s_pc s_cnt].
Ltac gn := cbn [g_ord g_pos g_tp g_stk g_rel].

(** The tail moves (or stays). *)
Lemma inv_tail m (s s1 : st) g t p' tp' : Inv m s g -> t < m ->
  s1 = goto t p' (setTail (nodeAt (g_ord g) tp') s) -> g_tp g <= tp' <= len g ->
  pubOwn p' = pubOwn (s_pc s t) -> relOwn p' = relOwn (s_pc s t) -> lf p' (g_pos g t) = lf (s_pc s t) (g_pos g t) ->
  (relaxed p' = true -> relaxed (s_pc s t) = true) -> publishing (s_pc s t) = true -> c34 (s_pc s t) = false ->
  (len g = S tp' -> tp' = g_tp g /\ (forall i n a, s_pc s t = Pub5 i n a -> a <> nodeAt (g_ord g) (g_tp g)) /\ (forall i n, s_pc s t <> Rel2 i n)) ->
  pcOk m s1 (Gh (g_ord g) (g_pos g) tp' (g_stk g) (g_rel g)) t -> Inv m s1 (Gh (g_ord g) (g_pos g) tp' (g_stk g) (g_rel g)).
Proof.
  intros I L -> Ht P1 P2 P3 M1 M2 C34 LG PC. set (g' := Gh (g_ord g) (g_pos g) tp' (g_stk g) (g_rel g)) in *.
  assert (Lv : live g' = live g) by reflexivity.
  assert (Q1 : forall u, pubOwn (upd (s_pc s) t p' u) = pubOwn (s_pc s u)) by (intros u; unfold upd; destruct (Nat.eqb_spec u t); [now subst|reflexivity]).
  assert (Q2 : forall u, relOwn (upd (s_pc s) t p' u) = relOwn (s_pc s u)) by (intros u; unfold upd; destruct (Nat.eqb_spec u t); [now subst|reflexivity]).
  assert (Q : forall u, own (upd (s_pc s) t p' u) = own (s_pc s u)) by (intros u; unfold own; now rewrite Q1, Q2).
  assert (Lfu : forall u, lf (upd (s_pc s) t p' u) (g_pos g u) = lf (s_pc s u) (g_pos g u)) by (intros u; unfold upd; destruct (Nat.eqb_spec u t); [now subst|reflexivity]).
  pose proof (i_tp I) as TP.
  constructor; un; rewrite ?Lv; unfold g'; gn.
  - intros u H. rewrite upd_neq by lia. exact (i_m I u H).
  - exact (i_brk I).
  - exact (i_nd I).
  - exact (i_rng I).
  - intros u a. rewrite Q. exact (i_own I u a).
  - intros u w a. rewrite !Q. exact (i_own2 I u w a).
  - intros a H. destruct (i_all I a H) as [X|(u & X)]; [auto|right]. exists u. now rewrite Q.
  - exact (i_chain I).
  - intros i a x X Y. destruct (i_refs I i a x X Y) as (R1 & R2). split; [|exact R2]. rewrite R1. apply count_ext. intros u _. now rewrite Lfu.
  - reflexivity.
  - lia.
  - intros u. pose proof (i_pos I u). lia.
  - exact (i_cid I).
  - intros u H. rewrite Lfu. exact (i_rl I u H).
  - destruct (i_min I) as [X|(u & X & Y)]; [auto|right]. exists u. now rewrite Lfu.
  - exact (i_stk I).
  - exact (i_sdata I).
  - destruct (i_head I) as [X|[X|(u & X)]]; [auto|auto|right; right]. exists u. rewrite upd_neq; [exact X|]. intros ->. congruence.
  - intros u. destruct (Nat.eq_dec u t) as [->|N]; [exact PC|]. apply (pcOk_evo A m s g _ _ u []); un; gn; auto.
    + exact (i_pc I u).
    + now rewrite upd_neq.
    + now rewrite app_nil_r.
    + lia.
    + lia.
    + apply (i_pos I).
    + intros w a H. left. exists w. cbn. now rewrite Q1.
    + intros R. exfalso. apply N. exact (i_mx I _ _ R M2).
  - intros u w. pose proof (i_mx I u w) as M. unfold upd. destruct (Nat.eqb_spec u t), (Nat.eqb_spec w t); subst; intros R P; auto.
  - intros X. destruct (LG X) as (E & N1 & N2). rewrite E in *. destruct (i_lag I X) as (u & Y). exists u. rewrite upd_neq; [exact Y|]. intros ->.
    destruct Y as [(i & n & a & Z & ->)|(i & n & Z)]; [exact (N1 _ _ _ Z eq_refl)|exact (N2 _ _ Z)].
Qed.

Lemma count_all m f : (forall u, u < m -> f u = true) -> count m f = m.
Proof.
  intros H. rewrite (count_ext m f (fun _ => true) H). unfold count. rewrite <- (seq_length m 0) at 2. f_equal. induction (seq 0 m); cbn; [reflexivity|now f_equal].
Qed.

(** A node is linked to the last one. *)
Lemma inv_link m (s s1 : st) g t n i p' : Inv m s g -> t < m ->
  s1 = goto t p' (setNext (nodeAt (g_ord g) (g_tp g)) n s) -> g_tp g = len g ->
  pubOwn (s_pc s t) = Some n -> fresh m s n i -> lf (s_pc s t) (g_pos g t) = g_pos g t - 1 -> publishing (s_pc s t) = true -> c34 (s_pc s t) = false ->
  (p' = Pub5 i n (nodeAt (g_ord g) (g_tp g)) \/ (p' = Rel2 i n /\ relaxed (s_pc s t) = true)) ->
  Inv m s1 (Gh (g_ord g ++ [(n, i)]) (g_pos g) (g_tp g) (g_stk g) (g_rel g)).
Proof.
  intros I L -> TP PO (F1 & F2 & F3) LF Pb C34 P'. set (g' := Gh (g_ord g ++ [(n, i)]) (g_pos g) (g_tp g) (g_stk g) (g_rel g)).
  set (a := nodeAt (g_ord g) (g_tp g)) in *.
  assert (O : own (s_pc s t) = Some n) by (unfold own; now rewrite PO).
  destruct (i_own I _ _ O) as (Rn & Nn).
  assert (RL : g_rel g <= len g) by (destruct (rel_le I); lia).
  assert (Lv : live g' = live g ++ [n]).
  { unfold live, g'; gn. rewrite skipn_app, map_app. f_equal. replace (g_rel g - len g) with 0 by lia. reflexivity. }
  assert (In' : forall b, In b (live g' ++ g_stk g) <-> In b (live g ++ g_stk g) \/ b = n).
  { intros b. rewrite Lv, !in_app_iff. cbn. intuition. }
  assert (LP : lpos g (g_tp g)) by exact (tail_lpos I t L).
  assert (Ha : a = 1 \/ In a (live g)).
  { unfold a. destruct (g_tp g) eqn:Z; [now left|right]. apply lpos_node; [exact LP|lia]. }
  assert (Na : forall b, b = n \/ In b (g_stk g) -> b <> a).
  { intros b [->|H]; intros ->; destruct Ha as [Ha|Ha].
    - lia.
    - apply Nn. apply in_or_app. now left.
    - apply (stk_ge I) in H. lia.
    - exact (live_stk I _ Ha H). }
  assert (Nu : forall u b, own (s_pc s u) = Some b -> b <> a).
  { intros u b Ob ->. destruct (i_own I _ _ Ob) as (X & Y). destruct Ha as [Ha|Ha]; [lia|]. apply Y. apply in_or_app. now left. }
  assert (Own' : own p' = None) by (destruct P' as [->|(-> & _)]; reflexivity).
  assert (Ou : forall u b, own (upd (s_pc s) t p' u) = Some b -> u <> t /\ own (s_pc s u) = Some b).
  { intros u b. unfold upd. destruct (Nat.eqb_spec u t); [subst; congruence|auto]. }
  assert (Lfu : forall u, lf (upd (s_pc s) t p' u) (g_pos g u) = lf (s_pc s u) (g_pos g u)).
  { intros u. unfold upd. destruct (Nat.eqb_spec u t); [subst; rewrite LF; destruct P' as [->|(-> & _)]; reflexivity|reflexivity]. }
  assert (Hn1 : nodeAt (g_ord g ++ [(n, i)]) (S (len g)) = n) by (cbn; now rewrite nth_error_app2, Nat.sub_diag by lia).
  assert (N1 : 0 < g_rel g -> a <> 1).
  { intros H E. destruct LP as (L1 & L2). assert (X : lpos g (g_tp g)) by now split. destruct (g_tp g) eqn:Z; [lia|]. 
    pose proof (live_ge I _ (lpos_node (S n0) X ltac:(lia))) as Y. fold a in Y. lia. }
  constructor; un; unfold g'; gn; fold g'.
  - intros u H. rewrite upd_neq by lia. exact (i_m I u H).
  - exact (i_brk I).
  - rewrite Lv, <- app_assoc. cbn. apply (NoDup_Add (Add_app n (live g) (g_stk g))). split; [exact (i_nd I)|exact Nn].
  - intros b H. apply In' in H. destruct H as [H| ->]; [exact (i_rng I _ H)|exact Rn].
  - intros u b O1. destruct (Ou _ _ O1) as (N & O2). destruct (i_own I u b O2) as (X & Y). split; [exact X|]. intros H. apply In' in H. destruct H as [H| ->]; [tauto|].
    apply N. exact (i_own2 I _ _ _ O2 O).
  - intros u w b O1 O2. apply Ou in O1, O2. exact (i_own2 I _ _ _ (proj2 O1) (proj2 O2)).
  - intros b H. destruct (i_all I b H) as [X|(u & X)]; [left; apply In'; auto|]. destruct (Nat.eq_dec u t) as [->|N].
    + left. apply In'. right. congruence.
    + right. exists u. now rewrite upd_neq.
  - intros p. rewrite app_length. cbn [length]. intros X Y. destruct (Nat.eq_dec p (S (len g))) as [->|Np].
    + rewrite Hn1. rewrite upd_neq by (apply Na; now left). rewrite F1. symmetry. apply nodeAt_over. rewrite app_length. cbn. lia.
    + destruct (Nat.eq_dec p (len g)) as [->|Np'].
      * rewrite nodeAt_app by lia. rewrite Hn1. rewrite <- TP. unfold a. apply upd_eq.
      * rewrite !nodeAt_app by lia. rewrite upd_neq; [apply (i_chain I); lia|]. unfold a. intros E. apply (lpos_inj I) in E; [lia|split; lia|exact LP].
  - intros j b x X Y. destruct (le_lt_dec (len g) j) as [Lj|Lj].
    + rewrite nth_error_app2 in X by lia. destruct (j - len g) as [|d] eqn:D; cbn in X; [|now destruct d]. injection X as <- <-.
      split; [|exact F3]. rewrite F2. symmetry. apply count_all. intros u Lu. apply Nat.leb_le. rewrite Lfu. pose proof (i_pos I u).
      assert (lf (s_pc s u) (g_pos g u) <= g_pos g u - 1) by (unfold lf; destruct (s_pc s u); lia). lia.
    + rewrite nth_error_app1 in X by lia. destruct (i_refs I j b x X Y) as (R1 & R2). split; [|exact R2]. rewrite R1. apply count_ext. intros u _. now rewrite Lfu.
  - rewrite nodeAt_app by lia. exact (i_tail I).
  - rewrite app_length; cbn; lia.
  - exact (i_pos I).
  - intros u. pose proof (i_pos I u). rewrite nodeAt_app by lia. exact (i_cid I u).
  - intros u H. rewrite Lfu. exact (i_rl I u H).
  - destruct (i_min I) as [X|(u & X & Y)]; [auto|right]. exists u. now rewrite Lfu.
  - apply (chainS_ext (s_next s)); [|exact (i_stk I)]. intros b H. rewrite upd_neq; [reflexivity|]. apply Na. now right.
  - exact (i_sdata I).
  - destruct (Nat.eq_dec (g_rel g) 0) as [|Z]; [now left|]. destruct (i_head I) as [X|[X|(u & X)]]; [auto|right; left|right; right].
    + rewrite upd_neq by (intros E; apply N1; [lia|now symmetry]). destruct (rel_le I); [lia|]. rewrite nodeAt_app by lia. exact X.
    + exists u. rewrite upd_neq; [exact X|]. intros ->. congruence.
  - intros u. destruct (Nat.eq_dec u t) as [->|N].
    + unfold pcOk, g'; gn. un. rewrite upd_eq. destruct P' as [->|(-> & _)]; gn.
      * exists (g_tp g). split; [|rewrite TP, nth_error_app2, Nat.sub_diag by lia; reflexivity]. unfold atOk; gn. rewrite nodeAt_app by lia. repeat split; [apply (i_pos I)|lia].
      * rewrite TP, nth_error_app2, Nat.sub_diag by lia. split; [reflexivity|]. rewrite app_length. cbn. lia.
    + apply (pcOk_evo A m s g _ g' u [(n, i)]); un; unfold g'; gn; auto.
      * exact (i_pc I u).
      * now rewrite upd_neq.
      * lia.
      * apply (i_pos I).
      * intros b H. rewrite upd_neq by (eapply Nu; exact H). auto.
      * intros b H. left. split; [exact H|]. apply upd_neq. apply Na. now right.
      * intros w b H. destruct (Nat.eq_dec w t) as [->|Nw].
        -- right. exists (len g), i. un. gn. rewrite upd_neq by exact N. rewrite nth_error_app2, Nat.sub_diag by lia. cbn. split; [|congruence].
           pose proof (i_pos I u). assert (lf (s_pc s u) (g_pos g u) <= g_pos g u - 1) by (unfold lf; destruct (s_pc s u); lia). lia.
        -- left. exists w. un. now rewrite upd_neq.
      * intros R. exfalso. apply N. exact (i_mx I _ _ R Pb).
      * intros C. split; [reflexivity|]. pose proof (i_pc I u) as PU. apply upd_neq. intros E. apply N1; [|now symmetry].
        unfold pcOk in PU. destruct (s_pc s u); try discriminate; lia.
  - intros u w. pose proof (i_mx I u w) as M. unfold upd. destruct (Nat.eqb_spec u t), (Nat.eqb_spec w t); subst; intros R P; auto.
    + apply M; [|exact P]. destruct P' as [->|(-> & H)]; [discriminate|exact H].
  - intros X. exists t. rewrite upd_eq. destruct P' as [->|(-> & _)]; [left|right; eauto]. exists i, n, a. split; [reflexivity|]. now rewrite nodeAt_app by lia.
Qed.

(** A consumer moves to the next node. *)
Lemma inv_con1 m (s : st) g t : Inv m s g -> t < m -> s_pc s t = Con1 ->
  Inv m (goto t (Con2 (s_cid s t)) (setCid t (s_next s (s_cid s t)) s)) (Gh (g_ord g) (upd (g_pos g) t (S (g_pos g t))) (g_tp g) (g_stk g) (g_rel g)).
Proof.
  intros I L Q. pose proof (i_pc I t) as PC. unfold pcOk in PC. rewrite Q in PC. pose proof (i_tp I) as TP. pose proof (i_cid I t) as CI.
  set (g' := Gh (g_ord g) (upd (g_pos g) t (S (g_pos g t))) (g_tp g) (g_stk g) (g_rel g)).
  assert (Lv : live g' = live g) by reflexivity. set (c := s_cid s t) in *.
  assert (O' : forall u, own (upd (s_pc s) t (Con2 c) u) = own (s_pc s u)) by (intros u; unfold upd; destruct (Nat.eqb_spec u t); [subst; rewrite Q; reflexivity|reflexivity]).
  assert (P' : forall u, pubOwn (upd (s_pc s) t (Con2 c) u) = pubOwn (s_pc s u)) by (intros u; unfold upd; destruct (Nat.eqb_spec u t); [subst; rewrite Q; reflexivity|reflexivity]).
  assert (Lfu : forall u, lf (upd (s_pc s) t (Con2 c) u) (upd (g_pos g) t (S (g_pos g t)) u) = lf (s_pc s u) (g_pos g u)).
  { intros u. unfold upd. destruct (Nat.eqb_spec u t); [subst; rewrite Q; cbn; lia|reflexivity]. }
  assert (LP : lpos g (g_pos g t)) by (apply (hold I t); [exact L|lia|lia]).
  constructor; un; rewrite ?Lv; unfold g'; gn.
  - intros u H. rewrite !upd_neq by lia. exact (i_m I u H).
  - exact (i_brk I).
  - exact (i_nd I).
  - exact (i_rng I).
  - intros u a. rewrite O'. exact (i_own I u a).
  - intros u w a. rewrite !O'. exact (i_own2 I u w a).
  - intros a H. destruct (i_all I a H) as [X|(u & X)]; [auto|right]. exists u. now rewrite O'.
  - exact (i_chain I).
  - intros i a x X Y. destruct (i_refs I i a x X Y) as (R1 & R2). split; [|exact R2]. rewrite R1. apply count_ext. intros u _. now rewrite Lfu.
  - exact (i_tail I).
  - exact TP.
  - intros u. unfold upd. destruct (Nat.eqb_spec u t); [lia|apply (i_pos I)].
  - intros u. unfold upd. destruct (Nat.eqb_spec u t); [|apply (i_cid I)]. rewrite CI. apply (i_chain I); apply LP.
  - intros u H. rewrite Lfu. exact (i_rl I u H).
  - destruct (i_min I) as [X|(u & X & Y)]; [auto|right]. exists u. now rewrite Lfu.
  - exact (i_stk I).
  - exact (i_sdata I).
  - destruct (i_head I) as [X|[X|(u & X)]]; [auto|auto|right; right]. exists u. rewrite upd_neq; [exact X|]. intros ->. rewrite Q in X. discriminate.
  - intros u. destruct (Nat.eq_dec u t) as [->|N].
    + unfold pcOk, g'; un; gn. rewrite !upd_eq. split; [lia|]. rewrite CI. f_equal. lia.
    + apply (pcOk_evo A m s g _ _ u []); un; unfold g'; gn; auto.
      * exact (i_pc I u).
      * now rewrite upd_neq.
      * now rewrite upd_neq.
      * now rewrite app_nil_r.
      * lia.
      * apply (i_pos I).
      * intros w a H. left. exists w. un. now rewrite P'.
  - intros u w. pose proof (i_mx I u w) as M. unfold upd. destruct (Nat.eqb_spec u t), (Nat.eqb_spec w t); subst; rewrite ?Q in M; auto; discriminate.
  - intros X. destruct (i_lag I X) as (u & Y). exists u. rewrite upd_neq; [exact Y|]. intros ->. rewrite Q in Y. destruct Y as [(? & ? & ? & ? & _)|(? & ? & ?)]; discriminate.
Qed.

(** The head is made to point behind a released node. *)
Lemma inv_con4 m (s : st) g t n nx : Inv m s g -> t < m -> s_pc s t = Con4 n nx -> Inv m (goto t (Con5 n) (setNext 1 nx s)) g.
Proof.
  intros I L Q. pose proof (i_pc I t) as PC. unfold pcOk in PC. rewrite Q in PC. destruct PC as (C1 & C2 & C3 & C4 & C5 & C6).
  assert (On : own (s_pc s t) = Some n) by now rewrite Q.
  assert (O' : forall u, own (upd (s_pc s) t (Con5 n) u) = own (s_pc s u)) by (intros u; unfold upd; destruct (Nat.eqb_spec u t); [subst u; rewrite Q; reflexivity|reflexivity]).
  assert (P' : forall u, pubOwn (upd (s_pc s) t (Con5 n) u) = pubOwn (s_pc s u)) by (intros u; unfold upd; destruct (Nat.eqb_spec u t); [subst u; rewrite Q; reflexivity|reflexivity]).
  assert (Lfu : forall u, lf (upd (s_pc s) t (Con5 n) u) (g_pos g u) = lf (s_pc s u) (g_pos g u)).
  { intros u. unfold upd. destruct (Nat.eqb_spec u t); [subst u; rewrite Q; cbn; lia|reflexivity]. }
  constructor; un.
  - intros u H. rewrite !upd_neq by lia. exact (i_m I u H).
  - exact (i_brk I).
  - exact (i_nd I).
  - exact (i_rng I).
  - intros u a. rewrite O'. exact (i_own I u a).
  - intros u w a. rewrite !O'. exact (i_own2 I u w a).
  - intros a H. destruct (i_all I a H) as [X|(u & X)]; [auto|right]. exists u. now rewrite O'.
  - intros p X Y. assert (LP : lpos g p) by now split. assert (Pp : 0 < p) by lia. pose proof (live_ge I _ (lpos_node p LP Pp)). rewrite upd_neq by lia. exact (i_chain I p X Y).
  - intros i a x X Y. destruct (i_refs I i a x X Y) as (R1 & R2). split; [|exact R2]. rewrite R1. apply count_ext. intros u _. now rewrite Lfu.
  - exact (i_tail I).
  - exact (i_tp I).
  - exact (i_pos I).
  - exact (i_cid I).
  - intros u H. rewrite Lfu. exact (i_rl I u H).
  - destruct (i_min I) as [X|(u & X & Y)]; [auto|right]. exists u. now rewrite Lfu.
  - apply (chainS_ext (s_next s)); [|exact (i_stk I)]. intros a H. pose proof (stk_ge I a H). now rewrite upd_neq by lia.
  - exact (i_sdata I).
  - right; left. rewrite upd_eq. exact C5.
  - intros u. destruct (Nat.eq_dec u t) as [->|N].
    + unfold pcOk; un. rewrite !upd_eq. auto 10.
    + apply (pcOk_evo A m s g _ _ u []); un; auto.
      * exact (i_pc I u).
      * now rewrite upd_neq.
      * now rewrite app_nil_r.
      * apply (i_tp I).
      * apply (i_pos I).
      * intros a H. apply (i_own I) in H. rewrite upd_neq by lia. auto.
      * intros a H. left. split; [exact H|]. pose proof (stk_ge I a H). now rewrite upd_neq by lia.
      * intros w a H. left. exists w. un. now rewrite P'.
      * intros C. exfalso. apply N. pose proof (i_pc I u) as PU. unfold pcOk in PU. apply (i_own2 I u t n); [|exact On].
        destruct (s_pc s u); try discriminate; unfold own; cbn; f_equal; destruct PU as (_ & _ & X & _); congruence.
  - intros u w. pose proof (i_mx I u w) as M. unfold upd. destruct (Nat.eqb_spec u t), (Nat.eqb_spec w t); subst; rewrite ?Q in M; auto; discriminate.
  - intros X. destruct (i_lag I X) as (u & Y). exists u. rewrite upd_neq; [exact Y|]. intros ->. rewrite Q in Y. destruct Y as [(? & ? & ? & ? & _)|(? & ? & ?)]; discriminate.
Qed.

End P.
