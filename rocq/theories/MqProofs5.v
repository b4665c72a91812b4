(** Invariants of the broadcast queue, continued: giving up a node. *)
From Coq Require Import List Arith Bool Lia.
From Verif Require Import Base MqModel MqProofs MqProofs2 MqProofs4.
Import ListNotations.

Section P.
Variable A : Type.
Notation item := (item A). Notation pc := (pc A). Notation st := (st A). Notation ev := (ev A). Notation gh := (gh A).
Notation len g := (length (g_ord g)).

Ltac un := unfold goto, setNext, setRefs, setData, setTail, setTop, setBrk, setCid, setCnt; cbn [s_next s_refs s_data s_tail s_top s_brk s_cid s_pc s_cnt].
Ltac gn := cbn [g_ord g_pos g_tp g_stk g_rel].

(** Counting threads when one of them changes. *)
Lemma filter_one l (f h : nat -> bool) t : NoDup l -> In t l -> f t = true -> h t = false -> (forall u, u <> t -> f u = h u) -> length (filter f l) = S (length (filter h l)).
Proof.
  induction l as [|a r IH]; cbn; [tauto|]. intros N H F1 F2 E. inversion N; subst. destruct H as [->|H].
  - rewrite F1, F2. cbn. f_equal. f_equal. apply filter_ext_in. intros u Hu. apply E. intros ->. tauto.
  - assert (a <> t) by (intros ->; tauto). rewrite (E a H0). destruct (h a); cbn; rewrite (IH H3 H F1 F2 E); reflexivity.
Qed.
Lemma count_one m f h t : t < m -> f t = true -> h t = false -> (forall u, u <> t -> f u = h u) -> count m f = S (count m h).
Proof. intros L F1 F2 E. apply (filter_one _ f h t); [apply seq_NoDup|apply in_seq; lia|exact F1|exact F2|exact E]. Qed.
Lemma count_zero m f u : count m f = 0 -> u < m -> f u = false.
Proof.
  intros E L. destruct (f u) eqn:F; [|reflexivity]. exfalso. assert (H : In u (filter f (seq 0 m))) by (apply filter_In; split; [apply in_seq; lia|exact F]).
  unfold count in E. destruct (filter f (seq 0 m)); [destruct H|discriminate].
Qed.
Lemma count_pos m f : 0 < count m f -> exists u, u < m /\ f u = true.
Proof.
  unfold count. destruct (filter f (seq 0 m)) eqn:E; cbn; [lia|]. intros _. assert (H : In n (filter f (seq 0 m))) by (rewrite E; now left).
  apply filter_In in H. destruct H as (H & F). apply in_seq in H. exists n. split; [lia|exact F].
Qed.

Section Dec.
Variables (m : nat) (s : st) (g : gh) (t n : nat).
Hypothesis I : Inv m s g.
Hypothesis L : t < m.
Hypothesis Q : s_pc s t = Con2 n.
Hypothesis N1 : n <> 1.

Lemma dec_facts : 2 <= g_pos g t /\ lf (s_pc s t) (g_pos g t) = g_pos g t - 2 /\ g_rel g <= g_pos g t - 2 /\ g_pos g t <= len g /\
  exists x, nth_error (g_ord g) (g_pos g t - 2) = Some (n, x) /\ s_data s n = Some x /\ s_refs s n = count m (fun u => lf (s_pc s u) (g_pos g u) <=? g_pos g t - 2).
Proof.
  pose proof (i_pc I t) as PC. unfold pcOk in PC. rewrite Q in PC. destruct PC as (P1 & E). pose proof (i_tp I). pose proof (i_pos I t).
  assert (P2 : 2 <= g_pos g t) by (destruct (g_pos g t) as [|[|k]] eqn:Z; [lia|cbn in E; congruence|lia]).
  pose proof (i_rl I t L) as R. rewrite Q in R. cbn in R.
  repeat split; [exact P2|rewrite Q; reflexivity|exact R|lia|].
  replace (g_pos g t - 1) with (S (g_pos g t - 2)) in E by lia. cbn in E. destruct (nth_error (g_ord g) (g_pos g t - 2)) as [(a & x)|] eqn:Z.
  - subst a. exists x. destruct (i_refs I _ _ _ Z R). auto.
  - apply nth_error_None in Z. lia.
Qed.

Let k := g_pos g t - 2.

Lemma lf_dec p' : (forall q, lf p' q = q - 1) -> forall u i, i <> k -> (lf (upd (s_pc s) t p' u) (g_pos g u) <=? i) = (lf (s_pc s u) (g_pos g u) <=? i).
Proof.
  intros P u i Hi. destruct dec_facts as (D1 & D2 & _). unfold upd. destruct (Nat.eqb_spec u t); [subst u|reflexivity]. rewrite P, D2. unfold k in Hi.
  destruct (Nat.leb_spec (g_pos g t - 1) i), (Nat.leb_spec (g_pos g t - 2) i); auto; lia.
Qed.
Lemma lf_deck p' : (forall q, lf p' q = q - 1) ->
  s_refs s n = S (count m (fun u => lf (upd (s_pc s) t p' u) (g_pos g u) <=? k)).
Proof.
  intros P. destruct dec_facts as (D1 & D2 & D3 & D4 & x & D5 & D6 & D7). rewrite D7. apply (count_one _ _ _ t L).
  - rewrite D2. now apply Nat.leb_le.
  - rewrite upd_eq, P. apply Nat.leb_gt. unfold k. lia.
  - intros u N. now rewrite upd_neq.
Qed.

Lemma inv_dec r : s_refs s n = S r -> r <> 0 -> Inv m (goto t Rd (setRefs n r s)) g.
Proof.
  intros Er Nr. destruct dec_facts as (D1 & D2 & D3 & D4 & x & D5 & D6 & D7).
  pose proof (lf_dec Rd (fun _ => eq_refl)) as LD. pose proof (lf_deck Rd (fun _ => eq_refl)) as LK. rewrite Er in LK. injection LK as LK.
  assert (O' : forall u, own (upd (s_pc s) t Rd u) = own (s_pc s u)) by (intros u; unfold upd; destruct (Nat.eqb_spec u t); [subst u; rewrite Q; reflexivity|reflexivity]).
  assert (P' : forall u, pubOwn (upd (s_pc s) t Rd u) = pubOwn (s_pc s u)) by (intros u; unfold upd; destruct (Nat.eqb_spec u t); [subst u; rewrite Q; reflexivity|reflexivity]).
  assert (Hn : In n (live g)) by exact (live_in g _ _ _ D5 D3).
  constructor; un.
  - intros u H. rewrite !upd_neq by lia. exact (i_m I u H).
  - exact (i_brk I).
  - exact (i_nd I).
  - exact (i_rng I).
  - intros u a. rewrite O'. exact (i_own I u a).
  - intros u w a. rewrite !O'. exact (i_own2 I u w a).
  - intros a H. destruct (i_all I a H) as [X|(u & X)]; [auto|right]. exists u. now rewrite O'.
  - exact (i_chain I).
  - intros i a y X Y. destruct (i_refs I i a y X Y) as (R1 & R2). destruct (Nat.eq_dec i k) as [->|Nk].
    + unfold k in X. rewrite D5 in X. injection X as <- <-. rewrite upd_eq. auto.
    + assert (a <> n). { intros ->. apply Nk. exact (live_inj g _ _ _ _ _ (nd_live I) X D5 Y D3). }
      rewrite upd_neq by assumption. split; [|exact R2]. rewrite R1. apply count_ext. intros u _. symmetry. apply LD, Nk.
  - exact (i_tail I).
  - exact (i_tp I).
  - exact (i_pos I).
  - exact (i_cid I).
  - intros u H. pose proof (i_rl I u H). unfold upd. destruct (Nat.eqb_spec u t); [subst u; cbn; lia|lia].
  - right. destruct (i_min I) as [X|(u & X & Y)]; [lia|]. destruct (Nat.eq_dec u t) as [->|N].
    + destruct (count_pos m (fun u => lf (upd (s_pc s) t Rd u) (g_pos g u) <=? k)) as (w & W1 & W2); [lia|]. apply Nat.leb_le in W2. exists w. split; [exact W1|]. unfold k in W2. lia.
    + exists u. rewrite upd_neq by exact N. auto.
  - exact (i_stk I).
  - exact (i_sdata I).
  - destruct (i_head I) as [X|[X|(u & X)]]; [auto|auto|right; right]. exists u. rewrite upd_neq; [exact X|]. intros ->. rewrite Q in X. discriminate.
  - intros u. destruct (Nat.eq_dec u t) as [->|N].
    + unfold pcOk; un. rewrite !upd_eq. lia.
    + apply (pcOk_evo A m s g _ _ u []); un; auto.
      * exact (i_pc I u).
      * now rewrite upd_neq.
      * now rewrite app_nil_r.
      * apply (i_tp I).
      * apply (i_pos I).
      * intros a H. apply (i_own I) in H. rewrite upd_neq; [auto|]. intros ->. apply H. apply in_or_app. now left.
      * intros w a H. left. exists w. un. now rewrite P'.
  - intros u w. pose proof (i_mx I u w) as M. unfold upd. destruct (Nat.eqb_spec u t), (Nat.eqb_spec w t); subst; rewrite ?Q in M; auto; discriminate.
  - intros X. destruct (i_lag I X) as (u & Y). exists u. rewrite upd_neq; [exact Y|]. intros ->. rewrite Q in Y. destruct Y as [(? & ? & ? & ? & _)|(? & ? & ?)]; discriminate.
Qed.

Lemma inv_last : s_refs s n = 1 ->
  Inv m (goto t (Con3 n) (setRefs n 0 s)) (Gh (g_ord g) (g_pos g) (g_tp g) (g_stk g) (S (g_rel g))) /\ g_rel g = k.
Proof.
  intros Er. destruct dec_facts as (D1 & D2 & D3 & D4 & x & D5 & D6 & D7). set (g' := Gh (g_ord g) (g_pos g) (g_tp g) (g_stk g) (S (g_rel g))).
  pose proof (lf_dec (Con3 n) (fun _ => eq_refl)) as LD. pose proof (lf_deck (Con3 n) (fun _ => eq_refl)) as LK. rewrite Er in LK. injection LK as LK.
  assert (Gt : forall u, u < m -> k < lf (upd (s_pc s) t (Con3 n) u) (g_pos g u)).
  { intros u Lu. pose proof (count_zero m _ u (eq_sym LK) Lu) as H. cbn in H. now apply Nat.leb_gt in H. }
  assert (Gtu : forall u, u < m -> u <> t -> k < lf (s_pc s u) (g_pos g u)).
  { intros u Lu Nu. specialize (Gt u Lu). rewrite upd_neq in Gt by exact Nu. exact Gt. }
  assert (Rk : g_rel g = k).
  { destruct (i_min I) as [X|(u & X & Y)]; [lia|]. destruct (Nat.eq_dec u t) as [->|N]; [unfold k; lia|]. specialize (Gtu u X N). unfold k in *. lia. }
  split; [|exact Rk].
  assert (Hn : In n (live g)) by exact (live_in g _ _ _ D5 D3).
  assert (Lv : live g = n :: live g').
  { unfold live, g'; gn. rewrite Rk. unfold k. assert (X := D5). revert X. generalize (g_pos g t - 2). generalize (g_ord g). induction l as [|y l IH]; intros [|j]; try discriminate.
    - intros X. injection X as ->. reflexivity.
    - intros X. exact (IH j X). }
  assert (Sub : forall a, In a (live g ++ g_stk g) <-> a = n \/ In a (live g' ++ g_stk g)) by (intros a; rewrite Lv; cbn; intuition).
  assert (Nn : ~ In n (live g' ++ g_stk g)) by (pose proof (i_nd I) as X; rewrite Lv in X; cbn in X; now inversion X).
  assert (Ou : forall u b, own (upd (s_pc s) t (Con3 n) u) = Some b -> (u = t /\ b = n) \/ (u <> t /\ own (s_pc s u) = Some b)).
  { intros u b. unfold upd. destruct (Nat.eqb_spec u t); [subst u; unfold own; cbn; intros E; injection E; auto|auto]. }
  assert (P' : forall u, pubOwn (upd (s_pc s) t (Con3 n) u) = pubOwn (s_pc s u)) by (intros u; unfold upd; destruct (Nat.eqb_spec u t); [subst u; rewrite Q; reflexivity|reflexivity]).
  assert (Nou : forall u b, own (s_pc s u) = Some b -> b <> n).
  { intros u b O ->. apply (i_own I) in O. apply O. apply in_or_app. now left. }
  assert (Nc : forall u, c345 (s_pc s u) = true -> False).
  { intros u C. pose proof (i_pc I u) as PU. assert (Lu : u < m). { destruct (le_lt_dec m u) as [H|H]; [|exact H]. destruct (i_m I u H) as (X & _). rewrite X in C. discriminate. }
    assert (Nu : u <> t) by (intros ->; rewrite Q in C; discriminate). specialize (Gtu u Lu Nu). unfold pcOk in PU.
    destruct (s_pc s u); try discriminate; cbn in Gtu; lia. }
  constructor; un; unfold g'; gn; fold g'.
  - intros u H. rewrite !upd_neq by lia. exact (i_m I u H).
  - exact (i_brk I).
  - pose proof (i_nd I) as X. rewrite Lv in X. now inversion X.
  - intros a H. apply (i_rng I). apply Sub. now right.
  - intros u a O. destruct (Ou _ _ O) as [(-> & ->)|(Nu & O')].
    + split; [exact (live_ge I _ Hn)|exact Nn].
    + destruct (i_own I _ _ O') as (X & Y). split; [exact X|]. intros H. apply Y. apply Sub. now right.
  - intros u w a O1 O2. destruct (Ou _ _ O1) as [(-> & ->)|(Nu & O1')], (Ou _ _ O2) as [(-> & E)|(Nw & O2')]; auto.
    + exfalso. exact (Nou _ _ O2' eq_refl).
    + exfalso. exact (Nou _ _ O1' E).
    + exact (i_own2 I _ _ _ O1' O2').
  - intros a H. destruct (i_all I a H) as [X|(u & X)].
    + apply Sub in X. destruct X as [-> |X]; [right; exists t; now rewrite upd_eq|now left].
    + right. exists u. rewrite upd_neq; [exact X|]. intros ->. rewrite Q in X. discriminate.
  - intros p X Y. apply (i_chain I); [exact X|]. lia.
  - intros i a y X Y. destruct (i_refs I i a y X ltac:(lia)) as (R1 & R2). assert (a <> n).
    { intros ->. assert (i = k); [|lia]. exact (live_inj g _ _ _ _ _ (nd_live I) X D5 ltac:(lia) D3). }
    rewrite upd_neq by assumption. split; [|exact R2]. rewrite R1. apply count_ext. intros u _. symmetry. apply LD. lia.
  - exact (i_tail I).
  - exact (i_tp I).
  - exact (i_pos I).
  - exact (i_cid I).
  - intros u H. specialize (Gt u H). lia.
  - right. exists t. rewrite upd_eq. split; [exact L|]. cbn. unfold k in Rk. lia.
  - exact (i_stk I).
  - exact (i_sdata I).
  - right; right. exists t. now rewrite upd_eq.
  - intros u. destruct (Nat.eq_dec u t) as [->|N].
    + unfold pcOk, g'; un; gn. rewrite !upd_eq. assert (En : n = nodeAt (g_ord g) (S (g_rel g))) by (rewrite Rk; symmetry; exact (nodeAt_nth _ _ _ _ D5)).
      assert (C : s_next s (nodeAt (g_ord g) (S (g_rel g))) = nodeAt (g_ord g) (S (S (g_rel g)))) by (apply (i_chain I); unfold k in Rk; lia).
      repeat split.
      * unfold k in Rk. lia.
      * lia.
      * exact En.
      * rewrite D6. unfold lastOf; gn. replace (S (g_rel g) - 1) with (g_pos g t - 2) by (unfold k in Rk; lia). now rewrite D5.
      * rewrite En at 1. exact C.
      * destruct (i_head I) as [X|[X|(u & X)]].
        -- pose proof (i_chain I 0 ltac:(lia) (or_intror X)) as Y. cbn in Y |- *. rewrite Y, X. reflexivity.
        -- exact X.
        -- exfalso. apply (Nc u). destruct (s_pc s u); try discriminate; reflexivity.
    + apply (pcOk_evo A m s g _ _ u []); un; unfold g'; gn; auto.
      * exact (i_pc I u).
      * now rewrite upd_neq.
      * now rewrite app_nil_r.
      * apply (i_tp I).
      * apply (i_pos I).
      * intros a H. rewrite upd_neq by (eapply Nou; exact H). auto.
      * intros w a H. left. exists w. un. now rewrite P'.
      * intros C. exfalso. exact (Nc u C).
  - intros u w. pose proof (i_mx I u w) as M. unfold upd. destruct (Nat.eqb_spec u t), (Nat.eqb_spec w t); subst; rewrite ?Q in M; auto; discriminate.
  - intros X. destruct (i_lag I X) as (u & Y). exists u. rewrite upd_neq; [exact Y|]. intros ->. rewrite Q in Y. destruct Y as [(? & ? & ? & ? & _)|(? & ? & ?)]; discriminate.
Qed.

End Dec.
End P.
