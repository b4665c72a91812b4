(** C52: the steps that write keep the invariant; all executions. *)
From Coq Require Import List Arith Bool Lia.
From Verif Require Import Base IgSpec IgModel IgProofs IgProofs2 IgProofs3.
Import ListNotations.

Lemma follows_one l e c : follows l e [c] = cn (l, e) (entries c).
Proof. unfold follows, cn. cbn. now rewrite app_nil_r. Qed.
Lemma is1_ne l e l' e' : l <> l' -> is1 (l, e) (l', e') = 0.
Proof. intro H. unfold is1. destruct (le_dec _ _) as [X | X]; [inversion X; easy | easy]. Qed.
Lemma is1_eq l e e' : is1 (l, e) (l, e') = times e' [e].
Proof. unfold is1, times. cbn [count_occ]. destruct (le_dec (l, e) (l, e')) as [X | X], (entry_dec e e') as [Y | Y]; congruence. Qed.

Section Write.
Variables (m : nat) (E D : nat -> list entry) (L : nat -> lit).
Lemma newHead_ok s t p l es : Core E D L s -> length (encs es) <= cap -> (s_head s l <> 0 -> s_lock s (s_head s l) = true) ->
  let b := s_brk s in let s' := goto (newHead s l (s_head s l) (encs es)) t p in
  let E' := fset E b es in let D' := fset D b (cont E D s l) in let L' := fset L b l in
  Core E' D' L' s' /\ Grow (s_head s l) E D L s E' D' L' s' /\ forall l' e, times e (cont E' D' s' l') = times e (cont E D s l') + (if lit_eqb l' l then times e es else 0).
Proof.
  intros C LE LK b s' E' D' L'. destruct C as [C1 C2 C3 C4 C5].
  assert (HB : forall l', s_head s l' < b) by (intro l'; destruct (Nat.eq_dec (s_head s l') 0) as [Z | Z]; [unfold b; lia | apply C2; easy]).
  assert (CT : forall l' e, times e (cont E' D' s' l') = times e (cont E D s l') + (if lit_eqb l' l then times e es else 0)).
  { intros l' e. unfold cont at 1, s'. cbn [s_head goto newHead]. destruct (lit_eqb l' l) eqn:Q.
    - apply lit_eqb_eq in Q as ->. rewrite lset_eq. replace (s_brk s =? 0) with false by (symmetry; apply Nat.eqb_neq; lia). unfold E', D'. fold b. rewrite !fset_eq, times_app. lia.
    - assert (N : l' <> l) by (intros ->; now rewrite (proj2 (lit_eqb_eq l l) eq_refl) in Q). rewrite lset_ne by easy. unfold cont. destruct (s_head s l' =? 0); [easy|]. unfold E', D'. rewrite !fset_ne by (specialize (HB l'); lia). lia. }
  split; [|split; [|exact CT]].
  - split; cbn.
    + lia.
    + intros l'. destruct (lit_dec l' l) as [-> | N]; rewrite ?lset_eq, ?lset_ne by easy; unfold L'.
      * intros _. fold b. rewrite fset_eq. split; [lia | easy].
      * intro Z. destruct (C2 l' Z) as [Z1 Z2]. rewrite fset_ne by (specialize (HB l'); lia). split; [lia | easy].
    + intros b0 B0. fold b. destruct (Nat.eq_dec b0 b) as [-> | N].
      * rewrite fset_eq. unfold D' at 1. rewrite fset_eq. split; [apply HB|]. split.
        -- unfold cont, E', D'. destruct (s_head s l =? 0); [easy|]. now rewrite !fset_ne by (specialize (HB l); lia).
        -- intro Z. unfold L'. rewrite fset_eq, fset_ne by (specialize (HB l); lia). destruct (C2 l Z) as [_ Z2]. split; [easy|]. intros l'. destruct (lit_dec l' l) as [-> | N]; rewrite ?lset_eq, ?lset_ne by easy.
           ++ specialize (HB l). lia.
           ++ intro X. apply N. rewrite <- Z2, <- X. symmetry. apply C2. congruence.
      * rewrite fset_ne by easy. destruct (C3 b0 ltac:(lia)) as (X1 & X2 & X3). split; [easy|]. unfold D' at 1. rewrite fset_ne by easy. split.
        -- rewrite X2. destruct (s_next s b0 =? 0); [easy|]. unfold E', D'. now rewrite !fset_ne by lia.
        -- intro Z. destruct (X3 Z) as [X4 X5]. unfold L'. rewrite !fset_ne by lia. split; [easy|]. intros l'. destruct (lit_dec l' l) as [-> | N']; rewrite ?lset_eq, ?lset_ne by easy; [lia | apply X5].
    + intros b0 B0. fold b. destruct (Nat.eq_dec b0 b) as [-> | N].
      * unfold E'. rewrite !fset_eq. split; [easy|]. split; [easy|]. intros i H. unfold over. erewrite nth_error_nth'; [reflexivity | easy].
      * unfold E'. rewrite !fset_ne by easy. apply C4. lia.
    + intros b0 B0. fold b. destruct (Nat.eq_dec b0 b) as [-> | N].
      * intros _. unfold L'. rewrite fset_eq. apply lset_eq.
      * unfold L'. rewrite !fset_ne by easy. intro X. pose proof (C5 b0 ltac:(lia) X) as Y. destruct (lit_dec (L b0) l) as [Z | Z]; [|now rewrite lset_ne].
        rewrite Z in Y. rewrite <- Y in X. rewrite LK in X by lia. easy.
  - split; cbn.
    + lia.
    + easy.
    + intros b0 B0. fold b. unfold E', D', L'. rewrite !fset_ne by lia. repeat split; try easy. exists []. symmetry. apply app_nil_r.
    + intros l' Z1 Z2. apply lset_ne. intros ->. easy.
    + intros l' e. rewrite CT. lia.
    + intros b0 e B0. rewrite CT. unfold E'. rewrite fset_ne by lia. lia.
Qed.

Lemma a0_ok tr s t c j : Inv m E D L tr s -> t < m -> s_pc s t = A0 c j -> good m tr t s.
Proof.
  intros I T P. unfold good, run1. rewrite P. pose proof (iPc _ _ _ _ _ _ I t) as Q. rewrite P in Q.
  destruct (Nat.eqb_spec (s_head s (fst (jth c j))) 0) as [Z | N]; (do 2 eexists; split; [reflexivity|]; exists E, D, L).
  - apply (same_inv m E D L tr [] s _ t (A3 c j)); rewrite ?P; try easy; try exact (Forall_nil _); [now left | intros; apply Nat.le_add_r].
  - apply (same_inv m E D L tr [] s _ t (A1 c j (s_head s (fst (jth c j))))); rewrite ?P; try easy; try exact (Forall_nil _); [|now left | intros; apply Nat.le_add_r].
    destruct (cHead _ _ _ _ (iCore _ _ _ _ _ _ I) _ N). cbn. repeat split; try easy; try lia; apply Q.
Qed.

Lemma a1_ok tr s t c j x : Inv m E D L tr s -> t < m -> s_pc s t = A1 c j x -> good m tr t s.
Proof.
  intros I T P. unfold good, run1. rewrite P. pose proof (iPc _ _ _ _ _ _ I t) as Q. rewrite P in Q. destruct Q as (A & B & LX). unfold at_. rewrite ok_true by easy.
  destruct (s_lock s x) eqn:LK; (do 2 eexists; split; [reflexivity|]; exists E, D, L).
  - apply (same_inv m E D L tr [] s _ t (A0 c j)); rewrite ?P; try easy; try exact (Forall_nil _); [now left | intros; apply Nat.le_add_r].
  - destruct (iCore _ _ _ _ _ _ I) as [C1 C2 C3 C4 C5].
    apply (step_inv m x E D L E D L tr [] s _ t (A2 c j x (s_size s x) 0) I); rewrite ?P; try easy; try exact (Forall_nil _).
    + split; cbn; try easy. intros b B0. destruct (Nat.eq_dec b x) as [-> | N]; [now rewrite fset_eq | rewrite fset_ne by easy; now apply C5].
    + split; cbn; try easy. intros b B0. repeat split; try easy; [exists []; symmetry; apply app_nil_r | now rewrite fset_ne].
    + cbn. rewrite fset_eq. repeat split; try lia; try easy; try apply A. rewrite <- LX. now apply C5.
    + intros u U H1 H2. pose proof (iPc _ _ _ _ _ _ I u) as Q. destruct (s_pc s u); cbn in H1, H2; try easy. subst. destruct Q as (_ & _ & Q & _). congruence.
    + now left.
    + intros; apply Nat.le_add_r.
Qed.

Lemma a2_ok tr s t c j x n z : Inv m E D L tr s -> t < m -> s_pc s t = A2 c j x n z -> good m tr t s.
Proof.
  intros I T P. unfold good, run1. rewrite P. pose proof (iPc _ _ _ _ _ _ I t) as Q. rewrite P in Q. destruct Q as (A & B & LK & HD & SZ & ZL & ZF & ZC). 
  assert (HU : forall u, u <> t -> holds_lock (s_pc s u) <> 0 -> holds_lock (s_pc s u) <> x).
  { intros u U H1 H2. apply U. apply (iUniq _ _ _ _ _ _ I u t H1). rewrite P. exact H2. }
  pose proof (iCore _ _ _ _ _ _ I) as CO. destruct CO as [C1 C2 C3 C4 C5].
  assert (LX : L x = fst (jth c j)) by (rewrite <- HD; apply C2; lia).
  destruct (C4 x B) as (D1 & D2 & D3). rewrite SZ in *. pose proof (nc_enc (snd (jth c j))) as NC. destruct A as [W J].
  destruct (Nat.leb_spec (n + length (nc (snd (jth c j)))) cap) as [F | F].
  - destruct (Nat.eqb_spec z (length (nc (snd (jth c j))))) as [Z | Z].
    + unfold at_. rewrite ok_true by easy. do 2 eexists. split; [reflexivity|].
      set (ej := entOf (snd (jth c j))) in *. exists (fset E x (E x ++ [ej])), D, L. set (E' := fset E x (E x ++ [ej])).
      set (s' := goto (w_size s x (n + length (nc (snd (jth c j)))) false) t (nextCall c j)).
      assert (HE : forall l, l <> fst (jth c j) -> s_head s l <> 0 -> s_head s l <> x) by (intros l N N0 X; apply N; rewrite <- LX, <- X; symmetry; now apply C2).
      assert (CT : forall l e, times e (cont E' D s' l) = times e (cont E D s l) + is1 (jent c j) (l, e)).
      { intros l e. unfold cont, s'. cbn [s_head goto w_size]. unfold E'. destruct (lit_dec l (fst (jth c j))) as [-> | N].
        - rewrite HD. replace (x =? 0) with false by (symmetry; apply Nat.eqb_neq; lia). rewrite fset_eq, !times_app. unfold jent. rewrite is1_eq. fold ej. lia.
        - unfold jent. rewrite is1_ne by auto. destruct (Nat.eqb_spec (s_head s l) 0); [easy|]. rewrite fset_ne by auto. lia. }
      destruct (next_counts (fst (jth c j), ej) c j W J) as [_ _].
      apply (step_inv m x E D L E' D L tr [] s s' t (nextCall c j) I); rewrite ?P; try easy; try exact (Forall_nil _).
      * split; cbn; try easy.
        -- intros b B0. destruct (C3 b B0) as (X1 & X2 & X3). split; [easy|]. split; [|easy]. rewrite X2. destruct (Nat.eqb_spec (s_next s b) 0) as [|N]; [easy|].
           unfold E'. rewrite fset_ne; [easy|]. destruct (X3 N) as [_ X4]. specialize (X4 (fst (jth c j))). congruence.
        -- intros b B0. unfold E'. destruct (Nat.eq_dec b x) as [-> | N]; [|rewrite !fset_ne by easy; now apply C4]. rewrite !fset_eq, encs_app. cbn [encs flat_map]. rewrite app_nil_r, <- NC, app_length.
           split; [lia|]. split; [easy|]. intros i Hi. destruct (Nat.lt_ge_cases i n) as [Hn | Hn]; [rewrite nth_error_app1 by lia; now apply D3|].
           rewrite nth_error_app2 by lia. rewrite (ZC (i - length (encs (E x)))) by lia. f_equal. f_equal. lia.
        -- intros b B0. destruct (Nat.eq_dec b x) as [-> | N]; [intros _; congruence | rewrite fset_ne by easy; now apply C5].
      * split; cbn; try easy.
        -- intros b B0. split; [easy|]. split; [easy|]. split; [unfold E'; destruct (Nat.eq_dec b x) as [-> | N]; [rewrite fset_eq; now eexists | rewrite fset_ne by easy; exists []; symmetry; apply app_nil_r]|]. intro N. now rewrite !fset_ne.
        -- intros l e. rewrite CT. lia.
        -- intros b e B0. rewrite CT. unfold E'. destruct (Nat.eq_dec b x) as [-> | N]; [|rewrite fset_ne by easy; lia]. rewrite fset_eq, times_app, LX. unfold jent. rewrite is1_eq. fold ej. lia.
      * unfold nextCall. destruct (Nat.ltb_spec (S j) (length (calls c))); cbn; [split; easy | easy].
      * unfold nextCall. destruct (_ <? _); cbn; easy.
      * unfold nextCall. destruct (_ <? _); cbn; easy.
      * now left.
      * intros l e. rewrite CT. destruct (next_counts (l, e) c j W J) as [X1 X2]. cbn [doneC]. change (follows l e (added [])) with 0. lia.
      * intros l e. rewrite CT. destruct (next_counts (l, e) c j W J) as [X1 X2]. cbn [pendC]. lia.
    + assert (ZZ : z < length (nc (snd (jth c j)))) by lia. destruct (Nat.leb_spec cap (n + z)); [lia|]. unfold at_. rewrite ok_true by easy. do 2 eexists. split; [reflexivity|]. exists E, D, L.
      apply (step_inv m x E D L E D L tr [] s _ t (A2 c j x n (S z)) I); rewrite ?P; try easy; try exact (Forall_nil _).
      * split; cbn; try easy. intros b B0. destruct (Nat.eq_dec b x) as [-> | N]; [|rewrite fset_ne by easy; now apply C4]. rewrite fset_eq, SZ. split; [easy|]. split; [easy|]. intros i Hi. rewrite fset_ne by lia. now apply D3.
      * split; cbn; try easy. intros b B0. repeat split; try easy; [exists []; symmetry; apply app_nil_r | now rewrite fset_ne].
      * cbn. rewrite fset_eq. repeat split; try lia; try easy. intros i Hi. destruct (Nat.eq_dec i z) as [-> | N]; [rewrite fset_eq; now apply nth_error_nth' | rewrite fset_ne by lia; apply ZC; lia].
      * now left.
      * intros; apply Nat.le_add_r.
  - do 2 eexists. split; [reflexivity|]. set (l0 := fst (jth c j)) in *. set (ej := entOf (snd (jth c j))) in *.
    assert (EN : nc (snd (jth c j)) = encs [ej]) by (rewrite NC; cbn; now rewrite app_nil_r).
    destruct (newHead_ok s t (nextCall c j) l0 [ej] (iCore _ _ _ _ _ _ I)) as (CO & GR & CT).
    + rewrite <- EN. unfold nc, cap. destruct (isSentinel _); cbn; lia.
    + intros _. now rewrite HD.
    + rewrite <- EN, HD in *. set (s' := goto (newHead s l0 x (nc (snd (jth c j)))) t (nextCall c j)) in *.
      set (E' := fset E (s_brk s) [ej]) in *. set (D' := fset D (s_brk s) (cont E D s l0)) in *. set (L' := fset L (s_brk s) l0) in *. exists E', D', L'.
      assert (CT' : forall l e, times e (cont E' D' s' l) = times e (cont E D s l) + is1 (jent c j) (l, e)).
      { intros l e. rewrite CT. f_equal. unfold jent. fold l0 ej. destruct (lit_eqb l l0) eqn:Q; [apply lit_eqb_eq in Q as ->; now rewrite is1_eq|]. rewrite is1_ne; [easy|]. intros <-. now rewrite (proj2 (lit_eqb_eq l0 l0) eq_refl) in Q. }
      apply (step_inv m x E D L E' D' L' tr [] s s' t (nextCall c j) I); rewrite ?P; try easy; try exact (Forall_nil _).
      * unfold nextCall. destruct (Nat.ltb_spec (S j) (length (calls c))); cbn; [split; easy | easy].
      * unfold nextCall. destruct (_ <? _); cbn; easy.
      * unfold nextCall. destruct (_ <? _); cbn; easy.
      * now left.
      * intros l e. rewrite CT'. destruct (next_counts (l, e) c j W J) as [X1 X2]. cbn [doneC]. change (follows l e (added [])) with 0. lia.
      * intros l e. rewrite CT'. destruct (next_counts (l, e) c j W J) as [X1 X2]. cbn [pendC]. lia.
Qed.

Lemma a3_ok tr s t c j : Inv m E D L tr s -> t < m -> s_pc s t = A3 c j -> good m tr t s.
Proof.
  intros I T P. unfold good, run1. rewrite P. pose proof (iPc _ _ _ _ _ _ I t) as Q. rewrite P in Q.
  destruct (Nat.eqb_spec (s_head s (fst (jth c j))) 0) as [Z | N]; (do 2 eexists; split; [reflexivity|]).
  - destruct (newHead_ok s t (A0 c j) (fst (jth c j)) [] (iCore _ _ _ _ _ _ I)) as (CO & GR & CT); [cbn; lia | easy|].
    rewrite Z in *. change (encs []) with (@nil cell) in *. do 3 eexists. eapply (step_inv m 0 E D L _ _ _ tr [] s _ t (A0 c j) I); rewrite ?P; try exact CO; try exact GR; try easy; try exact (Forall_nil _).
    + now left.
    + intros l e. rewrite CT. change (follows l e (added [])) with 0. cbn [doneC]. destruct (lit_eqb _ _); cbn; lia.
    + intros l e. rewrite CT. cbn [pendC]. destruct (lit_eqb _ _); cbn; lia.
  - exists E, D, L. apply (same_inv m E D L tr [] s _ t (A0 c j)); rewrite ?P; try easy; try exact (Forall_nil _); [now left | intros; apply Nat.le_add_r].
Qed.

Lemma s0_ok tr s t c : Inv m E D L tr s -> t < m -> s_pc s t = S0 c -> good m tr t s.
Proof.
  intros I T P. unfold good, run1. rewrite P. pose proof (iPc _ _ _ _ _ _ I t) as Q. rewrite P in Q. do 2 eexists; split; [reflexivity|]; exists E, D, L.
  apply (same_inv m E D L tr [] s _ t (S1 c (s_stat s (length (lits c))))); rewrite ?P; try easy; try exact (Forall_nil _). now left.
Qed.
Lemma s1_ok tr s t c v : Inv m E D L tr s -> t < m -> s_pc s t = S1 c v -> good m tr t s.
Proof.
  intros I T P. unfold good, run1. rewrite P. pose proof (iPc _ _ _ _ _ _ I t) as Q. rewrite P in Q. do 2 eexists; split; [reflexivity|]; exists E, D, L.
  apply (same_inv m E D L tr [Ret t c true] s _ t Idle); rewrite ?P; try easy; try exact (Forall_nil _).
  - right. eexists. split; [reflexivity|]. now repeat split.
  - intros l e. cbn [added]. rewrite follows_one. cbn. lia.
Qed.
End Write.

Section All.
Variable m : nat.
Lemma run_ok E D L tr s t : Inv m E D L tr s -> t < m -> s_pc s t <> Idle -> good m tr t s.
Proof.
  intros I T P. destruct (s_pc s t) eqn:Q; [easy | | | | | | | | |].
  - eapply r0_ok; eauto. - eapply r1_ok; eauto. - eapply r2_ok; eauto. - eapply a0_ok; eauto. - eapply a1_ok; eauto. - eapply a2_ok; eauto. - eapply a3_ok; eauto. - eapply s0_ok; eauto. - eapply s1_ok; eauto.
Qed.
Lemma exec_inv tr s : exec m tr s -> exists E D L, Inv m E D L tr s.
Proof.
  induction 1 as [|tr s e s' X (E & D & L & I) ST].
  - do 3 eexists. apply init_inv.
  - destruct ST as [t s' e T P R | t c T P W | t l T P | t l g b i n T P].
    + destruct (run_ok E D L tr s t I T P) as (s1 & e1 & R1 & I'). rewrite R in R1. inversion R1; subst. exact I'.
    + exists E, D, L. apply (same_inv m E D L tr [Call t c] s _ t (R0 (fst (jth c 0)) (KHas c))); rewrite ?P; try easy.
      * exists (cont E D s (fst (jth c 0))). split; [easy|]. split; [|easy]. intro e. easy.
      * right. eexists. split; [reflexivity|]. now repeat split.
      * now constructor.
      * intros l e. cbn [called]. rewrite follows_one. easy.
    + exists E, D, L. apply (same_inv m E D L tr [Begin t (s_vis s) l] s _ t (R0 l (KProp (s_vis s)))); rewrite ?P; try easy; try exact (Forall_nil _); cbn; try lia.
      * destruct (iFresh _ _ _ _ _ _ I (s_vis s) (le_n _)) as (F1 & F2 & F3).
        assert (SN : seen (s_vis s) (tr ++ [Begin t (s_vis s) l]) = []) by (rewrite seen_app, F1; easy).
        exists (cont E D s l). split; [easy|]. split; [easy|]. rewrite SN. split; [cbn; lia|]. split; [intro H; apply in_app_iff in H as [H | [H | []]]; easy|]. split; [|cbn; easy].
        intros t1 t2 u l' H. apply split_snoc in H as [(-> & H & ->) | (t3 & _ & H)].
        -- inversion H. split; [easy|]. intro e. pose proof (iAdd _ _ _ _ _ _ I l' e). cbn. change (cont E D (begin s t l') l') with (cont E D s l'). lia.
        -- exfalso. apply (F3 u l'). rewrite H. apply in_app_iff. right. now left.
      * intros g [= <-]. now right.
      * right. eexists. split; [reflexivity|]. repeat split; try easy. intros g [= <-]. right. now exists l.
    + exists E, D, L. apply (same_inv m E D L tr [] s _ t Idle); rewrite ?P; try easy; try exact (Forall_nil _). now left.
Qed.
End All.
