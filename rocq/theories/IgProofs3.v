(** C52: the steps that read keep the invariant. *)
From Coq Require Import List Arith Bool Lia.
From Verif Require Import Base IgSpec IgModel IgProofs IgProofs2.
Import ListNotations.

Lemma kOK_same E D s s' tr ev l k r : same s s' -> s_vis s <= s_vis s' -> (forall g, k = KProp g -> ev = [] \/ exists x, ev = [x] /\ evis x <> Some g) ->
  kOK E D s tr l k r -> kOK E D s' (tr ++ ev) l k r.
Proof. intros HS V X. apply kOK_grow; [easy | | easy]. intro e. rewrite (same_cont _ _ _ _ HS). lia. Qed.
Lemma same_goto s t p : same s (goto s t p).
Proof. now repeat split. Qed.
Lemma enc_nil e : enc e <> [].
Proof. now destruct e. Qed.
Lemma ok_true s b : 0 < b < s_brk s -> ok s b = true.
Proof. intros [A B]. unfold ok. apply andb_true_iff. now rewrite !Nat.ltb_lt. Qed.
Lemma subs_lem l e c c' q : wfc c -> wfc c' -> In (l, e) (entries c') -> l = fst (jth c 0) -> snd (jth c 0) = q ->
  (match e with Bin x => hasTest (x, true) (x, true) q | Ter x y => hasTest (x, false) (y, false) q end = true) -> subsumes c' c.
Proof.
  assert (NI : forall a b, neg a = neg b -> a = b) by (intros [a x] [b y] H; unfold neg in H; cbn in H; inversion H as [[H1 H2]]; destruct x, y; easy).
  intros W W' H -> <- T.
  assert (A : In (fst (jth c 0)) (map neg (lits c)) /\ exists p, fst (jth c 0) = neg p /\ In p (lits c)) by (destruct c; cbn; split; auto; eexists; split; auto).
  unfold subsumes. assert (M : forall x, fst x <> 0 -> (lit_eqb x (fst (snd (jth c 0))) || lit_eqb x (snd (snd (jth c 0)))) = true -> In x (lits c)).
  { intros x X0 X. apply orb_true_iff in X as [X | X]; apply lit_eqb_eq in X; subst x; destruct c; cbn in *; auto; lia. }
  destruct A as [_ (p & Hp & Ip)]. assert (Z : forall x, In x (lits c') -> fst x <> 0) by now apply Forall_forall.
  destruct (snd (jth c 0)) as [q r] eqn:Q. cbn [fst snd] in M. rewrite Hp in H. destruct c' as [a b | a b d]; cbn in H, Z; decompose [or] H; try easy;
    match goal with X : (_, _) = (neg p, e) |- _ => pose proof (f_equal fst X) as X1; pose proof (f_equal snd X) as X2; cbn [fst snd] in X1, X2; apply NI in X1; subst end; cbn in T; rewrite ?andb_true_iff in T; cbn;
    intros x Hx; cbn in Hx; decompose [or] Hx; subst; try easy; try (apply M; [now apply Z; auto 6 | tauto]).
Qed.

Section Read.
Variables (m : nat) (E D : nat -> list entry) (L : nat -> lit).
Definition good (tr : list ev) (t : nat) (s : st) : Prop := exists s' e, run1 t s = Ok (s', e) /\ exists E' D' L', Inv m E' D' L' (tr ++ e) s'.

Lemma r0_ok tr s t l k : Inv m E D L tr s -> t < m -> s_pc s t = R0 l k -> good tr t s.
Proof.
  intros I T P. unfold good, run1. rewrite P. do 2 eexists. split; [reflexivity|]. exists E, D, L.
  pose proof (iPc _ _ _ _ _ _ I t) as Q. rewrite P in Q. destruct Q as (r & -> & K).
  apply (same_inv m E D L tr [] s _ t (R1 l k (s_head s l))); rewrite ?P; try easy; try exact (Forall_nil _); [| destruct k; cbn; try easy; now left | now left | intros; unfold follows; destruct k; cbn; lia].
  exists (cont E D s l). split; [|eapply kOK_same; [apply same_goto | easy | now left | exact K]].
  split; [intro N; apply (cHead _ _ _ _ (iCore _ _ _ _ _ _ I) l N) | easy].
Qed.

Lemma r1_ok tr s t l k b : Inv m E D L tr s -> t < m -> s_pc s t = R1 l k b -> good tr t s.
Proof.
  intros I T P. unfold good, run1. rewrite P. pose proof (iPc _ _ _ _ _ _ I t) as Q. rewrite P in Q. destruct Q as (r & (B & R) & K).
  destruct (Nat.eqb_spec b 0) as [Z | N].
  - subst r. destruct k as [g | c]; cbn [endOf]; (do 2 eexists; split; [reflexivity|]; exists E, D, L).
    + destruct K as (_ & K0 & K1 & K2 & K3).
      apply (same_inv m E D L tr [End_ g] s _ t Idle); rewrite ?P; try easy; try exact (Forall_nil _).
      right. exists (End_ g). split; [easy|]. split; [cbn; now left|]. split; [|easy]. intros g' [= <-] t1 t2 u l' H e. destruct (K2 _ _ _ _ H) as [-> K4].
      specialize (K4 e). specialize (K3 e). cbn in *. lia.
    + destruct K as (_ & K1 & K2).
      apply (same_inv m E D L tr [] s _ t (A0 c 0)); rewrite ?P; try easy; try exact (Forall_nil _); [split; [easy | destruct c; cbn; lia] | now left | intros; apply Nat.le_add_r].
  - destruct (B N) as [B1 B2]. unfold at_. rewrite ok_true by lia. do 2 eexists. split; [reflexivity|]. exists E, D, L.
    apply (same_inv m E D L tr [] s _ t (R2 l k b 0 (s_size s b))); rewrite ?P; try easy; try exact (Forall_nil _); [| destruct k; cbn; try easy; now left | now left | intros; unfold follows; destruct k; cbn; lia].
    exists r. split; [|eapply kOK_same; [apply same_goto | easy | now left | exact K]].
    cbn. split; [lia|]. split; [easy|]. exists [], (E b), []. cbn. rewrite app_nil_r. repeat split; try easy. apply (cData _ _ _ _ (iCore _ _ _ _ _ _ I)). lia.
Qed.

Lemma r2_ok tr s t l k b i n : Inv m E D L tr s -> t < m -> s_pc s t = R2 l k b i n -> good tr t s.
Proof.
  intros I T P. unfold good, run1. rewrite P. pose proof (iPc _ _ _ _ _ _ I t) as Q. rewrite P in Q. destruct Q as (r & (B & LB & E1 & E2 & E3 & HE & I1 & I2 & R) & K).
  rewrite ok_true by lia. cbn [negb]. destruct (Nat.eqb_spec i n) as [Z | N].
  - assert (E2 = []) as -> by (destruct E2 as [|e E2]; [easy|]; exfalso; cbn in I2; rewrite app_length in I2; destruct e; cbn in I2; lia). cbn in R.
    do 2 eexists. split; [reflexivity|]. exists E, D, L. destruct (cNext _ _ _ _ (iCore _ _ _ _ _ _ I) b B) as (N1 & N2 & N3).
    apply (same_inv m E D L tr [] s _ t (R1 l k (s_next s b))); rewrite ?P; try easy; try exact (Forall_nil _); [| destruct k; cbn; try easy; now left | now left | intros; unfold follows; destruct k; cbn; lia].
    exists r. split; [|eapply kOK_same; [apply same_goto | easy | now left | exact K]].
    split; [|now rewrite R]. intro X. destruct (N3 X) as [N4 _]. cbn. split; [lia | congruence].
  - destruct E2 as [|e0 E2]; [cbn in I2; lia|]. destruct (cData _ _ _ _ (iCore _ _ _ _ _ _ I) b B) as (SZ & CP & DT).
    assert (EN : encs (E b) = encs E1 ++ enc e0 ++ encs E2 ++ encs E3) by (rewrite HE, !encs_app; change (encs (e0 :: E2)) with (enc e0 ++ encs E2); now rewrite <- app_assoc).
    cbn in I2. rewrite app_length in I2. rewrite EN, !app_length in SZ.
    assert (DD : forall d, d < length (enc e0) -> nth_error (enc e0) d = Some (s_data s b (i + d))).
    { intros d Hd. rewrite <- (DT (i + d)) by lia. rewrite EN, nth_error_app2 by lia. rewrite nth_error_app1 by lia. f_equal. lia. }
    assert (X : s_data s b i = hd (lit_false, false) (enc e0)). { assert (L0 : 0 < length (enc e0)) by (destruct e0; cbn; lia). specialize (DD 0 L0). rewrite Nat.add_0_r in DD. destruct e0; cbn in *; congruence. }
    assert (Y : snd (s_data s b i) = false -> s_data s b (S i) = nth 1 (enc e0) (lit_false, false)).
    { rewrite X. destruct e0; cbn; [easy|]. intros _. specialize (DD 1 ltac:(cbn; lia)). rewrite Nat.add_1_r in DD. cbn in DD. congruence. }
    destruct (Nat.leb_spec cap i) as [C | C]; [destruct e0; cbn in *; lia|].
    assert (F : negb (snd (s_data s b i)) && (cap <=? S i) = false).
    { destruct (snd (s_data s b i)) eqn:S1; [easy|]. cbn -[Nat.leb]. apply Nat.leb_gt. rewrite X in S1. destruct e0; cbn in *; [easy | lia]. }
    rewrite F. clear F.
    assert (DL : i + (if snd (s_data s b i) then 1 else 2) = length (encs (E1 ++ [e0]))) by (rewrite X, encs_app, app_length, I1; now destruct e0).
    assert (RR : rest E D L s (R2 l k b (i + (if snd (s_data s b i) then 1 else 2)) n) (E2 ++ D b)).
    { cbn. split; [easy|]. split; [easy|]. exists (E1 ++ [e0]), E2, E3. rewrite <- app_assoc. cbn. repeat split; try easy. rewrite DL, encs_app, app_length. unfold encs in *. cbn [flat_map] in *. rewrite ?app_nil_r in *. lia. }
    destruct k as [g | c].
    + do 2 eexists. split; [reflexivity|]. exists E, D, L.
      assert (EE : (if snd (s_data s b i) then Bin (fst (s_data s b i)) else Ter (fst (s_data s b i)) (fst (s_data s b (S i)))) = e0).
      { destruct (snd (s_data s b i)) eqn:S1; [|rewrite (Y eq_refl)]; rewrite X in *; destruct e0; cbn in *; easy. }
      rewrite EE. destruct K as (K0 & K1 & K2 & K3 & K4).
      apply (same_inv m E D L tr [Read g e0] s _ t (R2 l (KProp g) b (i + (if snd (s_data s b i) then 1 else 2)) n)); rewrite ?P; try easy; try exact (Forall_nil _).
      * exists (E2 ++ D b). split; [exact RR|]. subst r. assert (TE : forall e, times e ((e0 :: E2) ++ D b) = times e [e0] + times e (E2 ++ D b)) by (intro e; change (e0 :: E2) with ([e0] ++ E2); now rewrite !times_app, Nat.add_assoc).
        change (kOK E D s (tr ++ [Read g e0]) l (KProp g) (E2 ++ D b)). split; [intro e; specialize (K0 e); rewrite TE in K0; lia|].
        split; [easy|]. split; [intro H; apply in_app_iff in H as [H | [H | []]]; easy|].
        assert (SE : seen g (tr ++ [Read g e0]) = seen g tr ++ [e0]) by (rewrite seen_app; cbn; now rewrite Nat.eqb_refl).
        rewrite SE. split.
        -- intros t1 t2 u l' H. apply split_snoc in H as [(_ & H & _) | (t3 & -> & H)]; [easy|]. destruct (K3 _ _ _ _ H) as [-> K5]. split; [easy|]. intro e. specialize (K5 e). rewrite times_app. rewrite TE in K5. lia.
        -- intro e. specialize (K4 e). rewrite times_app. rewrite TE in K4. lia.
      * cbn. now left.
      * right. exists (Read g e0). split; [easy|]. split; [cbn; now left|]. now split.
    + destruct K as (K0 & K1 & K2). destruct (hasTest _ _ _) eqn:HT.
      * do 2 eexists. split; [reflexivity|]. exists E, D, L.
        apply (same_inv m E D L tr [Ret t c false] s _ t Idle); rewrite ?P; try easy; try exact (Forall_nil _); [|intros; unfold follows; cbn; lia].
        right. exists (Ret t c false). split; [easy|]. split; [easy|]. split; [easy|]. intros u c0 [= <- <-].
        assert (IN : 0 < times e0 (cont E D s l)) by (specialize (K0 e0); subst r; assert (0 < times e0 ((e0 :: E2) ++ D b)) by (apply times_In; now left); lia).
        pose proof (iCall _ _ _ _ _ _ I l e0) as IC. destruct (follows_In l e0 (called tr) ltac:(lia)) as (c' & C1 & C2). exists c'. split; [easy|].
        eapply (subs_lem l e0 c c'); try eassumption; [|reflexivity|].
        -- pose proof (iWf _ _ _ _ _ _ I) as W. rewrite Forall_forall in W. auto.
        -- destruct e0; rewrite X in HT.
           ++ revert HT. cbn. destruct (snd (jth c 0)). cbn. now rewrite !andb_true_r.
           ++ rewrite Y in HT by now rewrite X. exact HT.
      * do 2 eexists. split; [reflexivity|]. exists E, D, L.
        apply (same_inv m E D L tr [] s _ t (R2 l (KHas c) b (i + (if snd (s_data s b i) then 1 else 2)) n)); rewrite ?P; try easy; try exact (Forall_nil _); [|now left|intros; unfold follows; cbn; lia].
        exists (E2 ++ D b). split; [exact RR|]. rewrite app_nil_r. change (kOK E D s tr l (KHas c) (E2 ++ D b)).
        split; [|easy]. intro e. specialize (K0 e). subst r. change ((e0 :: E2) ++ D b) with ([e0] ++ E2 ++ D b) in K0. rewrite (times_app e [e0]) in K0. lia.
Qed.
End Read.
