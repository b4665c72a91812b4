From Coq Require Import List Bool Arith ZArith Lia.
Import ListNotations.
From Verif Require Import Base LpSpec LpProofs SrModel DsSpec DsProofs CpModel CpSpec CpProofs CpProofs2 DgModel DgProofs VsModel VsSpec VsProofs.

Lemma hasVar_eq l : hasVar l = false <-> l = litFalse.
Proof. unfold hasVar. destruct (lit_eqb l litFalse) eqn:E; cbn; [apply lit_eqb_eq in E; tauto|]. split; [discriminate|]. intros ->. rewrite lit_eqb_refl in E. discriminate. Qed.
Lemma holds_upd A x b l : fst l < x -> holds (upd A x b) l = holds A l.
Proof. intros L. unfold holds. rewrite upd_ne by lia. reflexivity. Qed.
Lemma holds_new A x b : holds (upd A x b) (pos x) = b.
Proof. unfold holds, pos. cbn. rewrite upd_eq. now rewrite xorb_false_r. Qed.
Lemma holds_F A : A 0 = true -> holds A litFalse = false.
Proof. intros H. unfold holds, litFalse, ngt. cbn. now rewrite H. Qed.
Lemma holds_T A : A 0 = true -> holds A litTrue = true.
Proof. intros H. unfold holds, litTrue, pos. cbn. now rewrite H. Qed.

Section Prog.
Variables (pr : prep) (init : list nat).
Hypothesis HI : simpleInput pr init.
Notation tb := (theBody pr).
Notation n := (nBodies pr).
Notation P := (rulesOf pr).

Lemma prog_pos : posP P.
Proof. intros r I. apply rules_in in I as (b & I & [(a & -> & _)|[(a & -> & _)|(hs & -> & _)]]); cbn; now apply (body_pos pr init HI). Qed.

Definition answer (M : asg) : Prop := stable P M /\ valuesOk pr M.
Notation bt M i := (bodyT M M (b_body (tb i))).
Lemma g_rule M i h : answer M -> i < n -> In (h, ENormal) (b_heads (tb i)) -> bt M i = true -> M h = true.
Proof.
  intros [[T _] _] L I Hb. assert (Ir : In (Rule false [h] (b_body (tb i))) P). { apply rules_in. exists (tb i). split; [now apply tb_in|]. left. eauto. }
  destruct (T _ Ir Hb) as (x & [<-|[]] & K). exact K.
Qed.
Lemma g_sup M a : answer M -> M a = true -> exists i t, i < n /\ In (a, t) (b_heads (tb i)) /\ bt M i = true.
Proof.
  intros [S _] Ha. apply (stable_founded _ _ prog_pos) in S as [_ F]. destruct (founded_supported _ _ true prog_pos F a Ha) as (r & Ir & Ih & Hb & _).
  apply rules_in in Ir as (b & Ib & X). destruct (si_plain _ _ HI b Ib) as [Hd _]. destruct (body_ex pr b Ib) as (i & L & E). exists i. rewrite E.
  destruct X as [(x & -> & J)|[(x & -> & J)|(hs & _ & J)]]; cbn in Ih, Hb; [| |rewrite Hd in J; destruct J]; destruct Ih as [<-|[]]; eauto.
Qed.
Lemma g_bval M i : answer M -> i < n -> hasValue (b_val (tb i)) (bt M i).
Proof. intros [_ [V _]] L. apply V. now apply tb_in. Qed.

Definition assigned (M A : asg) (s : vst) (D : list nat) : Prop :=
  A 0 = true /\ (forall a, v_up s a = true -> holds A (v_a s a) = M a) /\ (forall i, In i D -> i < n -> holds A (v_b s i) = bt M i).
Record lits (s : vst) (D : list nat) : Prop := {
  l_nx : 0 < v_nx s;
  l_av : forall a, fst (v_a s a) < v_nx s;
  l_bv : forall i, fst (v_b s i) < v_nx s;
  l_out : forall a, v_up s a = false -> v_a s a = litFalse;
  l_in : forall a, v_up s a = true -> In a (p_atoms pr);
  l_b : forall i, hasVar (v_b s i) = true -> In i D;
  l_own : forall v, 0 < v < v_nx s -> (exists a, v_up s a = true /\ v_a s a = pos v) \/ (exists i, i < n /\ v_b s i = pos v);
  l_sem : forall M, answer M -> exists A, assigned M A s D
}.
Lemma lits_ext s s' D : v_a s' = v_a s -> v_b s' = v_b s -> v_up s' = v_up s -> v_nx s' = v_nx s -> lits s D -> lits s' D.
Proof. intros E1 E2 E3 E4 []. constructor; unfold assigned; rewrite ?E1, ?E2, ?E3, ?E4; auto. Qed.

(** the only support *)
Lemma only_support M a i : answer M -> i < n -> In (a, ENormal) (b_heads (tb i)) -> numS pr a <= 1 -> M a = bt M i.
Proof.
  intros HM L I N. destruct (bt M i) eqn:Eb; [now apply (g_rule M i a)|]. destruct (M a) eqn:Ea; [|reflexivity]. destruct (g_sup M a HM Ea) as (j & t & Lj & Ij & Hj).
  assert (X : i = j); [|subst; congruence].
  assert (C : forall k t', k < n -> In (a, t') (b_heads (tb k)) -> In k (filter (fun i => existsb (fun h => fst h =? a) (b_heads (tb i)) && negb (isVFalse (b_val (tb i)))) (seq 0 n))).
  { intros k t' Lk Ik. apply filter_In. split; [apply in_seq; lia|]. apply andb_true_iff. split; [apply existsb_exists; exists (a, t'); split; [auto|apply Nat.eqb_refl]|].
    destruct (b_val (tb k)) eqn:Ev; try reflexivity. rewrite (si_false _ _ HI (tb k)) in Ik; [destruct Ik|now apply tb_in|auto]. }
  pose proof (C i _ L I) as Ci. pose proof (C j _ Lj Ij) as Cj. unfold numS in N. destruct (filter _ _) as [|x [|y l]]; [destruct Ci| |cbn in N; lia]. destruct Ci as [<-|[]]. now destruct Cj as [<-|[]].
Qed.

Lemma assignAtom_lits s D a i t : i < n -> In (a, t) (b_heads (tb i)) -> v_up s a = false -> lits s D -> lits (setUp (assignAtom pr s a i t) a) D.
Proof.
  intros L I U [K1 K2 K3 K4 K5 K6 K7 K8]. destruct (si_plain _ _ HI (tb i) (tb_in pr i L)) as [_ Hp]. destruct (Hp _ I) as [Ht Ha]. cbn [fst snd] in Ht, Ha.
  assert (Hin : forall b, upd (v_up s) a true b = true -> In b (p_atoms pr)) by (intros b; destruct (Nat.eq_dec b a) as [->|Ne]; [auto|rewrite upd_ne by auto; auto]).
  assert (Hout : forall l b, upd (v_up s) a true b = false -> upd (v_a s) a l b = litFalse) by (intros l b; destruct (Nat.eq_dec b a) as [->|Ne]; [rewrite upd_eq; discriminate|rewrite !upd_ne by auto; auto]).
  unfold assignAtom. destruct (isNormal t && hasVar (v_b s i) && (negb ((1 <? numS pr a) || v_ty s (fst (v_b s i))) || isVTrue (b_val (tb i)))) eqn:C; unfold setUp; cbn [v_a v_b v_up v_un v_q v_nx v_ty v_ign v_unit].
  - apply andb_true_iff in C as [C C3]. apply andb_true_iff in C as [C1 C2]. assert (t = ENormal) by (destruct Ht; subst t; [reflexivity|discriminate]). subst t.
    constructor; cbn [v_a v_b v_up v_un v_q v_nx v_ty v_ign v_unit]; auto.
    + intros b. destruct (Nat.eq_dec b a) as [->|Ne]; [rewrite upd_eq; auto|rewrite upd_ne by auto; auto].
    + intros v Lv. destruct (K7 v Lv) as [(b & Ub & Eb)|X]; [|auto]. left. exists b. rewrite !upd_ne by congruence. auto.
    + intros M HM. destruct (K8 M HM) as (A & A0 & A1 & A2). exists A. split; [auto|]. split; [|auto]. intros b. destruct (Nat.eq_dec b a) as [->|Ne]; [|cbn [v_a v_up]; rewrite !upd_ne by auto; auto]. intros _. cbn [v_a]. rewrite upd_eq. rewrite A2 by auto.
      apply orb_true_iff in C3 as [C3|C3].
      * symmetry. apply only_support; auto. destruct (1 <? numS pr a) eqn:E; [discriminate|]. now apply Nat.ltb_ge in E.
      * pose proof (g_bval M i HM L) as V. destruct (b_val (tb i)); try discriminate. cbn in V. rewrite V. symmetry. apply (g_rule M i); auto.
  - constructor; cbn [v_a v_b v_up v_un v_q v_nx v_ty v_ign v_unit]; auto.
    + intros b. destruct (Nat.eq_dec b a) as [->|Ne]; [rewrite upd_eq; cbn; lia|rewrite upd_ne by auto; specialize (K2 b); lia].
    + intros j. specialize (K3 j). lia.
    + intros v Lv. destruct (Nat.eq_dec v (v_nx s)) as [->|Nv]; [left; exists a; now rewrite !upd_eq|]. destruct (K7 v ltac:(lia)) as [(b & Ub & Eb)|X]; [|auto]. left. exists b. rewrite !upd_ne by congruence. auto.
    + intros M HM. destruct (K8 M HM) as (A & A0 & A1 & A2). exists (upd A (v_nx s) (M a)). split; [rewrite upd_ne by lia; auto|]. split.
      * intros b. cbn [v_a v_up]. destruct (Nat.eq_dec b a) as [->|Ne]; [intros _; rewrite upd_eq; apply holds_new|]. rewrite !upd_ne by auto. intros Ub. rewrite holds_upd by auto. auto.
      * intros j J Lj. cbn [v_b]. rewrite holds_upd by auto. auto.
Qed.

Lemma setB_lits s D i l nx ty : i < n -> hasVar (v_b s i) = false -> lits s D -> v_nx s <= nx -> fst l < nx ->
  (forall v, v_nx s <= v < nx -> l = pos v) ->
  (forall M A, answer M -> assigned M A s D -> exists A', A' 0 = true /\ (forall v, v < v_nx s -> A' v = A v) /\ holds A' l = bt M i) ->
  lits (setB s i l nx ty) (i :: D).
Proof.
  intros L F [K1 K2 K3 K4 K5 K6 K7 K8] Ln Ll Ho Hs. apply hasVar_eq in F. unfold setB. constructor; cbn [v_a v_b v_up v_un v_q v_nx v_ty v_ign v_unit]; auto.
  - lia.
  - intros a. specialize (K2 a). lia.
  - intros j. destruct (Nat.eq_dec j i) as [->|Ne]; [now rewrite upd_eq|rewrite upd_ne by auto; specialize (K3 j); lia].
  - intros j. destruct (Nat.eq_dec j i) as [->|Ne]; [now left|rewrite upd_ne by auto; right; auto].
  - intros v Lv. destruct (le_lt_dec (v_nx s) v) as [Lx|Lx]; [right; exists i; rewrite upd_eq; split; [auto|apply Ho; lia]|]. destruct (K7 v ltac:(lia)) as [X|(j & Lj & Ej)]; [auto|]. right. exists j. split; [auto|]. destruct (Nat.eq_dec j i) as [->|Ne]; [|now rewrite upd_ne]. exfalso. rewrite F in Ej. discriminate Ej.
  - intros M HM. destruct (K8 M HM) as (A & HA). destruct (Hs M A HM HA) as (A' & A0' & Ag & Al). destruct HA as (A0 & A1 & A2). exists A'.
    assert (Hx : forall q : lit, fst q < v_nx s -> holds A' q = holds A q) by (intros q Lq; unfold holds; now rewrite Ag).
    split; [auto|]. split; cbn [v_a v_up v_b]; [intros a Ua; rewrite Hx by auto; auto|]. intros j J Lj. destruct (Nat.eq_dec j i) as [->|Ne]; [now rewrite upd_eq|]. rewrite upd_ne by auto. rewrite Hx by auto. destruct J as [J|J]; [congruence|auto].
Qed.
Lemma unit_body i g w M : i < n -> goalsW (b_body (tb i)) = [(g, w)] -> bt M i = litT M M g.
Proof.
  intros L E. destruct (b_body (tb i)) as [ls|bound ls] eqn:B; cbn [goalsW] in E.
  - destruct ls as [|x [|y ls]]; try discriminate. injection E as -> _. cbn. now rewrite andb_true_r.
  - subst ls. destruct (si_agg _ _ HI (tb i) bound [(g, w)] (tb_in pr i L) B) as [H1 H2]. specialize (H1 _ (or_introl eq_refl)). cbn in H1, H2. cbn. destruct (litT M M g); [apply Z.leb_le; lia|apply Z.leb_gt; lia].
Qed.
Lemma assignBody_lits s D i : i < n -> hasVar (v_b s i) = false -> lits s D -> lits (assignBody pr s i) (i :: D).
Proof.
  intros L F K. pose proof K as [K1 K2 K3 K4 K5 K6 K7 K8]. unfold assignBody. rewrite F.
  destruct ((bsize (b_body (tb i)) =? 0) || isVTrue (b_val (tb i))) eqn:C.
  - apply setB_lits; auto; try (cbn; lia); try (intros v Lv; exfalso; lia). intros M A HM (A0 & _). exists A. split; [auto|]. split; [auto|]. rewrite holds_T by auto. symmetry. apply orb_true_iff in C as [C|C].
    + apply Nat.eqb_eq in C. unfold bsize in C. destruct (b_body (tb i)) as [ls|bound ls] eqn:B; cbn [goalsW] in C.
      * rewrite map_length in C. destruct ls; [reflexivity|discriminate].
      * destruct ls; [|discriminate]. destruct (si_agg _ _ HI (tb i) bound [] (tb_in pr i L) B) as [_ H2]. cbn in H2. lia.
    + pose proof (g_bval M i HM L) as V. destruct (b_val (tb i)); try discriminate. exact V.
  - assert (Fr : lits (if isVFalse (b_val (tb i)) then setB s i litFalse (v_nx s) (v_ty s) else setB s i (pos (v_nx s)) (S (v_nx s)) (upd (v_ty s) (v_nx s) false)) (i :: D)).
    { destruct (isVFalse (b_val (tb i))) eqn:Fv.
      - apply setB_lits; auto; try (cbn; lia); try (intros v Lv; exfalso; lia). intros M A HM (A0 & _). exists A. split; [auto|]. split; [auto|]. rewrite holds_F by auto. pose proof (g_bval M i HM L) as V. destruct (b_val (tb i)); try discriminate. now symmetry.
      - apply setB_lits; auto; try (cbn; lia); try (intros v Lv; f_equal; lia). intros M A HM (A0 & _). exists (upd A (v_nx s) (bt M i)). split; [rewrite upd_ne by lia; auto|]. split; [intros v Lv; rewrite upd_ne by lia; auto|]. apply holds_new. }
    destruct (goalsW (b_body (tb i))) as [|[g w] [|y l]] eqn:G; auto. destruct (hasVar (v_a s (fst g))) eqn:Hv; [|auto].
    apply setB_lits; auto; try (intros v Lv; exfalso; lia).
    { unfold xorl. destruct (snd g); cbn; apply K2. }
    intros M A HM (A0 & A1 & A2). exists A. split; [auto|]. split; [auto|]. rewrite (unit_body i g w M L G).
    assert (Ug : v_up s (fst g) = true). { destruct (v_up s (fst g)) eqn:E; [reflexivity|]. rewrite (K4 _ E) in Hv. discriminate Hv. }
    specialize (A1 _ Ug). destruct g as [p sg]. cbn [fst snd] in *. destruct (v_a s p) as [v sv]. unfold holds, xorl, litT, neg in *. cbn [fst snd] in *. destruct sg; cbn [fst snd negb] in *; destruct sv, (A v), (M p); cbn in *; congruence.
Qed.
End Prog.
