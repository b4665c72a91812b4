(** Parallel solving: what the thread that steps knows about solutions (C50). *)
From Coq Require Import List Bool Arith ZArith Lia.
Import ListNotations.
From Verif Require Import Base PsSpec PsModel PsProofs PsInv PsInvS PsInvR PsSem.

Section P.
Variables (sol : Type) (tv : sol -> lit -> bool) (G : sol -> Prop) (cost : sol -> Z) (same : sol -> sol -> Prop) (C : cfg).
Notation thread := (thread sol).
Notation glob := (glob sol).
Notation pcT := (pcT sol).
Notation st := (st sol).
Notation tstep := (tstep tv G cost same C).
Notation step := (step tv G cost same C).
Notation reach := (reach tv G cost same C).
Notation waits := (waits sol).
Notation lives := (lives sol).

Notation scope := (scope C).
Notation GI := (GI sol C).
Notation TI := (TI sol C).
Notation eff := (eff sol cost same C).
Notation lm := (lm sol).
Notation parked := (parked sol).
Notation preP := (preP sol).
Notation runP := (runP sol).
Notation itemOf := (itemOf sol).
Notation retOf := (retOf sol).
Notation Inv := (Inv sol C).
Notation excl := (excl cost same C).
Notation Sol := (Sol tv G C).
Notation inP := (inP tv).
Notation nothingLeft := (nothingLeft tv G cost same C).
Notation A := (A tv G cost same C).
Notation clm := (clm tv).
Notation inq := (inq tv).
Notation cover := (cover tv G cost same C).
Notation GC := (GC tv G cost same C).
Notation GB := (GB sol tv G cost same C).
Notation TB := (TB sol tv G cost same C).
Hypothesis HS : scope.



Ltac fin := constructor; cbn; auto; try congruence; try (intros; discriminate); try tauto.
Lemma TB_self i g t g' t' : tstep i g t g' t' -> i < c_n C -> GI g -> TI g i t -> GB g -> TB g i t ->
  (pc t = ReqW -> term g || sync g = false -> q g = [] -> threads g <= S (waiting g) -> A g) -> TB g' i t'.
Proof.
  intros H I HG HT HB TH LAST. pose proof (sc_n HS) as N64.
  assert (allow g = false -> msplit g = false) as AM by (intros X; destruct (msplit g) eqn:M; [destruct (g_split _ HG M); congruence|reflexivity]).
  destruct H; match goal with E : pc _ = _ |- _ => rename E into P end.
  all: try match goal with P : pc _ = Req ?k |- _ => is_var k; destruct k end; try match goal with P : pc _ = Req2 ?k |- _ => is_var k; destruct k end.
  all: try (destruct b); try (destruct k as [[]| |]); try (destruct k); try (destruct r as [[]| |]); try (destruct c).
  all: destruct TH as [c_cur c_cm c_term c_idle c_run c_dj]; rewrite P in *; cbn in *; try solve [fin].
  - fin. intros Ag _. pose proof (t_bit _ _ _ HT Ag) as X. rewrite P in X. destruct X.
  - fin. pose proof (t_bit _ _ _ HT ltac:(assumption)) as X. rewrite P in X. destruct c_idle as [Y|[Y|[Y|Y]]]; auto. congruence.
  - fin. match goal with X : _ || _ = true |- _ => apply orb_prop in X; tauto end.
  - fin. destruct c_term as [Y|Y]; [congruence|exact Y].
  - assert (allow g = false -> p = (c_path C, true)) as IT by (intros Ag; apply (t_it _ _ _ HT Ag); now rewrite P).
    fin.
    + intros _. exists p. auto.
    + intros Ag _ m S. right. rewrite (IT Ag). apply S.
    + intros Ag _. now rewrite (IT Ag).
  - assert (allow g = false -> p = (c_path C, true)) as IT by (intros Ag; apply (t_it _ _ _ HT Ag); now rewrite P).
    fin. intros Ag _. right. right. left. intros m S _. match goal with X : PsModel.nothingLeft _ _ _ _ _ _ _ |- _ => apply X; auto end. rewrite (IT Ag). apply S.
  - fin. intros _. exists p. auto.
  - fin.
    + intros _. destruct (c_cur eq_refl) as (p & Cp & L). exists p. auto.
    + intros Ag _ m S. destruct (c_run Ag eq_refl m S) as [X|X]; auto. match goal with Y : forall m, Sol m -> reg t m -> _ |- _ => destruct (Y m S X); auto end.
  - assert (allow g = true) as Al.
    { destruct (msplit g) eqn:M; [apply (g_split _ HG M)|apply (t_gp0 _ _ _ HT M)]. assumption. }
    fin. intros _. destruct (c_cur eq_refl) as (p & Cp & L). exists p. split; [exact Cp|]. intros m [X _]. auto.
  - fin. intros Ag _. right. right. left. intros m S _. destruct (c_run Ag eq_refl m S) as [X|X]; auto.
  - fin. intros Ag _. rewrite (g_bt _ HG) in Ag; auto; discriminate.
  - destruct (t_rst _ _ _ HT). exact P.
  - fin. intros Ag _. rewrite (g_bt _ HG) in Ag; auto; discriminate.
  (* S_commit *)
  - destruct (c_cur eq_refl) as (p & Cp & L). destruct (commit_fields _ tv G cost same C g m) as (E1 & E2 & E3 & E4 & E5 & E6 & E7 & E8 & E9).
    unfold commitT. destruct (btNow C g && isNil (rep g)) eqn:BN.
    + apply andb_prop in BN. destruct BN as [BN NL]. rewrite BN. assert (allow (commitG C g m) = true) as Al by (unfold commitG; now rewrite BN, NL).
      constructor; cbn; auto; try congruence. intros _. exists p. split; [exact Cp|]. intros x [X _]. auto.
    + assert (btNow C g = true -> allow g = true) as BA.
      { intros B. apply (g_bt _ HG B). rewrite B in BN. cbn in BN. destruct (rep g); discriminate. }
      assert (allow (commitG C g m) = allow g) as Al by (unfold commitG; now rewrite BN). rewrite <- Al in BA.
      constructor; cbn; auto; try congruence.
      * intros _. exists p. split; [exact Cp|]. destruct (btNow C g); auto. intros x [X _]. auto.
      * intros Ag _ x S. destruct (btNow C g); [rewrite BA in Ag; [discriminate|reflexivity]|]. rewrite Al in Ag. destruct (c_run Ag eq_refl x S) as [X|X]; auto. left.
        apply (excl_mono _ _ _ _ g (commitG C g m)); auto. rewrite E7. intros r R. apply in_app_iff. auto.
      * rewrite Al. auto.
  - destruct (t_us _ _ _ HT) as [X|[(X & _)|X]]; [rewrite P; auto|..]; match goal with Y : term g || sync g = false |- _ => apply orb_false_elim in Y; destruct Y end; congruence.
  - fin. intros _ _. match goal with X : _ || _ = true |- _ => apply orb_prop in X; tauto end.
  - fin. intros Ag _. right. right. left. intros m S _. destruct (c_run Ag eq_refl m S) as [X|X]; auto.
  - fin. left. destruct (allow g) eqn:Ag.
    + pose proof (t_uo _ _ _ HT P) as O. destruct (msplit g) eqn:M.
      * pose proof (t_gp1 _ _ _ HT M) as X. rewrite P in X. specialize (X eq_refl). congruence.
      * destruct (g_port _ HG Ag M) as (_ & K & _). unfold optimize in O. rewrite (g_allow _ HG Ag), K in O. discriminate.
    + intros m S _. destruct (c_run eq_refl eq_refl m S) as [X|X]; auto.
  (* S_la *)
  - destruct (la_fields _ C g HG) as (E1 & E2 & _). pose proof (t_lm _ _ _ HT) as L. rewrite P in L. fin. intros _ _. left. rewrite E2. auto.
  - destruct (la_fields _ C g HG) as (E1 & E2 & _). pose proof (t_lm _ _ _ HT) as L. rewrite P in L. fin. intros _ _. left. rewrite E2. auto.
  - destruct (lb_same _ g tn) as (E2 & _). pose proof (t_lm _ _ _ HT) as L. rewrite P in L. fin. intros _ _. left. rewrite E2. auto.
  - destruct (lb_same _ g tn) as (E2 & _). pose proof (t_lm _ _ _ HT) as L. rewrite P in L. fin. intros _ _. left. rewrite E2. auto.
  - pose proof (t_initv _ _ _ HT) as L. rewrite P in L. fin. intros _ _. right. left. unfold bit. cbn. rewrite L. apply maxV_bit. lia.
  - pose proof (t_initv _ _ _ HT) as L. rewrite P in L. fin. intros _ _. right. left. unfold bit. cbn. rewrite L. apply maxV_bit. lia.
  - pose proof (t_hp _ _ _ HT) as L. rewrite P in L. rewrite L, (g_aband _ HG), orb_true_r in *. discriminate.
  - fin. destruct c_term; [assumption|congruence].
  - fin. destruct c_term; [assumption|congruence].
  - fin. destruct c_term; [assumption|congruence].
  - fin. destruct c_term; [assumption|congruence].
  - pose proof (t_tc _ _ _ HT) as L. rewrite P in L. fin.
  - pose proof (t_tc _ _ _ HT) as L. rewrite P in L. fin.
  - pose proof (t_tc _ _ _ HT) as L. rewrite P in L. fin.
Qed.
End P.
