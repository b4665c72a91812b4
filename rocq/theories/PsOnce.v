(** Parallel solving: no solution is reported twice (C50). *)
From Coq Require Import List Bool Arith ZArith Lia.
Import ListNotations.
From Verif Require Import Base PsSpec PsModel PsProofs PsInv PsInvS PsInvR PsSem PsSemS PsSemC.

Section P.
Variables (sol : Type) (tv : sol -> lit -> bool) (G : sol -> Prop) (cost : sol -> Z) (same : sol -> sol -> Prop) (C : cfg).
Notation thread := (thread sol).
Notation glob := (glob sol).
Notation pcT := (pcT sol).
Notation st := (st sol).
Notation tstep := (tstep tv G cost same C).
Notation step := (step tv G cost same C).
Notation reach := (reach tv G cost same C).
Notation waits := (waits sol).
Notation lives := (lives sol).

Notation scope := (scope C).
Notation GI := (GI sol C).
Notation TI := (TI sol C).
Notation eff := (eff sol cost same C).
Notation lm := (lm sol).
Notation parked := (parked sol).
Notation preP := (preP sol).
Notation runP := (runP sol).
Notation itemOf := (itemOf sol).
Notation retOf := (retOf sol).
Notation Inv := (Inv sol C).
Notation excl := (excl cost same C).
Notation Sol := (Sol tv G C).
Notation inP := (inP tv).
Notation nothingLeft := (nothingLeft tv G cost same C).
Notation A := (A tv G cost same C).
Notation clm := (clm tv).
Notation inq := (inq tv).
Notation cover := (cover tv G cost same C).
Notation GC := (GC tv G cost same C).
Notation GB := (GB sol tv G cost same C).
Notation TB := (TB sol tv G cost same C).
Notation VI := (VI sol C).
Notation Full := (Full sol tv G cost same C).
Notation busyP := (busyP sol).
Hypothesis HS : scope.
Hypothesis DEC : forall a b : sol, a = b \/ a <> b.





Lemma fop_app {X} (R : X -> X -> Prop) l x : ForallOrdPairs R l -> (forall a, In a l -> R a x) -> ForallOrdPairs R (l ++ [x]).
Proof.
  induction 1 as [|a l F H IH]; intros K; cbn; [constructor; constructor|]. constructor.
  - apply Forall_app. split; [exact F|]. constructor; [apply K; now left|constructor].
  - apply IH. intros b B. apply K. now right.
Qed.
Lemma clm_busy g t m : clm g t m -> busyP (pc t) = true.
Proof. unfold PsSem.clm, PsSemC.busyP. destruct (itemOf (pc t)); tauto. Qed.

Definition disjoint (p r : item) : Prop := forall m, Sol m -> inP p m -> inP r m -> False.
Definition UI (s : st) : Prop := c_kind C = Bt -> allow (gl s) = true -> term (gl s) = false ->
  (forall i j m, i < c_n C -> j < c_n C -> i <> j -> Sol m -> clm (gl s) (thr s i) m -> clm (gl s) (thr s j) m -> False) /\
  (forall i m, i < c_n C -> Sol m -> clm (gl s) (thr s i) m -> ~ In m (rep (gl s))) /\
  (forall i m p, i < c_n C -> Sol m -> clm (gl s) (thr s i) m -> In p (q (gl s)) -> inP p m -> False) /\
  (forall m p, Sol m -> In p (q (gl s)) -> inP p m -> ~ In m (rep (gl s))) /\
  ForallOrdPairs disjoint (q (gl s)).

Lemma UL i g t g' t' : tstep i g t g' t' -> GI g -> TI g i t -> TB g i t -> c_kind C = Bt -> allow g = true ->
     (rep g' = rep g /\ (q g' = q g \/ q g' = []) /\ forall m, Sol m -> clm g' t' m -> clm g t m)
  \/ (exists p r, rep g' = rep g /\ q g = p :: r /\ q g' = r /\ forall m, Sol m -> clm g' t' m -> inP p m)
  \/ (exists p, rep g' = rep g /\ q g' = q g ++ [p] /\ forall m, Sol m -> (clm g' t' m -> clm g t m) /\ (inP p m -> clm g t m) /\ (clm g' t' m -> inP p m -> False))
  \/ (exists m0, Sol m0 /\ rep g' = rep g ++ [m0] /\ q g' = q g /\ clm g t m0 /\ forall m, Sol m -> clm g' t' m -> clm g t m /\ m <> m0)
  \/ (rep g' = rep g /\ q g' = q g /\ msplit g = true /\ initv g <> 0%Z).
Proof.
  intros H HG HT TH K Ag.
  assert (tent g = false) as TF by apply (g_allow _ HG), Ag.
  assert (btNow C g = true) as BT by (unfold btNow, optimize; now rewrite TF, K).
  pose proof (t_exc _ _ _ HT) as EX. pose proof (t_rst _ _ _ HT) as NR. pose proof (t_ws1 _ _ _ HT) as WS1. pose proof (t_ws0 _ _ _ HT) as WS0.
  pose proof (t_lm _ _ _ HT) as LM. pose proof (t_zero _ _ _ HT) as TZ. pose proof (t_hp _ _ _ HT) as HP.
  pose proof (t_gp0 _ _ _ HT) as GP0. pose proof (b_cm _ _ _ TH) as BM. pose proof (t_cm3 _ _ _ HT) as C3. pose proof (g_port _ HG Ag) as GP. pose proof (sc_oom HS) as OO.
  unfold PsSem.clm in *.
  destruct H; match goal with E : pc _ = _ |- _ => rename E into P end; try rewrite P in *.
  all: try match goal with P : pc _ = Req ?k |- _ => is_var k; destruct k end; try match goal with P : pc _ = Req2 ?k |- _ => is_var k; destruct k end.
  all: try (destruct b); try (destruct k as [[]| |]); try (destruct k); try (destruct r as [[]| |]); try (destruct c).
  all: cbn in *; try congruence.
  all: try solve [left; split; [reflexivity|]; split; [left; reflexivity|]; intros m' S' X; first [exact X|destruct X as [X _]; discriminate X]].
  all: try solve [destruct (la_fields _ C g HG) as (E1 & E2 & E3 & E4 & E5 & E6 & E7 & E8 & E9); left; split; [exact E5|]; split; [right; exact E7|]; intros m' S' [X _]; discriminate X].
  all: try solve [destruct (lb_same _ g tn) as (E1 & E2 & E3 & E4 & E5); left; split; [unfold syncComplete; rewrite TF; now destruct (tn && compl g)|]; split; [left; exact E4|]; intros m' S' [X _]; discriminate X].
  all: try (exfalso; match goal with X : _ || (_ && _) = false |- _ => rewrite HP, (g_aband _ HG), orb_true_r in X; discriminate X end).
  all: try (exfalso; rewrite TF in *; discriminate).
  all: try solve [left; split; [reflexivity|]; split; [left; reflexivity|]; intros m' S' [Y X]; exfalso; destruct (msplit g) eqn:M; [discriminate (WS1 eq_refl _ eq_refl)|];
    destruct Y as [Y|Y]; [discriminate|]; rewrite (WS0 eq_refl _ _ eq_refl eq_refl) in Y; discriminate].
  - left. split; [reflexivity|]. split; [left; reflexivity|]. intros m' S' [[X|X] _]; [destruct (TZ X)|discriminate].
  - destruct (msplit g) eqn:M; [right; right; right; right; auto|]. left. split; [reflexivity|]. split; [left; reflexivity|]. intros m' S' [[X|X] _]; discriminate.
  - right. left. exists p, r. repeat split; auto. intros m' S' [_ X]. exact X.
  - left. split; [reflexivity|]. split; [left; reflexivity|]. intros m' S' (_ & X & Y). split; [|exact Y]. destruct X as [X|X]; [auto|right; destruct (snd p); auto].
  - destruct (OO ltac:(assumption) K).
  - right. right. left. exists (np, false). split; [reflexivity|]. split; [reflexivity|]. intros m' S'.
    assert (msplit g = true \/ disj t = true) as D by (destruct (msplit g) eqn:M; [auto|right; now apply GP0]).
    match goal with X : btNow C g = true -> _ |- _ => pose proof (X BT m' S') as NP end. split; [|split].
    + intros (_ & _ & X & _). auto.
    + intros X. destruct (NP X). auto.
    + intros (_ & _ & _ & X) Y. destruct (NP Y). congruence.
  - destruct (commit_fields _ tv G cost same C g m) as (E1 & E2 & E3 & E4 & E5 & E6 & E7 & E8 & E9). destruct BM as [Sm Rm].
    match goal with X : if btNow C g then _ else _ |- _ => rewrite BT in X; rename X into CN end.
    assert (msplit g = true \/ disj t = true) as D.
    { destruct (msplit g) eqn:M; [auto|right]. destruct (GP eq_refl) as (_ & _ & X). destruct CN; [contradiction|auto]. }
    right. right. right. left. exists m. split; [exact Sm|]. split; [exact E7|]. split; [exact E5|]. split; [auto|].
    intros m' S' CL. unfold commitT in CL. rewrite BT in CL. destruct (isNil (rep g)); cbn in CL; tauto.
  - destruct (OO (EX eq_refl) K).
Qed.
Lemma UI_step s i g' t' : Inv s -> (forall j, j < c_n C -> TB (gl s) j (thr s j)) -> VI s -> i < c_n C -> tstep i (gl s) (thr s i) g' t' -> UI s -> UI (St g' (upd (thr s) i t')).
Proof.
  intros (HG & HT & HX) HB V I H U K Ag' T'. cbn [gl thr] in *.
  destruct (tstep_eff _ _ _ _ _ _ _ _ _ _ _ H (t_rst _ _ _ (HT i I))) as (h & E & Nh).
  assert (term (gl s) = false) as T0.
  { destruct (term (gl s)) eqn:T0; [|reflexivity]. assert (term (neut sol g') = true) as X; [|cbn in X; congruence]. rewrite Nh. change (term h = true). destruct E; auto.
    - destruct (commit_fields _ tv G cost same C (gl s) m) as (Y & _). congruence.
    - destruct (la_fields _ C (gl s) HG) as (Y & _). congruence.
    - destruct (lb_fields _ (gl s) tn) as [Y|Y]; congruence. }
  assert (msplit g' = true -> msplit (gl s) = true) as MM.
  { intros X. change (msplit (neut sol g') = true) in X. rewrite Nh in X. change (msplit h = true) in X. destruct E; auto.
    - destruct (commit_fields _ tv G cost same C (gl s) m) as (_ & _ & _ & Y & _). congruence.
    - destruct (la_fields _ C (gl s) HG) as (_ & _ & _ & _ & _ & _ & _ & _ & [(_ & Y)|(_ & Y & _)]); congruence.
    - destruct (lb_same _ (gl s) tn) as (_ & _ & Y & _). congruence. }
  assert (forall j m, clm g' (thr s j) m -> clm (gl s) (thr s j) m) as CM.
  { intros j m. unfold PsSem.clm. destruct (itemOf _); tauto. }
  destruct (allow (gl s)) eqn:Ag.
  - destruct (U K Ag T0) as (U1 & U2 & U3 & U4 & U5).
    assert (forall (j : nat), j <> i -> upd (thr s) i t' j = thr s j) as UO by (intros j N; now apply upd_other).
    destruct (UL _ _ _ _ _ H HG (HT i I) (HB i I) K Ag) as [(R & Q & L)|[(p & r & R & Q & Q' & L)|[(p & R & Q & L)|[(m0 & Sm & R & Q & L0 & L)|(R & Q & M & Z)]]]].
    + assert (forall x, In x (q g') -> In x (q (gl s))) as QI by (destruct Q as [->| ->]; [auto|intros x []]).
      assert (forall j m, Sol m -> clm g' (upd (thr s) i t' j) m -> clm (gl s) (thr s j) m) as CA.
      { intros j m S X. destruct (Nat.eq_dec j i) as [->|N]; [rewrite upd_same in X; auto|rewrite UO in X by exact N; auto]. }
      rewrite R. repeat split.
      * intros a b m A B N S X Y. apply (U1 a b m); auto.
      * intros a m A S X. apply (U2 a m); auto.
      * intros a m x A S X Y. apply (U3 a m x); auto.
      * intros m x S X. apply (U4 m x); auto.
      * destruct Q as [->| ->]; [exact U5|constructor].
    + rewrite R, Q'. rewrite Q in *. repeat split.
      * intros a b m A B N S X Y. destruct (Nat.eq_dec a i) as [->|Na]; [|destruct (Nat.eq_dec b i) as [->|Nb]].
        -- rewrite upd_same in X. rewrite UO in Y by auto. apply (U3 b m p); auto. now left.
        -- rewrite upd_same in Y. rewrite UO in X by auto. apply (U3 a m p); auto. now left.
        -- rewrite UO in X, Y by auto. apply (U1 a b m); auto.
      * intros a m A S X. destruct (Nat.eq_dec a i) as [->|Na]; [rewrite upd_same in X|rewrite UO in X by exact Na; apply (U2 a m); auto]. apply (U4 m p); auto. now left.
      * intros a m x A S X Ix Px. destruct (Nat.eq_dec a i) as [->|Na]; [rewrite upd_same in X|rewrite UO in X by exact Na; apply (U3 a m x); auto; now right].
        inversion U5 as [|? ? F U5']. subst. rewrite Forall_forall in F. apply (F x Ix m); auto.
      * intros m x S Ix. apply (U4 m x); auto. now right.
      * inversion U5; auto.
    + rewrite R, Q. repeat split.
      * intros a b m A B N S X Y. apply (U1 a b m); auto.
        -- destruct (Nat.eq_dec a i) as [->|Na]; [rewrite upd_same in X; exact (proj1 (L m S) X)|rewrite UO in X by exact Na; auto].
        -- destruct (Nat.eq_dec b i) as [->|Nb]; [rewrite upd_same in Y; exact (proj1 (L m S) Y)|rewrite UO in Y by exact Nb; auto].
      * intros a m A S X. apply (U2 a m); auto. destruct (Nat.eq_dec a i) as [->|Na]; [rewrite upd_same in X; exact (proj1 (L m S) X)|rewrite UO in X by exact Na; auto].
      * intros a m x A S X Ix Px. apply in_app_iff in Ix. destruct (L m S) as (L1 & L2 & L3). destruct Ix as [Ix|[<-|[]]].
        -- apply (U3 a m x); auto. destruct (Nat.eq_dec a i) as [->|Na]; [rewrite upd_same in X; auto|rewrite UO in X by exact Na; auto].
        -- destruct (Nat.eq_dec a i) as [->|Na]; [rewrite upd_same in X; auto|rewrite UO in X by exact Na]. apply (U1 a i m); auto.
      * intros m x S Ix Px. apply in_app_iff in Ix. destruct Ix as [Ix|[<-|[]]]; [apply (U4 m x); auto|]. apply (U2 i m I S). exact (proj1 (proj2 (L m S)) Px).
      * apply fop_app; [exact U5|]. intros x Ix m S Px Pp. apply (U3 i m x); auto. exact (proj1 (proj2 (L m S)) Pp).
    + rewrite R, Q. repeat split.
      * intros a b m A B N S X Y. apply (U1 a b m); auto.
        -- destruct (Nat.eq_dec a i) as [->|Na]; [rewrite upd_same in X; exact (proj1 (L m S X))|rewrite UO in X by exact Na; auto].
        -- destruct (Nat.eq_dec b i) as [->|Nb]; [rewrite upd_same in Y; exact (proj1 (L m S Y))|rewrite UO in Y by exact Nb; auto].
      * intros a m A S X Y. apply in_app_iff in Y. destruct (Nat.eq_dec a i) as [->|Na].
        -- rewrite upd_same in X. destruct (L m S X) as [X1 X2]. destruct Y as [Y|[Y|[]]]; [now apply (U2 i m)|congruence].
        -- rewrite UO in X by exact Na. destruct Y as [Y|[<-|[]]]; [apply (U2 a m); auto|]. apply (U1 a i m0); auto.
      * intros a m x A S X Ix Px. apply (U3 a m x); auto. destruct (Nat.eq_dec a i) as [->|Na]; [rewrite upd_same in X; exact (proj1 (L m S X))|rewrite UO in X by exact Na; auto].
      * intros m x S Ix Px Y. apply in_app_iff in Y. destruct Y as [Y|[<-|[]]]; [apply (U4 m x); auto|]. apply (U3 i m0 x); auto.
      * exact U5.
    + destruct (V K M) as (_ & V2 & _). destruct (V2 (or_intror Z)) as (R0 & Q0 & B0). rewrite R, Q, R0, Q0.
      assert (forall j m, j < c_n C -> j <> i -> clm g' (upd (thr s) i t' j) m -> False) as NC.
      { intros j m J N X. rewrite UO in X by exact N. apply CM in X. apply clm_busy in X. rewrite (B0 j J) in X. discriminate. }
      repeat split; auto.
      * intros a b m A B N S X Y. destruct (Nat.eq_dec a i) as [->|Na]; [apply (NC b m); auto|apply (NC a m); auto].
      * constructor.
  - assert (exists m, pc (thr s i) = CM1 m /\ btNow C (gl s) = true /\ rep (gl s) = [] /\ g' = commitG C (gl s) m /\ t' = commitT C (gl s) (thr s i) m) as (m & P & BN & R0 & -> & ->).
    { clear U V. destruct H; cbn in Ag'; try congruence.
      - destruct (t_rst _ _ _ (HT i I)). assumption.
      - destruct (commit_fields _ tv G cost same C (gl s) m) as (_ & _ & _ & _ & _ & _ & _ & _ & [X|(_ & X & Y)]); [congruence|]. eauto 8.
      - destruct (la_fields _ C (gl s) HG) as (_ & _ & _ & _ & _ & _ & _ & _ & [(X & _)|(X & _)]); congruence.
      - destruct (lb_same _ (gl s) tn) as (_ & X & _). congruence. }
    destruct (commit_fields _ tv G cost same C (gl s) m) as (E1 & E2 & E3 & E4 & E5 & E6 & E7 & E8 & E9). rewrite E5, E7, R0, (g_q _ HG Ag).
    assert (msplit (gl s) = false) as M by (destruct (msplit (gl s)) eqn:M; [destruct (g_split _ HG M); congruence|reflexivity]).
    assert (forall j x, j < c_n C -> j <> i -> clm (commitG C (gl s) m) (upd (thr s) i (commitT C (gl s) (thr s i) m) j) x -> False) as NC.
    { intros j x J N X. rewrite upd_other in X by exact N. apply CM in X. unfold PsSem.clm in X. pose proof (t_it _ _ _ (HT j J) Ag) as IT. pose proof (b_dj _ _ _ (HB j J) Ag) as DJ.
      destruct (itemOf (pc (thr s j))) as [p|] eqn:IO.
      - rewrite (IT p eq_refl) in X. destruct X as [[X|X] _]; [congruence|discriminate].
      - destruct X as (X & Y & _). apply orb_prop in X. destruct X as [X|X].
        + rewrite (DJ X) in Y. destruct Y; congruence.
        + destruct (pc (thr s j)) eqn:PJ; try discriminate X. apply (sc_oom HS (t_exc _ _ _ (HT j J) PJ) K). }
    repeat split.
    + intros a b x A B N S X Y. destruct (Nat.eq_dec a i) as [->|Na]; [apply (NC b x); auto|apply (NC a x); auto].
    + intros a x A S X. destruct (Nat.eq_dec a i) as [->|Na]; [|destruct (NC a x); auto]. rewrite upd_same in X. unfold PsSem.clm, commitT in X. rewrite BN, R0 in X. cbn in X.
      intros [Y|[]]. destruct X as (_ & _ & _ & X). congruence.
    + intros a x p A S X [].
    + intros x p S [].
    + constructor.
Qed.
(** ** Reported models are different *)
Definition D (g : glob) (a b : sol) : Prop := if optimize C g then (cost a <= cost b)%Z else match c_kind C with Bt => a = b | _ => same a b end.
Definition ND (g : glob) : Prop := ForallOrdPairs (fun a b => ~ D g a b) (rep g).
Lemma ND_step s i g' t' : Inv s -> (forall j, j < c_n C -> TB (gl s) j (thr s j)) -> VI s -> i < c_n C -> tstep i (gl s) (thr s i) g' t' -> UI s -> ND (gl s) -> ND g'.
Proof.
  intros IN HB V I H U N. destruct IN as (HG & HT & HX).
  assert (forall h : glob, tent h = tent (gl s) -> rep h = rep (gl s) -> ND h) as SAME.
  { intros h E1 E2. unfold ND, D, optimize in *. rewrite E1, E2. exact N. }
  destruct H; try (apply SAME; reflexivity).
  - destruct (t_rst _ _ _ (HT i I)). assumption.
  - destruct (commit_fields _ tv G cost same C (gl s) m) as (E1 & E2 & E3 & E4 & E5 & E6 & E7 & E8 & E9).
    unfold ND, D, optimize in *. rewrite E7, E3. apply fop_app; [exact N|]. intros a A DD. fold (optimize C (gl s)) in DD.
    destruct (btNow C (gl s)) eqn:BN.
    + destruct (optimize_bt C (gl s) BN) as (TF & K & O). rewrite O, K in DD. subst a.
      assert (rep (gl s) <> []) as NE by (intros X; rewrite X in A; destruct A).
      pose proof (g_bt _ HG BN NE) as Al. destruct (U K Al ltac:(assumption)) as (_ & U2 & _).
      pose proof (b_cm _ _ _ (HB i I)) as CM. match goal with P : pc _ = CM1 m |- _ => rewrite P in CM end. destruct CM as [Sm Rm].
      apply (U2 i m I Sm); [|exact A]. unfold PsSem.clm. match goal with P : pc _ = CM1 m |- _ => rewrite P end. cbn. split; [reflexivity|]. split; [|exact Rm].
      right. match goal with X : _ \/ disj _ = true |- _ => destruct X; [contradiction|assumption] end.
    + match goal with X : ~ _ |- _ => apply X end. unfold PsModel.excl. unfold btNow in BN. destruct (optimize C (gl s)) eqn:O.
      * exists a. auto.
      * right. exists a. split; [exact A|]. exact DD.
  - destruct (la_fields _ C (gl s) HG) as (E1 & E2 & E3 & E4 & E5 & _). apply SAME; auto.
  - unfold syncComplete. destruct (tn && compl (gl s)); [|exact N]. destruct (tent (gl s) && _); [|apply SAME; reflexivity]. constructor.
Qed.
Lemma once_reach s : reach s -> UI s /\ ND (gl s).
Proof.
  induction 1 as [|s s' R IH H].
  - split; [|constructor]. intros K Ag Tg. assert (forall i x, ~ clm (gl (init C)) (thr (init C) i) x) as NC by (intros i x X; apply clm_busy in X; discriminate X).
    split; [intros i j m _ _ _ _ X; destruct (NC i m X)|]. split; [intros i m _ _ X; destruct (NC i m X)|]. split; [intros i m p _ _ X; destruct (NC i m X)|].
    split; [intros m p _ []|constructor].
  - destruct (Full_reach _ _ _ _ _ _ HS DEC _ R) as (IN & HB & TH & V & HC). destruct IH as [U N]. destruct H as [i g' t' I H|].
    + split; [now apply UI_step|]. cbn. now apply (ND_step s i g' t').
    + split; [intros K A X; discriminate X|]. exact N.
Qed.
End P.
