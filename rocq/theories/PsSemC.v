(** Parallel solving: no solution is lost (C50). *)
From Coq Require Import List Bool Arith ZArith Lia.
Import ListNotations.
From Verif Require Import Base PsSpec PsModel PsProofs PsInv PsInvS PsInvR PsSem PsSemS.

Section P.
Variables (sol : Type) (tv : sol -> lit -> bool) (G : sol -> Prop) (cost : sol -> Z) (same : sol -> sol -> Prop) (C : cfg).
Notation thread := (thread sol).
Notation glob := (glob sol).
Notation pcT := (pcT sol).
Notation st := (st sol).
Notation tstep := (tstep tv G cost same C).
Notation step := (step tv G cost same C).
Notation reach := (reach tv G cost same C).
Notation waits := (waits sol).
Notation lives := (lives sol).

Notation scope := (scope C).
Notation GI := (GI sol C).
Notation TI := (TI sol C).
Notation eff := (eff sol cost same C).
Notation lm := (lm sol).
Notation parked := (parked sol).
Notation preP := (preP sol).
Notation runP := (runP sol).
Notation itemOf := (itemOf sol).
Notation retOf := (retOf sol).
Notation Inv := (Inv sol C).
Notation excl := (excl cost same C).
Notation Sol := (Sol tv G C).
Notation inP := (inP tv).
Notation nothingLeft := (nothingLeft tv G cost same C).
Notation A := (A tv G cost same C).
Notation clm := (clm tv).
Notation inq := (inq tv).
Notation cover := (cover tv G cost same C).
Notation GC := (GC tv G cost same C).
Notation GB := (GB sol tv G cost same C).
Notation TB := (TB sol tv G cost same C).
Hypothesis HS : scope.
Hypothesis DEC : forall a b : sol, a = b \/ a <> b.




(** ** Who has the initial path when the space is split and models are enumerated by backtracking *)
Definition busyP (p : pcT) : bool := match itemOf p with Some _ => true | None => runP p || isExc p end.
Definition holder (t : thread) : bool := match itemOf (pc t) with Some p => snd p | None => runP (pc t) && negb (disj t) end.
Lemma holder_busy t : holder t = true -> busyP (pc t) = true.
Proof. unfold holder, busyP. destruct (itemOf (pc t)); [auto|]. destruct (runP (pc t)); [auto|discriminate]. Qed.
Definition VI (s : st) : Prop := c_kind C = Bt -> msplit (gl s) = true ->
  (forall p, In p (q (gl s)) -> snd p = false) /\
  (sync (gl s) = true \/ initv (gl s) <> 0%Z -> rep (gl s) = [] /\ q (gl s) = [] /\ forall j, j < c_n C -> busyP (pc (thr s j)) = false) /\
  (forall i, i < c_n C -> holder (thr s i) = true ->
     initv (gl s) = 0%Z /\ rep (gl s) = [] /\ q (gl s) = [] /\ forall j, j < c_n C -> j <> i -> busyP (pc (thr s j)) = false).

Ltac fin := repeat split; cbn; auto; try congruence; try tauto.
Lemma VL i g t g' t' : tstep i g t g' t' -> GI g -> TI g i t -> c_kind C = Bt -> msplit g = true -> (forall p, In p (q g) -> snd p = false) ->
  msplit g' = true ->
  (forall p, In p (q g') -> snd p = false) /\
  (rep g' = rep g \/ (busyP (pc t) = true /\ holder t' = false)) /\
  (q g' = q g \/ (busyP (pc t) = true /\ holder t' = false) \/ q g <> [] \/ q g' = []) /\
  (busyP (pc t') = true -> busyP (pc t) = true \/ q g <> [] \/ (initv g <> 0%Z /\ initv g' = 0%Z /\ sync g' = false)) /\
  (holder t' = true -> holder t = true \/ (initv g <> 0%Z /\ initv g' = 0%Z /\ rep g' = rep g /\ q g' = q g)) /\
  (initv g' = initv g \/ initv g' = 0%Z \/ sync g' = true) /\ (sync g' = true -> sync g = true).
Proof.
  intros H HG HT K M QI M'.
  assert (tent g = false) as TF by apply (g_allow _ HG), (g_split _ HG), M. pose proof (nonpre_sync C g i t HG HT TF) as NP.
  pose proof (t_zero _ _ _ HT M) as Z. pose proof (t_ws1 _ _ _ HT M) as WS1. pose proof (t_exc _ _ _ HT) as EX. pose proof (sc_oom HS) as OO. pose proof (t_rst _ _ _ HT) as NR.
  assert (btNow C g = true) as BT by (unfold btNow, optimize; now rewrite TF, K).
  unfold holder, busyP.
  destruct H; match goal with E : pc _ = _ |- _ => rename E into P end; rewrite P in *.
  all: try (match goal with r : ret |- _ => specialize (WS1 _ eq_refl); try discriminate WS1; subst r end).
  all: try match goal with P : pc _ = Req ?k |- _ => is_var k; destruct k end; try match goal with P : pc _ = Req2 ?k |- _ => is_var k; destruct k end.
  all: try (destruct b); try (destruct k as [[]| |]); try (destruct k); try (destruct c).
  all: cbn in *; try solve [fin]; try (rewrite TF in *; discriminate).
  - fin; match goal with Q : q g = _ |- _ => rewrite Q in QI end.
    + intros x X. apply QI. now right.
    + right. right. left. match goal with Q : q g = _ |- _ => rewrite Q end. discriminate.
    + right. left. match goal with Q : q g = _ |- _ => rewrite Q end. discriminate.
    + intros X. rewrite (QI p (or_introl eq_refl)) in X. discriminate.
  - fin. rewrite negb_involutive. auto.
  - fin. intros p X. apply in_app_iff in X. destruct X as [X|[<-|[]]]; auto.
  - destruct (commit_fields _ tv G cost same C g m) as (E1 & E2 & E3 & E4 & E5 & E6 & E7 & E8 & E9). rewrite E5, E6, E7, E2.
    match goal with X : if btNow C g then _ else _ |- _ => rewrite BT in X; rename X into CN end.
    unfold commitT. rewrite BT. cbn [andb]. destruct (rep g) as [|r0 rr]; cbn; fin.
    destruct CN as [CN|CN]; [discriminate|]. right. now rewrite CN.
  - destruct (la_fields _ C g HG) as (E1 & E2 & E3 & E4 & E5 & E6 & E7 & E8 & E9). rewrite E7, E2, E5, E8. pose proof (t_lm _ _ _ HT) as L. rewrite P in L. fin.
  - destruct (lb_same _ g tn) as (E1 & E2 & E3 & E4 & E5). unfold syncComplete. rewrite TF. destruct (tn && compl g); cbn; fin.
Qed.
Lemma VI_step s i g' t' : Inv s -> i < c_n C -> tstep i (gl s) (thr s i) g' t' -> VI s -> VI (St g' (upd (thr s) i t')).
Proof.
  intros (HG & HT & HX) I H V K M'. cbn in M'. cbn [gl thr].
  assert (msplit (gl s) = true) as M.
  { destruct (tstep_eff _ _ _ _ _ _ _ _ _ _ _ H (t_rst _ _ _ (HT i I))) as (h & E & Nh). assert (msplit h = true) as X by (change (msplit (neut sol h) = true); rewrite <- Nh; exact M').
    revert X. revert HG. generalize (gl s) (thr s i) E. clear - tv G. intros g t E HG X. destruct E; auto.
    - destruct (commit_fields _ tv G cost same C g m) as (_ & _ & _ & Y & _). congruence.
    - destruct (la_fields _ C g HG) as (_ & _ & _ & _ & _ & _ & _ & _ & [(_ & Y)|(_ & Y & _)]); congruence.
    - destruct (lb_same _ g tn) as (_ & _ & Y & _). congruence. }
  destruct (V K M) as (V1 & V2 & V3).
  destruct (VL _ _ _ _ _ H HG (HT i I) K M V1 M') as (L1 & LR & LQ & LB & LH & LI & LS).
  assert (forall (Q0 : q (gl s) = []) (B0 : busyP (pc (thr s i)) = false \/ holder t' = true), q g' = []) as NQ.
  { intros Q0 B0. destruct LQ as [X|[(X & Y)|[X|X]]]; try congruence. destruct B0; congruence. }
  assert (forall (Q0 : rep (gl s) = []) (B0 : busyP (pc (thr s i)) = false \/ holder t' = true), rep g' = []) as NR.
  { intros Q0 B0. destruct LR as [X|(X & Y)]; try congruence. destruct B0; congruence. }
  split; [exact L1|]. split.
  - intros H0. assert (sync (gl s) = true \/ initv (gl s) <> 0%Z) as O by (destruct H0 as [X|X]; [auto|]; destruct LI as [Y|[Y|Y]]; [right; congruence|congruence|left; auto]).
    destruct (V2 O) as (R0 & Q0 & B0). split; [auto|]. split; [auto|].
    intros j J. destruct (Nat.eq_dec j i) as [->|N]; [|rewrite upd_other by exact N; auto]. rewrite upd_same. destruct (busyP (pc t')) eqn:B; [|reflexivity].
    destruct (LB eq_refl) as [X|[X|(X & Y & Z)]]; [rewrite (B0 i I) in X; discriminate|congruence|]. destruct H0; congruence.
  - intros k Kk Hk. assert (forall l, l < c_n C -> busyP (pc (thr s l)) = true -> initv (gl s) = 0%Z -> initv g' = 0%Z) as LZ.
    { intros l Ll B Z0. destruct LI as [Y|[Y|Y]]; [congruence|auto|]. destruct (V2 (or_introl (LS Y))) as (_ & _ & X). rewrite (X l Ll) in B. discriminate. }
    destruct (Nat.eq_dec k i) as [->|N].
    + rewrite upd_same in Hk. destruct (LH Hk) as [X|(X1 & X2 & X3 & X4)].
      * destruct (V3 i I X) as (Z0 & R0 & Q0 & B0). repeat split; auto; [apply (LZ i I); [now apply holder_busy|auto]|].
        intros j J N. rewrite upd_other by exact N. auto.
      * destruct (V2 (or_intror X1)) as (R0 & Q0 & B0). repeat split; auto; try congruence. intros j J N. rewrite upd_other by exact N. auto.
    + rewrite upd_other in Hk by exact N. destruct (V3 k Kk Hk) as (Z0 & R0 & Q0 & B0). pose proof (B0 i I (not_eq_sym N)) as Bi.
      repeat split; auto; [apply (LZ k Kk); [now apply holder_busy|auto]|].
      intros j J Nj. destruct (Nat.eq_dec j i) as [->|Ni]; [|rewrite upd_other by exact Ni; auto]. rewrite upd_same. destruct (busyP (pc t')) eqn:B; [|reflexivity].
      destruct (LB eq_refl) as [X|[X|(X & Y & Z)]]; congruence.
Qed.

(** ** The last thread that finds no work *)
Lemma LAST s i : counts sol C s -> Inv s -> GC s -> i < c_n C -> pc (thr s i) = ReqW -> term (gl s) || sync (gl s) = false -> q (gl s) = [] ->
  threads (gl s) <= S (waiting (gl s)) -> A (gl s).
Proof.
  intros CN (HG & HT & _) HC I P TS Q L. pose proof (t_wait _ _ _ (HT i I)) as W. pose proof (t_zero _ _ _ (HT i I)) as Z. rewrite P in W, Z.
  apply orb_false_elim in TS. destruct TS as [T0 S0]. destruct (HC W) as [X|[X|[(X & Y)|X]]]; try congruence; [destruct (Y (Z X))|].
  intros m S _. destruct (X m S) as [E|[(j & J & E)|(p & Ip & _)]]; [exact E| |rewrite Q in Ip; destruct Ip]. exfalso.
  unfold PsSem.clm in E. destruct (Nat.eq_dec j i) as [->|N]; [rewrite P in E; destruct E as [E _]; discriminate E|].
  destruct (last_others _ _ s i j CN I J (not_eq_sym N) L) as [Wj|Wj].
  - unfold PsProofs.waits. now rewrite P.
  - unfold PsProofs.lives. now rewrite P.
  - unfold PsProofs.waits in Wj. destruct (pc (thr s j)); try discriminate Wj; destruct E as [E _]; discriminate E.
  - unfold PsProofs.lives in Wj. destruct (pc (thr s j)); try discriminate Wj; destruct E as [E _]; discriminate E.
Qed.

(** ** Nothing is lost *)
Lemma LCV i g t g' t' : tstep i g t g' t' -> GI g -> TI g i t -> TB g i t -> allow g = true -> allow g' = true -> term g = false -> sync g = false ->
  (c_kind C = Bt -> msplit g = true -> (holder t = true -> rep g = []) /\ (busyP (pc t) = true -> initv g = 0%Z)) ->
  term g' = true \/ (sync g' = false /\ msplit g' = msplit g /\
    forall m, Sol m -> clm g t m \/ inq g m \/ (msplit g = true /\ initv g <> 0%Z /\ initv g' = 0%Z) -> excl g' m \/ clm g' t' m \/ inq g' m).
Proof.
  intros H HG HT TH Ag Ag' T0 S0 VH.
  assert (tent g = false) as TF by apply (g_allow _ HG), Ag.
  pose proof (t_exc _ _ _ HT) as EX. pose proof (t_rst _ _ _ HT) as NR. pose proof (t_ws1 _ _ _ HT) as WS1. 
  unfold PsSem.clm, PsSem.inq, holder, busyP in *. pose proof (t_lm _ _ _ HT) as LM. pose proof (t_zero _ _ _ HT) as TZ.
  pose proof (b_cur _ _ _ TH) as BC. pose proof (t_cm3 _ _ _ HT) as C3. pose proof (g_port _ HG Ag) as GP. pose proof (sc_oom HS) as OO.
  destruct H; match goal with E : pc _ = _ |- _ => rename E into P end; try rewrite P in *.
  all: try match goal with P : pc _ = Req ?k |- _ => is_var k; destruct k end; try match goal with P : pc _ = Req2 ?k |- _ => is_var k; destruct k end.
  all: try (destruct b); try (destruct k as [[]| |]); try (destruct k); try (destruct c).
  all: cbn in *; try congruence; try (left; reflexivity).
  all: right; repeat split; auto.
  all: try solve [intros m' S' [(X & _)|[X|(X1 & X2 & X3)]]; [discriminate X|right; right; exact X|congruence]].
  all: try solve [intros m' S' [X|[X|(X1 & X2 & X3)]]; [right; left; exact X|right; right; exact X|congruence]].
  all: try (rewrite TF in *; discriminate); try (exfalso; specialize (LM eq_refl); congruence).
  all: try (match goal with X : _ || _ = true |- _ => rewrite T0, S0 in X; discriminate X end).
  all: try solve [match goal with X : PsModel.nothingLeft _ _ _ _ _ _ _ |- _ => intros m' S' [X'|[X'|(X1 & X2 & X3)]]; [left; apply X; [exact S'|now apply X']|right; right; exact X'|congruence] end].
  - intros m' S' [(X & _)|[X|(X1 & X2 & X3)]]; [discriminate X|right; right; exact X|]. right. left. split; [auto|]. apply S'.
  - intros m' S' [(X & _)|[(p' & X & Y)|(X1 & X2 & X3)]]; [discriminate X| |congruence]. match goal with Q : q g = _ |- _ => rewrite Q in X end.
    destruct X as [<-|X]; [|right; right; eauto]. right. left. split; [|exact Y]. destruct (msplit g) eqn:M; [auto|right]. apply (g_items _ HG M).
    match goal with Q : q g = _ |- _ => rewrite Q end. now left.
  - intros m' S' [([X|X] & Y)|[X|(X1 & X2 & X3)]]; [right; left; auto| |right; right; exact X|congruence]. right. left. rewrite X. auto.
  - intros m' S' [(X & Y)|[X|(X1 & X2 & X3)]]; [|right; right; exact X|congruence]. right. left. repeat split; auto. destruct (msplit g) eqn:M; auto.
    destruct (GP eq_refl) as (_ & K & _). destruct (OO ltac:(assumption) K).
  - match goal with X : forall m, Sol m -> reg t m -> _ |- _ => rename X into SH end.
    intros m' S' [(_ & X & Y)|[X|(X1 & X2 & X3)]]; [|right; right; exact X|congruence]. destruct (SH m' S' Y); auto.
  - match goal with X : forall m, Sol m -> reg t m -> _ -> _ |- _ => rename X into SH end.
    intros m' S' [(_ & X & Y)|[(p' & X & Y)|(X1 & X2 & X3)]]; [| |congruence].
    + destruct (tv m' d) eqn:D; [right; left; auto|]. right. right. exists (np, false). split; [apply in_app_iff; right; now left|]. now apply SH.
    + right. right. exists p'. split; [apply in_app_iff; auto|exact Y].
  - destruct (optimize_bt C g ltac:(assumption)) as (_ & K & _). intros m' S' [(_ & X & Y)|[X|(X1 & X2 & X3)]]; [|right; right; exact X|congruence].
    destruct X as [X|X]; [|congruence]. exfalso. destruct (VH K X) as [V _]. match goal with D : disj t = false |- _ => rewrite D in V end. specialize (V eq_refl). contradiction.
  - destruct (optimize_bt C g ltac:(assumption)) as (_ & K & _). intros m' S' [(_ & X & Y)|[X|(X1 & X2 & X3)]]; [|right; right; exact X|congruence].
    destruct X as [X|X]; [|congruence]. exfalso. destruct (VH K X) as [V _]. match goal with D : disj t = false |- _ => rewrite D in V end. specialize (V eq_refl). contradiction.
  - destruct (commit_fields _ tv G cost same C g m) as (E1 & E2 & E3 & E4 & E5 & E6 & E7 & E8 & E9). congruence.
  - destruct (commit_fields _ tv G cost same C g m) as (E1 & E2 & E3 & E4 & E5 & E6 & E7 & E8 & E9). congruence.
  - destruct (commit_fields _ tv G cost same C g m) as (E1 & E2 & E3 & E4 & E5 & E6 & E7 & E8 & E9). rewrite E4, E5, E6.
    intros m' S' [(_ & X & Y)|[Z|(X1 & X2 & X3)]]; [|right; right; exact Z|congruence].
    destruct (btNow C g) eqn:BN.
    + destruct (optimize_bt C g BN) as (_ & K & O). destruct (DEC m m') as [<-|N].
      * left. unfold PsModel.excl. unfold optimize in *. rewrite E3, O, K, E7. right. exists m. split; [apply in_app_iff; right; now left|reflexivity].
      * right. left. unfold commitT. rewrite BN. destruct (isNil (rep g)); cbn; repeat split; auto.
    + right. left. unfold commitT. rewrite BN. cbn. repeat split; auto.
  - intros m' S' [X|[X|(X1 & X2 & X3)]]; [right; left; exact X|right; right; exact X|]. destruct (C3 eq_refl) as (B & _). destruct (optimize_bt C g B) as (_ & K & _).
    destruct (VH K X1) as [_ V]. destruct (X2 (V eq_refl)).
  - match goal with X : _ -> PsModel.nothingLeft _ _ _ _ _ _ _ |- _ => rename X into NL end.
    intros m' S' [X'|[X'|(X1 & X2 & X3)]]; [left; now apply NL|right; right; exact X'|congruence].
  - match goal with X : cur t = Some p |- _ => rename X into CU end. destruct (BC eq_refl) as (p1 & CU1 & L1).
    intros m' S' [(_ & X & Y)|[(p' & X & Y)|(X1 & X2 & X3)]]; [| |congruence]; right; right.
    + exists p. split; [apply in_app_iff; right; now left|]. assert (p = p1) as -> by congruence. auto.
    + exists p'. split; [apply in_app_iff; auto|exact Y].
  - destruct (BC eq_refl) as (p1 & CU1 & L1). match goal with X : _ \/ cur t = None |- _ => destruct X; congruence end.
Qed.
Lemma GC_step s i g' t' : Inv s -> (forall j, j < c_n C -> TB (gl s) j (thr s j)) -> VI s -> i < c_n C -> tstep i (gl s) (thr s i) g' t' -> GC s -> GC (St g' (upd (thr s) i t')).
Proof.
  intros (HG & HT & HX) HB V I H GH Ag'. cbn [gl thr] in *.
  destruct (tstep_eff _ _ _ _ _ _ _ _ _ _ _ H (t_rst _ _ _ (HT i I))) as (h & E & Nh).
  assert (forall m, excl h m -> excl g' m) as XN.
  { intros m X. change (excl (neut sol g') m). rewrite Nh. exact X. }
  destruct (allow (gl s)) eqn:Ag.
  - specialize (GH Ag). destruct (term (gl s)) eqn:T0.
    { left. change (term (neut sol g') = true). rewrite Nh. change (term h = true). destruct E; auto.
      - destruct (commit_fields _ tv G cost same C (gl s) m) as (Y & _). congruence.
      - destruct (la_fields _ C (gl s) HG) as (Y & _). congruence.
      - destruct (lb_fields _ (gl s) tn) as [Y|Y]; congruence. }
    destruct (sync (gl s)) eqn:S0.
    { assert (msplit (gl s) = true) as M.
      { destruct (msplit (gl s)) eqn:M; [reflexivity|]. destruct (g_port _ HG Ag M) as [X _]. congruence. }
      assert (sync h = true \/ (msplit h = true /\ initv h <> 0%Z)) as X.
      { destruct E; auto.
        - destruct (commit_fields _ tv G cost same C (gl s) m) as (_ & Y & _). left. congruence.
        - destruct (la_fields _ C (gl s) HG) as (_ & Y & _). left. congruence.
        - destruct (lb_same _ (gl s) tn) as (Y & _). left. congruence.
        - right. pose proof (t_initv _ _ _ (HT i I)) as Z. match goal with P : pc _ = _ |- _ => rewrite P in Z end. cbn. rewrite Z. split; [exact M|apply maxV_nz]. }
      right. change (sync (neut sol g') = true \/ (msplit (neut sol g') = true /\ initv (neut sol g') <> 0%Z) \/ cover g' (upd (thr s) i t')). rewrite Nh. cbn. tauto. }
    assert (c_kind C = Bt -> msplit (gl s) = true -> (holder (thr s i) = true -> rep (gl s) = []) /\ (busyP (pc (thr s i)) = true -> initv (gl s) = 0%Z)) as VH.
    { intros K M. destruct (V K M) as (_ & V2 & V3). split; [intros X; apply (V3 i I X)|]. intros X. destruct (Z.eq_dec (initv (gl s)) 0) as [Z|Z]; [exact Z|].
      destruct (V2 (or_intror Z)) as (_ & _ & Y). rewrite (Y i I) in X. discriminate. }
    destruct (LCV _ _ _ _ _ H HG (HT i I) (HB i I) Ag Ag' T0 S0 VH) as [X|(S1 & M1 & L)]; [auto|]. right. right.
    assert ((forall m, Sol m -> excl g' m \/ clm g' t' m \/ inq g' m) -> cover g' (upd (thr s) i t')) as CV.
    { intros X m Sm. destruct (X m Sm) as [Y|[Y|Y]]; auto. right. left. exists i. rewrite upd_same. auto. }
    destruct GH as [X|[X|[(M & Z)|X]]]; try discriminate.
    + destruct (Z.eq_dec (initv g') 0) as [Z'|Z']; [right|left; split; congruence]. apply CV. intros m Sm. apply L; auto.
    + right. intros m Sm. destruct (X m Sm) as [Y|[(j & J & Y)|Y]].
      * left. apply XN. destruct (excl_eff _ _ _ _ _ _ _ _ E) as [W|W]; [|auto]. destruct W as (_ & W & _). rewrite (g_allow _ HG Ag) in W. discriminate.
      * destruct (Nat.eq_dec j i) as [->|N].
        -- destruct (L m Sm (or_introl Y)) as [Z|[Z|Z]]; auto. right. left. exists i. rewrite upd_same. auto.
        -- right. left. exists j. split; [exact J|]. rewrite upd_other by exact N. unfold PsSem.clm in *. now rewrite M1.
      * destruct (L m Sm (or_intror (or_introl Y))) as [Z|[Z|Z]]; auto. right. left. exists i. rewrite upd_same. auto.
  - (* the first model of an enumeration by backtracking *)
    assert (exists m, pc (thr s i) = CM1 m /\ btNow C (gl s) = true /\ rep (gl s) = [] /\ g' = commitG C (gl s) m /\ t' = commitT C (gl s) (thr s i) m) as (m & P & BN & R0 & -> & ->).
    { clear GH V. destruct H; cbn in Ag'; try congruence.
      - destruct (t_rst _ _ _ (HT i I)). assumption.
      - destruct (commit_fields _ tv G cost same C (gl s) m) as (_ & _ & _ & _ & _ & _ & _ & _ & [X|(_ & X & Y)]); [congruence|]. eauto 8.
      - destruct (la_fields _ C (gl s) HG) as (_ & _ & _ & _ & _ & _ & _ & _ & [(X & _)|(X & _)]); congruence.
      - destruct (lb_same _ (gl s) tn) as (_ & X & _). congruence. }
    right. right. right. intros m' Sm. destruct (optimize_bt C (gl s) BN) as (TF & K & O).
    pose proof (b_run _ _ _ (HB i I) Ag) as BR. rewrite P in BR. destruct (BR eq_refl m' Sm) as [X|X].
    + left. apply (excl_mono _ _ _ _ (gl s)); auto; unfold commitG; rewrite BN, R0; cbn; auto.
    + destruct (DEC m m') as [<-|N].
      * left. unfold PsModel.excl, optimize. unfold commitG. rewrite BN, R0. cbn. unfold optimize in O. rewrite O, K. right. exists m. split; [now left|reflexivity].
      * right. left. exists i. split; [exact I|]. rewrite upd_same. unfold PsSem.clm, commitT. rewrite BN, R0. cbn. auto.
Qed.

(** ** All invariants *)
Definition Full (s : st) : Prop := Inv s /\ GB (gl s) /\ (forall j, j < c_n C -> TB (gl s) j (thr s j)) /\ VI s /\ GC s.
Lemma Full_reach s : reach s -> Full s.
Proof.
  induction 1 as [|s s' R IH H].
  - split; [apply Inv_init; exact HS|]. split; [|split; [|split]].
    + constructor; cbn; auto; try discriminate; intros r [].
    + intros j J. constructor; cbn; auto; try (intros; discriminate).
    + intros K M. cbn. repeat split; auto; try discriminate. intros p [].
    + intros Al. cbn. auto.
  - pose proof (Inv_reach _ _ _ _ _ _ HS _ (RS _ _ _ _ _ _ _ _ R H)) as IN'. destruct IH as (IN & HB & TH & V & HC). pose proof (counts_reach _ _ _ _ _ _ _ R) as CN.
    pose proof IN as (HG & HT & HX). destruct H as [i g' t' I H|].
    + destruct (tstep_eff _ _ _ _ _ _ _ _ _ _ _ H (t_rst _ _ _ (HT i I))) as (h & E & Nh).
      split; [exact IN'|]. split; [|split; [|split]].
      * apply (GB_neut _ _ _ _ _ _ _ _ Nh). apply (GB_eff _ _ _ _ _ _ _ _ _ _ E HG HB (TH i I)).
      * intros j J. cbn. destruct (Nat.eq_dec j i) as [->|N].
        -- rewrite upd_same. apply (TB_self _ _ _ _ _ _ HS _ _ _ _ _ H I HG (HT i I) HB (TH i I)). intros P T S Q. now apply (LAST s i).
        -- rewrite upd_other by exact N. apply (TB_neut _ _ _ _ _ _ _ _ _ _ Nh). apply (TB_other _ _ _ _ _ _ HS _ _ _ _ _ _ E HG (HT i I) (not_eq_sym N) J); auto. intros L. now apply (HX i j I J (not_eq_sym N)).
      * now apply VI_step.
      * now apply GC_step.
    + split; [exact IN'|]. split; [|split; [|split]].
      * destruct HB; constructor; assumption.
      * intros j J. destruct (TH j J). constructor; try assumption; cbn; auto.
        destruct (pc (thr s j)); auto. destruct c; auto.
      * exact V.
      * intros _. now left.
Qed.
End P.
