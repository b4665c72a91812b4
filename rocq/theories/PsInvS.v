(** Parallel solving: invariants that do not depend on solutions, the thread itself (C50). *)
From Coq Require Import List Bool Arith ZArith Lia.
Import ListNotations.
From Verif Require Import Base PsSpec PsModel PsProofs PsInv.

Section P.
Variables (sol : Type) (tv : sol -> lit -> bool) (G : sol -> Prop) (cost : sol -> Z) (same : sol -> sol -> Prop) (C : cfg).
Notation thread := (thread sol).
Notation glob := (glob sol).
Notation pcT := (pcT sol).
Notation st := (st sol).
Notation tstep := (tstep tv G cost same C).
Notation step := (step tv G cost same C).
Notation reach := (reach tv G cost same C).
Notation waits := (waits sol).
Notation lives := (lives sol).

Notation scope := (scope C).
Notation GI := (GI sol C).
Notation TI := (TI sol C).
Notation eff := (eff sol cost same C).
Notation lm := (lm sol).
Notation parked := (parked sol).
Notation preP := (preP sol).
Notation runP := (runP sol).
Notation itemOf := (itemOf sol).
Notation retOf := (retOf sol).
Hypothesis HS : scope.

(** ** The thread itself *)
Ltac fin := constructor; cbn; auto; try congruence; try (intros; discriminate); try (intros [X|X]; discriminate); try tauto;
  try (let E := fresh in intros ? ? E; injection E as <-; now auto); try (let E := fresh in intros ? ? ? E; injection E as <-; cbn; now (auto || intros; discriminate)).
Lemma TI_self i g t g' t' : tstep i g t g' t' -> i < c_n C -> GI g -> TI g i t -> TI g' i t'.
Proof.
  intros H I HG HT. pose proof (sc_n HS) as N64.
  assert (msplit g = true -> tent g = false) as MT by (intros M; apply (g_allow _ HG), (g_split _ HG), M).
  assert (tent g = true -> allow g = false) as TA by (intros M; destruct (allow g) eqn:A; [apply (g_allow _ HG) in A; congruence|reflexivity]).
  assert (sync g = true -> msplit g = false -> allow g = false) as AS by (intros S M; destruct (allow g) eqn:A; [destruct (g_port _ HG A M); congruence|reflexivity]).
  assert (allow g = false -> msplit g = false) as AM by (intros A; destruct (msplit g) eqn:M; [destruct (g_split _ HG M); congruence|reflexivity]).
  pose proof (nonpre_sync C g i t HG HT) as NP.
  destruct H; match goal with E : pc _ = _ |- _ => rename E into P end; rewrite P in NP.
  all: try match goal with P : pc _ = Req ?k |- _ => is_var k; destruct k end; try match goal with P : pc _ = Req2 ?k |- _ => is_var k; destruct k end.
  all: try (destruct b); try (destruct k as [[]| |]); try (destruct k); try (destruct r as [[]| |]); try (destruct c).
  all: destruct HT as [h_rst h_pre h_lm h_initv h_wait h_zero h_bit h_tn h_lc h_us h_hp h_path h_uo h_gp1 h_gp0 h_gpn h_ws1 h_ws0 h_it h_exc h_tc h_cm3]; rewrite P in *; cbn in *; try solve [fin].
  (* S_sync *)
  - fin; try (intros M; rewrite (NP (MT M) eq_refl) in *; discriminate); intros M r p [= <-] [= <-]; now apply h_it; auto.
  (* S_bit *)
  - fin. intros M. destruct (g_init _ HG M) as [Z|Z]; [exact Z|]. unfold bit in *. rewrite Z, maxV_bit in * by lia. discriminate.
  (* S_port *)
  - fin. intros M. destruct (g_split _ HG M). congruence.
  (* S_gotSync *)
  - fin; try (intros M; rewrite (NP (MT M) eq_refl) in *; discriminate); intros M r p0 [= <-] [= <-]; now apply h_it; auto.
  (* S_start *)
  - fin; unfold hasPath, isSplit, start, gpOf; cbn.
    + intros _. destruct (snd p), (msplit g); reflexivity.
    + intros M _. rewrite M. now destruct (snd p).
    + intros M. rewrite M. destruct (snd p) eqn:Sp; [discriminate|]. intros _. split; [|reflexivity].
      destruct (allow g) eqn:A; [reflexivity|]. rewrite (h_it eq_refl p eq_refl) in Sp. discriminate.
    + intros M S. rewrite (NP (MT M) eq_refl) in *. discriminate.
  - fin; unfold hasPath, isSplit, start, gpOf; cbn.
    + intros M. rewrite M. destruct (snd p) eqn:Sp; [discriminate|]. intros _. split; [|reflexivity].
      destruct (allow g) eqn:A; [reflexivity|]. rewrite (h_it eq_refl p eq_refl) in Sp. discriminate.
    + intros M S. rewrite (NP (MT M) eq_refl) in *. discriminate.
  (* S_runSync *)
  - assert (tent g = true /\ compl g = true) as [Tt Tc].
    { destruct (tent g) eqn:Tt; [|rewrite (NP eq_refl eq_refl) in *; discriminate]. destruct (compl g) eqn:Tc; [auto|]. rewrite h_pre in *; auto. }
    pose proof (g_tent _ HG Tt). fin.
    intros M. specialize (MT M). congruence.
  (* S_btStop *)
  - destruct (optimize_bt C g) as (_ & _ & O); [assumption|]. fin.
  (* S_rst1 *)
  - rewrite (g_forbid _ HG) in *; congruence.
  (* S_minvB *)
  - destruct (optimize_bt C g) as (_ & _ & O); [assumption|]. fin. 
  (* S_commit *)
  - unfold commitG, commitT. destruct (btNow C g && isNil (rep g)) eqn:BN.
    + apply andb_prop in BN. destruct BN as [BN NL]. fin.
      * intros M S. destruct (optimize_bt C g BN) as (TT & _). rewrite (NP TT eq_refl) in S. discriminate.
      * intros _. repeat split; auto. destruct (rep g); discriminate.
    + fin.
  (* S_la *)
  - rewrite (la_syncInit C g HG); unfold initQ; cbn; destruct (allow g && msplit g && negb (c_can C)) eqn:D;
    [apply andb_prop in D; destruct D as [D _]; apply andb_prop in D; destruct D as [_ D]; specialize (h_lm eq_refl); specialize (h_gpn D h_lm); specialize (h_ws1 D _ eq_refl); try discriminate h_ws1|]; fin; intros _ X; change (isSplit t = true) in X; congruence.
  - rewrite (la_syncInit C g HG); unfold initQ; cbn; destruct (allow g && msplit g && negb (c_can C)) eqn:D;
    [apply andb_prop in D; destruct D as [D _]; apply andb_prop in D; destruct D as [_ D]; specialize (h_lm eq_refl); specialize (h_gpn D h_lm); specialize (h_ws1 D _ eq_refl); try discriminate h_ws1|]; fin; intros _ X; change (isSplit t = true) in X; congruence.
  - rewrite (la_syncInit C g HG); unfold initQ; cbn; destruct (allow g && msplit g && negb (c_can C)) eqn:D;
    [apply andb_prop in D; destruct D as [D _]; apply andb_prop in D; destruct D as [_ D]; specialize (h_lm eq_refl); specialize (h_gpn D h_lm); specialize (h_ws1 D _ eq_refl); try discriminate h_ws1|]; fin; intros _ X; change (isSplit t = true) in X; congruence.
  - rewrite (la_syncInit C g HG); unfold initQ; cbn; destruct (allow g && msplit g && negb (c_can C)) eqn:D;
    [apply andb_prop in D; destruct D as [D _]; apply andb_prop in D; destruct D as [_ D]; specialize (h_lm eq_refl); specialize (h_gpn D h_lm); specialize (h_ws1 D _ eq_refl); try discriminate h_ws1|]; fin; intros _ X; change (isSplit t = true) in X; congruence.
  (* S_lb *)
  - unfold syncComplete; destruct (tn && compl g) eqn:B; [destruct (tent g && match rep g with [] => false | _ => true end) eqn:D|].
    + apply andb_prop in D. destruct D as [D _]. pose proof (sc_tent HS (g_tent _ HG D)). fin. 
    + fin. 
    + fin. intros X Tt. specialize (h_tn Tt). rewrite h_tn, X in B. discriminate.
  - unfold syncComplete; destruct (tn && compl g) eqn:B; [destruct (tent g && match rep g with [] => false | _ => true end) eqn:D|].
    + apply andb_prop in D. destruct D as [D _]. pose proof (sc_tent HS (g_tent _ HG D)). fin. 
    + fin. 
    + fin. intros X Tt. specialize (h_tn Tt). rewrite h_tn, X in B. discriminate.
  - unfold syncComplete; destruct (tn && compl g) eqn:B; [destruct (tent g && match rep g with [] => false | _ => true end) eqn:D|].
    + apply andb_prop in D. destruct D as [D _]. pose proof (sc_tent HS (g_tent _ HG D)). fin. 
    + fin. 
    + fin. intros X Tt. specialize (h_tn Tt). rewrite h_tn, X in B. discriminate.
  - unfold syncComplete; destruct (tn && compl g) eqn:B; [destruct (tent g && match rep g with [] => false | _ => true end) eqn:D|].
    + apply andb_prop in D. destruct D as [D _]. pose proof (sc_tent HS (g_tent _ HG D)). fin. intros _. right. right. unfold optimize. cbn. destruct (c_kind C); congruence.
    + fin. 
    + fin. intros X Tt. specialize (h_tn Tt). rewrite h_tn, X in B. discriminate.
  (* S_lc *)
  - fin. intros _. destruct h_us as [X|[(X & Y & Z)|X]]; auto. destruct (tent g) eqn:Tt; [left; auto|].
    pose proof (sc_tent HS Z). right. right. unfold optimize. cbn. rewrite Tt. destruct (c_kind C); cbn; congruence.
  - fin; intros A p [= <-]; now apply (h_ws0 (AM A) _ _ eq_refl).
  - fin; intros A p0 [= <-]; now apply (h_ws0 (AM A) _ _ eq_refl).
  - fin; intros A p [= <-]; now apply (h_ws0 (AM A) _ _ eq_refl).
  - fin; intros A p0 [= <-]; now apply (h_ws0 (AM A) _ _ eq_refl).
  - rewrite h_hp, (g_aband _ HG), orb_true_r in *. discriminate.
  - match goal with X : tent g && _ = true |- _ => apply andb_prop in X; destruct X as [X Y]; try discriminate Y; fin; rewrite ?X; try discriminate; intros M; specialize (MT M); congruence end.
  - match goal with X : tent g && _ = true |- _ => apply andb_prop in X; destruct X as [X Y]; try discriminate Y; fin; rewrite ?X; try discriminate; intros M; specialize (MT M); congruence end.
  - match goal with X : tent g && _ = true |- _ => apply andb_prop in X; destruct X as [X Y]; try discriminate Y; fin; rewrite ?X; try discriminate; intros M; specialize (MT M); congruence end.
  - match goal with X : tent g && _ = true |- _ => apply andb_prop in X; destruct X as [X Y]; try discriminate Y; fin; rewrite ?X; try discriminate; intros M; specialize (MT M); congruence end.
  - match goal with X : tent g && _ = true |- _ => apply andb_prop in X; destruct X as [X Y]; try discriminate Y; fin; rewrite ?X; try discriminate; intros M; specialize (MT M); congruence end.
  - match goal with X : tent g && _ = true |- _ => apply andb_prop in X; destruct X as [X Y]; try discriminate Y; fin; rewrite ?X; try discriminate; intros M; specialize (MT M); congruence end.
  - match goal with X : tent g && _ = true |- _ => apply andb_prop in X; destruct X as [X Y]; try discriminate Y; fin; rewrite ?X; try discriminate; intros M; specialize (MT M); congruence end.
  - match goal with X : tent g && _ = true |- _ => apply andb_prop in X; destruct X as [X Y]; try discriminate Y; fin; rewrite ?X; try discriminate; intros M; specialize (MT M); congruence end.
  - fin; intros S X; apply h_pre; auto; destruct (tent g), (compl g); auto.
  - fin; intros S X; apply h_pre; auto; destruct (tent g), (compl g); auto.
  - fin; intros S X; apply h_pre; auto; destruct (tent g), (compl g); auto.
  - fin; intros S X; apply h_pre; auto; destruct (tent g), (compl g); auto.
  - fin; intros S X; apply h_pre; auto; destruct (tent g), (compl g); auto.
  - fin; intros S X; apply h_pre; auto; destruct (tent g), (compl g); auto.
Qed.

End P.
