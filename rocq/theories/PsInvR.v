(** Parallel solving: invariants that do not depend on solutions, all threads (C50). *)
From Coq Require Import List Bool Arith ZArith Lia.
Import ListNotations.
From Verif Require Import Base PsSpec PsModel PsProofs PsInv PsInvS.

Section P.
Variables (sol : Type) (tv : sol -> lit -> bool) (G : sol -> Prop) (cost : sol -> Z) (same : sol -> sol -> Prop) (C : cfg).
Notation thread := (thread sol).
Notation glob := (glob sol).
Notation pcT := (pcT sol).
Notation st := (st sol).
Notation tstep := (tstep tv G cost same C).
Notation step := (step tv G cost same C).
Notation reach := (reach tv G cost same C).
Notation waits := (waits sol).
Notation lives := (lives sol).

Notation scope := (scope C).
Notation GI := (GI sol C).
Notation TI := (TI sol C).
Notation eff := (eff sol cost same C).
Notation lm := (lm sol).
Notation parked := (parked sol).
Notation preP := (preP sol).
Notation runP := (runP sol).
Notation itemOf := (itemOf sol).
Notation retOf := (retOf sol).
Hypothesis HS : scope.

Definition Inv (s : st) : Prop :=
  GI (gl s) /\ (forall i, i < c_n C -> TI (gl s) i (thr s i)) /\
  (forall i j, i < c_n C -> j < c_n C -> i <> j -> lm (pc (thr s i)) = true -> parked (pc (thr s j)) = true).
Lemma Inv_init : Inv (init C).
Proof.
  pose proof (sc_split HS) as SS. split; [|split].
  - constructor; cbn; auto.
    + intros R. destruct (c_split C) eqn:E; [destruct (SS eq_refl); congruence|reflexivity].
    + intros E. apply SS, E.
    + intros. congruence.
    + intros _ p [].
  - intros i I. constructor; cbn; auto; try discriminate; try (intros; discriminate).
    all: intros [X|X]; discriminate.
  - intros i j I J N X. discriminate X.
Qed.
Lemma tstep_lm i g t g' t' : tstep i g t g' t' -> lm (pc t') = true -> lm (pc t) = true \/ (sync g = true /\ waits t = false /\ threads g <= S (waiting g)).
Proof.
  intros H. unfold PsProofs.waits. destruct H; match goal with E : pc _ = _ |- _ => rewrite E end; cbn; auto; try discriminate;
    unfold commitT, back; repeat match goal with |- context [if ?x then _ else _] => destruct x | |- context [match ?x with _ => _ end] => is_var x; destruct x end; cbn; try discriminate; auto.
Qed.
Lemma tstep_parked i g t g' t' : tstep i g t g' t' -> parked (pc t) = true -> sync g = true -> (waits t = true \/ S (waiting g) < threads g) -> parked (pc t') = true.
Proof.
  intros H. unfold PsProofs.waits. destruct H; match goal with E : pc _ = _ |- _ => rewrite E end; cbn; auto; try discriminate; try congruence.
  intros _ _ [X|X]; [discriminate|lia].
Qed.
Lemma Inv_reach s : reach s -> Inv s.
Proof.
  induction 1 as [|s s' R IH H]; [apply Inv_init|]. pose proof (counts_reach _ _ _ _ _ _ _ R) as CN.
  destruct IH as (HG & HT & HX). destruct H as [i g' t' I H|].
  - pose proof (HT i I) as HI. destruct (tstep_eff _ _ _ _ _ _ _ _ _ _ _ H (t_rst _ _ _ HI)) as (h & E & Nh).
    split; [|split]; cbn.
    + apply (GI_neut _ _ _ _ Nh). apply (GI_eff _ _ _ _ HS _ _ _ _ E HG HI).
    + intros j J. destruct (Nat.eq_dec j i) as [->|N].
      * rewrite upd_same. now apply (TI_self _ _ _ _ _ _ HS _ _ _ _ _ H).
      * rewrite upd_other by exact N. apply (TI_neut _ _ _ _ _ _ Nh). apply (TI_other _ _ _ _ HS _ _ _ _ _ _ E HG HI); auto; intros L; [apply (HX i j)|apply (HX j i)]; auto.
    + intros a b A B N L. destruct (Nat.eq_dec a i) as [->|Na].
      * rewrite upd_same in L. rewrite upd_other by auto. destruct (tstep_lm _ _ _ _ _ H L) as [L0|(S0 & W0 & L0)]; [now apply (HX i)|].
        destruct (last_others _ _ s i b CN I B N L0 W0 (proj1 (tstep_counts _ _ _ _ _ _ _ _ _ _ _ H))) as [W|W].
        -- pose proof (t_wait _ _ _ (HT b B)) as TW. pose proof (nonpre_sync C (gl s) b (thr s b) HG (HT b B)) as NP.
           unfold PsProofs.waits in W. destruct (pc (thr s b)); try discriminate W; [|reflexivity].
           rewrite (NP (g_allow _ HG TW) eq_refl) in S0. discriminate.
        -- unfold PsProofs.lives in W. destruct (pc (thr s b)); try discriminate W. reflexivity.
      * rewrite upd_other in L by exact Na. destruct (Nat.eq_dec b i) as [->|Nb]; [|rewrite upd_other by exact Nb; now apply (HX a)].
        rewrite upd_same. pose proof (HX a i A I N L) as PK. apply (tstep_parked _ _ _ _ _ H PK (t_lm _ _ _ (HT a A) L)).
        destruct (waits (thr s i)) eqn:W; [auto|right]. apply (not_last _ _ s i a CN I A (not_eq_sym N) W (proj1 (tstep_counts _ _ _ _ _ _ _ _ _ _ _ H))).
        -- unfold PsProofs.waits. destruct (pc (thr s a)); try discriminate L; reflexivity.
        -- unfold PsProofs.lives. destruct (pc (thr s a)); try discriminate L; reflexivity.
  - split; [|split]; cbn; auto.
    + destruct HG; constructor; assumption.
    + intros i I. destruct (HT i I). constructor; try assumption; cbn; auto; destruct (pc (thr s i)); auto.
Qed.
End P.
