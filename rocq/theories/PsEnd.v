(** Parallel solving: how the search ends if nothing stops it (C50). *)
From Coq Require Import List Bool Arith ZArith Lia.
Import ListNotations.
From Verif Require Import Base PsSpec PsModel PsProofs PsInv.

Section P.
Variables (sol : Type) (tv : sol -> lit -> bool) (G : sol -> Prop) (cost : sol -> Z) (same : sol -> sol -> Prop) (C : cfg).
Notation thread := (thread sol).
Notation glob := (glob sol).
Notation pcT := (pcT sol).
Notation st := (st sol).
Notation tstep := (tstep tv G cost same C).
Notation step := (step tv G cost same C).

(** A thread is about to end the search before it is complete *)
Definition givesUp (p : pcT) : bool := match p with Term false _ => true | _ => false end.
(** Runs in which nobody stops the search: no interrupt, no error, no limit, no stop by the user after a model *)
Inductive quiet : st -> Prop :=
| Q0 : quiet (init C)
| QS s s' : quiet s -> step s s' -> intr (gl s') = false -> (forall i, i < c_n C -> givesUp (pc (thr s' i)) = false) -> quiet s'.

Definition saysC (p : pcT) : bool := match p with TermC true _ => true | _ => false end.
Definition stops (p : pcT) : bool := match p with Term false _ | TermA false _ | TermC false _ => true | _ => false end.
Definition gone (p : pcT) : bool := match p with Leave | Left => true | _ => false end.
Record EI (s : st) : Prop := {
  e_pc : forall i, i < c_n C -> stops (pc (thr s i)) = false;
  e_term : term (gl s) = true -> (compl (gl s) = true \/ exists i, i < c_n C /\ saysC (pc (thr s i)) = true) /\ (tent (gl s) = true -> rep (gl s) = []);
  e_leave : 0 < c_n C -> gone (pc (thr s 0)) = true -> term (gl s) = true;
  e_cnt : forall i, i < c_n C -> match pc (thr s i) with TermC _ _ => term (gl s) = true | _ => True end }.

Lemma tstep_end i g t g' t' : tstep i g t g' t' -> intr g' = false -> givesUp (pc t') = false -> stops (pc t) = false ->
  (term g = true -> tent g = true -> rep g = []) -> match pc t with TermC _ _ => term g = true | _ => True end ->
  stops (pc t') = false /\
  (term g = true -> term g' = true /\ (compl g = true -> compl g' = true) /\ (saysC (pc t) = true -> saysC (pc t') = true \/ compl g' = true) /\ (tent g' = true -> rep g' = [])) /\
  (term g = false -> term g' = true -> (compl g' = true \/ saysC (pc t') = true) /\ (tent g' = true -> rep g' = [])) /\
  (gone (pc t') = true -> gone (pc t) = true \/ term g' = true \/ i <> 0) /\
  match pc t' with TermC _ _ => term g' = true | _ => True end.
Proof.
  intros H I0 GU ST TR TC. destruct H; match goal with E : pc _ = _ |- _ => rename E into P end; rewrite P in *.
  all: try (destruct b); try (destruct k as [[]| |]); try (destruct k); try (destruct r as [[]| |]); try (destruct c).
  all: cbn in *; try discriminate; try solve [repeat split; auto; try congruence; try discriminate].
  all: try solve [unfold syncInit, initQ; cbn; destruct (_ || _); cbn; [destruct (_ && negb (c_can C))|]; cbn; repeat split; auto; try congruence; discriminate].
  all: try solve [unfold syncComplete; destruct (tn && compl g) eqn:D1; [destruct (tent g && _) eqn:D2|]; cbn; apply andb_prop in D1 || idtac; try (apply andb_prop in D2; destruct D2); repeat split; auto; try congruence; try discriminate;
    intros; try (rewrite TR in *; auto; discriminate); destruct (tent g), (rep g); cbn in *; try congruence; tauto].
  all: try solve [rewrite ?orb_true_r in *; rewrite ?andb_true_r in *; repeat split; auto; congruence].
  - destruct (match threads g with O => _ | _ => _ end); cbn; repeat split; auto; congruence.
  - unfold commitG, commitT. destruct (btNow C g && isNil (rep g)); cbn; repeat split; auto; congruence.
Qed.
Lemma EI_quiet s : quiet s -> EI s.
Proof.
  induction 1 as [|s s' Q IH H N0 GU].
  - constructor; cbn; auto; discriminate.
  - destruct H as [i g' t' I H|]; [|discriminate N0]. cbn [gl thr] in *. destruct IH as [E1 E2 E3 E4].
    assert (givesUp (pc t') = false) as GU' by (specialize (GU i I); now rewrite upd_same in GU).
    destruct (tstep_end _ _ _ _ _ H N0 GU' (E1 i I) (fun T => proj2 (E2 T)) (E4 i I)) as (F1 & F2 & F3 & F4 & F5).
    constructor; cbn [gl thr].
    + intros j J. destruct (Nat.eq_dec j i) as [->|N]; [now rewrite upd_same|rewrite upd_other by exact N; auto].
    + intros T'. destruct (term (gl s)) eqn:T.
      * destruct (F2 eq_refl) as (_ & G2 & G3 & G4). split; [|exact G4]. destruct (E2 eq_refl) as [[X|(j & J & X)] _]; [auto|].
        destruct (Nat.eq_dec j i) as [->|N].
        -- destruct (G3 X) as [Y|Y]; [right; exists i; rewrite upd_same|]; auto.
        -- right. exists j. rewrite upd_other by exact N. auto.
      * destruct (F3 eq_refl T') as [[X|X] Y]; split; auto. right. exists i. rewrite upd_same. auto.
    + intros Pn X. destruct (Nat.eq_dec 0 i) as [<-|N].
      * rewrite upd_same in X. destruct (F4 X) as [Y|[Y|Y]]; [|exact Y|now destruct Y]. now apply F2, E3.
      * rewrite upd_other in X by exact N. now apply F2, E3.
    + intros j J. destruct (Nat.eq_dec j i) as [->|N]; [now rewrite upd_same|rewrite upd_other by exact N]. specialize (E4 j J). destruct (pc (thr s j)); auto. now apply F2.
Qed.
Lemma quiet_reach s : quiet s -> reach tv G cost same C s.
Proof. induction 1 as [|s s' Q IH H _ _]; [apply R0|now apply RS with s]. Qed.
Lemma quiet_end s : quiet s -> 0 < c_n C -> (forall i, i < c_n C -> pc (thr s i) = Left) -> compl (gl s) = true /\ (tent (gl s) = true -> rep (gl s) = []).
Proof.
  intros Q N L. destruct (EI_quiet s Q) as [_ E2 E3 _]. assert (term (gl s) = true) as T by (apply E3; [exact N|now rewrite L]).
  destruct (E2 T) as [[X|(i & I & X)] Y]; [auto|]. rewrite L in X by exact I. discriminate.
Qed.
End P.
Arguments quiet {sol}. Arguments givesUp {sol}.
