(** Parallel solving: counting threads, freedom from deadlock (C50). *)
From Coq Require Import List Bool Arith ZArith Lia.
Import ListNotations.
From Verif Require Import Base PsSpec PsModel.

Section P.
Variables (sol : Type) (tv : sol -> lit -> bool) (G : sol -> Prop) (cost : sol -> Z) (same : sol -> sol -> Prop) (C : cfg).
Notation thread := (thread sol).
Notation st := (st sol).
Notation tstep := (tstep tv G cost same C).
Notation step := (step tv G cost same C).
Notation reach := (reach tv G cost same C).

Lemma upd_same (f : nat -> thread) i t : upd f i t i = t.
Proof. unfold upd. now rewrite Nat.eqb_refl. Qed.
Lemma upd_other (f : nat -> thread) i t j : j <> i -> upd f i t j = f j.
Proof. intros N. unfold upd. apply Nat.eqb_neq in N. now rewrite N. Qed.

(** ** Counting *)
Definition b2n (b : bool) : nat := if b then 1 else 0.
Fixpoint cnt (n : nat) (p : thread -> bool) (f : nat -> thread) : nat := match n with O => O | S n => b2n (p (f n)) + cnt n p f end.
Lemma cnt_ext n p f f' : (forall i, i < n -> p (f i) = p (f' i)) -> cnt n p f = cnt n p f'.
Proof. induction n as [|n IH]; intros H; [reflexivity|]. cbn. rewrite (H n) by lia. rewrite IH; [reflexivity|]. intros i L. apply H. lia. Qed.
Lemma cnt_upd n p f i t : i < n -> cnt n p (upd f i t) + b2n (p (f i)) = cnt n p f + b2n (p t).
Proof.
  induction n as [|n IH]; intros L; [lia|]. cbn. destruct (Nat.eq_dec i n) as [->|N].
  - rewrite upd_same. rewrite (cnt_ext n p (upd f n t) f); [lia|]. intros j J. rewrite upd_other by lia. reflexivity.
  - rewrite upd_other by lia. assert (i < n) as L' by lia. specialize (IH L'). lia.
Qed.
Lemma cnt_le n p r f : (forall i, i < n -> p (f i) = true -> r (f i) = true) -> cnt n p f <= cnt n r f.
Proof.
  induction n as [|n IH]; intros H; [reflexivity|]. cbn. assert (cnt n p f <= cnt n r f) by (apply IH; intros i L; apply H; lia).
  assert (b2n (p (f n)) <= b2n (r (f n))); [|lia]. destruct (p (f n)) eqn:E; cbn; [|lia]. now rewrite (H n) by (auto; lia).
Qed.
Lemma cnt_none n p f : (forall i, i < n -> p (f i) = false) -> cnt n p f = 0.
Proof. induction n as [|n IH]; intros H; [reflexivity|]. cbn. rewrite (H n) by lia. rewrite IH; [reflexivity|]. intros; apply H; lia. Qed.
Lemma cnt_pos n p f : cnt n p f > 0 -> exists i, i < n /\ p (f i) = true.
Proof. induction n as [|n IH]; cbn; intros H; [lia|]. destruct (p (f n)) eqn:E; [exists n; auto|]. destruct IH as (i & L & E'); [cbn in H; lia|]. exists i. auto. Qed.
(** Threads that satisfy [r] but not [p] *)
Lemma cnt_gap n p r f : (forall i, i < n -> p (f i) = true -> r (f i) = true) ->
  cnt n r f = cnt n p f + cnt n (fun t => r t && negb (p t)) f.
Proof.
  induction n as [|n IH]; intros H; [reflexivity|]. cbn. rewrite IH by (intros; apply H; auto; lia).
  specialize (H n (Nat.lt_succ_diag_r n)). destruct (p (f n)), (r (f n)); cbn; try lia; specialize (H eq_refl); discriminate.
Qed.
Lemma cnt_one n p f i : i < n -> p (f i) = true -> 1 <= cnt n p f.
Proof. induction n as [|n IH]; intros L E; [lia|]. cbn. destruct (Nat.eq_dec i n) as [->|N]; [rewrite E; cbn; lia|]. assert (i < n) as L' by lia. specialize (IH L' E). lia. Qed.
Lemma cnt_two n p f i j : i < n -> j < n -> i <> j -> p (f i) = true -> p (f j) = true -> 2 <= cnt n p f.
Proof.
  induction n as [|n IH]; intros L L' N E E'; [lia|]. cbn. destruct (Nat.eq_dec i n) as [->|Ni].
  - rewrite E. assert (1 <= cnt n p f) by (apply (cnt_one n p f j); [lia|exact E']). cbn. lia.
  - destruct (Nat.eq_dec j n) as [->|Nj].
    + rewrite E'. assert (1 <= cnt n p f) by (apply (cnt_one n p f i); [lia|exact E]). cbn. lia.
    + assert (2 <= cnt n p f) by (apply IH; auto; lia). lia.
Qed.

Definition waitP (p : pcT sol) : bool := match p with WaitW | WaitS _ _ _ => true | _ => false end.
Definition liveP (p : pcT sol) : bool := match p with Left => false | _ => true end.
Definition waits (t : thread) : bool := waitP (pc t).
Definition lives (t : thread) : bool := liveP (pc t).

(** ** Counts are right *)
Definition counts (s : st) : Prop :=
  waiting (gl s) = cnt (c_n C) waits (thr s) /\ threads (gl s) = cnt (c_n C) lives (thr s).

Lemma waits_live p : waitP p = true -> liveP p = true.
Proof. now destruct p. Qed.

(** What a step does to the counts *)
Lemma tstep_counts i g t g' t' : tstep i g t g' t' ->
  lives t = true /\ waiting g' + b2n (waits t) = (if waits t then pred (waiting g) + 1 else waiting g) + b2n (waits t') /\
  threads g' = (if lives t' then threads g else pred (threads g)).
Proof.
  intros H. unfold waits, lives.
  destruct H; match goal with E : pc _ = _ |- _ => rewrite E end;
    unfold syncInit, initQ, syncComplete, commitG, commitT, enterWait, leaveWait, start, goto, back;
    repeat match goal with |- context [match ?x with _ => _ end] =>
      lazymatch x with context [match _ with _ => _ end] => fail | pred _ => fail | waitP _ => fail | liveP _ => fail | _ => destruct x; cbn end end;
    cbn; repeat split; lia.
Qed.

Lemma counts_reach s : reach s -> counts s.
Proof.
  induction 1 as [|s s' R IH H].
  - unfold counts, init. cbn. split; [symmetry; apply cnt_none; reflexivity|].
    induction (c_n C) as [|n IH]; [reflexivity|]. cbn. now rewrite <- IH.
  - destruct IH as [W L]. destruct H as [i g' t' I H|]; [|split; assumption].
    pose proof (tstep_counts _ _ _ _ _ H) as (Li & W' & L'). unfold counts. cbn.
    pose proof (cnt_upd (c_n C) waits (thr s) i t' I) as U. pose proof (cnt_upd (c_n C) lives (thr s) i t' I) as V.
    pose proof (cnt_one (c_n C) lives (thr s) i I Li) as O. rewrite Li in V.
    split.
    + destruct (waits (thr s i)) eqn:E; cbn in *; [|lia]. pose proof (cnt_one (c_n C) waits (thr s) i I E). lia.
    + destruct (lives t'); cbn in *; lia.
Qed.
(** If a thread is the last one, all others wait or have left *)
Lemma last_others s i j : counts s -> i < c_n C -> j < c_n C -> i <> j -> threads (gl s) <= S (waiting (gl s)) ->
  waits (thr s i) = false -> lives (thr s i) = true -> waits (thr s j) = true \/ lives (thr s j) = false.
Proof.
  intros [W L] I J N H Wi Li. destruct (waits (thr s j)) eqn:Wj; [auto|]. destruct (lives (thr s j)) eqn:Lj; [|auto]. exfalso.
  rewrite W, L in H. rewrite (cnt_gap (c_n C) waits lives (thr s)) in H.
  - assert (2 <= cnt (c_n C) (fun t => lives t && negb (waits t)) (thr s)); [|lia]. apply (cnt_two _ _ _ i j); auto.
    + now rewrite Wi, Li.
    + now rewrite Wj, Lj.
  - intros k _. apply waits_live.
Qed.
(** Two threads that do not wait: none is the last *)
Lemma not_last s i j : counts s -> i < c_n C -> j < c_n C -> i <> j -> waits (thr s i) = false -> lives (thr s i) = true ->
  waits (thr s j) = false -> lives (thr s j) = true -> S (waiting (gl s)) < threads (gl s).
Proof.
  intros [W L] I J N Wi Li Wj Lj. rewrite W, L, (cnt_gap (c_n C) waits lives (thr s)) by (intros k _; apply waits_live).
  assert (2 <= cnt (c_n C) (fun t => lives t && negb (waits t)) (thr s)); [|lia]. apply (cnt_two _ _ _ i j); auto.
  - now rewrite Wi, Li.
  - now rewrite Wj, Lj.
Qed.

(** ** No deadlock *)
Definition lockP (p : pcT sol) : bool :=
  match p with CM1 _ | CM3 | CM4 | CM5 _ | Term _ KModel | TermA _ KModel | TermC _ KModel => true | _ => false end.
Definition lockInv (s : st) : Prop :=
  forall i, (i < c_n C -> lockP (pc (thr s i)) = true -> mlock (gl s) = Some i) /\ (mlock (gl s) = Some i -> i < c_n C /\ lockP (pc (thr s i)) = true).
Lemma tstep_lock i g t g' t' : tstep i g t g' t' ->
  (lockP (pc t) = true -> mlock g = Some i) ->
  (lockP (pc t') = true -> mlock g' = Some i) /\
  ((mlock g' = mlock g /\ lockP (pc t') = lockP (pc t)) \/ (mlock g = None /\ mlock g' = Some i /\ lockP (pc t') = true) \/ (lockP (pc t) = true /\ mlock g' = None)).
Proof.
  intros H.
  destruct H; match goal with E : pc _ = _ |- _ => rewrite E end;
    unfold syncInit, initQ, syncComplete, commitG, commitT, enterWait, leaveWait, start, goto, back;
    repeat match goal with |- context [match ?x with _ => _ end] =>
      lazymatch x with context [match _ with _ => _ end] => fail | lockP _ => fail | _ => destruct x; cbn end end;
    cbn; intros; intuition (try discriminate; auto).
Qed.
Lemma lock_reach s : reach s -> lockInv s.
Proof.
  induction 1 as [|s s' R IH H].
  - intros i. cbn. split; intros; discriminate.
  - destruct H as [i g' t' I H|]; [|exact IH]. pose proof (tstep_lock _ _ _ _ _ H (proj1 (IH i) I)) as [A B].
    intros j. cbn. destruct (Nat.eq_dec j i) as [->|N].
    + rewrite upd_same. split; [auto|]. intros E. split; [exact I|].
      destruct B as [[E1 E2]|[(E1 & E2 & E3)|[E1 E2]]]; [|exact E3|congruence]. rewrite E2. apply (proj2 (IH i)). congruence.
    + rewrite upd_other by exact N. destruct (IH j) as [P Q]. destruct B as [[E1 E2]|[(E1 & E2 & E3)|[E1 E2]]].
      * rewrite E1. auto.
      * rewrite E2. split; [|intros X; congruence]. intros J X. specialize (P J X). congruence.
      * rewrite E2. split; [|discriminate]. intros J X. specialize (P J X). specialize (proj1 (IH i) I E1). intros Y. congruence.
Qed.

Definition goesOn (s : st) (i : nat) : Prop := lives (thr s i) = true /\ (waits (thr s i) = false \/ ntf (gl s) i = true).
Definition alive (s : st) : Prop := (exists i, i < c_n C /\ goesOn s i) \/ (forall i, i < c_n C -> lives (thr s i) = false).
Lemma tstep_ntf i g t g' t' : tstep i g t g' t' ->
  (waits t' = false /\ lives t' = true /\ (forall j, ntf g j = true -> ntf g' j = true)) \/
  (waits t' = true /\ S (waiting g) < threads g /\ waits t = false) \/ (lives t' = false /\ forall j, ntf g' j = true).
Proof.
  intros H. unfold waits, lives.
  destruct H; match goal with E : pc _ = _ |- _ => rewrite E end;
    unfold syncInit, initQ, syncComplete, commitG, commitT, enterWait, leaveWait, start, goto, back;
    repeat match goal with |- context [match ?x with _ => _ end] =>
      lazymatch x with context [match _ with _ => _ end] => fail | liveP _ => fail | waitP _ => fail | _ => destruct x; cbn end end;
    cbn; auto.
  - left. split; [reflexivity|split; [reflexivity|]]. intros k E. rewrite E. apply orb_true_r.
  - left. split; [reflexivity|split; [reflexivity|]]. intros k E. rewrite E. apply orb_true_r.
Qed.
Lemma alive_reach s : 0 < c_n C -> reach s -> alive s.
Proof.
  intros NZ R. induction R as [|s s' R IH H].
  - left. exists 0. split; [exact NZ|]. split; [reflexivity|left; reflexivity].
  - destruct H as [i g' t' I H|]; [|exact IH].
    destruct (tstep_ntf _ _ _ _ _ H) as [(W & L & N)|[(W & T & W0)|(L & N)]].
    + left. exists i. split; [exact I|]. unfold goesOn. cbn. rewrite upd_same. auto.
    + left. pose proof (counts_reach _ R) as Cn. pose proof (proj1 (tstep_counts _ _ _ _ _ H)) as L0.
      assert (exists j, j < c_n C /\ j <> i /\ lives (thr s j) = true /\ waits (thr s j) = false) as (j & J & Nj & Lj & Wj).
      { destruct Cn as [Cw Cl]. rewrite Cw, Cl, (cnt_gap (c_n C) waits lives (thr s)) in T by (intros k _; apply waits_live).
        set (p := fun t => lives t && negb (waits t)) in *. pose proof (cnt_upd (c_n C) p (thr s) i (goto t' Left) I) as U.
        assert (p (thr s i) = true) as Pi by (unfold p; now rewrite L0, W0). rewrite Pi in U. cbn in U.
        destruct (cnt_pos (c_n C) p (upd (thr s) i (goto t' Left))) as (j & J & E); [lia|].
        exists j. split; [exact J|]. destruct (Nat.eq_dec j i) as [->|Nj]; [rewrite upd_same in E; discriminate|].
        rewrite upd_other in E by exact Nj. apply andb_prop in E. destruct E as [E1 E2]. apply negb_true_iff in E2. auto. }
      exists j. split; [exact J|]. unfold goesOn. cbn. rewrite upd_other by exact Nj. auto.
    + destruct (cnt (c_n C) lives (upd (thr s) i t')) eqn:E.
      * right. intros j J. cbn. destruct (lives (upd (thr s) i t' j)) eqn:Lj; [|reflexivity].
        pose proof (cnt_one (c_n C) lives (upd (thr s) i t') j J Lj). lia.
      * destruct (cnt_pos (c_n C) lives (upd (thr s) i t')) as (j & J & Lj); [lia|]. left. exists j. split; [exact J|]. unfold goesOn. cbn. auto.
Qed.

Lemma exists_dec {A} (P : A -> Prop) (l : list A) : (forall a, P a \/ ~ P a) -> (exists a, In a l /\ P a) \/ ~ (exists a, In a l /\ P a).
Proof.
  intros D. induction l as [|a l IH]; [right; now intros (x & [] & _)|].
  destruct (D a) as [E|E]; [left; exists a; cbn; auto|]. destruct IH as [(x & I & X)|N]; [left; exists x; cbn; auto|].
  right. intros (x & [->|I] & X); [auto|]. apply N. eauto.
Qed.
Lemma excl_dec g m : (forall a b, same a b \/ ~ same a b) -> btNow C g = false -> excl cost same C g m \/ ~ excl cost same C g m.
Proof.
  intros D B. unfold excl. unfold btNow in B. destruct (optimize C g); cbn in B.
  - apply exists_dec. intros a. destruct (Z_le_gt_dec (cost a) (cost m)); [auto|right; lia].
  - destruct (exists_dec (fun a => (cost a < cost m)%Z) (rep0 g)) as [E|E]; [intros a; destruct (Z_lt_ge_dec (cost a) (cost m)); [auto|right; lia]|left; left; exact E|].
    destruct (c_kind C); [discriminate| |].
    + destruct (exists_dec (fun a => same a m) (rep g)) as [F|F]; [intros; apply D|auto|]. right. intros [X|X]; auto.
    + destruct (exists_dec (fun a => same a m) (rep g)) as [F|F]; [intros; apply D|auto|]. right. intros [X|X]; auto.
Qed.
(** A thread that does not wait, or is notified, has a next step, unless it waits for modelM *)
Lemma enabled i g t : (forall a b, same a b \/ ~ same a b) -> lives t = true -> (waits t = false \/ ntf g i = true) -> (forall m, pc t = CM0 m -> mlock g = None) ->
  exists g' t', tstep i g t g' t'.
Proof.
  intros D L W M. unfold lives, waits in *. destruct (pc t) eqn:E; try discriminate.
  - do 2 eexists. apply S_attach; exact E.
  - destruct (term g) eqn:Et; do 2 eexists; [eapply S_leave|eapply S_req]; eassumption.
  - destruct (sync g) eqn:Es; [do 2 eexists; eapply S_sync; eassumption|]. destruct k; do 2 eexists; [eapply S_keep|eapply S_ask]; eassumption.
  - do 2 eexists. eapply S_bit; [exact E|reflexivity].
  - do 2 eexists. eapply S_port; [exact E|reflexivity].
  - destruct (Z.eq_dec (initv g) 0) as [Z|Z]; do 2 eexists; [eapply S_xchg0|eapply S_xchg1]; eassumption.
  - do 2 eexists. eapply S_sub; exact E.
  - do 2 eexists. eapply S_lock; [exact E|reflexivity].
  - destruct (term g || sync g) eqn:F; [do 2 eexists; eapply S_ctl; eassumption|]. destruct (q g) eqn:Q; [|do 2 eexists; eapply S_pop; eassumption].
    destruct (le_lt_dec (threads g) (S (waiting g))); do 2 eexists; [eapply S_last|eapply S_wait]; eassumption.
  - destruct W as [W|W]; [discriminate|]. do 2 eexists. eapply S_wake; [exact E|]. unfold woken. now rewrite W.
  - do 2 eexists. eapply S_none; [exact E|reflexivity].
  - do 2 eexists. eapply S_start; eassumption.
  - do 2 eexists. eapply S_limit; eassumption.
  - do 2 eexists. eapply S_rst2; eassumption.
  - do 2 eexists. eapply S_mlock; [exact E|eauto].
  - destruct (term g) eqn:Et; [do 2 eexists; eapply S_mterm; eassumption|]. destruct (btNow C g) eqn:B.
    + destruct (rep g) eqn:Er; [do 2 eexists; eapply S_commit; [exact E|exact Et|rewrite B; auto]|].
      destruct (disj t) eqn:Dj; [do 2 eexists; eapply S_commit; [exact E|exact Et|rewrite B; auto]|].
      do 2 eexists. eapply S_minvB; [exact E|exact B|exact Dj|congruence].
    + destruct (excl_dec g m D B); do 2 eexists; [eapply S_minv; eassumption|eapply S_commit; [exact E|exact Et|now rewrite B]].
  - do 2 eexists. eapply S_init0; exact E.
  - do 2 eexists. eapply S_rep1; exact E.
  - do 2 eexists. eapply S_munlock; exact E.
  - destruct (optimize C g) eqn:O; [|do 2 eexists; eapply S_us1; auto]. destruct (term g || sync g) eqn:F; do 2 eexists; [eapply S_us1; auto|eapply S_us2; eauto].
  - do 2 eexists. eapply S_uo2; exact E.
  - do 2 eexists. eapply S_done; exact E.
  - do 2 eexists. eapply S_ws; exact E.
  - destruct (sync g) eqn:F; [|do 2 eexists; eapply S_ws0; eassumption].
    destruct (le_lt_dec (threads g) (S (waiting g))); do 2 eexists; [eapply S_wsLast|eapply S_wsWait]; eassumption.
  - destruct W as [W|W]; [discriminate|]. do 2 eexists. eapply S_wsWake; [exact E|]. unfold woken. now rewrite W.
  - do 2 eexists. eapply S_la; exact E.
  - do 2 eexists. eapply S_lb; exact E.
  - do 2 eexists. eapply S_lc; exact E.
  - do 2 eexists. eapply S_ld; exact E.
  - do 2 eexists. eapply S_wsr; [exact E|reflexivity].
  - destruct (term g) eqn:Et; do 2 eexists; [eapply S_t1|eapply S_t0]; eassumption.
  - destruct (tent g && c) eqn:F; do 2 eexists; [eapply S_ta1|eapply S_ta0]; eassumption.
  - do 2 eexists. eapply S_tc; exact E.
  - do 2 eexists. eapply S_excInt; exact E.
  - do 2 eexists. eapply S_left; exact E.
Qed.
(** Some thread that does not wait, or is notified, can go on *)
Lemma no_deadlock s : (forall a b, same a b \/ ~ same a b) -> 0 < c_n C -> reach s ->
  (forall i, i < c_n C -> lives (thr s i) = false) \/
  exists i g' t', i < c_n C /\ (waits (thr s i) = true -> ntf (gl s) i = true) /\ tstep i (gl s) (thr s i) g' t'.
Proof.
  intros D N R. destruct (alive_reach s N R) as [(i & I & Li & Wi)|A]; [right|auto].
  assert (forall j, j < c_n C -> lives (thr s j) = true -> waits (thr s j) = false \/ ntf (gl s) j = true -> (forall m, pc (thr s j) = CM0 m -> mlock (gl s) = None) ->
    exists i g' t', i < c_n C /\ (waits (thr s i) = true -> ntf (gl s) i = true) /\ tstep i (gl s) (thr s i) g' t') as K.
  { intros j J Lj Wj M. destruct (enabled j (gl s) (thr s j) D Lj Wj M) as (g' & t' & H). exists j, g', t'. repeat split; auto.
    intros X. destruct Wj; congruence. }
  destruct (mlock (gl s)) as [j|] eqn:M; [|apply (K i); auto].
  destruct (proj2 (lock_reach s R j) M) as [J P]. unfold lives, waits in *.
  apply (K j); [exact J| | |]; destruct (pc (thr s j)); try discriminate; cbn; auto; discriminate.
Qed.
End P.
