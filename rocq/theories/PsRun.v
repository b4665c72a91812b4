(** Runs of parallel solving, for examples and refutations (C50). *)
From Coq Require Import List Bool Arith ZArith Lia.
Import ListNotations.
From Verif Require Import Base PsSpec PsModel PsProofs PsEnd.

(** Two solutions: true and false for variable 1 *)
Definition etv (m : bool) (l : lit) : bool := xorb m (snd l).
Definition eG (m : bool) : Prop := True.
Definition ecost (m : bool) : Z := 0%Z.
(** [b]: nobody stops the search *)
Inductive star (b : bool) (C : cfg) (s : st bool) : st bool -> Prop :=
| Refl : star b C s s
| Go i g' t' s2 : i < c_n C -> tstep etv eG ecost eq C i (gl s) (thr s i) g' t' -> (b = true -> intr g' = false /\ givesUp (pc t') = false) ->
    star b C (St g' (upd (thr s) i t')) s2 -> star b C s s2.
Lemma star_reach b C s s' : reach etv eG ecost eq C s -> star b C s s' -> reach etv eG ecost eq C s'.
Proof. intros R H. induction H as [|s i g' t' s2 I S1 _ H IH]; [exact R|]. apply IH. apply RS with s; [exact R|]. now apply StepT. Qed.
Lemma star_quiet C s s' : quiet etv eG ecost eq C s -> (forall i, i < c_n C -> givesUp (pc (thr s i)) = false) -> star true C s s' -> quiet etv eG ecost eq C s'.
Proof.
  intros R GU H. induction H as [|s i g' t' s2 I S1 N H IH]; [exact R|]. destruct (N eq_refl) as [N1 N2].
  assert (forall j, j < c_n C -> givesUp (pc (upd (thr s) i t' j)) = false) as GU'.
  { intros j J. destruct (Nat.eq_dec j i) as [->|E]; [now rewrite upd_same|rewrite upd_other by exact E; auto]. }
  apply IH; [|exact GU']. apply QS with s; auto. now apply StepT.
Qed.
Lemma go b C s g' t' (P : st bool -> Prop) i : i < c_n C -> tstep etv eG ecost eq C i (gl s) (thr s i) g' t' -> (b = true -> intr g' = false /\ givesUp (pc t') = false) ->
  (exists s', star b C (St g' (upd (thr s) i t')) s' /\ P s') -> exists s', star b C s s' /\ P s'.
Proof. intros I H N (s' & S1 & Q). exists s'. split; [|exact Q]. eapply Go; eassumption. Qed.
Lemma stop b C s (P : st bool -> Prop) : P s -> exists s', star b C s s' /\ P s'.
Proof. intros H. exists s. split; [apply Refl|exact H]. Qed.
(** requestRestart by a thread that is not the last, and by the last *)
Lemma rst2a C i g t : pc t = RunR -> (S (rreq g) =? threads g) = false -> tstep etv eG ecost eq C i g t (set_rreq g (S (rreq g))) (goto t Run).
Proof. intros P E. pose proof (S_rst2 bool etv eG ecost eq C i g t P) as H. cbn zeta in H. change (rreq (set_rreq g (S (rreq g)))) with (S (rreq g)) in H. change (threads (set_rreq g (S (rreq g)))) with (threads g) in H. now rewrite E in H. Qed.
Lemma rst2b C i g t : pc t = RunR -> (S (rreq g) =? threads g) = true -> tstep etv eG ecost eq C i g t (notifyAll (set_rst (set_sync (set_rreq g (S (rreq g))) true) true)) (goto t Run).
Proof. intros P E. pose proof (S_rst2 bool etv eG ecost eq C i g t P) as H. cbn zeta in H. change (rreq (set_rreq g (S (rreq g)))) with (S (rreq g)) in H. change (threads (set_rreq g (S (rreq g)))) with (threads g) in H. now rewrite E in H. Qed.
(** The last thread at a synchronisation *)
Lemma la1 C i g t r hp tn : pc t = La r hp tn -> negb (rst g) || negb (forbid g) = true -> allow g && msplit g && negb (c_can C) = false ->
  tstep etv eG ecost eq C i g t (set_initv (set_q (set_rreq g O) []) maxV) (goto t (Lb r hp tn)).
Proof.
  intros P E F. pose proof (S_la bool etv eG ecost eq C i g t r hp tn P) as H. unfold syncInit, initQ in H. cbv zeta in H.
  change (negb (rst (set_rreq g 0)) || negb (forbid (set_rreq g 0))) with (negb (rst g) || negb (forbid g)) in H. rewrite E in H.
  change (allow (set_q (set_rreq g 0) []) && msplit (set_q (set_rreq g 0) []) && negb (c_can C)) with (allow g && msplit g && negb (c_can C)) in H. now rewrite F in H.
Qed.
Lemma la2 C i g t r hp tn : pc t = La r hp tn -> negb (rst g) || negb (forbid g) = false -> tstep etv eG ecost eq C i g t (set_aband (set_rreq g O) true) (goto t (Lb r hp tn)).
Proof.
  intros P E. pose proof (S_la bool etv eG ecost eq C i g t r hp tn P) as H. unfold syncInit in H. cbv zeta in H.
  change (negb (rst (set_rreq g 0)) || negb (forbid (set_rreq g 0))) with (negb (rst g) || negb (forbid g)) in H. now rewrite E in H.
Qed.
Lemma lb0 C i g t r hp tn : pc t = Lb r hp tn -> tn && compl g = false -> tstep etv eG ecost eq C i g t g (goto t (Lc r hp)).
Proof. intros P E. pose proof (S_lb bool etv eG ecost eq C i g t r hp tn P) as H. unfold syncComplete in H. now rewrite E in H. Qed.
(** One step of thread [i] by rule [c] *)
Ltac norm := match goal with |- ?g => let g' := eval cbn in g in let H := fresh in cut g'; [intro H; exact H|] end.
Ltac side := lazymatch goal with |- _ = _ => reflexivity | |- _ <> _ => discriminate | |- (_ < _)%nat => cbn; lia | |- (_ <= _)%nat => cbn; lia | |- _ = _ \/ _ => left; reflexivity | |- _ => idtac end.
Ltac nostop := first [discriminate|intros _; split; reflexivity].
Ltac r i c := eapply (go _ _ _ _ _ _ i); [cbn; lia|norm; eapply c; side|nostop|norm].

(** Thread [i] finds model [m] *)
Ltac rm i m0 := eapply (go _ _ _ _ _ _ i); [cbn; lia|norm; eapply S_model with (m := m0); [reflexivity|split; [exact Logic.I|intros ? []]|cbn]|nostop|norm].

Definition C1 : cfg := Cfg 2 true true false Rec true false false [].
Lemma run1 : exists s, star true C1 (init C1) s /\ (compl (gl s) = true /\ tent (gl s) = false /\ rep (gl s) = [] /\ rep0 (gl s) = []).
Proof.
  r 0 S_attach. r 0 S_req. r 0 S_sync. r 0 S_ws. r 1 S_attach. r 1 S_req. r 1 S_sync. r 1 S_ws. r 1 S_wsWait.
  r 0 S_wsLast. r 0 la1. r 0 lb0. r 0 S_lc. r 0 S_ld. r 0 S_wsr. r 0 S_req. r 0 S_ask. r 0 S_bit. r 0 S_port. r 0 S_xchg1. r 0 S_start.
  r 1 S_wsWake. r 1 S_ws0. r 1 S_wsr. r 1 S_req. r 1 S_ask. r 1 S_bit. r 1 S_lock. r 1 S_wait.
  r 0 S_rst1. r 0 rst2a. r 0 S_rst1. r 0 rst2b. r 0 S_runSync. r 0 S_ws. r 0 S_wsLast. r 1 S_wake. r 1 S_ctl. r 0 la1. r 0 lb0. r 0 S_lc.
  r 1 S_none. r 1 S_t0. r 1 S_ta0. r 1 S_tc. apply stop. cbn. auto.
Qed.

(** The first model forbids restarts while a restart is requested *)
Definition C2 : cfg := Cfg 2 true true false Bt true false false [].
Lemma commit1 C i g t m : pc t = CM1 m -> term g = false -> btNow C g = true -> isNil (rep g) = true ->
  tstep etv eG ecost eq C i g t (set_allow (set_forbid (set_rep g (rep g ++ [m])) true) true) (T CM3 GSplit true (fun x => reg t x /\ x <> m) (cur t)).
Proof.
  intros P E B N. pose proof (S_commit bool etv eG ecost eq C i g t m P E) as H. unfold commitG, commitT in H. cbv zeta in H. rewrite B, N in H. apply H. destruct (rep g); [auto|discriminate].
Qed.
Lemma commit2 C i g t m : pc t = CM1 m -> term g = false -> btNow C g = true -> isNil (rep g) = false -> disj t = true ->
  tstep etv eG ecost eq C i g t (set_rep g (rep g ++ [m])) (T CM4 (gp t) (disj t) (fun x => reg t x /\ x <> m) (cur t)).
Proof.
  intros P E B N D. pose proof (S_commit bool etv eG ecost eq C i g t m P E) as H. unfold commitG, commitT in H. cbv zeta in H. rewrite B, N in H. apply H. auto.
Qed.
Lemma commit3 C i g t m : pc t = CM1 m -> term g = false -> btNow C g = false -> ~ excl ecost eq C g m ->
  tstep etv eG ecost eq C i g t (set_rep g (rep g ++ [m])) (T CM4 (gp t) (disj t) (reg t) (cur t)).
Proof.
  intros P E B N. pose proof (S_commit bool etv eG ecost eq C i g t m P E) as H. unfold commitG, commitT in H. cbv zeta in H. rewrite B in H. apply H. exact N.
Qed.
Lemma run2 : exists s, star true C2 (init C2) s /\ (compl (gl s) = true /\ tent (gl s) = false /\ rep (gl s) = [true] /\ rep0 (gl s) = []).
Proof.
  r 0 S_attach. r 0 S_req. r 0 S_sync. r 0 S_ws. r 1 S_attach. r 1 S_req. r 1 S_sync. r 1 S_ws. r 1 S_wsWait.
  r 0 S_wsLast. r 0 la1. r 0 lb0. r 0 S_lc. r 0 S_ld. r 0 S_wsr. r 0 S_req. r 0 S_ask. r 0 S_bit. r 0 S_port. r 0 S_xchg1. r 0 S_start.
  r 0 S_rst1. r 0 rst2a. r 0 S_rst1. r 0 rst2b.
  rm 0 true; [intros ? []|]. r 0 S_mlock. r 0 commit1. r 0 S_init0. r 0 S_rep1. r 0 S_munlock.
  r 0 S_runSync. r 0 S_ws. r 1 S_wsWake. r 1 S_wsWait. r 0 S_wsLast. r 0 la2. r 0 lb0. r 0 S_lc. r 0 S_ld. r 0 S_wsr. r 0 S_us1. r 0 S_done.
  r 0 S_req. r 0 S_ask. r 0 S_bit. r 0 S_lock. r 1 S_wsWake. r 0 S_wait.
  r 1 S_ws0. r 1 S_wsr. r 1 S_req. r 1 S_ask. r 1 S_bit. r 1 S_lock. r 1 S_last. r 1 S_none. r 1 S_t0. r 1 S_ta0. r 1 S_tc. apply stop. cbn. auto.
Qed.

Lemma nexO C g m : optimize C g = true -> isNil (rep g) = true -> ~ excl ecost eq C g m.
Proof. unfold excl. intros -> E (r & R & _). destruct (rep g); [destruct R|discriminate]. Qed.
Lemma nexR C g m l : optimize C g = false -> rep g = l -> (c_kind C = Rec) -> existsb (Bool.eqb m) l = false -> ~ excl ecost eq C g m.
Proof.
  unfold excl. intros -> -> -> E [(r & _ & X)|(r & R & ->)]; [discriminate X|]. assert (existsb (Bool.eqb m) l = true) as X; [|congruence].
  apply existsb_exists. exists m. split; [exact R|apply eqb_reflx].
Qed.
Lemma nlO C g R : optimize C g = true -> isNil (rep g) = false -> nothingLeft etv eG ecost eq C g R.
Proof. unfold nothingLeft, excl. intros -> E m _ _. destruct (rep g) as [|r l]; [discriminate|]. exists r. split; [now left|apply Z.le_refl]. Qed.
Lemma nlR C g R l : optimize C g = false -> rep g = l -> c_kind C <> Bt -> existsb (Bool.eqb true) l && existsb (Bool.eqb false) l = true -> nothingLeft etv eG ecost eq C g R.
Proof.
  unfold nothingLeft, excl. intros -> -> K E m _ _. right. apply andb_prop in E. destruct E as [E1 E2]. apply existsb_exists in E1, E2.
  destruct E1 as (a & A & X), E2 as (b & B & Y). apply eqb_prop in X, Y. subst. exists m. split; [now destruct m|]. destruct (c_kind C); auto.
Qed.
(** Enumeration of optima stopped by a limit after the optimum is known *)
Definition C3 : cfg := Cfg 2 false false true Rec true false false [].
Lemma ta1 C i g t c k : pc t = TermA c k -> tent g && c = true -> tstep etv eG ecost eq C i g t (set_compl (set_sync g true) true) (goto t (back k)).
Proof. intros P E. now apply S_ta1 with c. Qed.
Lemma lbS C i g t r hp tn : pc t = Lb r hp tn -> tn && compl g = true -> tent g && match rep g with [] => false | _ => true end = true ->
  tstep etv eG ecost eq C i g t (set_compl (set_rep (set_rep0 (set_tent g false) (rep g)) []) false) (goto t (Lc r hp)).
Proof. intros P E F. pose proof (S_lb bool etv eG ecost eq C i g t r hp tn P) as H. unfold syncComplete in H. now rewrite E, F in H. Qed.
Lemma run3 : exists s, star false C3 (init C3) s /\ ((forall i, i < 2 -> pc (thr s i) = Left) /\ compl (gl s) = true /\ tent (gl s) = true /\ rep (gl s) = [true] /\ rep0 (gl s) = []).
Proof.
  r 0 S_attach. r 0 S_req. r 0 S_sync. r 0 S_ws. r 1 S_attach. r 1 S_req. r 1 S_sync. r 1 S_ws. r 1 S_wsWait.
  r 0 S_wsLast. r 0 la1. r 0 lb0. r 0 S_lc. r 0 S_ld. r 0 S_wsr. r 0 S_req. r 0 S_ask. r 0 S_bit. r 0 S_port. r 0 S_sub. r 0 S_start.
  r 1 S_wsWake. r 1 S_ws0. r 1 S_wsr. r 1 S_req. r 1 S_ask. r 1 S_bit. r 1 S_port. r 1 S_sub. r 1 S_start.
  rm 0 true; [intros ? []|]. r 0 S_mlock. r 0 commit3; [apply nexO; reflexivity|]. r 0 S_rep1. r 0 S_munlock. r 0 S_unsatO.
  r 0 S_uo3; [apply nlO; reflexivity|]. r 0 S_t0. r 0 ta1.
  r 1 S_limit. r 1 S_t0. r 1 S_ta0. r 1 S_tc. r 1 S_done. r 1 S_leave. r 1 S_left. r 0 S_done. r 0 S_leave. r 0 S_left. apply stop. cbn.
  split; [|auto]. intros i I. destruct i as [|[|i]]; [reflexivity|reflexivity|lia].
Qed.
(** The same without a limit *)
Lemma run3c : exists s, star true C3 (init C3) s /\ (compl (gl s) = true /\ tent (gl s) = false /\ rep (gl s) = [false; true] /\ rep0 (gl s) = [true]).
Proof.
  r 0 S_attach. r 0 S_req. r 0 S_sync. r 0 S_ws. r 1 S_attach. r 1 S_req. r 1 S_sync. r 1 S_ws. r 1 S_wsWait.
  r 0 S_wsLast. r 0 la1. r 0 lb0. r 0 S_lc. r 0 S_ld. r 0 S_wsr. r 0 S_req. r 0 S_ask. r 0 S_bit. r 0 S_port. r 0 S_sub. r 0 S_start.
  r 1 S_wsWake. r 1 S_ws0. r 1 S_wsr. r 1 S_req. r 1 S_ask. r 1 S_bit. r 1 S_port. r 1 S_sub. r 1 S_start.
  rm 0 true; [intros ? []|]. r 0 S_mlock. r 0 commit3; [apply nexO; reflexivity|]. r 0 S_rep1. r 0 S_munlock. r 0 S_unsatO.
  r 0 S_uo3; [apply nlO; reflexivity|]. r 0 S_t0. r 0 ta1. r 0 S_done. r 0 S_req. r 0 S_sync. r 0 S_ws. r 0 S_wsWait.
  r 1 S_runSync. r 1 S_ws. r 1 S_wsLast. r 1 la1. r 1 lbS. r 1 S_lc. r 1 S_ld. r 1 S_wsr. r 1 S_us1. r 1 S_done. r 1 S_req. r 1 S_ask. r 1 S_bit. r 1 S_port. r 1 S_sub. r 1 S_start.
  rm 1 false; [intros ? []|]. r 1 S_mlock. r 1 commit3; [eapply nexR; reflexivity|]. r 1 S_rep1. r 1 S_munlock.
  r 0 S_wsWake. r 0 S_ws0. r 0 S_wsr. r 0 S_req. r 0 S_ask. r 0 S_bit. r 0 S_port. r 0 S_sub. r 0 S_start.
  rm 0 true; [intros ? []|]. r 0 S_mlock. r 0 commit3; [eapply nexR; reflexivity|]. r 0 S_rep1. r 0 S_munlock.
  r 0 S_unsat; [eapply nlR; [reflexivity|reflexivity|discriminate|reflexivity]|]. r 0 S_done.
  r 0 S_top; [eapply nlR; [reflexivity|reflexivity|discriminate|reflexivity]|]. r 0 S_t0. r 0 S_ta0. r 0 S_tc. apply stop. cbn. auto.
Qed.

(** Two threads split the space and enumerate by backtracking; the second one with or without running out of memory *)
Definition C4 (oom : bool) : cfg := Cfg 2 true false false Bt true false oom [].
Ltac rs i l m1 := eapply (go _ _ _ _ _ _ i); [cbn; lia|norm; eapply S_split with (np := [neg l]) (d := l) (j := m1); [reflexivity|reflexivity|..]|nostop|norm].
Ltac splitrun C0 :=
  r 0 S_attach; r 0 S_req; r 0 S_sync; r 0 S_ws; r 1 S_attach; r 1 S_req; r 1 S_sync; r 1 S_ws; r 1 S_wsWait;
  r 0 S_wsLast; r 0 la1; r 0 lb0; r 0 S_lc; r 0 S_ld; r 0 S_wsr; r 0 S_req; r 0 S_ask; r 0 S_bit; r 0 S_port; r 0 S_xchg1; r 0 S_start;
  r 1 S_wsWake; r 1 S_ws0; r 1 S_wsr; r 1 S_req; r 1 S_ask; r 1 S_bit; r 1 S_lock; r 1 S_wait;
  rs 0 (pos 1) 1;
  [intros m _ _ X l [<-|[]]; cbn in *; destruct m; auto|intros _ m _ X; split; [intros l []|]; specialize (X _ (or_introl eq_refl)); cbn in *; destruct m; auto|];
  r 1 S_wake; r 1 S_pop; r 1 S_start; rm 1 false; [intros l [<-|[]]; reflexivity|]; r 1 S_mlock; r 1 commit1; r 1 S_init0; r 1 S_rep1; r 1 S_munlock.
Lemma excPush C i g t p : pc t = Exc -> i <> O -> allow g = true -> cur t = Some p -> tstep etv eG ecost eq C i g t (notify1 (set_q g (q g ++ [p])) O) (goto t Leave).
Proof. intros. now apply S_excPush. Qed.
Lemma run4 : exists s, star true (C4 true) (init (C4 true)) s /\ (tent (gl s) = false /\ rep (gl s) = [false; true; false]).
Proof.
  splitrun (C4 true). r 1 S_exc. r 1 excPush.
  rm 0 true; [split; [intros l []|reflexivity]|]. r 0 S_mlock. r 0 commit2. r 0 S_rep1. r 0 S_munlock.
  r 0 S_unsat; [intros m _ [[_ X] Y]; destruct m; [now destruct Y|discriminate]|]. r 0 S_done. r 0 S_req. r 0 S_ask. r 0 S_bit. r 0 S_lock. r 0 S_pop. r 0 S_start.
  rm 0 false; [intros l [<-|[]]; reflexivity|]. r 0 S_mlock. r 0 commit2. apply stop. cbn. auto.
Qed.
Lemma run5 : exists s, star true (C4 false) (init (C4 false)) s /\ ((forall i, i < 2 -> pc (thr s i) = Left) /\ compl (gl s) = true /\ tent (gl s) = false /\ rep (gl s) = [false; true] /\ rep0 (gl s) = []).
Proof.
  splitrun (C4 false). r 1 S_unsat; [intros m _ [X Y]; specialize (X _ (or_introl eq_refl)); destruct m; [discriminate|now destruct Y]|].
  r 1 S_done. r 1 S_req. r 1 S_ask. r 1 S_bit. r 1 S_lock. r 1 S_wait.
  rm 0 true; [split; [intros l []|reflexivity]|]. r 0 S_mlock. r 0 commit2. r 0 S_rep1. r 0 S_munlock.
  r 0 S_unsat; [intros m _ [[_ X] Y]; destruct m; [now destruct Y|discriminate]|]. r 0 S_done. r 0 S_req. r 0 S_ask. r 0 S_bit. r 0 S_lock. r 0 S_last.
  r 0 S_none. r 0 S_t0. r 0 S_ta0. r 0 S_tc. r 0 S_leave. r 0 S_left. r 1 S_wake. r 1 S_ctl. r 1 S_none. r 1 S_t1. r 1 S_leave. r 1 S_left. apply stop. cbn.
  split; [|auto]. intros i I. destruct i as [|[|i]]; [reflexivity|reflexivity|lia].
Qed.
