(** Branch and bound optimization (C24).  Any number of solvers may run at the same time, interleaved in any way; each may be of a different type. *)
From Coq Require Import List Bool Arith ZArith Lia.
From Verif Require Import Base BbModel BbSpec BbProofs BbProofs2 BbProofs3 BbProofs7 BbProofs8 BbRuns.
Import ListNotations.
Open Scope Z_scope.

Lemma setting_inv : forall n M B0 low0 ty P sh st, Setting n M B0 low0 ty P sh -> reach n M false (init n B0 low0 ty P sh) st -> INV n M B0 low0 false st.
Proof. intros n M B0 low0 ty P sh st [H1 H2 H3 H4] R. apply (reach_inv n M B0 low0 H1 ty P sh H2 H3 H4 st R). Qed.
Lemma exh_spec : forall n M B0 low0 lo st Q, INV n M B0 low0 lo st -> BbProofs2.Exh n B0 (g_sh st) Q -> Exhausted n M B0 (g_sh st) Q.
Proof.
  intros n M B0 low0 lo st Q V E. destruct (inv_exh n B0 st Q E) as [H1 H2]. split; auto. intros G.
  destruct (si_up _ _ _ _ _ (iv_s _ _ _ _ _ _ V) G) as [U1 U2]. split; [exact U1|]. split; [apply lex_adm; exact U2|]. apply (H2 G).
Qed.

(** A solver that stops has exhausted its path: nothing on it is better than the best model so far. *)
Theorem c24_exhausted : forall n M B0 low0 ty P sh, Setting n M B0 low0 ty P sh ->
  forall st t, reach n M false (init n B0 low0 ty P sh) st -> t_pc (g_th st t) = Done -> Exhausted n M B0 (g_sh st) (t_path (g_th st t)).
Proof.
  intros n M B0 low0 ty P sh S st t R E. pose proof (setting_inv _ _ _ _ _ _ _ _ S R) as V. apply (exh_spec n M B0 low0 false); auto.
  apply (inv_done n M B0 low0 false st t V E).
Qed.
Print Assumptions c24_exhausted.

(** If a solver whose path is the whole search space stops, then the best model is optimal, or no model is within the initial bound. *)
Theorem c24_optimal : forall n M B0 low0 ty P sh, Setting n M B0 low0 ty P sh ->
  forall st t, reach n M false (init n B0 low0 ty P sh) st -> t_pc (g_th st t) = Done -> (forall c, M c -> t_path (g_th st t) c) ->
  (s_gen (g_sh st) = 0%nat /\ forall c, M c -> ~ lexLe n c B0) \/ (s_gen (g_sh st) <> 0%nat /\ Optimum n M B0 (upper (g_sh st))).
Proof.
  intros n M B0 low0 ty P sh S st t R E A. destruct (c24_exhausted n M B0 low0 ty P sh S st t R E) as [H1 H2]. destruct (Nat.eq_dec (s_gen (g_sh st)) 0) as [G|G].
  - left. split; auto.
  - right. split; auto. destruct (H2 G) as [U1 [U2 U3]]. split; [exact U1|]. split; [exact U2|]. intros c MC L. apply (U3 c (A c MC) L).
Qed.
Print Assumptions c24_optimal.

(** Splitting: a path stays exhausted, whatever happens later.  So if the search space is covered by paths that were exhausted one after the other, the last
    best model is optimal. *)
Inductive later (n : nat) (M : cost -> Prop) : state -> state -> Prop :=
| l_refl s : later n M s s
| l_step s s' s'' : later n M s s' -> step n M false s' s'' -> later n M s s''.
Theorem c24_stays_exhausted : forall n M B0 low0 ty P sh, Setting n M B0 low0 ty P sh ->
  forall st t st', reach n M false (init n B0 low0 ty P sh) st -> t_pc (g_th st t) = Done -> later n M st st' ->
  Exhausted n M B0 (g_sh st') (t_path (g_th st t)).
Proof.
  intros n M B0 low0 ty P sh S st t st' R E L. pose proof (setting_inv _ _ _ _ _ _ _ _ S R) as V. pose proof (inv_done n M B0 low0 false st t V E) as EX.
  assert (X : reach n M false (init n B0 low0 ty P sh) st' /\ BbProofs2.Exh n B0 (g_sh st') (t_path (g_th st t))).
  { induction L as [|s s' s'' L IH H]; auto. destruct (IH R E V EX) as [R' EX']. split; [eapply r_step; eauto|].
    apply (exh_later n M B0 low0 (se_problem _ _ _ _ _ _ _ S) false s' s''); auto. apply (setting_inv _ _ _ _ _ _ _ _ S R'). }
  destruct X as [R' EX']. apply (exh_spec n M B0 low0 false); auto. apply (setting_inv _ _ _ _ _ _ _ _ S R').
Qed.
Print Assumptions c24_stays_exhausted.
Theorem c24_split_optimal : forall n M B0 low0 ty P sh, Setting n M B0 low0 ty P sh ->
  forall st, reach n M false (init n B0 low0 ty P sh) st ->
  (forall c, M c -> exists st0 t, reach n M false (init n B0 low0 ty P sh) st0 /\ t_pc (g_th st0 t) = Done /\ t_path (g_th st0 t) c /\ later n M st0 st) ->
  (s_gen (g_sh st) = 0%nat /\ forall c, M c -> ~ lexLe n c B0) \/ (s_gen (g_sh st) <> 0%nat /\ Optimum n M B0 (upper (g_sh st))).
Proof.
  intros n M B0 low0 ty P sh S st R A. pose proof (setting_inv _ _ _ _ _ _ _ _ S R) as V.
  assert (X : Exhausted n M B0 (g_sh st) M).
  { assert (Y : forall c, M c -> Exhausted n M B0 (g_sh st) (eq c)).
    { intros c MC. destruct (A c MC) as [st0 [t [R0 [E [PC L]]]]]. destruct (c24_stays_exhausted _ _ _ _ _ _ _ S st0 t st R0 E L) as [H1 H2]. split.
      - intros G c' <-. apply (H1 G c PC).
      - intros G. destruct (H2 G) as [U1 [U2 U3]]. split; [exact U1|]. split; [exact U2|]. intros c' <-. apply (U3 c PC). }
    destruct (Nat.eq_dec (s_gen (g_sh st)) 0) as [G|G]; split; intros G'; try lia.
    - intros c MC. apply (proj1 (Y c MC) G). reflexivity.
    - destruct (si_up _ _ _ _ _ (iv_s _ _ _ _ _ _ V) G) as [U1 U2]. split; [exact U1|]. split; [apply lex_adm; exact U2|]. intros c MC. apply (proj2 (Y c MC) G). reflexivity. }
  destruct X as [H1 H2]. destruct (Nat.eq_dec (s_gen (g_sh st)) 0) as [G|G]; [left; split; auto|]. right. split; auto. destruct (H2 G) as [U1 [U2 U3]].
  split; [exact U1|]. split; [exact U2|]. intros c MC L. apply (U3 c MC L).
Qed.
Print Assumptions c24_split_optimal.

(** The best model so far is only replaced by a strictly better model; the first one is within the initial bound. *)
Theorem c24_improves : forall n M B0 low0 ty P sh, Setting n M B0 low0 ty P sh ->
  forall st st', reach n M false (init n B0 low0 ty P sh) st -> step n M false st st' ->
  (s_gen (g_sh st') = s_gen (g_sh st) /\ upper (g_sh st') = upper (g_sh st)) \/
  (s_gen (g_sh st') = S (s_gen (g_sh st)) /\ M (upper (g_sh st')) /\ lexLe n (upper (g_sh st')) B0 /\ (s_gen (g_sh st) <> 0%nat -> lexLt n (upper (g_sh st')) (upper (g_sh st)))).
Proof.
  intros n M B0 low0 ty P sh S st st' R H. apply (inv_better n M B0 low0 (se_problem _ _ _ _ _ _ _ S) false); auto. apply (setting_inv _ _ _ _ _ _ _ _ S R).
Qed.
Print Assumptions c24_improves.

(** Lower bounds: the shared ones and all that were ever reported to the user are lower bounds of the optimum. *)
Theorem c24_lower : forall n M B0 low0 ty P sh, Setting n M B0 low0 ty P sh ->
  forall st c, reach n M false (init n B0 low0 ty P sh) st -> Optimum n M B0 c ->
  (forall i, (i < n)%nat -> nth i (s_lower (g_sh st)) 0 <= nth i c 0) /\ (forall i L, In (i, L) (g_rep st) -> (i < n)%nat /\ L <= nth i c 0).
Proof.
  intros n M B0 low0 ty P sh S st c R O. pose proof (setting_inv _ _ _ _ _ _ _ _ S R) as V. split.
  - apply (inv_low n M B0 low0 (se_problem _ _ _ _ _ _ _ S) false st V c O).
  - intros i L I. destruct (iv_r _ _ _ _ _ _ V (i, L) I) as [H1 H2]. cbn [fst snd] in *. split; auto. apply H2. apply opt_c; auto.
Qed.
Print Assumptions c24_lower.

(** No subtraction of bounds overflows. *)
Theorem c24_no_overflow : forall n M B0 low0 ty P sh, Setting n M B0 low0 ty P sh ->
  forall st t, reach n M false (init n B0 low0 ty P sh) st -> t_pc (g_th st t) <> Crash.
Proof.
  intros n M B0 low0 ty P sh S st t R E. pose proof (setting_inv _ _ _ _ _ _ _ _ S R) as V. pose proof (gi_pc _ _ _ _ _ _ (proj1 (iv_t _ _ _ _ _ _ V t))) as X.
  unfold ReadG in X. rewrite E in X. exact X.
Qed.
Print Assumptions c24_no_overflow.

(** Solvers of type Lin work with any initial bound whose components are not below the lower bounds, as long as no solver found better lower bounds. *)
Theorem c24_linear : forall n M B0 low0 ty P sh, Problem n M B0 low0 -> Paths M P sh -> (forall t, ty t = Lin) -> (forall i, (i < n)%nat -> nth i low0 0 <= nth i B0 0) ->
  forall st t, reach n M false (init n B0 low0 ty P sh) st -> (forall i, (i < n)%nat -> nth i (s_lower (g_sh st)) 0 = nth i low0 0) ->
  t_pc (g_th st t) = Done -> Exhausted n M B0 (g_sh st) (t_path (g_th st t)).
Proof.
  intros n M B0 low0 ty P sh PR HP TY LB st t R LE E.
  assert (V : INV n M B0 low0 true st) by (apply (reach_inv_lin n M B0 low0 PR ty P sh HP); auto; intros [u [X|X]]; rewrite TY in X; discriminate).
  apply (exh_spec n M B0 low0 true); auto. apply (inv_done n M B0 low0 true st t V E).
Qed.
Print Assumptions c24_linear.

(** ** Examples and counterexamples *)
Definition all (l : list cost) : nat -> cost -> Prop := fun _ => costs l.
Definition yes : nat -> bool := fun _ => true.
Lemma all_paths : forall l, Paths (costs l) (all l) yes. Proof. intros l t. split; auto. Qed.

(** A user bound for several levels and a hierarchic solver: after the first model (0,7), the components of the user bound for the second level are taken for
    a tentative bound of an earlier step, models with cost (0,2) are excluded, and (0,7) is called optimal. *)
Theorem c24_hier_bound_refuted :
  let l := [[0; 7]; [0; 2]] in let B0 := [5; 1] in let s0 := init 2 B0 [0; 0] (fun _ => Hier) (all l) yes in
  Problem 2 (costs l) B0 [0; 0] /\ Paths (costs l) (all l) yes /\
  exists st, reach 2 (costs l) false s0 st /\ t_pc (g_th st 0%nat) = Done /\ s_gen (g_sh st) = 1%nat /\ upper (g_sh st) = [0; 7] /\
    costs l [0; 2] /\ lexLt 2 [0; 2] [0; 7] /\ lexLe 2 [0; 2] B0.
Proof.
  intros l B0 s0. split; [apply problem_ok; reflexivity|]. split; [apply all_paths|].
  pose proof (a_init 2 (costs l) false s0 0) as R; nrm R.
  apply (a_pass 2 (costs l) false s0 0 _ _ _) in R; [|reflexivity|reflexivity]. nrm R.
  apply (a_ok 2 (costs l) false s0 0 _ _ _ 0) in R; [|reflexivity]. nrm R.
  apply (a_model 2 (costs l) false s0 0 _ _ _ [0; 7]) in R; [|reflexivity|left; reflexivity|apply lexb_within; reflexivity]. nrm R.
  apply (a_pass 2 (costs l) false s0 0 _ _ _) in R; [|reflexivity|reflexivity]. nrm R.
  apply (a_ok 2 (costs l) false s0 0 _ _ _ 1) in R; [|reflexivity]. nrm R.
  apply (a_unsat 2 (costs l) false s0 0 _ _ _ 1) in R; [|reflexivity|apply costs_not; reflexivity]. nrm R.
  destruct R as [st [R [E1 [E2 E3]]]]. exists st. rewrite E1, E2, ?E3. split; [exact R|]. split; [reflexivity|]. split; [reflexivity|]. split; [reflexivity|]. split; [right; left; reflexivity|]. split; [apply lexb_lt; reflexivity|apply lexb_le; reflexivity].
Qed.
Print Assumptions c24_hier_bound_refuted.

(** A user bound with a component below the lower bound of its level: the solver stops at once although (2,0) is within the bound. *)
Theorem c24_low_component_refuted :
  let l := [[2; 0]] in let B0 := [5; -1] in let s0 := init 2 B0 [0; 0] (fun _ => Lin) (all l) yes in
  Problem 2 (costs l) B0 [0; 0] /\ Paths (costs l) (all l) yes /\
  exists st, reach 2 (costs l) false s0 st /\ t_pc (g_th st 0%nat) = Done /\ s_gen (g_sh st) = 0%nat /\ costs l [2; 0] /\ lexLe 2 [2; 0] B0.
Proof.
  intros l B0 s0. split; [apply problem_ok; reflexivity|]. split; [apply all_paths|].
  pose proof (a_init 2 (costs l) false s0 0) as R; nrm R.
  apply (a_pass 2 (costs l) false s0 0 _ _ _) in R; [|reflexivity|reflexivity]. nrm R.
  apply (a_stop 2 (costs l) false s0 0 _ _ _ 0) in R; [|reflexivity]. nrm R.
  apply (a_fail 2 (costs l) false s0 0 _ _ _) in R; [|reflexivity]. nrm R.
  destruct R as [st [R [E1 [E2 E3]]]]. exists st. rewrite E1, E2, ?E3. split; [exact R|]. split; [reflexivity|]. split; [reflexivity|]. split; [left; reflexivity|apply lexb_le; reflexivity].
Qed.
Print Assumptions c24_low_component_refuted.

(** A solver of type Lin that is interrupted while it reads the shared bounds: it reads 0 as the second component of (5,0,0), another solver then finds (3,4,9)
    and the lower bound 4 for the second level; the first solver compares 4 with 0 and stops, although (3,4,0) is better than (3,4,9). *)
Theorem c24_race_refuted :
  let l := [[5; 0; 0]; [3; 4; 9]; [3; 4; 0]] in let B0 := [bMax; bMax; bMax] in let s0 := init 3 B0 [0; 0; 0] (fun _ => Lin) (all l) yes in
  Problem 3 (costs l) B0 [0; 0; 0] /\ Paths (costs l) (all l) yes /\
  exists st, reach 3 (costs l) true s0 st /\ t_pc (g_th st 0%nat) = Done /\ upper (g_sh st) = [3; 4; 9] /\ costs l [3; 4; 0] /\ lexLt 3 [3; 4; 0] [3; 4; 9].
Proof.
  intros l B0 s0. split; [apply problem_ok; reflexivity|]. split; [apply all_paths|].
  pose proof (a_init 3 (costs l) true s0 0) as R; nrm R.
  apply (a_other 3 (costs l) true s0 0 _ _ _ [5; 0; 0]) in R; [|left; reflexivity|apply lexb_within; reflexivity]. nrm R.
  apply (a_enter 3 (costs l) true s0 0 _ _ _) in R; [|reflexivity|reflexivity|reflexivity]. nrm R.
  apply (a_buf 3 (costs l) true s0 0 _ _ _ true 1 0 2) in R; [|reflexivity]. nrm R.
  apply (a_up 3 (costs l) true s0 0 _ _ _ true 1 true 0 2) in R; [|reflexivity|lia]. nrm R.
  apply (a_low 3 (costs l) true s0 0 _ _ _ true 1 true 0 2 5) in R; [|reflexivity]. nrm R.
  apply (a_up 3 (costs l) true s0 0 _ _ _ true 1 true 1 2) in R; [|reflexivity|lia]. nrm R.
  apply (a_other 3 (costs l) true s0 0 _ _ _ [3; 4; 9]) in R; [|right; left; reflexivity|apply lexb_less; reflexivity]. nrm R.
  assert (Q : forall c, costs l c -> within 3 c [3; 4; 9] -> c = [3; 4; 9] \/ c = [3; 4; 0]).
  { intros c [<-|[<-|[<-|[]]]] W; auto. exfalso. revert W. apply lexb_not_within. reflexivity. }
  apply (a_otherLow 3 (costs l) true s0 0 _ _ _ 1 4) in R; [|lia|discriminate|left; discriminate| |].
  2: { intros c C W j J. destruct (Q c C W) as [->| ->]; (destruct j as [|j]; [reflexivity|lia]). }
  2: { intros c C W. destruct (Q c C W) as [->| ->]; discriminate. }
  apply (a_low 3 (costs l) true s0 0 _ _ _ true 1 true 1 2 0) in R; [|reflexivity]. nrm R.
  apply (a_stop 3 (costs l) true s0 0 _ _ _ 1) in R; [|reflexivity]. nrm R.
  apply (a_fail 3 (costs l) true s0 0 _ _ _) in R; [|reflexivity]. nrm R.
  destruct R as [st [R [E1 [E2 E3]]]]. exists st. rewrite E1, E2, ?E3. split; [exact R|]. split; [reflexivity|]. split; [reflexivity|]. split; [right; right; left; reflexivity|apply lexb_lt; reflexivity].
Qed.
Print Assumptions c24_race_refuted.

(** Costs that differ by 2^32 and a solver with decreasing steps: the first step has size 0, and a worse model replaces the best one. *)
Theorem c24_zero_step_refuted :
  let l := [[4294967296; 0]; [4294967296; 5]] in let B0 := [bMax; bMax] in let s0 := init 2 B0 [0; 0] (fun _ => Dec) (all l) yes in
  Problem 2 (costs l) B0 [0; 0] /\ Paths (costs l) (all l) yes /\ OneComponent 2 B0 /\
  exists st st', reach 2 (costs l) false s0 st /\ reach 2 (costs l) false s0 st' /\ step 2 (costs l) false st st' /\
    upper (g_sh st) = [4294967296; 0] /\ s_gen (g_sh st) = 1%nat /\ upper (g_sh st') = [4294967296; 5].
Proof.
  intros l B0 s0. split; [apply problem_ok; reflexivity|]. split; [apply all_paths|]. split; [intros i I; assert (i = 1%nat) as -> by lia; reflexivity|].
  pose proof (a_init 2 (costs l) false s0 0) as R; nrm R.
  apply (a_pass 2 (costs l) false s0 0 _ _ _) in R; [|reflexivity|reflexivity]. nrm R.
  apply (a_ok 2 (costs l) false s0 0 _ _ _ 0) in R; [|reflexivity]. nrm R.
  apply (a_model 2 (costs l) false s0 0 _ _ _ [4294967296; 0]) in R; [|reflexivity|left; reflexivity|apply lexb_within; reflexivity]. nrm R.
  apply (a_pass 2 (costs l) false s0 0 _ _ _) in R; [|reflexivity|reflexivity]. nrm R.
  apply (a_ok 2 (costs l) false s0 0 _ _ _ 1) in R; [|reflexivity]. nrm R.
  destruct R as [st [R [E1 [E2 E3]]]].
  assert (S : step 2 (costs l) false st (setTh (setSh st (setOptimum (g_sh st) [4294967296; 5])) 0 (move (g_th st 0%nat) (doubleStep (t_dm (g_th st 0%nat))) Idle))).
  { apply st_model; rewrite ?E1, ?E2; [reflexivity|reflexivity|right; left; reflexivity|apply lexb_within; reflexivity]. }
  exists st. eexists. split; [exact R|]. split; [eapply r_step; [exact R|exact S]|]. split; [exact S|]. cbn [setTh setSh g_sh]. rewrite E1. split; [reflexivity|split; reflexivity].
Qed.
Print Assumptions c24_zero_step_refuted.

(** A user bound that no model meets, and a hierarchic solver: after each failure the solver says that there is more to do and starts again with the same bound.
    (In the code, the loop ends if the solver can derive on level 0 that the tag literal of the constraint is false; that test is not modelled.) *)
Section Loop.
Let l := [[7; 0]].
Let B0 := [5; bMax].
Let s0 := init 2 B0 [0; 0] (fun _ => Hier) (all l) yes.
Definition oneRound (st : state) : state :=
  let x := g_th st 0%nat in
  match t_pc x with
  | Idle => setTh st 0 (afterPass 2 x false (s_gen (g_sh st)) (passFrom 2 2 0 (appLev0 2 false (t_dm x)) (upper (g_sh st)) (s_lower (g_sh st)) (t_dm x)))
  | Returned _ _ => setTh st 0 (move x (relaxBound 2 false (g_sh st) (t_dm x)) Stopped)
  | _ => let r := handleUnsat 2 (t_share x) (g_sh st) (t_dm x) in
         setTh (addRep (setSh st (snd (fst r))) (snd (fst (fst r)))) 0 (move x (snd r) (if fst (fst (fst r)) then Idle else Done))
  end.
Let J (st : state) : Prop := g_sh st = g_sh s0 /\ (exists a d p, g_th st 0%nat = Th d p (costs l) true /\ (a = 0 - bMax \/ a = 0) /\
  ((p = Idle /\ d = DM [bMax; bMax] [a; 0] Hier 1 0) \/ (p = Returned true 0 /\ d = DM B0 [0; 0] Hier 1 0) \/ (p = Stopped /\ d = DM [bMax; bMax] [0; 0] Hier 1 0))).
Lemma round_ok : forall st, J st -> J (oneRound st) /\ step 2 (costs l) false st (oneRound st) /\ t_pc (g_th st 0%nat) <> Done.
Proof.
  intros st [HS [a [d [p [HT [HA HC]]]]]]. unfold oneRound. rewrite HT. cbn [t_pc t_dm t_share]. destruct HC as [[-> ->]|[[-> ->]|[-> ->]]].
  - split; [|split; [|discriminate]].
    + split; [exact HS|]. exists 0, (DM B0 [0; 0] Hier 1 0), (Returned true 0). cbn [setTh g_th Nat.eqb]. rewrite HS. split; [destruct HA as [->| ->]; reflexivity|]. split; [right; reflexivity|]. right. left. split; reflexivity.
    + rewrite <- HT. replace (DM [bMax; bMax] [a; 0] Hier 1 0) with (t_dm (g_th st 0%nat)) by (rewrite HT; reflexivity). apply st_pass; auto; rewrite ?HT, ?HS; auto.
  - split; [|split; [|discriminate]].
    + split; [exact HS|]. exists 0, (DM [bMax; bMax] [0; 0] Hier 1 0), Stopped. cbn [setTh g_th Nat.eqb]. rewrite HS. split; [reflexivity|]. split; [right; reflexivity|]. right. right. split; reflexivity.
    + rewrite <- HT. replace (DM B0 [0; 0] Hier 1 0) with (t_dm (g_th st 0%nat)) by (rewrite HT; reflexivity).
      apply (st_reject 2 (costs l) false st 0%nat (g_th st 0%nat) 0%nat); auto; rewrite ?HT, ?HS; auto. apply costs_not. reflexivity.
  - split; [|split; [|discriminate]].
    + rewrite HS. split; [reflexivity|]. exists 0, (DM [bMax; bMax] [0; 0] Hier 1 0), Idle. cbn [setTh setSh addRep g_th Nat.eqb]. split; [reflexivity|]. split; [right; reflexivity|]. left. split; reflexivity.
    + rewrite <- HT. apply (st_fail 2 (costs l) false st 0%nat (g_th st 0%nat) _ _ _ _ eq_refl); [rewrite HT; reflexivity|]. rewrite HT, HS. vm_compute. reflexivity.
Qed.
Theorem c24_unsat_bound_loops_refuted :
  Setting 2 (costs l) B0 [0; 0] (fun _ => Hier) (all l) yes /\ (forall c, costs l c -> ~ lexLe 2 c B0) /\
  exists f : nat -> state, f 0%nat = s0 /\ (forall i, step 2 (costs l) false (f i) (f (S i))) /\ forall i, g_sh (f i) = g_sh s0 /\ t_pc (g_th (f i) 0%nat) <> Done.
Proof.
  split; [|split].
  - constructor; [apply problem_ok; reflexivity|apply all_paths| |].
    + intros [t [X|X]]; discriminate.
    + intros i I. assert (i = 1%nat) as -> by lia. reflexivity.
  - intros c [<-|[]] X. apply lexb_le in X. discriminate.
  - exists (fun i => Nat.iter i oneRound s0).
    assert (A : forall i, J (Nat.iter i oneRound s0)).
    { induction i as [|i IH]; [|cbn [Nat.iter]; apply round_ok, IH]. split; [reflexivity|]. exists (0 - bMax). eexists. eexists. split; [reflexivity|]. split; auto. }
    split; [reflexivity|]. split; intros i; [apply (round_ok _ (A i))|]. split; [apply (A i)|apply (round_ok _ (A i))].
Qed.
End Loop.
Print Assumptions c24_unsat_bound_loops_refuted.

(** The hypotheses of the theorems can be met: four solvers of different types, one with half of the models, and a run in which one of them finds two models and
    proves that the second one is optimal. *)
Definition exTy (t : nat) : stype := match t with 0%nat => Dec | 1%nat => Hier | 2%nat => Inc | _ => Lin end.
Definition exL : list cost := [[9; 3]; [4; 8]; [4; 6]; [12; 0]].
Definition exP (t : nat) : cost -> Prop := if Nat.eqb t 3 then costs [[9; 3]; [4; 8]] else costs exL.
Example c24_setting_nonvacuous : Setting 2 (costs exL) [10; bMax] [0; 0] exTy exP (fun t => negb (Nat.eqb t 3)).
Proof.
  constructor; [apply problem_ok; reflexivity| | |].
  - intros t. unfold exP. destruct (Nat.eqb t 3); cbn [negb]; split; auto; try discriminate. intros c [<-|[<-|[]]]; [left; auto|right; left; auto].
  - intros _ c i [<-|[<-|[<-|[<-|[]]]]] I; (destruct i as [|[|i]]; [cbn; lia|cbn; lia|lia]).
  - intros i I. assert (i = 1%nat) as -> by lia. reflexivity.
Qed.
Example c24_run_nonvacuous : exists st, reach 2 (costs exL) false (init 2 [10; bMax] [0; 0] exTy exP (fun t => negb (Nat.eqb t 3))) st /\
  t_pc (g_th st 1%nat) = Done /\ (forall c, costs exL c -> t_path (g_th st 1%nat) c) /\ upper (g_sh st) = [4; 6] /\ g_rep st = [(1%nat, 6); (0%nat, 4)].
Proof.
  set (s0 := init 2 [10; bMax] [0; 0] exTy exP (fun t => negb (Nat.eqb t 3))).
  pose proof (a_init 2 (costs exL) false s0 1) as R; nrm R.
  apply (a_pass 2 (costs exL) false s0 1 _ _ _) in R; [|reflexivity|reflexivity]. nrm R.
  apply (a_ok 2 (costs exL) false s0 1 _ _ _ 0) in R; [|reflexivity]. nrm R.
  apply (a_model 2 (costs exL) false s0 1 _ _ _ [9; 3]) in R; [|reflexivity|left; reflexivity|apply lexb_within; reflexivity]. nrm R.
  apply (a_pass 2 (costs exL) false s0 1 _ _ _) in R; [|reflexivity|reflexivity]. nrm R.
  apply (a_ok 2 (costs exL) false s0 1 _ _ _ 1) in R; [|reflexivity]. nrm R.
  apply (a_model 2 (costs exL) false s0 1 _ _ _ [4; 6]) in R; [|reflexivity|right; right; left; reflexivity|apply lexb_within; reflexivity]. nrm R.
  apply (a_pass 2 (costs exL) false s0 1 _ _ _) in R; [|reflexivity|reflexivity]. nrm R.
  apply (a_ok 2 (costs exL) false s0 1 _ _ _ 2) in R; [|reflexivity]. nrm R.
  apply (a_unsat 2 (costs exL) false s0 1 _ _ _ 2) in R; [|reflexivity|apply costs_not; reflexivity]. nrm R.
  apply (a_pass 2 (costs exL) false s0 1 _ _ _) in R; [|reflexivity|reflexivity]. nrm R.
  apply (a_ok 2 (costs exL) false s0 1 _ _ _ 2) in R; [|reflexivity]. nrm R.
  apply (a_unsat 2 (costs exL) false s0 1 _ _ _ 2) in R; [|reflexivity|apply costs_not; reflexivity]. nrm R.
  destruct R as [st [R [E1 [E2 E3]]]]. exists st. rewrite E1, E2, ?E3. split; [exact R|]. split; [reflexivity|]. split; [intros c C; exact C|]. split; reflexivity.
Qed.
Example c24_linear_nonvacuous : exists st, reach 2 (costs exL) false (init 2 [9; 5] [0; 0] (fun _ => Lin) (all exL) yes) st /\
  Problem 2 (costs exL) [9; 5] [0; 0] /\ t_pc (g_th st 0%nat) = Done /\ upper (g_sh st) = [4; 6] /\ s_lower (g_sh st) = [0; 0].
Proof.
  set (s0 := init 2 [9; 5] [0; 0] (fun _ => Lin) (all exL) yes).
  pose proof (a_init 2 (costs exL) false s0 0) as R; nrm R.
  apply (a_pass 2 (costs exL) false s0 0 _ _ _) in R; [|reflexivity|reflexivity]. nrm R.
  apply (a_ok 2 (costs exL) false s0 0 _ _ _ 0) in R; [|reflexivity]. nrm R.
  apply (a_model 2 (costs exL) false s0 0 _ _ _ [4; 6]) in R; [|reflexivity|right; right; left; reflexivity|apply lexb_within; reflexivity]. nrm R.
  apply (a_pass 2 (costs exL) false s0 0 _ _ _) in R; [|reflexivity|reflexivity]. nrm R.
  apply (a_ok 2 (costs exL) false s0 0 _ _ _ 1) in R; [|reflexivity]. nrm R.
  apply (a_unsat 2 (costs exL) false s0 0 _ _ _ 1) in R; [|reflexivity|apply costs_not; reflexivity]. nrm R.
  destruct R as [st [R [E1 [E2 E3]]]]. exists st. rewrite E1, E2, ?E3. split; [exact R|]. split; [apply problem_ok; reflexivity|]. split; [reflexivity|]. split; reflexivity.
Qed.
