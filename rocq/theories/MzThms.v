(** C23: propagation with a minimize constraint. *)
From Coq Require Import List Bool Arith ZArith Lia Permutation Sorted.
From Verif Require Import Base MnModel MnSpec MnProofs MnProofs2 MnProofs3 MnProofs4 MnProofs5 MnProofs6 MzModel MzSpec MzProofs MzProofs2 MzProofs3 MzProofs4 MzProofs5 MzProofs6 MzProofs7 MzProofs8.
Import ListNotations.
Open Scope Z_scope.

Lemma con_dok : forall d, Constructed d -> DOk d.
Proof. intros d [s [l [T [E [B L]]]]]. apply (dok s l d T E B L). Qed.
Lemma con_si : forall d s, Constructed d -> reach d s -> SI d s.
Proof. intros d s C R. apply (reach_si d (con_dok d C) s R). Qed.

(** A literal forced by the constraint has a reason: literals that are true on levels not above the level on which the literal is implied, and every total assignment
    that satisfies these literals but not the forced one exceeds the bound for which it was forced. *)
Theorem c23_reason : forall d e c mo b v m stop B, Constructed d -> reach d (St e c mo b) -> v_asn e v = Some m -> e_why m = Some (stop, B) ->
  (e_eff m <= e_lev m <= v_dl e)%nat /\
  (forall l, In l (reason d c stop) -> isTrue (pv e) l = true /\ (levelOf e (fst l) <= e_eff m)%nat /\ fst l <> v) /\
  (forall a, (forall l, In l (reason d c stop) -> holds a l = true) -> a v = negb (e_val m) -> exceeds d a B).
Proof.
  intros d e c mo b v m stop B CD R A W. pose proof (con_dok d CD) as DO. destruct (con_si d _ CD R) as [I _]. cbn [t_e t_c t_base] in I. pose proof (n_ci _ _ _ _ I) as C.
  destruct (n_why _ _ _ _ I v m stop B A W) as [i [I1 [I2 [I3 [I4 [I5 I6]]]]]]. pose proof (n_lev _ _ _ _ I v m A).
  assert (RI : forall l, In l (reason d c stop) <-> exists u, In u (map fst (bottom stop (c_undo c))) /\ l = litAt d u).
  { intros l. unfold reason. rewrite in_map_iff. split.
    - intros [x [X1 X2]]. apply in_rev in X2. exists (fst x). split; auto. apply in_map; auto.
    - intros [u [U ->]]. apply in_map_iff in U. destruct U as [x [X1 X2]]. exists x. split; [rewrite X1; auto|]. apply in_rev. rewrite rev_involutive. auto. }
  assert (NI : forall u, In u (map fst (bottom stop (c_undo c))) -> u <> i).
  { intros u U ->. destruct (i_in _ _ _ _ _ C i (bot_in _ _ _ U)) as [_ V]. apply (true_not_false e (litAt d i) (e_eff m)); auto. exists m. rewrite I2. sp; auto. }
  sp; try lia.
  - intros l L. apply RI in L. destruct L as [u [U ->]]. destruct (i_in _ _ _ _ _ C u (bot_in _ _ _ U)) as [V1 V2]. sp; auto; [apply (I5 u U)|]. rewrite <- I2. intros E. apply (NI u U). apply (var_inj d DO); auto.
  - intros a H1 H2. apply (exceed d DO a (i :: map fst (bottom stop (c_undo c)))).
    + constructor; [intros X; apply (NI i X); auto|apply bot_nd, (i_nd _ _ _ _ _ C)].
    + intros u [<- |U]; [split; auto; unfold holds; rewrite I2, H2, I3; destruct (snd (litAt d i)); auto|]. split; [apply (i_in _ _ _ _ _ C u (bot_in _ _ _ U))|]. apply H1, RI. exists u. auto.
    + eapply gt_ext; [|exact I6]. intros j _. cbn [sumI]. lia.
Qed.
Print Assumptions c23_reason.

(** A literal is only forced with the bound currently in use. *)
Theorem c23_reason_bound : forall d s s' v m stop B, step d s s' -> v_asn (t_e s') v = Some m -> e_why m = Some (stop, B) ->
  (exists m0, v_asn (t_e s) v = Some m0 /\ e_why m0 = Some (stop, B)) \/ B = c_opt (t_c s').
Proof. intros d s s' v m stop B ST A W. apply (step_old d s s' ST v m stop B A W). Qed.
Print Assumptions c23_reason_bound.

(** If propagation fails then every total assignment that extends the current one exceeds the bound. *)
Theorem c23_conflict : forall d e c b i e' c' a, Constructed d -> reach d (St e c Ready b) -> (i < length (lits d))%nat -> c_seen c i = false -> isTrue (pv e) (litAt d i) = true -> levelOf e (fst (litAt d i)) = v_dl e ->
  propagate d e c i = (false, e', c') -> extends a (pv e') -> exceeds d a (c_opt c).
Proof.
  intros d e c b i e' c' a CD R L SN V LV P E. pose proof (con_dok d CD) as DO. destruct (con_si d _ CD R) as [I [M1 M2]]. cbn [t_e t_c t_base t_m] in *.
  destruct (propagate_spec d DO e c b i false e' c' I M1 L SN V LV P) as [I' [_ [O [IX [DL [PR CL]]]]]]. destruct (CL eq_refl) as [u [U1 [U2 [U3 U4]]]]. rewrite O in U4.
  apply (exceed d DO a (u :: idxs c')).
  - constructor; auto. apply (i_nd _ _ _ _ _ (n_ci _ _ _ _ I')).
  - intros x [<- |X]; [split; auto; apply (true_holds a e'); auto|]. destruct (i_in _ _ _ _ _ (n_ci _ _ _ _ I') x X) as [X1 X2]. split; auto. apply (true_holds a e'); auto.
  - eapply gt_ext; [|exact U4]. intros j _. cbn [sumI]. lia.
Qed.
Print Assumptions c23_conflict.
Theorem c23_conflict_bound : forall d e c b t bt e' c' a, Constructed d -> reach d (St e c (Pending t) b) -> (v_dl e <= t)%nat -> (b <= v_min e \/ b <= bt)%nat ->
  propagateImpl d true (setBt e bt) c = (false, e', c') -> extends a (pv e') -> exceeds d a (c_opt c).
Proof.
  intros d e c b t bt e' c' a CD R L BT P E. pose proof (con_dok d CD) as DO. assert (R' : reach d (St e' c' (Pending t) b)) by (eapply r_step; [exact R|]; apply (s_integrate d e c b t bt false e' c'); auto).
  destruct (con_si d _ CD R') as [I' _]. destruct (con_si d _ CD R) as [I [M1 [M2 M3]]]. cbn [t_e t_c t_base t_m] in *. 
  assert (CL : Clash d e' c' /\ c_opt c' = c_opt c).
  { pose proof P as P0. unfold propagateImpl in P. destruct (old_loop d _ _ _ _ _ _ _ _ _ _ _ P) as [_ O]. split; auto. clear P.
    apply (integrate_spec d DO e c b t bt false e' c' I (conj M1 (conj M2 M3)) L BT P0). auto. }
  destruct CL as [[u [U1 [U2 [U3 U4]]]] O]. rewrite O in U4.
  apply (exceed d DO a (u :: idxs c')).
  - constructor; auto. apply (i_nd _ _ _ _ _ (n_ci _ _ _ _ I')).
  - intros x [<- |X]; [split; auto; apply (true_holds a e'); auto|]. destruct (i_in _ _ _ _ _ (n_ci _ _ _ _ I') x X) as [X1 X2]. split; auto. apply (true_holds a e'); auto.
  - eapply gt_ext; [|exact U4]. intros j _. cbn [sumI]. lia.
Qed.
Print Assumptions c23_conflict_bound.

(** Propagation is complete: if no propagation is pending and literal [i] is not false then it can be made true without exceeding the bound. *)
Theorem c23_complete : forall d e c b i, Constructed d -> reach d (St e c Ready b) -> informed d e c (v_dl e) -> (i < length (lits d))%nat -> isFalse (pv e) (litAt d i) = false ->
  exists a, extends a (pv e) /\ holds a (litAt d i) = true /\ ~ exceeds d a (c_opt c).
Proof.
  intros d e c b i CD R IN L NF. pose proof (con_dok d CD) as DO. destruct (con_si d _ CD R) as [I [M1 M2]]. cbn [t_e t_c t_base t_m] in *. pose proof (n_ci _ _ _ _ I) as C.
  set (P := fun j => isTrue (pv e) (litAt d j) || Nat.eqb j i). exists (mk d P (fun v => match pv e v with Some x => x | None => false end)).
  assert (IDX : forall j, (j < length (lits d))%nat -> isTrue (pv e) (litAt d j) = true -> In j (idxs c)).
  { intros j J T. apply (i_seen _ _ _ _ _ C). apply IN; auto. unfold levelOf. destruct (v_asn e (fst (litAt d j))) as [m|] eqn:A; [|lia]. apply (n_lev _ _ _ _ I _ _ A). }
  sp.
  - intros v x X. unfold mk. destruct (find (fun j => Nat.eqb (fst (litAt d j)) v) (seq 0 (length (lits d)))) as [j|] eqn:F; [|rewrite X; auto].
    apply find_some in F. destruct F as [F1 F2]. apply in_seq in F1. apply Nat.eqb_eq in F2. subst v. unfold P.
    destruct (Nat.eqb_spec j i) as [->|NE].
    + rewrite orb_true_r. unfold isFalse, pval in NF. rewrite X in NF. cbn in NF. destruct x, (snd (litAt d i)); cbn in *; congruence.
    + rewrite orb_false_r. unfold isTrue, pval. rewrite X. cbn. destruct x, (snd (litAt d j)); auto.
  - rewrite mk_holds by auto. unfold P. rewrite Nat.eqb_refl. apply orb_true_r.
  - destruct (in_dec Nat.eq_dec i (idxs c)) as [S|S].
    + apply (no_exceed d DO _ (idxs c)); auto; [apply (i_nd _ _ _ _ _ C)|intros u U; apply (i_in _ _ _ _ _ C u U)|]. intros j J H. rewrite mk_holds in H by auto. unfold P in H. apply orb_prop in H. destruct H as [H|H]; [auto|apply Nat.eqb_eq in H; subst; auto].
    + apply (no_exceed d DO _ (i :: idxs c)).
      * constructor; auto. apply (i_nd _ _ _ _ _ C).
      * intros u [<- |U]; auto. apply (i_in _ _ _ _ _ C u U).
      * intros j J H. rewrite mk_holds in H by auto. unfold P in H. apply orb_prop in H. destruct H as [H|H]; [right; auto|apply Nat.eqb_eq in H; subst; left; auto].
      * intros G. pose proof (n_base _ _ _ _ I). assert (F : falseAt e (litAt d i) (v_dl e)). { apply (M1 i (v_dl e)); [auto|lia|intros X; destruct (S X)|]. eapply gt_ext; [|exact G]. intros j _. cbn beta. rewrite (sk_all d e c b) by auto. cbn [sumI]. lia. }
        apply false_val in F. congruence.
Qed.
Print Assumptions c23_complete.

(** ... and literals are forced on the lowest possible level: unless literal [i] is known to be false on level [k], it can be made true together with the literals
    that are true on level [k] without exceeding the bound. *)
Theorem c23_level : forall d e c b i k, Constructed d -> reach d (St e c Ready b) -> (b <= k <= v_dl e)%nat -> informed d e c k -> (i < length (lits d))%nat -> ~ falseOn e (litAt d i) k ->
  exists a, (forall j, (j < length (lits d))%nat -> isTrue (pv e) (litAt d j) = true -> (levelOf e (fst (litAt d j)) <= k)%nat -> holds a (litAt d j) = true) /\ holds a (litAt d i) = true /\ ~ exceeds d a (c_opt c).
Proof.
  intros d e c b i k CD R K IN L NF. pose proof (con_dok d CD) as DO. destruct (con_si d _ CD R) as [I [M1 M2]]. cbn [t_e t_c t_base t_m] in *. pose proof (n_ci _ _ _ _ I) as C.
  set (P := fun j => (isTrue (pv e) (litAt d j) && Nat.leb (lv d e j) k) || Nat.eqb j i). exists (mk d P (fun _ => false)).
  set (F := filter (fun j => Nat.leb (lv d e j) k) (idxs c)).
  assert (IDX : forall j, (j < length (lits d))%nat -> isTrue (pv e) (litAt d j) && Nat.leb (lv d e j) k = true -> In j F).
  { intros j J T. apply andb_prop in T. destruct T as [T1 T2]. apply filter_In. split; auto. apply Nat.leb_le in T2. apply (i_seen _ _ _ _ _ C). apply IN; auto. }
  assert (FI : forall u, In u F -> In u (idxs c)) by (intros u U; apply filter_In in U; apply U).
  assert (FN : NoDup F) by (apply NoDup_filter, (i_nd _ _ _ _ _ C)).
  sp.
  - intros j J T LE. rewrite mk_holds by auto. unfold P. rewrite T. rewrite (proj2 (Nat.leb_le (lv d e j) k) LE). auto.
  - rewrite mk_holds by auto. unfold P. rewrite Nat.eqb_refl. apply orb_true_r.
  - destruct (in_dec Nat.eq_dec i F) as [S|S].
    + apply (no_exceed d DO _ (idxs c)); auto; [apply (i_nd _ _ _ _ _ C)|intros u U; apply (i_in _ _ _ _ _ C u U)|]. intros j J H. rewrite mk_holds in H by auto. unfold P in H. apply orb_prop in H. destruct H as [H|H]; [auto|apply Nat.eqb_eq in H; subst; auto].
    + apply (no_exceed d DO _ (i :: F)).
      * constructor; auto.
      * intros u [<- |U]; auto. apply (i_in _ _ _ _ _ C u (FI u U)).
      * intros j J H. rewrite mk_holds in H by auto. unfold P in H. apply orb_prop in H. destruct H as [H|H]; [right; auto|apply Nat.eqb_eq in H; subst; left; auto].
      * intros G. apply NF. apply (M1 i k L K).
        -- intros X. destruct (Nat.le_gt_cases (lv d e i) k) as [Q|Q]; auto. exfalso. apply S. apply filter_In. split; auto. apply Nat.leb_le; auto.
        -- eapply gt_ext; [|exact G]. intros j _. cbn [sumI]. unfold Sk, F. lia.
Qed.
Print Assumptions c23_level.

(** If all literals of the constraint are assigned then the bound is respected. *)
Theorem c23_total : forall d e c b a, Constructed d -> reach d (St e c Ready b) -> informed d e c (v_dl e) -> (forall i, (i < length (lits d))%nat -> v_asn e (fst (litAt d i)) <> None) -> extends a (pv e) -> ~ exceeds d a (c_opt c).
Proof.
  intros d e c b a CD R IN TO E. pose proof (con_dok d CD) as DO. destruct (con_si d _ CD R) as [I [M1 M2]]. cbn [t_e t_c t_base t_m] in *. pose proof (n_ci _ _ _ _ I) as C.
  apply (no_exceed d DO _ (idxs c)); auto; [apply (i_nd _ _ _ _ _ C)|intros u U; apply (i_in _ _ _ _ _ C u U)|]. intros j J H. specialize (TO j J). destruct (v_asn e (fst (litAt d j))) as [m|] eqn:A; [|congruence].
  apply (i_seen _ _ _ _ _ C). apply IN; auto; [|unfold levelOf; rewrite A; apply (n_lev _ _ _ _ I _ _ A)]. apply ent_val with m; auto. unfold holds in H. rewrite (E (fst (litAt d j)) (e_val m)) in H by (unfold pv; rewrite A; auto). destruct (e_val m), (snd (litAt d j)); cbn in *; congruence.
Qed.
Print Assumptions c23_total.

(** The sums kept by the constraint are those of any assignment whose true literals are the ones the constraint was told about. *)
Theorem c23_sum : forall d e c mo b a lev, Constructed d -> reach d (St e c mo b) -> (forall i, (i < length (lits d))%nat -> holds a (litAt d i) = c_seen c i) -> nth lev (c_sum c) 0 = dataSum d lev a.
Proof.
  intros d e c mo b a lev CD R H. pose proof (con_dok d CD) as DO. destruct (con_si d _ CD R) as [I _]. cbn [t_e t_c t_base t_m] in *. pose proof (n_ci _ _ _ _ I) as C.
  rewrite (i_sum _ _ _ _ _ C), data_sum. apply sumI_perm. apply NoDup_Permutation; [apply (i_nd _ _ _ _ _ C)|apply trues_nd|]. intros i. rewrite trues_in. rewrite <- (i_seen _ _ _ _ _ C i). split.
  - intros S. assert (L : (i < length (lits d))%nat) by (apply (i_in _ _ _ _ _ C i), (i_seen _ _ _ _ _ C i); auto). split; auto. rewrite H; auto.
  - intros [L S]. rewrite <- H; auto.
Qed.
Print Assumptions c23_sum.

(** A new bound: integrateBound gives up only if every assignment that agrees with the root level exceeds the bound.  Otherwise the level it goes back to is the highest
    one whose literals do not violate the bound. *)
Theorem c23_exhausted : forall d e c b B (reset : bool) m root c' a, Constructed d -> reach d (St e c Ready b) -> length B = numRules d -> (m <= root <= v_dl e)%nat ->
  (if reset then b = 0%nat \/ b = m else (b = 0%nat \/ b = v_dl e) /\ root = v_dl e /\ nth 0 (c_opt c) 0 = maxBound) ->
  target d (setMin e m) (newBound c B reset) root = (None, c') -> agrees a e root -> exceeds d a B.
Proof.
  intros d e c b B reset m root c' a CD R LB MR PR T AG. pose proof (con_dok d CD) as DO. destruct (con_si d _ CD R) as [I [M1 M2]]. cbn [t_e t_c t_base t_m] in *. pose proof (n_ci _ _ _ _ I) as C.
  destruct (target_spec d DO e c b B reset m root None c' I ltac:(unfold BoundPre; auto) T) as [x [_ [_ G]]].
  apply (exceed d DO a (filter (fun j => Nat.leb (lv d e j) root) (idxs c))); auto.
  - apply NoDup_filter, (i_nd _ _ _ _ _ C).
  - intros u U. apply filter_In in U. destruct U as [U1 U2]. apply Nat.leb_le in U2. destruct (i_in _ _ _ _ _ C u U1) as [X1 X2]. split; auto. apply (agree_holds d a e u root); auto.
Qed.
Print Assumptions c23_exhausted.
Theorem c23_target : forall d e c b B (reset : bool) m root t c', Constructed d -> reach d (St e c Ready b) -> length B = numRules d -> (m <= root <= v_dl e)%nat ->
  (if reset then b = 0%nat \/ b = m else (b = 0%nat \/ b = v_dl e) /\ root = v_dl e /\ nth 0 (c_opt c) 0 = maxBound) ->
  target d (setMin e m) (newBound c B reset) root = (Some t, c') ->
  (t <= v_dl e)%nat /\
  (informed d e c t -> exists a, (forall j, (j < length (lits d))%nat -> isTrue (pv e) (litAt d j) = true -> (levelOf e (fst (litAt d j)) <= t)%nat -> holds a (litAt d j) = true) /\ ~ exceeds d a B) /\
  ((t < v_dl e)%nat -> forall a, agrees a e (S t) -> exceeds d a B).
Proof.
  intros d e c b B reset m root t c' CD R LB MR PR T. pose proof (con_dok d CD) as DO. destruct (con_si d _ CD R) as [I [M1 M2]]. cbn [t_e t_c t_base t_m] in *. pose proof (n_ci _ _ _ _ I) as C.
  destruct (target_spec d DO e c b B reset m root (Some t) c' I ltac:(unfold BoundPre; auto) T) as [x [_ [_ [G1 [G2 G3]]]]]. sp; auto.
  - intros IN. set (P := fun j => isTrue (pv e) (litAt d j) && Nat.leb (lv d e j) t). exists (mk d P (fun _ => false)). split.
    + intros j J TR LE. rewrite mk_holds by auto. unfold P. rewrite TR. rewrite (proj2 (Nat.leb_le (lv d e j) t) LE). auto.
    + apply (no_exceed d DO _ (filter (fun j => Nat.leb (lv d e j) t) (idxs c))); auto; [apply NoDup_filter, (i_nd _ _ _ _ _ C)| |].
      * intros u U. apply filter_In in U. apply (i_in _ _ _ _ _ C u), U.
      * intros j J H. rewrite mk_holds in H by auto. unfold P in H. apply andb_prop in H. destruct H as [H1 H2]. apply filter_In. split; auto. apply Nat.leb_le in H2. apply (i_seen _ _ _ _ _ C). apply IN; auto.
  - intros TL a AG. apply (exceed d DO a (filter (fun j => Nat.leb (lv d e j) (S t)) (idxs c))); auto.
    + apply NoDup_filter, (i_nd _ _ _ _ _ C).
    + intros u U. apply filter_In in U. destruct U as [U1 U2]. apply Nat.leb_le in U2. destruct (i_in _ _ _ _ _ C u U1) as [X1 X2]. split; auto. apply (agree_holds d a e u (S t)); auto.
Qed.
Print Assumptions c23_target.

(** A history with two priorities: bound [3; 1] is integrated on level 0, then literal 3 becomes true on level 1 and the constraint forces the negation of literal 1. *)
Definition exTop : pasg := fun v => if Nat.eqb v 0 then Some true else None.
Definition exD : data := match build exTop [ML (1%nat, false) 2 3; ML (2%nat, false) 1 2; ML (3%nat, false) 2 1; ML (1%nat, false) 1 1] with Ok (Some d) => d | _ => D [] [] [] [] [] end.
Definition exT := target exD (Ev (fun _ => None) 0 [] 0 0) (newBound (attach exD) [3; 1] true) 0.
Definition exI := propagateImpl exD true (setBt (setMin (Ev (fun _ => None) 0 [] 0 0) 0) 0) (snd exT).
Definition exL := Ev (v_asn (snd (fst exI))) (S (v_dl (snd (fst exI)))) (v_uw (snd (fst exI))) (v_min (snd (fst exI))) (v_bt (snd (fst exI))).
Definition exA := setAsn exL 3 (En true 1 1 None).
Definition exP := propagate exD exA (snd exI) 1.
Definition exQ := propagate exD (setAsn exA 1 (En true 1 1 None)) (snd exI) 1.
Lemma exReady : reach exD (St exA (snd exI) Ready 0).
Proof.
  eapply r_step; [|exact (s_assign exD exL (snd exI) Ready 0 (3%nat, false) 1 eq_refl (le_n 1))].
  eapply r_step; [|apply s_level].
  eapply r_step; [|change Ready with (if true then Ready else Pending 0); apply (s_integrate exD (setMin (Ev (fun _ => None) 0 [] 0 0) 0) (snd exT) 0 0 0 true)].
  - eapply r_step; [apply r_init|]. apply (s_bound exD (Ev (fun _ => None) 0 [] 0 0) (attach exD) 0 [3; 1] true 0 0 0 (snd exT)); [reflexivity|split; apply le_n|left; reflexivity|vm_compute; reflexivity].
  - apply le_n.
  - left. apply le_n.
  - vm_compute. reflexivity.
Qed.
Example c23_nonvacuous : Constructed exD /\ length (lits exD) = 3%nat /\ numRules exD = 2%nat /\
  (exists e c m, reach exD (St e c Ready 0) /\ informed exD e c (v_dl e) /\ v_asn e 1 = Some m /\ e_why m = Some (1%nat, [3; 1]) /\ e_val m = false /\ isFalse (pv e) (2%nat, false) = false) /\
  (exists e c e' c', reach exD (St e c Ready 0) /\ propagate exD e c 1 = (false, e', c')) /\
  (exists e c c', reach exD (St e c Ready 0) /\ target exD (setMin e 0) (newBound c [-1; 0] true) 0 = (None, c')).
Proof.
  sp; try reflexivity.
  - exists exTop, [ML (1%nat, false) 2 3; ML (2%nat, false) 1 2; ML (3%nat, false) 2 1; ML (1%nat, false) 1 1]. sp; [reflexivity| |reflexivity|vm_compute; discriminate]. exists (fun _ => true). intros v b H. unfold exTop in H. destruct (Nat.eqb v 0); congruence.
  - exists (snd (fst exP)), (snd exP), (En false 1 1 (Some (1%nat, [3; 1]))). sp; try (vm_compute; reflexivity).
    + eapply r_step; [apply exReady|]. change Ready with (if true then Ready else Conflict) at 2. apply (s_prop exD exA (snd exI) 0 1 true); try (vm_compute; reflexivity). vm_compute. repeat constructor.
    + intros i L T _. vm_compute in L. destruct i as [|[|[|i]]]; [vm_compute in T; discriminate|vm_compute; reflexivity|vm_compute in T; discriminate|lia].
  - exists (setAsn exA 1 (En true 1 1 None)), (snd exI), (snd (fst exQ)), (snd exQ). split; [|vm_compute; reflexivity]. eapply r_step; [apply exReady|]. exact (s_assign exD exA (snd exI) Ready 0 (1%nat, false) 1 eq_refl (le_n 1)).
  - exists (Ev (fun _ => None) 0 [] 0 0), (attach exD). eexists. split; [apply r_init|]. vm_compute. reflexivity.
Qed.
