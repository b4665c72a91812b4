(** Theorems about the propagation of weight constraints (C10, C11).

    [reach k m] ranges over every run of a solver holding the constraint [k]:
    arbitrary assignments by the rest of the solver, arbitrary opening and
    undoing of decision levels, and the constraint's own propagation. *)
From Coq Require Import List Bool Arith ZArith Lia.
From Verif Require Import Base WcModel WcSpec WpModel WpSpec WpProofs.
Import ListNotations.
Local Open Scope Z_scope.

(** C10, reasons: for a literal forced by the constraint, every literal of the
    reason was on the trail before it, and the reason together with the constraint
    entails it. *)
Theorem c10_reasons_sound : forall k, good_con k -> forall m pre e post d,
  reach k m -> m_tr m = pre ++ e :: post -> t_reason e = Some d ->
  (forall r, In r (wc_reason k (m_w m) d) -> In r (map t_lit pre)) /\
  (forall a, con_meaning k a -> (forall r, In r (wc_reason k (m_w m) d) -> holds a r = true) -> holds a (t_lit e) = true).
Proof. exact reasons_sound. Qed.
Print Assumptions c10_reasons_sound.

(** C10, conflicts: the literal the constraint failed to force is false on the
    trail, its reason is on the trail and, with the constraint, entails it. *)
Theorem c10_conflicts_sound : forall k, good_con k -> forall m x d, reach k m -> m_conf m = Some (x, d) ->
  on_trail m (neg x) /\ (forall r, In r (wc_reason k (m_w m) d) -> on_trail m r) /\
  (forall a, con_meaning k a -> (forall r, In r (wc_reason k (m_w m) d) -> holds a r = true) -> holds a x = true).
Proof. exact conflicts_sound. Qed.
Print Assumptions c10_conflicts_sound.

(** C10, consequences are never missed: the four rules FTB, BFB, FFB and BTB of the
    class comment hold whenever there is nothing left to propagate. *)
Theorem c10_rules_applied : forall k, good_con k -> forall m, reach k m -> quiescent m ->
  (k_act k <> Some false ->
     (k_bound k <= sum_true (trail_lits m) (k_lits k) -> on_trail m (k_W k)) /\
     (on_trail m (neg (k_W k)) -> forall x w, In (x, w) (k_lits k) -> unassigned m x ->
        sum_true (trail_lits m) (k_lits k) + w < k_bound k)) /\
  (k_act k <> Some true ->
     (sum_reach (trail_lits m) (k_lits k) < k_bound k -> on_trail m (neg (k_W k))) /\
     (on_trail m (k_W k) -> forall x w, In (x, w) (k_lits k) -> unassigned m x ->
        k_bound k <= sum_reach (trail_lits m) (k_lits k) - w)).
Proof. exact rules. Qed.
Print Assumptions c10_rules_applied.

(** C10, no wrong model: a total assignment accepted by propagation satisfies the
    constraint. *)
Theorem c10_accepted_assignments_satisfy : forall k, good_con k -> forall m a, reach k m -> quiescent m ->
  extends_trail a m -> (forall x w, In (x, w) ((k_W k, 1) :: k_lits k) -> on_trail m x \/ on_trail m (neg x)) ->
  con_meaning k a.
Proof. exact models_ok. Qed.
Print Assumptions c10_accepted_assignments_satisfy.

(** C11: a level is opened in state [m]; whatever happens above it (including
    conflicts and further levels opened and undone), undoing it restores the
    trail, the queue, the undo watches, the bounds of both sub-constraints, the
    stack of processed literals and the processed flags of [m]. *)
Theorem c11_backtracking_restores : forall k, good_con k -> forall m m0 m1 m2,
  reach k m -> m_conf m = None -> m_front m = length (m_tr m) ->
  m0 = Mach (m_tr m) (m_front m) (length (m_tr m) :: m_starts m) (m_w m) (m_undo m) None ->
  run_above k (S (m_dl m)) m0 m1 -> mstep k m1 m2 -> m_dl m2 = m_dl m ->
  m_tr m2 = m_tr m /\ m_front m2 = m_front m /\ m_starts m2 = m_starts m /\ m_undo m2 = m_undo m /\
  stack_ (m_w m2) = stack_ (m_w m) /\ (forall c, bound_ (m_w m2) c = bound_ (m_w m) c) /\
  (forall i, seen_ (m_w m2) i = seen_ (m_w m) i).
Proof. exact undo_restores. Qed.
Print Assumptions c11_backtracking_restores.

(** ** Concrete runs *)
(** W == (a=2, b=1, c=1) >= 3 *)
Definition exk : wcon := WCon (1%nat, false) [((2%nat, false), 2); ((3%nat, false), 1); ((4%nat, false), 1)] 3 None.
Example exk_good : good_con exk.
Proof.
  split; cbn.
  - repeat constructor; cbn; intuition discriminate.
  - intros e [<-|[<-|[<-|[]]]]; cbn; lia.
  - repeat split; cbn; intuition (subst; cbn; lia).
  - split; intros _; lia.
Qed.
Definition do_prop (k : wcon) (m : mach) : mach :=
  match nth_error (m_tr m) (m_front m) with
  | None => m
  | Some e =>
    match watch_of k (t_lit e) with
    | None => Mach (m_tr m) (S (m_front m)) (m_starts m) (m_w m) (m_undo m) None
    | Some (i, c) =>
      let '(tr, w, b, cf) := wc_propagate k (m_dl m) (m_tr m) (m_w m) i c in
      Mach tr (S (m_front m)) (m_starts m) w (if b then level (m_tr m) (t_lit e) :: m_undo m else m_undo m) cf
    end
  end.
Lemma do_prop_step k m : m_conf m = None -> nth_error (m_tr m) (m_front m) <> None -> mstep k m (do_prop k m).
Proof.
  intros C H. unfold do_prop. destruct (nth_error (m_tr m) (m_front m)) as [e|] eqn:E; [|congruence].
  destruct (watch_of k (t_lit e)) as [[i c]|] eqn:W; [|eapply ms_skip; eauto].
  destruct (wc_propagate k (m_dl m) (m_tr m) (m_w m) i c) as [[[tr w] b] cf] eqn:P. eapply ms_prop; eauto.
Qed.
Definition do_level (m : mach) : mach := Mach (m_tr m) (m_front m) (length (m_tr m) :: m_starts m) (m_w m) (m_undo m) None.
Definition do_assign (m : mach) (x : lit) : mach :=
  Mach (m_tr m ++ [TEnt x (m_dl m) None]) (m_front m) (m_starts m) (m_w m) (m_undo m) None.
Definition do_undo (k : wcon) (m : mach) : mach :=
  Mach (firstn (hd O (m_starts m)) (m_tr m)) (hd O (m_starts m)) (List.tl (m_starts m))
       (if existsb (Nat.eqb (m_dl m)) (m_undo m) then wc_undoLevel k (firstn (hd O (m_starts m)) (m_tr m)) (m_w m) else m_w m)
       (filter (fun l => negb (Nat.eqb l (m_dl m))) (m_undo m)) None.
(** level 1: W; a follows.  level 2: ~b; c follows. *)
Definition ex1 : mach := do_prop exk (do_prop exk (do_assign (do_level (m_init exk)) (1%nat, false))).
Definition ex2 : mach := do_prop exk (do_prop exk (do_assign (do_level ex1) (3%nat, true))).
(** level 2 with ~b and ~c: conflict *)
Definition ex3 : mach := do_prop exk (do_assign (do_assign (do_level ex1) (3%nat, true)) (4%nat, true)).
Ltac run := repeat first
  [ apply r_init
  | eapply r_step; [|apply do_prop_step; [vm_compute; reflexivity|vm_compute; discriminate]]
  | eapply r_step; [|apply ms_assign; [vm_compute; reflexivity|vm_compute; reflexivity]]
  | eapply r_step; [|apply ms_level; [vm_compute; reflexivity|vm_compute; reflexivity]] ].
Example ex1_reach : reach exk ex1. Proof. unfold ex1, do_assign, do_level. run. Qed.
Example ex2_reach : reach exk ex2. Proof. unfold ex2, do_assign, do_level. eapply r_step; [|apply do_prop_step; [vm_compute; reflexivity|vm_compute; discriminate]].
  eapply r_step; [|apply do_prop_step; [vm_compute; reflexivity|vm_compute; discriminate]].
  eapply r_step; [|apply ms_assign; [vm_compute; reflexivity|vm_compute; reflexivity]].
  eapply r_step; [|apply ms_level; [vm_compute; reflexivity|vm_compute; reflexivity]]. exact ex1_reach. Qed.
Example ex3_reach : reach exk ex3. Proof. unfold ex3, do_assign, do_level. eapply r_step; [|apply do_prop_step; [vm_compute; reflexivity|vm_compute; discriminate]].
  eapply r_step; [|apply ms_assign; [vm_compute; reflexivity|vm_compute; reflexivity]].
  eapply r_step; [|apply ms_assign; [vm_compute; reflexivity|vm_compute; reflexivity]].
  eapply r_step; [|apply ms_level; [vm_compute; reflexivity|vm_compute; reflexivity]]. exact ex1_reach. Qed.

Example c10_nonvacuous :
  quiescent ex2 /\ map t_lit (m_tr ex2) = [(1%nat, false); (2%nat, false); (3%nat, true); (4%nat, false)] /\
  map (fun e => option_map (wc_reason exk (m_w ex2)) (t_reason e)) (m_tr ex2) =
    [None; Some [(1%nat, false)]; None; Some [(1%nat, false); (3%nat, true)]] /\
  m_conf ex3 = Some ((4%nat, false), 2%nat) /\ wc_reason exk (m_w ex3) 2 = [(1%nat, false); (3%nat, true)].
Proof. repeat split. Qed.

Example c11_nonvacuous :
  let m2 := do_undo exk ex3 in
  run_above exk (S (m_dl ex1)) (do_level ex1) ex3 /\ mstep exk ex3 m2 /\ m_dl m2 = m_dl ex1 /\
  m_undo ex3 = [2; 1]%nat /\ map (bound_ (m_w ex3)) [false; true] = [0; 3] /\
  m_undo m2 = [1%nat] /\ map (bound_ (m_w m2)) [false; true] = [1; 3].
Proof.
  cbv zeta. split; [|split; [|repeat split]].
  - eapply ra_step; [|apply do_prop_step; [vm_compute; reflexivity|vm_compute; discriminate]|vm_compute; lia].
    eapply ra_step; [|apply ms_assign; [vm_compute; reflexivity|vm_compute; reflexivity]|vm_compute; lia].
    eapply ra_step; [|apply ms_assign; [vm_compute; reflexivity|vm_compute; reflexivity]|vm_compute; lia].
    apply ra_refl. vm_compute; lia.
  - apply ms_undo. vm_compute. reflexivity.
Qed.
