(** C57: watches asked for by a user-defined propagator. *)
From Coq Require Import List Arith Bool Lia.
From Verif Require Import Base PwSpec PwModel PwProofs PwProofs2.
Import ListNotations.

(** A solver that was initialised in this step, and in every step since it exists or not at all before, watches exactly what was asked for and not removed. *)
Theorem c57_exact : forall P C s, reach false P C s -> forall sid l, sid < 64 -> last s sid = step s -> wat s sid l = true <-> wanted (P ++ C) sid l.
Proof. intros P C s R sid l S E. pose proof (w_cur _ _ _ _ (reach_I _ _ _ _ R) sid l S E) as H. cbn in H. rewrite H. now apply wanted_ev. Qed.
Print Assumptions c57_exact.

(** Even if solvers miss steps, no watch is lost. *)
Theorem c57_none_lost : forall gaps P C s, reach gaps P C s -> forall sid l, sid < 64 -> last s sid = step s -> wanted (P ++ C) sid l -> wat s sid l = true.
Proof. intros gaps P C s R sid l S E W. apply (wanted_ev _ _ _ S) in W. pose proof (w_cur _ _ _ _ (reach_I _ _ _ _ R) sid l S E) as H. destruct gaps; cbn in H; [auto | congruence]. Qed.
Print Assumptions c57_none_lost.

(** Preparing a step freezes every literal that some solver shall watch because of the calls of this step, and every literal that was asked to be frozen. *)
Theorem c57_frozen : forall gaps P C s, reach gaps P C s -> forall l, (exists sid, sid < 64 /\ wanted C sid l) \/ In (OFrz l) C -> In l (snd (prepare (changes s))).
Proof.
  intros gaps P C s R l H. pose proof (reach_I _ _ _ _ R) as J. cbn [prepare snd]. destruct H as [(sid & S & W) | H].
  - apply (wanted_ev _ _ _ S) in W. rewrite <- (w_ch _ _ _ _ J), <- ev_sort in W. apply (prep_watch sid); [easy | intros c X; apply (proj1 (in_sort _ _)) in X; now apply (w_wf _ _ _ _ J)|]. destruct (sort (changes s)) as [|c r]; [discriminate W|]. destruct (lit_eqb (c_lit c) l); exact W.
  - apply (prep_frz (toChange (OFrz l))). right. split; [|easy]. apply (proj2 (in_sort _ _)). now apply (w_mem _ _ _ _ J).
Qed.
Print Assumptions c57_frozen.

(** Nothing else is frozen. *)
Theorem c57_frozen_only : forall gaps P C s, reach gaps P C s -> forall l, In l (snd (prepare (changes s))) -> (exists sid, sid < 64 /\ wanted C sid l) \/ In (OFrz l) C.
Proof.
  intros gaps P C s R l H. pose proof (reach_I _ _ _ _ R) as J. cbn [prepare snd] in H. apply prep_only in H; [|apply sort_srt | intros c X; apply (proj1 (in_sort _ _)) in X; now apply (w_wf _ _ _ _ J)]. destruct H as [H | [(c & X & E & A) | (sid & L & X)]].
  - destruct (sort (changes s)); [easy|]. destruct H; discriminate.
  - right. apply (proj1 (in_sort _ _)) in X. destruct (frz_ops _ _ _ _ R c X) as (o & O & ->). destruct o; cbn in *; try discriminate. subst l. exact O.
  - left. exists sid. split; [easy|]. apply (wanted_ev _ _ _ L). rewrite <- (w_ch _ _ _ _ J), <- ev_sort. destruct (sort (changes s)) as [|c r]; [easy|]. destruct (lit_eqb (c_lit c) l); exact X.
Qed.
Print Assumptions c57_frozen_only.

(** A later call wins: solver 1 watches 3 but not 2, a solver that is new in the second step watches both after the second step asked for 2 again. *)
Definition l2 : lit := (2, false).
Definition l3 : lit := (3, true).
Definition s1 : pw := do_init (do_prepare (do_op (do_op (do_op start (OAdd None l3)) (OAdd None l2)) (ORem (Some 1) l2))) 1.
Definition s2 : pw := do_init (do_op (do_unfreeze s1) (OAdd (Some 5) l2)) 5.
Example c57_nonvacuous : reach false [OAdd None l3; OAdd None l2; ORem (Some 1) l2] [OAdd (Some 5) l2] s2 /\ last s2 5 = step s2 /\ step s2 = 2 /\ map (wat s2 5) [l2; l3] = [true; true] /\ map (wat s1 1) [l2; l3] = [false; true].
Proof.
  split; [|split; [reflexivity|]; split; [reflexivity|]; split; reflexivity]. apply RInit; [|lia | right; left; reflexivity].
  apply (ROp false _ [] (do_unfreeze s1)); [|reflexivity | cbn; lia]. apply (RUnfreeze false [] [OAdd None l3; OAdd None l2; ORem (Some 1) l2] s1). apply RInit; [|lia | right; left; reflexivity]. apply RPrepare.
  apply (ROp false [] [OAdd None l3; OAdd None l2]); [|reflexivity | cbn; lia]. apply (ROp false [] [OAdd None l3]); [|reflexivity | easy]. apply (ROp false [] []); [constructor | reflexivity | easy].
Qed.
Example c57_nonvacuous_frozen : snd (prepare (changes (do_op (do_op (do_op start (OAdd None l3)) (OAdd (Some 1) l2)) (ORem None l3)))) = [l2].
Proof. reflexivity. Qed.

(** Finding: a solver that misses the step in which a watch is removed keeps the watch, since the history only tells which watches to add. *)
Theorem c57_exact_refuted : ~ (forall P C s, reach true P C s -> forall sid l, sid < 64 -> last s sid = step s -> wat s sid l = true <-> wanted (P ++ C) sid l).
Proof.
  intro H. set (a := do_init (do_op start (OAdd None l2)) 1). set (b := do_unfreeze (do_op (do_unfreeze a) (ORem None l2))). set (c := do_init b 1).
  assert (R : reach true [OAdd None l2; ORem None l2] [] c). { apply RInit; [|lia | now left]. apply (RUnfreeze true [OAdd None l2] [ORem None l2]). apply (ROp true _ []); [|reflexivity | easy]. apply (RUnfreeze true [] [OAdd None l2]). apply RInit; [|lia | now left]. apply (ROp true [] []); [constructor | reflexivity | easy]. }
  destruct (proj1 (H _ _ _ R 1 l2 ltac:(lia) eq_refl) eq_refl) as (x & w & y & E & F & N). destruct x as [|o x]; cbn in E.
  - injection E as <- <-. apply (N None); [now left | now left].
  - injection E as _ E. destruct x as [|o' x]; [discriminate|]. injection E as _ E. destruct x; discriminate.
Qed.
Print Assumptions c57_exact_refuted.
