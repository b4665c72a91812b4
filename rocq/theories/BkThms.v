(** C48: enumeration by backtracking reports every (projected) model exactly once. *)
From Coq Require Import List Bool Arith ZArith Lia.
Import ListNotations.
From Verif Require Import Base ClModel EnModel EnSpec EnProofs2 BkModel BkSpec BkProofs BkProofs2 BkProofs3 BkProofs4.

(** Whatever is decided, propagated, learnt, forgotten or restarted: what is reported is a model. *)
Theorem c48_reported_are_models : forall n F proj step As s0 s m,
  startB F step As s0 -> bsteps n F proj step s0 s -> In m (rep s) -> isModelB F As m.
Proof. intros n F proj step As s0 s m S R. apply (steps_Gd n F proj step As s0 s); auto. now apply start_Gd. Qed.
Print Assumptions c48_reported_are_models.

(** No model is reported twice; with projection, no two reported models agree on the projected variables. *)
Theorem c48_no_model_twice : forall n F proj step As s0 s i j m m',
  startB F step As s0 -> bsteps n F proj step s0 s -> i < j -> nth_error (rep s) i = Some m -> nth_error (rep s) j = Some m' ->
  ~ covers n (modeB proj) m m'.
Proof.
  intros n F proj step As s0 s i j m m' S R L M M'. destruct (steps_Gd n F proj step As s0 s (start_Gd _ _ _ _ _ _ S) R) as (_ & _ & O).
  revert i j L M M'. induction O as [|x l A B IH]; intros i j L M M'; [destruct i; discriminate|]. destruct j as [|j]; [lia|]. destruct i as [|i].
  - injection M as ->. apply (proj1 (Forall_forall _ _) A). exact (nth_error_In l j M').
  - apply (IH i j); auto. lia.
Qed.
Print Assumptions c48_no_model_twice.

(** When the search is exhausted (a conflict on the root level), every model has been reported, up to projection. *)
Theorem c48_complete : forall n F proj step As s0 s M,
  startB F step As s0 -> bsteps n F proj step s0 s -> cfl s = true -> dl s = root s -> isModelB F As M ->
  exists m, In m (rep s) /\ covers n (modeB proj) m M.
Proof. intros n F proj step As s0 s M S R. apply (done_all n F proj step As). apply (steps_Gd n F proj step As s0 s); auto. now apply start_Gd. Qed.
Print Assumptions c48_complete.

(** The step after a model is always possible, whatever the heuristic chooses and whether or not restarts on models are
    used, and so is the step after a conflict above the root level. It never loses or adds models. *)
Theorem c48_update_never_fails : forall n F proj step As s0 s,
  startB F step As s0 -> bsteps n F proj step s0 s ->
  (cfl s = false -> (forall v, 1 <= v <= n -> tr s (pos v) = true \/ tr s (ngt v) = true) -> (forall c, In c (clauses F s) -> sat_clause (modelB s) c = true) ->
   forall o x sp rst, exists s', update F o x sp rst (commitLevel proj (setRep s (rep s ++ [modelB s]))) (solution n proj step s) = Ok s' /\ rep s' = rep s ++ [modelB s]) /\
  (cfl s = true -> root s < dl s -> forall o, exists s', backtrack F (S (dl s)) o s = Ok s' /\ rep s' = rep s).
Proof.
  intros n F proj step As s0 s S R. destruct (steps_Gd n F proj step As s0 s (start_Gd _ _ _ _ _ _ S) R) as (HI & _ & _). split.
  - intros C T HM o x sp rst. destruct (update_ok n F proj step As s (proj1 HI) (inv_sep _ _ _ _ _ s HI C) C T HM o x sp rst) as (s' & E & _ & Er). eauto.
  - intros C L o. destruct (backtrack_step n F proj step As s o HI C L) as (s' & E & _ & Er). eauto.
Qed.
Print Assumptions c48_update_never_fails.

(** At most 2^w models are reported, where w variables distinguish models. *)
Theorem c48_at_most : forall n F proj step As s0 s,
  startB F step As s0 -> bsteps n F proj step s0 s -> length (rep s) <= 2 ^ match proj with None => n | Some P => length (filter P (seq 1 n)) end.
Proof.
  intros n F proj step As s0 s S R. pose proof (c48_no_model_twice n F proj step As s0 s) as H.
  assert (X : length (rep s) <= 2 ^ width n (modeB proj)); [|destruct proj; exact X].
  apply ordered_len with (A := []); [destruct proj; exact Logic.I|]. intros l1 m l2 m' E I. apply In_nth_error in I as (j & I). apply (H (length l1) (length l1 + 1 + j)); auto; [lia| |].
  - rewrite E, nth_error_app2, Nat.sub_diag; auto.
  - rewrite E, nth_error_app2 by lia. replace (length l1 + 1 + j - length l1) with (1 + j) by lia. exact I.
Qed.
Print Assumptions c48_at_most.

(** Three variables, 1 or 2 must hold, projection on 1 and 2, with one restart and a decision on variable 3 in between: three
    models. The first goes through a new decision, a conflict with the projection nogood and its removal, the second flips
    the last decision, the third ends the search. *)
Definition exF : list clause := [[pos 1; pos 2]].
Definition exP : option (nat -> bool) := Some (fun v => v <=? 2).
Definition ex0 : bst := B [] [(pos 0, 0, false)] 0 0 0 [] [] false [].
Ltac tot := let v := fresh in intros v ?; destruct v as [|[|[|[|v]]]]; [lia|now vm_compute; auto|now vm_compute; auto|now vm_compute; auto|lia].
Ltac csat := let c := fresh in intros c ?; repeat match goal with H : In _ _ |- _ => cbn in H; destruct H as [H|H]; [subst; reflexivity|] end; contradiction.
Example c48_nonvacuous : startB exF (pos 0) [] ex0 /\
  exists s, bsteps 3 exF exP (pos 0) ex0 s /\ cfl s = true /\ dl s = root s /\ map (fun m => map m [1; 2; 3]) (rep s) = [[false; true; true]; [true; true; false]; [true; false; true]].
Proof.
  split.
  - constructor; cbn; auto; try contradiction; try discriminate.
    + intros p k b [[= <- <- <-]|[]]. split; auto. intros M (H & _). unfold holds. cbn. now rewrite H.
    + intros p T T'. unfold tr, lits, ex0, dl in T, T'. cbn in T, T'. rewrite orb_false_r in T, T'. apply lit_eqb_eq in T, T'. subst p. discriminate.
    + eauto.
  - eexists. split; [|].
    { eapply BTrans; [eapply BTrans; [eapply BTrans; [eapply BTrans; [eapply BTrans; [eapply BTrans; [eapply BTrans; [eapply BTrans; [eapply BTrans; [eapply BTrans; [eapply BTrans; [eapply BTrans; [eapply BTrans; [eapply BTrans; [eapply BTrans; [apply BRefl|]|]|]|]|]|]|]|]|]|]|]|]|]|]|].
      - apply (Decide 3 exF exP (pos 0) ex0 (ngt 2)); cbn; auto.
      - apply (Restart 3 exF exP (pos 0)) with (k := 0). reflexivity.
      - apply (Decide 3 exF exP (pos 0)) with (p := pos 3); cbn; auto.
      - apply (Decide 3 exF exP (pos 0)) with (p := ngt 1); cbn; auto.
      - apply (Propagate 3 exF exP (pos 0)) with (p := pos 2); reflexivity.
      - eapply (Model 3 exF exP (pos 0)) with (o := fun _ => []) (x := pos 1) (sp := false) (rst := false); [reflexivity|tot|csat|vm_compute; reflexivity].
      - apply (Propagate 3 exF exP (pos 0)) with (p := pos 2); reflexivity.
      - apply (Propagate 3 exF exP (pos 0)) with (p := pos 1); reflexivity.
      - eapply (Backtrack 3 exF exP (pos 0)) with (o := fun _ => []); [reflexivity|vm_compute; auto|vm_compute; reflexivity].
      - eapply (DropNogood 3 exF exP (pos 0)) with (a := []); [reflexivity|reflexivity].
      - apply (Decide 3 exF exP (pos 0)) with (p := pos 2); cbn; auto.
      - apply (Decide 3 exF exP (pos 0)) with (p := ngt 3); cbn; auto.
      - eapply (Model 3 exF exP (pos 0)) with (o := fun _ => []) (x := pos 1) (sp := true) (rst := true); [reflexivity|tot|csat|vm_compute; reflexivity].
      - apply (Decide 3 exF exP (pos 0)) with (p := pos 3); cbn; auto.
      - eapply (Model 3 exF exP (pos 0)) with (o := fun _ => []) (x := pos 1) (sp := false) (rst := false); [reflexivity|tot|csat|vm_compute; reflexivity]. }
    split; [reflexivity|]. split; reflexivity.
Qed.
