(** C21: splitting a search space. *)
From Coq Require Import List Bool Arith Lia.
From Verif Require Import Base ImModel ImSpec ImProofs GpModel GpSpec GpProofs.
Import ListNotations.

(** After a split, every model of the constraints (in which the solver's tag literal holds) that the solver still had to visit is left to exactly one of
    the solver and the receiver of the new guiding path, and no other model is. *)
Theorem c21_split : forall aux tag frozen T s fs s' out a, hist T s fs -> split aux tag frozen s = Some (s', out) -> T a -> holds a tag = true ->
  (remaining s fs a <-> remaining s' fs a \/ sat out a) /\ ~ (remaining s' fs a /\ sat out a).
Proof. exact (fun aux tag frozen T s fs s' out a H SP TA TG => split_parts aux tag frozen T s fs H s' out a SP TA TG). Qed.
Print Assumptions c21_split.

(** The state after a split is a state of the same history, in which nothing was left. *)
Theorem c21_split_history : forall aux tag frozen T s fs s' out, hist T s fs -> split aux tag frozen s = Some (s', out) -> hist T s' fs /\ t_dec s' = t_dec s /\ t_root s' = S (t_root s).
Proof.
  intros aux tag frozen T s fs s' out H SP. unfold split in SP. destruct (splittable aux tag frozen s) eqn:SB; [|discriminate]. cbn [negb] in SP. assert (E : s' = pushRoot s 1) by (injection SP; intros; congruence). clear SP. subst s'.
  destruct (hist_inv T s fs H) as [I O]. sp; auto.
  - pose proof (h_op T s fs (OPushRoot 1) H I0 I0) as X || pose proof (h_op T s fs (OPushRoot 1) H Logic.I Logic.I) as X. cbn [run made map] in X. rewrite app_nil_r in X.
    match type of X with hist _ _ ?F => replace F with fs in X; auto end. symmetry. apply filter_id. intros [[p l] k] P. apply Nat.leb_le. cbn [fst snd]. apply (proj1 (i_b _ _ I p l ltac:(apply in_map_iff; exists (p, l, k); auto))).
  - destruct (i_ord _ _ I) as [O1 [O2 [O3 [O4 O5]]]]. unfold splittable in SB. destruct (Nat.eqb_spec (DL s) (t_root s)) as [X|X]; [discriminate|]. cbn. lia.
Qed.
Print Assumptions c21_split_history.

(** Any number of splits partitions the models to be visited. *)
Inductive splits (aux : nat -> bool) (tag : lit) (frozen : nat -> bool) : st -> list (list lit) -> st -> Prop :=
| sp_none : forall s, splits aux tag frozen s [] s
| sp_one : forall s s1 out outs s2, split aux tag frozen s = Some (s1, out) -> splits aux tag frozen s1 outs s2 -> splits aux tag frozen s (out :: outs) s2.
Theorem c21_partition : forall aux tag frozen T s outs s' fs a, splits aux tag frozen s outs s' -> hist T s fs -> T a -> holds a tag = true ->
  (remaining s fs a <-> remaining s' fs a \/ exists out, In out outs /\ sat out a) /\
  (forall out, In out outs -> ~ (remaining s' fs a /\ sat out a)) /\ ForallOrdPairs (fun o1 o2 => ~ (sat o1 a /\ sat o2 a)) outs.
Proof.
  intros aux tag frozen T s outs s' fs a SP. induction SP as [s|s s1 out outs s2 SP1 SP IH]; intros H TA TG.
  - sp; [split; [auto|intros [X|[o [[] _]]]; auto]|intros o []|constructor].
  - destruct (c21_split_history _ _ _ _ _ _ _ _ H SP1) as [H1 _]. destruct (c21_split _ _ _ _ _ _ _ _ a H SP1 TA TG) as [A B]. destruct (IH H1 TA TG) as [C [D E]]. sp.
    + rewrite A, C. split.
      * intros [[X|[o [O1 O2]]]|X]; [auto|right; exists o; cbn; auto|right; exists out; cbn; auto].
      * intros [X|[o [[<- |O1] O2]]]; [auto|auto|left; right; exists o; auto].
    + intros o [<- |O] [X Y]; [apply B; split; auto; apply C; auto|]. apply (D o O). auto.
    + constructor; auto. apply Forall_forall. intros o O [X Y]. apply B. split; auto. apply C. right. exists o. auto.
Qed.
Print Assumptions c21_partition.

(** The copied guiding path excludes no model that is still to be visited. *)
Theorem c21_copy : forall aux T s fs a, hist T s fs -> T a -> remaining s fs a -> sat (copyGuidingPath aux s) a.
Proof. intros aux T s fs a H. eapply copy_sound; eauto. Qed.
Print Assumptions c21_copy.

(** Example: decision 1, decision 2, backtracking (2 becomes false on level 1), a literal forced on level 1, one root level, decisions 3 and 4, then two splits.
    Models: 1 implies 5. *)
Definition v (n : nat) : lit := (n, false).
Definition mT (a : asg) : Prop := holds a (v 1) = true -> holds a (v 5) = true.
Definition ops : list op := [OAssume (v 1); OAssume (v 2); OBacktrack; OForce (v 5) 1 false; OPushRoot 1; OAssume (v 3); OAssume (v 4)].
Fixpoint runAll (ops : list op) (s : st) (fs : list fact) : st * list fact :=
  match ops with
  | [] => (s, fs)
  | o :: ops => runAll ops (run s o) (filter (fun f => snd (fst f) <=? DL (run s o)) fs ++ map (fun x => (x, kindOf o)) (made s o (run s o)))
  end.
Fixpoint okAll (T : asg -> Prop) (ops : list op) (s : st) (fs : list fact) : Prop :=
  match ops with
  | [] => True
  | o :: ops => op_ok s o /\ justified T fs o /\ okAll T ops (run s o) (filter (fun f => snd (fst f) <=? DL (run s o)) fs ++ map (fun x => (x, kindOf o)) (made s o (run s o)))
  end.
Lemma runAll_hist : forall T ops s fs, hist T s fs -> okAll T ops s fs -> hist T (fst (runAll ops s fs)) (snd (runAll ops s fs)).
Proof. intros T os. induction os as [|o ops0 IH]; intros s fs H OK; auto. cbn [runAll]. destruct OK as [A [B C]]. apply IH; auto. apply h_op; auto. Qed.
Definition s0 := fst (runAll ops init []).
Definition f0 := snd (runAll ops init []).
Definition noAux (n : nat) : bool := false.
Example c21_nonvacuous : hist mT s0 f0 /\ In (neg (v 2), 1, Flip) f0 /\
  (exists s1 s2, split noAux (v 0) noAux s0 = Some (s1, [v 1; neg (v 2); neg (v 3)]) /\ split noAux (v 0) noAux s1 = Some (s2, [v 1; v 3; neg (v 2); neg (v 4)])).
Proof.
  sp.
  - apply runAll_hist; [constructor|]. vm_compute. repeat (split; auto; try lia; try discriminate).
    intros a M Q. apply M. exact (Q (1, false) 1 Dec ltac:(auto) ltac:(lia)).
  - vm_compute. auto.
  - do 2 eexists. split; vm_compute; reflexivity.
Qed.

(** Without the implied literals in the copied path, part of the search space already left by backtracking would be handed over again. *)
Theorem c21_decisions_only_refuted : exists T s fs a, hist T s fs /\ T a /\ under s (t_root s) a /\ ~ remaining s fs a.
Proof.
  exists mT, s0, f0, (fun _ => true). destruct c21_nonvacuous as [H [F _]]. sp; auto.
  - intros _. reflexivity.
  - intros i L. vm_compute in L. destruct i as [|i]; [reflexivity|lia].
  - intros [_ R]. specialize (R _ _ F). vm_compute in R. assert (X : false = true); [|discriminate]. apply R. intros i L. destruct i as [|i]; [reflexivity|lia].
Qed.
Print Assumptions c21_decisions_only_refuted.
