(** Property theorems C08 (normalisation of weight constraints) and C09
    (meaning of created weight constraints, including equalities). *)
From Coq Require Import List Bool ZArith.
From Verif Require Import Base WcModel WcSpec WcProofs.
Import ListNotations.
Local Open Scope Z_scope.

(** C08: the built representation has the promised normal form and the same
    solutions as the input, for every list of weighted literals, bound and
    top-level assignment for which creation succeeds. *)
Theorem c08_normal_form : forall top lits bound r,
  create_rep top lits bound = Ok r -> normal_form top r.
Proof. exact (fun top lits bound r H => proj1 (create_rep_spec top lits bound r H)). Qed.
Print Assumptions c08_normal_form.

Theorem c08_same_solutions : forall top lits bound r,
  create_rep top lits bound = Ok r ->
  forall a, extends a top -> (r_bound r <= wsum a (r_lits r) <-> bound <= wsum a lits).
Proof. exact create_rep_same. Qed.
Print Assumptions c08_same_solutions.

(** C08: the verdicts sat/unsat/open are exact. *)
Theorem c08_verdict : forall top lits bound r, create_rep top lits bound = Ok r ->
  (r_sat r = true <-> forall a, extends a top -> bound <= wsum a lits) /\
  (r_unsat r = true <-> forall a, extends a top -> wsum a lits < bound) /\
  (r_open r = true <-> (exists a, extends a top /\ bound <= wsum a lits) /\
                       (exists a, extends a top /\ wsum a lits < bound)).
Proof. exact create_rep_verdict. Qed.
Print Assumptions c08_verdict.

(** C08: creation succeeds (no exception, no overflow) whenever the weights are
    small enough. *)
Theorem c08_no_overflow : forall top lits bound,
  Z.abs bound + 2 * abs_total lits <= int_max -> exists r, create_rep top lits bound = Ok r.
Proof. exact create_rep_total. Qed.
Print Assumptions c08_no_overflow.

(** Findings: signed overflow is reachable when merging two occurrences of a
    literal and when dividing the bound of a disguised cardinality constraint,
    although the code checks the other sums. *)
Theorem c08_merge_overflow_refuted :
  create_rep (fun _ => None) [((1%nat, false), int_max); ((1%nat, false), 1)] 1 = UB.
Proof. exact eq_refl. Qed.
Print Assumptions c08_merge_overflow_refuted.
Theorem c08_bound_overflow_refuted :
  create_rep (fun _ => None) [((1%nat, false), 2); ((2%nat, false), 2)] int_max = UB.
Proof. exact eq_refl. Qed.
Print Assumptions c08_bound_overflow_refuted.

(** C09: what is added for [W == (lits >= bound)] - forced literals, clauses or an
    explicit constraint - is equivalent to it under the top-level assignment,
    for all flags. *)
Theorem c09_ge_meaning : forall top W lits bound fl f cs,
  wc_create top W lits bound false fl = Ok (f, cs) ->
  forall a, extends a top ->
    (holds a W = (bound <=? wsum a lits) <-> all_hold a f /\ forall c, In c cs -> den a c).
Proof. exact wc_create_ge. Qed.
Print Assumptions c09_ge_meaning.

(** C09, equalities: for a hard equality (W true at the top level) with a literal
    of weight +-1 on a free variable that occurs once - in particular for
    cardinality equalities - exactly the assignments whose sum equals the bound
    are admitted.  Missing: equalities without such a literal and equalities
    whose W is not true; there the claim is false, see the next two theorems. *)
Theorem c09_eq_meaning_partial : forall top W lits bound fl f cs,
  wc_create top W lits bound true fl = Ok (f, cs) -> isTrue top W = true -> lone_unit top lits ->
  forall a, extends a top ->
    (wsum a lits = bound <-> all_hold a f /\ forall c, In c cs -> den a c).
Proof. exact wc_create_eq. Qed.
Print Assumptions c09_eq_meaning_partial.

Definition hardTrue : pasg := fun v => match v with O => Some true | _ => None end.
Definition oneTrue : asg := fun v => Nat.ltb v 2.

(** Finding: the hard equality 2x1 + 2x2 = 3 has no solution, but the created
    constraints accept the assignment with exactly x1 true. *)
Theorem c09_eq_divided_refuted :
  exists f cs, wc_create hardTrue (0%nat, false) [((1%nat, false), 2); ((2%nat, false), 2)] 3 true (WFlags false false) = Ok (f, cs) /\
  extends oneTrue hardTrue /\ all_hold oneTrue f /\ (forall c, In c cs -> den oneTrue c) /\
  wsum oneTrue [((1%nat, false), 2); ((2%nat, false), 2)] = 2.
Proof.
  eexists _, _. split; [vm_compute; reflexivity|]. split.
  - intros [|v] b; cbn; congruence.
  - split; [intros ? []|]. split; [|reflexivity].
    intros c [<-|[<-|[]]]; vm_compute; reflexivity.
Qed.
Print Assumptions c09_eq_divided_refuted.

(** Finding: with an unassigned W, creating [W == (x1 + x2 = 1)] as an equality
    excludes every assignment in which W is false. *)
Theorem c09_eq_soft_refuted :
  exists f cs, wc_create (fun _ => None) (0%nat, false) [((1%nat, false), 1); ((2%nat, false), 1); ((3%nat, false), 1)] 2 true (WFlags false false) = Ok (f, cs) /\
  forall a, a 0%nat = false -> ~ (all_hold a f /\ forall c, In c cs -> den a c).
Proof.
  eexists _, _. split; [vm_compute; reflexivity|]. intros a H0 [_ Hd].
  pose proof (Hd _ (or_introl eq_refl)) as D1. pose proof (Hd _ (or_intror (or_introl eq_refl))) as D2.
  cbn in D1, D2. unfold holds in D2. cbn in D2. rewrite H0 in D2.
  unfold holds in D1. cbn in D1. rewrite H0 in D1.
  destruct (a 1%nat), (a 2%nat), (a 3%nat); cbn in *; discriminate.
Qed.
Print Assumptions c09_eq_soft_refuted.

(** The hypotheses are met: a constraint with negative, duplicate, complementary
    and assigned literals; a hard cardinality equality; a mixed-weight equality. *)
Definition exTop : pasg := fun v => match v with O => Some true | 7%nat => Some false | _ => None end.
Example c08_c09_nonvacuous :
  create_rep exTop [((1%nat, false), 3); ((2%nat, false), -2); ((1%nat, true), 1); ((7%nat, true), 2); ((3%nat, false), 9); ((2%nat, true), 1)] 4
    = Ok (Rep [((2%nat, true), 3); ((3%nat, false), 3); ((1%nat, false), 2)] 3 8) /\
  (exists r, wc_create exTop (0%nat, false) [((1%nat, false), 1); ((2%nat, true), 1); ((3%nat, false), 1)] 2 true (WFlags false false) = Ok r) /\
  (exists r, wc_create exTop (0%nat, false) [((1%nat, false), 5); ((2%nat, true), -1); ((3%nat, false), 3)] 2 true (WFlags true true) = Ok r) /\
  lone_unit exTop [((1%nat, false), 5); ((2%nat, true), -1); ((3%nat, false), 3)] /\
  isTrue exTop (0%nat, false) = true.
Proof.
  split; [vm_compute; reflexivity|]. split; [eexists; vm_compute; reflexivity|]. split; [eexists; vm_compute; reflexivity|].
  split; [|reflexivity].
  exists [((1%nat, false), 5)], (2%nat, true), (-1), [((3%nat, false), 3)]. repeat split.
  intros e [<-|[<-|[]]]; cbn; discriminate.
Qed.
