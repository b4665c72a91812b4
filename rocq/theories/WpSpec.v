(** What a weight constraint means, and what justifies its propagations. *)
From Coq Require Import List Bool Arith ZArith.
From Verif Require Import Base WcModel WcSpec WpModel.
Import ListNotations.
Local Open Scope Z_scope.

(** W == (sum >= bound); one direction only if only one was requested. *)
Definition con_meaning (k : wcon) (a : asg) : Prop :=
  match k_act k with
  | None => holds a (k_W k) = true <-> k_bound k <= wsum a (k_lits k)
  | Some false => holds a (k_W k) = true -> k_bound k <= wsum a (k_lits k)
  | Some true => k_bound k <= wsum a (k_lits k) -> holds a (k_W k) = true
  end.

(** A constraint as produced by WeightConstraint::doCreate: distinct variables,
    positive weights in decreasing order, neither sub-constraint violated by the
    empty assignment. *)
Record good_con (k : wcon) : Prop := {
  gc_distinct : NoDup (map (fun e : wlit => fst (fst e)) ((k_W k, 1) :: k_lits k));
  gc_positive : forall e, In e (k_lits k) -> 1 <= snd e;
  gc_sorted : sorted_desc (k_lits k);
  gc_open : (k_act k <> Some false -> 0 < k_bound k) /\ (k_act k <> Some true -> k_bound k <= total (k_lits k)) }.

(** The literals on the trail, and total assignments extending it. *)
Definition trail_lits (m : mach) : list lit := map t_lit (m_tr m).
Definition extends_trail (a : asg) (m : mach) : Prop := forall x, In x (trail_lits m) -> holds a x = true.

(** Runs that never leave the decision levels from [n] on. *)
Inductive run_above (k : wcon) (n : nat) : mach -> mach -> Prop :=
| ra_refl m : (n <= m_dl m)%nat -> run_above k n m m
| ra_step m m' m'' : run_above k n m m' -> mstep k m' m'' -> (n <= m_dl m'')%nat -> run_above k n m m''.

(** Sums over the trail, as in the class comment of WeightConstraint
    (weight_constraint.h:72-82): the weights of the literals that are true, and of
    those that are not false. *)
Definition on_trail (m : mach) (x : lit) : Prop := In x (trail_lits m).
Definition unassigned (m : mach) (x : lit) : Prop := ~ on_trail m x /\ ~ on_trail m (neg x).
Definition mem_lit (x : lit) (l : list lit) : bool := existsb (lit_eqb x) l.
Fixpoint sum_true (tr : list lit) (l : list wlit) : Z :=
  match l with [] => 0 | (x, w) :: t => (if mem_lit x tr then w else 0) + sum_true tr t end.
Fixpoint sum_reach (tr : list lit) (l : list wlit) : Z :=
  match l with [] => 0 | (x, w) :: t => (if mem_lit (neg x) tr then 0 else w) + sum_reach tr t end.

(** Nothing left to propagate. *)
Definition quiescent (m : mach) : Prop := m_conf m = None /\ m_front m = length (m_tr m).
