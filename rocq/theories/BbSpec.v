(** What branch and bound should achieve.  A cost vector has one component for each level; vectors are compared lexicographically. *)
From Coq Require Import List Bool Arith ZArith.
From Verif Require Import BbModel.
Import ListNotations.
Open Scope Z_scope.

Definition lexLt (n : nat) (a b : cost) : Prop := exists i, (i < n)%nat /\ (forall j, (j < i)%nat -> nth j a 0 = nth j b 0) /\ nth i a 0 < nth i b 0.
Definition lexLe (n : nat) (a b : cost) : Prop := ~ lexLt n b a.
(** Some model with a cost vector in [M] was found, and it is [c]. *)
Definition Optimum (n : nat) (M : cost -> Prop) (B0 : cost) (c : cost) : Prop := M c /\ lexLe n c B0 /\ forall c', M c' -> lexLt n c' c -> False.
(** The problem: costs of models are at least [low0] (componentwise) and not too large; [B0] is the initial bound (all components maximal if there is none). *)
Record Problem (n : nat) (M : cost -> Prop) (B0 low0 : cost) : Prop := {
  pr_n : (0 < n)%nat;
  pr_B0 : length B0 = n;
  pr_low0 : length low0 = n;
  pr_B0max : forall i, nth i B0 0 <= bMax;
  pr_B0first : B0 = repeat bMax n \/ nth 0 B0 0 < bMax - 1;
  pr_low0min : forall i, (i < n)%nat -> - 4611686018427387904 <= nth i low0 0 <= bMax;
  pr_len : forall c, M c -> length c = n;
  pr_cost : forall c i, M c -> (i < n)%nat -> nth i low0 0 <= nth i c 0 <= 4611686018427387903
}.
(** Costs are so close to the lower bounds that step sizes (32-bit numbers) cannot overflow. *)
Definition SmallCosts (n : nat) (M : cost -> Prop) (low0 : cost) : Prop := forall c i, M c -> (i < n)%nat -> nth i c 0 - nth i low0 0 <= 4294967294.
(** The initial bound constrains (at most) the first level. *)
Definition OneComponent (n : nat) (B0 : cost) : Prop := forall i, (0 < i < n)%nat -> nth i B0 0 = bMax.
(** Each solver looks at some of the models; one whose path is not disjoint from others looks at all of them. *)
Definition Paths (M : cost -> Prop) (P : nat -> cost -> Prop) (share : nat -> bool) : Prop :=
  forall t, (forall c, P t c -> M c) /\ (share t = true -> forall c, M c -> P t c).
(** Solvers with step types [ty], paths [P] and sharing flags [sh] minimize; step sizes are only computed by solvers of type Inc and Dec. *)
Record Setting (n : nat) (M : cost -> Prop) (B0 low0 : cost) (ty : nat -> stype) (P : nat -> cost -> Prop) (sh : nat -> bool) : Prop := {
  se_problem : Problem n M B0 low0;
  se_paths : Paths M P sh;
  se_small : (exists t, ty t = Inc \/ ty t = Dec) -> SmallCosts n M low0;
  se_bound : OneComponent n B0
}.
(** Nothing among [Q] is left to be found if [st] is the shared information: if no model was found, none of [Q] is within the initial bound; otherwise the
    best model so far is a model, is within the initial bound, and none of [Q] is better. *)
Definition Exhausted (n : nat) (M : cost -> Prop) (B0 : cost) (s : shared) (Q : cost -> Prop) : Prop :=
  (s_gen s = 0%nat -> forall c, Q c -> ~ lexLe n c B0) /\
  (s_gen s <> 0%nat -> M (upper s) /\ lexLe n (upper s) B0 /\ forall c, Q c -> ~ lexLt n c (upper s)).
