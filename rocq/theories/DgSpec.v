(** What the dependency graph is built from, and what is assumed of it. *)
From Coq Require Import List Bool Arith ZArith.
Import ListNotations.
From Verif Require Import Base LpSpec DsSpec SrModel CpModel CpSpec DgModel.

(** An atom depends positively on another one if it is a head of a body in which the other one occurs
    positively. Only atoms and bodies that have a literal count: the others are false and are not searched
    (SccChecker::doVisit, logic_program_types.h:608). *)
Definition dependsOn (pr : prep) (h p : nat) : Prop :=
  exists b t, In b (p_bodies pr) /\ hasVar (b_lit b) = true /\ In (h, t) (b_heads b) /\ In p (posAtoms (b_body b))
    /\ hasVar (p_lit pr h) = true /\ hasVar (p_lit pr p) = true.
(** Components, up to atoms that are left out of the search: a head atom depends positively on atoms of
    its own component and of components ranked below. *)
Definition componentsI (pr : prep) (ign : nat -> bool) (sc : nat -> option nat) : Prop :=
  exists rank : nat -> nat,
    (forall a b, sc a = sc b -> sc a <> None -> rank a = rank b)
    /\ forall h p, dependsOn pr h p -> ign h = false -> ign p = false -> rank p < rank h \/ (sc p = sc h /\ sc h <> None).

Record graphInput (pr : prep) (sc : nat -> option nat) (ign : nat -> bool) (noScc : nat) (sccAtoms : list nat) : Prop := {
  (** no disjunctions; the heads are plain or choice heads *)
  gi_plain : forall b, In b (p_bodies pr) -> b_disj b = [] /\ forall h, In h (b_heads b) -> snd h = ENormal \/ snd h = EChoice;
  (** the given atoms are those in components *)
  gi_nodup : NoDup sccAtoms;
  gi_atoms : forall a, In a sccAtoms <-> sc a <> None;
  gi_noScc : forall a, sc a <> Some noScc;
  (** components, numbered against the direction of dependencies (C44) *)
  gi_comp : componentsI pr ign sc;
  gi_order : forall h p i j, dependsOn pr h p -> sc h = Some i -> sc p = Some j -> i <= j;
  gi_var : forall a, sc a <> None -> hasVar (p_lit pr a) = true;
  (** atoms left out of the search have a fact or a choice rule without body *)
  gi_ign : forall a, ign a = true -> sc a = None /\ exists r, In r (rulesOf pr) /\ r_head r = [a] /\ r_body r = Norm [];
  (** bodies do not repeat literals and have no negative weights (C42) *)
  gi_goals : forall b, In b (p_bodies pr) -> NoDup (map fst (goalsW (b_body b))) /\ posB (b_body b)
}.
