(** Conflict states and what the analysis of a conflict owes to the user.  [G]: the models of the
    problem. *)
From Coq Require Import List Bool Arith.
From Verif Require Import Base ClModel CaModel.
Import ListNotations.

(** [q] is true before [p] was assigned (or is the sentinel literal, which is always true). *)
Definition earlier (E : env) (q p : lit) : Prop := q = lit_true \/ exists t1 t2, v_trail E = t1 ++ p :: t2 /\ In q t1.
(** Literals known on level 0. *)
Definition top (E : env) (p : lit) : Prop := p = lit_true \/ In p (v_trail E) /\ lv E p = 0.
Definition isDec (E : env) (p : lit) : Prop := exists i, 1 <= i <= dl E /\ p = decision E i.

(** States of the solver (with or without conflict): no variable is assigned twice; levels do not
    decrease along the trail; a reason consists of literals assigned earlier and is valid; level-0
    literals are valid; the decision of a level is its first literal and has no reason. *)
Record trail_ok (G : asg -> Prop) (E : env) : Prop := {
  to_nodup : NoDup (map fst (v_trail E));
  to_lit0 : forall a, G a -> holds a lit_true = true;
  to_var0 : v_lev E 0 = 0;
  to_sorted : forall t1 p t2 q, v_trail E = t1 ++ p :: t2 -> In q t1 -> lv E q <= lv E p;
  to_max : forall p, In p (v_trail E) -> lv E p <= dl E;
  to_reason : forall p r q, In p (v_trail E) -> rs E p = Some r -> In q r -> earlier E q p;
  to_valid : forall p r a, In p (v_trail E) -> rs E p = Some r -> G a -> (forall q, In q r -> holds a q = true) -> holds a p = true;
  to_top : forall p a, In p (v_trail E) -> lv E p = 0 -> G a -> holds a p = true;
  to_dec : forall i, 1 <= i <= dl E -> exists t1 t2, v_trail E = t1 ++ decision E i :: t2 /\ length t1 = levelStart E i /\
             lv E (decision E i) = i /\ rs E (decision E i) = None /\ forall q, In q t1 -> lv E q < i }.
(** A conflict above level 0: literals that are true and not all true in a model, one of them assigned
    on the current level; on that level there are no flipped decisions. *)
Record conflict_ok (G : asg -> Prop) (E : env) (conf : list lit) : Prop := {
  co_dl : 0 < dl E;
  co_true : forall q, In q conf -> q = lit_true \/ In q (v_trail E);
  co_valid : forall a, G a -> exists q, In q conf /\ holds a q = false;
  co_level : exists q, In q conf /\ In q (v_trail E) /\ lv E q = dl E;
  co_flip : forall p, In p (v_trail E) -> lv E p = dl E -> rs E p = None -> p = decision E (dl E) }.
(** Flags between two conflicts: seen are exactly the variables assigned on level 0 (markUnits). *)
Record flags_ok (E : env) (f : fl) : Prop := {
  fo_seen0 : f_seen f 0 = true;
  fo_seen : forall p, In p (v_trail E) -> (seen f p = true <-> lv E p = 0);
  fo_mark : forall l, f_mark f l = false }.
(** Candidates for reverse arcs are clauses of the problem that contain ~p, without duplicate variables. *)
Definition arcs_ok (G : asg -> Prop) (E : env) : Prop :=
  forall p c, In c (v_short E p) \/ In c (v_long E p) -> NoDup (fst p :: map fst c) /\
    forall a, G a -> holds a (neg p) = true \/ exists x, In x c /\ holds a x = true.
(** No literal other than decisions lacks a reason. *)
Definition noFlips (E : env) : Prop := forall p, In p (v_trail E) -> rs E p = None -> 0 < lv E p -> p = decision E (lv E p).

(** States in which a conflict is analysed. *)
Record conflict (G : asg -> Prop) (E : env) (o : opt) (conf : list lit) (f : fl) : Prop := {
  cf_trail : trail_ok G E; cf_flags : flags_ok E f; cf_conf : conflict_ok G E conf; cf_root : v_root E < dl E;
  cf_arcs : o_rev o <> 0 -> arcs_ok G E }.

(** Literals that are false, with the level on which they became false. *)
Definition falseAt (E : env) (l : lit) (k : nat) : Prop := In (neg l) (v_trail E) /\ lv E l = k.
(** A clause that becomes unit, with its first literal, when returning from the current level to level [k]. *)
Definition assertingAt (E : env) (cc : list lit) (k : nat) : Prop :=
  exists u cs, cc = u :: cs /\ falseAt E u (dl E) /\ k < dl E /\ NoDup (map fst cc) /\
    (forall l, In l cs -> exists i, falseAt E l i /\ 0 < i <= k) /\
    (k = 0 /\ cs = [] \/ exists w cs', cs = w :: cs' /\ falseAt E w k).

(** Distinct decision levels of a clause, where levels up to the root level count once. *)
Definition lbdOf (E : env) (cc : list lit) : nat :=
  length (nodup Nat.eq_dec (map (fun l => Nat.max (v_root E) (lv E l)) cc)).

(** Literals of a nogood [C] that follow from the other ones by the reasons of the implication graph.  Locally: the
    reason consists of literals of [C] and of level 0. *)
Definition locally (E : env) (antes : nat) (C : list lit) (x : lit) : Prop :=
  exists r, rs E x = Some r /\ antes <= v_ty E (fst x) /\ forall q, In q r -> top E q \/ In q C.
(** Recursively: literals of the reason may be redundant themselves if their level occurs in [C]. *)
Inductive redundant (E : env) (antes : nat) (C : list lit) : lit -> Prop :=
| Redundant : forall x r, rs E x = Some r -> antes <= v_ty E (fst x) ->
    (forall q, In q r -> ~ (top E q \/ In q C) -> In (lv E q) (map (lv E) C)) ->
    (forall q, In q r -> ~ (top E q \/ In q C) -> redundant E antes C q) -> redundant E antes C x.
