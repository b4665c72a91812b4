(** What preparing a clause must preserve and establish. *)
From Coq Require Import List Bool Arith ZArith.
From Verif Require Import Base ClModel.
Import ListNotations.
Local Open Scope Z_scope.

(** Solver states: the sentinel is true on level 0, levels of assigned variables
    are between 0 and the current level, which is below 2^30. *)
Record wf_view (s : sview) : Prop := {
  wv_true : s_val s 0%nat = Some true /\ s_lvl s 0%nat = 0;
  wv_lvl : forall v b, s_val s v = Some b -> 0 <= s_lvl s v <= s_dl s;
  wv_dl : 0 <= s_dl s < varMax }.

(** Total assignments compatible with the top level. *)
Definition extends_top (a : asg) (s : sview) : Prop :=
  forall v b, s_val s v = Some b -> s_lvl s v = 0 -> a v = b.

Definition true_lit (s : sview) (p : lit) : Prop := pval (s_val s) p = Some true.
Definition false_lit (s : sview) (p : lit) : Prop := pval (s_val s) p = Some false.
Definition free_lit (s : sview) (p : lit) : Prop := pval (s_val s) p = None.
Definition on_top (s : sview) (p : lit) : Prop := s_val s (fst p) <> None /\ s_lvl s (fst p) = 0.

(** The order of watches: true before free before false; among false literals
    higher levels first; among true literals lower levels first.  (The comment in
    clause.h:203-208 claims higher levels first for true literals, too.  The code
    does the opposite, which is what the users of the function need: see
    [c12_documented_order_refuted].) *)
Definition better (s : sview) (p q : lit) : Prop :=
  match pval (s_val s) p, pval (s_val s) q with
  | Some true, Some true => s_lvl s (fst p) < s_lvl s (fst q)
  | Some true, _ => True
  | None, Some false => True
  | Some false, Some false => s_lvl s (fst q) < s_lvl s (fst p)
  | _, _ => False
  end.
(** The first two literals are valid watches. *)
Definition watches_first (s : sview) (c : list lit) : Prop :=
  match c with
  | p :: q :: rest => ~ better s q p /\ forall r, In r rest -> ~ better s r q
  | _ => True
  end.

(** No duplicate or complementary literals. *)
Definition distinct_vars (c : list lit) : Prop := NoDup (map fst c).

(** Clauses that hold in every assignment compatible with the top level. *)
Definition trivially_true (s : sview) (c : list lit) : Prop :=
  exists p, In p c /\ ((true_lit s p /\ s_lvl s (fst p) = 0) \/ In (neg p) c).
