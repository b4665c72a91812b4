(** C12: preparing clauses for a solver. *)
From Coq Require Import List Bool Arith ZArith.
From Verif Require Import Base ClModel ClSpec ClProofs.
Import ListNotations.
Local Open Scope Z_scope.

(** Preparing a clause changes none of its models that agree with the top-level
    assignment.  [force] is clause_force_simplify; without it the caller promises
    that variables are distinct. *)
Theorem c12_prepare_equivalent : forall s force lits, wf_view s -> force = true \/ distinct_vars lits ->
  forall a, extends_top a s -> sat_clause a (prepare_vec s force lits) = sat_clause a lits.
Proof. intros s force lits W H. exact (proj1 (prepare_vec_spec s W force lits H)). Qed.
Print Assumptions c12_prepare_equivalent.

(** The result is the literal "true", and then the clause is satisfied on the top
    level or contains complementary literals; or it consists exactly of those
    literals that are not assigned on the top level, each once, without
    complementary literals, and the first two are valid watches. *)
Theorem c12_prepare_simplified : forall s force lits, wf_view s -> force = true \/ distinct_vars lits ->
  let c := prepare_vec s force lits in
  (c = [lit_true] /\ trivially_true s lits) \/
  (distinct_vars c /\ watches_first s c /\
   (forall p, In p c -> In p lits /\ ~ on_top s p) /\
   (forall p, In p lits -> In p c \/ (false_lit s p /\ s_lvl s (fst p) = 0))).
Proof. intros s force lits W H. exact (proj2 (prepare_vec_spec s W force lits H)). Qed.
Print Assumptions c12_prepare_simplified.

(** The status reported for a clause is exact. *)
Theorem c12_status_exact : forall s lits, wf_view s -> distinct_vars lits ->
  let st := status s lits in
  (* subsumed: true on the top level *)
  (st = 9 <-> exists p, In p lits /\ true_lit s p /\ s_lvl s (fst p) = 0) /\
  (* sat bit *)
  (Z.testbit st 0 = true <-> exists p, In p lits /\ true_lit s p) /\
  (* unsat bit *)
  (Z.testbit st 1 = true <-> forall p, In p lits -> false_lit s p) /\
  (* empty: false on the top level *)
  (st = 10 <-> forall p, In p lits -> false_lit s p /\ s_lvl s (fst p) = 0) /\
  (* unit bit: one literal is (or, after going back, becomes) implied by the others *)
  (st <> 9 -> (Z.testbit st 2 = true <->
     exists p, In p lits /\ ~ on_top s p /\
       forall q, In q lits -> q <> p -> false_lit s q /\ (free_lit s p \/ s_lvl s (fst q) < s_lvl s (fst p)))).
Proof. intros s lits W. exact (status_spec s W lits). Qed.
Print Assumptions c12_status_exact.

(** ** Concrete cases *)
(** Variable 1 false on level 0, 2 false on level 1, 3 true on level 2, 4 false on
    level 2, 5 true on level 1, others free; current level 2. *)
Definition ex_view : sview := SView
  (fun v => match v with 0 => Some true | 1 => Some false | 2 => Some false | 3 => Some true | 4 => Some false | 5 => Some true | _ => None end)%nat
  (fun v => match v with 2%nat => 1 | 3%nat => 2 | 4%nat => 2 | 5%nat => 1 | _ => 0 end) 2.
Example ex_view_wf : wf_view ex_view.
Proof.
  split; cbn.
  - auto.
  - intros [|[|[|[|[|[|v]]]]]] b; cbn; intros H; try discriminate; split; discriminate.
  - unfold varMax. split; [discriminate|reflexivity].
Qed.
Definition P (v : nat) : lit := (v, false).
Definition N (v : nat) : lit := (v, true).
Example c12_prepare_nonvacuous :
  prepare_vec ex_view true [P 2; P 1; P 4; P 2; P 6] = [P 6; P 4; P 2] /\
  prepare_vec ex_view true [P 6; P 2; N 6; P 4] = [lit_true] /\
  prepare_vec ex_view true [P 6; N 6] = [lit_true] /\
  prepare_vec ex_view true [P 6; P 6] = [P 6] /\
  prepare_vec ex_view false [P 2; P 4; P 3; P 5; P 6] = [P 5; P 3; P 2; P 4; P 6] /\
  prepare_vec ex_view true [P 1] = [].
Proof. repeat split. Qed.
Example c12_status_nonvacuous :
  status ex_view [P 2; P 4] = 6 /\ status ex_view [P 2; P 6; P 4] = 4 /\ status ex_view [P 2; P 3; P 4] = 1 /\
  status ex_view [P 2; P 3] = 5 /\ status ex_view [P 6; P 7] = 0 /\ status ex_view [P 1] = 10 /\
  status ex_view [P 6; N 1] = 9.
Proof. repeat split. Qed.

(** ** Observations *)
(** clause.h:203-208 documents that for equally assigned literals the order
    increases with the level.  For true literals it decreases. *)
Theorem c12_documented_order_refuted : exists s p q, wf_view s /\ true_lit s p /\ true_lit s q /\
  s_lvl s (fst p) > s_lvl s (fst q) /\ watchOrder s p < watchOrder s q.
Proof. exists ex_view, (P 3), (P 5). split; [apply ex_view_wf|]. repeat split. Qed.
Print Assumptions c12_documented_order_refuted.

(** Without clause_force_simplify, duplicate literals make [prepare] drop the rest
    of the clause. *)
Theorem c12_duplicates_refuted : exists s lits a, wf_view s /\ extends_top a s /\
  sat_clause a (prepare_vec s false lits) = false /\ sat_clause a lits = true.
Proof.
  exists ex_view, [P 6; P 6; P 7], (fun v => negb (Nat.leb 1 v && Nat.leb v 2) && negb (Nat.eqb v 4 || Nat.eqb v 6)).
  split; [apply ex_view_wf|]. split; [|split; reflexivity].
  intros [|[|[|[|[|[|v]]]]]] b; cbn; intros H; try discriminate; congruence.
Qed.
Print Assumptions c12_duplicates_refuted.
