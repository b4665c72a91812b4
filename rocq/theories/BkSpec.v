(** What enumeration by backtracking starts from, and what it has to report. Which models count as the same is said by
    [covers] of EnSpec. *)
From Coq Require Import List Bool Arith ZArith.
Import ListNotations.
From Verif Require Import Base ClModel EnModel EnSpec BkModel.

Definition modeB (proj : option (nat -> bool)) : mode := match proj with None => Decisions | Some P => Project P (fun _ => None) None end.
(** A model of the clauses under the assumptions; variable 0 stands for true *)
Definition isModelB (F : list clause) (As : list lit) (M : asg) : Prop :=
  M 0 = true /\ sat_cnf M F = true /\ forall p, In p As -> holds M p = true.

(** The state after EnumerationConstraint::start: the assumptions are the decisions up to the root level. *)
Record startB (F : list clause) (step : lit) (As : list lit) (s : bst) : Prop := {
  st_dec : dec s = As;
  st_root : root s = length As /\ flip s = root s /\ bmode s = 0;
  st_none : pn s = [] /\ rep s = [];
  (** the other true literals are implied on their level; no variable is both true and false *)
  st_imp : forall p k b, In (p, k, b) (imp s) -> k <= length As /\ forall M, isModelB F (firstn k As) M -> holds M p = true;
  st_cons : forall p, tr s p = true -> tr s (neg p) = true -> False;
  st_true : exists b, In (pos 0, 0, b) (imp s);
  st_step : tr s step = true;
  (** clauses learnt before hold in all models *)
  st_lrn : forall c M, In c (lrn s) -> M 0 = true -> sat_cnf M F = true -> sat_clause M c = true;
  st_cfl : cfl s = true -> forall M, ~ isModelB F As M
}.
