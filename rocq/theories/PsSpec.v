(** What parallel solving promises (C50), without reference to threads.

    A solution is anything with a truth value for every literal; [G]: the solutions of the problem; [cost]: their costs. *)
From Coq Require Import List Bool ZArith.
Import ListNotations.
From Verif Require Import Base.
Local Open Scope Z_scope.

Section Spec.
Variables (sol : Type) (tv : sol -> lit -> bool) (G : sol -> Prop) (cost : sol -> Z).

(** [m] satisfies all literals of [p] *)
Definition inPath (p : list lit) (m : sol) : Prop := forall l, In l p -> tv m l = true.
(** A solution under the assumptions [p] *)
Definition isSol (p : list lit) (m : sol) : Prop := G m /\ inPath p m.

(** All solutions were reported, up to [same] (equal, equal after projection, or anything if one solution is enough) *)
Definition allReported (p : list lit) (same : sol -> sol -> Prop) (rep : list sol) : Prop :=
  (forall r, In r rep -> isSol p r) /\ (forall m, isSol p m -> exists r, In r rep /\ same r m).
(** A solution with the smallest costs was reported, if there is a solution *)
Definition optReported (p : list lit) (rep : list sol) : Prop :=
  (forall r, In r rep -> isSol p r) /\ (forall m, isSol p m -> exists r, In r rep /\ cost r <= cost m).
(** All solutions with the smallest costs were reported, up to [same]; [rep0]: solutions reported before the optimum was known *)
Definition allOptReported (p : list lit) (same : sol -> sol -> Prop) (rep : list sol) : Prop :=
  (forall r, In r rep -> isSol p r) /\
  (forall m, isSol p m -> (forall m', isSol p m' -> cost m <= cost m') -> exists r, In r rep /\ same r m).
(** No solution was reported twice, up to [same] *)
Definition onceEach (same : sol -> sol -> Prop) (rep : list sol) : Prop := ForallOrdPairs (fun a b => ~ same a b) rep.
(** Each solution is better than the ones reported before *)
Definition improving (rep : list sol) : Prop := ForallOrdPairs (fun a b => cost b < cost a) rep.
End Spec.
