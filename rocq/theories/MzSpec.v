(** What propagation with a minimize constraint should achieve.  The sum of an assignment is [dataSum] of MnSpec.v. *)
From Coq Require Import List Bool Arith ZArith.
From Verif Require Import Base MnModel MnSpec MzModel.
Import ListNotations.
Open Scope Z_scope.

(** The sums of assignment [a] are lexicographically greater than the bound [B]. *)
Definition exceeds (d : data) (a : asg) (B : list Z) : Prop := lexGt (numRules d) (fun lev => dataSum d lev a) (fun lev => nth lev B 0).
(** [a] agrees with everything assigned on level [k] or below. *)
Definition agrees (a : asg) (e : env) (k : nat) : Prop := forall v m, v_asn e v = Some m -> (e_lev m <= k)%nat -> a v = e_val m.
(** The constraint was told about every true literal on level [k] or below. *)
Definition informed (d : data) (e : env) (c : mc) (k : nat) : Prop :=
  forall i, (i < length (lits d))%nat -> isTrue (pv e) (litAt d i) = true -> (levelOf e (fst (litAt d i)) <= k)%nat -> c_seen c i = true.
(** Literal [x] is false, and known to be implied on level [k] or below. *)
Definition falseOn (e : env) (x : lit) (k : nat) : Prop := exists m, v_asn e (fst x) = Some m /\ e_val m = snd x /\ (e_eff m <= k)%nat.
(** [d] is the constraint built from some minimize statements (it has at most 2^32 literals, else the 64-bit sums may overflow). *)
Definition Constructed (d : data) : Prop := exists s stmts, topOk s /\ (exists a, extends a s) /\ build s stmts = Ok (Some d) /\ Z.of_nat (length (d_lits d)) <= 4294967296.
