(** Shared vocabulary of the higher-level models: literals as (variable, sign),
    total and partial assignments, clauses, outcomes of C++ computations. *)
From Coq Require Import List Bool Arith ZArith Lia.
Import ListNotations.

(** A literal: variable and sign ([true] = negative).  LitProofs.v shows that the
    machine words of clasp/literal.h are a faithful encoding of such pairs. *)
Definition lit : Type := (nat * bool)%type.
Definition var (l : lit) : nat := fst l.
Definition sgn (l : lit) : bool := snd l.
Definition neg (l : lit) : lit := (fst l, negb (snd l)).
(** literal.h:156 [operator^(Literal, bool)] *)
Definition xorl (l : lit) (b : bool) : lit := if b then neg l else l.
Definition lit_eqb (a b : lit) : bool := (fst a =? fst b) && Bool.eqb (snd a) (snd b).
Definition pos (v : nat) : lit := (v, false).
Definition ngt (v : nat) : lit := (v, true).

(** Total assignments and truth of literals and clauses. *)
Definition asg := nat -> bool.
Definition holds (a : asg) (l : lit) : bool := xorb (a (fst l)) (snd l).
Definition clause := list lit.
Definition sat_clause (a : asg) (c : clause) : bool := existsb (holds a) c.
Definition sat_cnf (a : asg) (f : list clause) : bool := forallb (sat_clause a) f.

(** Partial assignments. *)
Definition pasg := nat -> option bool.
Definition pval (p : pasg) (l : lit) : option bool := option_map (fun b => xorb b (snd l)) (p (fst l)).
Definition isTrue (p : pasg) (l : lit) : bool := match pval p l with Some true => true | _ => false end.
Definition isFalse (p : pasg) (l : lit) : bool := match pval p l with Some false => true | _ => false end.
Definition isFree (p : pasg) (v : nat) : bool := match p v with None => true | _ => false end.
Definition extends (a : asg) (p : pasg) : Prop := forall v b, p v = Some b -> a v = b.

(** Outcome of a C++ computation: a value, a thrown exception, or undefined
    behaviour (signed overflow, out-of-bounds access). *)
Inductive res (A : Type) : Type := Ok (x : A) | Throws | UB.
Arguments Ok {A}. Arguments Throws {A}. Arguments UB {A}.
Definition bind {A B} (r : res A) (f : A -> res B) : res B :=
  match r with Ok x => f x | Throws => Throws | UB => UB end.
Notation "'do' x <- r ; f" := (bind r (fun x => f)) (at level 200, x name, r at level 100, f at level 200).
Notation "'do' ' p <- r ; f" := (bind r (fun p => f)) (at level 200, p strict pattern, r at level 100, f at level 200).

Definition int_max : Z := 2147483647.
Definition int_min : Z := -2147483648.
(** int32 arithmetic: overflow is undefined behaviour *)
Definition i32 (z : Z) : res Z := if ((int_min <=? z) && (z <=? int_max))%Z then Ok z else UB.

(** Basic facts *)
Lemma lit_eqb_eq a b : lit_eqb a b = true <-> a = b.
Proof.
  destruct a as [v s], b as [w t]; unfold lit_eqb; cbn. rewrite andb_true_iff, Nat.eqb_eq, eqb_true_iff.
  split; [intros [-> ->]; reflexivity|intros E; injection E; auto].
Qed.
Lemma lit_eqb_refl a : lit_eqb a a = true. Proof. now apply lit_eqb_eq. Qed.
Lemma lit_eqb_neq a b : lit_eqb a b = false <-> a <> b.
Proof. rewrite <- lit_eqb_eq. destruct (lit_eqb a b); split; congruence. Qed.
Lemma lit_eqb_sym a b : lit_eqb a b = lit_eqb b a.
Proof. destruct (lit_eqb a b) eqn:E, (lit_eqb b a) eqn:F; auto.
  - apply lit_eqb_eq in E; subst. now rewrite lit_eqb_refl in F.
  - apply lit_eqb_eq in F; subst. now rewrite lit_eqb_refl in E. Qed.
Lemma lit_eq_dec (a b : lit) : {a = b} + {a <> b}.
Proof. destruct (lit_eqb a b) eqn:E; [left; now apply lit_eqb_eq|right; now apply lit_eqb_neq]. Defined.
Lemma neg_neg l : neg (neg l) = l.
Proof. destruct l as [v s]. unfold neg; cbn. now rewrite negb_involutive. Qed.
Lemma neg_inj a b : neg a = neg b -> a = b.
Proof. intros H. rewrite <- (neg_neg a), H. apply neg_neg. Qed.
Lemma neg_neq l : neg l <> l.
Proof. destruct l as [v []]; unfold neg; cbn; congruence. Qed.
Lemma var_neg l : fst (neg l) = fst l. Proof. reflexivity. Qed.
Lemma same_var a b : fst a = fst b -> b = a \/ b = neg a.
Proof. destruct a as [v s], b as [w t]; cbn; intros ->. destruct s, t; unfold neg; cbn; auto. Qed.
Lemma holds_neg a l : holds a (neg l) = negb (holds a l).
Proof. unfold holds, neg; cbn. now destruct (a (fst l)), (snd l). Qed.
Lemma holds_xorl a l b : holds a (xorl l b) = xorb (holds a l) b.
Proof. destruct b; cbn; [rewrite holds_neg; now destruct (holds a l)|now destruct (holds a l)]. Qed.
Lemma pval_neg p l : pval p (neg l) = option_map negb (pval p l).
Proof. unfold pval, neg; cbn. destruct (p (fst l)) as [[]|], (snd l); reflexivity. Qed.
Lemma pval_free p l : pval p l = None <-> p (fst l) = None.
Proof. unfold pval. destruct (p (fst l)); cbn; split; congruence. Qed.
Lemma extends_val a p l b : extends a p -> pval p l = Some b -> holds a l = b.
Proof.
  unfold extends, pval, holds. intros H. destruct (p (fst l)) eqn:E; cbn; [|discriminate].
  intros [= <-]. rewrite (H _ _ E). reflexivity.
Qed.
Lemma extends_true a p l : extends a p -> isTrue p l = true -> holds a l = true.
Proof. unfold isTrue. intros H. destruct (pval p l) as [[]|] eqn:E; try discriminate. intros _. eapply extends_val; eauto. Qed.
Lemma extends_false a p l : extends a p -> isFalse p l = true -> holds a l = false.
Proof. unfold isFalse. intros H. destruct (pval p l) as [[]|] eqn:E; try discriminate. intros _. eapply extends_val; eauto. Qed.
Lemma bind_ok {A B} (r : res A) (f : A -> res B) y : bind r f = Ok y -> exists x, r = Ok x /\ f x = Ok y.
Proof. destruct r; cbn; try discriminate. eauto. Qed.
Lemma i32_ok z y : i32 z = Ok y -> y = z /\ (int_min <= z <= int_max)%Z.
Proof. unfold i32. destruct ((int_min <=? z) && (z <=? int_max))%Z eqn:E; [|discriminate].
  apply andb_true_iff in E as [E1 E2]. apply Z.leb_le in E1, E2. intros [= <-]. auto. Qed.
