(** Sessions of a solver and what its answers mean. *)
From Coq Require Import List Bool Arith ZArith.
From Verif Require Import Base ClModel BpModel BpSpec CaModel SeModel.
Import ListNotations.

(** Decision heuristics return a free variable of the problem if there is one. *)
Definition picks (n : nat) (w : oracle) : Prop :=
  forall k s, hasFree n s = true -> good_var n (w_pick w k s) /\ isT s (w_pick w k s) = false /\ isF s (w_pick w k s) = false.

(** Calls of the user.  [F]: the clauses added so far; [A]: the current assumptions with the root level after they were pushed; an
    assumption is active until that level is popped. *)
Inductive sess (n : nat) : sv -> list clause -> list (lit * nat) -> Prop :=
| s_init : sess n (Sv init []) [] []
| s_add : forall x F A f c, sess n x F A -> b_conf (q_st x) = None -> b_dl (q_st x) = 0 -> Forall (good_var n) c ->
    (f_learnt f = false /\ f_fw f < length (prepare_vec (view (q_st x)) true c) /\ f_sw f < length (prepare_vec (view (q_st x)) true c) \/ f_learnt f = true) ->
    sess n (fst (addClause x f c)) (F ++ [c]) A
| s_push : forall x F A p x' ok, sess n x F A -> good_var n p -> pushRoot n x p = Ok (x', ok) ->
    sess n x' F (if ok || Nat.ltb (b_root (q_st x)) (b_root (q_st x')) then A ++ [(p, b_root (q_st x'))] else A)
| s_pop : forall x F A k, sess n x F A ->
    sess n (popRoot x k) F (filter (fun a => Nat.leb (snd a) (b_root (q_st x) - k)) A)
| s_search : forall x F A fuel w x' v, sess n x F A -> picks n w -> search fuel n w x = Ok (x', v) -> v <> VFuel -> sess n x' F A
| s_solve : forall x F A rounds fuel w x' v, sess n x F A -> picks n w -> solve rounds fuel n w x = Ok (x', v) -> v <> VFuel -> sess n x' F A
| s_restart : forall x F A, sess n x F A -> sess n (restart x) F A
| s_reduce : forall x F A l, sess n x F A -> b_conf (q_st x) = None -> sess n (reduce x l) F A.

(** [a] satisfies all clauses and all assumptions. *)
Definition isModel (a : asg) (F : list clause) (A : list (lit * nat)) : Prop :=
  sat_cnf a F = true /\ forall p l, In (p, l) A -> holds a p = true.
(** The assignment found, as in Solver::model *)
Definition modelOf (s : st) : asg := fun v => isT s (v, false).
Definition total (n : nat) (s : st) : Prop := forall v, 1 <= v <= n -> xorb (isT s (v, false)) (isT s (v, true)) = true.

(** A bound on the number of steps of a search *)
Definition bound (n : nat) : nat := S (Nat.pow (n + 2) (S n)).

(** Clauses a solver stores: explicit ones and implications *)
Definition stored (s : st) (c : clause) : Prop :=
  (exists i d, nth i (b_cls s) None = Some d /\ c = h0 d :: others d (h0 d)) \/
  (exists p q, In q (b_bin s p) /\ c = [neg p; q]) \/ (exists p q r, In (q, r) (b_tern s p) /\ c = [neg p; q; r]).
(** No limit stops a search. *)
Definition unlimited (w : oracle) : Prop := forall k s, w_limit w k s = false.
