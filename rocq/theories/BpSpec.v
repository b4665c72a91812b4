(** Histories of a solver and what unit propagation owes to the clauses. *)
From Coq Require Import List Bool Arith ZArith.
From Verif Require Import Base ClModel ClSpec BpModel.
Import ListNotations.

(** Calls; [OForce]: another constraint forces a literal on the current level. *)
Inductive op :=
| ODecide (p : lit) | OForce (p : lit) | OPropagate | OUndo (l : nat)
| OCreate (f : flags) (simp : bool) (c : list lit) | ORemove (i : nat)
| OPushRoot | OPopRoot (k : nat).

Definition good_var (n : nat) (p : lit) : Prop := 0 < fst p <= n.

(** Variables are 1..n; there is no conflict when literals are assigned or clauses added or removed;
    decisions are made only after propagation; clauses that are not learnt are added on
    the top level; the root levels do not contradict a new clause; complementary or duplicate literals require clause_force_simplify. *)
Definition op_ok (n : nat) (s : st) (o : op) : Prop :=
  match o with
  | ODecide p => b_conf s = None /\ b_front s = length (b_trail s) /\ good_var n p
  | OForce p => b_conf s = None /\ good_var n p
  | OPropagate => b_conf s = None
  | OCreate f simp c => b_conf s = None /\ (Z.of_nat (b_dl s) < varMax)%Z /\ Forall (good_var n) c /\
      (simp = true \/ distinct_vars c) /\ (f_learnt f = true \/ b_dl s = 0 /\
        (f_fw f < length (prepare_vec (view s) simp c))%nat /\ (f_sw f < length (prepare_vec (view s) simp c))%nat) /\
      (b_root s = 0 \/ exists p, In p c /\ forall e, In e (b_trail s) -> e_lit e = neg p -> b_root s < e_lev e)
  | ORemove _ => b_conf s = None
  | OUndo _ | OPushRoot | OPopRoot _ => True
  end.
Definition run (n : nat) (s : st) (o : op) : st :=
  match o with
  | ODecide p => assume s p
  | OForce p => fst (force s p Ext)
  | OPropagate => fst (propagate (S (S n)) s)
  | OUndo l => undo s l
  | OCreate f simp c => fst (create s f simp c)
  | ORemove i => remove s i
  | OPushRoot => pushRootLevel s
  | OPopRoot k => popRootLevel s k
  end.

(** The clauses of the solver, as given by the user: those kept in the implication graph
    (or as facts), and the others by number. *)
Record db := Db { d_imp : list (list lit); d_exp : list (option (list lit)) }.
Definition inDb (D : db) (c : list lit) : Prop := In c (d_imp D) \/ In (Some c) (d_exp D).
Definition db_step (s : st) (D : db) (o : op) (s' : st) : db :=
  match o with
  | OCreate _ _ c => if Nat.eqb (length (b_cls s')) (length (b_cls s)) then Db (d_imp D ++ [c]) (d_exp D)
                     else Db (d_imp D) (d_exp D ++ [Some c])
  | ORemove i => if nth i (b_cls s') None then D else Db (d_imp D) (put_at (d_exp D) i None)
  | _ => D
  end.

Inductive reach (n : nat) : st -> db -> Prop :=
| reach_init : reach n init (Db [] [])
| reach_op : forall s D o, reach n s D -> op_ok n s o -> reach n (run n s o) (db_step s D o (run n s o)).

(** Literals that are true, false or free in a trail. *)
Definition tTrue (t : list ent) (p : lit) : Prop := exists e, In e t /\ e_lit e = p.
Definition tFalse (t : list ent) (p : lit) : Prop := tTrue t (neg p).
Definition tFree (t : list ent) (p : lit) : Prop := ~ tTrue t p /\ ~ tFalse t p.

(** A clause that is neither violated nor unit. *)
Definition quiet (t : list ent) (c : list lit) : Prop :=
  (exists p, In p c /\ tTrue t p) \/ (exists p q, In p c /\ In q c /\ p <> q /\ tFree t p /\ tFree t q).
Definition violated (t : list ent) (c : list lit) : Prop := forall p, In p c -> tFalse t p.
(** [p] is implied by a clause under the assignments before it. *)
Definition implied (D : db) (t : list ent) (p : lit) : Prop :=
  exists c, inDb D c /\ In p c /\ forall q, In q c -> q <> p -> tFalse t q.
(** Assignments that are made from outside. *)
Definition given (e : ent) : Prop := e_why e = Dec \/ e_why e = Ext \/ e_lit e = lit_true.
