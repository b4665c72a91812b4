(** What users of the broadcast queue rely on, in terms of the sequence of observable events: calls and returns of publish and tryConsume, and calls of the deleter.
    Publications are identified by the number of their call. *)
From Coq Require Import List Arith.
From Verif Require Import Base MqModel.
Import ListNotations.

Section S.
Variable A : Type.
Notation trace := (list (ev A)).

(** Items returned to thread [t], in order. *)
Definition received (tr : trace) (t : nat) : list nat :=
  flat_map (fun e => match e with Got u id _ => if Nat.eqb u t then [id] else [] | _ => [] end) tr.
(** Items for which the deleter was called, in order. *)
Definition deleted (tr : trace) : list nat := flat_map (fun e => match e with Del id _ => [id] | _ => [] end) tr.

Definition prefix {B} (a b : list B) : Prop := exists c, b = a ++ c.
Definition called (tr : trace) (id : nat) (v : A) : Prop := exists t, In (Call t id v) tr.
Definition returned (tr : trace) (id : nat) : Prop := exists t, In (Ret t id) tr.
(** [x] stands before [y] in a list *)
Definition ahead {B} (l : list B) (x y : B) : Prop := exists l1 l2 l3, l = l1 ++ x :: l2 ++ y :: l3.

(** [L] is an order of the publications such that ... *)
Record broadcast (m : nat) (tr : trace) (L : list nat) : Prop := {
  (* no publication occurs twice, all were called, *)
  b_once : NoDup L;
  b_called : forall id, In id L -> exists v, called tr id v;
  (* all publications that returned occur, *)
  b_returned : forall id, returned tr id -> In id L;
  (* a publication that returned before another one was called comes first, *)
  b_time : forall i j t u v, ahead tr (Ret t i) (Call u j v) -> In j L -> ahead L i j;
  (* every thread receives the items in this order, from the first one on and without gaps, with the values passed to publish, *)
  b_received : forall t, prefix (received tr t) L;
  b_value : forall t id v, In (Got t id v) tr -> called tr id v;
  (* tryConsume returns false only if the thread has received everything that was published by then, *)
  b_empty : forall t tr1 tr2, tr = tr1 ++ Empty t :: tr2 -> forall id, returned tr1 id -> In id (received tr1 t);
  (* items are destroyed in this order, each at most once, and only after all [m] threads received them. *)
  b_deleted : prefix (deleted tr) L;
  b_alive : forall id v tr1 tr2, tr = tr1 ++ Del id v :: tr2 -> forall t, t < m -> In id (received tr1 t)
}.
End S.
Arguments received {A}. Arguments deleted {A}. Arguments called {A}. Arguments returned {A}. Arguments broadcast {A}.

(** Thread [t] runs on while all other threads pause, until its operation is finished. *)
Fixpoint alone {A} (m t k : nat) (s : st A) : res (st A) :=
  match s_pc s t with
  | Idle => Ok s
  | _ => match k with
         | 0 => Throws
         | S k => match run1 m t s with Ok (s', _) => alone m t k s' | _ => UB end
         end
  end.
