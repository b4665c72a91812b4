(** What the distribution of nogoods promises (C51), in terms of what its clients see.

    Threads [0..m-1] publish nogoods; [peers t s]: thread [t] listens to thread [s]. *)
From Coq Require Import List Bool Arith.
Import ListNotations.

(** A published nogood: number of the publish call, sender, whether it has one literal, whether the sender keeps a reference. *)
Record item := It { it_id : nat; it_from : nat; it_unit : bool; it_keep : bool }.
(** Calls and results of the interface; [Del]: the memory of the nogood is freed; [Mem]: a block of memory is allocated *)
Inductive ev :=
| Call (t : nat) (x : item)    (* publish starts *)
| Ret (t : nat) (x : item)     (* publish returns *)
| Recv (t : nat) (x : item)    (* receive yields the nogood *)
| Empty (t : nat)              (* receive yields nothing *)
| Rel (t : nat) (x : item)     (* a client gives its reference back *)
| Del (x : item)
| Mem (a : nat).

Section Spec.
Variables (m : nat) (peers : nat -> nat -> bool).
(** Nogoods go to everyone who listens to the sender; single literals go to all others. *)
Definition goesTo (t : nat) (x : item) : bool := negb (t =? it_from x) && (it_unit x || peers t (it_from x)).
Definition from (s : nat) (x : item) : bool := it_from x =? s.
Fixpoint published (tr : list ev) (s : nat) : list item :=
  match tr with [] => [] | Call t x :: r => if t =? s then x :: published r s else published r s | _ :: r => published r s end.
Fixpoint received (tr : list ev) (t : nat) : list item :=
  match tr with [] => [] | Recv u x :: r => if u =? t then x :: received r t else received r t | _ :: r => received r t end.
Fixpoint blocks (tr : list ev) : list nat := match tr with [] => [] | Mem a :: r => a :: blocks r | _ :: r => blocks r end.
Fixpoint deleted (tr : list ev) : list item := match tr with [] => [] | Del x :: r => x :: deleted r | _ :: r => deleted r end.
(** What [t] was sent by [s] and has received is the beginning of what [s] published for [t], in this order. *)
Definition inOrder (tr : list ev) (t s : nat) : Prop := exists rest, filter (goesTo t) (published tr s) = filter (from s) (received tr t) ++ rest.
(** All of it was received. *)
Definition allOf (tr : list ev) (t s : nat) : Prop := filter (goesTo t) (published tr s) = filter (from s) (received tr t).
(** Thread [t] needs the nogood: it will receive it or has received it, or it has published it and keeps it; and it has not given it back. *)
Definition needs (tr : list ev) (t : nat) (x : item) : Prop := (goesTo t x = true \/ t = it_from x /\ it_keep x = true) /\ ~ In (Rel t x) tr.
End Spec.
