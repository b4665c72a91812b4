(** Histories of a priority queue: which keys are in it, and the order of their priorities, which may change between calls. *)
From Coq Require Import List Bool Arith.
From Verif Require Import Base IqModel.
Import ListNotations.

(** A strict weak order: [c x y] means that x has a higher priority than y. *)
Record swo (c : cmp) : Prop := {
  swo_irr : forall x, c x x = false;
  swo_tr : forall x y z, c x y = true -> c y z = true -> c x z = true;
  swo_ntr : forall x y z, c x y = false -> c y z = false -> c x z = false }.
(** Two orders agree on the given keys, apart from [k]. *)
Definition agree (S : list nat) (c d : cmp) : Prop := forall x y, In x S -> In y S -> c x y = d x y.
Definition without (k : nat) (S : list nat) : list nat := filter (fun x => negb (Nat.eqb x k)) S.

(** [S]: the keys pushed and not removed; [c]: the current priorities.  The priority of a key in the queue changes only together with a call
    of update, increase or decrease; other priorities may change at any time. *)
Inductive hist : queue -> list nat -> cmp -> Prop :=
| h_new : forall c, swo c -> hist clear [] c
| h_scores : forall q S c d, hist q S c -> swo d -> agree S c d -> hist q S d
| h_push : forall q S c k q', hist q S c -> ~ In k S -> push c q k = Ok q' -> hist q' (k :: S) c
| h_pop : forall q S c t q', hist q S c -> S <> [] -> top q = Ok t -> pop c q = Ok q' -> hist q' (without t S) c
| h_update : forall q S c d k q', hist q S c -> swo d -> agree (without k S) c d -> update d q k = Ok q' -> hist q' (k :: without k S) d
| h_increase : forall q S c d k q', hist q S c -> In k S -> swo d -> agree (without k S) c d ->
    (forall y, In y S -> c y k = false -> d y k = false) -> increase d q k = Ok q' -> hist q' S d
| h_decrease : forall q S c d k q', hist q S c -> In k S -> swo d -> agree (without k S) c d ->
    (forall y, In y S -> c k y = false -> d k y = false) -> decrease d q k = Ok q' -> hist q' S d
| h_remove : forall q S c k q', hist q S c -> remove c q k = Ok q' -> hist q' (without k S) c
| h_clear : forall q S c, hist q S c -> hist clear [] c.

(** Emptying the queue: the keys in the order in which top/pop yield them. *)
Fixpoint drain (fuel : nat) (c : cmp) (q : queue) : res (list nat) :=
  match fuel with
  | O => UB
  | S f => if Nat.eqb (size q) 0 then Ok [] else do t <- top q; do q <- pop c q; do l <- drain f c q; Ok (t :: l)
  end.
(** No key is followed by one of higher priority. *)
Inductive ordered (c : cmp) : list nat -> Prop :=
| o_nil : ordered c []
| o_cons : forall x l, (forall y, In y l -> c y x = false) -> ordered c l -> ordered c (x :: l).
