(** Model of PropagatorList (/repo/src/constraint.cpp:60-100, /repo/clasp/constraint.h:378-391).

    Post propagators are numbers; [n_next] is their member next, [n_head] the list's head_.  The loops follow pointers and are bounded
    by fuel (UB if it runs out: the theorems show when it does not).  Priorities do not change; they are a function. *)
From Coq Require Import List Bool Arith.
From Verif Require Import Base.
Import ListNotations.

Record plist := P { n_head : option nat; n_next : nat -> option nat }.
Definition upd (f : nat -> option nat) (k : nat) (v : option nat) : nat -> option nat := fun x => if Nat.eqb x k then v else f x.
(** A pointer to a pointer: head() is [None], &x->next is [Some x]. *)
Definition slot := option nat.
Definition load (l : plist) (r : slot) : option nat := match r with None => n_head l | Some x => n_next l x end.
Definition store (l : plist) (r : slot) (v : option nat) : plist := match r with None => P v (n_next l) | Some x => P (n_head l) (upd (n_next l) x v) end.

Section P.
Variable prio : nat -> nat.
(** add (73-83) *)
Fixpoint addLoop (fuel : nat) (l : plist) (p : nat) (r : slot) : res plist :=
  match fuel with
  | O => UB
  | S fuel =>
    let x := load l r in
    match x with
    | Some y => if Nat.ltb (prio p) (prio y) then Ok (store (P (n_head l) (upd (n_next l) p x)) r (Some p)) else addLoop fuel l p (Some y)
    | None => Ok (store (P (n_head l) (upd (n_next l) p x)) r (Some p))
    end
  end.
Definition add (fuel : nat) (l : plist) (p : nat) : res plist := match n_next l p with None => addLoop fuel l p None | Some _ => Throws end.
(** remove (84-93) *)
Fixpoint removeLoop (fuel : nat) (l : plist) (p : nat) (r : slot) : res plist :=
  match fuel with
  | O => UB
  | S fuel =>
    match load l r with
    | None => Ok l
    | Some x => if Nat.eqb x p then let l := store l r (n_next l x) in Ok (P (n_head l) (upd (n_next l) p None)) else removeLoop fuel l p (Some x)
    end
  end.
Definition remove (fuel : nat) (l : plist) (p : nat) : res plist := removeLoop fuel l p None.
(** find (94-100) *)
Fixpoint findLoop (fuel : nat) (l : plist) (k : nat) (x : option nat) : res (option nat) :=
  match fuel with
  | O => UB
  | S fuel =>
    match x with
    | None => Ok None
    | Some y => if Nat.leb k (prio y) then Ok (if Nat.eqb (prio y) k then Some y else None) else findLoop fuel l k (n_next l y)
    end
  end.
Definition find (fuel : nat) (l : plist) (k : nat) : res (option nat) := findLoop fuel l k (n_head l).
End P.
(** clear (65-72): the propagators are destroyed, in this order; a propagator created later under the same number starts with next = 0 *)
Fixpoint clearLoop (fuel : nat) (l : plist) (r : option nat) (ds : list nat) : res (plist * list nat) :=
  match fuel with
  | O => UB
  | S fuel =>
    match r with
    | None => Ok (P None (n_next l), ds)
    | Some t => let r := n_next l t in clearLoop fuel (P (n_head l) (upd (n_next l) t None)) r (ds ++ [t])
    end
  end.
Definition clear (fuel : nat) (l : plist) : res (plist * list nat) := clearLoop fuel l (n_head l) [].
Definition new : plist := P None (fun _ => None).
