(** What users of the container rely on: every object is a pair of independent vectors. *)
From Coq Require Import List Arith NArith Bool.
From Verif Require Import LrModel.
Import ListNotations.

Section S.
Variable byte : Type.
Variables sL sR : nat.
Notation elem := (list byte).
Notation op := (op byte).

Definition vecs : Type := nat -> option (list elem * list elem).
Definition setv (v : vecs) (o : nat) (x : option (list elem * list elem)) : vecs := fun y => if Nat.eqb y o then x else v y.

(** Vector operations; erase at the end does nothing. *)
Definition erase {B} (l : list B) (k : nat) : list B := firstn k l ++ skipn (S k) l.
Definition eraseU {B} (l : list B) (k : nat) : list B :=
  if k <? length l then removelast (firstn k l ++ skipn (length l - 1) l ++ skipn (S k) l) else l.

(** At most 2^30 bytes per object. *)
Definition fits (l r : list elem) : bool := (N.of_nat (length l * sL + length r * sR) <=? 1073741824)%N.
Definition on (v : vecs) (o : nat) (f : list elem -> list elem -> option (list elem * list elem)) : option vecs :=
  match v o with Some (l, r) => match f l r with Some p => Some (setv v o (Some p)) | None => None end | None => None end.

(** Effect of an operation; None: the call violates its precondition. *)
Definition spec (v : vecs) (x : op) : option vecs :=
  match x with
  | ONew _ o => match v o with None => Some (setv v o (Some ([], []))) | Some _ => None end
  | OPushL _ o x => on v o (fun l r => if Nat.eqb (length x) sL && fits (l ++ [x]) r then Some (l ++ [x], r) else None)
  | OPushR _ o x => on v o (fun l r => if Nat.eqb (length x) sR && fits l (r ++ [x]) then Some (l, r ++ [x]) else None)
  | OPopL _ o => on v o (fun l r => match l with [] => None | _ => Some (removelast l, r) end)
  | OPopR _ o => on v o (fun l r => match r with [] => None | _ => Some (l, removelast r) end)
  | OEraseL _ o k => on v o (fun l r => if k <=? length l then Some (erase l k, r) else None)
  | OEraseLU _ o k => on v o (fun l r => if k <=? length l then Some (eraseU l k, r) else None)
  | OEraseR _ o k => on v o (fun l r => if k <=? length r then Some (l, erase r k) else None)
  | OEraseRU _ o k => on v o (fun l r => if k <=? length r then Some (l, eraseU r k) else None)
  | OShrinkL _ o k => on v o (fun l r => if k <=? length l then Some (firstn k l, r) else None)
  | OShrinkR _ o k => on v o (fun l r => if k <=? length r then Some (l, firstn k r) else None)
  | OClear _ o _ => on v o (fun _ _ => Some ([], []))
  | OTryShrink _ o => on v o (fun l r => Some (l, r))
  | OCopy _ o q => match v o, v q with None, Some p => Some (setv v o (Some p)) | _, _ => None end
  | OAssign _ o q => match v o, v q with Some _, Some p => Some (setv v o (Some p)) | _, _ => None end
  | OMove _ o q => match v o, v q with Some _, Some p => if Nat.eqb o q then None else Some (setv (setv v o (Some p)) q (Some ([], []))) | _, _ => None end
  | ODestroy _ o => match v o with Some _ => Some (setv v o None) | None => None end
  end.
Fixpoint specs (v : vecs) (l : list op) : option vecs := match l with [] => Some v | x :: r => match spec v x with Some v => specs v r | None => None end end.
Definition none : vecs := fun _ => None.

(** Sizes of the element types and of the inline buffer. *)
Record sizes (al i pad : nat) : Prop := {
  z_L : (0 < N.of_nat sL <= 65536)%N;
  z_R : (0 < N.of_nat sR <= 65536)%N;
  z_al : (0 < N.of_nat al <= 65536)%N;
  z_i : (N.of_nat i <= 65536)%N
}.
End S.
