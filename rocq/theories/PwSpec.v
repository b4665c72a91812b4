(** Watches a user asks for (C57). *)
From Coq Require Import List Arith Bool.
From Verif Require Import Base.
Import ListNotations.

(** Calls of addWatch, removeWatch (for one solver or for all) and freezeLit *)
Inductive op := OAdd (who : option nat) (l : lit) | ORem (who : option nat) (l : lit) | OFrz (l : lit).
Definition for_solver (who : option nat) (sid : nat) : Prop := who = None \/ who = Some sid.
(** After the calls, solver [sid] shall watch [l]: a watch was asked for and not removed since. *)
Definition wanted (ops : list op) (sid : nat) (l : lit) : Prop :=
  exists a w b, ops = a ++ OAdd w l :: b /\ for_solver w sid /\ forall w', In (ORem w' l) b -> ~ for_solver w' sid.
Definition valid (o : op) : Prop := match o with OAdd (Some k) _ | ORem (Some k) _ => k < 64 | _ => True end.
