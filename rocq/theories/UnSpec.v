(** What a user-defined propagator is told (C56). *)
From Coq Require Import List Arith Bool.
From Verif Require Import Base.
Import ListNotations.

(** Calls of the user's functions: propagate with changes, check, undo with changes *)
Inductive ev := EProp (ch : list lit) | ECheck | EUndo (ch : list lit).
(** What the user holds after the calls if propagate pushes the changes and undo pops them; undo must give exactly the last ones. *)
Inductive view : list ev -> list lit -> Prop :=
| V0 : view [] []
| VProp tr V ch : view tr V -> view (tr ++ [EProp ch]) (V ++ ch)
| VCheck tr V : view tr V -> view (tr ++ [ECheck]) V
| VUndo tr V ch : view tr (V ++ ch) -> view (tr ++ [EUndo ch]) V.
