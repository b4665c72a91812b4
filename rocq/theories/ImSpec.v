(** Histories of a solver and what is justified by them. *)
From Coq Require Import List Bool Arith.
From Verif Require Import Base ImModel.
Import ListNotations.

(** Calls; [OConflict]: propagation or a client finds a violated nogood. *)
Inductive op :=
| OAssume (p : lit) | OForce (p : lit) (l : nat) (null : bool)
| OUndo (l : nat) | OUndoMode (l mode : nat)
| OSetBt (l mode : nat) | OPushRoot (n : nat) | OPopRoot (n : nat)
| OBacktrack | OConflict | OSetStop | OClearStop.

Definition run (s : st) (o : op) : st :=
  match o with
  | OAssume p => fst (assume s p)
  | OForce p l n => fst (forceAt s p l n)
  | OUndo l => undoImpl s l
  | OUndoMode l m => undo2 s l m
  | OSetBt l m => setBt s l m
  | OPushRoot n => pushRoot s n
  | OPopRoot n => popRoot s n
  | OBacktrack => fst (backtrack s)
  | OConflict => if hasConflict s then s else set_conf s Conf
  | OSetStop => setStop s
  | OClearStop => clearStop s
  end.

(** Preconditions of the calls.  The backtrack level is only moved down the tree by
    [OSetBt]; levels are not undone while a stop conflict is set.  [OBacktrack] with a projective backtrack level
    (mode 2) is called on that level only, which is what conflict resolution with
    learning and the enumerators do. *)
Definition op_ok (s : st) (o : op) : Prop :=
  match o with
  | OAssume _ => hasConflict s = false
  | OForce _ l _ => hasConflict s = false /\ l <= DL s
  | OSetBt l m => t_flip s <= l /\ m <= 2
  | OUndoMode _ _ => forall r f, t_conf s <> Stop r f
  | OBacktrack => (t_mode s <= 1 \/ DL s = t_flip s) /\ (forall r f, t_conf s <> Stop r f)
  | _ => True
  end.

(** The implications made by a call: literal and the level on which it holds.
    [s] and [s'] are the states before and after the call. *)
Definition made (s : st) (o : op) (s' : st) : list (lit * nat) :=
  match o with
  | OAssume p => if DL s' =? S (DL s) then [(p, S (DL s))] else []
  | OForce p l _ => [(p, l)]
  | OBacktrack => if hasConflict s' then [] else [(neg (nth (DL s') (t_dec s) (0, false)), DL s')]
  | _ => []
  end.
(** Implications that hold after a call: the old ones whose level has not been
    removed, and the new ones. *)
Definition live_step (s : st) (live : list (lit * nat)) (o : op) (s' : st) : list (lit * nat) :=
  filter (fun x => snd x <=? DL s') live ++ made s o s'.

Inductive reach : st -> list (lit * nat) -> Prop :=
| reach_init : reach init []
| reach_op : forall s live o, reach s live -> op_ok s o -> reach (run s o) (live_step s live o (run s o)).

(** Continuations of a history in which level [k] is never removed. *)
Inductive keeps (k : nat) : st -> st -> Prop :=
| keeps_refl : forall s, keeps k s s
| keeps_op : forall s s' o, keeps k s s' -> op_ok s' o -> k <= DL (run s' o) -> keeps k s (run s' o).
(** Continuations that make no implication of [p]. *)
Inductive without (p : lit) : st -> st -> Prop :=
| without_refl : forall s, without p s s
| without_op : forall s s' o, without p s s' -> op_ok s' o -> ~ In p (map fst (made s' o (run s' o))) -> without p s (run s' o).

(** The same histories, with [OBacktrack] allowed on any level. *)
Definition op_okW (s : st) (o : op) : Prop :=
  match o with OBacktrack => forall r f, t_conf s <> Stop r f | _ => op_ok s o end.
Inductive reachW : st -> list (lit * nat) -> Prop :=
| reachW_init : reachW init []
| reachW_op : forall s live o, reachW s live -> op_okW s o -> reachW (run s o) (live_step s live o (run s o)).
