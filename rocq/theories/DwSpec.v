(** Watch removal: the expected result. *)
From Coq Require Import List Bool Arith.
From Verif Require Import DwModel.
Import ListNotations.

(** A list without the watches of the constraints [gone] *)
Definition without (gone : nat -> bool) (l : list watch) : list watch := filter (fun x => negb (gone (w_con x))) l.
Definition copies (c : nat) (l : list watch) : nat := length (filter (fun x => Nat.eqb (w_con x) c) l).
(** The requests for a list *)
Definition reqLeft (p c : nat) (l : list rem) : nat := length (filter (fun o => match o with RemLeft q d => Nat.eqb q p && Nat.eqb d c | _ => false end) l).
Definition reqRight (p c : nat) (l : list rem) : nat := length (filter (fun o => match o with RemRight q d => Nat.eqb q p && Nat.eqb d c | _ => false end) l).
Definition reqUndo (dl c : nat) (l : list rem) : nat := length (filter (fun o => match o with RemUndo q d => Nat.eqb q dl && Nat.eqb d c | _ => false end) l).
Definition conOf (o : rem) : nat := match o with RemLeft _ c | RemRight _ c | RemUndo _ c => c end.
(** Every constraint for which a watch is removed is [gone], and all watches of such constraints are removed *)
Definition destroysAll (s : wst) (gone : nat -> bool) (l : list rem) : Prop :=
  (forall o, In o l -> gone (conOf o) = true) /\
  (forall p c, p < s_max s -> gone c = true -> copies c (s_left s p) <= reqLeft p c l /\ copies c (s_right s p) <= reqRight p c l) /\
  (forall dl c, dl < s_lev s -> gone c = true -> copies c (s_undo s dl) <= reqUndo dl c l).
(** No pointer is marked, undo watches are only removed on existing levels *)
Definition clear (s : wst) : Prop := forall i x, In x (s_left s i) \/ In x (s_right s i) \/ In x (s_undo s i) -> w_tag x = false.
Definition onLevels (s : wst) (l : list rem) : Prop := forall dl c, In (RemUndo dl c) l -> dl < s_lev s.
