(** What the simple preprocessing starts from. *)
From Coq Require Import List Bool Arith ZArith.
Import ListNotations.
From Verif Require Import Base LpSpec SrModel CpModel CpSpec DgModel VsModel.

Definition sumW (ls : list (lit * Z)) : Z := fold_right (fun (x : lit * Z) s => snd x + s)%Z 0%Z ls.
Record simpleInput (pr : prep) (init : list nat) : Prop := {
  (** no disjunctions, heads are plain or choice heads and atoms of the program *)
  si_plain : forall b, In b (p_bodies pr) -> b_disj b = [] /\ forall h, In h (b_heads b) -> (snd h = ENormal \/ snd h = EChoice) /\ In (fst h) (p_atoms pr);
  (** a body that is false has no heads any more (PrgBody::propagateValue) *)
  si_false : forall b, In b (p_bodies pr) -> b_val b = VFalse -> b_heads b = [];
  (** bodies are in the normal form of C42 *)
  si_goals : forall b, In b (p_bodies pr) -> NoDup (map fst (goalsW (b_body b)));
  si_agg : forall b bound ls, In b (p_bodies pr) -> b_body b = Agg bound ls -> (forall x, In x ls -> 0 < snd x <= bound)%Z /\ (0 < bound <= sumW ls)%Z;
  (** the bodies supported from the start, in any order *)
  si_init : NoDup init /\ forall i, In i init <-> i < length (p_bodies pr) /\ (unsupp0 (b_body (theBody pr i)) <= 0)%Z
}.
