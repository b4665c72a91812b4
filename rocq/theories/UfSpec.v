(** Unfounded sets.

    [T] tells which literals count as true: those true in a total assignment, or those not false in a partial one.  A body supports one
    of its heads externally to a set of atoms if it is true and - when it belongs to the component of the head - does not need atoms
    of the set.  The atoms are founded if each nonempty set of true atoms has an external support. *)
From Coq Require Import List Bool Arith ZArith.
From Verif Require Import Base UfModel.
Import ListNotations.

Section Spec.
Variable g : graph.
Definition inSet (U : list nat) (x : nat) : bool := existsb (Nat.eqb x) U.
(** Sum of the weights of true subgoals of an extended body that are no atoms of the set *)
Fixpoint sumOut (T : lit -> bool) (U : list nat) (ps : list (nat * Z)) : Z :=
  match ps with [] => 0%Z | (p, w) :: ps => ((if T (alit g p) && negb (inSet U p) then w else 0) + sumOut T U ps)%Z end.
Fixpoint sumLits (T : lit -> bool) (es : list (lit * Z)) : Z := match es with [] => 0%Z | (l, w) :: es => ((if T l then w else 0) + sumLits T es)%Z end.
Definition external (T : lit -> bool) (U : list nat) (b x : nat) : Prop :=
  T (blit g b) = true /\
  (n_scc (bodyOf g b) = a_scc (atomOf g x) ->
   match n_bound (bodyOf g b) with
   | None => forall p w, In (p, w) (n_preds (bodyOf g b)) -> ~ In p U
   | Some bound => (bound <= sumOut T U (n_preds (bodyOf g b)) + sumLits T (n_exts (bodyOf g b)))%Z
   end).
Definition founded (T : lit -> bool) : Prop :=
  forall U : list nat, U <> [] -> (forall x, In x U -> x < nAtoms g /\ T (alit g x) = true) ->
  exists x b, In x U /\ In b (a_bodies (atomOf g x)) /\ external T U b x.
Definition notFalse (A : pasg) (l : lit) : bool := negb (isFalse A l).
(** A total assignment that respects normal bodies: a true body has true predecessors *)
Definition bodiesOk (M : asg) : Prop := forall b p w, n_bound (bodyOf g b) = None -> In (p, w) (n_preds (bodyOf g b)) -> holds M (blit g b) = true -> holds M (alit g p) = true.

(** Well-formed graphs: adjacency lists match, predecessors belong to the component of the body, heads from the same component come first, no repetitions, weights are not negative *)
Record gwf : Prop := {
  gw_heads : forall b x, In x (n_heads (bodyOf g b)) <-> In b (a_bodies (atomOf g x));
  gw_hrange : forall b x, In x (n_heads (bodyOf g b)) -> x < nAtoms g;
  gw_first : forall b h1 x h2, n_heads (bodyOf g b) = h1 ++ x :: h2 -> sameScc g b x = true -> forall y, In y h1 -> sameScc g b y = true;
  gw_succ : forall b p, In b (a_succs (atomOf g p)) <-> isExt g b = false /\ In p (preds g b);
  gw_ext : forall b i p, In (b, i) (a_ext (atomOf g p)) <-> isExt g b = true /\ nth_error (preds g b) i = Some p;
  gw_nd1 : forall x, NoDup (a_succs (atomOf g x));
  gw_nd2 : forall x, NoDup (map fst (a_ext (atomOf g x)));
  gw_nd3 : forall b, NoDup (preds g b);
  gw_prange : forall b p, In p (preds g b) -> p < nAtoms g;
  gw_pscc : forall b p, In p (preds g b) -> sameScc g b p = true;
  gw_wt : forall b e, In e (goals g b) -> (0 <= snd e)%Z }.
End Spec.
