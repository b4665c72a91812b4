(** Model of guiding paths: Solver::copyGuidingPath, splittable and split (/repo/src/solver.cpp:554-589), on the solver of ImModel.v.

    [aux] tells which variables are solver-local auxiliary variables, [tag] is tag_, [frozen] is frozenLevel.  Statistics and the
    flag for open split requests are not modelled. *)
From Coq Require Import List Bool Arith.
From Verif Require Import Base ImModel.
Import ListNotations.

Section G.
Variables (aux : nat -> bool) (tag : lit) (frozen : nat -> bool).
Definition decision (s : st) (i : nat) : lit := nth (i - 1) (t_dec s) (0, false).
(** copyGuidingPath (554-567): the first loop returns the copied decisions and the first level whose decision is auxiliary *)
Fixpoint copyDecs (s : st) (i n fst_aux : nat) : list lit * nat :=
  match n with
  | O => ([], fst_aux)
  | S n =>
    let x := decision s i in
    if negb (aux (fst x)) then let '(l, a) := copyDecs s (S i) n fst_aux in (x :: l, a)
    else copyDecs s (S i) n (if Nat.ltb i fst_aux then i else fst_aux)
  end.
Definition copyGuidingPath (s : st) : list lit :=
  let '(ds, a) := copyDecs s 1 (t_root s) (S (t_root s)) in
  ds ++ map e_lit (filter (fun e => Nat.leb (e_lev e) (t_root s) && (e_null e || Nat.ltb (e_lev e) a) && negb (aux (fst (e_lit e)))) (t_il s)).
(** splittable (568-580); without auxiliary variables both loops find nothing *)
Definition splittable (s : st) : bool :=
  if Nat.eqb (DL s) (t_root s) || frozen (S (t_root s)) then false
  else
    let minAux := t_root s + 2 in
    negb (existsb (fun i => aux (fst (decision s i)) && negb (lit_eqb (decision s i) tag)) (seq 1 (minAux - 1))) &&
    negb (existsb (fun e => e_null e && Nat.ltb (e_lev e) minAux && aux (fst (e_lit e)) && negb (lit_eqb (e_lit e) tag)) (t_il s)).
(** split (581-589) *)
Definition split (s : st) : option (st * list lit) :=
  if negb (splittable s) then None
  else let out := copyGuidingPath s in
       let s := pushRoot s 1 in
       Some (s, out ++ [neg (decision s (t_root s))]).
End G.
