(** Model of clause preparation: /repo/src/clause.cpp, lines 120-202, and the
    documentation in /repo/clasp/clause.h (lines 96-110, 200-236).

    Simplifications.  Variables are natural numbers; acquiring problem variables
    (lines 136-137), the tagged flag (line 143), vMax and the aux flag (lines 144,
    162) are not modelled.  The code works in place ([out] aliases [in]); every
    write goes to a position that has already been read, so reading from the input
    list is the same.  [s.seen] is empty on entry. *)
From Coq Require Import List Bool Arith ZArith.
From Verif Require Import Base.
Import ListNotations.
Local Open Scope Z_scope.

(** What the functions read of the solver: values, levels, the current level. *)
Record sview := SView { s_val : pasg; s_lvl : nat -> Z; s_dl : Z }.

Definition u32max : Z := 4294967295.
(** literal.h: varMax = 2^30 *)
Definition varMax : Z := 1073741824.
(** literal.h: lit_true() = literal of the sentinel variable 0, lit_false() its complement *)
Definition lit_true : lit := (0%nat, false).
Definition lit_false : lit := (0%nat, true).

(** watchOrder (lines 120-128): uint32; [^ -(b)] complements all 32 bits if b *)
Definition watchOrder (s : sview) (p : lit) : Z :=
  match pval (s_val s) p with
  | None => s_dl s + 1
  | Some false => s_lvl s (fst p)
  | Some true => u32max - s_lvl s (fst p)
  end.

(** std::swap(out[i], out[j]) *)
Definition set_nth (i : nat) (x : lit) (l : list lit) : list lit := firstn i l ++ x :: skipn (S i) l.
Definition swap (i j : nat) (l : list lit) : list lit :=
  set_nth j (nth i l lit_true) (set_nth i (nth j l lit_true) l).

(** State of the loop in lines 138-155.  [p_seen]: the literals marked with markSeen. *)
Record prep := Prep { p_out : list lit; p_size : nat; p_w1 : Z; p_w2 : Z; p_seen : list lit }.
Definition seen_var (l : list lit) (p : lit) : bool := existsb (fun q => Nat.eqb (fst q) (fst p)) l.
Definition seen_lit (l : list lit) (p : lit) : bool := existsb (lit_eqb p) l.
(** out[j] = p, where j stays at outMax-1 once that position is reached (lines 142, 148) *)
Definition put (omax : nat) (p : lit) (out : list lit) : list lit :=
  if Nat.ltb (length out) omax then out ++ [p] else set_nth (omax - 1) p out.

Fixpoint prep_loop (s : sview) (simplify : bool) (omax : nat) (lits : list lit) (st : prep) : prep :=
  match lits with
  | [] => st
  | p :: rest =>
    let a := watchOrder s p in
    if (negb (a =? 0) && negb (a =? u32max)) && (negb simplify || negb (seen_var (p_seen st) p)) then
      let out := put omax p (p_out st) in
      let j := (length out - 1)%nat in
      let '(out, a, w1) := if p_w1 st <? a then (swap 0 j out, p_w1 st, a) else (out, a, p_w1 st) in      (* 146 *)
      let '(out, w2) := if p_w2 st <? a then (swap 1 j out, a) else (out, p_w2 st) in                     (* 147 *)
      prep_loop s simplify omax rest (Prep out (S (p_size st)) w1 w2 (if simplify then p :: p_seen st else p_seen st))
    else if (a =? u32max) || (simplify && negb (a =? 0) && seen_lit (p_seen st) (neg p)) then
      Prep (p_out st) (p_size st) u32max (p_w2 st) (p_seen st)                                            (* 151-154 *)
    else prep_loop s simplify omax rest st
  end.

(** prepare (lines 130-165): the array out and the size *)
Definition prepare (s : sview) (force_simplify : bool) (omax : nat) (lits : list lit) : list lit * nat :=
  let simplify := force_simplify && Nat.ltb 2 (length lits) && Nat.leb (length lits) omax in
  let st := prep_loop s simplify omax lits (Prep [] 0 0 0 []) in
  if (p_w1 st =? u32max) ||
     (negb (p_w2 st =? 0) && Nat.eqb (fst (nth 0 (p_out st) lit_true)) (fst (nth 1 (p_out st) lit_true)))
  then ([if (p_w1 st =? u32max) || lit_eqb (nth 0 (p_out st) lit_true) (neg (nth 1 (p_out st) lit_true))
         then lit_true else nth 0 (p_out st) lit_true], 1%nat)
  else (p_out st, p_size st).

(** prepare for a literal vector (lines 168-176), without clause_no_prepare.  There
    outMax is UINT32_MAX, which the size of a vector does not reach; any value above
    the size has the same effect. *)
Definition prepare_vec (s : sview) (force_simplify : bool) (lits : list lit) : list lit :=
  let lits := match lits with [] => [lit_false] | _ => lits end in
  let '(out, n) := prepare s force_simplify (3 + length lits) lits in firstn n out.

(** status of a prepared clause (lines 189-202): [n] = c.size, [l] = c.lits *)
Definition status_prep (s : sview) (l : list lit) (n : nat) : Z :=
  let fw := if Nat.ltb 0 n then watchOrder s (nth 0 l lit_true) else 0 in
  if fw =? u32max then 9
  else
    let sw := if Nat.ltb 1 n then watchOrder s (nth 1 l lit_true) else 0 in
    let '(st, fw) := if varMax <? fw then (1, u32max - fw) else if fw <=? s_dl s then ((if fw =? 0 then 10 else 2), fw) else (0, fw) in
    if (sw <=? s_dl s) && (sw <? fw) then Z.lor st 4 else st.

(** status of an arbitrary clause (lines 182-187) *)
Definition status (s : sview) (lits : list lit) : Z :=
  match lits with
  | [] => 10
  | _ => let '(out, n) := prepare s false 3 lits in status_prep s out n
  end.
