(** Model of the construction of minimize constraints: MinimizeBuilder (/repo/src/minimize_constraint.cpp:561-747) and the arithmetic and bound functions of
    SharedMinimizeData (/repo/src/minimize_constraint.cpp:33-153, /repo/clasp/minimize_constraint.h:60-195).

    Sums (wsum_t, 64 bit) are unbounded integers; weights (weight_t, 32 bit) are checked where the code checks them.  std::stable_sort is insertion sort (the result
    of a stable sort is determined by its specification).  Violated assertions and accesses outside a vector are UB.  Reference
    counting, freezing of variables and memory layout are not modelled. *)
From Coq Require Import List Bool Arith ZArith.
From Verif Require Import Base.
Import ListNotations.
Open Scope Z_scope.

(** MinimizeBuilder::MLit (minimize_constraint.h:225-230) *)
Record mlit := ML { m_lit : lit; m_prio : Z; m_w : Z }.
(** SharedMinimizeData::LevelWeight (minimize_constraint.h:68-73) *)
Record lw := LW { lw_level : nat; lw_next : bool; lw_weight : Z }.
(** The public part of SharedMinimizeData; [d_lits] ends with the sentinel.  The second component of a literal is its weight if there is one
    level and otherwise the position of its first weight in [d_weights]. *)
Record data := D { d_adjust : list Z; d_weights : list lw; d_prios : list Z; d_lits : list (lit * Z); d_lower : list Z }.

(** std::stable_sort *)
Section Sort.
Context {A : Type} (lt : A -> A -> bool).
Fixpoint insert (x : A) (l : list A) : list A := match l with [] => [x] | y :: l => if lt y x then y :: insert x l else x :: y :: l end.
Fixpoint stableSort (l : list A) : list A := match l with [] => [] | x :: l => insert x (stableSort l) end.
End Sort.

(** Literal::operator< (literal.h: by variable, then sign) *)
Definition litLt (a b : lit) : bool := Nat.ltb (fst a) (fst b) || (Nat.eqb (fst a) (fst b) && negb (snd a) && snd b).
(** CmpPrio (606-610), CmpLit (612-616) *)
Definition cmpPrio (x y : mlit) : bool :=
  if negb (m_prio x =? m_prio y) then m_prio y <? m_prio x
  else if negb (Nat.eqb (fst (m_lit x)) (fst (m_lit y))) then litLt (m_lit x) (m_lit y) else m_w y <? m_w x.
Definition cmpLit (x y : mlit) : bool :=
  if negb (Nat.eqb (fst (m_lit x)) (fst (m_lit y))) then litLt (m_lit x) (m_lit y)
  else if negb (m_prio x =? m_prio y) then m_prio x <? m_prio y else m_w y <? m_w x.

(** A sparse vector of weights: the entries from position [i] up to the first one without [next].  The loops "do ... while (w++->next)"
    and the index arithmetic on LevelWeight pointers only read such vectors, so they are modelled as functions of them. *)
Fixpoint vecFrom (ws : list lw) : list (nat * Z) :=
  match ws with [] => [] | w :: ws => (lw_level w, lw_weight w) :: (if lw_next w then vecFrom ws else []) end.
Definition vec (ws : list lw) (i : Z) : list (nat * Z) := vecFrom (skipn (Z.to_nat i) ws).

(** CmpWeight (618-631) on sparse vectors *)
Fixpoint cmpVec (l r : list (nat * Z)) : bool :=
  match l, r with
  | (ll, lw) :: l', (rl, rw) :: r' =>
    if negb (Nat.eqb ll rl) then (if Nat.ltb ll rl then 0 <? lw else rw <? 0)
    else if negb (lw =? rw) then rw <? lw
    else match l', r' with
         | [], [] => false
         | [], (_, w) :: _ => w <? 0
         | (_, w) :: _, [] => 0 <? w
         | _, _ => cmpVec l' r'
         end
  | _, _ => false
  end.
Definition cmpWeight (ws : option (list lw)) (x y : mlit) : bool :=
  match ws with None => m_w y <? m_w x | Some ws => cmpVec (vec ws (m_w x)) (vec ws (m_w y)) end.

(** prepareLevels (634-665).  [scan] is the loop over k, [levelLoop] the loop over one priority, [prepLoop] the outer loop. *)
Fixpoint scan (x : lit) (P w R : Z) (l : list mlit) : Z * Z * list mlit :=
  match l with
  | [] => (w, R, [])
  | k :: r =>
    if Nat.eqb (fst (m_lit k)) (fst x) && (m_prio k =? P) then
      if lit_eqb (m_lit k) x then scan x P (w + m_w k) R r else scan x P (w - m_w k) (R + m_w k) r
    else (w, R, l)
  end.
(** static_cast<weight_t>(w) == w *)
Definition fits (w : Z) : bool := (int_min <=? w) && (w <=? int_max).
Fixpoint levelLoop (fuel : nat) (s : pasg) (P L R : Z) (l out : list mlit) : res (Z * list mlit * list mlit) :=
  match fuel with
  | O => UB
  | S fuel =>
    match l with
    | it :: k =>
      if m_prio it =? P then
        let x := m_lit it in
        let '(w, R, k) := scan x P (m_w it) R k in
        let '(x, w, R) := if w <? 0 then (neg x, - w, R + w) else (x, w, R) in
        if negb (w =? 0) && isFree s (fst x) then
          if fits w then levelLoop fuel s P L R k (out ++ [ML x L w]) else Throws
        else levelLoop fuel s P L (if isTrue s x then R + w else R) k out
      else Ok (R, l, out)
    | [] => Ok (R, [], out)
    end
  end.
Fixpoint prepLoop (fuel : nat) (s : pasg) (l out : list mlit) (adjust prios : list Z) : res (list mlit * list Z * list Z) :=
  match fuel with
  | O => UB
  | S fuel =>
    match l with
    | [] => Ok (out, adjust, prios)
    | it :: _ =>
      let P := m_prio it in
      do '(R, l', out) <- levelLoop (S (length l)) s P (Z.of_nat (length prios)) 0 l out;
      prepLoop fuel s l' out (adjust ++ [R]) (prios ++ [P])
    end
  end.
Definition prepareLevels (s : pasg) (lits : list mlit) : res (list mlit * list Z * list Z) :=
  prepLoop (S (length lits)) s (stableSort cmpPrio lits) [] [] [].

(** mergeLevels (667-691).  [mergeVar] is the loop over k. *)
Fixpoint addAt (l : list Z) (i : nat) (z : Z) : res (list Z) :=
  match l, i with [], _ => UB | y :: l, O => Ok (y + z :: l) | y :: l, S i => do l <- addAt l i z; Ok (y :: l) end.
Definition setLastNext (ws : list lw) : list lw :=
  match rev ws with [] => [] | w :: r => rev r ++ [LW (lw_level w) true (lw_weight w)] end.
Fixpoint mergeVar (it : mlit) (l : list mlit) (adjust : list Z) (ws : list lw) : res (list Z * list lw * list mlit) :=
  match l with
  | [] => Ok (adjust, ws, [])
  | k :: r =>
    if Nat.eqb (fst (m_lit k)) (fst (m_lit it)) then
      if m_prio it <? m_prio k then
        let ws := setLastNext ws in
        if negb (Bool.eqb (snd (m_lit k)) (snd (m_lit it))) then
          do adjust <- addAt adjust (Z.to_nat (m_prio k)) (m_w k);
          mergeVar it r adjust (ws ++ [LW (Z.to_nat (m_prio k)) false (- m_w k)])
        else mergeVar it r adjust (ws ++ [LW (Z.to_nat (m_prio k)) false (m_w k)])
      else UB
    else Ok (adjust, ws, l)
  end.
Fixpoint mergeLoop (fuel : nat) (l out : list mlit) (adjust : list Z) (ws : list lw) : res (list mlit * list Z * list lw) :=
  match fuel with
  | O => UB
  | S fuel =>
    match l with
    | [] => Ok (out, adjust, ws)
    | it :: k =>
      if 0 <? m_w it then
        let wpos := Z.of_nat (length ws) in
        do '(adjust, ws, k) <- mergeVar it k adjust (ws ++ [LW (Z.to_nat (m_prio it)) false (m_w it)]);
        mergeLoop fuel k (out ++ [ML (m_lit it) (m_prio it) wpos]) adjust ws
      else UB
    end
  end.
Definition mergeLevels (lits : list mlit) (adjust : list Z) : res (list mlit * list Z * list lw) :=
  mergeLoop (S (length lits)) (stableSort cmpLit lits) [] adjust [].

(** resetBounds (49-67), the lower bounds only.  The two nested loops over positions of [weights] are one loop over its entries: [wPos] is the position
    where the current vector starts, [inVec] tells that the current entry is not the first of its vector. *)
Fixpoint skipTo (wPos : Z) (l : list (lit * Z)) : res (list (lit * Z)) :=
  match l with [] => UB | x :: r => if snd x =? wPos then Ok l else skipTo wPos r end.
Fixpoint runLen (wPos : Z) (l : list (lit * Z)) : Z := match l with [] => 0 | x :: r => if snd x =? wPos then 1 + runLen wPos r else 0 end.
Fixpoint lowerLoop (ws : list lw) (i wPos : Z) (inVec : bool) (lits : list (lit * Z)) (lower : list Z) : res (list Z) :=
  match ws with
  | [] => Ok lower
  | w :: ws =>
    if negb inVec then if lw_weight w <? 0 then UB else lowerLoop ws (i + 1) i (lw_next w) lits lower
    else if lw_weight w <? 0 then
      do lits <- skipTo wPos lits;
      do lower <- addAt lower (lw_level w) (runLen wPos lits * lw_weight w);
      lowerLoop ws (i + 1) wPos (lw_next w) lits lower
    else lowerLoop ws (i + 1) wPos (lw_next w) lits lower
  end.

(** createShared (693-721).  [last] is the literal that starts the current group of equal weights. *)
Definition vecOf (ws : list lw) (i : Z) : list lw :=
  (fix go (ws : list lw) : list lw := match ws with [] => [] | w :: ws => w :: (if lw_next w then go ws else []) end) (skipn (Z.to_nat i) ws).
Fixpoint shareLoop (cmp : option (list lw)) (l : list mlit) (last : option mlit) (wIdx : Z) (ws : list lw) (out : list (lit * Z)) : list lw * list (lit * Z) :=
  match l with
  | [] => (ws, out)
  | x :: l =>
    match cmp with
    | None => shareLoop cmp l last wIdx ws (out ++ [(m_lit x, m_w x)])
    | Some weights =>
      if match last with None => true | Some y => cmpWeight cmp y x end then
        let wIdx := Z.of_nat (length ws) in
        shareLoop cmp l (Some x) wIdx (ws ++ vecOf weights (m_w x)) (out ++ [(m_lit x, wIdx)])
      else shareLoop cmp l last wIdx ws (out ++ [(m_lit x, wIdx)])
    end
  end.
Definition lit_true : lit := (0%nat, false).
Definition createShared (lits : list mlit) (adjust : list Z) (cmp : option (list lw)) (prios : list Z) : res data :=
  let '(ws, ls) := shareLoop cmp (stableSort (cmpWeight cmp) lits) None 0 [] [] in
  let ls := ls ++ [(lit_true, Z.of_nat (length ws))] in
  let ws := match cmp with None => ws | Some _ => ws ++ [LW (length adjust - 1) false 0] end in
  do low <- lowerLoop ws 0 0 false ls (repeat 0 (length adjust));
  Ok (D adjust ws prios ls low).
(** build (723-747), after the context's top-level assignment [s] was propagated without conflict *)
Definition build (s : pasg) (lits : list mlit) : res (option data) :=
  match lits with
  | [] => Ok None
  | _ =>
    do '(ls, adjust, prios) <- prepareLevels s lits;
    if Nat.ltb 1 (length prios) then
      do '(ls, adjust, ws) <- mergeLevels ls adjust;
      do d <- createShared ls adjust (Some ws) prios; Ok (Some d)
    else
      let '(prios, adjust) := match prios with [] => ([0], [0]) | _ => (prios, adjust) end in
      do d <- createShared ls adjust None prios; Ok (Some d)
  end.

(** The loops "for (it = lits; !isSentinel(it->first); ++it)": the literals before the sentinel *)
Fixpoint litsOf (l : list (lit * Z)) : list (lit * Z) := match l with [] => [] | x :: r => if Nat.eqb (fst (fst x)) 0 then [] else x :: litsOf r end.
Definition numRules (d : data) : nat := length (d_adjust d).
(** weight(lit, lev) (minimize_constraint.h:160-165) *)
Fixpoint vecWeight (v : list (nat * Z)) (lev : nat) : Z := match v with [] => 0 | (l, w) :: v => if Nat.eqb l lev then w else vecWeight v lev end.
Definition weight (d : data) (x : lit * Z) (lev : nat) : Z :=
  if Nat.eqb (numRules d) 1 then (if Nat.eqb lev 0 then snd x else 0) else vecWeight (vec (d_weights d) (snd x)) lev.

(** MinimizeBuilder::add(const SharedData&) (582-604) *)
Definition weightMin : Z := int_min.
Definition weightMax : Z := int_max.
Fixpoint addAdjust (fuel : nat) (P w : Z) : res (list mlit) :=
  match fuel with
  | O => UB
  | S fuel =>
    if w <? weightMin then do r <- addAdjust fuel P (w - weightMin); Ok (ML lit_true P weightMin :: r)
    else if weightMax <? w then do r <- addAdjust fuel P (w - weightMax); Ok (ML lit_true P weightMax :: r)
    else Ok [ML lit_true P w]
  end.
Definition prioAt (d : data) (l : nat) : Z := match nth_error (d_prios d) l with Some p => p | None => - Z.of_nat l end.
Fixpoint addAdjusts (d : data) (n : nat) (l : list Z) : res (list mlit) :=
  match l with
  | [] => Ok []
  | w :: l =>
    do r <- (if w =? 0 then Ok [] else addAdjust (S (Z.to_nat (Z.abs w))) (prioAt d n) w);
    do r' <- addAdjusts d (S n) l; Ok (r ++ r')
  end.
Definition addShared (d : data) : res (list mlit) :=
  let ls :=
    if Nat.eqb (numRules d) 1 then map (fun x => ML (fst x) (match d_prios d with p :: _ => p | [] => 0 end) (snd x)) (litsOf (d_lits d))
    else flat_map (fun x => map (fun lw => ML (fst x) (prioAt d (fst lw)) (snd lw)) (vec (d_weights d) (snd x))) (litsOf (d_lits d)) in
  do r <- addAdjusts d 0 (d_adjust d); Ok (ls ++ r).

(** setMode (69-88) with a bound: the internal upper bounds, or None if the function returns false *)
Definition maxBound : Z := 9223372036854775807.
Fixpoint boundLoop (bound adjust lower : list Z) (ok : bool) : option (list Z) :=
  match adjust, lower with
  | a :: adjust, l :: lower =>
    match bound with
    | b :: bound =>
      let B := if (0 <=? a) || (b <=? maxBound + a) then b - a else maxBound in
      let d := B - l in
      if (d <? 0) && negb ok then None
      else option_map (cons B) (boundLoop bound adjust lower (ok || (0 <? d)))
    | [] => option_map (cons maxBound) (boundLoop [] adjust lower ok)
    end
  | _, _ => Some []
  end.
Definition setBound (d : data) (bound : list Z) : option (list Z) := boundLoop bound (d_adjust d) (d_lower d) false.
