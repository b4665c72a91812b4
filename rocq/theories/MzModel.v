(** Model of propagation with a minimize constraint: class DefaultMinimize (src/minimize_constraint.cpp:178-425) and the arithmetic on sparse vectors it uses
    (SharedMinimizeData::add/sub/imp, clasp/minimize_constraint.h:150-158 and src/minimize_constraint.cpp:138-153).
    The constraint's data is a value of [data] (MnModel.v).  The rest of the solver is an arbitrary environment: it assigns literals, opens and removes decision
    levels and calls the constraint.  Simplifications: the three arrays kept in undo_ (stack, "seen" bits, saved positions) are three components;
    64-bit sums are unbounded integers; the levels of the tag literal and of the step literal are one number [v_min] (both literals are assigned whenever a bound
    is integrated, see MinimizeConstraint::prepare). *)
From Coq Require Import List Bool Arith ZArith.
From Verif Require Import Base MnModel.
Import ListNotations.
Open Scope Z_scope.

(** An assigned variable: its value, the decision level at which it is currently assigned, the lowest level at which it is known to be implied
    (these differ for entries of the solver's list of implied literals, see ImModel.v) and, if it was forced by the constraint, the reason data
    and the bound at that time (the latter is only recorded for the specification). *)
Record ent := En { e_val : bool; e_lev : nat; e_eff : nat; e_why : option (nat * list Z) }.
Record env := Ev { v_asn : nat -> option ent; v_dl : nat; v_uw : list nat; v_min : nat; v_bt : nat }.
Definition pv (e : env) : pasg := fun v => option_map e_val (v_asn e v).
Definition levelOf (e : env) (v : nat) : nat := match v_asn e v with Some n => e_lev n | None => 0 end.
(** The constraint: bounds_ (opt and sum), undo_ (stack, top first; seen bits; saved positions), pos_ and actLev_ *)
Record mc := M { c_opt : list Z; c_sum : list Z; c_undo : list (nat * bool); c_posSt : list nat; c_seen : nat -> bool; c_pos : nat; c_act : nat }.

Definition upd {A} (f : nat -> A) (i : nat) (x : A) : nat -> A := fun j => if Nat.eqb j i then x else f j.
Fixpoint updN (l : list Z) (i : nat) (z : Z) : list Z := match l, i with [], _ => [] | y :: l, O => y + z :: l | y :: l, S i => y :: updN l i z end.

(** ** Arithmetic on weights *)
(** add/sub(lhs, w): the loop over a vector of weights; the single-level versions *)
Fixpoint addVec (lhs : list Z) (v : list (nat * Z)) : list Z := match v with [] => lhs | (l, w) :: v => addVec (updN lhs l w) v end.
Fixpoint subVec (lhs : list Z) (v : list (nat * Z)) : list Z := match v with [] => lhs | (l, w) :: v => subVec (updN lhs l (- w)) v end.
Definition firstLev (v : list (nat * Z)) : nat := match v with [] => 0 | (l, _) :: _ => l end.
(** imp(lhs, w, rhs, lev) *)
Fixpoint raise (fuel lev l0 : nat) (lhs rhs : list Z) : nat :=
  match fuel with
  | O => lev
  | S fuel => if negb (Nat.eqb lev l0) && (nth lev lhs 0 =? nth lev rhs 0) then raise fuel (S lev) l0 lhs rhs else lev
  end.
Fixpoint impLoop (k i : nat) (v : list (nat * Z)) (lhs rhs : list Z) : bool :=
  match k with
  | O => false
  | S k =>
    let '(temp, v) :=
      match v with
      | (l, w) :: r => if Nat.eqb i l then (nth i lhs 0 + w, match r with [] => v | _ => r end) else (nth i lhs 0, v)
      | [] => (nth i lhs 0, v)
      end in
    if temp =? nth i rhs 0 then impLoop k (S i) v lhs rhs else nth i rhs 0 <? temp
  end.
Definition impVec (n : nat) (lhs : list Z) (v : list (nat * Z)) (rhs : list Z) (lev : nat) : bool * nat :=
  let lev := raise (firstLev v) lev (firstLev v) lhs rhs in (impLoop (n - lev) lev v lhs rhs, lev).

Section Con.
Variable d : data.
Definition lits : list (lit * Z) := litsOf (d_lits d).
Definition litAt (i : nat) : lit := fst (nth i lits (lit_true, 0)).
Definition wAt (i : nat) : Z := snd (nth i lits (lit_true, 0)).
(** add, sub and imp for a weight: "weights.empty()" selects the single-level version *)
Definition addW (lhs : list Z) (w : Z) : list Z := match d_weights d with [] => updN lhs 0 w | ws => addVec lhs (vec ws w) end.
Definition subW (lhs : list Z) (w : Z) (aLev : nat) : list Z * nat :=
  match d_weights d with [] => (updN lhs 0 (- w), aLev) | ws => (subVec lhs (vec ws w), if Nat.ltb (firstLev (vec ws w)) aLev then firstLev (vec ws w) else aLev) end.
Definition impW (lhs : list Z) (w : Z) (rhs : list Z) (lev : nat) : bool * nat :=
  match d_weights d with [] => (nth 0 rhs 0 <? nth 0 lhs 0 + w, lev) | ws => impVec (numRules d) lhs (vec ws w) rhs lev end.
(** level(i) (minimize_constraint.h:107), also for the sentinel behind the literals *)
Definition levelAt (i : nat) : nat := if Nat.eqb (numRules d) 1 then 0%nat else firstLev (vec (d_weights d) (snd (nth i (d_lits d) (lit_true, 0)))).
Definition setAct (c : mc) (a : nat) : mc := M (c_opt c) (c_sum c) (c_undo c) (c_posSt c) (c_seen c) (c_pos c) a.
Definition setPos (c : mc) (p : nat) : mc := M (c_opt c) (c_sum c) (c_undo c) (c_posSt c) (c_seen c) p (c_act c).

(** ** Undo *)
(** lastUndoLevel (246-250) *)
Definition lastUndoLevel (e : env) (c : mc) : nat := match c_undo c with [] => 0 | (i, _) :: _ => levelOf e (fst (litAt i)) end.
(** pushUndo (256-270) *)
Definition pushUndo (e : env) (c : mc) (idx : nat) : env * mc :=
  if Nat.eqb (lastUndoLevel e c) (v_dl e) then
    (e, M (c_opt c) (c_sum c) ((idx, false) :: c_undo c) (c_posSt c) (upd (c_seen c) idx true) (c_pos c) (c_act c))
  else
    (Ev (v_asn e) (v_dl e) (v_dl e :: v_uw e) (v_min e) (v_bt e),
     M (c_opt c) (c_sum c) ((idx, true) :: c_undo c) (c_pos c :: c_posSt c) (upd (c_seen c) idx true) (c_pos c) (c_act c)).
(** undoLevel (365-382) *)
Fixpoint popLoop (st : list (nat * bool)) (c : mc) : mc :=
  match st with
  | [] => c
  | (i, nd) :: st =>
    let '(s, a) := subW (c_sum c) (wAt i) (c_act c) in
    let c := M (c_opt c) s st (c_posSt c) (upd (c_seen c) i false) (c_pos c) a in
    if nd then c else popLoop st c
  end.
Definition undoLevel (c : mc) : mc :=
  match c_posSt c with
  | [] => c
  | idx :: ps =>
    let c := popLoop (c_undo c) c in
    let c := M (c_opt c) (c_sum c) (c_undo c) ps (c_seen c) (c_pos c) (c_act c) in
    if Nat.ltb idx (c_pos c) then setAct (setPos c idx) (Nat.min (c_act c) (levelAt idx)) else c
  end.
(** Solver::undoUntil (src/solver.cpp:1014-1036): removes the levels above [k]; implied literals that hold on level [k] are assigned again (ImModel.v) *)
Fixpoint undoLevels (m dl : nat) (uw : list nat) (c : mc) : list nat * mc :=
  match m with
  | O => (uw, c)
  | S m => if existsb (Nat.eqb dl) uw then undoLevels m (dl - 1) (filter (fun l => negb (Nat.eqb l dl)) uw) (undoLevel c) else undoLevels m (dl - 1) uw c
  end.
Definition keepEnt (k : nat) (n : ent) : option ent :=
  if Nat.leb (e_lev n) k then Some n else if Nat.leb (e_eff n) k then Some (En (e_val n) k (e_eff n) (e_why n)) else None.
Definition undoTo (e : env) (c : mc) (k : nat) : env * mc :=
  let k := Nat.min k (v_dl e) in
  let '(uw, c) := undoLevels (v_dl e - k) (v_dl e) (v_uw e) c in
  (Ev (fun v => match v_asn e v with Some n => keepEnt k n | None => None end) k uw (v_min e) (v_bt e), c).
(** undoUntil does not go below the backtrack level. *)
Definition undoUntil (e : env) (c : mc) (k : nat) : env * mc := undoTo e c (Nat.max k (v_bt e)).
(** Solver::force(p, dl, c, data) (clasp/solver.h:374-376, src/solver.cpp:793-811), after the levels above [dl] were removed as far as possible.
    If it fails the solver is in conflict.  (Then [p] may also have been added to the implied literals; this is not modelled.) *)
Definition force (e : env) (p : lit) (dl stop : nat) (bound : list Z) : bool * env :=
  match v_asn e (fst p) with
  | None => (true, Ev (upd (v_asn e) (fst p) (Some (En (negb (snd p)) (v_dl e) dl (Some (stop, bound))))) (v_dl e) (v_uw e) (v_min e) (v_bt e))
  | Some n =>
    if Bool.eqb (e_val n) (negb (snd p)) then
      if Nat.eqb dl (v_dl e) || Nat.leb (e_lev n) dl || Nat.leb (e_eff n) dl then (true, e)
      else (true, Ev (upd (v_asn e) (fst p) (Some (En (e_val n) (e_lev n) dl (Some (stop, bound))))) (v_dl e) (v_uw e) (v_min e) (v_bt e))
    else (false, e)
  end.

(** ** Propagation *)
(** computeImplicationSet (303-323): the level and the size of the implication set *)
Fixpoint cisLoop (e : env) (st : list (nat * bool)) (temp : list Z) (w : Z) (opt : list Z) (lev : nat) : nat * nat :=
  match st with
  | [] => (v_min e, 0%nat)
  | (i, _) :: r =>
    let '(temp, lev) := subW temp (wAt i) lev in
    let '(b, lev) := impW temp w opt lev in
    if negb b then (Nat.max (levelOf e (fst (litAt i))) (v_min e), length st) else cisLoop e r temp w opt lev
  end.
Definition computeImplicationSet (e : env) (c : mc) (w : Z) : nat * nat := cisLoop e (c_undo c) (c_sum c) w (c_opt c) (c_act c).
(** propagateImpl (325-362).  [newOpt]: m == propagate_new_opt; the loop runs over the literals from index [idx] on. *)
Fixpoint propLoop (newOpt : bool) (rest : list (lit * Z)) (idx : nat) (e : env) (c : mc) (impLevel : nat) (lastW : Z) (undoPos : nat) : bool * env * mc :=
  match rest with
  | [] => (true, e, c)
  | (x, w) :: rest =>
    if c_seen c idx || (negb newOpt && isFalse (pv e) x) then propLoop newOpt rest (S idx) e c impLevel lastW undoPos
    else
      let '(b, act) := if lastW =? w then (true, c_act c) else impW (c_sum c) w (c_opt c) (c_act c) in
      let c := setAct c act in
      if negb b then (true, e, setPos c idx)
      else
        let '(impLevel, undoPos) := if newOpt && negb (lastW =? w) then computeImplicationSet e c w else (impLevel, undoPos) in
        if negb (isFalse (pv e) x) || (Nat.ltb impLevel (v_dl e) && Nat.ltb impLevel (levelOf e (fst x))) then
          let '(e, c) := if Nat.eqb impLevel (v_dl e) then (e, c) else undoUntil e c impLevel in
          let '(ok, e) := force e (neg x) impLevel undoPos (c_opt c) in
          if ok then propLoop newOpt rest (S idx) e c impLevel w undoPos else (false, e, c)
        else propLoop newOpt rest (S idx) e c impLevel w undoPos
  end.
Definition propagateImpl (newOpt : bool) (e : env) (c : mc) : bool * env * mc :=
  let c := setAct c (Nat.min (c_act c) (levelAt (c_pos c))) in
  propLoop newOpt (skipn (c_pos c) lits) (c_pos c) e c (v_dl e + (if newOpt then 1 else 0)) (-1) (length (c_undo c)).
(** propagate (294-298) *)
Definition propagate (e : env) (c : mc) (idx : nat) : bool * env * mc :=
  let '(e, c) := pushUndo e c idx in
  propagateImpl false e (M (c_opt c) (addW (c_sum c) (wAt idx)) (c_undo c) (c_posSt c) (c_seen c) (c_pos c) (c_act c)).
(** reason (386-398), without the tag and the step literal *)
Definition bottom {A} (k : nat) (st : list A) : list A := skipn (length st - k) st.
Definition reason (c : mc) (stop : nat) : list lit := map (fun u => litAt (fst u)) (rev (bottom stop (c_undo c))).

(** ** Bounds *)
(** relaxBound (449-455), without the step *)
Definition relax (c : mc) : mc :=
  M (if negb (nth 0 (c_opt c) 0 =? maxBound) then repeat maxBound (numRules d) else c_opt c) (c_sum c) (c_undo c) (c_posSt c) (c_seen c) 0 0.
(** The effect of updateBounds (501-555) on this part of the state; [reset]: pos_ and actLev_ are reset because a step was applied *)
Definition newBound (c : mc) (B : list Z) (reset : bool) : mc :=
  M B (c_sum c) (c_undo c) (c_posSt c) (c_seen c) (if reset then 0%nat else c_pos c) (if reset then 0%nat else c_act c).
(** integrateBound (475-480): the level to go back to, or None if the bound is violated by the root level *)
Definition minW : Z := match d_weights d with [] => 0 | ws => Z.of_nat (length ws - 1) end.
Definition target (e : env) (c : mc) (root : nat) : option nat * mc :=
  let '(b, act) := impW (c_sum c) minW (c_opt c) (c_act c) in
  let c := setAct c act in
  if negb b then (Some (v_dl e), c)
  else let dl := fst (computeImplicationSet e c minW) in (if Nat.ltb root dl then Some (dl - 1)%nat else None, c).
(** attach (221-243), before the literals that are true on level 0 are propagated *)
Definition attach : mc := M (repeat maxBound (numRules d)) (repeat 0 (numRules d)) [] [] (fun _ => false) 0 0.

(** ** Histories
    [Pending t]: a new bound was set, level [t] satisfies it, and integrateBound has not yet propagated it.
    [base]: the level on which the bound was integrated; the solver goes below it only after relaxing the constraint. *)
Inductive mode := Ready | Conflict | Pending (t : nat).
Record st := St { t_e : env; t_c : mc; t_m : mode; t_base : nat }.
Definition setAsn (e : env) (v : nat) (n : ent) : env := Ev (upd (v_asn e) v (Some n)) (v_dl e) (v_uw e) (v_min e) (v_bt e).
Definition setMin (e : env) (m : nat) : env := Ev (v_asn e) (v_dl e) (v_uw e) m (v_bt e).
Definition setBt (e : env) (b : nat) : env := Ev (v_asn e) (v_dl e) (v_uw e) (v_min e) b.
Inductive step : st -> st -> Prop :=
| s_assign : forall e c m b x eff, v_asn e (fst x) = None -> (eff <= v_dl e)%nat ->
    step (St e c m b) (St (setAsn e (fst x) (En (negb (snd x)) (v_dl e) eff None)) c m b)
| s_level : forall e c b, step (St e c Ready b) (St (Ev (v_asn e) (S (v_dl e)) (v_uw e) (v_min e) (v_bt e)) c Ready b)
| s_prop : forall e c b i r e' c', (i < length lits)%nat -> c_seen c i = false -> isTrue (pv e) (litAt i) = true -> levelOf e (fst (litAt i)) = v_dl e ->
    propagate e c i = (r, e', c') -> step (St e c Ready b) (St e' c' (if r then Ready else Conflict) b)
| s_undo : forall e c m b k e' c', (b <= k <= v_dl e)%nat -> (m = Conflict -> (k < v_dl e)%nat) -> undoTo e c k = (e', c') ->
    step (St e c m b) (St e' c' (match m with Conflict => Ready | _ => m end) b)
| s_relax : forall e c m b k e' c', (k <= v_dl e)%nat -> (b = 0 \/ k < b)%nat -> undoTo e (relax c) k = (e', c') -> step (St e c m b) (St e' c' Ready 0)
| s_bound : forall e c b B (reset : bool) m root t c', length B = numRules d -> (m <= root <= v_dl e)%nat ->
    (if reset then b = 0%nat \/ b = m else (b = 0%nat \/ b = v_dl e) /\ root = v_dl e /\ nth 0 (c_opt c) 0 = maxBound) ->
    target (setMin e m) (newBound c B reset) root = (Some t, c') ->
    step (St e c Ready b) (St (setMin e m) c' (Pending t) (if reset then m else v_dl e))
| s_integrate : forall e c b t bt r e' c', (v_dl e <= t)%nat -> (b <= v_min e \/ b <= bt)%nat ->
    propagateImpl true (setBt e bt) c = (r, e', c') -> step (St e c (Pending t) b) (St e' c' (if r then Ready else Pending t) b).
Inductive reach : st -> Prop :=
| r_init : reach (St (Ev (fun _ => None) 0 [] 0 0) attach Ready 0)
| r_step : forall (s s' : st), reach s -> step s s' -> reach s'.
End Con.
