(** Model of the propagation of weight constraints.
    C++ sources: /repo/src/weight_constraint.cpp (lines 255-301, 370-375, 393-540),
    /repo/clasp/weight_constraint.h (lines 140-230), and the parts of
    /repo/src/solver.cpp and /repo/clasp/solver.h that drive a constraint: trail,
    propagation queue, force, undo watches.

    Simplifications.  The undo array [undo_] packs three things into one word per
    slot: the undo stack, one "seen" flag per literal and (in slot 0) the index
    for backward propagation; they are separate fields here.  Weights and bounds
    are unbounded integers (WeightLitsRep::create keeps them in int32).  The
    removal and re-addition of the watches of a sub-constraint whose body is true
    on the root level ([watched_], lines 450-455 and 532-538) is not modelled:
    these watches would only trigger calls that return immediately at line 448.
    Variables of the constraint are distinct. *)
From Coq Require Import List Bool Arith ZArith.
From Verif Require Import Base WcModel.
Import ListNotations.
Local Open Scope Z_scope.

(** A constraint W == (x1=w1,...,xn=wn >= bound): weight_constraint.h:62-83, 140-164.
    [k_act]: the initial value of [active_]: [None] for NOT_ACTIVE (3), otherwise
    the only sub-constraint that is created (create_only_btb/create_only_bfb,
    doCreate lines 198-202, or W assigned on level 0, constructor lines 268-270). *)
Record wcon := WCon { k_W : lit; k_lits : list wlit; k_bound : Z; k_act : option bool }.

Definition k_reach (k : wcon) : Z := fold_right (fun e s => snd e + s) 0 (k_lits k).
(** [lits_]: "~W=1, l0=w0,...,ln-1=wn-1" (h:145, cpp:266-282) *)
Definition k_all (k : wcon) : list wlit := (neg (k_W k), 1) :: k_lits k.
Definition size (k : wcon) : nat := length (k_all k).
Definition entry (k : wcon) (i : nat) : wlit := nth i (k_all k) ((0%nat, false), 0).
(** The sub-constraint FFB_BTB = 0 is [false], FTB_BFB = 1 is [true].
    [lit(i,c) = fromId(lits_->lit(i).id() ^ c)] (h:156), [weight(i)] (h:158). *)
Definition clit (k : wcon) (i : nat) (c : bool) : lit := xorl (fst (entry k i)) c.
Definition weight (k : wcon) (i : nat) : Z := snd (entry k i).
(** [isWeight()]: WeightLitsRep::hasWeights, size != 0 && lits[0].second > 1 *)
Definition isWeight (k : wcon) : bool := match k_lits k with (_, w) :: _ => w >? 1 | [] => false end.

(** ** State of the constraint (h:221-229) *)
Record wst := WSt {
  bound_ : bool -> Z;                (* bound_[2] *)
  stack_ : list (nat * bool);        (* undo_[undoStart(), up_): (idx, constraint) *)
  seen_  : nat -> bool;              (* litSeen *)
  bp_    : nat;                      (* getBpIndex for weight constraints *)
  active_ : option bool }.           (* None = NOT_ACTIVE *)

(** constructor, lines 264-265, 289-293 *)
Definition wst_init (k : wcon) : wst :=
  WSt (fun c => if c then k_bound k else (k_reach k - k_bound k) + 1) [] (fun _ => false) 1 (k_act k).

(** ** The solver's view *)
(** trail entries: literal, decision level, and for literals forced by the
    constraint the reason data *)
Record tent := TEnt { t_lit : lit; t_lvl : nat; t_reason : option nat }.
Definition value (tr : list tent) (x : lit) : option bool :=
  match find (fun e => Nat.eqb (fst (t_lit e)) (fst x)) tr with
  | Some e => Some (Bool.eqb (snd (t_lit e)) (snd x))
  | None => None
  end.
Definition is_true tr x := match value tr x with Some true => true | _ => false end.
Definition is_free tr x := match value tr x with None => true | _ => false end.
Definition level (tr : list tent) (x : lit) : nat :=
  match find (fun e => Nat.eqb (fst (t_lit e)) (fst x)) tr with Some e => t_lvl e | None => O end.

(** [s] below is (trail, conflict).  Solver::force (solver.h:351-364,
    Assignment::assign): true literals stay, free ones are assigned on the current level, false
    ones give a conflict whose reason is this constraint. *)
Definition force (dl : nat) (tr : list tent) (x : lit) (data : nat) : list tent * option (lit * nat) :=
  match value tr x with
  | Some true => (tr, None)
  | Some false => (tr, Some (x, data))
  | None => (tr ++ [TEnt x dl (Some data)], None)
  end.

Definition upd {A} (f : bool -> A) (c : bool) (v : A) : bool -> A := fun c' => if Bool.eqb c c' then v else f c'.
Definition updn {A} (f : nat -> A) (i : nat) (v : A) : nat -> A := fun j => if Nat.eqb i j then v else f j.

(** highestUndoLevel (lines 398-403) *)
Definition highestUndoLevel (k : wcon) (tr : list tent) (w : wst) : nat :=
  match rev (stack_ w) with (i, _) :: _ => level tr (clit k i false) | [] => O end.

(** updateConstraint (lines 408-417); returns the new state and whether an undo
    watch is added for [lvl] *)
Definition updateConstraint (k : wcon) (tr : list tent) (lvl : nat) (w : wst) (idx : nat) (c : bool) : wst * bool :=
  (WSt (upd (bound_ w) c (bound_ w c - weight k idx)) (stack_ w ++ [(idx, c)])
       (updn (seen_ w) idx (negb (seen_ w idx))) (bp_ w) (active_ w),
   negb (Nat.eqb (highestUndoLevel k tr w) lvl)).

(** backward propagation loop (lines 469-479), over the remaining indices *)
Fixpoint bp_fix (k : wcon) (dl : nat) (c : bool) (data : nat) (w : wst) (idxs : list nat) (n : nat) (tr : list tent)
  : list tent * wst * option (lit * nat) :=
  match idxs with
  | [] => (tr, WSt (bound_ w) (stack_ w) (seen_ w) (if isWeight k then n else bp_ w) (active_ w), None)
  | i :: rest =>
    if bound_ w c - weight k i <? 0 then
      if negb (seen_ w i) then
        let w' := WSt (bound_ w) (stack_ w) (seen_ w) (bp_ w) (Some c) in
        match force dl tr (clit k i c) data with
        | (tr', Some cf) => (tr', w', Some cf)
        | (tr', None) => bp_fix k dl c data w' rest (S n) tr'
        end
      else bp_fix k dl c data w rest (S n) tr
    else (tr, WSt (bound_ w) (stack_ w) (seen_ w) (if isWeight k then n else bp_ w) (active_ w), None)
  end.

(** getBpIndex (h:164) *)
Definition getBpIndex (k : wcon) (w : wst) : nat := if isWeight k then bp_ w else 1.

(** propagate (lines 439-483): [p] is [~lit(idx,c)].  Result: trail, state,
    whether an undo watch is added, conflict. *)
Definition wc_propagate (k : wcon) (dl : nat) (tr : list tent) (w : wst) (idx : nat) (c : bool)
  : list tent * wst * bool * option (lit * nat) :=
  let body := clit k 0 c in
  if (match active_ w with Some a => Bool.eqb a (negb c) | None => false end) || is_true tr body
  then (tr, w, false, None)                                                   (* 445-449 *)
  else
    let lvl := level tr (clit k idx c) in
    let '(w1, watch) := updateConstraint k tr lvl w idx c in                  (* 458 *)
    if (bound_ w1 c <=? 0) || (isWeight k && seen_ w1 0%nat) then             (* 459 *)
      let data := length (stack_ w1) in
      if negb (seen_ w1 0%nat) then                                           (* 461-465 *)
        let w2 := WSt (bound_ w1) (stack_ w1) (seen_ w1) (bp_ w1) (Some c) in
        let '(tr', cf) := force dl tr body data in (tr', w2, watch, cf)
      else                                                                    (* 466-480 *)
        let n := getBpIndex k w1 in
        let '(tr', w2, cf) := bp_fix k dl c data w1 (seq n (size k - n)) n tr in (tr', w2, watch, cf)
    else (tr, w1, watch, None).

(** reason (lines 488-502): the literals of the undo stack up to the stored
    position that belong to the active sub-constraint, as true literals *)
Definition wc_reason (k : wcon) (w : wst) (data : nat) : list lit :=
  let stop := if isWeight k then data else length (stack_ w) in
  map (fun u => neg (clit k (fst u) (snd u)))
      (filter (fun u => match active_ w with Some a => Bool.eqb (snd u) a | None => false end)
              (firstn stop (stack_ w))).

(** undoLevel (lines 522-540), popping while the literal on top is unassigned;
    [n] bounds the number of pops (length of the stack) *)
Fixpoint pop_fix (k : wcon) (tr : list tent) (n : nat) (w : wst) : wst :=
  match n with
  | O => w
  | S n' =>
    match rev (stack_ w) with
    | [] => w
    | (i, c) :: r =>
      if is_free tr (clit k i false)
      then pop_fix k tr n' (WSt (upd (bound_ w) c (bound_ w c + weight k i)) (rev r)
                               (updn (seen_ w) i (negb (seen_ w i))) (bp_ w) (active_ w))
      else w
    end
  end.
Definition wc_undoLevel (k : wcon) (tr : list tent) (w : wst) : wst :=
  let w1 := WSt (bound_ w) (stack_ w) (seen_ w) (if isWeight k then 1 else bp_ w) (active_ w) in
  let w2 := pop_fix k tr (length (stack_ w1)) w1 in
  if negb (seen_ w2 0%nat) then WSt (bound_ w2) (stack_ w2) (seen_ w2) (bp_ w2) None else w2.

(** ** The machine: one weight constraint and an arbitrary environment
    [m_starts]: trail positions where the open levels start, newest first;
    [m_front]: head of the propagation queue; [m_undo]: levels with an undo watch
    of this constraint. *)
Record mach := Mach { m_tr : list tent; m_front : nat; m_starts : list nat; m_w : wst;
                      m_undo : list nat; m_conf : option (lit * nat) }.
Definition m_dl (m : mach) : nat := length (m_starts m).

(** watches (addWatch, lines 370-376): sub-constraint [c] is watched unless the
    other one was the only one created *)
Definition watched (k : wcon) (c : bool) : bool := match k_act k with Some a => Bool.eqb a c | None => true end.
(** the sub-constraint and index watching literal [p] = ~lit(idx,c) *)
Fixpoint find_idx (l : list wlit) (i : nat) (p : lit) : option (nat * bool) :=
  match l with
  | [] => None
  | e :: t => if Nat.eqb (fst (fst e)) (fst p)
              then Some (i, lit_eqb (fst e) p)   (* p == ~lit(i,c): c = 1 iff p is the stored literal *)
              else find_idx t (S i) p
  end.
Definition watch_of (k : wcon) (p : lit) : option (nat * bool) :=
  match find_idx (k_all k) 0 p with
  | Some (i, c) => if watched k c then Some (i, c) else None
  | None => None
  end.

Inductive mstep (k : wcon) : mach -> mach -> Prop :=
| ms_assign m x : m_conf m = None -> is_free (m_tr m) x = true ->
    (* a decision or a literal forced by another constraint (solver.cpp assume/force) *)
    mstep k m (Mach (m_tr m ++ [TEnt x (m_dl m) None]) (m_front m) (m_starts m) (m_w m) (m_undo m) None)
| ms_level m : m_conf m = None -> m_front m = length (m_tr m) ->
    (* a new decision level is only opened once the queue is empty *)
    mstep k m (Mach (m_tr m) (m_front m) (length (m_tr m) :: m_starts m) (m_w m) (m_undo m) None)
| ms_skip m e : m_conf m = None -> nth_error (m_tr m) (m_front m) = Some e -> watch_of k (t_lit e) = None ->
    mstep k m (Mach (m_tr m) (S (m_front m)) (m_starts m) (m_w m) (m_undo m) None)
| ms_prop m e i c tr w b cf : m_conf m = None -> nth_error (m_tr m) (m_front m) = Some e ->
    watch_of k (t_lit e) = Some (i, c) ->
    wc_propagate k (m_dl m) (m_tr m) (m_w m) i c = (tr, w, b, cf) ->
    mstep k m (Mach tr (S (m_front m)) (m_starts m) w (if b then level (m_tr m) (t_lit e) :: m_undo m else m_undo m) cf)
| ms_undo m n st : m_starts m = n :: st ->
    (* Solver::undoLevel (solver.cpp:1105-1117): undo the trail, then call the
       constraints with an undo watch on the level *)
    mstep k m (Mach (firstn n (m_tr m)) n st
                    (if existsb (Nat.eqb (m_dl m)) (m_undo m) then wc_undoLevel k (firstn n (m_tr m)) (m_w m) else m_w m)
                    (filter (fun l => negb (Nat.eqb l (m_dl m))) (m_undo m)) None).

Definition m_init (k : wcon) : mach := Mach [] 0 [] (wst_init k) [] None.
Inductive reach (k : wcon) : mach -> Prop :=
| r_init : reach k (m_init k)
| r_step m m' : reach k m -> mstep k m m' -> reach k m'.
