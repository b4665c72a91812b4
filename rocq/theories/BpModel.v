(** Model of unit propagation with watched literals: Solver::propagate and
    unitPropagate (/repo/src/solver.cpp:823-835, 878-928), ClauseHead::propagate (857-876),
    the updateWatch functions of clauses (/repo/src/clause.cpp:488-514, 760-783),
    attaching and creating clauses (clause.cpp:208-339, 404-431,
    /repo/src/solver_types.cpp:146-180), binary and ternary clauses
    (/repo/src/shared_context.cpp:230-253, 320-333, /repo/clasp/shared_context.h:361-384),
    undoing levels (solver.cpp:1015-1036).

    Simplifications.  The trail is a list of literals with level and antecedent; the
    queue are the entries from position [b_front] on (that this is what class
    Assignment does is C14).  Decisions are never flipped, so that the backtrack level is the root
    level.  The list impliedLits_ is a field of the trail entries (that it assigns such literals again
    on backtracking is C15); a literal that is false on its implied level below the root level
    would be added to it as well, such clauses are excluded in BpSpec.  Constraints other than clauses are not
    modelled, except that they may force literals ([OForce] in BpSpec).  Contracted clauses
    (compressLimit), SAT preprocessing, sharing with other solvers, heuristics,
    activities, the watch and learnt flags of literals and markUnits are left out.
    Watch lists are lists of clause numbers; the learnt blocks of the implication graph
    are part of its lists. *)
From Coq Require Import List Bool Arith ZArith.
From Verif Require Import Base ClModel.
Import ListNotations.

(** Antecedents: decision, external constraint, top-level fact (Antecedent(lit_true())),
    one or two literals, a clause. *)
Inductive why := Dec | Ext | Fact | By1 (p : lit) | By2 (p q : lit) | ByC (i : nat).
(** [e_log]: the level on which the literal is implied; smaller than [e_lev] if it could not be
    assigned there because that level is below the root level. *)
Record ent := Ent { e_lit : lit; e_lev : nat; e_why : why; e_log : nat }.

(** Clauses: the head with two watches and the cache literal, and the tail of a small clause
    (two literals, padded with lit_false), of a large clause with its
    search position, or the literals shared between solvers. *)
Inductive body := Small (a b : lit) | Large (tl : list lit) (idx : nat) | Shared (ls : list lit).
Record cls := Cls { h0 : lit; h1 : lit; h2 : lit; bd : body }.

Record st := St {
  b_trail : list ent; b_front : nat; b_dl : nat;
  b_bin : lit -> list lit; b_tern : lit -> list (lit * lit);
  b_cls : list (option cls);        (* None: destroyed *)
  b_wl : lit -> list nat;
  b_conf : option (lit * why);      (* the literal that could not be forced *)
  b_root : nat }.                   (* rootLevel() *)

Definition set_trail (s : st) t := St t (b_front s) (b_dl s) (b_bin s) (b_tern s) (b_cls s) (b_wl s) (b_conf s) (b_root s).
Definition set_front (s : st) f := St (b_trail s) f (b_dl s) (b_bin s) (b_tern s) (b_cls s) (b_wl s) (b_conf s) (b_root s).
Definition set_conf (s : st) c := St (b_trail s) (b_front s) (b_dl s) (b_bin s) (b_tern s) (b_cls s) (b_wl s) c (b_root s).
Definition set_wl (s : st) w := St (b_trail s) (b_front s) (b_dl s) (b_bin s) (b_tern s) (b_cls s) w (b_conf s) (b_root s).
Definition set_cls (s : st) c := St (b_trail s) (b_front s) (b_dl s) (b_bin s) (b_tern s) c (b_wl s) (b_conf s) (b_root s).
Definition set_imp (s : st) b t := St (b_trail s) (b_front s) (b_dl s) b t (b_cls s) (b_wl s) (b_conf s) (b_root s).

Definition upd {A : Type} (f : lit -> A) (p : lit) (x : A) : lit -> A := fun q => if lit_eqb q p then x else f q.
Fixpoint put_at {A : Type} (l : list A) (i : nat) (x : A) : list A :=
  match l, i with
  | [], _ => []
  | _ :: l, O => x :: l
  | a :: l, S i => a :: put_at l i x
  end.

(** isTrue, isFalse, level, reason *)
Definition isT (s : st) (p : lit) : bool := existsb (fun e => lit_eqb (e_lit e) p) (b_trail s).
Definition isF (s : st) (p : lit) : bool := isT s (neg p).
Definition entry (s : st) (v : nat) : option ent := find (fun e => Nat.eqb (fst (e_lit e)) v) (b_trail s).
Definition lev (s : st) (p : lit) : nat := match entry s (fst p) with Some e => e_lev e | None => 0 end.
(** Values and levels as read by ClauseCreator. *)
Definition view (s : st) : sview :=
  SView (fun v => match entry s v with Some e => Some (negb (snd (e_lit e))) | None => None end)
        (fun v => match entry s v with Some e => Z.of_nat (e_lev e) | None => 0%Z end) (Z.of_nat (b_dl s)).

(** Solver::force(p, a) (/repo/clasp/solver.h:351-356); [g]: the level on which [p] is implied *)
Definition forceG (s : st) (p : lit) (w : why) (g : nat) : st * bool :=
  if isT s p then (s, true)
  else if isF s p then (set_conf s (Some (p, w)), false)
  else (set_trail s (b_trail s ++ [Ent p (b_dl s) w g]), true).
Definition force (s : st) (p : lit) (w : why) : st * bool := forceG s p w (b_dl s).
(** Solver::assume (solver.cpp:813-821) *)
Definition assume (s : st) (p : lit) : st :=
  if isT s p || isF s p then s
  else St (b_trail s ++ [Ent p (S (b_dl s)) Dec (S (b_dl s))]) (b_front s) (S (b_dl s)) (b_bin s) (b_tern s) (b_cls s) (b_wl s) (b_conf s) (b_root s).
(** undoUntil (1015-1036): the root levels are kept; literals that are implied on a remaining level
    are assigned again (impliedLits_.assign) *)
Definition undo (s : st) (l : nat) : st :=
  let l := Nat.max l (b_root s) in
  if Nat.ltb l (b_dl s) then
    let t := filter (fun e => Nat.leb (e_lev e) l) (b_trail s) in
    let r := map (fun e => Ent (e_lit e) l (e_why e) (e_log e)) (filter (fun e => Nat.ltb l (e_lev e) && Nat.leb (e_log e) l) (b_trail s)) in
    St (t ++ r) (length t) l (b_bin s) (b_tern s) (b_cls s) (b_wl s) None (b_root s)
  else s.
(** Solver::force(p, dl, a) (solver.h:374-376, solver.cpp:793-811) *)
Definition logOf (s : st) (p : lit) : nat := match entry s (fst p) with Some e => e_log e | None => 0 end.
Definition relog (s : st) (p : lit) (l : nat) (w : why) : st :=
  set_trail s (map (fun e => if lit_eqb (e_lit e) p then Ent p (e_lev e) w l else e) (b_trail s)).
Definition forceAt (s : st) (p : lit) (l : nat) (w : why) : st * bool :=
  if Nat.eqb l (b_dl s) then force s p w
  else if isT s p && Nat.leb (lev s p) l then (s, true)
  else if isT s p && Nat.ltb (logOf s p) (lev s p) then ((if Nat.ltb l (logOf s p) then relog s p l w else s), true)
  else
    let s1 := undo s l in
    if isT s1 p then (relog s1 p l w, true) else forceG s1 p w l.
(** pushRootLevel (solver.h:207-210), popRootLevel (solver.cpp:505-528), without flipped decisions, so
    that the backtrack level is the root level *)
Definition setRoot (s : st) (r : nat) : st := St (b_trail s) (b_front s) (b_dl s) (b_bin s) (b_tern s) (b_cls s) (b_wl s) (b_conf s) r.
Definition pushRootLevel (s : st) : st := setRoot s (Nat.min (b_dl s) (S (b_root s))).
Definition popRootLevel (s : st) (k : nat) : st :=
  let r := b_root s - Nat.min k (b_root s) in undo (setRoot s r) r.

(** ShortImplicationsGraph::propagate: unary and binary implications (shared_context.cpp:321-330) *)
Fixpoint bins (s : st) (p : lit) (l : list lit) : st * bool :=
  match l with
  | [] => (s, true)
  | x :: l =>
    if isT s x then bins s p l
    else let '(s1, ok) := force s x (By1 p) in if ok then bins s1 p l else (s1, false)
  end.
Fixpoint terns (s : st) (p : lit) (l : list (lit * lit)) : st * bool :=
  match l with
  | [] => (s, true)
  | (x, y) :: l =>
    if negb (isT s x) && negb (isT s y) && (isF s x || isF s y) then
      let '(s1, ok) := if isF s x then force s y (By2 p (neg x)) else force s x (By2 p (neg y)) in
      if ok then terns s1 p l else (s1, false)
    else terns s p l
  end.

(** Clause::updateWatch (clause.cpp:488-514), SharedLitsClause::updateWatch (760-783);
    [pos]: true if head_[1] is to be replaced. *)
Definition set_head (c : cls) (pos : bool) (x : lit) : cls :=
  if pos then Cls (h0 c) x (h2 c) (bd c) else Cls x (h1 c) (h2 c) (bd c).
Definition head (c : cls) (pos : bool) : lit := if pos then h1 c else h0 c.
Definition set_bd (c : cls) (b : body) : cls := Cls (h0 c) (h1 c) (h2 c) b.
Definition set_h2 (c : cls) (x : lit) : cls := Cls (h0 c) (h1 c) x (bd c).
(** first position >= k of a literal that is not false *)
Fixpoint find_nf (s : st) (l : list lit) (k : nat) : option nat :=
  match l with
  | [] => None
  | x :: l => if isF s x then find_nf s l (S k) else Some k
  end.
Fixpoint shared_scan (s : st) (other : lit) (ls : list lit) : option (lit * option lit) :=
  match ls with
  | [] => None
  | r :: rest =>
    if negb (isF s r) && negb (lit_eqb r other)
    then Some (r, find (fun q => negb (isF s q) && negb (lit_eqb q other)) (firstn 7 rest))
    else shared_scan s other rest
  end.
Definition updateWatch (s : st) (c : cls) (pos : bool) : option cls :=
  match bd c with
  | Small a b =>
    if negb (isF s a) then Some (set_bd (set_head c pos a) (Small (head c pos) b))
    else if negb (isF s b) then Some (set_bd (set_head c pos b) (Small a (head c pos)))
    else None
  | Large tl idx =>
    let r := match find_nf s (skipn idx tl) idx with
             | Some j => Some j
             | None => if Nat.eqb idx 0 then None else find_nf s (firstn idx tl) 0
             end in
    match r with
    | Some j => Some (set_bd (set_head c pos (nth j tl lit_false)) (Large (put_at tl j (head c pos)) (S j)))
    | None => None
    end
  | Shared ls =>
    match shared_scan s (head c (negb pos)) ls with
    | Some (r, q) => let c := set_head c pos r in Some (match q with Some x => set_h2 c x | None => c end)
    | None => None
    end
  end.

(** ClauseHead::propagate (solver.cpp:857-876): the state, ok and keepWatch *)
Definition addWatch (s : st) (p : lit) (i : nat) : st := set_wl s (upd (b_wl s) p (b_wl s p ++ [i])).
Definition cl_prop (s : st) (p : lit) (i : nat) (c : cls) : st * bool * bool :=
  let w := lit_eqb (h1 c) (neg p) in
  if isT s (head c (negb w)) then (s, true, true)
  else if negb (isF s (h2 c)) then
    (addWatch (set_cls s (put_at (b_cls s) i (Some (set_h2 (set_head c w (h2 c)) (neg p))))) (neg (h2 c)) i, true, false)
  else match updateWatch s c w with
  | Some c' => (addWatch (set_cls s (put_at (b_cls s) i (Some c'))) (neg (head c' w)) i, true, false)
  | None => let '(s1, ok) := force s (head c (negb w)) (ByC i) in (s1, ok, true)
  end.
(** The loop over the watch list of p (solver.cpp:893-908): the state, the remaining list, ok *)
Fixpoint wloop (s : st) (p : lit) (l : list nat) : st * list nat * bool :=
  match l with
  | [] => (s, [], true)
  | i :: l =>
    match nth i (b_cls s) None with
    | None => (s, i :: l, false)   (* dangling watch *)
    | Some c =>
      let '(s1, ok, keep) := cl_prop s p i c in
      let k := if keep then [i] else [] in
      if ok then let '(s2, r, b) := wloop s1 p l in (s2, k ++ r, b)
      else (s1, k ++ l, false)
    end
  end.
(** One round of unitPropagate (884-908) and the whole loop; on failure, propagate()
    empties the queue.  None: out of fuel. *)
Definition prop1 (s : st) (p : lit) : st * bool :=
  let s := set_front s (S (b_front s)) in
  let '(s1, ok1) := bins s p (b_bin s p) in
  if negb ok1 then (s1, false) else
  let '(s2, ok2) := terns s1 p (b_tern s1 p) in
  if negb ok2 then (s2, false) else
  let '(s3, l, ok3) := wloop s2 p (b_wl s2 p) in
  (set_wl s3 (upd (b_wl s3) p l), ok3).
Fixpoint propagate (fuel : nat) (s : st) : st * option bool :=
  match fuel with
  | O => (s, None)
  | S fuel =>
    match nth_error (b_trail s) (b_front s) with
    | None => (s, Some true)
    | Some e => let '(s1, ok) := prop1 s (e_lit e) in
                if ok then propagate fuel s1 else (set_front s1 (length (b_trail s1)), Some false)
    end
  end.

(** ShortImplicationsGraph::add (shared_context.cpp:230-245) *)
Definition add_imp (s : st) (c : list lit) : st :=
  let pushb b x y := upd b (neg x) (b (neg x) ++ [y]) in
  let pusht t x y z := upd t (neg x) (t (neg x) ++ [(y, z)]) in
  match c with
  | [p; q] => set_imp s (pushb (pushb (b_bin s) p q) q p) (b_tern s)
  | [p; q; r] => set_imp s (b_bin s) (pusht (pusht (pusht (b_tern s) p q r) q p r) r p q)
  | _ => s
  end.
(** Clause::Clause (clause.cpp:404-431), SharedLitsClause (738-746), with attach
    (solver_types.cpp:146-151) *)
Definition mk_clause (shared : bool) (c : list lit) : cls :=
  let g i := nth i c lit_false in
  Cls (g 0) (g 1) (g 2)
    (if Nat.leb (length c) 5 then Small (g 3) (g 4) else if shared then Shared c else Large (skipn 3 c) 0).
Definition attach (s : st) (c : cls) : st :=
  let i := length (b_cls s) in
  addWatch (addWatch (set_cls s (b_cls s ++ [Some c])) (neg (h0 c)) i) (neg (h1 c)) i.

(** How a clause is to be stored: learnt, clause_explicit, shared representation, and the
    watches picked by newProblemClause for clauses that are not learnt (213-235). *)
Record flags := Flags { f_learnt : bool; f_expl : bool; f_shared : bool; f_fw : nat; f_sw : nat }.
Definition pick (f : flags) (c : list lit) : list lit :=
  if f_learnt f || Nat.leb (length c) 2 then c else swap 1 (f_sw f) (swap 0 (f_fw f) c).
(** create_prepared (clause.cpp:290-315) for flags without clause_not_* *)
Definition createPrep (s : st) (f : flags) (c : list lit) : st * bool :=
  let x := status_prep (view s) c (length c) in
  if Z.eqb x 9 then (s, true)                                   (* subsumed: ignored *)
  else if Nat.leb (length c) 1 then forceAt s (nth 0 c lit_false) 0 Fact
  else
    let imp := Nat.leb (length c) 3 && negb (f_expl f) in
    let c := if imp then c else pick f c in
    let s1 := if imp then add_imp s c else attach s (mk_clause (f_shared f) c) in
    let w := if imp then (match c with [_; q] => By1 (neg q) | _ => By2 (neg (nth 1 c lit_false)) (neg (nth 2 c lit_false)) end)
             else ByC (length (b_cls s)) in
    if Z.testbit x 1 || Z.testbit x 2 then forceAt s1 (nth 0 c lit_false) (lev s (nth 1 c lit_false)) w
    else (s1, true).
(** create (clause.cpp:317-319) without clause_no_prepare; [simp]: clause_force_simplify *)
Definition create (s : st) (f : flags) (simp : bool) (c0 : list lit) : st * bool :=
  createPrep s f (prepare_vec (view s) simp c0).

(** ClauseHead::locked (solver_types.cpp:177-180), detach and destroy *)
Definition reasonIs (s : st) (p : lit) (i : nat) : bool :=
  isT s p && match entry s (fst p) with Some (Ent _ _ (ByC j) _) => Nat.eqb j i | _ => false end.
Definition locked (s : st) (i : nat) (c : cls) : bool := reasonIs s (h0 c) i || reasonIs s (h1 c) i.
Definition remove (s : st) (i : nat) : st :=
  match nth i (b_cls s) None with
  | None => s
  | Some c =>
    if locked s i c then s
    else
      let del q w := upd w q (List.remove Nat.eq_dec i (w q)) in
      set_cls (set_wl s (del (neg (h1 c)) (del (neg (h0 c)) (b_wl s)))) (put_at (b_cls s) i None)
  end.

(** The sentinel variable 0 is true from the start. *)
Definition init : st := St [Ent lit_true 0 Fact 0] 1 0 (fun _ => []) (fun _ => []) [] (fun _ => []) None 0.
