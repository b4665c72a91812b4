(** Model of conflict analysis: Solver::analyzeConflict (/repo/src/solver.cpp:1216-1283),
    simplifyConflictClause (1338-1412), ccMinimize (1426-1453), ccMinRecurse (1457-1462),
    ccRemovable (1465-1500), ccHasReverseArc (1506-1519), ccResolve (1521-1536),
    finalizeConflictClause (1543-1612), Constraint::minimize (1614-1623) and
    resolveToCore (1179-1211).

    Simplifications.  An implication graph is given by the trail, the level of each
    variable, and for each variable the literals reported by the reason of its literal
    (None: null antecedent, i.e. a decision or a flipped decision).  The implementations of
    [reason] and [minimize] for the individual constraints are assumed to look at the
    same literals in the order of [v_why].  On-the-fly subsumption (otfs),
    bumping of activities and the callbacks to the heuristic are left out.  The two
    seen bits per variable are modelled as one: only true literals are tested by literal.
    The vector epoch_ of ccRemovable is a map to the three states. *)
From Coq Require Import List Bool Arith.
From Verif Require Import Base ClModel.
Import ListNotations.

(** trail (oldest first), level and antecedent (literals and type: 0 constraint, 1 two literals,
    2 one literal), levels_[i].trailPos, rootLevel; [v_short p]: the implications of p in the
    implication graph, as the literals other than ~p of the clause; [v_long p]: likewise for the
    clauses watching p. *)
Record env := Env {
  v_trail : list lit; v_lev : nat -> nat; v_why : nat -> option (list lit); v_ty : nat -> nat;
  v_starts : list nat; v_root : nat;
  v_short : lit -> list (list lit); v_long : lit -> list (list lit) }.
Definition dl (E : env) : nat := length (v_starts E).
Definition lv (E : env) (p : lit) : nat := v_lev E (fst p).
Definition rs (E : env) (p : lit) : option (list lit) := v_why E (fst p).
(** decision(i) (/repo/clasp/solver.h:600), levelStart (595) *)
Definition decision (E : env) (i : nat) : lit := nth (nth (i - 1) (v_starts E) 0) (v_trail E) lit_true.
Definition levelStart (E : env) (i : nat) : nat := nth (i - 1) (v_starts E) 0.

(** seen flags of variables and marks of levels (solver.h:791-793, 885-888) *)
Record fl := Fl { f_seen : nat -> bool; f_mark : nat -> bool }.
Definition setf (f : nat -> bool) (v : nat) (b : bool) : nat -> bool := fun u => if Nat.eqb u v then b else f u.
Definition markSeen (f : fl) (p : lit) : fl := Fl (setf (f_seen f) (fst p) true) (f_mark f).
Definition clearSeen (f : fl) (p : lit) : fl := Fl (setf (f_seen f) (fst p) false) (f_mark f).
Definition markLevel (f : fl) (l : nat) : fl := Fl (f_seen f) (setf (f_mark f) l true).
Definition unmarkLevel (f : fl) (l : nat) : fl := Fl (f_seen f) (setf (f_mark f) l false).
Definition seen (f : fl) (p : lit) : bool := f_seen f (fst p).

Definition memL (p : lit) (l : list lit) : bool := existsb (lit_eqb p) l.

(** The loop over conflict_ in analyzeConflict (1229-1245); [rt]: the trail, newest first; violated
    assertions are UB. *)
Fixpoint absorb (E : env) (rt : list lit) (r : list lit) (f : fl) (cc : list lit) (on : nat) : res (fl * list lit * nat) :=
  match r with
  | [] => Ok (f, cc, on)
  | q :: r =>
    if seen f q then absorb E rt r f cc on
    else if negb (memL q rt) || Nat.eqb (lv E q) 0 then UB
    else if Nat.eqb (lv E q) (dl E) then absorb E rt r (markSeen f q) cc (S on)
    else absorb E rt r (markLevel (markSeen f q) (lv E q)) (cc ++ [neg q]) on
  end.
(** The loop of analyzeConflict (1225-1270) from the search for the last seen literal on.
    Result: the UIP, the remaining trail, the flags, and cc_ without its first literal *)
Fixpoint walk (E : env) (rt : list lit) (f : fl) (cc : list lit) (on : nat) : res (lit * list lit * fl * list lit) :=
  match rt with
  | [] => UB
  | p :: rt' =>
    if seen f p then
      match on with
      | 0 => UB
      | 1 => Ok (p, rt, clearSeen f p, cc)
      | S on' =>
        match rs E p with
        | None => UB
        | Some r => do '(f1, cc1, on1) <- absorb E rt r (clearSeen f p) cc on'; walk E rt' f1 cc1 on1
        end
      end
    else walk E rt' f cc on
  end.
Definition firstUip (E : env) (conf : list lit) (f : fl) : res (lit * list lit * fl * list lit) :=
  let rt := rev (v_trail E) in
  do '(f1, cc, on) <- absorb E rt conf f [] 0;
  if Nat.eqb on 0 then UB else walk E rt f1 cc on.

(** Strategies (/repo/clasp/solver_strategies.h): ccMinAntes (0 all, 1 short, 2 binary, 3 none),
    recursive minimisation, reverseArcs, ccRepMode (0 none, 1 decision, 2 uip, 3 dynamic), compress, the tag literal. *)
Record opt := Opt { o_antes : nat; o_rec : bool; o_rev : nat; o_rep : nat; o_compress : nat; o_tag : lit }.

(** ccRemovable without recursion: Antecedent::minimize(p, 0) *)
Definition usable (E : env) (o : opt) (p : lit) : option (list lit) :=
  match rs E p with Some r => if Nat.leb (o_antes o) (v_ty E (fst p)) then Some r else None | None => None end.
Definition localRemovable (E : env) (o : opt) (f : fl) (p : lit) : bool :=
  match usable E o p with Some r => forallb (seen f) r | None => false end.

(** Recursive minimisation: states of literals and the stack todo (flagged literals are being
    visited) *)
Inductive dst := Open | Removable | Poison.
Definition setd (ep : nat -> dst) (v : nat) (d : dst) : nat -> dst := fun u => if Nat.eqb u v then d else ep u.
(** Antecedent::minimize(x, rec) with Solver::ccMinimize(p, rec) (solver.h:765-767) and ccMinRecurse *)
Fixpoint visit (E : env) (f : fl) (ep : nat -> dst) (r : list lit) (todo : list (lit * bool)) : bool * list (lit * bool) :=
  match r with
  | [] => (true, todo)
  | q :: r =>
    if seen f q then visit E f ep r todo
    else if f_mark f (lv E q) then
      match ep (fst q) with
      | Poison => (false, todo)
      | Open => visit E f ep r ((q, false) :: todo)
      | Removable => visit E f ep r todo
      end
    else (false, todo)
  end.
Fixpoint dfs (fuel : nat) (E : env) (o : opt) (f : fl) (p : lit) (ep : nat -> dst) (todo : list (lit * bool)) (ok : bool) : res (bool * (nat -> dst)) :=
  match fuel with
  | O => UB
  | S fuel =>
    match todo with
    | [] => UB
    | (x, true) :: todo =>
      if lit_eqb x p then Ok (ok, ep)
      else dfs fuel E o f p (setd ep (fst x) (if ok then Removable else Poison)) todo ok
    | (x, false) :: todo =>
      if ok then
        match ep (fst x) with
        | Open =>
          match usable E o x with
          | None => dfs fuel E o f p ep ((x, true) :: todo) false
          | Some r => let '(ok1, todo1) := visit E f ep r ((x, true) :: todo) in dfs fuel E o f p ep todo1 ok1
          end
        | Poison => dfs fuel E o f p ep todo false
        | Removable => dfs fuel E o f p ep todo true
        end
      else dfs fuel E o f p ep todo false
    end
  end.
Definition rsize (E : env) (p : lit) : nat := match rs E p with Some r => length r | None => 0 end.
Definition fuelFor (E : env) : nat := 3 + list_sum (map (fun x => 2 + rsize E x) (v_trail E)).
Definition ccRemovable (E : env) (o : opt) (f : fl) (p : lit) (ep : nat -> dst) : res (bool * (nat -> dst)) :=
  match usable E o p with
  | None => Ok (false, ep)
  | Some _ => if o_rec o then dfs (fuelFor E) E o f p ep [(p, false)] true
              else Ok (localRemovable E o f p, ep)
  end.

(** ccMinimize (1434-1448): kept and removed literals, the position of the first literal from the
    asserting level and the number of literals from that level *)
Record minst := Min { m_kept : list lit; m_rem : list lit; m_level : nat; m_pos : nat; m_on : nat; m_ep : nat -> dst }.
Definition keep (E : env) (m : minst) (c : lit) : minst :=
  let l := lv E c in
  let j := S (length (m_kept m)) in
  let '(al, ap, on) := if Nat.ltb (m_level m) l then (l, j, 0) else (m_level m, m_pos m, m_on m) in
  Min (m_kept m ++ [c]) (m_rem m) al ap (if Nat.eqb l al then S on else on) (m_ep m).
Fixpoint minLoop (E : env) (o : opt) (f : fl) (cs : list lit) (m : minst) : res minst :=
  match cs with
  | [] => Ok m
  | c :: cs =>
    if Nat.eqb (o_antes o) 3 then minLoop E o f cs (keep E m c)
    else do '(b, ep) <- ccRemovable E o f (neg c) (m_ep m);
         let m := Min (m_kept m) (m_rem m) (m_level m) (m_pos m) (m_on m) ep in
         minLoop E o f cs (if b : bool then Min (m_kept m) (m_rem m ++ [c]) (m_level m) (m_pos m) (m_on m) (m_ep m) else keep E m c)
  end.
(** Result: cc, removed, onAssert *)
Definition ccMinimize (E : env) (o : opt) (f : fl) (c0 : lit) (cs : list lit) : res (list lit * list lit * nat) :=
  do m <- minLoop E o f cs (Min [] [] 0 1 0 (fun _ => Open));
  let cc := c0 :: m_kept m in
  Ok (if Nat.eqb (m_pos m) 1 then cc else swap 1 (m_pos m) cc, m_rem m, m_on m).

(** isRevLit (solver.h:902-904); isReverseReason of clauses (clause.cpp:556-570, 801-809; contracted
    clauses are not modelled); ReverseArc (shared_context.cpp:333-346) *)
Definition isRevLit (E : env) (f : fl) (rt : list lit) (maxL : nat) (x : lit) : bool :=
  memL (neg x) rt && (seen f x || Nat.ltb (lv E x) maxL).
Definition revArc (E : env) (f : fl) (rt : list lit) (p : lit) (maxL : nat) (maxN : option nat) : option (list lit) :=
  match find (forallb (isRevLit E f rt maxL)) (v_short E p) with
  | Some c => Some (map neg c)
  | None =>
    match find (fun c => forallb (isRevLit E f rt maxL) c &&
                 match maxN with Some n => Nat.leb (length (filter (fun x => negb (seen f x)) c)) n | None => true end) (v_long E p) with
    | Some c => Some (map neg c)
    | None => None
    end
  end.
(** ccResolve with pos = 1: new literals are appended, the last literal replaces cc[1] *)
Fixpoint addNew (E : env) (r : list lit) (f : fl) (cc : list lit) : fl * list lit :=
  match r with
  | [] => (f, cc)
  | x :: r => if seen f x then addNew E r f cc else addNew E r (markLevel f (lv E x)) (cc ++ [neg x])
  end.
Definition ccResolve (E : env) (cc : list lit) (r : list lit) (f : fl) : fl * list lit :=
  let x := nth 1 cc lit_false in
  let '(f1, cc1) := addNew E r f cc in
  (unmarkLevel (clearSeen f1 x) (lv E x), removelast (set_nth 1 (last cc1 lit_false) cc1)).

(** finalizeConflictClause: the loop over cc[1..] (1553-1567) *)
Record fin := Fin { n_f : fl; n_lbd : nat; n_root : nat; n_level : nat; n_pos : nat; n_max : nat; n_tag : bool }.
Definition fin1 (E : env) (o : opt) (i : nat) (c : lit) (n : fin) : fin :=
  let l := lv E c in
  let f := clearSeen (n_f n) c in
  let '(al, ap) := if Nat.ltb (n_level n) l then (l, i) else (n_level n, n_pos n) in
  let tg := n_tag n || lit_eqb c (neg (o_tag o)) in
  if f_mark f l then
    if Nat.ltb (v_root E) l then Fin (unmarkLevel f l) (S (n_lbd n)) (n_root n) al ap (Nat.max (n_max n) (fst c)) tg
    else Fin (unmarkLevel f l) (if Nat.eqb (n_root n) 0 then S (n_lbd n) else n_lbd n) (S (n_root n)) al ap (Nat.max (n_max n) (fst c)) tg
  else Fin f (n_lbd n) (n_root n) al ap (Nat.max (n_max n) (fst c)) tg.
Fixpoint finLoop (E : env) (o : opt) (i : nat) (cs : list lit) (n : fin) : fin :=
  match cs with [] => n | c :: cs => finLoop E o (S i) cs (fin1 E o i c n) end.
(** cc_rep_decision (1574-1583) *)
Fixpoint decSeq (E : env) (k : nat) : list lit :=
  match k with O => [] | S k => neg (decision E (S k)) :: decSeq E k end.
(** cc_rep_uip (1584-1606): the search for another seen literal of the level (1591); reading before the
    begin of the trail is UB *)
Fixpoint scan (f : fl) (steps : nat) (rt : list lit) : res lit :=
  match steps with
  | O => match rt with [] => UB | x :: _ => Ok x end
  | S k => match rt with [] => UB | x :: rt => if seen f x then Ok x else scan f k rt end
  end.
Fixpoint markAll (r : list lit) (f : fl) (marked : nat) : fl * nat :=
  match r with
  | [] => (f, marked)
  | q :: r => if seen f q then markAll r f marked else markAll r (markSeen f q) (S marked)
  end.
Fixpoint uipLoop (E : env) (o : opt) (rt : list lit) (f : fl) (marked : nat) (cc : list lit) (mx : nat) (tg : bool) : res (fl * list lit * nat * bool) :=
  match marked with
  | O => Ok (f, cc, mx, tg)
  | S marked' =>
    match rt with
    | [] => UB
    | t :: rt' =>
      if seen f t then
        let f := clearSeen f t in
        let push := uipLoop E o rt' f marked' (cc ++ [neg t]) (Nat.max mx (fst t)) (tg || Nat.eqb (fst t) (fst (o_tag o))) in
        match rs E t with
        | Some r =>
          if Nat.eqb marked' 0 then push else
          do next <- scan f (length rt' - levelStart E (lv E t)) rt';
          if Nat.eqb (lv E next) (lv E t) then
            let '(f1, m1) := markAll (rev r) f marked' in uipLoop E o rt' f1 m1 cc mx tg
          else push
        | None => push
        end
      else uipLoop E o rt' f marked cc mx tg
    end
  end.
Record out := Out { r_cc : list lit; r_level : nat; r_lbd : nat; r_tagged : bool; r_max : nat; r_fl : fl }.
Definition finalize (E : env) (o : opt) (rep : nat) (rt : list lit) (cc : list lit) (f : fl) : res out :=
  match cc with
  | [] => UB
  | c0 :: cs =>
    let n := finLoop E o 1 cs (Fin f 1 0 0 1 (fst c0) false) in
    let cc := if Nat.eqb (n_pos n) 1 then cc else swap 1 (n_pos n) cc in
    let rep := if Nat.eqb rep 3 then (if Nat.ltb (66 * dl E) (100 * n_lbd n) then 1 else 2) else rep in
    match rep with
    | 0 => Ok (Out cc (n_level n) (n_lbd n) (n_tag n) (n_max n) (n_f n))
    | 1 => let ds := decSeq E (n_level n) in
           Ok (Out (c0 :: ds) (n_level n) (S (n_level n)) (existsb (lit_eqb (neg (o_tag o))) ds)
                   (fold_left (fun m x => Nat.max m (fst x)) ds (fst c0)) (n_f n))
    | _ => do '(f1, cc1, mx, tg) <- uipLoop E o rt (fst (markAll (rev (map neg (tl cc))) (n_f n) 0)) (length cc - 1) [c0] (fst c0) false;
           Ok (Out cc1 (n_level n) (length cc1) tg mx f1)
    end
  end.

(** simplifyConflictClause (1338-1412) without steps 3 and 5 *)
Definition clearAll (cs : list lit) (f : fl) : fl := fold_left clearSeen cs f.
Definition unmarkAll (E : env) (cs : list lit) (f : fl) : fl := fold_left (fun f c => unmarkLevel f (lv E c)) cs f.
Definition simplifyCC (E : env) (o : opt) (rt : list lit) (c0 : lit) (cs : list lit) (f : fl) : res out :=
  do '(cc, removed, onA) <- ccMinimize E o f c0 cs;
  let f := clearAll removed f in
  let jl := if Nat.ltb 1 (length cc) then lv E (nth 1 cc lit_false) else 0 in
  let '(f, cc) :=
    if Nat.eqb onA 1 && Nat.ltb 0 (o_rev o) then
      let maxN := match o_rev o with 1 => Some 1 | 2 => Some (length cc / 2) | _ => None end in
      let f := markSeen f c0 in
      let '(f, cc) := match revArc E f rt (nth 1 cc lit_false) jl maxN with
                      | Some r => ccResolve E cc r f
                      | None => (f, cc)
                      end in
      (clearSeen f c0, cc)
    else (f, cc) in
  let rep := if Nat.ltb (length cc) (Nat.max (o_compress o) (dl E + 1)) then 0 else o_rep o in
  do r <- finalize E o rep rt cc f;
  Ok (Out (r_cc r) (r_level r) (r_lbd r) (r_tagged r) (r_max r) (unmarkAll E removed (r_fl r))).

Definition analyzeConflict (E : env) (o : opt) (conf : list lit) (f : fl) : res out :=
  do '(p, rt, f1, cs) <- firstUip E conf f;
  simplifyCC E o rt (neg p) cs f1.

(** resolveToCore (1179-1211); [nolearn]: search mode no_learning, in which conflicts have no
    reasons *)
Fixpoint coreLoop (E : env) (rt : list lit) (f : fl) (marked : nat) (out : list lit) : res (fl * list lit) :=
  match marked with
  | O => Ok (f, out)
  | S marked' =>
    match rt with
    | [] => UB
    | p :: rt' =>
      if seen f p then
        if Nat.eqb (lv E p) 0 then UB else
        let f := clearSeen f p in
        match rs E p with
        | Some r => let '(f1, m1) := markAll r f marked' in coreLoop E rt' f1 m1 out
        | None => coreLoop E rt' f marked' (if lit_eqb p (decision E (lv E p)) then out ++ [p] else out)
        end
      else coreLoop E rt' f marked out
    end
  end.
Definition resolveToCore (E : env) (nolearn : bool) (conf : list lit) (f : fl) : res (fl * list lit) :=
  let cc := if nolearn then conf ++ map (decision E) (seq 1 (dl E)) else conf in
  let '(f1, m) := markAll cc f 0 in
  coreLoop E (rev (v_trail E)) f1 m [].
