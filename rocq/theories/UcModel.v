(** Model of core-guided optimisation for one priority level: UncoreMinimize (/repo/src/minimize_constraint.cpp:745-1604).

    Searching is left to the solver: which cores and models it finds is arbitrary as long as they are cores and models (C19,
    C20). What is modelled is what is done with them: the lower bound, the weights of the assumptions, the constraints added for
    a core by the four algorithms, relaxation of cores, preprocessing with disjoint cores, trimming, fixing of literals.

    Simplified: a core is kept with its assumption instead of in a table with a free list (allocCore, 1441-1455); decision levels
    do not occur: a literal is true on level 0, fixed, or not. When a new constraint is in conflict, the code stops early
    and the model goes on with constraints that nothing satisfies. One solver, mode optimize. *)
From Coq Require Import List Bool Arith ZArith.
Import ListNotations.
From Verif Require Import Base UcSpec.
Open Scope Z_scope.

(** Constraints given to the solver: clauses, cardinality constraints, and cardinality constraints with a literal that is
    equivalent to them, or, if not [full], only implied by them (WeightConstraint::create_only_bfb,
    /repo/clasp/weight_constraint.h:95) *)
Inductive con := Cls (c : clause) | Card (ls : list lit) (b : Z) | Tag (full : bool) (w : lit) (ls : list lit) (b : Z).
Definition count (M : asg) (ls : list lit) : Z := Z.of_nat (length (filter (holds M) ls)).
Definition satCon (M : asg) (c : con) : bool :=
  match c with
  | Cls c => sat_clause M c
  | Card ls b => b <=? count M ls
  | Tag full w ls b => if full then Bool.eqb (holds M w) (b <=? count M ls) else holds M w || negb (b <=? count M ls)
  end.

(** Core (minimize_constraint.h:464-472): bound, weight, literals *)
Record core := Core { c_bound : Z; c_weight : Z; c_lits : list lit }.
(** LitData (minimize_constraint.h:452-458) with the literal that is assumed (LitPair in assume_) and its core *)
Record ldat := LD { d_lit : lit; d_w : Z; d_as : bool; d_core : option core }.
(** Constraints added; literals true on level 0; next variable; litData_; lower_; upper_; disj_; cores remembered by
    preprocessing and the core being trimmed (todo_) *)
Record ust := US { cons : list con; top : list lit; nv : nat; dat : list ldat; low : Z; up : Z; disj : bool; todo : list (list nat); shr : option (list nat) }.
(** Options: usc_succinct; the algorithm; whether there are assumptions of others (eRoot_ > 0) *)
Inductive algo := Oll | One | KK (k : nat) | Pmr.
Record opts := Opts { succinct : bool; alg : algo; eroot : bool }.

Definition mem (p : lit) (l : list lit) : bool := existsb (lit_eqb p) l.
Definition setDat (s : ust) (d : list ldat) := US (cons s) (top s) (nv s) d (low s) (up s) (disj s) (todo s) (shr s).
Definition setLow (s : ust) (z : Z) := US (cons s) (top s) (nv s) (dat s) z (up s) (disj s) (todo s) (shr s).
Definition setUp (s : ust) (z : Z) := US (cons s) (top s) (nv s) (dat s) (low s) z (disj s) (todo s) (shr s).
Definition setDisj (s : ust) (b : bool) := US (cons s) (top s) (nv s) (dat s) (low s) (up s) b (todo s) (shr s).
Definition setTodo (s : ust) (t : list (list nat)) := US (cons s) (top s) (nv s) (dat s) (low s) (up s) (disj s) t (shr s).
Definition setShr (s : ust) (o : option (list nat)) := US (cons s) (top s) (nv s) (dat s) (low s) (up s) (disj s) (todo s) o.
Definition addCon (s : ust) (c : con) := US (cons s ++ [c]) (top s) (nv s) (dat s) (low s) (up s) (disj s) (todo s) (shr s).
Definition addTop (s : ust) (p : lit) := US (cons s ++ [Cls [p]]) (p :: top s) (nv s) (dat s) (low s) (up s) (disj s) (todo s) (shr s).

Definition ld0 : ldat := LD (0%nat, true) 0 false None.
Definition getData (s : ust) (i : nat) : ldat := nth i (dat s) ld0.
Fixpoint updNth {T} (l : list T) (i : nat) (x : T) : list T :=
  match l, i with [], _ => [] | _ :: r, O => x :: r | y :: r, S i => y :: updNth r i x end.
Definition setData (s : ust) (i : nat) (d : ldat) : ust := setDat s (updNth (dat s) i d).

(** newLit and newAssumption, minimize_constraint.cpp:928-940 *)
Definition newVar (s : ust) : ust := US (cons s) (top s) (S (nv s)) (dat s) (low s) (up s) (disj s) (todo s) (shr s).
Definition newAssumption (s : ust) (p : lit) (w : Z) (c : option core) : ust := setDat s (dat s ++ [LD p w true c]).

Section Alg.
Variable o : opts.
(** fixLit, 1411-1419: on level 0 unless there are assumptions of others; then it is kept in fix_ and set again *)
Definition fixLit (s : ust) (p : lit) : ust := if eroot o then addCon s (Cls [p]) else addTop s p.

(** WCTemp::add, 1515-1518 *)
Definition tadd (tp : list lit) (t : Z * list lit) (p : lit) : Z * list lit :=
  if mem p tp then (fst t - 1, snd t) else if mem (neg p) tp then t else (fst t, snd t ++ [p]).
Definition tempOf (s : ust) (b : Z) (ls : list lit) : Z * list lit := fold_left (tadd (top s)) ls (b, []).

(** A core that is violated on level 0, 1352-1357: by how much the lower bound is raised; the code multiplies 32-bit numbers *)
Definition raise (b w : Z) : Z := (1 - b) * w.
(** addOllCon, 1349-1373 *)
Definition addOllCon (s : ust) (t : Z * list lit) (w : Z) : ust :=
  let (b, ls) := t in
  let s := if b <=? 0 then setLow s (low s + raise b w) else s in
  let B := if b <=? 0 then 1 else b in
  if Z.of_nat (length ls) <? B then s
  else
    let a := pos (nv s) in
    let s := newAssumption (newVar s) a w (if B =? Z.of_nat (length ls) then None else Some (Core B w ls)) in
    addCon s (Tag (negb (succinct o)) (neg a) ls B).
(** closeCore, 1456-1468: a core that is satisfied on level 0 is destroyed *)
Definition delTag (s : ust) (w : lit) : ust :=
  US (filter (fun c => match c with Tag _ w' _ _ => negb (lit_eqb w w') | _ => true end) (cons s)) (top s) (nv s) (dat s) (low s) (up s) (disj s) (todo s) (shr s).
Definition closeCore (s : ust) (i : nat) (sat : bool) : ust :=
  let d := getData s i in
  let s := setData s i (LD (d_lit d) (d_w d) (d_as d) None) in
  if sat then fixLit (delTag s (neg (d_lit d))) (neg (d_lit d)) else s.
(** Relaxation of a core whose assumption has no weight left, 1223-1238 *)
Definition relax (s : ust) (i : nat) : ust :=
  match d_core (getData s i) with
  | None => s
  | Some c => let t := tempOf s (c_bound c + 1) (c_lits c) in addOllCon (closeCore s i (fst t <=? 1)) t (c_weight c)
  end.
(** First loop of addCore, 1213-1239 *)
Definition coreLit (w : Z) (s : ust) (i : nat) : ust :=
  let d := getData s i in
  if d_w d - w <=? 0 then relax (setData s i (LD (d_lit d) 0 false (d_core d))) i
  else setData s i (LD (d_lit d) (d_w d - w) (d_as d || disj s) (d_core d)).

(** addOll, 1252-1260 *)
Definition addOll (s : ust) (ls : list lit) (w : Z) : ust :=
  let t := tempOf s 2 ls in
  if (0 <? fst t) && (Z.of_nat (length (snd t)) <? fst t)
  then if fst t <? 2 then s else fixLit s (match snd t with p :: _ => p | [] => hd (pos 0) ls end)
  else addOllCon s t w.

(** addPmrCon, 1327-1348 *)
Definition addPmrCon (s : ust) (conj : bool) (h b1 b2 : lit) : ust :=
  let all := [ [xorl (neg h) conj; xorl b1 conj; xorl b2 conj]; [xorl h conj; xorl (neg b1) conj]; [xorl h conj; xorl (neg b2) conj] ] in
  let cs := if succinct o then (if conj then firstn 1 all else skipn 1 all) else all in
  fold_left (fun s c => addCon s (Cls c)) cs s.
(** addPmr, 1309-1326; [r]: the remaining literals from the back *)
Fixpoint pmrLoop (s : ust) (bp : lit) (r : list lit) (w : Z) : ust :=
  match r with
  | [] => s
  | [an] => let cn := pos (nv s) in addPmrCon (newAssumption (newVar s) (neg cn) w None) true cn an bp
  | an :: r =>
    let bn := pos (nv s) in
    let cn := pos (S (nv s)) in
    let s := newAssumption (newVar (newVar s)) (neg cn) w None in
    pmrLoop (addPmrCon (addPmrCon s false bn an bp) true cn an bp) bn r w
  end.
Definition addPmr (s : ust) (ls : list lit) (w : Z) : ust := match rev ls with [] => s | bp :: r => pmrLoop s bp r w end.

(** addK, 1261-1308. [n] new assumptions and the implications from each to the next, from [prev] to the first if there is one *)
Fixpoint kLits (s : ust) (prev : option lit) (n : nat) (w : Z) : ust * list lit :=
  match n with
  | O => (s, [])
  | S n =>
    let r := pos (nv s) in
    let s := newAssumption (newVar s) r w None in
    let s := match prev with Some a => addCon s (Cls [neg a; r]) | None => s end in
    let (s', rs) := kLits s (Some r) n w in
    (s', r :: rs)
  end.
(** One round of the loop: literals in groups of [k]; [cp]: first literal of the group *)
Fixpoint kLoop (fuel k : nat) (s : ust) (cp : lit) (rest : list lit) (w : Z) : ust :=
  match fuel with
  | O => s
  | S f =>
    let connect := (k <? length rest)%nat in
    let n := if connect then k else length rest in
    let grp := firstn n rest in
    let c := pos (nv s) in
    let s1 := if connect then newVar s else s in
    let (s2, rs) := kLits s1 (if connect then Some c else None) n w in
    let t := tempOf s (Z.of_nat n + (if connect then 1 else 0)) (cp :: map neg grp) in
    let s3 := addCon s2 (Card (snd t ++ (if connect then [neg c] else []) ++ map neg rs) (fst t)) in
    match skipn n rest with [] => s3 | rest => kLoop f k s3 c rest w end
  end.
(** Size of the groups, 1263-1266. [x]: number of groups if no size is given; computed with floating point numbers in the code,
    any positive number here *)
Definition groupSize (k x size : nat) : nat :=
  let x := match k with O => x | _ => (size + (k - 1)) / k end%nat in ((size + (x - 1)) / x)%nat.
Definition addK (x k : nat) (s : ust) (ls : list lit) (w : Z) : ust :=
  match ls with
  | [] => s
  | l :: r =>
    let s := kLoop (length r) (groupSize k x (length ls)) s (neg l) r w in
    if succinct o then s else addCon s (Cls ls)
  end.

(** addCore, 1208-1251; the lower bound is raised by the caller if [updateLower] *)
Definition addCore (x : nat) (s : ust) (ids : list nat) (w : Z) : ust :=
  let ls := map (fun i => neg (d_lit (getData s i))) ids in
  let s := fold_left (coreLit w) ids s in
  match ls with
  | [p] => fixLit s p
  | _ => match alg o with Oll => addOll s ls w | One => addK x (length ls) s ls w | KK k => addK x k s ls w | Pmr => addPmr s ls w end
  end.
(** Smallest weight, Todo::add, 1532-1535, and addNext, 1138-1139 *)
Definition minW (s : ust) (ids : list nat) : Z := match ids with [] => 0 | i :: r => fold_left (fun m j => Z.min m (d_w (getData s j))) r (d_w (getData s i)) end.

(** Cores of preprocessing, addNext, 1136-1143 *)
Definition commit (x : nat -> nat) (s : ust) : ust :=
  setDisj (setTodo (fst (fold_left (fun (a : ust * nat) ids => (addCore (x (snd a)) (fst a) ids (minW (fst a) ids), S (snd a))) (todo s) (s, O))) []) false.

(** fixLevel, 1422-1428 *)
Definition fixLevel (s : ust) : ust := fold_left (fun s d => if d_as d then fixLit s (d_lit d) else s) (dat s) s.
End Alg.

(** initLevel, 866-888, for one level: [obj]: literals with their weights on this level; [val]: values on the root level *)
Definition initObj (val : lit -> bool) (obj : list (lit * Z)) (u : Z) (n : nat) (b : bool) : ust :=
  fold_left (fun s (x : lit * Z) =>
    let (p, w) := x in
    if w =? 0 then s
    else
      let s := if w <? 0 then setLow s (low s + w) else s in
      let p' := if w <? 0 then neg p else p in
      let w' := Z.abs w in
      if val p' then setLow s (low s + w') else if val (neg p') then s else newAssumption s (neg p') w' None)
    obj (US [] [] n [] 0 u b [] None).

(** The models of the problem: assignments to the first variables that satisfy it, given by [G] *)
Section Run.
Variables (G : asg -> Prop) (o : opts).
Definition sats (M : asg) (s : ust) : Prop := G M /\ forall c, In c (cons s) -> satCon M c = true.
(** No assignment satisfies all constraints and the assumptions [ids]; every one of them is an assumption *)
Definition isCore (s : ust) (ids : list nat) : Prop :=
  ids <> [] /\ NoDup ids /\ (forall i, In i ids -> (i < length (dat s))%nat /\ d_as (getData s i) = true) /\
  (forall M, sats M s -> exists i, In i ids /\ holds M (d_lit (getData s i)) = false).
Definition active (s : ust) : list ldat := filter d_as (dat s).

(** pushPath (956-1013), handleUnsat (1091-1132), addNext (1133-1165), pushTrim (1469-1505), handleModel (1079-1090).
    [cost]: costs of an assignment on this level; the number: how many cores are turned into constraints *)
Inductive ustep (cost : asg -> Z) : ust -> nat -> ust -> Prop :=
(** a literal follows on level 0 *)
| UTop s p : (forall M, sats M s -> holds M p = true) -> (fst p < nv s)%nat -> ustep cost s 0 (addTop s p)
(** an assumption that costs too much is fixed, 981-989 *)
| UFix s i : shr s = None -> (i < length (dat s))%nat -> d_as (getData s i) = true -> up s - low s < d_w (getData s i) ->
    ustep cost s 0 (let d := getData s i in fixLit o (setData s i (LD (d_lit d) 0 false None)) (d_lit d))
(** a core is found and added, 1096-1122 without preprocessing and trimming; 994-1003 for one assumption *)
| UCore s ids x : shr s = None -> (0 < x)%nat -> isCore s ids -> ustep cost s 1 (addCore o x (setLow s (low s + minW s ids)) ids (minW s ids))
(** preprocessing: a core is found and remembered, 1106-1111 *)
| UDisj s ids : shr s = None -> disj s = true -> isCore s ids ->
    ustep cost s 0 (setTodo (setLow (fold_left (fun s i => let d := getData s i in setData s i (LD (d_lit d) (d_w d) false (d_core d))) ids s) (low s + minW s ids)) (todo s ++ [ids]))
| UCommit s x : shr s = None -> (forall i, (0 < x i)%nat) -> ustep cost s (length (todo s)) (commit o x s)
| UDisjOn s : shr s = None -> todo s = [] -> ustep cost s 0 (setDisj s true)
(** trimming: 1112-1114, 1098-1101, 1469-1511 *)
| UTrim s ids : shr s = None -> disj s = false -> isCore s ids -> ustep cost s 0 (setShr (setLow s (low s + minW s ids)) (Some ids))
| UTrimNext s ids ids' : shr s = Some ids -> isCore s ids' -> ustep cost s 0 (setShr (setLow s (low s - minW s ids + minW s ids')) (Some ids'))
| UTrimAdd s ids x : shr s = Some ids -> (0 < x)%nat -> ustep cost s 1 (addCore o x (setShr s None) ids (minW s ids))
| UTrimStop s ids : shr s = Some ids -> ustep cost s 0 (setShr (setLow s (low s - minW s ids)) None)
(** a model that is not worse than the bound, or a bound from elsewhere that is the cost of a model *)
| UModel s M : G M -> cost M <= up s -> ustep cost s 0 (setUp s (cost M)).
Inductive usteps (cost : asg -> Z) : ust -> nat -> ust -> Prop :=
| URefl s : usteps cost s 0 s
| UTrans s s1 s2 m k : usteps cost s m s1 -> ustep cost s1 k s2 -> usteps cost s (m + k) s2.
End Run.

(** Level after level, most important first: at the end of a level its assumptions are fixed (fixLevel) and the constraints of
    its cores stay; initLevel, 852-926, integrate, 800-851 *)
Inductive lexRun (o : opts) : (asg -> Prop) -> nat -> list (list (lit * Z)) -> (asg -> Prop) -> nat -> Prop :=
| LDone G n : lexRun o G n [] G n
| LLevel G n f r val u b k s G' n' : implied G val -> usteps G o (costOf f) (initObj val f u n b) k s -> todo s = [] -> shr s = None -> low s = up s ->
    lexRun o (fun M => sats G M (fixLevel o s)) (nv s) r G' n' -> lexRun o G n (f :: r) G' n'.

(** The loop of initLevel, 864-911: levels with their bounds; levels without open literals are passed over. [nf]: n; [cn]:
    checkNext. Result: literals fixed, start of the level, and whether the bound is exceeded or everything is decided (next) *)
Fixpoint initLoop (n : nat) (cn : bool) (val : lit -> bool) (lv : list (list (lit * Z) * Z)) (nf next : bool) (fixed : list lit) (s : ust) : list lit * ust * bool :=
  match lv with
  | [] => (fixed, s, next)
  | (f, u) :: r =>
    let s := initObj val f u n false in
    let stop := negb (Nat.eqb (length (dat s)) 0) in
    if nf then
      if up s <? low s then (fixed, s, true)
      else if low s <? up s then (if stop then (fixed, s, false) else initLoop n cn val r false false fixed s)
      else
        let nf' := cn || match r with [] => false | _ => true end in
        let ls := map d_lit (dat s) in
        initLoop n cn (fun p => val p || mem p ls) r nf' nf' (fixed ++ ls) (setDat s [])
    else if stop then (fixed, s, next) else initLoop n cn val r false next fixed s
  end.
