(** Model of the SAT preprocessor: src/satelite.cpp, clasp/satelite.h and the base
    class [SatPreprocessor] (clasp/shared_context.h:117-219, src/shared_context.cpp:
    358-548).

    Simplifications, common to the whole file:
    - Everything that is decided by the counters [OccurList::pos/neg], the heap
      [elimHeap_], the queue of candidates for blocked clause elimination, the
      options limiting the effort, and the clock, is decided by an oracle ([world])
      or by a script that lists the variables in the order in which [bceVe] is called.
      Every execution of the code is one of the executions of the model; the only fact
      used about these heuristics is that a frozen variable is never a candidate
      ([updateHeap], satelite.h:130-139).
    - The occurrence lists and watch lists ([ClWList], proved to be a pair of vectors
      in LrThms.v) are lists.
    - [ctx_->master()] is reduced to its trail and the set of eliminated variables; the
      other constraints of the problem take part through [w_prop].
    - The flags [OccurList::dirty] and [OccurList::bce] and the statistics are omitted:
      they do not influence the clauses. *)
From Coq Require Import List Bool Arith ZArith NArith Lia.
Import ListNotations.
From Verif Require Import Base.

(** clasp/literal.h:199-202 *)
Definition lit_true : lit := (0, false).
Definition lit_false : lit := (0, true).

(** Outcomes of everything the model does not compute.
    [w_prop k t]: what the other constraints infer from the trail [t] ([Solver::propagate];
    [None]: a conflict); [w_best]: which literal of a clause occurs least often;
    [w_time]: whether the time limit is reached. *)
Record world := World {
  w_prop : nat -> list lit -> option (list lit);
  w_best : nat -> nat;
  w_time : nat -> bool }.

(** shared_context.h:120-148 [SatPreprocessor::Clause].  The memory of the literals
    [lits_] is [k_lits ++ k_old]: the first [size_] literals, and what is behind them. *)
Record pcl := Pcl { k_lits : list lit; k_old : list lit; k_inq : bool; k_abs : N }.
Definition ksize (c : pcl) : nat := length (k_lits c).
(** shared_context.h:125 [operator[]], which does not look at [size_] *)
Definition kat (c : pcl) (i : nat) : res lit :=
  match nth_error (k_lits c ++ k_old c) i with Some p => Ok p | None => UB end.
(** shared_context.h:123 [abstractLit] *)
Definition abstractLit (p : lit) : N := N.shiftl 1 (N.of_nat ((fst p - 1) mod 64)).
Definition abstr (l : list lit) : N := fold_left (fun a p => N.lor a (abstractLit p)) l 0%N.

(** The state of the preprocessor and of the master solver:
    [s_n]/[s_cls]: [clauses_]; [s_occ]/[s_wat]/[s_lm]: [refs] (left, right) and [litMark] of
    [occurs_]; [s_tr]: the trail; [s_facts]: [facts_]; [s_q]: [queue_] from [qFront_] on;
    [s_elim]: eliminated variables; [s_top]: the list starting at [elimTop_] (flag
    [marked], literals); [s_tick] counts the questions to the oracle. *)
Record st := St {
  s_n : nat; s_cls : nat -> option pcl;
  s_occ : nat -> list (nat * bool); s_wat : nat -> list nat; s_lm : nat -> option bool;
  s_tr : list lit; s_facts : nat; s_q : list nat;
  s_elim : nat -> bool; s_top : list (bool * list lit); s_tick : nat }.

Definition upd {A} (f : nat -> A) (k : nat) (x : A) : nat -> A := fun i => if i =? k then x else f i.

Definition setC s id c := St (s_n s) (upd (s_cls s) id c) (s_occ s) (s_wat s) (s_lm s) (s_tr s) (s_facts s) (s_q s) (s_elim s) (s_top s) (s_tick s).
Definition setOcc s v l := St (s_n s) (s_cls s) (upd (s_occ s) v l) (s_wat s) (s_lm s) (s_tr s) (s_facts s) (s_q s) (s_elim s) (s_top s) (s_tick s).
Definition setWat s v l := St (s_n s) (s_cls s) (s_occ s) (upd (s_wat s) v l) (s_lm s) (s_tr s) (s_facts s) (s_q s) (s_elim s) (s_top s) (s_tick s).
Definition setLm s v m := St (s_n s) (s_cls s) (s_occ s) (s_wat s) (upd (s_lm s) v m) (s_tr s) (s_facts s) (s_q s) (s_elim s) (s_top s) (s_tick s).
Definition setTr s t := St (s_n s) (s_cls s) (s_occ s) (s_wat s) (s_lm s) t (s_facts s) (s_q s) (s_elim s) (s_top s) (s_tick s).
Definition setFacts s k := St (s_n s) (s_cls s) (s_occ s) (s_wat s) (s_lm s) (s_tr s) k (s_q s) (s_elim s) (s_top s) (s_tick s).
Definition setQ s q := St (s_n s) (s_cls s) (s_occ s) (s_wat s) (s_lm s) (s_tr s) (s_facts s) q (s_elim s) (s_top s) (s_tick s).
Definition setElim s v := St (s_n s) (s_cls s) (s_occ s) (s_wat s) (s_lm s) (s_tr s) (s_facts s) (s_q s) (upd (s_elim s) v true) (s_top s) (s_tick s).
Definition setTop s t := St (s_n s) (s_cls s) (s_occ s) (s_wat s) (s_lm s) (s_tr s) (s_facts s) (s_q s) (s_elim s) t (s_tick s).
Definition tick s := St (s_n s) (s_cls s) (s_occ s) (s_wat s) (s_lm s) (s_tr s) (s_facts s) (s_q s) (s_elim s) (s_top s) (S (s_tick s)).

(** shared_context.h:193-194 [clause(id)], and the same followed by a dereference *)
Definition getc (s : st) (id : nat) : res (option pcl) := if id <? s_n s then Ok (s_cls s id) else UB.
Definition deref (s : st) (id : nat) : res pcl :=
  do c <- getc s id; match c with Some c => Ok c | None => UB end.

(** Values of the master solver: variable 0 is true, an eliminated variable has the
    value true (solver_types.h:550-553), all others according to the trail. *)
Definition trailVal (t : list lit) (v : nat) : option bool :=
  match find (fun p => fst p =? v) t with Some p => Some (negb (snd p)) | None => None end.
Definition value (s : st) (v : nat) : option bool :=
  if (v =? 0) || s_elim s v then Some true else trailVal (s_tr s) v.
Definition litVal (s : st) (p : lit) : option bool := option_map (fun b => xorb b (snd p)) (value s (fst p)).
Definition trueL s p := match litVal s p with Some true => true | _ => false end.
Definition falseL s p := match litVal s p with Some false => true | _ => false end.

(** shared_context.cpp:974-978 [SharedContext::addUnary], solver_types.h:559-574
    [Assignment::assign] on decision level 0 *)
Definition force (s : st) (p : lit) : st * bool :=
  match litVal s p with
  | Some b => (s, b)
  | None => (setTr s (s_tr s ++ [p]), true)
  end.
Fixpoint forceAll (s : st) (ps : list lit) : st * bool :=
  match ps with
  | [] => (s, true)
  | p :: r => let '(s, b) := force s p in if b then forceAll s r else (s, false)
  end.
(** [Solver::propagate] for the other constraints *)
Definition propagate (w : world) (s : st) : st * bool :=
  match w_prop w (s_tick s) (s_tr s) with
  | None => (tick s, false)
  | Some ps => forceAll (tick s) ps
  end.

(** satelite.h:96-97 [addWatch], [removeWatch] *)
Fixpoint eraseN (x : nat) (l : list nat) : list nat :=
  match l with [] => [] | y :: r => if y =? x then r else y :: eraseN x r end.
Definition addWatch s v id := setWat s v (s_wat s v ++ [id]).
Definition removeWatch s v id := setWat s v (eraseN id (s_wat s v)).
(** satelite.h:98-110 [add], [remove] (without the counters) *)
Fixpoint eraseL (x : lit) (l : list lit) : list lit :=
  match l with [] => [] | y :: r => if lit_eqb y x then r else y :: eraseL x r end.
Definition addOcc s v x := setOcc s v (s_occ s v ++ [x]).
Definition eraseOcc s v (x : nat * bool) := setOcc s v (eraseL x (s_occ s v)).
(** satelite.h:112-114 [marked], [mark], [unmark] *)
Definition markedL (s : st) (p : lit) : bool :=
  match s_lm s (fst p) with Some b => Bool.eqb b (snd p) | None => false end.
Definition mark s (p : lit) := setLm s (fst p) (Some (snd p)).
Definition unmark s (v : nat) := setLm s v None.
(** satelite.cpp:370-380 [markAll], [unmarkAll] *)
Definition markAll (s : st) (ps : list lit) : st := fold_left mark ps s.
Definition unmarkAll (s : st) (ps : list lit) : st := fold_left (fun s p => unmark s (fst p)) ps s.

(** satelite.cpp:71-77 [addToSubQueue] *)
Definition addToSubQueue (id : nat) (s : st) : res st :=
  do c <- deref s id;
  Ok (if k_inq c then s
      else setC (setQ s (s_q s ++ [id])) id (Some (Pcl (k_lits c) (k_old c) true (k_abs c)))).

(** satelite.cpp:79-97 [attach] *)
Definition attach (id : nat) (s : st) : res st :=
  do c <- deref s id;
  let s := fold_left (fun s p => unmark (addOcc s (fst p) (id, snd p)) (fst p)) (k_lits c) s in
  let c := Pcl (k_lits c) (k_old c) (k_inq c) (abstr (k_lits c)) in
  let s := setC s id (Some c) in
  do x <- kat c 0;
  addToSubQueue id (addWatch s (fst x) id).

(** satelite.cpp:99-108 [detach] (shared_context.h:200-204 [destroyClause]) *)
Definition detach (id : nat) (s : st) : res st :=
  do c <- deref s id;
  do x <- kat c 0;
  Ok (setC (removeWatch s (fst x) id) id None).

(** Exchange of the elements 0 and [i] of an array *)
Fixpoint putAt {A} (l : list A) (k : nat) (x : A) : list A :=
  match l, k with
  | [], _ => []
  | _ :: r, 0 => x :: r
  | y :: r, S k => y :: putAt r k x
  end.
Definition swp {A} (i : nat) (l : list A) : list A :=
  match l, i with
  | h :: t, S k => match nth_error t k with Some x => x :: putAt t k h | None => l end
  | _, _ => l
  end.
(** satelite.cpp:113-125: the position of the literal of [ev] (the last one; 0 if there
    is none), exchanged with position 0 *)
Fixpoint posOf (ev i : nat) (l : list lit) (p : nat) : nat :=
  match l with [] => p | x :: r => posOf ev (S i) r (if fst x =? ev then i else p) end.
Definition toFront (ev : nat) (l : list lit) : list lit := swp (posOf ev 0 l 0) l.

(** satelite.cpp:110-128 [bceVeRemove] (shared_context.h:205-209 [eliminateClause]) *)
Definition bceVeRemove (id : nat) (freeId : bool) (ev : nat) (blocked : bool) (s : st) : res st :=
  do c <- deref s id;
  do x <- kat c 0;
  let s := removeWatch s (fst x) id in
  let s := fold_left (fun s p => if (negb (fst p =? ev)) && freeId
                                 then eraseOcc s (fst p) (id, snd p) else s) (k_lits c) s in
  Ok (setTop (setC s id None) ((blocked, toFront ev (k_lits c)) :: s_top s)).

(** shared_context.cpp:524-531 [Clause::strengthen]: the literals behind [p] move one
    place down, so that the last one stays behind the new end. *)
Fixpoint dropLit (p : lit) (l : list lit) : option (list lit) :=
  match l with
  | [] => None
  | x :: r => if lit_eqb x p then Some r
              else match dropLit p r with Some r => Some (x :: r) | None => None end
  end.
Definition strengthen (c : pcl) (p : lit) : res pcl :=
  match dropLit p (k_lits c) with
  | Some l => Ok (Pcl l (last (k_lits c) p :: k_old c) (k_inq c) (abstr l))
  | None => UB
  end.

(** satelite.cpp:328-346 [strengthenClause] *)
Definition strengthenClause (w : world) (id : nat) (l : lit) (s : st) : res (st * bool) :=
  do c <- deref s id;
  do x <- kat c 0;
  do s <- (if lit_eqb x l
           then do y <- kat c 1; Ok (addWatch (removeWatch s (fst x) id) (fst y) id)
           else Ok s);
  do c <- strengthen c l;
  let s := setC s id (Some c) in
  if ksize c =? 1 then
    do u <- kat c 0;
    do s <- detach id s;
    let '(s, b) := force s u in
    if b then Ok (propagate w s) else Ok (s, false)
  else do s <- addToSubQueue id s; Ok (s, true).

(** satelite.cpp:162-182 [propagateFacts]: the clauses with one variable, and the loop *)
Fixpoint pfClauses (w : world) (l : lit) (cls : list (nat * bool)) (s : st) : res (st * bool) :=
  match cls with
  | [] => Ok (s, true)
  | (id, sg) :: r =>
      do c <- getc s id;
      match c with
      | None => pfClauses w l r s
      | Some _ =>
          if Bool.eqb sg (snd l) then do s <- detach id s; pfClauses w l r s
          else do '(s, b) <- strengthenClause w id (neg l) s;
               if b then pfClauses w l r s else Ok (s, false)
      end
  end.
Definition clearOcc s v := setLm (setWat (setOcc s v []) v []) v None.
Fixpoint propagateFacts (w : world) (n : nat) (s : st) : res (st * bool) :=
  match n with
  | 0 => Throws
  | S n =>
      if s_facts s =? length (s_tr s) then Ok (s, true)
      else match nth_error (s_tr s) (s_facts s) with
           | None => UB
           | Some l =>
               let s := setFacts s (S (s_facts s)) in
               do '(s, b) <- pfClauses w l (s_occ s (fst l)) s;
               if b then propagateFacts w n (mark (clearOcc s (fst l)) (neg l)) else Ok (s, false)
           end
  end.

(** satelite.cpp:247-276 [subsumes]: the two ways to compare *)
Fixpoint subSmall (c other : list lit) (r : lit) : lit :=
  match c with
  | [] => r
  | p :: c =>
      match find (fun q => fst p =? fst q) other with
      | None => lit_false
      | Some q =>
          if Bool.eqb (snd p) (snd q) then subSmall c other r
          else if negb (lit_eqb r lit_true) && negb (lit_eqb r p) then lit_false
          else subSmall c other p
      end
  end.
Fixpoint subBig (s : st) (c : list lit) (r : lit) : lit :=
  match c with
  | [] => r
  | p :: c =>
      match s_lm s (fst p) with
      | None => lit_false
      | Some _ =>
          if markedL s (neg p) then
            if negb (lit_eqb r lit_true) && negb (lit_eqb r p) then lit_false else subBig s c p
          else subBig s c r
      end
  end.
Definition subsumes (s : st) (c other : pcl) (r : lit) : st * lit :=
  if (ksize other <? ksize c) || negb (N.eqb (N.ldiff (k_abs c) (k_abs other)) 0) then (s, lit_false)
  else if (ksize c <? 10) || (ksize other <? 10) then (s, subSmall (k_lits c) (k_lits other) r)
  else let s := markAll s (k_lits other) in
       let r := subBig s (k_lits c) r in
       (unmarkAll s (k_lits other), r).

(** satelite.cpp:207-233: the clauses with the variable of [best].  The list [cls] is
    compacted in place by the code while the loop runs; nothing else reads or writes it
    in the meantime, here the entries kept are collected in [kept]. *)
Fixpoint bsClauses (w : world) (id : nat) (c : pcl) (best : lit) (cls kept : list (nat * bool)) (s : st)
  : res (st * list (nat * bool) * bool) :=
  match cls with
  | [] => Ok (s, kept, true)
  | (oid, sg) :: r =>
      do other <- getc s oid;
      match other with
      | None => bsClauses w id c best r kept s
      | Some other =>
          if oid =? id then bsClauses w id c best r (kept ++ [(oid, sg)]) s
          else
            let '(s, x) := subsumes s c other (if Bool.eqb (snd best) sg then lit_true else best) in
            if lit_eqb x lit_false then bsClauses w id c best r (kept ++ [(oid, sg)]) s
            else if lit_eqb x lit_true then do s <- detach oid s; bsClauses w id c best r kept s
            else
              let x := neg x in
              let s := if fst x =? fst best then s else eraseOcc s (fst x) (oid, snd x) in
              do '(s, b) <- strengthenClause w oid x s;
              if b then
                do o2 <- getc s oid;
                bsClauses w id c best r
                  (if (fst x =? fst best) || match o2 with None => true | Some _ => false end
                   then kept else kept ++ [(oid, sg)]) s
              else Ok (s, kept, false)
      end
  end.
(** satelite.cpp:185-239 [backwardSubsume], [popSubQueue] (63-69) *)
Fixpoint bsQueue (w : world) (n : nat) (s : st) : res (st * bool) :=
  match n with
  | 0 => Throws
  | S n =>
      match s_q s with
      | [] => Ok (s, true)
      | id :: q =>
          let to := w_time w (s_tick s) in
          let s := tick s in
          if to then Ok (setQ s [], true)
          else
            do c <- getc s id;
            match c with
            | None => bsQueue w n (setQ s q)
            | Some c =>
                let c := Pcl (k_lits c) (k_old c) false (k_abs c) in
                let s := setC (setQ s q) id (Some c) in
                do best <- kat c (match ksize c with 0 => 0 | S _ => w_best w (s_tick s) mod ksize c end);
                let s := tick s in
                do '(s, kept, b) <- bsClauses w id c best (s_occ s (fst best)) [] s;
                if b then
                  let s := setOcc s (fst best) kept in
                  do '(s, b) <- propagateFacts w n s;
                  if b then bsQueue w n s else Ok (s, false)
                else Ok (s, false)
            end
      end
  end.
Definition backwardSubsume (w : world) (n : nat) (s : st) : res (st * bool) :=
  do '(s, b) <- propagateFacts w n s;
  if b then bsQueue w n s else Ok (s, false).

(** satelite.cpp:278-282 [findUnmarkedLit]; the loop stops at [size_] or at a literal that
    is not marked, and otherwise runs over the memory of the clause *)
Fixpoint fum (s : st) (size x : nat) (m : list lit) : res nat :=
  if x =? size then Ok x
  else match m with
       | [] => UB
       | p :: m => if markedL s p then fum s size (S x) m else Ok x
       end.
Definition findUnmarkedLit (s : st) (c : pcl) (x : nat) : res nat :=
  fum s (ksize c) x (skipn x (k_lits c ++ k_old c)).

(** satelite.cpp:284-344 [subsumed]: the clauses watching one variable ... *)
Inductive subRes := RSub | RRem | REnd.
Fixpoint subWatch (l : lit) (ws kept : list nat) (str : Z) (s : st)
  : res (st * list nat * Z * subRes) :=
  match ws with
  | [] => Ok (s, kept, str, REnd)
  | w :: r =>
      do c <- deref s w;
      do h <- kat c 0;
      do x <- findUnmarkedLit s c 1;
      if lit_eqb h l then
        if x =? ksize c then Ok (s, kept ++ w :: r, str, RSub)
        else
          let m := swp x (k_lits c ++ k_old c) in
          let c := Pcl (firstn (ksize c) m) (skipn (ksize c) m) (k_inq c) (k_abs c) in
          let s := setC s w (Some c) in
          do h <- kat c 0;
          if fst h =? fst l then UB else (* would change the list that is being traversed *)
          let s := addWatch s (fst h) w in
          match s_lm s (fst h) with
          | None => subWatch l r kept str s
          | Some _ =>
              do y <- findUnmarkedLit s c (S x);
              if y =? ksize c then subWatch l r kept (str + 1)%Z (unmark s (fst h))
              else subWatch l r kept str s
          end
      else if x =? ksize c then Ok (unmark s (fst l), kept ++ w :: r, str, RRem)
      else subWatch l r (kept ++ [w]) str s
  end.
(** ... the literals of the clause ... *)
Fixpoint subLits (cl done : list lit) (str : Z) (s : st) : res (st * list lit * Z * bool) :=
  match cl with
  | [] => Ok (s, done, str, false)
  | l :: r =>
      match s_lm s (fst l) with
      | None => subLits r done (str - 1)%Z s
      | Some _ =>
          do '(s, kept, str, x) <- subWatch l (s_wat s (fst l)) [] str s;
          let s := setWat s (fst l) kept in
          match x with
          | RSub => Ok (s, done ++ cl, str, true)
          | RRem => subLits r done str s
          | REnd => subLits r (done ++ [l]) str s
          end
      end
  end.
(** ... and the removal of literals that were dropped after they were visited; [pre] are
    the literals in front of position [i], [post] those from there on. *)
Fixpoint prune (s : st) (n : nat) (pre post : list lit) (str : Z) : list lit :=
  match n, post with
  | S n, p :: r =>
      match s_lm s (fst p) with
      | None => let post := match r with [] => [] | _ => last r p :: removelast r end in
                if (str - 1 =? 0)%Z then pre ++ post else prune s n pre post (str - 1)%Z
      | Some _ => prune s n (pre ++ [p]) r str
      end
  | _, _ => pre ++ post
  end.
Definition subsumed (cl : list lit) (s : st) : res (st * list lit * bool) :=
  do '(s, cl, str, b) <- subLits cl [] 0%Z s;
  if b then Ok (s, cl, true)
  else Ok (s, (if (0 <? str)%Z then prune s (length cl) [] cl str else cl), false).

(** satelite.cpp:517-530: collecting the literals of one parent ([chk]: the second) *)
Fixpoint arLits (chk : bool) (ls acc : list lit) (s : st) : st * list lit * bool :=
  match ls with
  | [] => (s, acc, false)
  | l :: r =>
      if negb (falseL s l) && negb (chk && markedL s l) then
        if trueL s l then (s, acc, true)
        else arLits chk r (acc ++ [l]) (mark s l)
      else arLits chk r acc s
  end.
(** satelite.cpp:508-551 [addResolvent] *)
Definition addResolvent (w : world) (n : nat) (id : nat) (lhs rhs : list lit) (s : st) : res (st * bool) :=
  let '(s, acc, stop) := arLits false (tl lhs) [] s in
  if stop then Ok (unmarkAll s acc, true)
  else
    let '(s, acc, stop) := arLits true (tl rhs) acc s in
    if stop then Ok (unmarkAll s acc, true)
    else
      do '(s, cl, b) <- subsumed acc s;
      if b then Ok (unmarkAll s cl, true)
      else match cl with
           | [] => Ok (force s lit_false)
           | [u] =>
               let s := unmark s (fst u) in
               let '(s, b) := force s u in
               if b then let '(s, b) := propagate w s in
                         if b then propagateFacts w n s else Ok (s, false)
               else Ok (s, false)
           | _ => if id <? s_n s
                  then do s <- attach id (setC s id (Some (Pcl cl [] false 0%N))); Ok (s, true)
                  else UB
           end.

(** satelite.cpp:495-503 [trivialResolvent] *)
Definition trivialResolvent (s : st) (c2 : list lit) (v : nat) : bool :=
  existsb (fun x => markedL s (neg x) && negb (fst x =? v)) c2.

(** satelite.cpp:350-367 [splitOcc] *)
Fixpoint liveOcc (s : st) (l : list (nat * bool)) : list (nat * bool) :=
  match l with
  | [] => []
  | (id, sg) :: r => match s_cls s id with Some _ => (id, sg) :: liveOcc s r | None => liveOcc s r end
  end.
Definition withSign (sg : bool) (l : list (nat * bool)) : list nat :=
  map fst (filter (fun x => Bool.eqb (snd x) sg) l).

(** satelite.cpp:406-429: one clause [lhs] with [v] (literals [L], its occurrence marks are
    set) against the clauses with [~v].  The flag [marked] of the clauses with [~v] is kept in
    [negs], that of [lhs] in [lm]; outside of [bceVe] all these flags are false. *)
Record bvs := Bvs { b_cnt : nat; b_mm : nat; b_cands : list (list lit * list lit) }.
Fixpoint bvInner (s : st) (v maxCnt bce : nat) (L : list lit) (negs done : list (nat * bool)) (lm : bool) (b : bvs)
  : res (list (nat * bool) * bool * bvs * bool) :=
  match negs with
  | [] => Ok (done, lm, b, false)
  | (j, mk) :: r =>
      do rhs <- deref s j;
      if trivialResolvent s (k_lits rhs) v then bvInner s v maxCnt bce L r (done ++ [(j, mk)]) lm b
      else
        let mm := b_mm b - (if mk then 1 else 0) in
        let cnt := S (b_cnt b) in
        if cnt <=? maxCnt
        then bvInner s v maxCnt bce L r (done ++ [(j, false)]) false
               (Bvs cnt mm (b_cands b ++ [(toFront v L, toFront v (k_lits rhs))]))
        else if mm =? 0 then Ok (done ++ (j, false) :: r, false, Bvs cnt mm (b_cands b), bce =? 0)
        else bvInner s v maxCnt bce L r (done ++ [(j, false)]) false (Bvs cnt mm (b_cands b))
  end.
Fixpoint bvOuter (s : st) (v maxCnt bce : nat) (poss : list nat) (negs : list (nat * bool)) (blocked : list nat) (b : bvs)
  : res (st * list (nat * bool) * list nat * bvs) :=
  match poss with
  | [] => Ok (s, negs, blocked, b)
  | i :: r =>
      do lhs <- deref s i;
      let s := markAll s (k_lits lhs) in
      do '(negs, lm, b, stop) <- bvInner s v maxCnt bce (k_lits lhs) negs [] (negb (bce =? 0)) b;
      let s := unmarkAll s (k_lits lhs) in
      let blocked := if lm then blocked ++ [i] else blocked in
      if stop then Ok (s, negs, blocked, b) else bvOuter s v maxCnt bce r negs blocked b
  end.
(** satelite.cpp:437-443: remove the clauses with [v] or [~v]; the first [cnt] ids are
    going to be used again *)
Fixpoint bvRemove (v : nat) (cls : list (nat * bool)) (cnt : nat) (s : st) : res st :=
  match cls with
  | [] => Ok s
  | (id, _) :: r =>
      do c <- getc s id;
      match c with
      | None => bvRemove v r cnt s
      | Some _ => do s <- bceVeRemove id (0 <? cnt) v false s; bvRemove v r (cnt - 1) s
      end
  end.
(** satelite.cpp:445-451: add the resolvents *)
Fixpoint bvResolve (w : world) (n : nat) (ids : list (nat * bool)) (cands : list (list lit * list lit)) (s : st)
  : res (st * bool) :=
  match cands with
  | [] => Ok (s, true)
  | (c1, c2) :: cr =>
      match ids with
      | [] => UB
      | (id, _) :: ir =>
          do '(s, b) <- addResolvent w n id c1 c2 s;
          if b then bvResolve w n ir cr s else Ok (s, false)
      end
  end.
(** satelite.cpp:458-468: remove blocked clauses *)
Fixpoint bvBlocked (v : nat) (ids : list nat) (s : st) : res st :=
  match ids with
  | [] => Ok s
  | id :: r => do s <- bceVeRemove id false v true s; bvBlocked v r s
  end.
Fixpoint bvBlockedNeg (v : nat) (negs : list (nat * bool)) (mm : nat) (s : st) : res st :=
  match mm with
  | 0 => Ok s
  | S mm' =>
      match negs with
      | [] => UB
      | (id, mk) :: r =>
          do _ <- deref s id;
          if mk then do s <- bceVeRemove id false v true s; bvBlockedNeg v r mm' s
          else bvBlockedNeg v r mm s
      end
  end.

(** Options (solver_strategies.h:537-562): [o_bce] = [bce()], [o_iters]: [limIters != 0];
    [o_frozen]: the frozen variables (fixed while the preprocessor runs). *)
Record opts := Opts { o_bce : nat; o_iters : bool; o_frozen : nat -> bool }.

(** satelite.cpp:386-470 [bceVe].  [useOcc]: called with [maxCnt] = [numOcc()] (489), which is
    the number of clauses containing [v], and otherwise with 0 (480). *)
Definition bceVe (w : world) (o : opts) (n : nat) (v : nat) (useOcc : bool) (s : st) : res (st * bool) :=
  match value s v with
  | Some _ => Ok (s, true)
  | None =>
      let cls := liveOcc s (s_occ s v) in
      let maxCnt := if useOcc then length cls else 0 in
      let s := setOcc s v cls in
      let poss := withSign false cls in
      let full := 1 <? o_bce o in
      let negs := map (fun j => (j, full)) (withSign true cls) in
      let mm := if full then length negs else 0 in
      do '(s, negs, blocked, b) <- bvOuter s v maxCnt (o_bce o) poss negs [] (Bvs 0 mm []);
      do '(s, ok) <-
        (if b_cnt b <=? maxCnt then
           let s := setElim s v in
           do s <- bvRemove v cls (b_cnt b) s;
           do '(s, ok) <- bvResolve w n cls (b_cands b) s;
           if ok then Ok (clearOcc s v, true) else Ok (s, false)
         else
           do s <- bvBlocked v blocked s;
           do s <- bvBlockedNeg v negs (b_mm b) s;
           Ok (s, true));
      if ok then (if o_iters o then Ok (s, true) else backwardSubsume w n s) else Ok (s, false)
  end.

(** satelite.cpp:472-503 [bce], [eliminateVars]: a sequence of calls of [bceVe] for
    variables that are not frozen (satelite.h:130-139) *)
Fixpoint eliminateVars (w : world) (o : opts) (n : nat) (picks : list (nat * bool)) (s : st) : res (st * bool) :=
  match picks with
  | [] => Ok (s, true)
  | (v, useOcc) :: r =>
      if o_frozen o v then eliminateVars w o n r s
      else do '(s, b) <- bceVe w o n v useOcc s;
           if b then eliminateVars w o n r s else Ok (s, false)
  end.
(** satelite.cpp:139-155 [doPreprocess]; a round of the script: whether the loop ends after
    the subsumption, and the calls of [bceVe] otherwise *)
Fixpoint attachAll (ids : list nat) (s : st) : res st :=
  match ids with [] => Ok s | id :: r => do s <- attach id s; attachAll r s end.
Fixpoint rounds (w : world) (o : opts) (n : nat) (script : list (bool * list (nat * bool))) (s : st) : res (st * bool) :=
  match script with
  | [] => Ok (s, true)
  | (brk, picks) :: r =>
      do '(s, b) <- backwardSubsume w n s;
      if negb b then Ok (s, false)
      else if brk then Ok (s, true)
      else do '(s, b) <- eliminateVars w o n picks s;
           if b then rounds w o n r s else Ok (s, false)
  end.
Definition doPreprocess (w : world) (o : opts) (n : nat) (script : list (bool * list (nat * bool))) (s : st) : res (st * bool) :=
  do s <- attachAll (seq 0 (s_n s)) s;
  rounds w o n script s.

(** shared_context.cpp:532-543 [Clause::simplify] *)
Definition freeL s (p : lit) : bool := match litVal s p with None => true | Some _ => false end.
(** the loop over the literals behind the first assigned one: [kept] are [lits_[0..j)] *)
Fixpoint simpTail (s : st) (ls kept : list lit) : list lit + lit :=
  match ls with
  | [] => inl kept
  | p :: r => if trueL s p then inr p
              else simpTail s r (if falseL s p then kept else kept ++ [p])
  end.
Fixpoint simpHead (s : st) (ls pre : list lit) : option (list lit + lit) :=
  match ls with
  | [] => None
  | p :: r => if freeL s p then simpHead s r (pre ++ [p])
              else if trueL s p then Some (inr p)
              else Some (simpTail s r pre)
  end.
(** shared_context.cpp:466-478: simplify one clause; the literal at position 0 then decides.
    Result: the clause is kept, or dropped after position 0 became a unit clause.
    A true literal ends up at position 0; if all literals are false, position 0 holds a false
    literal; the memory behind the remaining literals is what was there before. *)
Definition simpClause (s : st) (ls : list lit) : res (pcl + lit) :=
  match simpHead s ls [] with
  | None => Ok (inl (Pcl ls [] false 0%N))
  | Some (inr p) => Ok (inr p)
  | Some (inl []) => match ls with p :: _ => Ok (inr p) | [] => UB end
  | Some (inl kept) => Ok (inl (Pcl kept (skipn (length kept) ls) false 0%N))
  end.
Fixpoint simpAll (s : st) (cs : list (list lit)) (j : nat) : res (st * bool) :=
  match cs with
  | [] => Ok (s, true)
  | c :: r =>
      do x <- simpClause s c;
      match x with
      | inl k => simpAll (setC (St (S j) (s_cls s) (s_occ s) (s_wat s) (s_lm s) (s_tr s) (s_facts s)
                                  (s_q s) (s_elim s) (s_top s) (s_tick s)) j (Some k)) r (S j)
      | inr p => let '(s, b) := force s p in if b then simpAll s r j else Ok (s, false)
      end
  end.

(** shared_context.cpp:488-497: the clauses handed over to the solver.  An empty clause is a
    conflict, a clause with one literal a fact (solver.cpp:333-338). *)
Fixpoint emit (s : st) (ids : list nat) : st * list (list lit) * bool :=
  match ids with
  | [] => (s, [], true)
  | id :: r =>
      match s_cls s id with
      | None => emit s r
      | Some c =>
          match k_lits c with
          | [] => (s, [], false)
          | [u] => let '(s, b) := force s u in if b then emit s r else (s, [], false)
          | ls => let '(s, out, b) := emit s r in (s, ls :: out, b)
          end
      end
  end.

(** What survives a call of [preprocess]: the trail of the solver, the eliminated variables and
    the stack of removed clauses. *)
Record carry := Carry { y_tr : list lit; y_elim : nat -> bool; y_top : list (bool * list lit); y_tick : nat }.

(** shared_context.cpp:407-500 [preprocess], after the clauses [cs] (with at least two literals)
    and [units] were added (385-396).  [run] tells whether the limits permit preprocessing (464).
    The call [s->simplify()] for the other constraints is omitted.  Result: [None] for a
    conflict, otherwise the clauses the solver receives. *)
Definition preprocess (w : world) (o : opts) (n : nat) (run : bool) (script : list (bool * list (nat * bool)))
    (units : list lit) (cs : list (list lit)) (y : carry) : res (option (carry * list (list lit))) :=
  let s := St 0 (fun _ => None) (fun _ => []) (fun _ => []) (fun _ => None) (y_tr y) 0 [] (y_elim y) (y_top y) (y_tick y) in
  let '(s, b) := forceAll s units in
  if negb b then Ok None else
  let '(s, b) := propagate w s in
  if negb b then Ok None else
  if negb run then
    let s := St (length cs) (fun i => option_map (fun l => Pcl l [] false 0%N) (nth_error cs i))
                (s_occ s) (s_wat s) (s_lm s) (s_tr s) 0 [] (s_elim s) (s_top s) (s_tick s) in
    let '(s, out, b) := emit s (seq 0 (s_n s)) in
    Ok (if b then Some (Carry (s_tr s) (s_elim s) (s_top s) (s_tick s), out) else None)
  else
  do '(s, b) <- simpAll s cs 0;
  if negb b then Ok None else
  let '(s, b) := propagate w s in
  if negb b then Ok None else
  do '(s, b) <- doPreprocess w o n script s;
  if negb b then Ok None else
  let '(s, out, b) := emit s (seq 0 (s_n s)) in
  Ok (if b then Some (Carry (s_tr s) (s_elim s) (s_top s) (s_tick s), out) else None).

(** * Extension of models *)
(** clasp/literal.h:260-270 [trueValue], [falseValue]; values: 0 free, 1 true, 2 false *)
Definition trueValue (p : lit) : nat := if snd p then 2 else 1.
Definition falseValue (p : lit) : nat := if snd p then 1 else 2.
Definition value_eliminated : nat := 4.

(** satelite.cpp:554-602 [doExtendModel], as one loop over the stack: [cur] is the variable
    [last] of the running group and the flag [check].  [x_un]: [unconstr]; [x_uv]: [uv]. *)
Record xst := Xst { x_m : nat -> nat; x_un : list lit; x_uv : nat }.
Definition xStart (us : nat) (mk : bool) (last : nat) (x : xst) : xst * bool :=
  let m := if mk then x_m x else upd (x_m x) last value_eliminated in
  match nth_error (x_un x) (x_uv x) with
  | Some u => if negb (x_uv x =? us) && (fst u =? last)
              then (Xst (upd m last (trueValue u)) (x_un x) (S (x_uv x)), false)
              else (Xst m (x_un x) (x_uv x), true)
  | None => (Xst m (x_un x) (x_uv x), true)
  end.
Definition xClause (c : list lit) (x : xst) (check : bool) : xst * bool :=
  match c with
  | [] => (x, check)
  | p :: r =>
      if negb (x_m x (fst p) =? trueValue p) && check then
        if forallb (fun q => Nat.land (x_m x (fst q)) 3 =? falseValue q) r
        then (Xst (upd (x_m x) (fst p) (trueValue p)) (x_un x) (x_uv x), false)
        else (x, check)
      else (x, check)
  end.
Definition xEnd (cur : option (nat * bool)) (x : xst) : xst :=
  match cur with
  | None => x
  | Some (last, _) =>
      if x_m x last =? value_eliminated
      then Xst (upd (x_m x) last (Nat.lor value_eliminated 1)) (x_un x ++ [pos last]) (x_uv x)
      else x
  end.
Fixpoint xLoop (us : nat) (T : list (bool * list lit)) (cur : option (nat * bool)) (x : xst) : res xst :=
  match T with
  | [] => Ok (xEnd cur x)
  | (mk, c) :: r =>
      match c with
      | [] => UB
      | p :: _ =>
          match cur with
          | Some (last, check) =>
              if fst p =? last
              then let '(x, check) := xClause c x check in xLoop us r (Some (last, check)) x
              else let '(x, check) := xStart us mk (fst p) (xEnd cur x) in
                   let '(x, check) := xClause c x check in xLoop us r (Some (fst p, check)) x
          | None =>
              let '(x, check) := xStart us mk (fst p) x in
              let '(x, check) := xClause c x check in xLoop us r (Some (fst p, check)) x
          end
      end
  end.
Fixpoint xFinal (new : list lit) (m : nat -> nat) : list lit * (nat -> nat) :=
  match new with
  | [] => ([], m)
  | u :: r => if negb (Nat.land (m (fst u)) value_eliminated =? 0)
              then let '(k, m) := xFinal r (upd m (fst u) 1) in (u :: k, m)
              else xFinal r m
  end.
Definition doExtendModel (T : list (bool * list lit)) (m : nat -> nat) (un : list lit) : res ((nat -> nat) * list lit) :=
  match T with
  | [] => Ok (m, un)
  | _ =>
      do x <- xLoop (length un) T None (Xst m un 0);
      let '(k, m) := xFinal (skipn (length un) (x_un x)) (x_m x) in
      Ok (m, firstn (length un) (x_un x) ++ k)
  end.
(** shared_context.cpp:505-515 [extendModel] *)
Fixpoint flipLast (l : list lit) : list lit :=
  match l with [] => [] | [u] => [neg u] | u :: r => u :: flipLast r end.
Fixpoint popNeg (l : list lit) : list lit :=
  match l with
  | [] => []
  | u :: r => match popNeg r with [] => if snd u then [] else [u] | r => u :: r end
  end.
Definition extendModel (T : list (bool * list lit)) (m : nat -> nat) (open : list lit) : res ((nat -> nat) * list lit) :=
  do '(m, un) <- doExtendModel T m (flipLast open);
  Ok (m, popNeg un).
