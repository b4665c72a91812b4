(** Model of AcyclicityCheck (/repo/src/dependency_graph.cpp:908-1065) and of ExtDepGraph::attach (838-864).

    Simplifications: the arcs from (to) a node are those of the list with this tail (head), where the code finds them through offsets into
    sorted arrays; a search starts with an empty set of visited nodes, where the code takes a new tag (startSearch, 922-929); visited(n, fwd) in
    the backward search is membership in the set of the forward search, asked after visited(n, tag) as in the code; the clause created by
    prop_full and the stored reason of prop_full_imp are both an entry of the log; propagateUntil is any function that extends the assignment or
    fails; arcs whose literals become true meanwhile are queued (propagate, dependency_graph.h:455-458). *)
From Coq Require Import List Arith Bool.
From Verif Require Import Base AcSpec.
Import ListNotations.

Definition memN (n : nat) (l : list nat) : bool := existsb (Nat.eqb n) l.
Definition memL (p : lit) (l : list lit) : bool := existsb (lit_eqb p) l.
Definition par := nat -> lit * nat.
(** setParent, dependency_graph.h:447 *)
Definition setP (pa : par) (n : nat) (l : lit) (m : nat) : par := fun x => if x =? n then (l, m) else pa x.
(** The loops 998-1003, 1030-1035, 1036-1041: literals of the parents from [n] to [stop]; [None]: more than [k] steps *)
Fixpoint chain (k : nat) (pa : par) (n stop : nat) : option (list lit) :=
  if n =? stop then Some [] else match k with O => None | S k => match chain k pa (snd (pa n)) stop with Some l => Some (fst (pa n) :: l) | None => None end end.

Section Graph.
Variable G : list arc.
(** fwdBegin, fwdNext; invBegin, invNext *)
Definition fwd (n : nat) : list arc := filter (fun a => a_tail a =? n) G.
Definition inv (n : nat) : list arc := filter (fun a => a_head a =? n) G.
Definition size : nat := S (S (length G)).

Inductive scan := Found (pa : par) | Cont (st v : list nat) (pa : par).
(** 992-1011 *)
Fixpoint scanF (s : pasg) (t node : nat) (arcs : list arc) (st v : list nat) (pa : par) : scan :=
  match arcs with
  | [] => Cont st v pa
  | a :: r =>
      if isTrue s (a_lit a) then
        (if a_head a =? t then Found (setP pa t (a_lit a) node)
         else if memN (a_head a) v then scanF s t node r st v pa
         else scanF s t node r (a_head a :: st) (a_head a :: v) (setP pa (a_head a) (a_lit a) node))
      else scanF s t node r st v pa
  end.
Inductive outF := FConf (why : list lit) | FDone (v : list nat) (pa : par) | FErr.
Fixpoint loopF (k : nat) (s : pasg) (root : arc) (st v : list nat) (pa : par) : outF :=
  match st with
  | [] => FDone v pa
  | node :: st => match k with
      | O => FErr
      | S k => match scanF s (a_tail root) node (fwd node) st v pa with
          | Found pa => match chain size pa (a_tail root) (a_head root) with Some l => FConf l | None => FErr end
          | Cont st v pa => loopF k s root st v pa
          end
      end
  end.
(** dfsForward, 985-1014; [FConf why]: force(~root.lit) fails with reason [why] *)
Definition dfsForward (s : pasg) (root : arc) (pa : par) : outF := loopF size s root [a_head root] [a_head root] pa.

Variable top : lit -> bool. (* literals true on level 0 *)
Variable prop : pasg -> option pasg. (* propagateUntil *)
(** addClauseLit, 934-942, on the literals before negation *)
Definition addL (why : list lit) (x : lit) : list lit := if top x || memL x why then why else why ++ [x].
Definition set (s : pasg) (x : lit) : pasg := fun v => if v =? fst x then Some (negb (snd x)) else s v.
(** Arcs whose literal became true *)
Definition newly (s s' : pasg) : list arc := filter (fun a => isTrue s' (a_lit a) && negb (isTrue s (a_lit a))) G.
(** Log: literal [x] (of an arc) forced to false because of [why], and the assignment before *)
Definition entryB : Type := (lit * list lit * pasg)%type.
(** The state of a backward search: assignment, queue, log *)
Definition stB : Type := (pasg * list arc * list entryB)%type.
Inductive scanR := BFail (w : stB) | BCont (w : stB) (st v : list nat) (pa : par) | BErr.
(** 1023-1062 *)
Fixpoint scanB (root : arc) (fv : list nat) (node : nat) (arcs : list arc) (w : stB) (st v : list nat) (pa : par) : scanR :=
  match arcs with
  | [] => BCont w st v pa
  | a :: r => let '(s, todo, log) := w in
      if isFalse s (a_lit a) || memN (a_tail a) v then scanB root fv node r w st v pa else
      if memN (a_tail a) fv then
        match chain size pa (a_tail a) (a_head root), chain size pa node (a_tail root) with
        | Some l1, Some l2 =>
            let why := fold_left addL l2 (fold_left addL l1 (addL [] (a_lit root))) in
            let log' := log ++ [(a_lit a, why, s)] in
            if isTrue s (a_lit a) then BFail (s, todo, log') else
            match prop (set s (neg (a_lit a))) with
            | None => BFail (s, todo, log')
            | Some s' => scanB root fv node r (s', todo ++ newly s s', log') st v pa
            end
        | _, _ => BErr
        end
      else if isTrue s (a_lit a) then scanB root fv node r w (a_tail a :: st) (a_tail a :: v) (setP pa (a_tail a) (a_lit a) node)
      else scanB root fv node r w st v pa
  end.
Inductive outB := OFail (w : stB) | ODone (w : stB) (pa : par) | OErr.
Fixpoint loopB (k : nat) (root : arc) (fv : list nat) (w : stB) (st v : list nat) (pa : par) : outB :=
  match st with
  | [] => ODone w pa
  | node :: st => match k with
      | O => OErr
      | S k => match scanB root fv node (inv node) w st v pa with
          | BFail w => OFail w
          | BErr => OErr
          | BCont w st v pa => loopB k root fv w st v pa
          end
      end
  end.
(** dfsBackward, 1015-1065 *)
Definition dfsBackward (root : arc) (fv : list nat) (w : stB) (pa : par) : outB := loopB size root fv w [a_tail root] [a_tail root] pa.

(** propagateFixpoint, 975-984; [full]: strategy is not prop_fwd; [None]: more than [n] arcs *)
Inductive outP := PFail (w : stB) | PDone (s : pasg) (log : list entryB) (pa : par) | PErr.
Fixpoint propagateFixpoint (n : nat) (full : bool) (w : stB) (pa : par) : option outP :=
  let '(s, todo, log) := w in
  match todo with
  | [] => Some (PDone s log pa)
  | x :: todo => match n with
      | O => None
      | S n => match dfsForward s x pa with
          | FConf why => Some (PFail (s, todo, log ++ [(a_lit x, why, s)]))
          | FErr => Some PErr
          | FDone v pa => if full then
              match dfsBackward x v (s, todo, log) pa with
              | OFail w => Some (PFail w)
              | OErr => Some PErr
              | ODone w pa => propagateFixpoint n full w pa
              end
              else propagateFixpoint n full (s, todo, log) pa
          end
      end
  end.
End Graph.

(** A solver with a checker: assignment, queued arcs, and the assignments saved when a level was opened, latest first.
    A level is opened when nothing is queued; going back clears the queue (reset, 944-947). *)
Inductive hist (G : list arc) (full : bool) : pasg -> list arc -> list pasg -> Prop :=
| H0 s : (forall a, In a G -> a_head a = a_tail a -> isFalse s (a_lit a) = true) -> hist G full s (filter (fun a => isTrue s (a_lit a)) G) []
| HAssign s todo L s' : hist G full s todo L -> pext s' s -> hist G full s' (todo ++ newly G s s') L
| HCheck s todo L top prop n log s' log' pa pa' : hist G full s todo L -> (forall s1 s2, prop s1 = Some s2 -> pext s2 s1) ->
    propagateFixpoint G top prop n full (s, todo, log) pa = Some (PDone s' log' pa') -> hist G full s' [] L
| HOpen s L : hist G full s [] L -> hist G full s [] (s :: L)
| HBack s todo L1 s' L2 : hist G full s todo (L1 ++ s' :: L2) -> hist G full s' [] L2.

(** What ExtDepGraph::attach (838-864) sees: top-level assignment, data of the watches of the checker in the list of each literal, queued arcs *)
Definition stW := (pasg * (lit -> list nat) * list arc)%type.
Definition updW (W : lit -> list nat) (p : lit) (l : list nat) : lit -> list nat := fun q => if lit_eqb q p then l else W q.
(** The loop 843-862 over the arcs at indices [i], [i+1], ...; [update]: number of watches that may be set anew instead of added.
    getWatch (solver.cpp:628-635) finds the first watch of the literal. [None]: force failed. *)
Fixpoint attachLoop (i : nat) (arcs : list arc) (update : nat) (w : stW) : option stW :=
  match arcs with
  | [] => Some w
  | a :: r => let '(s, W, todo) := w in
      if negb (a_head a =? a_tail a) then
        match s (fst (a_lit a)) with
        | None => match update, W (a_lit a) with
            | S u, _ :: l => attachLoop (S i) r u (s, updW W (a_lit a) (i :: l), todo)
            | _, l => attachLoop (S i) r update (s, updW W (a_lit a) (l ++ [i]), todo)
            end
        | Some _ => attachLoop (S i) r update (s, W, if isTrue s (a_lit a) then todo ++ [a] else todo)
        end
      else if isFalse s (a_lit a) then attachLoop (S i) r update w
      else if isTrue s (a_lit a) then None
      else attachLoop (S i) r update (set s (neg (a_lit a)), W, todo)
  end.
(** attach, 838-864: [old] arcs were attached before; [same]: the graph was only extended (count == genCnt_) *)
Definition attach (G : list arc) (old : nat) (same : bool) (w : stW) : option stW :=
  attachLoop (if same then old else 0) (skipn (if same then old else 0) G) (if same then 0 else old) w.
(** AcyclicityCheck::propagate (dependency_graph.h:455-458) for every watch of a literal that became true *)
Definition fire (G : list arc) (W : lit -> list nat) (p : lit) : list arc := flat_map (fun i => match nth_error G i with Some a => [a] | None => [] end) (W p).

(** startSearch, 922-929, for counters below [M] (2^32): tags of the nodes and the last tag *)
Definition startSearch (M : nat) (tags : nat -> nat) (cnt : nat) : (nat -> nat) * nat :=
  if S cnt mod M =? 0 then ((fun v => if tags v =? cnt then 1 else 0), 2) else (tags, S cnt mod M).
