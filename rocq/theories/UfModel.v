(** Model of DefaultUnfoundedCheck (/repo/src/unfounded_check.cpp, /repo/clasp/unfounded_check.h): detection of unfounded sets with source
    pointers, for normal, choice, cardinality and weight rules.

    Simplifications.  The data of atoms and bodies is kept in separate maps.  A subgoal of an extended body is addressed by its position among
    all subgoals (internal ones first), its weight is looked up there (the code's pred_weight skips the separator by its second argument);
    lower_or_ext holds the counter directly.  Counters are unbounded integers.  A queue is the list of its unread elements.  Disjunctive heads, the minimality check (mini_), incremental
    extension of the graph and statistics are left out: the graph has no sentinel-enclosed heads. *)
From Coq Require Import List Bool Arith ZArith.
From Verif Require Import Base.
Import ListNotations.
Local Open Scope Z_scope.

(** PrgDepGraph (/repo/clasp/dependency_graph.h:130-290). AtomNode: bodies, successors (normal bodies; extended bodies with the atom's
    position). BodyNode: heads, bound of an extended body, predecessors in the same component (with weights), other subgoals of an extended body *)
Record anode := ANode { a_lit : lit; a_scc : nat; a_choice : bool; a_bodies : list nat; a_succs : list nat; a_ext : list (nat * nat) }.
Record bnode := BNode { n_lit : lit; n_scc : nat; n_heads : list nat; n_bound : option Z; n_preds : list (nat * Z); n_exts : list (lit * Z) }.
Record graph := Graph { g_atoms : list anode; g_bodies : list bnode }.
Definition atomOf (g : graph) (x : nat) : anode := nth x (g_atoms g) (ANode (0%nat, true) 0 false [] [] []).
Definition bodyOf (g : graph) (b : nat) : bnode := nth b (g_bodies g) (BNode (0%nat, true) 0 [] None [] []).

(** Events in invalidQ_: watch_source_false, watch_head_false, watch_subgoal_false *)
Inductive ev := EvBody (b : nat) | EvHead (x : nat) | EvSub (b i : nat).
(** AtomData: source, validS, todo, ufs; BodyData: watches, lower; ExtData: lower, flags; the queues todo_, invalidQ_, sourceQ_ *)
Record ck := Ck { k_src : nat -> option nat; k_val : nat -> bool; k_tf : nat -> bool; k_uf : nat -> bool; k_w : nat -> nat; k_low : nat -> Z; k_ws : nat -> nat -> bool;
  k_todo : list nat; k_inv : list ev; k_q : list nat }.
Definition upd {T} (f : nat -> T) (k : nat) (v : T) : nat -> T := fun i => if Nat.eqb i k then v else f i.
Definition setSrc (k : ck) f := Ck f (k_val k) (k_tf k) (k_uf k) (k_w k) (k_low k) (k_ws k) (k_todo k) (k_inv k) (k_q k).
Definition setVal (k : ck) x v := Ck (k_src k) (upd (k_val k) x v) (k_tf k) (k_uf k) (k_w k) (k_low k) (k_ws k) (k_todo k) (k_inv k) (k_q k).
Definition setUf (k : ck) x v := Ck (k_src k) (k_val k) (k_tf k) (upd (k_uf k) x v) (k_w k) (k_low k) (k_ws k) (k_todo k) (k_inv k) (k_q k).
Definition setW (k : ck) b v := Ck (k_src k) (k_val k) (k_tf k) (k_uf k) (upd (k_w k) b v) (k_low k) (k_ws k) (k_todo k) (k_inv k) (k_q k).
Definition setLow (k : ck) b v := Ck (k_src k) (k_val k) (k_tf k) (k_uf k) (k_w k) (upd (k_low k) b v) (k_ws k) (k_todo k) (k_inv k) (k_q k).
Definition setWs (k : ck) b i v := Ck (k_src k) (k_val k) (k_tf k) (k_uf k) (k_w k) (k_low k) (upd (k_ws k) b (upd (k_ws k b) i v)) (k_todo k) (k_inv k) (k_q k).
Definition setTodo (k : ck) tf l := Ck (k_src k) (k_val k) tf (k_uf k) (k_w k) (k_low k) (k_ws k) l (k_inv k) (k_q k).
Definition setInv (k : ck) l := Ck (k_src k) (k_val k) (k_tf k) (k_uf k) (k_w k) (k_low k) (k_ws k) (k_todo k) l (k_q k).
Definition setQ (k : ck) l := Ck (k_src k) (k_val k) (k_tf k) (k_uf k) (k_w k) (k_low k) (k_ws k) (k_todo k) (k_inv k) l.
(** pushTodo (unfounded_check.h:289) *)
Definition pushTodo (x : nat) (k : ck) : ck := if k_tf k x then k else setTodo k (upd (k_tf k) x true) (k_todo k ++ [x]).
Definition srcIs (k : ck) (x b : nat) : bool := match k_src k x with Some c => Nat.eqb c b | None => false end.

Section Uf.
Variable g : graph.
Definition alit (x : nat) : lit := a_lit (atomOf g x).
Definition blit (b : nat) : lit := n_lit (bodyOf g b).
Definition sameScc (b x : nat) : bool := Nat.eqb (n_scc (bodyOf g b)) (a_scc (atomOf g x)).
Definition isExt (b : nat) : bool := match n_bound (bodyOf g b) with Some _ => true | None => false end.
Definition preds (b : nat) : list nat := map fst (n_preds (bodyOf g b)).
(** All subgoals of a body by position (visitBodyLiterals, dependency_graph.h:268-276), and pred_weight *)
Definition goals (b : nat) : list (lit * Z) := map (fun p => (alit (fst p), snd p)) (n_preds (bodyOf g b)) ++ n_exts (bodyOf g b).
Definition wt (b i : nat) : Z := match nth_error (goals b) i with Some e => snd e | None => 0 end.
(** ExtData::addToWs, removeFromWs (unfounded_check.h:116-134) *)
Definition addToWs (b i : nat) (k : ck) : ck := setLow (setWs k b i true) b (k_low k b - wt b i).
Definition removeFromWs (b i : nat) (k : ck) : ck := if k_ws k b i then setLow (setWs k b i false) b (k_low k b + wt b i) else k.

(** updateSource (302-308) *)
Definition updateSource (x b : nat) (k : ck) : ck :=
  let k := match k_src k x with Some c => setW k c (pred (k_w k c)) | None => k end in
  setW (setVal (setSrc k (upd (k_src k) x (Some b))) x true) b (S (k_w k b)).
Section Assignment.
Variable A : pasg.
(** setSource (364-374) *)
Definition setSource (b : nat) (k : ck) (x : nat) : ck :=
  if negb (k_val k x) && negb (isFalse A (alit x)) then let k := updateSource x b k in setQ k (k_q k ++ [x]) else k.
(** forwardSource (331-335) *)
Definition forwardSource (b : nat) (k : ck) : ck := fold_left (setSource b) (n_heads (bodyOf g b)) k.
(** forwardUnsource (338-358) *)
Fixpoint unsourceHeads (b : nat) (add : bool) (hs : list nat) (k : ck) : ck :=
  match hs with
  | [] => k
  | x :: hs =>
    if negb (sameScc b x) then k
    else
      let k := if k_val k x && srcIs k x b then let k := setVal k x false in setQ k (k_q k ++ [x]) else k in
      let k := if add && srcIs k x b then pushTodo x k else k in
      unsourceHeads b add hs k
  end.
Definition forwardUnsource (b : nat) (add : bool) (k : ck) : ck := unsourceHeads b add (n_heads (bodyOf g b)) k.
(** AddSource for normal (unfounded_check.h:222-225) and extended bodies (311-322) *)
Definition addNormal (k : ck) (b : nat) : ck :=
  let k := setLow k b (k_low k b - 1) in
  if (k_low k b =? 0) && negb (isFalse A (blit b)) then forwardSource b k else k.
Definition addExt (k : ck) (e : nat * nat) : ck :=
  let '(b, i) := e in
  let k := if (0 <? k_low k b) || Nat.eqb (k_w k b) 0 then addToWs b i k else k in
  if negb (isFalse A (blit b)) && (k_low k b <=? 0) then forwardSource b k else k.
(** RemoveSource for normal (unfounded_check.h:233-237) and extended bodies (324-333) *)
Definition remNormal (add : bool) (k : ck) (b : nat) : ck :=
  let k := setLow k b (k_low k b + 1) in
  if (k_low k b =? 1) && negb (Nat.eqb (k_w k b) 0) then forwardUnsource b add k else k.
Definition remExt (k : ck) (e : nat * nat) : ck :=
  let '(b, i) := e in
  let k := removeFromWs b i k in
  if (0 <? k_low k b) && negb (Nat.eqb (k_w k b) 0) then forwardUnsource b true k else k.
(** visitSuccessors (dependency_graph.h:165-172) *)
Definition visitAdd (x : nat) (k : ck) : ck := fold_left addExt (a_ext (atomOf g x)) (fold_left addNormal (a_succs (atomOf g x)) k).
Definition visitRem (add : bool) (x : nat) (k : ck) : ck := fold_left remExt (a_ext (atomOf g x)) (fold_left (remNormal add) (a_succs (atomOf g x)) k).
(** propagateSource (286-299); [fuel]: number of iterations *)
Fixpoint propSrc (fuel : nat) (k : ck) : res ck :=
  match k_q k with
  | [] => Ok k
  | x :: q =>
    match fuel with
    | O => UB
    | S fuel => let k := setQ k q in propSrc fuel (if k_val k x then visitAdd x k else visitRem false x k)
    end
  end.
Definition nAtoms : nat := length (g_atoms g).
Definition propagateSource (k : ck) : res ck := propSrc (S nAtoms) k.
(** removeSource (379-391) *)
Definition dropHead (b : nat) (k : ck) (x : nat) : ck :=
  if srcIs k x b then pushTodo x (if k_val k x then let k := setVal k x false in setQ k (k_q k ++ [x]) else k) else k.
Definition removeSource (b : nat) (k : ck) : res ck := propagateSource (fold_left (dropHead b) (n_heads (bodyOf g b)) k).
(** updateAssignment (396-435), one event; [picked]: extended bodies with their flag set *)
Definition procEv (picked : list nat) (e : ev) (k : ck) : res (list nat * ck) :=
  match e with
  | EvBody b => do k <- removeSource b k; Ok (picked, k)
  | EvHead x =>
    match k_src k x with
    | Some b => if k_val k x && negb (isFalse A (blit b)) then do k <- propagateSource (visitRem true x (setVal k x false)); Ok (picked, k) else Ok (picked, k)
    | None => Ok (picked, k)
    end
  | EvSub b i =>
    let k := removeFromWs b i k in
    if (0 <? k_low k b) && negb (Nat.eqb (k_w k b) 0) && negb (existsb (Nat.eqb b) picked) && negb (isFalse A (blit b)) then
      do k <- removeSource b k; Ok (b :: picked, k)
    else Ok (picked, k)
  end.
Fixpoint procEvs (picked : list nat) (l : list ev) (k : ck) : res ck :=
  match l with
  | [] => Ok k
  | e :: l => do '(picked, k) <- procEv picked e k; procEvs picked l k
  end.
Definition updateAssignment (k : ck) : res ck := do k <- procEvs [] (k_inv k) k; Ok (setInv k []).

(** isValidSource (514-545) *)
Definition wsIn (b : nat) (k : ck) (e : nat * nat) : ck :=
  let '(i, x) := e in if k_val k x && negb (k_ws k b i) && negb (isFalse A (alit x)) then addToWs b i k else k.
Definition wsEx (b : nat) (k : ck) (e : nat * lit) : ck :=
  let '(i, l) := e in if negb (isFalse A l) && negb (k_ws k b i) then addToWs b i k else k.
Definition isValidSource (b : nat) (k : ck) : bool * ck :=
  if negb (isExt b) then (k_low k b =? 0, k)
  else
    let k := if 0 <? k_low k b then
      let np := length (preds b) in
      let k := fold_left (wsIn b) (combine (seq 0 np) (preds b)) k in
      fold_left (wsEx b) (combine (seq np (length (n_exts (bodyOf g b)))) (map fst (n_exts (bodyOf g b)))) k
    else k in
    (k_low k b <=? 0, k).
(** addUnsourced (549-556), pushUfs (unfounded_check.h:290) *)
Definition pushUfs (s : list nat * ck) (x : nat) : list nat * ck :=
  let '(q, k) := s in if k_uf k x then (q, k) else (q ++ [x], setUf k x true).
Definition addUnsourced (b : nat) (s : list nat * ck) : list nat * ck :=
  fold_left (fun s x => if negb (k_val (snd s) x) && negb (isFalse A (alit x)) then pushUfs s x else s) (preds b) s.
(** findSource (462-511): the bodies of one head; result: whether a source was found *)
Fixpoint tryBodies (x : nat) (bs : list nat) (s : list nat * ck) : res (bool * (list nat * ck)) :=
  match bs with
  | [] => Ok (false, s)
  | b :: bs =>
    if isFalse A (blit b) then tryBodies x bs s
    else
      let '(ok, k) := if sameScc b x then isValidSource b (snd s) else (true, snd s) in
      if ok then do k <- propagateSource (setSource b (setUf k x false) x); Ok (true, (fst s, k))
      else tryBodies x bs (addUnsourced b (fst s, k))
  end.
(** findSource, the loop: unread part of ufs_, number of elements read, invalidQ_, newSource *)
Fixpoint findLoop (fuel : nat) (s : list nat * ck) (done inv : list nat) (nsrc : nat) : res (ck * list nat * list nat * nat) :=
  match fst s with
  | [] => Ok (snd s, done, inv, nsrc)
  | x :: q =>
    match fuel with
    | O => UB
    | S fuel =>
      if k_val (snd s) x then findLoop fuel (q, setUf (snd s) x false) (done ++ [x]) inv (S nsrc)
      else
        do '(found, s) <- tryBodies x (a_bodies (atomOf g x)) (q, snd s);
        findLoop fuel s (done ++ [x]) (if k_val (snd s) x then inv else inv ++ [x]) (if found then S nsrc else nsrc)
    end
  end.
Definition recheck (s : list nat * ck) (x : nat) : list nat * ck :=
  let '(u, k) := s in let f := negb (k_val k x) in ((if f then u ++ [x] else u), setUf k x f).
Definition findSource (x : nat) (k : ck) : res (list nat * ck) :=
  do '(k, done, inv, nsrc) <- findLoop (S nAtoms) (pushUfs ([], k) x) [] [] 0;
  if Nat.eqb nsrc 0 then Ok (done, k)
  else if Nat.eqb (length done) nsrc then Ok ([], k)
  else Ok (fold_left recheck inv ([], k)).
(** findUfs (437-452): the unfounded set found, empty if there is none *)
Fixpoint todoLoop (fuel : nat) (k : ck) : res (list nat * ck) :=
  match k_todo k with
  | [] => Ok ([], k)
  | x :: t =>
    match fuel with
    | O => UB
    | S fuel =>
      let k := setTodo k (upd (k_tf k) x false) t in
      if negb (k_val k x) && negb (isFalse A (alit x)) then
        do '(u, k) <- findSource x k;
        match u with [] => todoLoop fuel k | _ => Ok (u, k) end
      else todoLoop fuel k
    end
  end.
Definition findUfs (k : ck) : res (list nat * ck) := do k <- updateAssignment k; todoLoop (length (k_todo k)) k.

(** isExternal (658-673): what is left of S *)
Definition inUfs (k : ck) (x : nat) : bool := k_uf k x && negb (isFalse A (alit x)).
Fixpoint extLoop (k : ck) (weights : bool) (ps : list (nat * Z)) (s : Z) : Z :=
  match ps with
  | [] => s
  | (x, w) :: ps => if s <? 0 then s else extLoop k weights ps (if inUfs k x then s - (if weights then w else 1) else s)
  end.
(** AddReasonLit (unfounded_check.h:263-273), addReasonLit (728-737; the order of literals is left out) *)
Definition addReasonLit (r : list lit) (p : lit) : list lit := if existsb (lit_eqb p) r then r else r ++ [p].
Fixpoint addFalse (gs : list (lit * Z)) (s : Z) (r : list lit) : list lit :=
  match gs with
  | [] => r
  | (p, w) :: gs => if isFalse A p && (0 <=? s) then addFalse gs (s - w) (addReasonLit r p) else addFalse gs s r
  end.
Definition slack (b : nat) : Z := fold_right Z.add 0 (map snd (goals b)) - match n_bound (bodyOf g b) with Some n => n | None => 0 end.
(** addIfReason (676-694); [picked]: extended bodies seen *)
Definition addIfReason (k : ck) (uscc : nat) (s : list nat * list lit) (b : nat) : list nat * list lit :=
  let '(picked, r) := s in
  let inF := isFalse A (blit b) in
  if negb (isExt b) || negb (Nat.eqb (n_scc (bodyOf g b)) uscc) then
    if inF && negb (existsb (lit_eqb (blit b)) r) && (negb (Nat.eqb (n_scc (bodyOf g b)) uscc) || (0 <=? extLoop k false (n_preds (bodyOf g b)) 0)) then (picked, addReasonLit r (blit b)) else (picked, r)
  else if negb (existsb (Nat.eqb b) picked) then
    let s := extLoop k true (n_preds (bodyOf g b)) (slack b) in
    (b :: picked, if 0 <=? s then if inF then addReasonLit r (blit b) else addFalse (goals b) s r else r)
  else (picked, r).
(** computeReason (627-655) without finalizeConflictClause *)
Definition computeReason (k : ck) (ufs : list nat) : list lit :=
  match ufs with
  | [] => []
  | x0 :: _ => snd (fold_left (fun s x => if isFalse A (alit x) then s else fold_left (addIfReason k (a_scc (atomOf g x0))) (a_bodies (atomOf g x)) s) ufs ([], []))
  end.

(** init (106-163). initExtBody (179-193), initBody (170-177), initSuccessors (196-205) *)
Definition initWs (b : nat) (k : ck) (e : nat * lit) : ck := let '(i, l) := e in if isFalse A l then k else addToWs b i k.
Definition initBody (k : ck) (b : nat) : ck :=
  let n := bodyOf g b in
  let k := match n_bound n with
           | None => setLow k b (Z.of_nat (length (n_preds n)))
           | Some bd => fold_left (initWs b) (combine (seq (length (preds b)) (length (n_exts n))) (map fst (n_exts n))) (setLow k b bd)
           end in
  if isFalse A (n_lit n) then k
  else fold_left (fun k x => if negb (sameScc b x) || (k_low k b <=? 0) then setSource b k x else k) (n_heads n) k.
Definition empty : ck := Ck (fun _ => None) (fun _ => false) (fun _ => false) (fun _ => false) (fun _ => O) (fun _ => 0) (fun _ _ => false) [] [] [].
Definition init : res ck := propagateSource (fold_left initBody (seq 0 (length (g_bodies g))) empty).
(** ... and the atoms forced to false: those without source *)
Definition unsourced (k : ck) : list nat := filter (fun x => negb (k_val k x)) (seq 0 nAtoms).
End Assignment.
(** propagate (unfounded_check.h:185-192) with the watches added in init: the events of a literal that has become true *)
Definition events (k : ck) (l : lit) : list ev :=
  flat_map (fun b => if lit_eqb (neg (blit b)) l && negb (Nat.eqb (k_w k b) 0) then [EvBody b] else []) (seq 0 (length (g_bodies g))) ++
  flat_map (fun x => if lit_eqb (neg (alit x)) l && a_choice (atomOf g x) then [EvHead x] else []) (seq 0 nAtoms) ++
  flat_map (fun b => if isExt b then flat_map (fun e => if lit_eqb (neg (snd e)) l then [EvSub b (fst e)] else []) (combine (seq 0 (length (goals b))) (map fst (goals b))) else []) (seq 0 (length (g_bodies g))).
End Uf.
(** resetTodo, resetUfs (unfounded_check.h:291-292) *)
Definition resetTodo (k : ck) : ck := setTodo k (fold_left (fun f x => upd f x false) (k_todo k) (k_tf k)) [].
Definition resetUfs (u : list nat) (k : ck) : ck := fold_left (fun k x => setUf k x false) u k.
