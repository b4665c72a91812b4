(** Model of [LogicProgram::simplifyRule] (logic_program.cpp:1790-1960): known literals, duplicates and
    contradictions are removed from a rule before it is added.

    Atoms stand for themselves ([a->id()] is the atom: no equivalences have been found yet). The
    hash and the identifier of an existing equal body, which [simplifyRule] computes on the way
    ([meta]), are left out. *)
From Coq Require Import List Bool Arith ZArith.
Import ListNotations.
From Verif Require Import Base LpSpec.

Inductive value := VFree | VTrue | VFalse | VWeak.
(** what is known about atoms: [PrgAtom::value], [relevant], and the sticky flags of [AtomState]
    (logic_program_types.h:218-229) *)
Record known := Kn { k_val : nat -> value; k_rel : nat -> bool; k_fact : nat -> bool; k_false : nat -> bool }.
(** the flags of the active rule ([pos_flag], [neg_flag], [head_flag]) that are set *)
Record marks := Mk { m_body : list lit; m_head : list nat }.
Definition noMarks : marks := Mk [] [].
Definition inBody (m : marks) (p : lit) : bool := existsb (lit_eqb p) (m_body m).
Definition inHead (m : marks) (a : nat) : bool := existsb (Nat.eqb a) (m_head m).
Definition addToBody (m : marks) (p : lit) : marks := Mk (p :: m_body m) (m_head m).
Definition addToHead (m : marks) (a : nat) : marks := Mk (m_body m) (a :: m_head m).
(** [clearRule] (247) *)
Definition clearRule (m : marks) (a : nat) : marks :=
  Mk (filter (fun p => negb (fst p =? a)) (m_body m)) (filter (fun x => negb (x =? a)) (m_head m)).
Definition clearAll (m : marks) (l : list nat) : marks := fold_left clearRule l m.

(** [bodyId] (logic_program.cpp:171) is the bound of atom numbers *)
Section Simp.
Context (bodyId : nat) (K : known).

(** [litVal] (1790-1797) *)
Definition litVal (a : nat) (ps : bool) : value :=
  match k_val K a, k_rel K a with
  | VFree, true => VFree
  | v, r =>
      let vSign := (match v with VFalse => true | _ => false end) || negb r in
      if Bool.eqb vSign ps then VFalse
      else match v with VWeak => VFree | _ => VTrue end
  end.
Definition lvl (p : lit) : value := litVal (fst p) (negb (snd p)).
Definition isV (v w : value) : bool :=
  match v, w with VFree, VFree | VTrue, VTrue | VFalse, VFalse | VWeak, VWeak => true | _, _ => false end.

(** result: the rule, nothing, or an exception *)
Inductive outcome := Keep (r : rule) | Drop | Threw.

(** ** [pushHead] (1927-1954) *)
Definition findW (l : list (lit * Z)) (p : lit) : Z :=
  match find (fun x => lit_eqb p (fst x)) l with Some x => snd x | None => 0%Z end.
(** [wof p] is the weight the test uses for a marked literal *)
Fixpoint headLoop (m : marks) (wof : lit -> Z) (slack : Z) (sat : bool) (out : list nat) (hs : list nat) : marks * bool * list nat :=
  match hs with
  | [] => (m, sat, out)
  | h :: hs =>
      let bp := inBody m (pos h) in
      let bn := inBody m (ngt h) in
      if negb (bp || bn || inHead m h || k_fact K h || k_false K h)
      then headLoop (addToHead m h) wof slack sat (out ++ [h]) hs
      else if negb (k_false K h || inHead m h) then
        let wp := if bp then wof (pos h) else 0%Z in
        let wn := if bn then wof (ngt h) else 0%Z in
        if k_fact K h || (slack <? wp)%Z then headLoop m wof slack true out hs
        else if (wn <=? slack)%Z then headLoop (addToHead m h) wof slack sat (out ++ [h]) hs
        else headLoop m wof slack sat out hs
      else headLoop m wof slack sat out hs
  end.
Definition pushHead (m : marks) (ch : bool) (hs : list nat) (wof : lit -> Z) (slack : Z) : marks * option (list nat) :=
  let '(m, sat, out) := headLoop m wof slack false [] hs in
  let m := clearAll m out in
  (m, if negb sat || (ch && negb (length out =? 0)) then Some out else None).

(** ** [simplifyNormal] (1804-1832) *)
Inductive nres := NOk (m : marks) (out : list lit) | NFalse (m : marks) (out : list lit) | NThrow (m : marks).
Fixpoint normLoop (m : marks) (out : list lit) (ls : list lit) : nres :=
  match ls with
  | [] => NOk m out
  | p :: ls =>
      if negb (fst p <? bodyId) then NThrow m
      else
        let v := lvl p in
        if isV v VFalse || inBody m (neg p) then NFalse m out
        else if negb (isV v VTrue) && negb (inBody m p) then normLoop (addToBody m p) (out ++ [p]) ls
        else normLoop m out ls
  end.
Definition one (_ : lit) : Z := 1%Z.
Definition simplifyNormal (m : marks) (ch : bool) (hs : list nat) (ls : list lit) : marks * outcome :=
  match normLoop m [] ls with
  | NThrow m => (m, Threw)
  | NFalse m out => (clearAll m (map fst out), Drop)
  | NOk m out =>
      let '(m, o) := pushHead m ch hs one 0 in
      (clearAll m (map fst out), match o with Some h => Keep (Rule ch h (Norm out)) | None => Drop end)
  end.

(** ** [simplifySum] (1850-1923) *)
Record acc := Acc { c_bound : Z; c_max : Z; c_min : Z; c_sum : Z; c_dirty : bool; c_out : list (lit * Z) }.
Fixpoint addW (l : list (lit * Z)) (p : lit) (w : Z) : list (lit * Z) :=
  match l with
  | [] => []
  | x :: l => if lit_eqb p (fst x) then (fst x, (snd x + w)%Z) :: l else x :: addW l p w
  end.
(** first loop (1855-1884); [None] is an exception *)
Fixpoint sumLoop (m : marks) (c : acc) (ls : list (lit * Z)) : marks * option acc :=
  match ls with
  | [] => (m, Some c)
  | (p, w) :: ls =>
      if (c_bound c <=? 0)%Z then (m, Some c)
      else if negb ((0 <=? w)%Z && (fst p <? bodyId)) then (m, None)
      else if (w =? 0)%Z then sumLoop m c ls
      else
        match lvl p with
        | VTrue => sumLoop m (Acc (c_bound c - w) (c_max c) (c_min c) (c_sum c) (c_dirty c) (c_out c)) ls
        | VFalse => sumLoop m c ls
        | _ =>
            if (int_max - c_sum c <? w)%Z then (m, None)
            else
              let new := negb (inBody m p) in
              let out := if new then c_out c ++ [(p, w)] else addW (c_out c) p w in
              let w' := if new then w else (findW (c_out c) p + w)%Z in
              let m := if new then addToBody m p else m in
              sumLoop m (Acc (c_bound c) (if (c_max c <? w')%Z then w' else c_max c) (if (w' <? c_min c)%Z then w' else c_min c)
                             (c_sum c + w) (c_dirty c || negb new || inBody m (neg p)) out) ls
        end
  end.
(** second loop (1886-1898): [dn] is the part of the sum already passed *)
Fixpoint cutLoop (m : marks) (bound : Z) (dn : list (lit * Z)) (l : list (lit * Z)) (mx mn sw sr : Z) : list (lit * Z) * Z * Z * Z * Z :=
  match l with
  | [] => (dn, mx, mn, sw, sr)
  | (p, w) :: l =>
      let big := (bound <? w)%Z in
      let sw := if big then (sw - (w - bound))%Z else sw in
      let mx := if big then bound else mx in
      let w := if big then bound else w in
      let mn := if (w <? mn)%Z then w else mn in
      let sr := (sr + w)%Z in
      let sr := if snd p && inBody m (neg p) then (sr - Z.min w (findW (dn ++ (p, w) :: l) (neg p)))%Z else sr in
      cutLoop m bound (dn ++ [(p, w)]) l mx mn sw sr
  end.
(** [RuleBuilder::weaken(Body_t::Count, true)] of libpotassco: all weights, here equal, become 1 and
    the bound is divided, rounding up *)
Definition weakenCount (bound w : Z) (l : list (lit * Z)) : body :=
  if (w =? 1)%Z then Agg bound l else Agg ((bound + (w - 1)) / w) (map (fun x => (fst x, 1%Z)) l).
Definition boundOf (b : body) : Z := match b with Agg x _ => x | _ => 0%Z end.
Definition simplifySum (m : marks) (ch : bool) (hs : list nat) (bound : Z) (wl : list (lit * Z)) : marks * outcome :=
  match sumLoop m (Acc bound 1 int_max 0 false []) wl with
  | (m, None) => (m, Threw)
  | (m, Some c) =>
      let bound := c_bound c in
      let '(out, mx, mn, sw, sr) :=
        if (0 <? bound)%Z && (c_dirty c || (bound <? c_max c)%Z)
        then cutLoop m bound [] (c_out c) (c_max c) int_max (c_sum c) 0
        else (c_out c, c_max c, c_min c, c_sum c, c_sum c) in
      let atoms := map (fun x => fst (fst x)) out in
      if (bound <=? 0)%Z || (sr <? bound)%Z then
        let m := clearAll m atoms in
        if (bound <=? 0)%Z then simplifyNormal m ch hs [] else (m, Drop)
      else if (sw - mn <? bound)%Z then
        let '(m, o) := pushHead m ch hs one 0 in
        (clearAll m atoms, match o with Some h => Keep (Rule ch h (Norm (map fst out))) | None => Drop end)
      else
        let count := (mn =? mx)%Z in
        let b := if count then weakenCount bound mx out else Agg bound out in
        let '(m, o) := pushHead m ch hs (if count then one else findW out) (sw - boundOf b) in
        (clearAll m atoms, match o with Some h => Keep (Rule ch h b) | None => Drop end)
  end.

(** [simplifyRule] (1956-1960) *)
Definition simplifyRule (m : marks) (r : rule) : marks * outcome :=
  match r_body r with
  | Norm ls => simplifyNormal m (r_choice r) (r_head r) ls
  | Agg bound wl => simplifySum m (r_choice r) (r_head r) bound wl
  end.
End Simp.

(** ** Adding rules and what is learned from them (logic_program.cpp:785-813, 972-1052)
    Externals, equivalences, the option noSCC and incremental programs are left out. Values found by
    propagation through bodies that already exist are left out, too: less is learned than in the code. *)
Record pst := Ps { p_known : known; p_ign : nat -> bool (* ignoreScc *); p_conf : bool; p_marks : marks; p_rules : prog }.
Definition setAt {A} (f : nat -> A) (a : nat) (x : A) : nat -> A := fun b => if b =? a then x else f b.
(** [assignValueImpl] (logic_program_types.h:119-126) *)
Definition assignImpl (cur v : value) (noWeak : bool) : option value :=
  let v := if isV v VWeak && noWeak then VTrue else v in
  if isV cur VFree || isV v cur || (isV cur VWeak && isV v VTrue) then Some v
  else if isV v VWeak && isV cur VTrue then Some cur else None.
(** [assignValue] (1039-1053); [fact] tells whether the reason is the true body *)
Definition assignA (s : pst) (a : nat) (v : value) (fact : bool) : pst :=
  let K := p_known s in
  match assignImpl (k_val K a) v (p_ign s a) with
  | None => Ps K (p_ign s) true (p_marks s) (p_rules s)
  | Some v' =>
      Ps (Kn (setAt (k_val K) a v') (k_rel K) (if isV v VTrue && fact then setAt (k_fact K) a true else k_fact K)
             (if isV v VFalse then setAt (k_false K) a true else k_false K))
         (p_ign s) (p_conf s) (p_marks s) (p_rules s)
  end.
(** [addRule(r, meta)] (972-999), [addFact] (1000-1026), [addIntegrity] (1027-1038) *)
Definition learn (s : pst) (r : rule) : pst :=
  let s := Ps (p_known s) (p_ign s) (p_conf s) (p_marks s) (p_rules s ++ [r]) in
  match r_choice r, r_head r, r_body r with
  | false, [], Norm [] => Ps (p_known s) (p_ign s) true (p_marks s) (p_rules s)
  | false, [], Norm [p] => assignA s (fst p) (if snd p then VWeak else VFalse) false
  | false, [a], Norm [] => if k_fact (p_known s) a then s
      else let K := p_known s in
           assignA (Ps (Kn (k_val K) (k_rel K) (setAt (k_fact K) a true) (k_false K)) (setAt (p_ign s) a true) (p_conf s) (p_marks s) (p_rules s)) a VTrue true
  | true, hs, Norm [] => Ps (p_known s) (fun a => p_ign s a || existsb (Nat.eqb a) hs) (p_conf s) (p_marks s) (p_rules s)
  | _, _, _ => s
  end.
(** result: the state, and whether an exception was thrown *)
Definition addSimplified (bodyId : nat) (s : pst) (r : rule) : pst * bool :=
  match simplifyRule bodyId (p_known s) (p_marks s) r with
  | (m, Keep r') => (learn (Ps (p_known s) (p_ign s) (p_conf s) m (p_rules s)) r', false)
  | (m, Drop) => (Ps (p_known s) (p_ign s) (p_conf s) m (p_rules s), false)
  | (m, Threw) => (Ps (p_known s) (p_ign s) (p_conf s) m (p_rules s), true)
  end.
Fixpoint addSimplifiedAll (bodyId : nat) (s : pst) (P : prog) : pst * bool :=
  match P with
  | [] => (s, false)
  | r :: P => let '(s, t) := addSimplified bodyId s r in if t then (s, true) else addSimplifiedAll bodyId s P
  end.
Definition noKnown : known := Kn (fun _ => VFree) (fun _ => true) (fun _ => false) (fun _ => false).
Definition startProgram : pst := Ps noKnown (fun _ => false) false noMarks [].
