(** Model of [RuleTransform] (logic_program_types.cpp:43-295, logic_program_types.h:195-215) and of
    [LogicProgram::transformExtended] (logic_program.cpp:1089-1119).

    A program is the list of rules added so far together with the number of the next atom. Spans are
    lists, weights are integers with the checks the code makes. *)
From Coq Require Import List Bool Arith ZArith.
Import ListNotations.
From Verif Require Import Base LpSpec.

(** what a transformation works on: next atom, rules, and [Impl::aux_], which lives as long as the
    [RuleTransform] object *)
Record st := St { t_next : nat; t_out : prog; t_aux : list nat }.
Definition setAux (s : st) (x : list nat) : st := St (t_next s) (t_out s) x.
(** [Impl::newAtom] (70): logic_program.cpp:609-614 *)
Definition newAtom (s : st) : st * nat := (St (S (t_next s)) (t_out s) (t_aux s), t_next s).
(** [Impl::addRule(const Rule&)] (71-75) *)
Definition addRule (s : st) (r : rule) : st := St (t_next s) (t_out s ++ [r]) (t_aux s).
(** [Impl::addRule(Atom_t, const LitSpan&)] (79-81): head 0 stands for no head *)
Definition hd1 (h : nat) : list nat := if h =? 0 then [] else [h].
Definition addNorm (s : st) (h : nat) (ls : list lit) : st := addRule s (Rule false (hd1 h) (Norm ls)).

Inductive strategy := Default | NoAux | AllowAux.
Definition noAux (x : strategy) : bool := match x with NoAux => true | _ => false end.

(** [transformChoice] (140-153); [ls] is [lits_] *)
Fixpoint transformChoice (s : st) (ls : list lit) (hs : list nat) : st :=
  match hs with
  | [] => s
  | h :: r =>
      let '(s, x) := newAtom s in
      let s := addNorm s h (ls ++ [ngt x]) in
      let s := addNorm s x [ngt h] in
      transformChoice s ls r
  end.

(** [transformDisjunction] (157-170): [lits_] first holds the negations of all but the first head
    atom; after each rule the entry of the next head atom is overwritten by the negation of the
    current one *)
Fixpoint shiftLoop (s : st) (ls : list lit) (i : nat) (h : nat) (hs : list nat) : st :=
  let s := addNorm s h ls in
  match hs with
  | [] => s
  | h' :: r => shiftLoop s (firstn i ls ++ ngt h :: skipn (S i) ls) (S i) h' r
  end.
Definition transformDisjunction (s : st) (ls : list lit) (hs : list nat) : res st :=
  match hs with
  | [] => UB
  | h :: r => Ok (shiftLoop s (ls ++ map ngt r) (length ls) h r)
  end.

(** ** sums *)
(** [std::stable_sort] by decreasing weight (175-177) *)
Fixpoint insW (x : lit * Z) (l : list (lit * Z)) : list (lit * Z) :=
  match l with
  | [] => [x]
  | y :: r => if (snd y <=? snd x)%Z then x :: y :: r else y :: insW x r
  end.
Fixpoint sortW (l : list (lit * Z)) : list (lit * Z) :=
  match l with [] => [] | x :: r => insW x (sortW r) end.

(** the loop of [transform] (178-184): weights are cut to the bound, [sumR_[i]] is the sum from
    position [i] on *)
Fixpoint cutSum (bound : Z) (l : list (lit * Z)) : res (list (lit * Z) * list Z * Z) :=
  match l with
  | [] => Ok ([], [], 0%Z)
  | (p, w) :: r =>
      do '(agg, sumR, sum) <- cutSum bound r;
      let w := Z.min w bound in
      let sum := (sum + w)%Z in
      if ((0 <=? w) && (sum <=? int_max))%Z then Ok ((p, w) :: agg, sum :: sumR, sum) else Throws
  end.

Definition lookup {A} (l : list A) (i : nat) : res A := match nth_error l i with Some x => Ok x | None => UB end.
(** [agg_.back()] *)
Definition back {A} (l : list A) : res A := match l with [] => UB | _ => lookup l (length l - 1) end.

(** [transformSelect] (210-232); [stack] is [aux_] and [ls] is [lits_], last element first. [pushing]
    tells whether control is in the inner while loop (216-220, then 221) or in the do-while loop
    (222-228). *)
Fixpoint selLoop (fuel : nat) (agg : list (lit * Z)) (sumR : list Z) (bound : Z) (h : nat)
  (s : st) (pushing : bool) (it : nat) (cw : Z) (ls : list lit) (stack : list nat) : res st :=
  match fuel with
  | 0 => Throws
  | S fuel =>
      if pushing then
        if (cw <? bound)%Z then
          do x <- lookup agg it;
          selLoop fuel agg sumR bound h s true (S it) (cw + snd x)%Z (fst x :: ls) (it :: stack)
        else selLoop fuel agg sumR bound h (addNorm s h (rev ls)) false it cw ls stack
      else
        match stack with
        | [] => Ok (setAux s [])
        | i :: stack =>
            do x <- lookup agg i;
            let cw := (cw - snd x)%Z in
            let it := S i in
            do again <- (if it =? length agg then Ok true else do m <- lookup sumR it; Ok (cw + m <? bound)%Z);
            selLoop fuel agg sumR bound h s (negb again) it cw (tl ls) stack
        end
  end.

Definition item := (nat * Z * nat)%type.
Fixpoint setNth (l : list nat) (i : nat) (x : nat) : list nat :=
  match l, i with
  | [], _ => []
  | _ :: r, 0 => x :: r
  | y :: r, S i => y :: setNth r i x
  end.
(** [getAuxVar] (87-94) *)
Definition getAuxVar (s : st) (todo : list item) (idx : nat) (bound : Z) : res (st * list item * nat) :=
  let k := Z.to_nat (bound - 1) in
  do x <- lookup (t_aux s) k;
  if x =? 0 then
    let '(s, a) := newAtom s in
    Ok (setAux s (setNth (t_aux s) k a), todo ++ [(idx, bound, a)], a)
  else Ok (s, todo, x).
(** [Impl::addRule(Atom_t, bool, uint32, weight_t)] (269-295) *)
Definition addSplit (agg : list (lit * Z)) (sumR : list Z) (s : st) (todo : list item) (h : nat) (add : bool) (bIdx : nat) (bound : Z) : res (st * list item) :=
  do mn <- back agg;
  do maxW <- lookup sumR (S bIdx);
  if (bound <=? 0)%Z then
    do x <- lookup agg bIdx;
    Ok (addNorm s h [fst x], todo)
  else if (maxW - snd mn <? bound)%Z then
    let bIdx := if add then bIdx else S bIdx in
    if (bound <=? maxW)%Z then Ok (addNorm s h (map fst (skipn bIdx agg)), todo) else Ok (s, todo)
  else
    do pre <- (if add then do x <- lookup agg bIdx; Ok [fst x] else Ok []);
    do '(s, todo, a) <- getAuxVar s todo (S bIdx) bound;
    Ok (addNorm s h (pre ++ [pos a]), todo).
(** the loop of [transformSplit] (249-264) *)
Fixpoint splitLoop (fuel : nat) (agg : list (lit * Z)) (sumR : list Z) (bound : Z) (s : st) (todo : list item) (level : nat) : res st :=
  match todo with
  | [] => Ok s
  | (idx, b, h) :: todo =>
      match fuel with
      | 0 => Throws
      | S fuel =>
          let '(s, level) := if level <? idx then (setAux s (repeat 0 (Z.to_nat bound)), idx) else (s, level) in
          do x <- lookup agg idx;
          do '(s, todo) <- addSplit agg sumR s todo h true idx (b - snd x)%Z;
          do '(s, todo) <- addSplit agg sumR s todo h false idx b;
          splitLoop fuel agg sumR bound s todo level
      end
  end.
(** [aux_.resize(bound, 0)] (247) *)
Definition resize (l : list nat) (n : nat) : list nat := firstn n l ++ repeat 0 (n - length l).
Definition transformSplit (fuel : nat) (agg : list (lit * Z)) (sumR : list Z) (bound : Z) (s : st) (h : nat) : res st :=
  splitLoop fuel agg sumR bound (setAux s (resize (t_aux s) (Z.to_nat bound))) [(0, bound, h)] 0.

(** [Impl::transform] (172-203) *)
Definition transformSum (fuel : nat) (s : st) (h : nat) (bound : Z) (wl : list (lit * Z)) (x : strategy) : res st :=
  do '(agg, sumR, sum) <- cutSum bound (sortW wl);
  if (sum <? bound)%Z then Ok s
  else if (bound <=? 0)%Z then Ok (addNorm s h [])
  else
    do mn <- back agg;
    if (sum - snd mn <? bound)%Z then Ok (addNorm s h (map fst agg))
    else if noAux x || (match x with Default => (sum <? 6)%Z | _ => false end)
    then selLoop fuel agg sumR bound h (setAux s []) true 0 0%Z [] []
    else transformSplit fuel agg sumR bound s h.

(** [RuleTransform::transform] (106-130) *)
Definition transform (fuel : nat) (s : st) (r : rule) (x : strategy) : res st :=
  match r_body r with
  | Agg bound wl =>
      let aux := r_choice r || (1 <? length (r_head r)) in
      if aux then
        let '(s, h) := newAtom s in
        transformSum fuel (addRule s (Rule (r_choice r) (r_head r) (Norm [pos h]))) h bound wl x
      else transformSum fuel s (match r_head r with h :: _ => h | [] => 0 end) bound wl x
  | Norm cond =>
      if (if r_choice r then 0 else 1) <? length (r_head r) then
        if (1 <? length cond) && (1 <? length (r_head r)) && negb (noAux x) then
          let '(s, b) := newAtom s in
          let s := addNorm s b cond in
          if r_choice r then Ok (transformChoice s [pos b] (r_head r)) else transformDisjunction s [pos b] (r_head r)
        else if r_choice r then Ok (transformChoice s cond (r_head r)) else transformDisjunction s cond (r_head r)
      else Ok (addRule s r)
  end.

(** ** Which rules are translated (logic_program.cpp:1058-1087, 785-830, 1089-1119)
    [isCount] tells whether a sum carries the tag [Body_t::Count]. [small] is the size test of
    [transformNoAux] (bound 1, or at most 6 literals and 15 combinations); any test will do. Rules
    are added without the simplification [simplifyRule] makes (SrModel). *)
Inductive ermode := MNative | MTransform | MChoice | MCard | MWeight | MScc | MNhcf | MInteg | MDynamic.
Section Ext.
Context (m : ermode) (isCount small : rule -> bool).
Definition isNormal (r : rule) : bool := match r_body r with Norm _ => true | _ => false end.
(** [transformNoAux] (1085-1087) *)
Definition transformNoAux (r : rule) : bool := negb (r_choice r) && negb (isNormal r) && small r.
(** [handleNatively] (1058-1083) *)
Definition handleNatively (r : rule) : bool :=
  if isNormal r && negb (r_choice r) then true
  else match m with
       | MNative | MInteg | MScc | MNhcf => true
       | MTransform => false
       | MDynamic => isNormal r || negb (transformNoAux r)
       | MChoice => negb (r_choice r)
       | MCard => negb (isCount r)
       | MWeight => isNormal r
       end.
(** one rule of [transformExtended] (1092-1116) *)
Definition extendedOne (fuel : nat) (s : st) (r : rule) : res st :=
  if isNormal r || (negb (r_choice r) && (length (r_head r) <? 2)) then transform fuel s r Default
  else
    let '(s, aux) := newAtom s in
    let rAux1 := Rule false [aux] (r_body r) in
    let rAux2 := Rule (r_choice r) (r_head r) (Norm [pos aux]) in
    do s <- (if handleNatively rAux1 then Ok (addRule s rAux1)
             else transform fuel s rAux1 (if transformNoAux rAux1 then NoAux else Default));
    if handleNatively rAux2 then Ok (addRule s rAux2) else transform fuel s rAux2 Default.
Fixpoint transformExtended (fuel : nat) (s : st) (ext : list rule) : res st :=
  match ext with
  | [] => Ok s
  | r :: ext => do s <- extendedOne fuel s r; transformExtended fuel s ext
  end.
(** [LogicProgram::addRule] (785-813): a rule is taken as it is, translated at once by a
    transformation object of its own, or kept for later *)
Definition addOne (fuel : nat) (s : st) (ext : list rule) (r : rule) : res (st * list rule) :=
  if handleNatively r then Ok (addRule s r, ext)
  else if (length (r_head r) <=? 1) && transformNoAux r then do s <- transform fuel (setAux s []) r NoAux; Ok (s, ext)
  else Ok (s, ext ++ [r]).
Fixpoint addRules (fuel : nat) (s : st) (ext : list rule) (P : prog) : res (st * list rule) :=
  match P with
  | [] => Ok (s, ext)
  | r :: P => do '(s, ext) <- addOne fuel s ext r; addRules fuel s ext P
  end.
(** a program over atoms below [k] is added and prepared (1089-1119) *)
Definition addProgram (fuel : nat) (k : nat) (P : prog) : res prog :=
  do '(s, ext) <- addRules fuel (St k [] []) [] P;
  do s <- transformExtended fuel (setAux s []) ext;
  Ok (t_out s).
End Ext.
