(** The constraints that are handed to the solver for a prepared logic program: the completion.

    Modelled: LogicProgram::addConstraints (logic_program.cpp:1615-1659), toConstraint (197-202),
    PrgBody::addConstraints (logic_program_types.cpp:1285-1305), PrgAtom::addConstraints (637-659),
    PrgNode::trueLit and hasVar (logic_program_types.h:85-99).
    Not modelled: the incremental step literal, atoms thawed in a step, marking variables as frozen,
    input or negative antecedent, adding the dependency graph (UfModel), and the abort once a
    constraint is false at the top level. Nodes that were removed or merged ([relevant] false) are
    taken to be absent. *)
From Coq Require Import List Bool Arith ZArith.
Import ListNotations.
From Verif Require Import Base LpSpec SrModel.

(** Edges from a body to a head, logic_program_types.h:145-185 (PrgEdge; isNormal and isChoice look
    at its bits). *)
Inductive etype := ENormal | EGamma | EChoice | EGammaChoice.
Definition isNormal (t : etype) : bool := match t with ENormal | EGamma => true | _ => false end.

(** A body with its value, its literal, its heads that are atoms and its heads that are disjunctions
    (each with the atoms of that disjunction). PrgBody, logic_program_types.h:381-520. *)
Record pbody := Pb { b_body : body; b_val : value; b_lit : lit; b_heads : list (nat * etype); b_disj : list (list nat) }.
(** The prepared program. An atom's literal and value are given by functions. The supports of an
    atom are not stored but read off the heads of the bodies (addHead and addSupport always add both
    directions, logic_program_types.cpp:418-430, 778-800). *)
Record prep := Pr { p_bodies : list pbody; p_atoms : list nat; p_lit : nat -> lit; p_val : nat -> value; p_noGamma : bool }.

Definition litTrue : lit := pos 0.
(** A node without variable has the literal id 1, i.e. lit_false (logic_program_types.h:67, 85-89). *)
Definition litFalse : lit := ngt 0.
Definition hasVar (l : lit) : bool := negb (lit_eqb l litFalse).

(** Constraints of the solver: a clause, or a literal that is equivalent to a sum reaching a bound. *)
Inductive constr := CClause (c : list lit) | CSum (l : lit) (ws : list (lit * Z)) (bound : Z).

(** PrgNode::trueLit, logic_program_types.h:95-99 *)
Definition trueLit (v : value) (l : lit) : lit :=
  match v with VFree => litTrue | VFalse => neg l | _ => l end.
(** First half of toConstraint, logic_program.cpp:198-200 *)
Definition unitOf (v : value) (l : lit) : list constr :=
  match v with VFree => [] | _ => [CClause [trueLit v l]] end.

Section Program.
Variable pr : prep.

(** The literal of a subgoal: getAtom(it->var())->literal() ^ it->sign(), logic_program_types.cpp:1291 *)
Definition goalLit (g : lit) : lit := xorl (p_lit pr (fst g)) (snd g).

(** Loop over the subgoals of a normal body, logic_program_types.cpp:1290-1297: the flag says whether
    the final clause is a tautology, the first list is that clause, the second the binary clauses. *)
Fixpoint goalsLoop (b : lit) (gs : list lit) : bool * list lit * list constr :=
  match gs with
  | [] => (false, [], [])
  | g :: r =>
    let '(taut, cl, bins) := goalsLoop b r in
    let li := goalLit g in
    if lit_eqb li b then (true, cl, bins)
    else (taut, if fst li =? fst b then cl else neg li :: cl, CClause [neg b; li] :: bins)
  end.

(** PrgBody::addConstraints, logic_program_types.cpp:1285-1305 *)
Definition bodyConstraints (b : pbody) : list constr :=
  match b_body b with
  | Norm gs =>
    let '(taut, cl, bins) := goalsLoop (b_lit b) gs in
    bins ++ (if taut then [] else [CClause (b_lit b :: cl)])
  | Agg bound gs => [CSum (b_lit b) (map (fun x => (goalLit (fst x), snd x)) gs) bound]
  end.

(** Supports of an atom: literal of the supporting body and type of the edge. Supports by
    disjunctions are left out: they add nothing to either kind of clause, since they are of type
    Choice and skipped in the support clause (logic_program_types.cpp:651-652). *)
Definition supports (a : nat) : list (lit * etype) :=
  flat_map (fun b => map (fun h => (b_lit b, snd h)) (filter (fun h => fst h =? a) (b_heads b))) (p_bodies pr).

(** PrgAtom::addConstraints, logic_program_types.cpp:637-659 *)
Definition atomConstraints (a : nat) : list constr :=
  let s := filter (fun x => hasVar (fst x)) (supports a) in
  map (fun x => CClause [p_lit pr a; neg (fst x)]) (filter (fun x => isNormal (snd x)) s)
  ++ [CClause (neg (p_lit pr a) :: map fst s)].

(** Rule clauses of the disjunctions when no shifted rules were added, logic_program.cpp:1628-1637.
    The literal of a disjunction is that of its only body (1458-1460). *)
Definition disjConstraints : list constr :=
  if p_noGamma pr
  then flat_map (fun b => map (fun hs => CClause (neg (b_lit b) :: map (p_lit pr) hs)) (b_disj b)) (p_bodies pr)
  else [].

(** LogicProgram::addConstraints, logic_program.cpp:1615-1659 *)
Definition addConstraints : list constr :=
  CClause [litTrue] :: disjConstraints
  ++ flat_map (fun b => unitOf (b_val b) (b_lit b) ++ bodyConstraints b) (p_bodies pr)
  ++ flat_map (fun a => unitOf (p_val pr a) (p_lit pr a) ++ atomConstraints a) (p_atoms pr).

End Program.
