(** Model of component-wise shifting, [LogicProgram::finalizeDisjunctions] (logic_program.cpp:1378-1497).

    Atoms carry the number of their strongly connected component, [None] for [PrgNode::noScc]. A
    disjunction is a rule with more than one head atom; its supports are one conjunction [ls] (several
    supports share an atom that [getEqAtomLit] (1963-2007) makes; see C41 for such atoms). Heads that
    are facts or cannot be derived are left out here, [simplifyRule] is treated in SrModel. Of the
    rules added for propagation only (gamma rules, 1464-1477) the ones without an auxiliary atom are
    modelled. *)
From Coq Require Import List Bool Arith.
Import ListNotations.
From Verif Require Import Base LpSpec RtModel.

Section Ds.
Context (sc : nat -> option nat) (noGamma : bool).
Definition sameScc (a b : nat) : bool := match sc a, sc b with Some x, Some y => x =? y | _, _ => false end.
(** one new rule (1432-1442): head atoms of the component stay in the head, the others are negated *)
Definition compRule (h : nat) (others : list nat) (ls : list lit) : rule :=
  Rule false (h :: filter (sameScc h) others) (Norm (ls ++ map ngt (filter (fun o => negb (sameScc h o)) others))).
(** the rule and its gamma rules (1447-1484) *)
Definition gammaRules (h : nat) (others : list nat) (ls : list lit) : prog :=
  let hs := h :: filter (sameScc h) others in
  let b := ls ++ map ngt (filter (fun o => negb (sameScc h o)) others) in
  if (1 <? length hs) && negb noGamma
  then match transformDisjunction (St 0 [] []) b hs with Ok s => t_out s | _ => [] end
  else [].
(** the loop over the head (1427-1487); [flags]: components whose [seen_scc] is set *)
Fixpoint compLoop (flags : list nat) (pre hs : list nat) (ls : list lit) : prog :=
  match hs with
  | [] => []
  | h :: post =>
      let others := pre ++ post in
      match sc h with
      | None => compRule h others ls :: gammaRules h others ls ++ compLoop flags (pre ++ [h]) post ls
      | Some c =>
          if existsb (Nat.eqb c) flags
          then compRule h others ls :: gammaRules h others ls ++ compLoop (filter (fun x => negb (x =? c)) flags) (pre ++ [h]) post ls
          else compLoop flags (pre ++ [h]) post ls
      end
  end.
Definition sccsOf (hs : list nat) : list nat := flat_map (fun h => match sc h with Some c => [c] | None => [] end) hs.
Definition shiftRule (r : rule) : prog :=
  match r_choice r, r_body r with
  | false, Norm ls => if 1 <? length (r_head r) then compLoop (sccsOf (r_head r)) [] (r_head r) ls else [r]
  | _, _ => [r]
  end.
Definition finalizeDisjunctions (P : prog) : prog := flat_map shiftRule P.
End Ds.
