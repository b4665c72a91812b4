(** C33, C34: pseudo-Boolean problems. *)
From Coq Require Import List Bool Arith ZArith Lia.
From Verif Require Import Base WcModel WcSpec SbModel SbSpec SbProofs SbProofs2 SbThms PbModel PbSpec PbProofs PbProofs2 PbProofs3.
Import ListNotations.

(** In every model of the constraints in the solver, the literal returned for a product has the value of the conjunction. For all
    histories of calls (products, hard and soft constraints with or without equality, objectives) and every sound solver. *)
Theorem c33_product : forall prop n m ops evs y, soundProp prop -> psteps prop (pinit n m) ops = Ok (evs, y) ->
  forall (a : asg) lits l, satDb a (p_db (pend prop y)) -> In (PProd lits, l) evs -> (holds a l = true <-> forall x, In x lits -> holds a x = true).
Proof.
  intros prop n m ops evs y SP E a lits l A I. destruct (steps_W prop SP ops _ evs y (pinit_W n m) E) as [WY [_ [_ [_ [_ P]]]]].
  destruct (close_ok prop SP (S (p_max y) - p_aux y) y WY) as [_ [_ C]]. apply (C eq_refl) in A as [A _]. rewrite (P a lits l A I). apply forallb_forall.
Qed.
Print Assumptions c33_product.

(** Two calls for the same set of literals in a history (in any order, with repetitions) return the same literal, if the solver is not in
    conflict and no literal of the product has become assigned on level 0 in between. *)
Theorem c33_shared : forall prop n m ops0 e0 x l1 r1 y ops1 e1 z l2 r2 w, soundProp prop -> psteps prop (pinit n m) ops0 = Ok (e0, x) -> pstep prop x (PProd l1) = Ok (r1, y) ->
  psteps prop y ops1 = Ok (e1, z) -> pstep prop z (PProd l2) = Ok (r2, w) -> p_ok x = true -> p_ok z = true ->
  (forall q, In q l1 <-> In q l2) -> (forall q, In q l1 -> topOf (p_tr x) (fst q) = topOf (p_tr z) (fst q)) -> r1 = r2.
Proof.
  intros prop n m ops0 e0 x l1 r1 y ops1 e1 z l2 r2 w SP E0 E1 E2 E3 OX OZ SL TT.
  destruct (steps_W prop SP ops0 _ e0 x (pinit_W n m) E0) as [WX _]. destruct (step_W prop SP x _ r1 y WX E1) as [WY _]. destruct (steps_W prop SP ops1 y e1 z WY E2) as [WZ _].
  apply (prod_shared prop x l1 r1 y z l2 r2 w); auto. apply (steps_lookup prop SP ops1 y e1 z WY E2).
Qed.
Print Assumptions c33_shared.

(** A builder used for another problem keeps the products of the first one: the literal returned need not be equivalent to the product. *)
Theorem c33_reuse_refuted : exists prop n m ops evs x n' m' lits l y, soundProp prop /\ psteps prop (pinit n m) ops = Ok (evs, x) /\ pstep prop (prestart x n' m') (PProd lits) = Ok (l, y) /\
  exists a : asg, satDb a (p_db y) /\ holds a l = true /\ exists q, In q lits /\ holds a q = false.
Proof.
  exists unitProp, 2, 1, [PProd [(1, false); (2, false)]]. do 2 eexists. exists 3, 1, [(1, false); (2, false)]. do 2 eexists. split; [apply unit_sound|]. split; [vm_compute; reflexivity|]. split; [vm_compute; reflexivity|].
  exists (fun v => negb (Nat.eqb v 1)). split; [|split; [reflexivity|exists (1, false); split; [now left|reflexivity]]]. intros c [<- |[]]. reflexivity.
Qed.
Print Assumptions c33_reuse_refuted.

(** Full claim of C34: for all calls the constraints in the solver admit exactly the assignments in which every hard constraint holds, every
    product literal has the value of its product and every soft constraint's literal tells whether it is satisfied, and in these the
    objective is the sum of the weights of violated soft constraints plus the objectives. Proved for [plain] calls; missing are equalities
    and soft constraints over one literal that are trivially satisfied: for these the claim is refuted below. *)
Theorem c34_meaning_partial : forall prop n m ops evs y, soundProp prop -> Forall plain ops -> psteps prop (pinit n m) ops = Ok (evs, y) ->
  (forall a : asg, satDb a (p_db (pend prop y)) <-> a 0 = true /\ (forall e, In e evs -> evOk a e) /\ forall v, p_aux y <= v <= n + m -> a v = false) /\
  (forall a : asg, satDb a (p_db (pend prop y)) -> wsum a (p_min (pend prop y)) = evsCost a evs).
Proof.
  intros prop n m ops evs y SP PL E. destruct (steps_W prop SP ops _ evs y (pinit_W n m) E) as [WY [_ [MX _]]]. destruct (steps_exact prop SP ops _ evs y (pinit_W n m) PL E) as [X1 X2].
  destruct (close_ok prop SP (S (p_max y) - p_aux y) y WY) as [_ [CM C]]. specialize (C eq_refl). change (closeAux prop (S (p_max y) - p_aux y) y) with (pend prop y) in C, CM. rewrite MX in C. cbn [pinit p_max] in C.
  assert (Z0 : forall a : asg, satDb a (p_db (pinit n m)) <-> a 0 = true). { intros a. cbn [pinit p_db]. rewrite satDb_clause. cbn. unfold holds. cbn. now rewrite orb_false_r, xorb_false_r. }
  split.
  - intros a. rewrite C, X1, Z0. tauto.
  - intros a A. rewrite CM. apply C in A as [A _]. rewrite (X2 a A). cbn. lia.
Qed.
Print Assumptions c34_meaning_partial.

(** Soft constraints and products do not exclude anything: each assignment of the problem variables extends to a model of the solver's
    constraints, unless some hard constraint is violated - where the literals used in it have the values that the earlier calls give them. *)
Theorem c34_hard_unaffected_partial : forall prop n m ops evs y, soundProp prop -> Forall plain ops -> psteps prop (pinit n m) ops = Ok (evs, y) -> scoped [] n evs ->
  forall a : asg, a 0 = true -> exists b : asg, (forall v, v <= n -> a v = b v) /\
    (satDb b (p_db (pend prop y)) \/ exists pre e post, evs = pre ++ e :: post /\ isHard e = true /\ (forall d, In d pre -> evOk b d) /\ ~ evOk b e).
Proof.
  intros prop n m ops evs y SP PL E SC a A. destruct (steps_W prop SP ops _ evs y (pinit_W n m) E) as [WY [AX [MX _]]]. cbn [pinit p_aux] in AX.
  destruct (extend_all prop SP ops n (pinit n m) evs y [] a (pinit_W n m) PL E (pinit_local n m)) as [b [B1 B2]]; cbn [pinit p_aux p_db] in *; auto; [intros v []| |].
  { rewrite satDb_clause. cbn. unfold holds. cbn. now rewrite A. }
  destruct B2 as [[B2 LY]|B2]; [|exists b; split; auto; intros v V; apply B1; lia].
  exists (fun v => if Nat.ltb v (p_aux y) then b v else false). split.
  - intros v V. destruct (Nat.ltb_spec v (p_aux y)); [apply B1; lia|lia].
  - left. destruct (close_ok prop SP (S (p_max y) - p_aux y) y WY) as [_ [_ C]]. apply (C eq_refl). split.
    + apply (LY b); auto. intros v V. destruct (Nat.ltb_spec v (p_aux y)); auto. lia.
    + intros v V. destruct (Nat.ltb_spec v (p_aux y)); auto. lia.
Qed.
Print Assumptions c34_hard_unaffected_partial.

(** A soft constraint over one literal that every assignment satisfies (x1 >= 0) costs its weight in assignments with x1 false. *)
Theorem c34_single_bound_refuted : exists prop n m lits b cw l y, soundProp prop /\ pstep prop (pinit n m) (PCon lits b false cw) = Ok (l, y) /\ (0 < cw)%Z /\
  exists a : asg, satDb a (p_db (pend prop y)) /\ conHolds a lits b false = true /\ wsum a (p_min (pend prop y)) = cw.
Proof.
  exists unitProp, 1, 0, [((1, false), 1%Z)], 0%Z, 3%Z. do 2 eexists. split; [apply unit_sound|]. split; [vm_compute; reflexivity|]. split; [lia|].
  exists (fun v => Nat.eqb v 0). split; [intros c [<- |[]]; reflexivity|split; vm_compute; reflexivity].
Qed.
Print Assumptions c34_single_bound_refuted.
(** A soft equality over one literal is treated as >=: 2 x1 = 1, which no assignment satisfies, costs nothing if x1 is true. *)
Theorem c34_single_eq_refuted : exists prop n m lits b cw l y, soundProp prop /\ pstep prop (pinit n m) (PCon lits b true cw) = Ok (l, y) /\ (0 < cw)%Z /\
  exists a : asg, satDb a (p_db (pend prop y)) /\ conHolds a lits b true = false /\ wsum a (p_min (pend prop y)) = 0%Z.
Proof.
  exists unitProp, 1, 0, [((1, false), 2%Z)], 1%Z, 3%Z. do 2 eexists. split; [apply unit_sound|]. split; [vm_compute; reflexivity|]. split; [lia|].
  exists (fun v => true). split; [intros c [<- |[]]; reflexivity|split; vm_compute; reflexivity].
Qed.
Print Assumptions c34_single_eq_refuted.
(** A soft equality may exclude assignments: x1 + x2 + x3 = 2 has no model with all three true. *)
Theorem c34_eq_excludes_refuted : exists prop n m lits b cw l y, soundProp prop /\ pstep prop (pinit n m) (PCon lits b true cw) = Ok (l, y) /\ (0 < cw)%Z /\
  exists a : asg, a 0 = true /\ forall c : asg, (forall v, v <= n -> a v = c v) -> ~ satDb c (p_db (pend prop y)).
Proof.
  exists unitProp, 3, 1, [((1, false), 1%Z); ((2, false), 1%Z); ((3, false), 1%Z)], 2%Z, 3%Z. do 2 eexists. split; [apply unit_sound|]. split; [vm_compute; reflexivity|]. split; [lia|].
  exists (fun v => true). split; auto. intros c Q SD.
  assert (D1 : den c (CClauses [[(4, false); (1, false)]; [(4, false); (2, false)]; [(4, false); (3, false)]; [(4, true); (1, true); (2, true); (3, true)]])) by (apply SD; vm_compute; tauto).
  assert (D2 : den c (CCon (4, false) (Rep [((1, false), 1%Z); ((2, false), 1%Z); ((3, false), 1%Z)] 2 3))) by (apply SD; vm_compute; tauto).
  cbn in D1, D2. unfold holds in D1, D2. cbn in D1, D2. rewrite <- (Q 1), <- (Q 2), <- (Q 3) in D1, D2 by lia. destruct (c 4); cbn in D1, D2; discriminate.
Qed.
Print Assumptions c34_eq_excludes_refuted.

(** Three problem variables and four auxiliary ones: a product, a hard constraint over it, the product again in another order with
    repetitions, a soft constraint, a soft single literal with a negative weight, an objective *)
Definition xPb : list pop :=
  [PProd [(1, false); (2, true)]; PCon [((4, false), 1%Z); ((3, false), 2%Z)] 1 false 0; PProd [(2, true); (1, false); (2, true)]; PCon [((1, false), 1%Z); ((2, false), 1%Z); ((3, true), 2%Z)] 2 false 5;
   PCon [((3, false), (-2)%Z)] (-1) false 7; PObj [((4, false), 2%Z)]; PProd [(1, false); (1, true)]].
Example c33_nonvacuous : exists evs y, psteps unitProp (pinit 3 4) xPb = Ok (evs, y) /\ Forall plain xPb /\ scoped [] 3 evs /\ soundProp unitProp /\ p_ok y = true /\
  map snd evs = [(4, false); (0, false); (4, false); (5, false); (3, true); (0, false); (0, true)] /\ p_min y = [((5, true), 5%Z); ((3, false), 7%Z); ((4, false), 2%Z)] /\
  satDb (fun v => existsb (Nat.eqb v) [0; 1; 4; 5]) (p_db (pend unitProp y)).
Proof.
  do 2 eexists. split; [vm_compute; reflexivity|]. split; [|split; [|split; [apply unit_sound|split; [reflexivity|split; [reflexivity|split; [reflexivity|]]]]]].
  - apply Forall_forall. intros o O. unfold xPb in O. cbn [In] in O. repeat (destruct O as [<- |O]; [cbn; auto; split; auto; lia|]). destruct O.
  - cbn. repeat split; auto; intros v V; intuition lia.
  - vm_compute. intros c C. repeat (destruct C as [<- |C]; [vm_compute; auto|]); try destruct C.
Qed.
