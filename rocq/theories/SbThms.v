(** C32: (Max)SAT problems are read with their meaning intact. *)
From Coq Require Import List Bool Arith ZArith Lia.
From Verif Require Import Base WcModel WcSpec SbModel SbSpec SbProofs SbProofs2.
Import ListNotations.

(** For every sequence of calls over the declared variables, every hard weight and every sound solver behind the builder: if the builder
    reports a conflict there is no assignment satisfying the hard part; otherwise the constraints in the solver admit exactly the assignments
    (over the declared variables) that satisfy the hard part, no solution costs less than the original cost, and each assignment satisfying
    the hard part extends to a solution with exactly this cost. *)
Theorem c32_meaning : forall prop n hw ops x y elim pm, soundProp prop -> Forall (inRange n) ops ->
  steps prop (init n hw) ops = Ok x -> endProgram prop pm x = (y, elim) ->
  (b_ok y = false -> forall a : asg, ~ hard hw ops a) /\
  (b_ok y = true -> (forall a : asg, satDb a (b_db y) -> hard hw ops a /\ (cost hw ops a <= wsum a (b_min y))%Z) /\
    (forall a : asg, hard hw ops a -> exists b : asg, agree n a b /\ satDb b (b_db y) /\ wsum b (b_min y) = cost hw ops a)).
Proof.
  intros prop n hw ops x y elim pm SP IR E EE. pose proof (steps_inv prop n hw SP ops [] (init n hw) x (init_inv n hw) IR E) as [I1 I2 I3]. cbn [app] in *.
  unfold endProgram in EE. injection EE as EY _. destruct (b_ok x) eqn:OK.
  2:{ rewrite andb_false_r in EY. subst y. split; [auto|congruence]. }
  destruct (I3 eq_refl) as [ents G]. rewrite andb_true_r in EY.
  assert (R0 : Read x x []). { constructor; auto; [intros a; split; [intros A; split; auto; intros e []|tauto]|apply G|now rewrite app_nil_r|congruence]. }
  destruct (read_all prop n SP ents [] x x (g_ents _ _ _ _ _ G) R0) as [k [K1 K2]]. rewrite <- (g_soft _ _ _ _ _ G) in K1, K2. cbn [app] in K1.
  assert (EQ : y = readSoft prop x RdW (b_soft x)). { destruct (b_soft x) as [|s0 r] eqn:S; cbn [length Nat.eqb negb] in EY; auto. }
  rewrite <- EQ in *. clear EQ EY. destruct K1 as [R1 R2 R3 R4 R5]. destruct (g_rel _ _ _ _ _ G) as [ND _].
  assert (IF : incl (firstn k ents) ents) by (intros e F; rewrite <- (firstn_skipn k ents); apply in_app_iff; auto).
  assert (EX : forall a : asg, hard hw ops a -> satDb (extend n a ents) (b_db y)).
  { intros a H. apply R1. split; [apply (g_db _ _ _ _ _ G); apply (agree_hard n hw a); auto; intros v V; symmetry; now apply ext_agree|]. intros e F. destruct e as [w p|w v cc]; cbn; auto. apply IF in F. rewrite (ext_relax n a ents w v cc); auto; [|apply G].
    rewrite (agree_clause n (extend n a ents) a); [|apply ext_agree|apply (g_ents _ _ _ _ _ G _ F)]. destruct (sat_clause a cc); auto. }
  split; intros OY.
  - intros a H. apply (R4 OY (extend n a ents)). now apply EX.
  - specialize (K2 OY). subst k. rewrite firstn_all in *. split.
    + intros a A. apply R1 in A as [A B]. split; [now apply (g_db _ _ _ _ _ G)|]. rewrite R3, wsum_app, <- (g_cost _ _ _ _ _ G a A). pose proof (soft_lower n a ents (g_ents _ _ _ _ _ G) B). lia.
    + intros a H. exists (extend n a ents). split; [intros v V; symmetry; now apply ext_agree|]. split; auto. rewrite R3, wsum_app, ext_cost; auto; [|apply G].
      assert (HE : hard hw ops (extend n a ents)) by (apply (agree_hard n hw a); auto; intros v V; symmetry; now apply ext_agree).
      rewrite (agree_cost n hw a (extend n a ents)); auto; [|intros v V; symmetry; now apply ext_agree]. rewrite <- (g_cost _ _ _ _ _ G) by now apply (g_db _ _ _ _ _ G). f_equal.
      assert (V : forall l, (forall e, In e l -> entOk n e) -> viol a l = viol (extend n a ents) l); [|apply V, G].
      induction l as [|e l IH]; intros EO; cbn [viol]; auto. rewrite IH by (intros; apply EO; now right). f_equal. specialize (EO e (or_introl eq_refl)). destruct e as [w p|w v cc]; cbn in *.
      * rewrite (agree_holds n (extend n a ents) a); [reflexivity|apply ext_agree|tauto].
      * rewrite (agree_clause n (extend n a ents) a); [reflexivity|apply ext_agree|tauto].
Qed.
Print Assumptions c32_meaning.

(** Variables are only eliminated if their value does not matter: no constraint in the solver, objective or assumption depends on them. *)
Theorem c32_eliminated : forall prop n hw ops x y elim pm, soundProp prop -> Forall (inRange n) ops ->
  steps prop (init n hw) ops = Ok x -> endProgram prop pm x = (y, elim) ->
  forall v, In v elim -> (forall a : asg, satDb a (b_db y) -> satDb (flip a v) (b_db y)) /\
    (forall e : wlit, In e (b_min y) -> fst (fst e) <> v) /\ (forall l : lit, In l (b_assume y) -> fst l <> v).
Proof.
  intros prop n hw ops x y elim pm SP IR E EE v V. pose proof (steps_inv prop n hw SP ops [] (init n hw) x (init_inv n hw) IR E) as [I1 I2 I3]. cbn [app] in *.
  unfold endProgram in EE. injection EE as EY EL. destruct (b_soft x) as [|s0 r] eqn:S; cbn [length Nat.eqb negb andb] in *; [|rewrite orb_true_r, andb_false_r in EL; subst elim; destruct V].
  rewrite EY in EL. subst y. destruct (b_ok x) eqn:OK; [|subst elim; destruct V]. destruct (I3 eq_refl) as [ents G]. rewrite orb_false_r in EL. destruct pm; cbn in EL; subst elim; [destruct V|]. apply filter_In in V as [V1 V2]. apply andb_true_iff in V2 as [V2 V3]. apply Nat.eqb_eq in V2, V3. apply in_seq in V1.
  destruct (g_occ _ _ _ _ _ G) as [O1 O2 O3]. repeat split.
  - intros a A. apply (g_db _ _ _ _ _ G). apply O1; auto; [lia|]. now apply (g_db _ _ _ _ _ G).
  - intros e E' Q. apply (O2 e E'). now rewrite Q.
  - intros l L Q. apply (O3 l L). now rewrite Q.
Qed.
Print Assumptions c32_eliminated.

(** A sound solver: unit clauses *)
Fixpoint units (db : list created) : list lit := match db with [] => [] | CClauses [[l]] :: db => l :: units db | _ :: db => units db end.
Definition unitProp (db : list created) (tr : list lit) : list lit * bool :=
  (tr ++ filter (fun l => negb (existsb (lit_eqb l) tr)) (units db), forallb (fun c => match c with CConflict => false | CClauses [[]] => false | _ => true end) db).
Lemma unit_sound : soundProp unitProp.
Proof.
  intros db tr H. unfold unitProp. cbn [fst snd]. exists (filter (fun l => negb (existsb (lit_eqb l) tr)) (units db)). split; auto. split.
  - intros l L a A. apply in_app_iff in L as [L|L]; [eapply H; eauto|]. apply filter_In in L as [L _]. clear H. induction db as [|c db IH]; [destruct L|].
    assert (A' : satDb a db) by (intros d D; apply A; now right). assert (C : den a c) by (apply A; now left). destruct c as [| |cs|]; cbn in L; auto. destruct cs as [|[|l0 [|l1 c]] [|c2 cs]]; auto. destruct L as [<- |L]; auto. cbn in C. rewrite orb_false_r, andb_true_r in C. exact C.
  - intros F a A. rewrite <- not_true_iff_false in F. apply F. apply forallb_forall. intros c C. apply A in C. destruct c as [| |cs|]; auto. destruct cs as [|[|l0 c] [|c2 cs]]; auto; try discriminate.
Qed.
(** Hard weight 10; a unit, a clause with duplicates and a false literal, a satisfied clause; soft clauses of size 0 (after simplification), 1 and 2; a sum; an objective *)
Definition xOps : list op :=
  [OClause [(1, true)] 10; OClause [(2, false); (1, false); (2, false); (3, false)] 10; OClause [(4, false); (1, true)] 10;
   OClause [(1, false)] 3; OClause [(2, true)] 4; OClause [(2, true); (3, true); (1, false)] 5; OSum [((2, false), 1%Z); ((4, true), 2%Z)] 2; OObj [((3, false), 2%Z)]; OAssume (2, false)].
Example c32_nonvacuous : Forall (inRange 5) xOps /\ soundProp unitProp /\
  (exists x, steps unitProp (init 5 10) xOps = Ok x /\ b_ok (fst (endProgram unitProp false x)) = true /\
    b_min (fst (endProgram unitProp false x)) = [((3, false), 2%Z); ((0, false), 3%Z); ((2, false), 4%Z); ((6, false), 5%Z)] /\
    In (CClauses [[(6, false); (2, true); (3, true)]]) (b_db (fst (endProgram unitProp false x))) /\ In (CClauses [[(2, false); (3, false)]]) (b_db x)) /\
  (exists x, steps unitProp (init 5 10) (firstn 3 xOps) = Ok x /\ snd (endProgram unitProp false x) = [4; 5]).
Proof.
  split; [apply Forall_forall; intros o O; unfold xOps in O; cbn [In] in O; repeat (destruct O as [<- |O]; [cbn; try intros l L; intuition (subst; cbn; lia)|]); destruct O|]. split; [apply unit_sound|]. split.
  - eexists. split; [vm_compute; reflexivity|]. repeat split; try (vm_compute; reflexivity); vm_compute; tauto.
  - eexists. split; vm_compute; reflexivity.
Qed.
Print Assumptions c32_nonvacuous.
