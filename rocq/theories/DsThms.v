(** C43: splitting disjunctions along the components keeps the answer sets *)
From Coq Require Import List Bool Arith ZArith Lia.
Import ListNotations.
From Verif Require Import Base LpSpec RtModel RtProofs DsModel DsSpec DsProofs.

(** Each disjunction is replaced by one rule per component (head atoms of other components become
    negative body literals) and, unless switched off, by the gamma rules. The program has the same
    answer sets afterwards, over the same atoms. *)
Theorem c43_component_shifting_keeps_answer_sets : forall sc noGamma P M, components P sc -> normalDisj P -> distinctHeads P -> posP P ->
  (forall r h, In r P -> In h (r_head r) -> h <> 0) -> stable P M <-> stable (finalizeDisjunctions sc noGamma P) M.
Proof. intros sc ng P M. apply shift_stable. Qed.
Print Assumptions c43_component_shifting_keeps_answer_sets.

Lemma loop_heads sc ng ls : forall hs pre flags r a b, In r (compLoop sc ng flags pre hs ls) -> In a (r_head r) -> In b (r_head r) -> a <> b -> exists c, sc a = Some c /\ sc b = Some c.
Proof.
  induction hs as [|h hs IH]; intros pre flags r a b I Ia Ib Ne; [destruct I|].
  assert (R : forall fl, In r (compRule sc h (pre ++ hs) ls :: gammaRules sc ng h (pre ++ hs) ls ++ compLoop sc ng fl (pre ++ [h]) hs ls) -> exists c, sc a = Some c /\ sc b = Some c).
  { intros fl [<-|J].
    - assert (X : forall x, In x (h :: filter (sameScc sc h) (pre ++ hs)) -> x = h \/ (sc h = sc x /\ sc h <> None)) by (intros x [<-|K]; [now left|]; apply filter_In in K as [_ K]; right; now apply same_iff).
      cbn [compRule r_head] in Ia, Ib. destruct (X _ Ia) as [->|[A1 A2]], (X _ Ib) as [->|[B1 B2]]; try congruence; (destruct (sc h) as [c|]; [|congruence]); exists c; split; congruence.
    - apply in_app_iff in J as [J|J]; [|now apply (IH _ _ _ _ _ J)]. unfold gammaRules in J. destruct (_ && _); [|destruct J]. destruct (transformDisjunction _ _ _) as [s| |] eqn:E; [|destruct J|destruct J].
      apply transformDisjunction_ok in E. subst s. cbn [t_out app] in J. apply shifted_in in J as (p & x & q & _ & ->). cbn [r_head] in Ia, Ib. unfold hd1 in Ia, Ib. destruct (x =? 0); [destruct Ia|]. destruct Ia as [<-|[]], Ib as [<-|[]]. congruence. }
  cbn [compLoop] in I. destruct (sc h) as [c|]; [destruct (existsb _ _)|]; eauto.
Qed.
(** No disjunction remains whose head atoms belong to different components. *)
Theorem c43_heads_within_components : forall sc noGamma P r a b, normalDisj P -> In r (finalizeDisjunctions sc noGamma P) -> r_choice r = false ->
  In a (r_head r) -> In b (r_head r) -> a <> b -> exists c, sc a = Some c /\ sc b = Some c.
Proof.
  intros sc ng P r a b Hn I C Ia Ib Ne. apply in_flat_map in I as (q & Iq & I). unfold shiftRule in I.
  assert (L : forall x : rule, In a (r_head x) -> In b (r_head x) -> 1 < length (r_head x)).
  { intros x Xa Xb. destruct (r_head x) as [|y [|z l]]; [destruct Xa| |cbn; lia]. destruct Xa as [<-|[]], Xb as [<-|[]]. congruence. }
  destruct (r_choice q) eqn:Cq; [destruct I as [<-|[]]; congruence|]. destruct (r_body q) as [ls|bd ls] eqn:B.
  - destruct (1 <? length (r_head q)) eqn:Lq; [now apply (loop_heads _ _ _ _ _ _ _ _ _ I)|]. destruct I as [<-|[]]. apply Nat.ltb_ge in Lq. specialize (L q Ia Ib). lia.
  - destruct I as [<-|[]]. destruct (Hn q Iq Cq (L q Ia Ib)) as [ls' X]. congruence.
Qed.
Print Assumptions c43_heads_within_components.

(** ** the hypotheses are met *)
Definition headCycle : prog := [Rule false [1; 2; 3] (Norm [ngt 4]); Rule false [1] (Norm [pos 2]); Rule false [2] (Norm [pos 1]); Rule false [5] (Norm [pos 3]); Rule true [4] (Norm [])].
Definition headCycleScc (a : nat) : option nat := if (a =? 1) || (a =? 2) then Some 0 else None.
Example c43_nonvacuous : components headCycle headCycleScc /\ normalDisj headCycle /\ distinctHeads headCycle /\ posP headCycle
  /\ (forall r h, In r headCycle -> In h (r_head r) -> h <> 0)
  /\ finalizeDisjunctions headCycleScc false headCycle =
     [Rule false [1; 2] (Norm [ngt 4; ngt 3]); Rule false [1] (Norm [ngt 4; ngt 3; ngt 2]); Rule false [2] (Norm [ngt 4; ngt 3; ngt 1]);
      Rule false [3] (Norm [ngt 4; ngt 1; ngt 2]); Rule false [1] (Norm [pos 2]); Rule false [2] (Norm [pos 1]); Rule false [5] (Norm [pos 3]); Rule true [4] (Norm [])].
Proof.
  assert (C : forall r, In r headCycle -> r = Rule false [1; 2; 3] (Norm [ngt 4]) \/ r = Rule false [1] (Norm [pos 2]) \/ r = Rule false [2] (Norm [pos 1]) \/ r = Rule false [5] (Norm [pos 3]) \/ r = Rule true [4] (Norm [])) by (intros r X; cbn in X; intuition).
  split; [|split; [|split; [|split; [|split; [|reflexivity]]]]].
  - exists (fun a => if a =? 5 then 1 else 0). split.
    + intros a b. unfold headCycleScc. do 6 (destruct a as [|a]; [do 6 (destruct b as [|b]; [cbn; congruence|]); cbn; congruence|]). cbn. congruence.
    + intros r h b I Ih Ib. destruct (C r I) as [->|[->|[->|[->| ->]]]]; cbn in Ih, Ib; repeat destruct Ih as [<-|Ih]; try destruct Ih; repeat destruct Ib as [<-|Ib]; try destruct Ib; cbn; (now left; lia) || (right; split; congruence).
  - intros r I _ _. destruct (C r I) as [->|[->|[->|[->| ->]]]]; cbn; eauto.
  - intros r I. destruct (C r I) as [->|[->|[->|[->| ->]]]]; cbn; repeat constructor; cbn; lia.
  - intros r I. destruct (C r I) as [->|[->|[->|[->| ->]]]]; exact Logic.I.
  - intros r h I Ih. destruct (C r I) as [->|[->|[->|[->| ->]]]]; cbn in Ih; lia.
Qed.
(** With components that are too small answer sets are lost: the hypothesis cannot be dropped. *)
Example c43_components_needed : exists M, stable headCycle M /\ ~ stable (finalizeDisjunctions (fun _ => None) false headCycle) M.
Proof.
  exists (fun a => (a =? 1) || (a =? 2)). split.
  - split.
    + intros r X. cbn in X. repeat destruct X as [<-|X]; try destruct X; intros B; cbn in *; try discriminate; try (exists 1; cbn; tauto); try (exists 2; cbn; tauto). tauto.
    + intros N Hs H. assert (N1 : N 1 = true \/ N 2 = true \/ N 3 = true).
      { destruct (H (Rule false [1; 2; 3] (Norm [ngt 4]))) as (h & Ih & Hh); [now left|reflexivity|]. cbn in Ih. repeat destruct Ih as [<-|Ih]; try destruct Ih; auto. }
      assert (N3 : N 3 = false) by (destruct (N 3) eqn:E; [apply Hs in E; discriminate|auto]).
      assert (A : N 2 = true -> N 1 = true). { intros E. destruct (H (Rule false [1] (Norm [pos 2]))) as (h & [<-|[]] & Hh); [cbn; tauto|cbn; now rewrite E|auto]. }
      assert (B : N 1 = true -> N 2 = true). { intros E. destruct (H (Rule false [2] (Norm [pos 1]))) as (h & [<-|[]] & Hh); [cbn; tauto|cbn; now rewrite E|auto]. }
      assert (Both : N 1 = true /\ N 2 = true) by (destruct N1 as [X|[X|X]]; [auto|auto|congruence]).
      intros a. destruct (a =? 1) eqn:E1; [apply Nat.eqb_eq in E1; subst; cbn; tauto|]. destruct (a =? 2) eqn:E2; [apply Nat.eqb_eq in E2; subst; cbn; tauto|]. cbn. destruct (N a) eqn:E; [|auto]. apply Hs in E. rewrite E1, E2 in E. discriminate.
  - intros [_ H]. specialize (H (fun _ => false)). assert (X : false = (1 =? 1) || (1 =? 2)); [|discriminate]. apply (H); [intros a Y; discriminate|]. intros r X. cbn in X. repeat destruct X as [<-|X]; try destruct X; intros B; cbn in *; try discriminate.
    intros h [<-|[]] Y. discriminate.
Qed.
