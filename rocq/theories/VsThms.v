(** C47: the literals chosen by the simple preprocessing represent each answer set exactly once *)
From Coq Require Import List Bool Arith ZArith Lia.
Import ListNotations.
From Verif Require Import Base LpSpec LpProofs SrModel DsSpec DsProofs CpModel CpSpec CpProofs CpProofs2 CpThms UfModel UfSpec DgModel DgSpec DgProofs DgThms VsModel VsSpec VsProofs VsProofs2 VsProofs3.

(** The loop ends: as many rounds as there are bodies are enough. *)
Theorem c47_preprocessing_ends : forall pr init, simpleInput pr init -> exists s, forall fuel, length (p_bodies pr) <= fuel -> preprocessSimple pr fuel init = Ok s.
Proof.
  intros pr init HI. destruct (visitAll_ok pr init HI (nBodies pr) (startV pr init) [] (start_inv pr init HI)) as (s & E); [cbn; lia|].
  exists (fold_left (assignBody pr) (v_unit s) s). intros f L. unfold preprocessSimple. rewrite (visitAll_more pr _ _ _ E f L). reflexivity.
Qed.
Print Assumptions c47_preprocessing_ends.

(** The assignments that satisfy the constraints and leave no unfounded set, restricted to the variables
    that were made, are in one-to-one correspondence with the answer sets that respect the fixed values. *)
Theorem c47_answer_sets_one_to_one : forall pr init fuel s, simpleInput pr init -> preprocessSimple pr fuel init = Ok s ->
  let pr' := withLits pr s in
  let model A := satAll A (addConstraints pr') /\ foundedModel (rulesOf pr) (atomsOf pr' A) in
  (forall A, model A -> stable (rulesOf pr) (atomsOf pr' A) /\ valuesOk pr (atomsOf pr' A))
  /\ (forall M, stable (rulesOf pr) M -> valuesOk pr M -> exists A, model A /\ forall a, atomsOf pr' A a = M a)
  /\ (forall A A', model A -> model A' -> (forall a, atomsOf pr' A a = atomsOf pr' A' a) -> forall v, v < v_nx s -> A v = A' v).
Proof.
  intros pr init fuel s HI E pr' model. pose proof (final_ok pr init HI fuel s E) as F. pose proof (prepared_ok pr init HI s F) as W.
  assert (Hp : posP (rulesOf pr')) by (unfold pr'; rewrite rules_same; now apply prog_pos with init).
  assert (K : forall A, model A <-> A 0 = true /\ CpSpec.bodiesOk pr' A /\ valuesOk pr (atomsOf pr' A) /\ stable (rulesOf pr) (atomsOf pr' A)).
  { intros A. pose proof (rules_same pr s : rulesOf pr' = rulesOf pr) as R. unfold model. rewrite <- R. rewrite (c45_completion_and_foundedness_give_answer_sets pr' A W Hp). unfold pr'. rewrite values_same. tauto. }
  split; [|split].
  - intros A H. apply K in H. tauto.
  - intros M S V. destruct (represent pr init HI s M F) as (A & A0 & Ea & B); [now split|]. exists A. split; [|exact Ea]. apply K. split; [auto|]. split; [auto|]. split; [|now apply (stable_ext _ M)].
    destruct V as [V1 V2]. split; [intros b I; rewrite (bodyT_ext _ _ M M) by auto; auto|intros a I; rewrite Ea; auto].
  - intros A A' H H' Ea. apply K in H as (A0 & B & _). apply K in H' as (A0' & B' & _). now apply (unique pr s).
Qed.
Print Assumptions c47_answer_sets_one_to_one.

(** The same with the dependency graph: preprocessing, completion and unfounded set check together. *)
Theorem c47_solver_models_are_the_answer_sets : forall pr init fuel s sc ign fls noScc sccAtoms, simpleInput pr init -> preprocessSimple pr fuel init = Ok s ->
  let pr' := withLits pr s in
  graphInput pr' sc ign noScc sccAtoms -> (forall A l, satAll A (addConstraints pr') -> fls l = true -> holds A l = false) ->
  let g := addSccs pr' sc ign fls noScc sccAtoms in
  let model A := satAll A (addConstraints pr') /\ founded g (holds A) in
  (forall A, model A -> stable (rulesOf pr) (atomsOf pr' A) /\ valuesOk pr (atomsOf pr' A))
  /\ (forall M, stable (rulesOf pr) M -> valuesOk pr M -> exists A, model A /\ forall a, atomsOf pr' A a = M a)
  /\ (forall A A', model A -> model A' -> (forall a, atomsOf pr' A a = atomsOf pr' A' a) -> forall v, v < v_nx s -> A v = A' v).
Proof.
  intros pr init fuel s sc ign fls noScc sas HI E pr' GI HF g model. pose proof (final_ok pr init HI fuel s E) as F. pose proof (prepared_ok pr init HI s F) as W.
  assert (Hp : posP (rulesOf pr')) by (unfold pr'; rewrite rules_same; now apply prog_pos with init).
  assert (K : forall A, model A <-> satAll A (addConstraints pr') /\ foundedModel (rulesOf pr) (atomsOf pr' A)).
  { intros A. pose proof (rules_same pr s : rulesOf pr' = rulesOf pr) as R. rewrite <- R, (c45_completion_and_foundedness_give_answer_sets pr' A W Hp). unfold model, g. split; intros H.
    - apply (c46_graph_gives_answer_sets pr' sc ign fls noScc sas A W GI); [intros l; now apply HF|exact H].
    - apply (c46_graph_gives_answer_sets pr' sc ign fls noScc sas A W GI); [|exact H]. intros l. apply HF. now apply (c45_completion_and_foundedness_give_answer_sets pr' A W Hp). }
  destruct (c47_answer_sets_one_to_one pr init fuel s HI E) as (H1 & H2 & H3). cbn zeta in *. fold pr' in H1, H2, H3. split; [|split].
  - intros A H. apply H1. now apply K.
  - intros M S V. destruct (H2 M S V) as (A & HA & Ea). exists A. split; [now apply K|auto].
  - intros A A' H H'. apply H3; now apply K.
Qed.
Print Assumptions c47_solver_models_are_the_answer_sets.

(** Atoms that get no literal are false in every answer set, and so are bodies that get none. *)
Theorem c47_nodes_without_literal_are_false : forall pr init fuel s M, simpleInput pr init -> preprocessSimple pr fuel init = Ok s -> stable (rulesOf pr) M -> valuesOk pr M ->
  (forall a, v_a s a = litFalse -> M a = false) /\ (forall i, i < length (p_bodies pr) -> v_b s i = litFalse -> bodyT M M (b_body (theBody pr i)) = false).
Proof.
  intros pr init fuel s M HI E S V. pose proof (final_ok pr init HI fuel s E) as F. destruct (represent pr init HI s M F (conj S V)) as (A & A0 & Ea & B). split.
  - intros a X. rewrite <- Ea. unfold atomsOf. cbn. rewrite X. now apply holds_F.
  - intros i L X. assert (I : In (Pb (b_body (theBody pr i)) (b_val (theBody pr i)) (v_b s i) (b_heads (theBody pr i)) (b_disj (theBody pr i))) (p_bodies (withLits pr s))) by (apply lits_body; eauto).
    specialize (B _ I). cbn [b_lit b_body] in B. rewrite <- (bodyT_ext _ _ _ _ _ Ea Ea). rewrite <- B, X. now apply holds_F.
Qed.
Print Assumptions c47_nodes_without_literal_are_false.

(** Atoms left out of the component search are derived by a body that is true in every answer set. *)
Theorem c47_ignored_atoms_have_a_true_body : forall pr init fuel s a, simpleInput pr init -> preprocessSimple pr fuel init = Ok s -> v_ign s a = true ->
  exists r, In r (rulesOf pr) /\ r_head r = [a] /\ forall M, valuesOk pr M -> bodyT M M (r_body r) = true.
Proof.
  intros pr init fuel s a HI E Ha. destruct (f_ign _ _ (final_ok pr init HI fuel s E) a Ha) as (i & t & L & I & V). pose proof (tb_in pr i L) as Ib.
  destruct (si_plain _ _ HI _ Ib) as [_ Hp]. destruct (Hp _ I) as [Ht _]. cbn in Ht.
  assert (T : forall M, valuesOk pr M -> bodyT M M (b_body (theBody pr i)) = true) by (intros M [HM _]; specialize (HM _ Ib); rewrite V in HM; exact HM).
  destruct Ht as [-> | ->]; [exists (Rule false [a] (b_body (theBody pr i)))|exists (Rule true [a] (b_body (theBody pr i)))]; (split; [apply rules_in; exists (theBody pr i); split; [auto|]|auto]); [left|right; left]; eauto.
Qed.
Print Assumptions c47_ignored_atoms_have_a_true_body.

(** ** the hypotheses are met *)
(** [{1; 4}.] [2 :- 1.] [2 :- 3.] [3 :- 2.] [3 :- 2 <= #sum{1 : 2; 1 : 1; 1 : not 4}.] [5 :- 3, not 4.] [6 :- 6, 1.] [7 :- not 6.] [:- 1, 4.]
    The variables made are those of the two-goal bodies, shared by atom 5, and of the atoms 1 to 4 and 7. *)
Definition vsEx : prep := Pr
  [ Pb (Norm []) VTrue litFalse [(1, EChoice); (4, EChoice)] []
  ; Pb (Norm [pos 1]) VFree litFalse [(2, ENormal)] []
  ; Pb (Norm [pos 3]) VFree litFalse [(2, ENormal)] []
  ; Pb (Norm [pos 2]) VFree litFalse [(3, ENormal)] []
  ; Pb (Agg 2 [(pos 2, 1%Z); (pos 1, 1%Z); (ngt 4, 1%Z)]) VFree litFalse [(3, ENormal)] []
  ; Pb (Norm [pos 3; ngt 4]) VFree litFalse [(5, ENormal)] []
  ; Pb (Norm [pos 6; pos 1]) VFree litFalse [(6, ENormal)] []
  ; Pb (Norm [ngt 6]) VFree litFalse [(7, ENormal)] []
  ; Pb (Norm [pos 1; pos 4]) VFalse litFalse [] [] ]
  [1; 2; 3; 4; 5; 6; 7] (fun _ => litFalse) (fun _ => VFree) false.
Lemma vs_input : simpleInput vsEx [0; 7].
Proof.
  constructor.
  - intros b I. cbn in I. repeat (destruct I as [<-|I]; [split; [reflexivity|]; intros h J; cbn in J; repeat (destruct J as [<-|J]; [cbn; tauto|]); contradiction|]). contradiction.
  - intros b I V. cbn in I. repeat (destruct I as [<-|I]; [try discriminate V; reflexivity|]). contradiction.
  - intros b I. cbn in I. repeat (destruct I as [<-|I]; [cbn; repeat constructor; cbn; intuition discriminate|]). contradiction.
  - intros b bd ls I E. cbn in I. do 4 (destruct I as [<-|I]; [discriminate E|]). destruct I as [<-|I].
    { injection E as <- <-. split; [intros x J; cbn in J; repeat (destruct J as [<-|J]; [cbn; lia|]); contradiction|cbn; lia]. }
    repeat (destruct I as [<-|I]; [discriminate E|]). contradiction.
  - split; [repeat constructor; cbn; lia|]. intros i. do 9 (destruct i as [|i]; [cbn; split; [intros H; split; lia|intros [_ H]; lia]|]). cbn. split; [lia|intros [H _]; lia].
Qed.
Example c47_nonvacuous : simpleInput vsEx [0; 7] /\
  match preprocessSimple vsEx 9 [0; 7] with
  | Ok s => map (v_a s) [1; 2; 3; 4; 5; 6; 7] = [pos 1; pos 4; pos 6; pos 2; pos 7; litFalse; pos 3]
    /\ map (v_b s) (seq 0 9) = [litTrue; pos 1; pos 6; pos 4; pos 5; pos 7; litFalse; pos 8; litFalse] /\ v_nx s = 9
  | _ => False
  end.
Proof. split; [exact vs_input|]. vm_compute. auto. Qed.

(** The components after preprocessing: only atoms 2 and 3 are on a cycle, since atom 6 has no literal. *)
Definition vsSc (a : nat) : option nat := match a with 2 | 3 => Some 0 | _ => None end.
Lemma vs_graph : match preprocessSimple vsEx 9 [0; 7] with Ok s => graphInput (withLits vsEx s) vsSc (v_ign s) 1000 [2; 3] | _ => False end.
Proof.
  assert (Vi : forall s, preprocessSimple vsEx 9 [0; 7] = Ok s -> v_ign s = upd (upd (fun _ => false) 1 true) 4 true) by (intros s E; vm_compute in E; injection E as <-; reflexivity).
  assert (Va : forall s, preprocessSimple vsEx 9 [0; 7] = Ok s -> v_a s = (fun a => v_a s a)) by reflexivity.
  destruct (preprocessSimple vsEx 9 [0; 7]) as [s| |] eqn:E; [|vm_compute in E; discriminate|vm_compute in E; discriminate].
  rewrite (Vi s eq_refl). clear Vi Va. assert (H6 : v_b s 6 = litFalse /\ v_a s 2 = pos 4 /\ v_a s 3 = pos 6) by (vm_compute in E; injection E as <-; vm_compute; auto). destruct H6 as (H6 & H2 & H3). clear E.
  constructor.
  - intros b I. cbn in I. repeat (destruct I as [<-|I]; [split; [reflexivity|]; intros h J; cbn in J; repeat (destruct J as [<-|J]; [cbn; auto|]); contradiction|]). contradiction.
  - repeat constructor; cbn; lia.
  - intros a. do 4 (destruct a as [|a]; [cbn; split; [intros; try discriminate; lia|intros N; try congruence; lia]|]). cbn. split; [lia|congruence].
  - intros a. do 4 (destruct a as [|a]; [discriminate|]). discriminate.
  - exists (fun a => match a with 2 | 3 => 1 | 5 => 2 | _ => 0 end). split.
    + intros a b E N. do 4 (destruct a as [|a]; [do 4 (destruct b as [|b]; [cbn in *; congruence|]); cbn in *; congruence|]). cbn in N. congruence.
    + intros h p (b & t & I & V & J & K & _) X Y. cbn in I. repeat (destruct I as [<-|I]; [cbn in J, K; repeat (destruct J as [J|J]; [injection J as <- <-; repeat (destruct K as [<-|K]; [first [discriminate X|discriminate Y|left; cbn; lia|right; split; [reflexivity|discriminate]|cbn [b_lit] in V; rewrite H6 in V; discriminate V]|]); contradiction|]); contradiction|]). contradiction.
  - intros h p i j _ X Y. do 4 (destruct h as [|h]; [try discriminate X; do 4 (destruct p as [|p]; [try discriminate Y; injection X as <-; injection Y as <-; lia|]); discriminate Y|]). discriminate X.
  - intros a. do 4 (destruct a as [|a]; [cbn; try congruence; try (rewrite H2; reflexivity); try (rewrite H3; reflexivity)|]). cbn. congruence.
  - intros a Ea. assert (Ha : a = 1 \/ a = 4) by (do 5 (destruct a as [|a]; [try discriminate Ea; auto|]); discriminate Ea). destruct Ha as [-> | ->]; (split; [reflexivity|]).
    + exists (Rule true [1] (Norm [])). cbn. auto.
    + exists (Rule true [4] (Norm [])). cbn. auto.
  - intros b I. cbn in I. repeat (destruct I as [<-|I]; [split; [cbn; repeat constructor; cbn; intuition discriminate|cbn; try exact Logic.I; intros x J; repeat (destruct J as [<-|J]; [cbn; lia|]); contradiction]|]). contradiction.
Qed.
Example c47_graph_nonvacuous : exists s, preprocessSimple vsEx 9 [0; 7] = Ok s /\ graphInput (withLits vsEx s) vsSc (v_ign s) 1000 [2; 3]
  /\ forall A l, satAll A (addConstraints (withLits vsEx s)) -> lit_eqb l litFalse = true -> holds A l = false.
Proof.
  destruct (c47_preprocessing_ends vsEx [0; 7] vs_input) as (s & H). specialize (H 9 (Nat.le_refl 9)). exists s. split; [exact H|]. pose proof vs_graph as G. rewrite H in G. split; [exact G|].
  intros A l S E. apply lit_eqb_eq in E. subst l. pose proof (prepared_ok vsEx [0; 7] vs_input s (final_ok vsEx [0; 7] vs_input 9 s H)) as W.
  apply (c45_completion_exact _ A W) in S as (A0 & _). unfold holds, litFalse. cbn. now rewrite A0.
Qed.
