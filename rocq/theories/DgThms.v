(** C46: the dependency graph that is built for the unfounded set checker fits the program *)
From Coq Require Import List Bool Arith ZArith Lia.
Import ListNotations.
From Verif Require Import Base LpSpec LpProofs SrModel DsSpec DsProofs CpModel CpSpec CpProofs CpProofs2 CpThms UfModel UfRun UfSpec UfThms DgModel DgSpec DgProofs DgProofs2 DgProofs3.

(** The graph meets the conditions under which the unfounded set checker is correct (C39, C40). *)
Theorem c46_graph_wellformed : forall pr sc ign fls noScc sccAtoms, graphInput pr sc ign noScc sccAtoms -> gwf (addSccs pr sc ign fls noScc sccAtoms).
Proof. intros. now apply graph_wf. Qed.
Print Assumptions c46_graph_wellformed.

(** Under an assignment that satisfies the constraints of the program, no unfounded set in the graph
    means no unfounded set in the program: the constraints and the graph together describe exactly
    the answer sets. *)
Theorem c46_graph_gives_answer_sets : forall pr sc ign fls noScc sccAtoms A,
  prepared pr -> graphInput pr sc ign noScc sccAtoms -> (forall l, fls l = true -> holds A l = false) ->
  (satAll A (addConstraints pr) /\ founded (addSccs pr sc ign fls noScc sccAtoms) (holds A) <->
     A 0 = true /\ CpSpec.bodiesOk pr A /\ valuesOk pr (atomsOf pr A) /\ stable (rulesOf pr) (atomsOf pr A)).
Proof.
  intros pr sc ign fls noScc sas A W GI HF. pose proof (plain_posP _ _ _ _ _ GI) as Hp. rewrite <- c45_completion_and_foundedness_give_answer_sets by auto.
  assert (K : satAll A (addConstraints pr) -> (founded (addSccs pr sc ign fls noScc sas) (holds A) <-> foundedModel (rulesOf pr) (atomsOf pr A))).
  { intros S. apply c45_completion_exact in S as (H0 & B & V & T & S); auto. apply founded_graph; auto. intros a Ha. destruct (S a Ha) as (r & I & J & Hb & _). exists r. split; [auto|]. split; [auto|]. split; [auto|]. intros _ _ h Ih _.
    destruct (rule_body _ _ _ _ _ GI r h I Ih) as (b & t & _ & _ & _ & E & _). rewrite E in J. now destruct J as [J|[]]. }
  split; intros [S F]; (split; [auto|]); now apply (K S).
Qed.
Print Assumptions c46_graph_gives_answer_sets.

(** The whole chain: when the checker on this graph has come to rest under a total assignment that
    satisfies the constraints, the true atoms are an answer set ... *)
Theorem c46_rest_on_total_assignment_is_answer_set : forall pr sc ign fls noScc sccAtoms distinct A0 s0 s A,
  prepared pr -> graphInput pr sc ign noScc sccAtoms -> (forall l, fls l = true -> holds A l = false) ->
  let g := addSccs pr sc ign fls noScc sccAtoms in
  start g A0 = Ok s0 -> steps g distinct s0 s -> s_ph s = Fix -> (forall v, s_cur s v = Some (A v)) ->
  satAll A (addConstraints pr) -> stable (rulesOf pr) (atomsOf pr A).
Proof.
  intros pr sc ign fls noScc sas ds A0 s0 s A W GI HF g ST SS FX TO S. apply (c46_graph_gives_answer_sets pr sc ign fls noScc sas A W GI HF). split; [auto|].
  apply (c39_total_assignment_founded g ds A0 s0 s); auto. now apply graph_wf.
Qed.
Print Assumptions c46_rest_on_total_assignment_is_answer_set.
(** ... and no answer set is lost: every nogood the checker ever adds holds under the assignment of
    every answer set. *)
Theorem c46_nogoods_keep_answer_sets : forall pr sc ign fls noScc sccAtoms distinct A0 s0 s A c,
  prepared pr -> graphInput pr sc ign noScc sccAtoms -> (forall l, fls l = true -> holds A l = false) ->
  let g := addSccs pr sc ign fls noScc sccAtoms in
  start g A0 = Ok s0 -> steps g distinct s0 s -> extends A A0 ->
  A 0 = true -> CpSpec.bodiesOk pr A -> valuesOk pr (atomsOf pr A) -> stable (rulesOf pr) (atomsOf pr A) ->
  In c (s_ng s) -> sat_clause A c = true.
Proof.
  intros pr sc ign fls noScc sas ds A0 s0 s A c W GI HF g ST SS EX H0 B V S I. apply (c40_nogoods_sound g ds A0 s0 s); auto.
  - now apply graph_wf.
  - now apply bodies_respected.
  - apply (c46_graph_gives_answer_sets pr sc ign fls noScc sas A W GI HF). auto.
Qed.
Print Assumptions c46_nogoods_keep_answer_sets.

(** ** the hypotheses are met *)
(** Rules [{1}.] [2 :- 1.] [2 :- 3.] [3 :- 2.] [3 :- 2 <= #sum{1 : 2; 1 : 1; 1 : not 4}.] [{4}.]: the component is {2, 3} *)
Definition dgEx : prep := Pr
  [ Pb (Norm []) VFree (pos 0) [(1, EChoice); (4, EChoice)] []
  ; Pb (Norm [pos 1]) VFree (pos 1) [(2, ENormal)] []
  ; Pb (Norm [pos 3]) VFree (pos 3) [(2, ENormal)] []
  ; Pb (Norm [pos 2]) VFree (pos 2) [(3, ENormal)] []
  ; Pb (Agg 2 [(pos 2, 1%Z); (pos 1, 1%Z); (ngt 4, 1%Z)]) VFree (pos 5) [(3, ENormal)] [] ]
  [1; 2; 3; 4]
  (fun a => match a with 1 => pos 1 | 2 => pos 2 | 3 => pos 3 | 4 => pos 4 | _ => litFalse end)
  (fun _ => VFree) false.
Definition dgSc (a : nat) : option nat := match a with 2 | 3 => Some 0 | _ => None end.
Definition dgIgn (a : nat) : bool := match a with 1 | 4 => true | _ => false end.
Definition dgA (v : nat) : bool := match v with 0 | 1 | 2 | 3 | 5 => true | _ => false end.
Definition dgGraph := addSccs dgEx dgSc dgIgn (fun _ => false) 1000 [2; 3].
Example dg_graph : dgGraph = Graph
  [ ANode litFalse 1000 false [] [] []; ANode (pos 2) 0 false [0; 1] [2] [(3, 0)]; ANode (pos 3) 0 false [2; 3] [1] [] ]
  [ BNode (pos 1) 1000 [1] None [] []; BNode (pos 3) 0 [1] None [(2, 1%Z)] []; BNode (pos 2) 0 [2] None [(1, 1%Z)] [];
    BNode (pos 5) 0 [2] (Some 2%Z) [(1, 1%Z)] [(pos 1, 1%Z); (ngt 4, 1%Z)] ].
Proof. reflexivity. Qed.
Lemma dg_prepared : prepared dgEx.
Proof.
  constructor; unfold dgEx; cbn [p_bodies p_atoms p_noGamma p_lit b_heads b_disj].
  - intros b h I J. repeat (destruct I as [<-|I]; [cbn in J; repeat (destruct J as [<-|J]; [cbn; tauto|]); contradiction|]). contradiction.
  - intros b hs h I J. exfalso. repeat (destruct I as [<-|I]; [exact J|]). contradiction.
  - intros a N. do 5 (destruct a as [|a]; [try reflexivity; exfalso; apply N; cbn; tauto|]). reflexivity.
  - intros _ b hs h I J. exfalso. repeat (destruct I as [<-|I]; [exact J|]). contradiction.
  - intros _ b h I J. exfalso. repeat (destruct I as [<-|I]; [cbn in J; repeat (destruct J as [J|J]; [discriminate J|]); contradiction|]). contradiction.
  - discriminate.
  - discriminate.
  - intros b h I J. exfalso. repeat (destruct I as [<-|I]; [cbn in J; repeat (destruct J as [J|J]; [discriminate J|]); contradiction|]). contradiction.
  - intros b hs I J. exfalso. repeat (destruct I as [<-|I]; [exact J|]). contradiction.
Qed.
Lemma dg_input : graphInput dgEx dgSc dgIgn 1000 [2; 3].
Proof.
  constructor.
  - intros b I. cbn in I. repeat (destruct I as [<-|I]; [split; [reflexivity|]; intros h J; cbn in J; repeat (destruct J as [<-|J]; [cbn; auto|]); contradiction|]). contradiction.
  - repeat constructor; cbn; lia.
  - intros a. do 4 (destruct a as [|a]; [cbn; split; [intros; try discriminate; lia|intros N; try congruence; lia]|]). cbn. split; [lia|congruence].
  - intros a. do 4 (destruct a as [|a]; [discriminate|]). discriminate.
  - exists (fun a => match a with 2 | 3 => 1 | _ => 0 end). split.
    + intros a b E N. do 4 (destruct a as [|a]; [do 4 (destruct b as [|b]; [cbn in *; congruence|]); cbn in *; congruence|]). cbn in N. congruence.
    + intros h p (b & t & I & _ & J & K & _) X Y. cbn in I. repeat (destruct I as [<-|I]; [cbn in J, K; repeat (destruct J as [J|J]; [injection J as <- <-; repeat (destruct K as [<-|K]; [first [discriminate X|discriminate Y|left; cbn; lia|right; split; [reflexivity|discriminate]]|]); contradiction|]); contradiction|]). contradiction.
  - intros h p i j _ X Y. do 4 (destruct h as [|h]; [try discriminate X; do 4 (destruct p as [|p]; [try discriminate Y; injection X as <-; injection Y as <-; lia|]); discriminate Y|]). discriminate X.
  - intros a. do 4 (destruct a as [|a]; [cbn; congruence|]). cbn. congruence.
  - intros a E. assert (Ha : a = 1 \/ a = 4) by (do 5 (destruct a as [|a]; [try discriminate E; auto|]); discriminate E). destruct Ha as [-> | ->]; (split; [reflexivity|]).
    + exists (Rule true [1] (Norm [])). cbn. auto.
    + exists (Rule true [4] (Norm [])). cbn. auto.
  - intros b I. cbn in I. repeat (destruct I as [<-|I]; [split; [cbn; repeat constructor; cbn; intuition discriminate|cbn; try exact Logic.I; intros x J; repeat (destruct J as [<-|J]; [cbn; lia|]); contradiction]|]). contradiction.
Qed.
Example c46_nonvacuous :
  prepared dgEx /\ graphInput dgEx dgSc dgIgn 1000 [2; 3] /\ satAll dgA (addConstraints dgEx) /\ founded dgGraph (holds dgA) /\ stable (rulesOf dgEx) (atomsOf dgEx dgA)
  (* without atom 1, atoms 2 and 3 satisfy the constraints but are unfounded *)
  /\ satAll (fun v => dgA v && negb (v =? 1)) (addConstraints dgEx) /\ ~ founded dgGraph (holds (fun v => dgA v && negb (v =? 1))).
Proof.
  assert (Hs : satAll dgA (addConstraints dgEx)).
  { intros c I. vm_compute in I. repeat (destruct I as [<-|I]; [cbn [sat]; try (vm_compute; split; [intros _; discriminate|reflexivity]); match goal with |- exists l, In l ?L /\ _ => let y := eval vm_compute in (find (holds dgA) L) in match y with Some ?z => exists z; split; [cbn; tauto|reflexivity] end end|]). contradiction. }
  assert (Hs2 : satAll (fun v => dgA v && negb (v =? 1)) (addConstraints dgEx)).
  { intros c I. vm_compute in I. repeat (destruct I as [<-|I]; [cbn [sat]; try (vm_compute; split; [intros _; discriminate|reflexivity]); match goal with |- exists l, In l ?L /\ _ => let y := eval vm_compute in (find (holds (fun v => dgA v && negb (v =? 1))) L) in match y with Some ?z => exists z; split; [cbn; tauto|reflexivity] end end|]). contradiction. }
  assert (Hst : stable (rulesOf dgEx) (atomsOf dgEx dgA)).
  { destruct (proj1 (c45_completion_exact dgEx dgA dg_prepared) Hs) as (_ & _ & _ & T & _). split; [exact T|]. intros N HN TN.
    assert (N1 : N 1 = true) by (apply (TN (Rule true [1] (Norm []))); [cbn; tauto|reflexivity|cbn; tauto|reflexivity]).
    assert (N2 : N 2 = true). { destruct (TN (Rule false [2] (Norm [pos 1]))) as (h & [<-|[]] & K); [cbn; tauto|cbn; unfold litT; cbn; now rewrite N1|exact K]. }
    assert (N3 : N 3 = true). { destruct (TN (Rule false [3] (Norm [pos 2]))) as (h & [<-|[]] & K); [cbn; tauto|cbn; unfold litT; cbn; now rewrite N2|exact K]. }
    intros a. destruct (N a) eqn:E; [now rewrite (HN a E)|]. do 5 (destruct a as [|a]; [try reflexivity; congruence|]). reflexivity. }
  split; [exact dg_prepared|]. split; [exact dg_input|]. split; [auto|]. split; [|split; [auto|split; [auto|]]].
  - apply (c46_graph_gives_answer_sets dgEx dgSc dgIgn (fun _ => false) 1000 [2; 3] dgA dg_prepared dg_input); [discriminate|]. apply c45_completion_exact in Hs as (H0 & B & V & _); [|exact dg_prepared]. auto.
  - intros F. unfold dgGraph in F. fold dgGraph in F. rewrite dg_graph in F. destruct (F [1; 2]) as (x & b & I & J & Te & Ex); [discriminate| |].
    + intros x [<-|[<-|[]]]; cbn; split; auto; lia.
    + destruct I as [<-|[<-|[]]]; cbn in J; destruct J as [<-|[<-|[]]]; cbn in Te, Ex; try discriminate Te; specialize (Ex eq_refl); try (apply (Ex _ _ (or_introl eq_refl)); cbn; tauto). lia.
Qed.
