(** C45: the constraints for a prepared program are its completion *)
From Coq Require Import List Bool Arith ZArith Lia.
Import ListNotations.
From Verif Require Import Base LpSpec LpProofs SrModel DsSpec DsProofs CpModel CpSpec CpProofs CpProofs2.

(** The constraints hold under an assignment iff the assignment gives every body's literal the truth
    value of the body, the true atoms form a model of the program's rules in which every atom is
    supported, and the fixed values are respected. Nothing else is demanded and nothing is missed. *)
Theorem c45_completion_exact : forall pr A, prepared pr ->
  (satAll A (addConstraints pr) <->
     A 0 = true /\ bodiesOk pr A /\ valuesOk pr (atomsOf pr A)
     /\ progT (atomsOf pr A) (atomsOf pr A) (rulesOf pr) /\ supported (negb (p_noGamma pr)) (rulesOf pr) (atomsOf pr A)).
Proof. intros pr A W. rewrite clark_ok. now apply clark_rules. Qed.
Print Assumptions c45_completion_exact.

(** Together with the absence of unfounded sets the constraints describe exactly the answer sets
    with the fixed values. *)
Theorem c45_completion_and_foundedness_give_answer_sets : forall pr A, prepared pr -> posP (rulesOf pr) ->
  (satAll A (addConstraints pr) /\ foundedModel (rulesOf pr) (atomsOf pr A) <->
     A 0 = true /\ bodiesOk pr A /\ valuesOk pr (atomsOf pr A) /\ stable (rulesOf pr) (atomsOf pr A)).
Proof.
  intros pr A W Hp. rewrite c45_completion_exact, stable_founded by auto. split.
  - intros ((H0 & B & V & T & S) & F). tauto.
  - intros (H0 & B & V & T & F). split; [|auto]. do 4 (split; [auto|]). now apply founded_supported.
Qed.
Print Assumptions c45_completion_and_foundedness_give_answer_sets.

(** It is enough to look for unfounded sets within single components of the program. If no atom is in
    a component (the program is tight), the constraints alone describe the answer sets. *)
Theorem c45_unfounded_sets_by_component : forall pr A sc, prepared pr -> posP (rulesOf pr) -> p_noGamma pr = false -> components (rulesOf pr) sc ->
  (satAll A (addConstraints pr)
   /\ (forall k U, (forall a, U a = true -> atomsOf pr A a = true /\ sc a = Some k) -> (exists a, U a = true) -> derivable (rulesOf pr) (atomsOf pr A) U)
   <-> A 0 = true /\ bodiesOk pr A /\ valuesOk pr (atomsOf pr A) /\ stable (rulesOf pr) (atomsOf pr A)).
Proof.
  intros pr A sc W Hp G Hc. rewrite <- c45_completion_and_foundedness_give_answer_sets by auto. rewrite (comp_founded _ sc _ Hp Hc).
  unfold compFounded. split; [|tauto]. intros [H C]. split; [auto|]. split; [|auto]. apply c45_completion_exact in H as (_ & _ & _ & _ & S); [|auto]. now rewrite G in S.
Qed.
Print Assumptions c45_unfounded_sets_by_component.

Theorem c45_tight_programs : forall pr A, prepared pr -> posP (rulesOf pr) -> p_noGamma pr = false -> components (rulesOf pr) (fun _ => None) ->
  (satAll A (addConstraints pr) <-> A 0 = true /\ bodiesOk pr A /\ valuesOk pr (atomsOf pr A) /\ stable (rulesOf pr) (atomsOf pr A)).
Proof.
  intros pr A W Hp G Hc. rewrite <- (c45_unfounded_sets_by_component pr A _ W Hp G Hc). split; [|tauto]. intros H. split; [auto|].
  intros k U HU (a & Ha). destruct (HU a Ha). discriminate.
Qed.
Print Assumptions c45_tight_programs.

(** A case: atoms 1..5; rules [{1}.] [2 :- 1.] [1 :- 2, 3.] [3 | 4 :- 2.] (with shifted rules) and
    [5 :- 2 <= #sum{2 : 1; 1 : not 4; 1 : 3}.]; atom 4 and the body [1] are wanted false / true. *)
Definition cpEx : prep := Pr
  [ Pb (Norm []) VFree (pos 0) [(1, EChoice)] []
  ; Pb (Norm [pos 1]) VWeak (pos 1) [(2, ENormal)] []
  ; Pb (Norm [pos 2; pos 3]) VFree (pos 5) [(1, ENormal)] []
  ; Pb (Norm [pos 2]) VFree (pos 2) [] [[3; 4]]
  ; Pb (Norm [pos 2; ngt 4]) VFree (pos 6) [(3, EGamma)] []
  ; Pb (Norm [pos 2; ngt 3]) VFree (pos 7) [(4, EGamma)] []
  ; Pb (Agg 2 [(pos 1, 2%Z); (ngt 4, 1%Z); (pos 3, 1%Z)]) VFree (pos 8) [(5, ENormal)] [] ]
  [1; 2; 3; 4; 5]
  (fun a => match a with 1 => pos 1 | 2 => pos 2 | 3 => pos 3 | 4 => pos 4 | 5 => pos 8 | _ => litFalse end)
  (fun a => match a with 4 => VFalse | _ => VFree end) false.
Definition cpA : asg := fun v => match v with 4 | 7 => false | _ => true end.

Lemma cpEx_prepared : prepared cpEx.
Proof.
  constructor; unfold cpEx; cbn [p_bodies p_atoms p_noGamma p_lit b_heads b_disj].
  - intros b h I J. repeat (destruct I as [<-|I]; [cbn in J; repeat (destruct J as [<-|J]; [cbn; tauto|]); contradiction|]). contradiction.
  - intros b hs h I J K. repeat (destruct I as [<-|I]; [cbn in J; repeat (destruct J as [<-|J]; [cbn in K; cbn; tauto|]); contradiction|]). contradiction.
  - intros a N. do 6 (destruct a as [|a]; [try reflexivity; exfalso; apply N; cbn; tauto|]). reflexivity.
  - intros _ b hs h I J K. left. repeat (destruct I as [<-|I]; [cbn in J; try contradiction|]); try contradiction.
    destruct J as [<-|[]]. cbn in K. destruct K as [<-|[<-|[]]].
    + exists (Pb (Norm [pos 2; ngt 4]) VFree (pos 6) [(3, EGamma)] []), EGamma. split; [cbn; tauto|]. split; [now left|]. split; [reflexivity|].
      intros M. cbn. unfold litT. cbn. destruct (M 2), (M 4) eqn:E4; cbn; split; try discriminate; try (intros [X _]; discriminate X).
      * intros [_ X]. specialize (X 4). rewrite X in E4; [discriminate|tauto|lia].
      * intros _. split; [reflexivity|]. intros o [<-|[<-|[]]] Ne; [lia|auto].
      * reflexivity.
    + exists (Pb (Norm [pos 2; ngt 3]) VFree (pos 7) [(4, EGamma)] []), EGamma. split; [cbn; tauto|]. split; [now left|]. split; [reflexivity|].
      intros M. cbn. unfold litT. cbn. destruct (M 2), (M 3) eqn:E4; cbn; split; try discriminate; try (intros [X _]; discriminate X).
      * intros [_ X]. specialize (X 3). rewrite X in E4; [discriminate|tauto|lia].
      * intros _. split; [reflexivity|]. intros o [<-|[<-|[]]] Ne; [auto|lia].
      * reflexivity.
  - intros _ b' h I J. exists (Pb (Norm [pos 2]) VFree (pos 2) [] [[3; 4]]), [3; 4]. split; [cbn; tauto|]. split; [now left|].
    repeat (destruct I as [<-|I]; [cbn in J; repeat (destruct J as [J|J]; [try discriminate J|]); try contradiction|]); try contradiction.
    + injection J as <-. split; [cbn; tauto|]. intros M. cbn. unfold litT. cbn. destruct (M 2), (M 4) eqn:E4; cbn; split; try discriminate; try (intros [X _]; discriminate X).
      * intros [_ X]. specialize (X 4). rewrite X in E4; [discriminate|tauto|lia].
      * intros _. split; [reflexivity|]. intros o [<-|[<-|[]]] Ne; [lia|auto].
      * reflexivity.
    + injection J as <-. split; [cbn; tauto|]. intros M. cbn. unfold litT. cbn. destruct (M 2), (M 3) eqn:E4; cbn; split; try discriminate; try (intros [X _]; discriminate X).
      * intros [_ X]. specialize (X 3). rewrite X in E4; [discriminate|tauto|lia].
      * intros _. split; [reflexivity|]. intros o [<-|[<-|[]]] Ne; [auto|lia].
      * reflexivity.
  - discriminate.
  - discriminate.
  - intros b h I J. exfalso. repeat (destruct I as [<-|I]; [cbn in J; repeat (destruct J as [J|J]; [discriminate J|]); contradiction|]). contradiction.
  - intros b hs I J. repeat (destruct I as [<-|I]; [cbn in J; repeat (destruct J as [<-|J]; [discriminate|]); try contradiction|]). contradiction.
Qed.
Example c45_nonvacuous : prepared cpEx /\ posP (rulesOf cpEx) /\ satAll cpA (addConstraints cpEx) /\ foundedModel (rulesOf cpEx) (atomsOf cpEx cpA)
  /\ stable (rulesOf cpEx) (atomsOf cpEx cpA).
Proof.
  assert (W := cpEx_prepared).
  assert (Hp : posP (rulesOf cpEx)).
  { intros r I. cbn in I. repeat (destruct I as [<-|I]; [cbn; try exact I; intros x J; repeat (destruct J as [<-|J]; [cbn; lia|]); contradiction|]). contradiction. }
  assert (Hs : satAll cpA (addConstraints cpEx)).
  { intros c I. vm_compute in I. repeat (destruct I as [<-|I]; [cbn [sat]; try (vm_compute; split; [intros _; discriminate|reflexivity]); match goal with |- exists l, In l ?L /\ _ => let y := eval vm_compute in (find (holds cpA) L) in match y with Some ?z => exists z; split; [cbn; tauto|reflexivity] end end|]). contradiction. }
  assert (Hst : stable (rulesOf cpEx) (atomsOf cpEx cpA)).
  { destruct (proj1 (c45_completion_exact cpEx cpA W) Hs) as (_ & _ & _ & T & _). split; [exact T|]. intros N HN TN.
    assert (N1 : N 1 = true) by (apply (TN (Rule true [1] (Norm []))); [cbn; tauto|reflexivity|cbn; tauto|reflexivity]).
    assert (N2 : N 2 = true). { destruct (TN (Rule false [2] (Norm [pos 1]))) as (h & [<-|[]] & K); [cbn; tauto|cbn; unfold litT; cbn; now rewrite N1|exact K]. }
    assert (N3 : N 3 = true). { destruct (TN (Rule false [3; 4] (Norm [pos 2]))) as (h & [<-|[<-|[]]] & K); [cbn; tauto|cbn; unfold litT; cbn; now rewrite N2|exact K|]. apply HN in K. discriminate K. }
    assert (N5 : N 5 = true). { destruct (TN (Rule false [5] (Agg 2 [(pos 1, 2%Z); (ngt 4, 1%Z); (pos 3, 1%Z)]))) as (h & [<-|[]] & K); [cbn; tauto| |exact K]. cbn. unfold litT. cbn. now rewrite N1, N3. }
    intros a. destruct (N a) eqn:E; [now rewrite (HN a E)|]. do 6 (destruct a as [|a]; [try reflexivity; congruence|]). reflexivity. }
  split; [auto|]. split; [auto|]. split; [auto|]. split; [|auto]. apply (c45_completion_and_foundedness_give_answer_sets cpEx cpA W Hp).
  apply (c45_completion_exact cpEx cpA W) in Hs as (H0 & B & V & _ & _). auto.
Qed.
(** Components of that program, and a tight program: [{1}.] [2 :- 1, not 3.] *)
Definition cpTight : prep := Pr
  [ Pb (Norm []) VFree (pos 0) [(1, EChoice)] []; Pb (Norm [pos 1; ngt 3]) VFree (pos 2) [(2, ENormal)] [] ]
  [1; 2; 3] (fun a => match a with 1 => pos 1 | 2 => pos 2 | _ => litFalse end) (fun a => match a with 3 => VFalse | _ => VFree end) false.
Example c45_nonvacuous_components :
  components (rulesOf cpEx) (fun a => match a with 1 | 2 | 3 => Some 0 | _ => None end)
  /\ prepared cpTight /\ components (rulesOf cpTight) (fun _ => None) /\ satAll (fun v => v <? 3) (addConstraints cpTight).
Proof.
  split; [|split; [|split]].
  - exists (fun a => match a with 4 | 5 => 1 | _ => 0 end). split.
    + intros a b E N. do 6 (destruct a as [|a]; [do 6 (destruct b as [|b]; [cbn in *; congruence|]); cbn in *; congruence|]). cbn in N. congruence.
    + intros r h b I J K. cbn in I. repeat (destruct I as [<-|I]; [cbn in J, K; repeat (destruct J as [<-|J]; [repeat (destruct K as [<-|K]; [first [left; cbn; lia|right; split; [reflexivity|discriminate]]|]); contradiction|]); contradiction|]). contradiction.
  - constructor; unfold cpTight; cbn [p_bodies p_atoms p_noGamma p_lit b_heads b_disj].
    + intros b h I J. repeat (destruct I as [<-|I]; [cbn in J; repeat (destruct J as [<-|J]; [cbn; tauto|]); contradiction|]). contradiction.
    + intros b hs h I J. exfalso. repeat (destruct I as [<-|I]; [exact J|]). contradiction.
    + intros a N. do 3 (destruct a as [|a]; [try reflexivity; exfalso; apply N; cbn; tauto|]). reflexivity.
    + intros _ b hs h I J. exfalso. repeat (destruct I as [<-|I]; [exact J|]). contradiction.
    + intros _ b h I J. exfalso. repeat (destruct I as [<-|I]; [cbn in J; repeat (destruct J as [J|J]; [discriminate J|]); contradiction|]). contradiction.
    + discriminate.
    + discriminate.
    + intros b h I J. exfalso. repeat (destruct I as [<-|I]; [cbn in J; repeat (destruct J as [J|J]; [discriminate J|]); contradiction|]). contradiction.
    + intros b hs I J. exfalso. repeat (destruct I as [<-|I]; [exact J|]). contradiction.
  - exists (fun a => a). split; [intros a b _ N; congruence|]. intros r h b I J K. left. cbn in I. repeat (destruct I as [<-|I]; [cbn in J, K; repeat (destruct J as [<-|J]; [repeat (destruct K as [<-|K]; [lia|]); contradiction|]); contradiction|]). contradiction.
  - intros c I. vm_compute in I. repeat (destruct I as [<-|I]; [cbn [sat]; match goal with |- exists l, In l ?L /\ _ => let y := eval vm_compute in (find (holds (fun v => v <? 3)) L) in match y with Some ?z => exists z; split; [cbn; tauto|reflexivity] end end|]). contradiction.
Qed.
