(** C42: simplifying rules keeps the answer sets *)
From Coq Require Import List Bool Arith ZArith Lia.
Import ListNotations.
From Verif Require Import Base LpSpec LpProofs RtModel RtProofs RtProofs2 SrModel SrSpec SrProofs SrProofs2 SrProofs3 SrProofs4 SrProofs5.

(** A rule may be replaced by its simplified version, or left out if nothing remains, in every
    program that contains the rules [P] from which the known values follow; [Q] is what is added
    later. *)
Theorem c42_simplification_keeps_answer_sets : forall bodyId K P r m' o Q M, entailed P K -> posB (r_body r) ->
  simplifyRule bodyId K noMarks r = (m', o) ->
  match o with
  | Keep r' => stable (P ++ [r] ++ Q) M <-> stable (P ++ [r'] ++ Q) M
  | Drop => stable (P ++ [r] ++ Q) M <-> stable (P ++ Q) M
  | Threw => True
  end.
Proof.
  intros bodyId K P r m' o Q M He Hp E. pose proof (simplify_eqv _ _ _ _ _ _ He Hp E) as H. destruct o as [r'| |]; [| |exact I]; rewrite !app_assoc; apply eqv_iff, eqv_app; auto.
Qed.
Print Assumptions c42_simplification_keeps_answer_sets.

(** The flags of the active rule are clear again afterwards, unless an exception was thrown. *)
Theorem c42_flags_cleared : forall bodyId K r m' o, posB (r_body r) -> simplifyRule bodyId K noMarks r = (m', o) -> o <> Threw -> m' = noMarks.
Proof. intros bodyId K r m' o Hp E. now destruct (simplifyRule_good _ _ _ _ _ Hp E) as (A & _). Qed.
Print Assumptions c42_flags_cleared.

(** What remains is in normal form and mentions no new atoms. *)
Theorem c42_normal_form : forall bodyId K r m' r', posB (r_body r) -> simplifyRule bodyId K noMarks r = (m', Keep r') ->
  r_choice r' = r_choice r /\ incl (r_head r') (r_head r) /\ incl (batoms (r_body r')) (batoms (r_body r)) /\ cleanHead K (r_head r') /\ cleanBody K (r_body r').
Proof. intros bodyId K r m' r' Hp E. destruct (simplifyRule_good _ _ _ _ _ Hp E) as (_ & _ & A). destruct (A r' eq_refl) as (B1 & B2 & B3 & B4 & B5). auto. Qed.
Print Assumptions c42_normal_form.

(** Whole programs: rules are simplified with what was learned from the rules before. The program
    stored has the answer sets of the program given, even together with more rules; what is known
    follows from it; and after a conflict there is no answer set. *)
Theorem c42_program_keeps_answer_sets : forall bodyId P s, posP P -> addSimplifiedAll bodyId startProgram P = (s, false) ->
  (forall Q M, stable (P ++ Q) M <-> stable (p_rules s ++ Q) M) /\ entailed (p_rules s) (p_known s) /\ (p_conf s = true -> forall M, ~ stable P M).
Proof.
  intros bodyId P s Hp E. destruct (addSimplifiedAll_ok bodyId P _ _ _ start_inv Hp E eq_refl) as (A & B). cbn [startProgram p_rules app] in B. split; [intros Q M; apply eqv_iff, eqv_app; auto|]. split; [apply A|].
  intros C M H. apply (eqv_stable _ _ B) in H. destruct H as [H _]. now apply (i_conf _ A C M).
Qed.
Print Assumptions c42_program_keeps_answer_sets.

(** Exceptions: a rule that is rejected in the middle leaves flags behind, and the next rule loses a
    body literal. (Atom 1 is not derived, yet the rule [2 :- 1] becomes the fact [2].) *)
Theorem c42_after_exception_refuted : exists K bad r r' m', entailed [] K
  /\ simplifyRule 100 K noMarks bad = (m', Threw)
  /\ snd (simplifyRule 100 K m' r) = Keep r'
  /\ exists M, stable [r'] M /\ ~ stable [r] M.
Proof.
  exists noKnown, (Rule false [3] (Agg 1 [(pos 1, 1%Z); (pos 2, (-1)%Z)])), (Rule false [2] (Norm [pos 1])), (Rule false [2] (Norm [])), (Mk [pos 1] []).
  split; [intros N M _ _ _ a; cbn; repeat split; intros X; repeat destruct X as [X|X]; discriminate|]. split; [reflexivity|]. split; [reflexivity|]. exists (fun a => a =? 2). split.
  - split.
    + intros r [<-|[]] _. exists 2. split; [now left|reflexivity].
    + intros N Hs H a. destruct (H _ (or_introl eq_refl) eq_refl) as (h & [<-|[]] & X). destruct (a =? 2) eqn:E; [apply Nat.eqb_eq in E; now subst|]. destruct (N a) eqn:Y; [apply Hs in Y; congruence|auto].
  - intros [_ H]. specialize (H (fun _ => false)). assert (X : false = (2 =? 2)); [|discriminate]. apply (H); [intros a Y; discriminate|]. intros r [<-|[]] Y. discriminate.
Qed.
Print Assumptions c42_after_exception_refuted.

(** ** the hypotheses are met *)
(** [2 | 3 :- 4 <= { 1 = 1, 4 = 2, 4 = 1, not 5 = 7, 6 = 1, not 6 = 1 }] with the facts [1] and the
    false atom [3]: the bound is 3, merged weight 3, cut weight 3 *)
Example c42_nonvacuous :
  let P := [Rule false [1] (Norm []); Rule false [] (Norm [pos 3]);
            Rule false [2; 3; 2] (Agg 4 [(pos 1, 1); (pos 4, 2); (pos 4, 1); (ngt 5, 7); (pos 6, 1); (ngt 6, 1)]%Z);
            Rule true [4] (Norm [pos 1]); Rule false [] (Norm [pos 2; pos 4; pos 2]); Rule false [7] (Agg 2 [(pos 4, 1); (pos 5, 1)]%Z);
            Rule false [7; 8] (Agg 4 [(pos 4, 2); (pos 5, 2); (pos 6, 2)]%Z); Rule false [8] (Norm [pos 6; ngt 6])] in
  posP P /\ let res := addSimplifiedAll 100 startProgram P in snd res = false
  /\ p_rules (fst res) = [Rule false [1] (Norm []); Rule false [] (Norm [pos 3]); Rule false [2] (Agg 3 [(pos 4, 3); (ngt 5, 3); (pos 6, 1); (ngt 6, 1)]%Z);
                  Rule true [4] (Norm []); Rule false [] (Norm [pos 2; pos 4]); Rule false [7] (Norm [pos 4; pos 5]); Rule false [7; 8] (Agg 2 [(pos 4, 1); (pos 5, 1); (pos 6, 1)]%Z)].
Proof.
  cbv zeta. split; [|split; vm_compute; reflexivity].
  intros r [<-|[<-|[<-|[<-|[<-|[<-|[<-|[<-|[]]]]]]]]]; try exact I; intros x; cbn; intros X; repeat destruct X as [<-|X]; try destruct X; cbn; lia.
Qed.
