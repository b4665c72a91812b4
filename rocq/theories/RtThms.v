(** * C41: translating extended rules keeps the answer sets *)
From Coq Require Import List Bool Arith ZArith Lia.
Import ListNotations.
From Verif Require Import Base LpSpec LpProofs RtModel RtProofs RtProofs2 RtProofs5 RtProofs6 RtProofs7 RtProofs8.

(** the translated program has the answer sets of the given one: one for one, equal on all atoms of
    the given program *)
Theorem c41_translation_keeps_answer_sets : forall m isCount small fuel k P Q,
  addProgram m isCount small fuel k P = Ok Q -> k <> 0 -> below k P -> posP P ->
  (forall r h, In r P -> In h (r_head r) -> h <> 0) -> (forall r, In r P -> r_choice r = true -> r_head r <> []) ->
  sameAS k P Q.
Proof.
  intros m isCount small fuel k P Q E K B Pp H C. eapply addProgram_ok; eauto. intros r I. split; [intros h; now apply H|]. split; [now apply Pp|now apply C].
Qed.
Print Assumptions c41_translation_keeps_answer_sets.

(** only rules the mode allows are left; when everything is to be translated, these are rules with
    conjunctive bodies and without choice *)
Theorem c41_translation_complete : forall m isCount small fuel k P Q,
  addProgram m isCount small fuel k P = Ok Q -> k <> 0 -> below k P -> posP P ->
  (forall r h, In r P -> In h (r_head r) -> h <> 0) -> (forall r, In r P -> r_choice r = true -> r_head r <> []) ->
  forall q, In q Q ->
    (m = MTransform -> r_choice q = false /\ exists ls, r_body q = Norm ls)
    /\ (m = MChoice -> r_choice q = false)
    /\ (m = MWeight -> exists ls, r_body q = Norm ls).
Proof.
  intros m isCount small fuel k P Q E K B Pp H C q I.
  assert (N : handleNatively m isCount small q = true).
  { apply addProgram_ok in E as [_ N]; auto. intros r J. split; [intros h; now apply H|]. split; [now apply Pp|now apply C]. }
  unfold handleNatively, isNormal in N. destruct (r_body q) as [ls|b ls], (r_choice q) eqn:Ec; cbn in N; (split; [|split]); intros ->; try discriminate N; eauto.
Qed.
Print Assumptions c41_translation_complete.

(** no size makes it fail: with non-negative bounds and weights whose sum, each weight cut to the
    bound, is in range, the translation ends with a program *)
Theorem c41_translation_total : forall m isCount small k P,
  k <> 0 -> below k P ->
  (forall r h, In r P -> In h (r_head r) -> h <> 0) -> (forall r, In r P -> r_choice r = true -> r_head r <> []) ->
  (forall r bound ls, In r P -> r_body r = Agg bound ls ->
     (0 <= bound)%Z /\ (forall x, In x ls -> (0 <= snd x)%Z) /\ (fold_right (fun x s => Z.min (snd x) bound + s) 0 ls <= int_max)%Z) ->
  exists Q n, forall fuel, n <= fuel -> addProgram m isCount small fuel k P = Ok Q.
Proof.
  intros m isCount small k P K B H C W.
  assert (X : forall r, In r P -> wfR r /\ okW (r_body r)).
  { intros r I. assert (O : okW (r_body r)).
    - destruct (r_body r) as [ls|bound ls] eqn:Eb; [exact Logic.I|]. destruct (W r bound ls I Eb) as (W1 & W2 & W3). split; [auto|]. split; [auto|].
      replace (sumW (map (cut bound) ls)) with (fold_right (fun x s => Z.min (snd x) bound + s)%Z 0%Z ls); [auto|]. clear. induction ls as [|x l IH]; [auto|]. cbn [map sumW fold_right cut snd]. now rewrite IH.
    - split; [|auto]. split; [intros h; now apply H|]. split; [|now apply C]. destruct (r_body r) as [ls|bound ls]; [exact Logic.I|]. destruct O as (_ & O & _). exact O. }
  destruct (addProgram_total m isCount small k P X B K) as (n & Q & E). exists Q, n. auto.
Qed.
Print Assumptions c41_translation_total.

(** one rule in any context: what [transform] adds can stand for the rule in every program over the
    atoms there are, whatever strategy is used *)
Theorem c41_rule_can_be_replaced : forall fuel s r x s',
  transform fuel s r x = Ok s' -> t_next s <> 0 -> below (t_next s) [r] -> (forall h, In h (r_head r) -> h <> 0) ->
  (r_choice r = true \/ length (r_head r) <= 1 \/ exists bound ls, r_body r = Agg bound ls) -> Forall (fun a => a = 0) (t_aux s) ->
  exists T, t_out s' = t_out s ++ T /\ Forall (fun a => a = 0) (t_aux s') /\ t_next s <= t_next s' /\ below (t_next s') T
    /\ forall P, below (t_next s) P -> sameAS (t_next s) (P ++ [r]) (P ++ T).
Proof.
  intros fuel s r x s' E K B H C Z. apply transform_ok in E as (T & (A1 & A2 & A3 & A4 & A5) & _); auto.
  - exists T. auto.
  - unfold notDisj, isNormal. destruct C as [C|[C|(b & ls & ->)]]; auto.
Qed.
Print Assumptions c41_rule_can_be_replaced.

(** ** shifting a disjunction *)
(** answer sets of the shifted program are answer sets of the disjunctive one *)
Theorem c41_shift_sound : forall fuel s hs cond x s',
  transform fuel s (Rule false hs (Norm cond)) x = Ok s' -> 1 < length hs -> t_next s <> 0 ->
  below (t_next s) [Rule false hs (Norm cond)] -> (forall h, In h hs -> h <> 0) ->
  exists T, t_out s' = t_out s ++ T
    /\ (forall q, In q T -> r_choice q = false /\ length (r_head q) <= 1 /\ exists ls, r_body q = Norm ls)
    /\ forall P, below (t_next s) P -> forall M', stable (P ++ T) M' -> exists M, stable (P ++ [Rule false hs (Norm cond)]) M /\ agree (t_next s) M M'.
Proof.
  intros fuel s hs cond x s' E L K B Hz. destruct (transform_disj _ _ _ _ _ _ E L B Hz K) as (T & E1 & E2 & E3). exists T. split; [auto|]. split; [|auto].
  intros q I. destruct (E2 q I) as (h & ls & ->). cbn. split; [auto|]. split; [unfold hd1; destruct (h =? 0); cbn; lia|]. eauto.
Qed.
Print Assumptions c41_shift_sound.
(** beside the disjunction the shifted rules change nothing *)
Theorem c41_shift_redundant : forall s hs cond s', transformDisjunction s cond hs = Ok s' -> (forall h, In h hs -> h <> 0) ->
  exists T, t_out s' = t_out s ++ T /\ forall P M, stable (P ++ [Rule false hs (Norm cond)]) M <-> stable (P ++ [Rule false hs (Norm cond)] ++ T) M.
Proof.
  intros s hs cond s' E Hz. apply transformDisjunction_ok in E. subst s'. exists (shifted cond [] hs). split; [auto|]. intros P M. now apply shift_redundant.
Qed.
Print Assumptions c41_shift_redundant.
(** in place of the disjunction they can lose answer sets: [a|b. a :- b. b :- a.] *)
Definition exShift : prog := [Rule false [1] (Norm [pos 2]); Rule false [2] (Norm [pos 1])].
Theorem c41_shift_refuted : exists P hs s', below 3 P /\ below 3 [Rule false hs (Norm [])] /\ transform 9 (St 3 [] []) (Rule false hs (Norm [])) Default = Ok s'
  /\ (exists M, stable (P ++ [Rule false hs (Norm [])]) M) /\ ~ exists M, stable (P ++ t_out s') M.
Proof.
  exists exShift, [1; 2]. eexists. split; [|split; [|split; [reflexivity|split]]].
  - intros r a [<-|[<-|[]]] [<-|[<-|[]]]; cbn; lia.
  - intros r a [<-|[]] [<-|[<-|[]]]; cbn; lia.
  - exists (fun a => (a =? 1) || (a =? 2)). split.
    + intros r [<-|[<-|[<-|[]]]] _; cbn; [exists 1|exists 2|exists 1]; auto.
    + intros N Hs T a. assert (T1 := T _ (or_introl eq_refl)). assert (T2 := T _ (or_intror (or_introl eq_refl))). assert (T3 := T _ (or_intror (or_intror (or_introl eq_refl)))).
      unfold ruleT in *. cbn in *. unfold litT in *. cbn in *. destruct (T3 eq_refl) as (h & [<-|[<-|[]]] & Hh).
      * rewrite Hh in T2. destruct (T2 eq_refl) as (y & [<-|[]] & Hy). destruct (Nat.eqb_spec a 1) as [->|]; [auto|]. destruct (Nat.eqb_spec a 2) as [->|]; [auto|].
        destruct (N a) eqn:Ea; [|auto]. apply Hs in Ea. apply orb_true_iff in Ea as [Ea|Ea]; apply Nat.eqb_eq in Ea; congruence.
      * rewrite Hh in T1. destruct (T1 eq_refl) as (y & [<-|[]] & Hy). destruct (Nat.eqb_spec a 1) as [->|]; [auto|]. destruct (Nat.eqb_spec a 2) as [->|]; [auto|].
        destruct (N a) eqn:Ea; [|auto]. apply Hs in Ea. apply orb_true_iff in Ea as [Ea|Ea]; apply Nat.eqb_eq in Ea; congruence.
  - intros (M & T & Mn). cbn in T, Mn.
    assert (T1 := T _ (or_introl eq_refl)). assert (T2 := T _ (or_intror (or_introl eq_refl))). assert (T3 := T _ (or_intror (or_intror (or_introl eq_refl)))).
    unfold ruleT in T1, T2, T3. cbn in T1, T2, T3. unfold litT in T1, T2, T3. cbn in T1, T2, T3. rewrite !andb_true_r in *.
    assert (M1 : M 1 = true). { destruct (M 1) eqn:E1; [auto|]. destruct (M 2) eqn:E2; [|destruct (T3 eq_refl) as (y & [<-|[]] & Hy); congruence]. destruct (T1 eq_refl) as (y & [<-|[]] & Hy). congruence. }
    assert (M2 : M 2 = true). { destruct (T2 M1) as (y & [<-|[]] & Hy). auto. }
    specialize (Mn (fun _ => false)). assert (X : false = M 1); [|rewrite M1 in X; discriminate]. apply (Mn ltac:(intros a Ha; discriminate)).
    intros r [<-|[<-|[<-|[<-|[]]]]] Bd; cbn in Bd; unfold litT in Bd; cbn in Bd; try discriminate; rewrite ?M1, ?M2 in Bd; discriminate.
Qed.
Print Assumptions c41_shift_refuted.

(** ** a sum with a negative bound is true, yet [transform] rejects it *)
Theorem c41_negative_bound_refuted : exists r, posB (r_body r) /\ (forall N M, bodyT N M (r_body r) = true) /\ forall fuel s x, transform fuel s r x = Throws.
Proof.
  exists (Rule false [1] (Agg (-1) [(pos 2, 1%Z)])). split; [intros x [<-|[]]; cbn; lia|]. split; [|reflexivity].
  intros N M. cbn. unfold litT. cbn. destruct (N 2); reflexivity.
Qed.
Print Assumptions c41_negative_bound_refuted.

(** ** the hypotheses can be met *)
Definition exProg : prog :=
  [Rule true [1; 2; 3] (Norm []); Rule false [4] (Agg 5 [(pos 1, 3%Z); (pos 2, 2%Z); (ngt 3, 2%Z); (pos 4, 1%Z)]); Rule true [5; 6] (Agg 2 [(pos 1, 1%Z); (ngt 2, 1%Z); (pos 4, 1%Z)]);
   Rule false [] (Norm [ngt 4])].
Example c41_translation_nonvacuous :
  7 <> 0 /\ below 7 exProg /\ posP exProg /\ (forall r h, In r exProg -> In h (r_head r) -> h <> 0) /\ (forall r, In r exProg -> r_choice r = true -> r_head r <> [])
  /\ (exists Q, addProgram MTransform (fun _ => false) (fun _ => false) 50 7 exProg = Ok Q /\ length Q = 19)
  /\ (exists Q, addProgram MDynamic (fun _ => false) (fun r => 2 <? length (r_head r)) 50 7 exProg = Ok Q /\ length Q = 4).
Proof.
  split; [lia|]. split; [|split; [|split; [|split; [|split]]]].
  - assert (X : forallb (fun r => forallb (fun a => a <? 7) (ratoms r)) exProg = true) by reflexivity. intros r a I J. rewrite forallb_forall in X. specialize (X r I). rewrite forallb_forall in X. apply Nat.ltb_lt. auto.
  - intros r [<-|[<-|[<-|[<-|[]]]]]; cbn; auto; intros x I; repeat (destruct I as [<-|I]; [cbn; lia|]); destruct I.
  - intros r h [<-|[<-|[<-|[<-|[]]]]] I; cbn in I; repeat (destruct I as [<-|I]; [lia|]); destruct I.
  - intros r [<-|[<-|[<-|[<-|[]]]]]; cbn; discriminate.
  - eexists. split; [vm_compute; reflexivity|reflexivity].
  - eexists. split; [vm_compute; reflexivity|reflexivity].
Qed.
(** and the program has an answer set that needs the sum *)
Definition exAS : asg := fun a => (a =? 1) || (a =? 4).
Example c41_answer_set_nonvacuous : stable exProg exAS.
Proof.
  split.
  - intros r [<-|[<-|[<-|[<-|[]]]]] B; cbn in *; auto; try discriminate. exists 4. auto.
  - intros N Hs T a. assert (T1 := T _ (or_introl eq_refl)). assert (T2 := T _ (or_intror (or_introl eq_refl))). unfold ruleT in T1, T2. cbn in T1, T2. specialize (T1 eq_refl 1 (or_introl eq_refl) eq_refl).
    unfold litT in T2. cbn in T2. rewrite T1 in T2. assert (N2 : N 2 = false). { destruct (N 2) eqn:E; [|auto]. apply Hs in E. discriminate. } rewrite N2 in T2.
    assert (N4 : N 4 = true). { destruct (N 4) eqn:E; [auto|]. cbn in T2. destruct (T2 eq_refl) as (y & [<-|[]] & Hy). congruence. }
    unfold exAS. destruct (Nat.eqb_spec a 1) as [->|]; [auto|]. destruct (Nat.eqb_spec a 4) as [->|]; [auto|].
    destruct (N a) eqn:Ea; [|auto]. apply Hs in Ea. unfold exAS in Ea. apply orb_true_iff in Ea as [Ea|Ea]; apply Nat.eqb_eq in Ea; congruence.
Qed.
Example c41_shift_nonvacuous : exists s', transform 0 (St 5 [] []) (Rule false [1; 2; 3] (Norm [pos 4; ngt 1])) Default = Ok s' /\ length (t_out s') = 4.
Proof. eexists. split; reflexivity. Qed.
