(** Adding simplified rules: programs *)
From Coq Require Import List Bool Arith ZArith Lia.
Import ListNotations.
From Verif Require Import Base LpSpec LpProofs RtModel RtProofs RtProofs2 SrModel SrSpec SrProofs SrProofs2 SrProofs3 SrProofs4.

(** two programs that mean the same in every context *)
Definition eqv (P Q : prog) : Prop := forall N M, sub N M -> progT M M P /\ progT N M P <-> progT M M Q /\ progT N M Q.
Lemma eqv_stable P Q : eqv P Q -> forall M, stable P M -> stable Q M.
Proof.
  intros H M [A B]. destruct (H M M (sub_refl M)) as [H1 _]. destruct (H1 (conj A A)) as [A' _]. split; [auto|]. intros N Hs HN. apply B; [auto|]. apply (H N M Hs). auto.
Qed.
Lemma eqv_sym P Q : eqv P Q -> eqv Q P. Proof. intros H N M Hs. symmetry. auto. Qed.
Lemma eqv_iff P Q : eqv P Q -> forall M, stable P M <-> stable Q M.
Proof. intros H M. split; apply eqv_stable; [auto|now apply eqv_sym]. Qed.
Lemma eqv_trans P Q R : eqv P Q -> eqv Q R -> eqv P R.
Proof. intros A B N M Hs. rewrite (A N M Hs). auto. Qed.
Lemma eqv_app P Q R : eqv P Q -> eqv (P ++ R) (Q ++ R).
Proof. intros H N M Hs. rewrite !progT_app. specialize (H N M Hs). tauto. Qed.
Lemma eqv_refl P : eqv P P. Proof. intros N M _. tauto. Qed.

Lemma knows_MM K N M : knows K N M -> sub N M -> knows K M M.
Proof. intros H Hs a. destruct (H a) as (A & B & C). split; [auto|]. split; [|auto]. intros X. apply Hs. auto. Qed.
Lemma simplify_eqv bodyId K P r m' o : entailed P K -> posB (r_body r) -> simplifyRule bodyId K noMarks r = (m', o) ->
  match o with Keep r' => eqv (P ++ [r]) (P ++ [r']) | Drop => eqv (P ++ [r]) P | Threw => True end.
Proof.
  intros He Hp E. destruct (simplifyRule_good bodyId K r m' o Hp E) as (_ & R & _).
  destruct o as [r'| |]; [| |exact I]; intros N M Hs; rewrite ?progT_app; rewrite ?single_progT.
  - split; intros [[A B] [C D]]; (assert (Hk : knows K N M) by (apply He; auto)); pose proof (R N M Hs Hk) as R1; pose proof (R M M (sub_refl M) (knows_MM K N M Hk Hs)) as R2; cbn in R1, R2; tauto.
  - split; [tauto|]. intros [A C]. assert (Hk : knows K N M) by (apply He; auto). pose proof (R N M Hs Hk) as R1; pose proof (R M M (sub_refl M) (knows_MM K N M Hk Hs)) as R2. cbn in R1, R2. tauto.
Qed.

(** ** what is learned *)
Definition ignOk (P : prog) (ig : nat -> bool) : Prop := forall a N M, ig a = true -> sub N M -> progT M M P -> progT N M P -> M a = true -> N a = true.
Record pinv (s : pst) : Prop := Pinv
  { i_k : entailed (p_rules s) (p_known s); i_ign : ignOk (p_rules s) (p_ign s); i_conf : p_conf s = true -> forall M, ~ progT M M (p_rules s); i_m : p_marks s = noMarks }.
Lemma assignA_ok s a v fact : pinv s ->
  (forall N M, sub N M -> progT M M (p_rules s) -> progT N M (p_rules s) ->
    (v = VTrue -> N a = true) /\ (v = VFalse -> M a = false) /\ (v = VWeak -> M a = true)) -> v <> VFree ->
  pinv (assignA s a v fact) /\ p_rules (assignA s a v fact) = p_rules s.
Proof.
  intros [Hk Hi Hc Hm] Hv Hf. unfold assignA. destruct (assignImpl (k_val (p_known s) a) v (p_ign s a)) as [v'|] eqn:E.
  - split; [|reflexivity]. split; [|exact Hi|exact Hc|exact Hm]. cbn [p_rules p_known]. intros N M Hs A B b. destruct (Hk N M Hs A B b) as (K1 & K2 & K3). destruct (Hv N M Hs A B) as (V1 & V2 & V3).
    assert (Ha : b = a -> (v' = VTrue -> N a = true) /\ (v' = VFalse -> M a = false) /\ (v' = VWeak -> M a = true)).
    { intros ->. assert (Ig : v = VWeak -> p_ign s a = true -> N a = true) by (intros X Y; apply (Hi a N M Y Hs A B), V3, X).
      unfold assignImpl in E. destruct (isV v VWeak && p_ign s a) eqn:Ew.
      - apply andb_true_iff in Ew as [Ew1 Ew2]. apply isV_true in Ew1. specialize (Ig Ew1 Ew2). assert (X : v' = VTrue) by (destruct (k_val (p_known s) a); cbn in E; congruence). subst v'. split; [auto|]. split; discriminate.
      - destruct (isV (k_val (p_known s) a) VFree || isV v (k_val (p_known s) a) || (isV (k_val (p_known s) a) VWeak && isV v VTrue)); [injection E as <-; auto|].
        destruct (isV v VWeak && isV (k_val (p_known s) a) VTrue) eqn:X; [|discriminate]. injection E as <-. apply andb_true_iff in X as [_ X]. apply isV_true in X. rewrite X. split; [auto|]. split; discriminate. }
    cbn [k_val k_rel k_fact k_false]. unfold setAt. destruct (b =? a) eqn:Eb.
    + apply Nat.eqb_eq in Eb. destruct (Ha Eb) as (H1 & H2 & H3). subst b. split; [|split].
      * intros [X|[X|X]]; [auto|auto|]. destruct (isV v VFalse) eqn:Y; [apply isV_true in Y; auto|auto].
      * intros [X|X]; [auto|]. destruct (isV v VTrue && fact) eqn:Y; [apply andb_true_iff in Y as [Y _]; apply isV_true in Y; auto|auto].
      * auto.
    + split; [|split; [|auto]].
      * intros X. apply K1. destruct (isV v VFalse); [rewrite ?Eb in X|]; tauto.
      * intros X. apply K2. destruct (isV v VTrue && fact); [rewrite ?Eb in X|]; tauto.
  - split; [|reflexivity]. split; [exact Hk|exact Hi| |exact Hm]. cbn [p_conf p_rules]. intros _ M A.
    destruct (Hk M M (sub_refl M) A A a) as (K1 & K2 & K3). destruct (Hv M M (sub_refl M) A A) as (V1 & V2 & V3). unfold assignImpl in E.
    assert (Ca : k_val (p_known s) a = VFalse -> M a = false) by (intros X; apply K1; auto). assert (Cb : k_val (p_known s) a = VTrue -> M a = true) by (intros X; apply K2; auto).
    destruct v, (k_val (p_known s) a), (p_ign s a); cbn in E; try discriminate; try congruence;
      try (specialize (V1 eq_refl)); try (specialize (V2 eq_refl)); try (specialize (V3 eq_refl)); try (specialize (Ca eq_refl)); try (specialize (Cb eq_refl)); try (specialize (K3 eq_refl)); congruence.
Qed.
Lemma pinv_more s r : pinv s -> pinv (Ps (p_known s) (p_ign s) (p_conf s) (p_marks s) (p_rules s ++ [r])).
Proof.
  intros [Hk Hi Hc Hm]. split; cbn.
  - intros N M Hs A B. rewrite progT_app in A, B. now apply Hk.
  - intros a N M Ia Hs A B. rewrite progT_app in A, B. now apply (Hi a N M).
  - intros X M A. rewrite progT_app in A. now apply (Hc X M).
  - auto.
Qed.
Lemma learn_ok s r : pinv s -> pinv (learn s r) /\ p_rules (learn s r) = p_rules s ++ [r].
Proof.
  intros H. apply (pinv_more s r) in H. unfold learn. set (s' := Ps (p_known s) (p_ign s) (p_conf s) (p_marks s) (p_rules s ++ [r])) in *.
  assert (Same : pinv s' /\ p_rules s' = p_rules s ++ [r]) by (split; auto).
  assert (Has : forall N M, progT N M (p_rules s') -> ruleT N M r) by (intros N M A; apply A; cbn; apply in_app_iff; right; now left).
  destruct r as [ch hs b]; cbn [r_choice r_head r_body]. destruct ch.
  - destruct b as [ls|bd l]; [|destruct hs; exact Same]. destruct ls as [|q ls].
    2: { destruct hs; exact Same. }
    assert (G : pinv (Ps (p_known s') (fun a => p_ign s' a || existsb (Nat.eqb a) hs) (p_conf s') (p_marks s') (p_rules s')) /\ p_rules s' = p_rules s ++ [Rule true hs (Norm [])]).
    { split; [|reflexivity]. destruct H as [Hk Hi Hc Hm]. split; [exact Hk| |exact Hc|exact Hm]. cbn [p_ign p_rules]. intros a N M Ia Hs A B Ma. apply orb_true_iff in Ia as [Ia|Ia]; [now apply (Hi a N M)|].
      apply existsb_exists in Ia as (x & Ix & Ex). apply Nat.eqb_eq in Ex. subst x. specialize (Has N M B). cbn in Has. now apply Has. }
    destruct hs; exact G.
  - destruct hs as [|a [|a' hs]].
    + destruct b as [ls|bd l]; [|exact Same]. destruct ls as [|p [|q ls]]; [| |exact Same].
      * split; [|reflexivity]. destruct H as [Hk Hi Hc Hm]. split; [exact Hk|exact Hi| |exact Hm]. cbn [p_conf p_rules]. intros _ M A. specialize (Has M M A). destruct (Has eq_refl) as (h & [] & _).
      * assert (Hv : forall N M, sub N M -> progT M M (p_rules s') -> progT N M (p_rules s') -> litT M M p = false).
        { intros N M Hs A B. specialize (Has M M A). destruct (litT M M p) eqn:E; [|auto]. destruct Has as (h & [] & _). cbn. now rewrite E. }
        apply assignA_ok; [exact H| |destruct (snd p); discriminate]. intros N M Hs A B. specialize (Hv N M Hs A B). unfold litT in Hv. destruct (snd p); (split; [discriminate|]); (split; [|]); try discriminate; intros _; [now apply negb_false_iff|auto].
    + destruct b as [ls|bd l]; [|exact Same]. destruct ls as [|p ls]; [|exact Same]. destruct (k_fact (p_known s') a); [exact Same|].
      assert (Na : forall N M, progT N M (p_rules s') -> N a = true) by (intros N M A; destruct (Has N M A eq_refl) as (h & [<-|[]] & X); exact X).
      apply (assignA_ok (Ps (Kn (k_val (p_known s')) (k_rel (p_known s')) (setAt (k_fact (p_known s')) a true) (k_false (p_known s'))) (setAt (p_ign s') a true) (p_conf s') (p_marks s') (p_rules s'))); [| |discriminate].
      * destruct H as [Hk Hi Hc Hm]. split; [| |exact Hc|exact Hm]; cbn [p_known p_rules p_ign].
        -- intros N M Hs A B b. destruct (Hk N M Hs A B b) as (K1 & K2 & K3). split; [auto|]. split; [|auto]. cbn [k_val k_fact]. unfold setAt. destruct (b =? a) eqn:Eb; [|auto]. apply Nat.eqb_eq in Eb. subst b. intros _. now apply (Na N M).
        -- intros b N M Ib Hs A B Mb. unfold setAt in Ib. destruct (b =? a) eqn:Eb; [apply Nat.eqb_eq in Eb; subst b; now apply (Na N M)|]. now apply (Hi b N M).
      * intros N M Hs A B. cbn [p_rules] in A, B. split; [intros _; now apply (Na N M)|]. split; discriminate.
    + exact Same.
Qed.
Lemma addSimplified_ok bodyId s r s' t : pinv s -> posB (r_body r) -> addSimplified bodyId s r = (s', t) -> t = false ->
  pinv s' /\ eqv (p_rules s ++ [r]) (p_rules s') /\ (p_rules s' = p_rules s \/ exists r', p_rules s' = p_rules s ++ [r'] /\ cleanHead (p_known s) (r_head r') /\ cleanBody (p_known s) (r_body r')).
Proof.
  intros H Hp E Ht. unfold addSimplified in E. pose proof (i_m _ H) as Hm. rewrite Hm in E. destruct (simplifyRule bodyId (p_known s) noMarks r) as [m o] eqn:Es.
  pose proof (simplify_eqv _ _ (p_rules s) _ _ _ (i_k _ H) Hp Es) as Eq. destruct (simplifyRule_good _ _ _ _ _ Hp Es) as (Gm & _ & Gs).
  destruct o as [r'| |]; injection E as <- <-; [| |discriminate].
  - rewrite Gm by discriminate. assert (H' : pinv (Ps (p_known s) (p_ign s) (p_conf s) noMarks (p_rules s))) by (rewrite <- Hm; destruct s; exact H).
    destruct (learn_ok _ r' H') as [L1 L2]. split; [auto|]. rewrite L2. cbn [p_rules]. split; [auto|]. right. exists r'. destruct (Gs r' eq_refl) as (_ & _ & A & B & _). auto.
  - rewrite Gm by discriminate. split; [rewrite <- Hm; destruct s; exact H|]. cbn [p_rules]. auto.
Qed.
Lemma addSimplifiedAll_ok bodyId : forall P s s' t, pinv s -> posP P -> addSimplifiedAll bodyId s P = (s', t) -> t = false -> pinv s' /\ eqv (p_rules s ++ P) (p_rules s').
Proof.
  induction P as [|r P IH]; intros s s' t H Hp E Ht; cbn [addSimplifiedAll] in E.
  - injection E as <- <-. split; [auto|]. rewrite app_nil_r. apply eqv_refl.
  - destruct (addSimplified bodyId s r) as [s1 t1] eqn:E1. destruct t1; [injection E as <- <-; discriminate|]. apply addSimplified_ok in E1 as (A & B & _); auto; [|apply Hp; now left].
    apply IH in E as (C & D); auto; [|intros x J; apply Hp; now right]. split; [auto|]. apply eqv_trans with (2 := D). replace (p_rules s ++ r :: P) with ((p_rules s ++ [r]) ++ P) by (rewrite <- app_assoc; reflexivity). now apply eqv_app.
Qed.
Lemma start_inv : pinv startProgram.
Proof. split; cbn; [intros N M _ _ _ a; cbn; repeat split; intros X; repeat destruct X as [X|X]; discriminate|intros a N M X; discriminate|discriminate|reflexivity]. Qed.
