(** Preprocessor: invariant, meaning of a state, facts and strengthening *)
From Coq Require Import List Bool Arith ZArith NArith Lia.
Import ListNotations.
From Verif Require Import Base ElModel ElSpec.

Lemma upd_same {A} (f : nat -> A) k x : upd f k x k = x.
Proof. unfold upd. now rewrite Nat.eqb_refl. Qed.
Lemma upd_other {A} (f : nat -> A) k x i : i <> k -> upd f k x i = f i.
Proof. unfold upd. intros H. apply Nat.eqb_neq in H. now rewrite H. Qed.

Lemma NoDup_snoc {A} (l : list A) x : NoDup l -> ~ In x l -> NoDup (l ++ [x]).
Proof.
  induction l as [|y l IH]; cbn; intros N H; [repeat constructor; auto|].
  inversion N; subst. constructor.
  - intros I. apply in_app_or in I as [I|[I|[]]]; [auto|]. subst. apply H. now left.
  - apply IH; auto.
Qed.

Definition lits (s : st) (id : nat) : option (list lit) := option_map k_lits (s_cls s id).

(** Meaning of a state *)
Section El.
Context (R : asg -> Prop) (fz : nat -> bool).

Definition F (s : st) (a : asg) : Prop :=
  R a /\ (forall p, In p (s_tr s) -> holds a p = true)
  /\ (forall id c, lits s id = Some c -> sat_clause a c = true).

Definition lmD (D : list lit) (v : nat) : option bool :=
  option_map (fun p : lit => negb (snd p)) (find (fun p => fst p =? v) D).

Record wf0 (D : list lit) (s : st) : Prop := Wf0 {
  q_lt : forall id c, lits s id = Some c -> id < s_n s;
  q_nd : forall id c, lits s id = Some c -> NoDup (map fst c);
  q_var : forall id c p, lits s id = Some c -> In p c ->
          fst p <> 0 /\ s_elim s (fst p) = false /\ ~ In (fst p) (map fst D);
  q_wat : forall id h t v, lits s id = Some (h :: t) ->
          count_occ Nat.eq_dec (s_wat s v) id <= (if fst h =? v then 1 else 0);
  q_lm : forall v, s_lm s v = lmD D v;
  q_tr : exists r, s_tr s = D ++ r;
  q_tnd : NoDup (map fst (s_tr s));
  q_tvar : forall p, In p (s_tr s) -> fst p <> 0 /\ s_elim s (fst p) = false;
  q_fz : forall v, s_elim s v = true -> fz v = false }.

Definition occOk (s : st) (v : nat) (L : list (nat * bool)) : Prop :=
  (forall id c b, lits s id = Some c -> In (v, b) c -> In (id, b) L)
  /\ (forall id c b, In (id, b) L -> lits s id = Some c -> In (v, b) c)
  /\ NoDup (map fst L).
Definition occs (X : list nat) (s : st) : Prop :=
  forall v, ~ In v X -> occOk s v (s_occ s v).

(** clauses only disappear *)
Definition lsub (s s' : st) : Prop := forall id c, lits s' id = Some c -> lits s id = Some c.
Lemma lsub_refl s : lsub s s. Proof. intros ??; auto. Qed.
Lemma lsub_trans a b c : lsub a b -> lsub b c -> lsub a c.
Proof. intros H K id x E. apply H, K, E. Qed.
Lemma occOk_lsub s s' v L : lsub s s' -> occOk s v L -> occOk s' v L.
Proof.
  intros H (A & B & C). split; [|split; auto].
  - intros id c b E. apply A. now apply H.
  - intros id c b I E. apply (B id c b I). now apply H.
Qed.
Lemma occs_lsub x s s' : lsub s s' -> s_occ s' = s_occ s -> occs x s -> occs x s'.
Proof. intros H E O v N. rewrite E. eapply occOk_lsub; eauto. Qed.

(** what every step of the simplification leaves alone *)
Record frame (s s' : st) : Prop := Frame {
  f_n : s_n s' = s_n s; f_elim : s_elim s' = s_elim s; f_top : s_top s' = s_top s;
  f_tr : exists r, s_tr s' = s_tr s ++ r }.
Lemma frame_refl s : frame s s.
Proof. constructor; auto. exists []. now rewrite app_nil_r. Qed.
Lemma frame_trans a b c : frame a b -> frame b c -> frame a c.
Proof.
  intros [A1 A2 A3 [r1 A4]] [B1 B2 B3 [r2 B4]]. constructor; try congruence.
  exists (r1 ++ r2). now rewrite B4, A4, app_assoc.
Qed.

(** ** The trail *)
Lemma trailVal_some t v b : trailVal t v = Some b -> In (v, negb b) t.
Proof.
  unfold trailVal. match goal with |- context [find ?f t] => destruct (find f t) as [p|] eqn:E end; [|intros H; discriminate H].
  apply find_some in E as [I E]. apply Nat.eqb_eq in E. intros H; injection H as <-.
  rewrite negb_involutive, <- E. now destruct p.
Qed.
Lemma trailVal_none t v : trailVal t v = None -> ~ In v (map fst t).
Proof.
  unfold trailVal. match goal with |- context [find ?f t] => destruct (find f t) as [p|] eqn:E end; [intros H; discriminate H|]. intros _ I.
  apply in_map_iff in I as (p & <- & I). eapply find_none in E; eauto. cbn in E.
  now rewrite Nat.eqb_refl in E.
Qed.
Lemma litVal_some s p b : fst p <> 0 -> s_elim s (fst p) = false -> litVal s p = Some b ->
  In (xorl p (negb b)) (s_tr s).
Proof.
  unfold litVal, value. intros Z E. apply Nat.eqb_neq in Z. rewrite Z, E. cbn.
  destruct (trailVal _ _) as [c|] eqn:T; [|discriminate]. cbn. intros H; injection H as <-.
  apply trailVal_some in T. destruct p as [v sg]; cbn in *. destruct c, sg; cbn in *; auto.
Qed.
Lemma litVal_none s p : litVal s p = None -> fst p <> 0 /\ s_elim s (fst p) = false /\ ~ In (fst p) (map fst (s_tr s)).
Proof.
  unfold litVal, value. destruct (_ || _) eqn:E; [discriminate|]. apply orb_false_iff in E as [Z E].
  apply Nat.eqb_neq in Z. destruct (trailVal _ _) eqn:T; [discriminate|]. intros _.
  split; [|split]; auto. now apply trailVal_none.
Qed.
Lemma litVal_F s a p b : F s a -> fst p <> 0 -> s_elim s (fst p) = false -> litVal s p = Some b -> holds a p = b.
Proof.
  intros (_ & T & _) Z E V. apply litVal_some in V; auto. apply T in V.
  rewrite holds_xorl in V. destruct (holds a p), b; cbn in *; auto.
Qed.

Definition trOnly (s s' : st) : Prop :=
  s_n s' = s_n s /\ s_cls s' = s_cls s /\ s_occ s' = s_occ s /\ s_wat s' = s_wat s /\ s_lm s' = s_lm s
  /\ s_facts s' = s_facts s /\ s_q s' = s_q s /\ s_elim s' = s_elim s /\ s_top s' = s_top s
  /\ exists r, s_tr s' = s_tr s ++ r.
Lemma trOnly_refl s : trOnly s s.
Proof. repeat (split; [reflexivity|]). exists []. now rewrite app_nil_r. Qed.
Lemma trOnly_trans a b c : trOnly a b -> trOnly b c -> trOnly a c.
Proof.
  intros (A1&A2&A3&A4&A5&A6&A7&A8&A9&r1&A10) (B1&B2&B3&B4&B5&B6&B7&B8&B9&r2&B10).
  repeat (split; [congruence|]). exists (r1 ++ r2). now rewrite B10, A10, app_assoc.
Qed.
Lemma trOnly_frame s s' : trOnly s s' -> frame s s'.
Proof. intros (A1&A2&A3&A4&A5&A6&A7&A8&A9&A10). constructor; auto. Qed.
Lemma trOnly_lits s s' : trOnly s s' -> forall id, lits s' id = lits s id.
Proof. intros (_&A&_) id. unfold lits. now rewrite A. Qed.
Lemma trOnly_lsub s s' : trOnly s s' -> lsub s s'.
Proof. intros T id c. now rewrite (trOnly_lits _ _ T). Qed.
Lemma trOnly_occs x s s' : trOnly s s' -> occs x s -> occs x s'.
Proof. intros T. apply occs_lsub; [now apply trOnly_lsub|]. apply T. Qed.

Lemma wf0_tr D s s' : trOnly s s' -> NoDup (map fst (s_tr s')) ->
  (forall p, In p (s_tr s') -> fst p <> 0 /\ s_elim s (fst p) = false) -> wf0 D s -> wf0 D s'.
Proof.
  intros T N V [Q1 Q2 Q3 Q4 Q5 [r Q6] Q7 Q8 Q9].
  pose proof (trOnly_lits _ _ T) as L. destruct T as (A1&A2&A3&A4&A5&A6&A7&A8&A9&r2&A10).
  constructor; auto.
  - intros id c. rewrite L, A1. apply Q1.
  - intros id c. rewrite L. apply Q2.
  - intros id c p. rewrite L, A8. apply Q3.
  - intros id h t v. rewrite L, A4. apply Q4.
  - intros v. now rewrite A5.
  - exists (r ++ r2). now rewrite A10, Q6, app_assoc.
  - intros p. rewrite A8. apply V.
  - intros v. rewrite A8. apply Q9.
Qed.

Lemma force_ok D s p s' b : wf0 D s -> fst p <> 0 -> s_elim s (fst p) = false -> force s p = (s', b) ->
  trOnly s s' /\ wf0 D s' /\ (b = true -> forall a, F s' a <-> F s a /\ holds a p = true)
  /\ (b = false -> forall a, F s a -> holds a p = false).
Proof.
  unfold force. intros W Z E. destruct (litVal s p) as [c|] eqn:V; intros H; injection H as <- <-.
  - split; [apply trOnly_refl|]. split; [auto|]. split.
    + intros -> a. split; [|tauto]. intros Fa. split; [auto|]. eapply litVal_F; eauto.
    + intros -> a Fa. eapply litVal_F; eauto.
  - apply litVal_none in V as (_ & _ & N).
    assert (T : trOnly s (setTr s (s_tr s ++ [p]))).
    { repeat (split; [reflexivity|]). now exists [p]. }
    split; [auto|]. split; [|split; [|discriminate]].
    + eapply wf0_tr; eauto; cbn.
      * rewrite map_app; cbn. apply NoDup_snoc; [apply (q_tnd _ _ W)|exact N].
      * intros q I. apply in_app_or in I as [I|[<-|[]]]; [|auto]. now apply (q_tvar _ _ W).
    + intros _ a. unfold F; cbn. split.
      * intros (A & B & C). split; [split; [auto|split; [|auto]]|].
        -- intros q I. apply B, in_or_app. auto.
        -- apply B, in_or_app. right. now left.
      * intros ((A & B & C) & H). split; [auto|split; [|auto]].
        intros q I. apply in_app_or in I as [I|[<-|[]]]; auto.
Qed.
Lemma forceAll_ok D ps : forall s s' b, wf0 D s -> (forall p, In p ps -> fst p <> 0 /\ s_elim s (fst p) = false) ->
  forceAll s ps = (s', b) ->
  trOnly s s' /\ wf0 D s' /\ (b = true -> forall a, F s' a <-> F s a /\ forall p, In p ps -> holds a p = true)
  /\ (b = false -> forall a, F s a -> ~ forall p, In p ps -> holds a p = true).
Proof.
  induction ps as [|p ps IH]; intros s s' b W V; cbn.
  - intros H; injection H as <- <-. split; [apply trOnly_refl|]. split; [auto|]. split; [|discriminate].
    intros _ a. split; [|tauto]. intros Fa. split; [auto|]. intros ? [].
  - destruct (force s p) as [s1 b1] eqn:E. destruct (V p (or_introl eq_refl)) as [Z El].
    apply (force_ok D) in E as (T & W1 & G & B); auto. destruct b1.
    + intros H. apply IH in H as (T2 & W2 & G2 & B2); auto.
      * split; [eapply trOnly_trans; eauto|]. split; [auto|]. specialize (G eq_refl). split.
        -- intros Hb a. rewrite (G2 Hb a), (G a). split.
           ++ intros ((A & C) & K). split; [auto|]. intros q [<-|I]; auto.
           ++ intros (A & K). split; [split; [auto|]; apply K; now left|]. intros q I. apply K. now right.
        -- intros Hb a Fa K. apply (B2 Hb a); [apply G; split; [auto|apply K; now left]|]. intros q I. apply K; now right.
      * intros q I. destruct T as (_&_&_&_&_&_&_&Te&_). rewrite Te. apply V. now right.
    + intros H; injection H as <- <-. split; [auto|]. split; [auto|]. split; [discriminate|].
      intros _ a Fa K. specialize (B eq_refl a Fa). rewrite (K p) in B; [discriminate|now left].
Qed.

Context (w : world) (SW : soundWorld R fz w).

Lemma tick_trOnly s : trOnly s (tick s).
Proof. repeat (split; [reflexivity|]). exists []. cbn. now rewrite app_nil_r. Qed.
Lemma wf0_tick D s : wf0 D s -> wf0 D (tick s).
Proof. intros []. constructor; auto. Qed.

Lemma propagate_ok D s s' b : (forall v, fz v = true -> v <> 0) -> wf0 D s -> propagate w s = (s', b) ->
  trOnly s s' /\ wf0 D s' /\ (b = true -> forall a, F s' a <-> F s a) /\ (b = false -> forall a, ~ F s a).
Proof.
  intros Z0 W. unfold propagate. pose proof (SW (s_tick s) (s_tr s)) as H.
  destruct (w_prop w (s_tick s) (s_tr s)) as [ps|].
  - intros E. apply (forceAll_ok D) in E as (T & W1 & G & B).
    + split; [eapply trOnly_trans; [apply tick_trOnly|eauto]|]. split; [auto|]. split.
      * intros Hb a. rewrite (G Hb a). split; [now intros [? _]|]. intros Fa. split; [exact Fa|].
        intros p I. apply (H p I). apply Fa. apply Fa.
      * intros Hb a Fa. apply (B Hb a Fa). intros p I. apply (H p I); apply Fa.
    + now apply wf0_tick.
    + intros p I. destruct (H p I) as [Fz _]. split; [auto|]. cbn.
      destruct (s_elim s (fst p)) eqn:E2; [|auto]. apply (q_fz _ _ W) in E2. congruence.
  - intros E; injection E as <- <-. split; [apply tick_trOnly|]. split; [now apply wf0_tick|]. split; [discriminate|].
    intros _ a Fa. apply (H a); apply Fa.
Qed.
End El.
