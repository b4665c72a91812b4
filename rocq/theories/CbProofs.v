From Coq Require Import List Bool Arith Lia.
From Verif Require Import Base ClModel ClProofs CbModel CbSpec.
Import ListNotations.
Local Ltac sp := repeat match goal with |- _ /\ _ => split end.

Definition want (t : ctype) : bool := match t with Brave => true | Cautious => false end.
Definition newFlag (t : ctype) (a : asg) (x : lit * bool) : lit * bool := (fst x, if eqb (snd x) (want t) || eqb (holds a (fst x)) (want t) then want t else snd x).
Definition conLit (t : ctype) (p : lit) : lit := match t with Brave => p | Cautious => neg p end.
Definition conOf (t : ctype) (a : asg) (dl : nat -> nat) (x : lit * bool) : list lit :=
  if eqb (snd x) (want t) || eqb (holds a (fst x)) (want t) || Nat.eqb (dl (fst (fst x))) 0 then [] else [conLit t (fst x)].
Definition estOf (t : ctype) (a : asg) (root : nat) (dl : nat -> nat) (x : lit * bool) : bool :=
  negb (eqb (snd x) (want t) || eqb (holds a (fst x)) (want t)) && Nat.ltb root (dl (fst (fst x))).
Lemma h_neg : forall a p, holds a (neg p) = negb (holds a p).
Proof. intros a [v b]. unfold holds, neg. cbn. destruct (a v), b; reflexivity. Qed.
Lemma oneLit_eq : forall t root a dl p fl, oneLit t root a dl p fl = (snd (newFlag t a (p, fl)), conOf t a dl (p, fl), estOf t a root dl (p, fl)).
Proof. intros t root a dl p fl. unfold oneLit, newFlag, conOf, estOf. rewrite h_neg. cbn [fst snd]. destruct t, fl, (holds a p); cbn [fst snd want eqb orb negb andb conLit]; reflexivity. Qed.
Definition bits (t : ctype) (a : asg) (root : nat) (dl : nat -> nat) (m : values) (l : list (lit * bool)) : values :=
  fold_left (fun m x => addBits m (fst x) (snd (newFlag t a x)) (estOf t a root dl x)) l m.
Lemma addLits_eq : forall t root a dl l m, addLits t root a dl l m = (map (newFlag t a) l, flat_map (conOf t a dl) l, bits t a root dl m l).
Proof.
  intros t root a dl. induction l as [|[p fl] l IH]; intros m; [reflexivity|]. cbn [addLits]. rewrite oneLit_eq, IH. reflexivity.
Qed.
Lemma addCurrent_eq : forall t step root a dl l, addCurrent t step root a dl l = (map (newFlag t a) l, neg step :: flat_map (conOf t a dl) l, bits t a root dl (fun _ => (false, false)) l).
Proof. intros. unfold addCurrent. rewrite addLits_eq. reflexivity. Qed.
Lemma bits_out : forall t a root dl l m p, ~ In p (map fst l) -> bits t a root dl m l p = m p.
Proof.
  intros t a root dl. induction l as [|x l IH]; intros m p N; [reflexivity|]. cbn [bits fold_left]. fold (bits t a root dl (addBits m (fst x) (snd (newFlag t a x)) (estOf t a root dl x)) l). rewrite IH by (intros X; apply N; now right).
  unfold addBits. destruct (lit_eqb p (fst x)) eqn:E; auto. apply lit_eqb_eq in E. exfalso. apply N. now left.
Qed.
Lemma bits_in : forall t a root dl l m x, NoDup (map fst l) -> In x l -> m (fst x) = (false, false) -> bits t a root dl m l (fst x) = (snd (newFlag t a x), estOf t a root dl x).
Proof.
  intros t a root dl. induction l as [|y l IH]; intros m x ND; [intros []|]. intros [<- |X] M; cbn [bits fold_left map] in *; inversion ND as [|? ? N1 N2]; subst.
  - fold (bits t a root dl (addBits m (fst y) (snd (newFlag t a y)) (estOf t a root dl y)) l). rewrite bits_out; auto. unfold addBits. rewrite lit_eqb_refl, M. reflexivity.
  - apply IH; auto. unfold addBits. destruct (lit_eqb (fst x) (fst y)) eqn:E; auto. apply lit_eqb_eq in E. exfalso. apply N1. rewrite <- E. now apply in_map.
Qed.

Section P.
Variables (models : asg -> Prop) (t : ctype) (step : lit) (lits : list lit).
Hypothesis (STEP : forall a, models a -> holds a step = true) (ND : NoDup lits).
(** A model that would change the flags *)
Definition news (l : list (lit * bool)) (a : asg) : Prop := exists p, In (p, negb (want t)) l /\ holds a p = want t.
Definition last_ok (g : gst) : Prop :=
  match g_out g with
  | None => g_pub g = [] /\ fst (g_cur g) = 0
  | Some m => fst (g_cur g) <> 0 /\ forall p fl, In (p, fl) (g_cons g) -> fst (m p) = fl /\ (snd (m p) = false -> fl = want t \/ forall b, models b -> holds b p = negb (want t))
  end.
Record Inv (g : gst) : Prop := {
  i_lits : map fst (g_cons g) = lits;
  i_flag : forall p, In (p, want t) (g_cons g) -> exists a, models a /\ holds a p = want t;
  i_pub : forall c a, In c (g_pub g) -> models a -> news (g_cons g) a -> sat_clause a c = true;
  i_act : forall s, In s (g_sol g) -> incl (s_act s) (g_pub g);
  i_last : forall s, In s (g_sol g) -> s_last s <= fst (g_cur g);
  i_cov : forall a, models a -> news (g_cons g) a \/ g_out g = None -> exists s, In s (g_sol g) /\ s_on s = true /\ s_path s a;
  i_out : last_ok g;
  i_cur : fst (g_cur g) <> 0 -> In (snd (g_cur g)) (g_pub g) /\ forall q, In q (snd (g_cur g)) -> q = neg step \/ exists p, In (p, negb (want t)) (g_cons g) /\ q = conLit t p }.

Lemma con_holds : forall a p, holds a (conLit t p) = true <-> holds a p = want t.
Proof. intros a p. unfold conLit, want. destruct t; [tauto|]. rewrite h_neg. destruct (holds a p); split; auto; discriminate. Qed.
Lemma want_ne : negb (want t) <> want t.
Proof. destruct (want t); discriminate. Qed.
Lemma set_cases : forall (l : list solver) i x s, In s (setSol l i x) -> s = x \/ In s l.
Proof.
  intros l i x s H. unfold setSol in H. apply in_app_or in H as [H|[H|H]]; [right|left; auto|right].
  - rewrite <- (firstn_skipn i l). apply in_or_app. auto.
  - rewrite <- (firstn_skipn (S i) l). apply in_or_app. auto.
Qed.
Lemma set_new : forall (l : list solver) i x, In x (setSol l i x).
Proof. intros. unfold setSol. apply in_or_app. right. now left. Qed.
Lemma set_keep : forall (l : list solver) i x y s, nth_error l i = Some y -> In s l -> s = y \/ In s (setSol l i x).
Proof.
  intros l i x y s N H. unfold setSol. rewrite <- (firstn_skipn i l) in H. apply in_app_or in H as [H|H]; [right; apply in_or_app; auto|].
  assert (E : skipn i l = y :: skipn (S i) l). { clear H. revert i N. induction l as [|z l IH]; intros [|i] N; cbn in *; try discriminate; [congruence|]. apply IH in N. destruct l; [destruct i; discriminate|exact N]. }
  rewrite E in H. destruct H as [H|H]; auto. right. apply in_or_app. right. now right.
Qed.
Lemma set_nth_other : forall (l : list solver) i j x, i <> j -> nth_error l i <> None -> nth_error (setSol l i x) j = nth_error l j.
Proof.
  intros l i j x N. unfold setSol. revert i j N. induction l as [|z l IH]; intros i j N D; [destruct i; cbn in D; congruence|].
  destruct i as [|i], j as [|j]; cbn [firstn skipn app nth_error]; try congruence; auto. apply (IH i j); auto.
Qed.

Lemma inv_start : forall k, Inv (startOf t lits k).
Proof.
  intros k. unfold startOf, initCons. constructor; cbn [g_cons g_cur g_out g_sol g_pub fst snd].
  - rewrite map_map. cbn. apply map_id.
  - intros p P. apply in_map_iff in P as [q [Q _]]. injection Q as _ Q. exfalso. destruct t; discriminate.
  - intros c a [].
  - intros s [<- |H]; [intros c []|]. apply repeat_spec in H as ->. intros c [].
  - intros s [<- |H]; [auto|]. apply repeat_spec in H as ->. auto.
  - intros a M _. eexists. split; [now left|]. cbn. auto.
  - unfold last_ok. cbn. auto.
  - congruence.
Qed.
Lemma news_back : forall a l b, news (map (newFlag t a) l) b -> news l b.
Proof.
  intros a l b [p [P1 P2]]. exists p. split; auto. apply in_map_iff in P1 as [[q fl] [E Q]]. unfold newFlag in E. cbn [fst snd] in E. injection E as -> E.
  destruct (eqb fl (want t) || eqb (holds a p) (want t)); [exfalso; symmetry in E; exact (want_ne E)|]. subst. auto.
Qed.

Lemma inv_model : forall g i s a dl root l' c m, Inv g -> nth_error (g_sol g) i = Some s -> s_on s = true -> s_path s a -> models a -> (forall c, In c (s_act s) -> sat_clause a c = true) ->
    (forall v b, dl v <= root -> models b -> (forall c, In c (g_pub g) -> sat_clause b c = true) -> b v = a v) ->
    addCurrent t step root a dl (g_cons g) = (l', c, m) -> Inv (G l' (S (fst (g_cur g)), c) (Some m) (g_sol g) (c :: g_pub g)).
Proof.
  intros g i s a dl root l' c m I N ON PA MA ACT LV E. rewrite addCurrent_eq in E. injection E as <- <- <-. destruct I as [I1 I2 I3 I4 I5 I6 I7 I8].
  assert (EX : forall p b, In p lits -> models b -> dl (fst p) <= root -> (forall c, In c (g_pub g) -> sat_clause b c = true) -> holds b p = holds a p). { intros p b P MB L S. unfold holds. rewrite (LV (fst p) b); auto. }
  assert (IL : forall p fl, In (p, fl) (g_cons g) -> In p lits). { intros p fl P. rewrite <- I1. apply (in_map fst) in P. exact P. }
  assert (NEWS : forall b, models b -> news (map (newFlag t a) (g_cons g)) b -> forall c, In c (g_pub g) -> sat_clause b c = true).
  { intros b MB NB c C. apply I3; auto. eapply news_back; eauto. }
  assert (FIX : forall p, In (p, negb (want t)) (map (newFlag t a) (g_cons g)) -> holds a p = negb (want t) /\ In (p, negb (want t)) (g_cons g)).
  { intros p P. apply in_map_iff in P as [[q fl] [Q1 Q2]]. unfold newFlag in Q1. cbn [fst snd] in Q1. injection Q1 as -> Q1.
    destruct (eqb fl (want t)) eqn:E1; cbn [orb] in Q1; [exfalso; symmetry in Q1; exact (want_ne Q1)|]. destruct (eqb (holds a p) (want t)) eqn:E2; [exfalso; symmetry in Q1; exact (want_ne Q1)|].
    subst fl. split; auto. destruct (holds a p), (want t); auto; discriminate. }
  constructor; cbn [g_cons g_cur g_out g_sol g_pub fst snd].
  - rewrite map_map. exact I1.
  - intros p P. apply in_map_iff in P as [[q fl] [Q1 Q2]]. unfold newFlag in Q1. cbn [fst snd] in Q1. injection Q1 as -> Q1.
    destruct (eqb fl (want t)) eqn:E1; [apply eqb_prop in E1; subst fl; auto|]. destruct (eqb (holds a p) (want t)) eqn:E2; [apply eqb_prop in E2; eauto|]. cbn in Q1. subst fl. auto.
  - intros c b [<- |C] MB NB; [|apply NEWS; auto]. destruct NB as [p [P1 P2]]. destruct (FIX p P1) as [HA IP].
    destruct (Nat.eqb_spec (dl (fst p)) 0) as [Z|Z].
    + exfalso. rewrite (EX p b) in P2; [rewrite HA in P2; exact (want_ne P2)|eapply IL; eauto|auto|lia|]. apply NEWS; auto. exists p. rewrite P2. auto.
    + apply existsb_exists. exists (conLit t p). split; [|now apply con_holds]. right. apply in_flat_map. exists (p, negb (want t)). split; auto. unfold conOf. cbn [fst snd]. rewrite HA.
      replace (eqb (negb (want t)) (want t)) with false by (destruct (want t); reflexivity). apply Nat.eqb_neq in Z. rewrite Z. cbn. auto.
  - intros x X d D. right. eapply I4; eauto.
  - intros x X. specialize (I5 x X). lia.
  - intros b MB [NB|NB]; [|discriminate]. apply I6; auto. left. eapply news_back; eauto.
  - unfold last_ok. cbn. split; [discriminate|]. intros p fl P. apply in_map_iff in P as [[q f0] [Q1 Q2]]. pose proof Q1 as Q3. unfold newFlag in Q1. cbn [fst snd] in Q1. injection Q1 as -> Q1.
    rewrite (bits_in t a root dl (g_cons g) _ (p, f0)) by (auto; rewrite I1; auto). rewrite Q3. cbn [fst snd]. split; auto. unfold estOf. cbn [fst snd].
    destruct (eqb f0 (want t) || eqb (holds a p) (want t)) eqn:W; [intros _; left; congruence|]. cbn [negb andb]. intros L. apply Nat.ltb_ge in L. right. intros b MB.
    apply orb_false_iff in W as [W1 W2]. assert (F0 : f0 = negb (want t)) by (destruct f0, (want t); auto; discriminate). assert (HA : holds a p = negb (want t)) by (destruct (holds a p), (want t); auto; discriminate).
    destruct (bool_dec (holds b p) (want t)) as [HB|HB]; [|destruct (holds b p), (want t); auto; congruence]. exfalso.
    rewrite (EX p b) in HB; [rewrite HA in HB; exact (want_ne HB)|eapply IL; eauto|auto|auto|]. apply NEWS; auto. exists p. split; [|exact HB]. apply in_map_iff. exists (p, f0). split; auto. unfold newFlag. cbn [fst snd]. rewrite W1, W2. cbn. now rewrite F0.
  - intros _. split; [now left|]. intros q [<- |Q]; auto. right. apply in_flat_map in Q as [[p fl] [P1 P2]]. unfold conOf in P2. cbn [fst snd] in P2.
    destruct (eqb fl (want t) || eqb (holds a p) (want t)) eqn:W; [destruct P2|]. destruct (Nat.eqb (dl (fst p)) 0); [destruct P2|]. destruct P2 as [<- |[]]. exists p. split; auto.
    apply in_map_iff. exists (p, fl). split; auto. unfold newFlag. cbn [fst snd]. rewrite W. apply orb_false_iff in W as [W _]. f_equal. destruct fl, (want t); auto; discriminate.
Qed.
Lemma inv_stp : forall g g', Inv g -> stp models t step g g' -> Inv g'.
Proof.
  intros g g' I H. destruct H as [g i s a dl root l' c m H1 H2 H3 H4 H5 H6 H7|g i s keep H1 H2 H3|g i s H1 H2 H3|g i j s r P Q H0 H1 H2 H3 H4 H5].
  - eapply inv_model; eauto.
  - destruct I as [I1 I2 I3 I4 I5 I6 I7 I8]. pose proof (nth_error_In _ _ H1) as IS. constructor; cbn [g_cons g_cur g_out g_sol g_pub]; auto.
    + intros x X. apply set_cases in X as [-> |X]; [|auto]. intros d [<- |D]; [|exact (I4 s IS d (H3 d D))]. apply I8. specialize (I5 s IS). lia.
    + intros x X. apply set_cases in X as [-> |X]; [cbn|]; auto.
    + intros a MA C. destruct (I6 a MA C) as [x [X1 [X2 X3]]]. destruct (set_keep (g_sol g) i (Sol (s_on s) (s_path s) (snd (g_cur g) :: keep) (fst (g_cur g))) s x H1 X1) as [-> |X]; [|eauto].
      eexists. split; [apply set_new|]. cbn. auto.
  - destruct I as [I1 I2 I3 I4 I5 I6 I7 I8]. pose proof (nth_error_In _ _ H1) as IS. constructor; cbn [g_cons g_cur g_out g_sol g_pub]; auto.
    + intros x X. apply set_cases in X as [-> |X]; [exact (I4 s IS)|auto].
    + intros x X. apply set_cases in X as [-> |X]; [exact (I5 s IS)|auto].
    + intros a MA C. destruct (I6 a MA C) as [x [X1 [X2 X3]]]. destruct (set_keep (g_sol g) i (Sol false (s_path s) (s_act s) (s_last s)) s x H1 X1) as [-> |X]; eauto.
      exfalso. apply (H3 a X3 MA). intros d D. assert (PB : In d (g_pub g)) by (apply (I4 s); auto). destruct C as [C|C]; [apply I3; auto|]. unfold last_ok in I7. cbn in C. rewrite C in I7. destruct I7 as [Z _]. rewrite Z in PB. destruct PB.
  - destruct I as [I1 I2 I3 I4 I5 I6 I7 I8]. pose proof (nth_error_In _ _ H1) as IS. pose proof (nth_error_In _ _ H2) as IR. constructor; cbn [g_cons g_cur g_out g_sol g_pub]; auto.
    + intros x X. apply set_cases in X as [-> |X]; [apply (I4 r); auto|]. apply set_cases in X as [-> |X]; [apply (I4 s); auto|auto].
    + intros x X. apply set_cases in X as [-> |X]; [apply (I5 r); auto|]. apply set_cases in X as [-> |X]; [apply (I5 s); auto|auto].
    + set (l1 := setSol (g_sol g) i (Sol true P (s_act s) (s_last s))). assert (N1 : nth_error l1 j = Some r) by (unfold l1; rewrite set_nth_other; auto; congruence).
      intros a MA C. destruct (I6 a MA C) as [x [X1 [X2 X3]]].
      destruct (set_keep (g_sol g) i (Sol true P (s_act s) (s_last s)) s x H1 X1) as [-> |X].
      * destruct (H5 a X3) as [Y|Y]; [|eexists; split; [apply set_new|]; auto].
        destruct (set_keep l1 j (Sol true Q (s_act r) (s_last r)) r (Sol true P (s_act s) (s_last s)) N1 (set_new _ _ _)) as [Z|Z]; [exfalso; rewrite <- Z in H4; discriminate|eexists; split; [exact Z|]; auto].
      * fold l1 in X. destruct (set_keep l1 j (Sol true Q (s_act r) (s_last r)) r x N1 X) as [-> |Z]; [congruence|eauto].
Qed.
Lemma inv_run : forall k g, run models t step (startOf t lits k) g -> Inv g.
Proof. intros k g R. induction R; [apply inv_start|eapply inv_stp; eauto]. Qed.

Lemma flag_cases : forall g p, Inv g -> In p lits -> In (p, want t) (g_cons g) \/ In (p, negb (want t)) (g_cons g).
Proof. intros g p I P. rewrite <- (i_lits _ I) in P. apply in_map_iff in P as [[q fl] [<- Q]]. cbn. destruct fl, (want t); auto. Qed.
Lemma conseq_want : forall p, (exists a, models a /\ holds a p = want t) -> match t with Brave => conseq models t p | Cautious => ~ conseq models t p end.
Proof. intros p [a [A1 A2]]. unfold want, conseq in *. destruct t; [eauto|]. intros H. rewrite (H a A1) in A2. discriminate. Qed.
Lemma conseq_not : forall p, (forall a, models a -> holds a p = negb (want t)) -> match t with Brave => ~ conseq models t p | Cautious => conseq models t p end.
Proof. intros p H. unfold want, conseq in *. destruct t; cbn in H; auto. intros [a [A1 A2]]. rewrite (H a A1) in A2. discriminate. Qed.
End P.
