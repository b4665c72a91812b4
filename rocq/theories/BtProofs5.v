(** C53: propagation. *)
From Coq Require Import List Arith Bool Lia Permutation.
From Verif Require Import Base IgSpec BtSpec BtModel BtProofs BtProofs2 BtProofs3 BtProofs4.
Import ListNotations.

Lemma false_neg s x : isFalse s x = isTrue s (neg x).
Proof. unfold isFalse, isTrue, pval, neg. destruct x as [v b]. cbn. destruct (s v) as [y|]; cbn; [destruct y, b; easy | easy]. Qed.
Lemma put_true s x : isTrue (put s x) x = true.
Proof. unfold isTrue, pval, put. rewrite Nat.eqb_refl. cbn. now destruct (snd x). Qed.
Lemma put_ext s x : free s x -> pextends (put s x) s.
Proof. unfold free, pextends, put. intros F v b E. destruct (v =? fst x) eqn:V; [apply Nat.eqb_eq in V; congruence | easy]. Qed.
Lemma put_inv s x y : isTrue (put s x) y = true -> isTrue s y = true \/ y = x.
Proof.
  unfold isTrue, pval, put. destruct (fst y =? fst x) eqn:V; [|auto]. apply Nat.eqb_eq in V. destruct (var_cases y x V) as [-> | ->]; [auto|]. destruct x as [v b]. cbn. destruct b; easy.
Qed.
Lemma ext_trans s1 s2 s3 : pextends s2 s1 -> pextends s3 s2 -> pextends s3 s1.
Proof. intros A B v b E. now apply B, A. Qed.
Lemma false_ext s s' x : pextends s' s -> isFalse s x = true -> isFalse s' x = true.
Proof. rewrite !false_neg. apply true_ext. Qed.
Lemma free_dec s x : isFreeL s x = false -> isTrue s x = true \/ isFalse s x = true.
Proof. intro H. rewrite false_neg. destruct (three s x) as [T | [T | F]]; auto. apply freeL in F. congruence. Qed.
Lemma not_both s x : isTrue s x = true -> isFalse s x = true -> False.
Proof. rewrite false_neg. intros T F. apply true_neg in T as [T _]. congruence. Qed.
Lemma holds_neg A x : holds A (neg x) = negb (holds A x).
Proof. unfold holds, neg. destruct x as [v b]. cbn. now destruct (A v), b. Qed.

(** One more literal set, or none *)
Definition grown (s s' : pasg) (new : list (lit * list lit)) : Prop :=
  pextends s' s /\ (forall x w, In (x, w) new -> free s x /\ isTrue s' x = true) /\ (forall x, isTrue s' x = true -> isTrue s x = true \/ In x (map fst new)) /\ NoDup (map (fun t => fst (fst t)) new).
Lemma grown_refl s : grown s s [].
Proof. split; [now intros v b|]. split; [easy|]. split; [auto | constructor]. Qed.
Lemma grown_trans s1 s2 s3 n1 n2 : grown s1 s2 n1 -> grown s2 s3 n2 -> grown s1 s3 (n2 ++ n1).
Proof.
  intros (A1 & A2 & A3 & A4) (B1 & B2 & B3 & B4). split; [eapply ext_trans; eauto|]. split; [|split].
  - intros x w H. apply in_app_iff in H as [H | H].
    + destruct (B2 x w H) as [F T]. split; [|easy]. unfold free in *. destruct (s1 (fst x)) as [b|] eqn:E; [|easy]. apply A1 in E. congruence.
    + destruct (A2 x w H) as [F T]. split; [easy | eapply true_ext; eauto].
  - intros x T. rewrite map_app, in_app_iff. destruct (B3 x T) as [T' | H]; [|auto]. destruct (A3 x T') as [T'' | H]; auto.
  - rewrite map_app. clear - A1 A2 A4 B1 B2 B4. induction n2 as [|[x w] n2 IH]; [easy|]. cbn in *. inversion B4 as [|? ? N D]; subst. constructor; [|apply IH; [intros; now apply (B2 x0 w0); right | easy]].
    rewrite in_app_iff. intros [H | H]; [easy|]. apply in_map_iff in H as ([y v] & E & H). cbn in E. destruct (A2 y v H) as [_ T]. destruct (B2 x w (or_introl eq_refl)) as [F _]. apply true_neg in T as [_ T]. apply T. unfold free in *. now rewrite E.
Qed.
Lemma force_spec s tr x w b s' tr' : force s tr x w = (b, s', tr') ->
  (b = true /\ isTrue s' x = true /\ exists new, tr' = new ++ tr /\ grown s s' new /\ (new = [] \/ new = [(x, w)])) \/ (b = false /\ s' = s /\ tr' = (x, w) :: tr /\ isFalse s x = true).
Proof.
  unfold force. destruct (isFalse s x) eqn:F; [intros [= <- <- <-]; now right|]. destruct (isTrue s x) eqn:T; intros [= <- <- <-]; left.
  - split; [easy|]. split; [easy|]. exists []. split; [easy|]. split; [apply grown_refl | now left].
  - split; [easy|]. split; [apply put_true|]. exists [(x, w)]. split; [easy|]. split; [|now right].
    assert (FR : free s x) by (destruct (three s x) as [Y | [Y | Y]]; [congruence | rewrite <- false_neg in Y; congruence | easy]).
    split; [now apply put_ext|]. split; [intros y v [[= <- <-] | []]; split; [easy | apply put_true]|]. split; [|cbn; constructor; [easy | constructor]].
    intros y Y. apply put_inv in Y as [Y | ->]; [auto | right; now left].
Qed.

Definition good (p : lit) (es : list entry) (s : pasg) (t : lit * list lit) : Prop := (forall y, In y (snd t) -> isTrue s y = true) /\ exists e, In e es /\ In (fst t) (elits e) /\ reason p e (fst t) (snd t).
Lemma propE_spec p s tr e b s' tr' : isTrue s p = true -> propE p s tr e = (b, s', tr') ->
  (b = true /\ (forall x, unit_ s e x -> isTrue s' x = true) /\ exists new, tr' = new ++ tr /\ grown s s' new /\ (new = [] \/ exists t, new = [t] /\ good p [e] s t)) \/
  (b = false /\ s' = s /\ exists x w, tr' = (x, w) :: tr /\ isFalse s x = true /\ good p [e] s (x, w)).
Proof.
  intros TP H. assert (RE : forall x y w, elits e = [x] /\ w = [p] \/ (elits e = [x; y] \/ elits e = [y; x]) /\ w = [p; neg y] -> reason p e x w).
  { intros x y w K. split; [destruct K as [[_ ->] | [_ ->]]; now left|]. intros A HA (z & Z & HZ). destruct K as [[K _] | [[K | K] ->]]; rewrite K in Z; cbn in Z.
    - destruct Z as [<- | []]. easy.
    - destruct Z as [<- | [<- | []]]; [easy|]. specialize (HA (neg y) (or_intror (or_introl eq_refl))). rewrite holds_neg, HZ in HA. easy.
    - destruct Z as [<- | [<- | []]]; [|easy]. specialize (HA (neg y) (or_intror (or_introl eq_refl))). rewrite holds_neg, HZ in HA. easy. }
  assert (U1 : forall x y, e = Bin x -> unit_ s e y -> y = x). { intros x y -> (o & [E | E] & _); cbn in E; [now injection E|]. destruct o as [|z o]; [now injection E | destruct o; easy]. }
  assert (U2 : forall x y z, e = Ter x y -> unit_ s e z -> z = x /\ isFalse s y = true \/ z = y /\ isFalse s x = true).
  { intros x y z -> (o & [E | E] & F); cbn in E.
    - injection E as <- <-. inversion F. now left.
    - destruct o as [|a [|b0 o]]; [easy | | destruct o; easy]. injection E as <- <-. inversion F. now right. }
  assert (G0 : (b, s', tr') = (true, s, tr) -> (forall x, unit_ s e x -> isTrue s x = true) -> (b = true /\ (forall x, unit_ s e x -> isTrue s' x = true) /\ exists new, tr' = new ++ tr /\ grown s s' new /\ (new = [] \/ exists t, new = [t] /\ good p [e] s t))).
  { intros [= -> -> ->] U. split; [easy|]. split; [easy|]. exists []. split; [easy|]. split; [apply grown_refl | now left]. }
  assert (G1 : forall x w, force s tr x w = (b, s', tr') -> In x (elits e) -> reason p e x w -> (forall y, In y w -> isTrue s y = true) -> (forall z, unit_ s e z -> z = x \/ isFalse s x = true) ->
     (b = true /\ (forall x, unit_ s e x -> isTrue s' x = true) /\ exists new, tr' = new ++ tr /\ grown s s' new /\ (new = [] \/ exists t, new = [t] /\ good p [e] s t)) \/
     (b = false /\ s' = s /\ exists x w, tr' = (x, w) :: tr /\ isFalse s x = true /\ good p [e] s (x, w))).
  { intros x w F I R T U. apply force_spec in F as [(-> & TX & new & -> & GR & N) | (-> & -> & -> & FX)].
    - left. split; [easy|]. split; [intros z Z; destruct (U z Z) as [-> | FX]; [easy|]; exfalso; apply (not_both s' x TX), (false_ext s); [apply GR | easy]|]. exists new. split; [easy|]. split; [easy|].
      destruct N as [-> | ->]; [now left|]. right. exists (x, w). split; [easy|]. split; [easy|]. exists e. split; [now left|]. easy.
    - right. split; [easy|]. split; [easy|]. exists x, w. split; [easy|]. split; [easy|]. split; [easy|]. exists e. split; [now left|]. easy. }
  destruct e as [x | x y]; cbn [propE] in H.
  - destruct (isTrue s x) eqn:T; [left; apply G0; [easy|]; intros z Z; now rewrite (U1 x z eq_refl Z)|].
    apply (G1 x [p]); [easy | now left | apply (RE x x); now left | intros z [<- | []]; easy |]. intros z Z. left. now apply (U1 x).
  - destruct (isTrue s x) eqn:TX; cbn [negb andb] in H.
    { left. apply G0; [easy|]. intros z Z. destruct (U2 x y z eq_refl Z) as [[-> _] | [_ F]]; [easy|]. destruct (not_both s x); easy. }
    destruct (isTrue s y) eqn:TY; cbn [negb andb] in H.
    { left. apply G0; [easy|]. intros z Z. destruct (U2 x y z eq_refl Z) as [[_ F] | [-> _]]; [destruct (not_both s y); easy | easy]. }
    destruct (isFreeL s x) eqn:FX; cbn [negb orb] in H.
    + destruct (isFreeL s y) eqn:FY; cbn [negb] in H.
      * left. apply G0; [easy|]. intros z Z. apply freeL in FX, FY. exfalso. unfold free in *. destruct (U2 x y z eq_refl Z) as [[_ F] | [_ F]]; unfold isFalse, pval in F; rewrite ?FX, ?FY in F; easy.
      * destruct (free_dec s y FY) as [K | K]; [congruence|]. apply (G1 x [p; neg y]); [easy | now left | apply (RE x y); right; auto | intros z [<- | [<- | []]]; [easy | now rewrite <- false_neg]|].
        intros z Z. destruct (U2 x y z eq_refl Z) as [[-> _] | [_ F]]; auto.
    + destruct (free_dec s x FX) as [K | K]; [congruence|]. apply (G1 y [p; neg x]); [easy | right; now left | apply (RE y x); right; auto | intros z [<- | [<- | []]]; [easy | now rewrite <- false_neg]|].
      intros z Z. destruct (U2 x y z eq_refl Z) as [[_ F] | [-> _]]; auto.
Qed.
Lemma unit_ext s s' e x : pextends s' s -> unit_ s e x -> unit_ s' e x.
Proof. intros X (o & E & F). exists o. split; [easy|]. eapply Forall_impl; [|exact F]. cbn. intros y Y. eapply false_ext; eauto. Qed.
Lemma derived_incl p es es' s tr : incl es es' -> derived p es s tr -> derived p es' s tr.
Proof. intros I. induction 1 as [|x w tr D IH T (e & E & E')]; constructor; auto. exists e. split; [now apply I | easy]. Qed.
Lemma derived_app p es s s1 n1 n2 : grown s s1 n1 -> derived p es s n1 -> derived p es s1 n2 -> derived p es s (n2 ++ n1).
Proof.
  intros (_ & _ & G & _) D1. induction 1 as [|x w tr D IH T E]; [easy|]. cbn [app]. constructor; [easy | | easy]. intros y Y. rewrite map_app, in_app_iff. destruct (T y Y) as [K | K]; [|auto]. destruct (G y K); auto.
Qed.
Lemma propL_spec p es : forall s tr b s' tr', isTrue s p = true -> propL p s tr es = (b, s', tr') -> exists new, tr' = new ++ tr /\ derived p es s new /\
  (b = true -> grown s s' new /\ forall e x, In e es -> unit_ s e x -> isTrue s' x = true) /\
  (b = false -> exists x w new', new = (x, w) :: new' /\ isFalse s' x = true /\ grown s s' new').
Proof.
  induction es as [|e es IH]; intros s tr b s' tr' TP H; cbn [propL] in H.
  - injection H as <- <- <-. exists []. split; [easy|]. split; [constructor|]. split; [intros _; split; [apply grown_refl | easy] | easy].
  - destruct (propE p s tr e) as [[b1 s1] tr1] eqn:E. assert (D1 : forall t, good p [e] s t -> derived p (e :: es) s [t]).
    { intros [x w] [T (e' & [<- | []] & E2 & E3)]. constructor; [constructor | intros y Y; left; now apply T|]. exists e. split; [now left | easy]. }
    apply propE_spec in E as [(-> & U & n1 & -> & G1 & F1) | (-> & -> & x & w & -> & FX & GX)]; [| |easy].
    + destruct (IH s1 (n1 ++ tr) b s' tr' (true_ext _ _ _ (proj1 G1) TP) H) as (n2 & -> & D2 & K1 & K2). exists (n2 ++ n1). split; [apply app_assoc|].
      split; [|split].
      * eapply derived_app; [exact G1 | | apply (derived_incl p es); [now right | easy]]. destruct F1 as [-> | (t & -> & GT)]; [constructor | now apply D1].
      * intro B. destruct (K1 B) as (G2 & U2). split; [eapply grown_trans; eauto|]. intros e' x [<- | E'] UE.
        -- apply (true_ext s1 s'); [apply G2 | now apply U].
        -- apply (U2 e' x E'). eapply unit_ext; [apply G1 | easy].
      * intro B. destruct (K2 B) as (x & w & n' & -> & FX & G2). exists x, w, (n' ++ n1). split; [easy|]. split; [easy | eapply grown_trans; eauto].
    + injection H as <- <- <-. exists [(x, w)]. split; [easy|]. split; [now apply D1|]. split; [easy|]. intros _. exists x, w, []. split; [easy|]. split; [easy | apply grown_refl].
Qed.
