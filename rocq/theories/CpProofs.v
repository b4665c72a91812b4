From Coq Require Import List Bool Arith ZArith Lia.
Import ListNotations.
From Verif Require Import Base LpSpec LpProofs SrModel CpModel CpSpec.

Lemma holds_neg A l : holds A (neg l) = negb (holds A l).
Proof. unfold holds, neg. simpl. destruct (A (fst l)), (snd l); reflexivity. Qed.
Lemma holds_xorl A l s : holds A (xorl l s) = xorb (holds A l) s.
Proof. destruct s; simpl; [rewrite holds_neg; now destruct (holds A l)|now destruct (holds A l)]. Qed.
Lemma goal_holds pr A g : holds A (goalLit pr g) = litT (atomsOf pr A) (atomsOf pr A) g.
Proof. unfold goalLit, litT, atomsOf. rewrite holds_xorl. destruct (snd g), (holds A (p_lit pr (fst g))); reflexivity. Qed.
Lemma satAll_app A c d : satAll A (c ++ d) <-> satAll A c /\ satAll A d.
Proof. unfold satAll. split; [intros H; split; intros x I; apply H; apply in_or_app; auto|]. intros [H1 H2] x I. apply in_app_or in I as [I|I]; auto. Qed.
Lemma satAll_cons A c d : satAll A (c :: d) <-> sat A c /\ satAll A d.
Proof. unfold satAll. split; [intros H; split; [apply H; now left|intros x I; apply H; now right]|]. intros [H1 H2] x [<-|I]; auto. Qed.
Lemma satAll_nil A : satAll A [] <-> True.
Proof. split; [auto|]. intros _ x []. Qed.
Lemma satAll_flat {T} A (f : T -> list constr) l : satAll A (flat_map f l) <-> forall x, In x l -> satAll A (f x).
Proof. unfold satAll. split; [intros H x I c J; apply H; apply in_flat_map; eauto|]. intros H c J. apply in_flat_map in J as (x & I & J). eauto. Qed.
Lemma satAll_map {T} A (f : T -> constr) l : satAll A (map f l) <-> forall x, In x l -> sat A (f x).
Proof. unfold satAll. split; [intros H x I; apply H; now apply in_map|]. intros H c J. apply in_map_iff in J as (x & <- & I). eauto. Qed.
Lemma sat_bin A x y : sat A (CClause [x; y]) <-> (holds A x = false -> holds A y = true).
Proof.
  simpl. split.
  - intros (l & [<-|[<-|[]]] & H) N; congruence.
  - intros H. destruct (holds A x) eqn:E; [exists x; auto|exists y; auto].
Qed.
Lemma sat_unit A x : sat A (CClause [x]) <-> holds A x = true.
Proof. simpl. split; [intros (l & [<-|[]] & H); auto|]. intros H. exists x. auto. Qed.

Section Prog.
Variables (pr : prep) (A : asg).
Notation M := (atomsOf pr A).

Lemma goals_ok b : forall gs taut cl bins, goalsLoop pr b gs = (taut, cl, bins) ->
  (satAll A bins <-> (holds A b = true -> forall g, In g gs -> holds A (goalLit pr g) = true))
  /\ (taut = true -> exists g, In g gs /\ goalLit pr g = b)
  /\ (taut = false -> ((exists l, In l (b :: cl) /\ holds A l = true) <-> (holds A b = true \/ exists g, In g gs /\ holds A (goalLit pr g) = false))).
Proof.
  induction gs as [|g gs IH]; intros taut cl bins E; cbn [goalsLoop] in E.
  - injection E as <- <- <-. split; [|split].
    + rewrite satAll_nil. split; [intros _ _ g []|auto].
    + discriminate.
    + intros _. split; [intros (l & [<-|[]] & H); auto|]. intros [H|(g & [] & _)]. exists b. simpl. auto.
  - destruct (goalsLoop pr b gs) as [[t c] bs]. destruct (IH _ _ _ eq_refl) as (H1 & H2 & H3). destruct (lit_eqb (goalLit pr g) b) eqn:Eb.
    + apply lit_eqb_eq in Eb. injection E as <- <- <-. split; [|split].
      * rewrite H1. split; intros H K g' I; [destruct I as [<-|I]; [congruence|auto]|apply H; [auto|now right]].
      * intros _. exists g. split; [now left|auto].
      * discriminate.
    + assert (Nb : goalLit pr g <> b) by (intros X; rewrite <- lit_eqb_eq in X; congruence).
      injection E as <- <- <-. split; [|split].
      * rewrite satAll_cons, H1, sat_bin, holds_neg. split.
        -- intros [K1 K2] Hb g' [<-|I]; [apply K1; now rewrite Hb|auto].
        -- intros K. split; [|intros Hb g' I; apply K; [auto|now right]]. intros Hb. apply K; [now destruct (holds A b)|now left].
      * intros E. destruct (H2 E) as (g' & I & X). exists g'. split; [now right|auto].
      * intros E. specialize (H3 E). destruct (fst (goalLit pr g) =? fst b) eqn:Ev.
        -- rewrite H3. apply Nat.eqb_eq in Ev. assert (Hn : holds A (goalLit pr g) = negb (holds A b)).
           { unfold holds. rewrite Ev. destruct (goalLit pr g) as [v s], b as [w s']. simpl in *. subst w. destruct s, s', (A v); try reflexivity; exfalso; apply Nb; reflexivity. }
           split.
           ++ intros [K|(g' & I & K)]; [now left|right; exists g'; split; [now right|auto]].
           ++ intros [K|(g' & [<-|I] & K)]; [now left|left; rewrite Hn in K; now destruct (holds A b)|right; eauto].
        -- split.
           ++ intros (l & [<-|[<-|I]] & K); [now left| |].
              ** right. exists g. rewrite holds_neg in K. split; [now left|now destruct (holds A (goalLit pr g))].
              ** assert (X : exists l, In l (b :: c) /\ holds A l = true) by (exists l; split; [now right|auto]). apply H3 in X. destruct X as [X|(g' & I' & X)]; [now left|right; exists g'; split; [now right|auto]].
           ++ intros [K|(g' & [<-|I] & K)].
              ** exists b. split; [now left|auto].
              ** exists (neg (goalLit pr g)). split; [right; now left|]. now rewrite holds_neg, K.
              ** assert (X : holds A b = true \/ exists g, In g gs /\ holds A (goalLit pr g) = false) by (right; eauto). apply H3 in X. destruct X as (l & [<-|I'] & X); [exists b; split; [now left|auto]|exists l; split; [right; now right|auto]].
Qed.

Lemma forallb_false_ex {T} (f : T -> bool) l : forallb f l = false <-> exists x, In x l /\ f x = false.
Proof.
  induction l as [|a l IH]; simpl; [split; [discriminate|intros (x & [] & _)]|]. rewrite andb_false_iff, IH. split.
  - intros [H|(x & I & H)]; [exists a; auto|exists x; auto].
  - intros (x & [<-|I] & H); [now left|right; eauto].
Qed.

Lemma sum_ok : forall gs, sumOf A (map (fun x => (goalLit pr (fst x), snd x)) gs) = sumT M M gs.
Proof. induction gs as [|x gs IH]; [reflexivity|]. unfold sumOf, sumT in *. cbn [map fold_right fst snd]. rewrite IH, goal_holds. reflexivity. Qed.

Lemma body_ok b : satAll A (bodyConstraints pr b) <-> holds A (b_lit b) = bodyT M M (b_body b).
Proof.
  unfold bodyConstraints. destruct (b_body b) as [gs|bound gs].
  - destruct (goalsLoop pr (b_lit b) gs) as [[t c] bs] eqn:E. destruct (goals_ok _ _ _ _ _ E) as (H1 & H2 & H3). rewrite satAll_app, H1. cbn [bodyT].
    assert (F : forallb (litT M M) gs = true <-> forall g, In g gs -> holds A (goalLit pr g) = true).
    { rewrite forallb_forall. split; intros H x I; [rewrite goal_holds; auto|rewrite <- goal_holds; auto]. }
    assert (F' : forallb (litT M M) gs = false <-> exists g, In g gs /\ holds A (goalLit pr g) = false).
    { rewrite forallb_false_ex. split; intros (g & I & H); exists g; split; auto; [now rewrite goal_holds|now rewrite <- goal_holds]. }
    destruct t.
    + destruct (H2 eq_refl) as (g & I & Eg). rewrite satAll_nil. split.
      * intros [K _]. destruct (holds A (b_lit b)) eqn:Hb; [symmetry; apply F; auto|]. symmetry. apply F'. exists g. split; [auto|]. congruence.
      * intros K. split; [|auto]. intros Hb. apply F. congruence.
    + rewrite satAll_cons, satAll_nil. cbn [sat]. rewrite (H3 eq_refl). split.
      * intros [K [L _]]. destruct (holds A (b_lit b)) eqn:Hb; [symmetry; apply F; auto|]. symmetry. apply F'. destruct L as [L|L]; [discriminate|auto].
      * intros K. split; [intros Hb; apply F; congruence|]. split; [|auto]. rewrite K. destruct (forallb (litT M M) gs); [now left|right; now apply F'].
  - rewrite satAll_cons, satAll_nil. cbn [sat bodyT]. rewrite sum_ok. split.
    + intros [K _]. destruct (holds A (b_lit b)) eqn:E.
      * symmetry. apply Z.leb_le. now apply K.
      * symmetry. apply Z.leb_gt. destruct (Z_lt_ge_dec (sumT M M gs) bound) as [L|L]; [auto|]. assert (true = false) by (rewrite <- E; symmetry; rewrite E; apply K; lia). discriminate.
    + intros K. split; [|auto]. rewrite K. apply Z.leb_le.
Qed.

Lemma unit_ok v l t : A 0 = true -> holds A l = t -> (satAll A (unitOf v l) <-> hasValue v t).
Proof.
  intros H0 <-. destruct v; cbn [unitOf hasValue trueLit]; [now rewrite satAll_nil| | |]; rewrite satAll_cons, satAll_nil, sat_unit.
  - intuition.
  - rewrite holds_neg. destruct (holds A l); simpl; intuition.
  - intuition.
Qed.

Lemma supports_in a l t : In (l, t) (supports pr a) <-> exists b, In b (p_bodies pr) /\ b_lit b = l /\ In (a, t) (b_heads b).
Proof.
  unfold supports. rewrite in_flat_map. split.
  - intros (b & I & J). apply in_map_iff in J as ([x y] & E & J). apply filter_In in J as [J F]. simpl in *. apply Nat.eqb_eq in F. injection E as <- <-. subst x. exists b. auto.
  - intros (b & I & <- & J). exists b. split; [auto|]. apply in_map_iff. exists (a, t). split; [reflexivity|]. apply filter_In. split; [auto|]. apply Nat.eqb_refl.
Qed.

Lemma hasVar_true l : A 0 = true -> holds A l = true -> hasVar l = true.
Proof. intros H0 H. unfold hasVar. destruct (lit_eqb l litFalse) eqn:E; [|reflexivity]. apply lit_eqb_eq in E. subst l. unfold holds, litFalse, ngt in H. simpl in H. now rewrite H0 in H. Qed.

Lemma atom_ok a : A 0 = true -> (satAll A (atomConstraints pr a) <->
  (forall b t, In b (p_bodies pr) -> In (a, t) (b_heads b) -> isNormal t = true -> holds A (b_lit b) = true -> M a = true)
  /\ (M a = true -> exists b t, In b (p_bodies pr) /\ In (a, t) (b_heads b) /\ holds A (b_lit b) = true)).
Proof.
  intros H0. unfold atomConstraints. rewrite satAll_app, satAll_map, satAll_cons, satAll_nil. fold (holds A (p_lit pr a)). split.
  - intros [H1 [H2 _]]. split.
    + intros b t I J N Hb. specialize (H1 (b_lit b, t)). rewrite sat_bin in H1. cbn [fst] in H1. destruct (M a) eqn:E; [reflexivity|]. unfold atomsOf in E. rewrite holds_neg, Hb in H1. symmetry. simpl in H1. symmetry. apply H1; [|auto].
      apply filter_In. split; [|auto]. apply filter_In. split; [apply supports_in; eauto|]. cbn [fst]. now apply hasVar_true.
    + intros Ha. cbn [sat] in H2. destruct H2 as (l & [<-|I] & H).
      * rewrite holds_neg in H. unfold atomsOf in Ha. rewrite Ha in H. discriminate.
      * apply in_map_iff in I as ([x t] & E & I). cbn [fst] in E. subst x. apply filter_In in I as [I _]. apply supports_in in I as (b & I & <- & J). exists b, t. auto.
  - intros [H1 H2]. split; [|split; [|auto]].
    + intros [l t] I. cbn [fst snd] in *. apply filter_In in I as [I N]. apply filter_In in I as [I V]. apply supports_in in I as (b & I & <- & J). rewrite sat_bin. intros F. rewrite holds_neg. destruct (holds A (b_lit b)) eqn:Hb; [|reflexivity]. specialize (H1 b t I J N Hb). unfold atomsOf in H1. congruence.
    + cbn [sat]. destruct (M a) eqn:Ha.
      * destruct (H2 eq_refl) as (b & t & I & J & Hb). exists (b_lit b). split; [|auto]. right. apply in_map_iff. exists (b_lit b, t). split; [reflexivity|]. apply filter_In. split; [apply supports_in; eauto|]. now apply hasVar_true.
      * exists (neg (p_lit pr a)). split; [now left|]. rewrite holds_neg. unfold atomsOf in Ha. now rewrite Ha.
Qed.

(** The meaning of all constraints together, in terms of edges. *)
Definition clark : Prop :=
  A 0 = true /\ bodiesOk pr A /\ valuesOk pr M
  /\ (forall b a t, In b (p_bodies pr) -> In (a, t) (b_heads b) -> In a (p_atoms pr) -> isNormal t = true -> bodyT M M (b_body b) = true -> M a = true)
  /\ (forall a, In a (p_atoms pr) -> M a = true -> exists b t, In b (p_bodies pr) /\ In (a, t) (b_heads b) /\ bodyT M M (b_body b) = true)
  /\ (p_noGamma pr = true -> forall b hs, In b (p_bodies pr) -> In hs (b_disj b) -> bodyT M M (b_body b) = true -> exists h, In h hs /\ M h = true).

Lemma disj_ok : satAll A (disjConstraints pr) <-> (p_noGamma pr = true -> forall b hs, In b (p_bodies pr) -> In hs (b_disj b) -> holds A (b_lit b) = true -> exists h, In h hs /\ M h = true).
Proof.
  unfold disjConstraints. destruct (p_noGamma pr).
  - rewrite satAll_flat. split.
    + intros H _ b hs I J Hb. specialize (H b I). rewrite satAll_map in H. specialize (H hs J). cbn [sat] in H. destruct H as (l & [<-|K] & H); [rewrite holds_neg, Hb in H; discriminate|]. apply in_map_iff in K as (h & <- & K). exists h. auto.
    + intros H b I. rewrite satAll_map. intros hs J. cbn [sat]. destruct (holds A (b_lit b)) eqn:Hb.
      * destruct (H eq_refl b hs I J Hb) as (h & K & L). exists (p_lit pr h). split; [right; now apply in_map|exact L].
      * exists (neg (b_lit b)). split; [now left|]. now rewrite holds_neg, Hb.
  - rewrite satAll_nil. split; [intros _ H; discriminate|auto].
Qed.

Lemma clark_ok : satAll A (addConstraints pr) <-> clark.
Proof.
  unfold addConstraints, clark. rewrite satAll_cons, !satAll_app, !satAll_flat, sat_unit, disj_ok.
  assert (E0 : holds A litTrue = A 0) by (unfold holds, litTrue, pos; simpl; now destruct (A 0)). rewrite E0. split.
  - intros (H0 & H1 & H2 & H3). assert (B : bodiesOk pr A) by (intros b I; specialize (H2 b I); rewrite satAll_app in H2; now apply body_ok).
    split; [auto|]. split; [exact B|]. split; [|split; [|split]].
    + split.
      * intros b I. specialize (H2 b I). rewrite satAll_app in H2. destruct H2 as [H2 _]. apply unit_ok with (t := bodyT M M (b_body b)) in H2; auto.
      * intros a I. specialize (H3 a I). rewrite satAll_app in H3. destruct H3 as [H3 _]. apply unit_ok with (t := M a) in H3; auto.
    + intros b a t I J Ia N Hb. specialize (H3 a Ia). rewrite satAll_app in H3. destruct H3 as [_ H3]. apply atom_ok in H3 as [H3 _]; [|auto]. apply (H3 b t); auto. rewrite B; auto.
    + intros a Ia Ha. specialize (H3 a Ia). rewrite satAll_app in H3. destruct H3 as [_ H3]. apply atom_ok in H3 as [_ H3]; [|auto]. destruct (H3 Ha) as (b & t & I & J & Hb). exists b, t. rewrite <- B; auto.
    + intros G b hs I J Hb. apply (H1 G b hs); auto. rewrite B; auto.
  - intros (H0 & B & [V1 V2] & H1 & H2 & H3). split; [auto|]. split; [|split].
    + intros G b hs I J Hb. apply (H3 G b hs); auto. rewrite <- B; auto.
    + intros b I. rewrite satAll_app. split; [apply unit_ok with (t := bodyT M M (b_body b)); auto|apply body_ok; auto].
    + intros a I. rewrite satAll_app. split; [apply unit_ok with (t := M a); auto|]. apply atom_ok; [auto|]. split.
      * intros b t Ib J N Hb. apply (H1 b a t); auto. rewrite <- B; auto.
      * intros Ha. destruct (H2 a I Ha) as (b & t & Ib & J & Hb). exists b, t. rewrite B; auto.
Qed.

End Prog.

Lemma rules_in pr r : In r (rulesOf pr) <-> exists b, In b (p_bodies pr) /\
  ((exists a, r = Rule false [a] (b_body b) /\ In (a, ENormal) (b_heads b))
   \/ (exists a, r = Rule true [a] (b_body b) /\ In (a, EChoice) (b_heads b))
   \/ (exists hs, r = Rule false hs (b_body b) /\ In hs (b_disj b))).
Proof.
  unfold rulesOf. rewrite in_flat_map. split.
  - intros (b & I & J). exists b. split; [auto|]. unfold headRules in J. apply in_app_or in J as [J|J].
    + apply in_flat_map in J as ([a t] & K & J). cbn [fst snd] in J. destruct t; cbn in J; try contradiction; destruct J as [<-|[]]; [left|right; left]; exists a; auto.
    + apply in_map_iff in J as (hs & <- & J). right. right. exists hs. auto.
  - intros (b & I & H). exists b. split; [auto|]. unfold headRules. apply in_or_app. destruct H as [(a & -> & J)|[(a & -> & J)|(hs & -> & J)]].
    + left. apply in_flat_map. exists (a, ENormal). split; [auto|now left].
    + left. apply in_flat_map. exists (a, EChoice). split; [auto|now left].
    + right. apply in_map_iff. exists hs. auto.
Qed.

Lemma clark_rules pr A : prepared pr ->
  (clark pr A <-> A 0 = true /\ bodiesOk pr A /\ valuesOk pr (atomsOf pr A) /\ progT (atomsOf pr A) (atomsOf pr A) (rulesOf pr) /\ supported (negb (p_noGamma pr)) (rulesOf pr) (atomsOf pr A)).
Proof.
  intros W. set (M := atomsOf pr A). unfold clark. fold M. split.
  - intros (H0 & B & V & H1 & H2 & H3). split; [auto|]. split; [exact B|]. split; [exact V|]. split.
    + intros r I. apply rules_in in I as (b & I & [(a & -> & J)|[(a & -> & J)|(hs & -> & J)]]); unfold ruleT; cbn [r_body r_choice r_head]; intros Hb.
      * exists a. split; [now left|]. apply (H1 b a ENormal); auto. apply (pw_heads pr W b (a, ENormal)); auto.
      * auto.
      * destruct (p_noGamma pr) eqn:G; [apply (H3 eq_refl b hs); auto|].
        destruct (existsb M hs) eqn:E; [apply existsb_exists in E as (h & K & L); exists h; auto|]. exfalso.
        assert (Z : forall o, In o hs -> M o = false) by (intros o K; destruct (M o) eqn:Eo; [|reflexivity]; rewrite <- E; symmetry; apply existsb_exists; eauto).
        destruct hs as [|h hs]; [now apply (pw_nonempty pr W b [])|].
        destruct (pw_shift pr W G b (h :: hs) h I J) as [(b' & t & I' & J' & N & S)|S]; [now left| |].
        -- assert (Hh : M h = true). { apply (H1 b' h t); auto; [apply (pw_heads pr W b' (h, t)); auto|]. apply S. split; [auto|]. intros o K _. auto. } rewrite (Z h) in Hh; [discriminate|now left].
        -- destruct (S M Hb) as (o & K & _ & L). rewrite (Z o K) in L. discriminate.
    + intros a Ha.
      assert (Ia : In a (p_atoms pr)). { destruct (in_dec Nat.eq_dec a (p_atoms pr)) as [Y|N]; [exact Y|]. exfalso. unfold M, atomsOf in Ha. rewrite (pw_other pr W a N) in Ha. unfold holds, litFalse, ngt in Ha. simpl in Ha. rewrite H0 in Ha. discriminate. }
      destruct (H2 a Ia Ha) as (b & t & I & J & Hb). destruct t.
      * exists (Rule false [a] (b_body b)). split; [apply rules_in; exists b; split; [auto|left; eauto]|]. cbn [r_head r_body r_choice]. split; [now left|]. split; [auto|]. intros _ _ h [->|[]] _. reflexivity.
      * destruct (p_noGamma pr) eqn:G; [exfalso; apply (pw_noShift pr W G b a I J)|]. destruct (pw_gamma pr W G b a I J) as (b0 & hs & I0 & J0 & K0 & S).
        exists (Rule false hs (b_body b0)). split; [apply rules_in; exists b0; split; [auto|right; right; eauto]|]. cbn [r_head r_body r_choice]. destruct (proj1 (S M) Hb) as [Hb1 Hb2]. split; [auto|]. split; [auto|]. intros _ _ h Kh Mh.
        destruct (Nat.eq_dec h a) as [->|Ne]; [reflexivity|]. rewrite (Hb2 h Kh Ne) in Mh. discriminate.
      * exists (Rule true [a] (b_body b)). split; [apply rules_in; exists b; split; [auto|right; left; eauto]|]. cbn [r_head r_body r_choice]. split; [now left|]. split; [auto|]. intros _ X. discriminate.
      * destruct (pw_noChoice pr W b a I J) as (G & hs & K1 & K2). exists (Rule false hs (b_body b)). split; [apply rules_in; exists b; split; [auto|right; right; eauto]|]. cbn [r_head r_body r_choice]. split; [auto|]. split; [auto|]. rewrite G. intros X. discriminate.
  - intros (H0 & B & V & T & S). split; [auto|]. split; [exact B|]. split; [exact V|]. split; [|split].
    + intros b a t I J Ia N Hb. destruct t; try discriminate.
      * assert (X : ruleT M M (Rule false [a] (b_body b))) by (apply T; apply rules_in; exists b; split; [auto|left; eauto]). destruct (X Hb) as (h & [<-|[]] & K). exact K.
      * destruct (p_noGamma pr) eqn:G; [exfalso; apply (pw_noShift pr W G b a I J)|]. destruct (pw_gamma pr W G b a I J) as (b0 & hs & I0 & J0 & K0 & Sh). destruct (proj1 (Sh M) Hb) as [Hb1 Hb2].
        assert (X : ruleT M M (Rule false hs (b_body b0))) by (apply T; apply rules_in; exists b0; split; [auto|right; right; eauto]). destruct (X Hb1) as (h & K & L). destruct (Nat.eq_dec h a) as [->|Ne]; [exact L|]. rewrite (Hb2 h K Ne) in L. discriminate.
    + intros a Ia Ha. destruct (S a Ha) as (r & I & J & Hb & K). apply rules_in in I as (b & I & [(x & -> & Jx)|[(x & -> & Jx)|(hs & -> & Jx)]]); cbn [r_head r_body r_choice] in *.
      * destruct J as [->|[]]. exists b, ENormal. auto.
      * destruct J as [->|[]]. exists b, EChoice. auto.
      * destruct (p_noGamma pr) eqn:G.
        -- exists b, EGammaChoice. split; [auto|]. split; [apply (pw_choice pr W G b hs a); auto|auto].
        -- destruct (pw_shift pr W G b hs a I Jx J) as [(b' & t & I' & J' & N & Sh)|Sh].
           ++ exists b', t. split; [auto|]. split; [auto|]. apply Sh. split; [auto|]. intros o Ko Ne. destruct (M o) eqn:Eo; [|reflexivity]. exfalso. apply Ne. apply (K eq_refl eq_refl o Ko Eo).
           ++ exfalso. destruct (Sh M Hb) as (o & Ko & Ne & Lo). apply Ne. apply (K eq_refl eq_refl o Ko Lo).
    + intros G b hs I J Hb. assert (X : ruleT M M (Rule false hs (b_body b))) by (apply T; apply rules_in; exists b; split; [auto|right; right; eauto]). exact (X Hb).
Qed.

(** Unfounded sets *)
Definition derivesB (M U : asg) (r : rule) : bool :=
  existsb U (r_head r) && bodyT (without M U) M (r_body r) && (r_choice r || forallb (fun h => implb (M h) (U h)) (r_head r)).
Lemma derivesB_ok M U r : derivesB M U r = true <->
  (exists h, In h (r_head r) /\ U h = true) /\ bodyT (without M U) M (r_body r) = true /\ (r_choice r = false -> forall h, In h (r_head r) -> M h = true -> U h = true).
Proof.
  unfold derivesB. rewrite !andb_true_iff, orb_true_iff, existsb_exists, forallb_forall. split.
  - intros [[H1 H2] H3]. split; [auto|]. split; [auto|]. intros E h I Mh. destruct H3 as [H3|H3]; [congruence|]. specialize (H3 h I). now rewrite Mh in H3.
  - intros (H1 & H2 & H3). split; [auto|]. destruct (r_choice r); [now left|right]. intros h I. specialize (H3 eq_refl h I). destruct (M h); [now rewrite H3|reflexivity].
Qed.
Lemma classicP P M U : derivable P M U \/ forall r, In r P -> ~ ((exists h, In h (r_head r) /\ U h = true) /\ bodyT (without M U) M (r_body r) = true
    /\ (r_choice r = false -> forall h, In h (r_head r) -> M h = true -> U h = true)).
Proof.
  destruct (existsb (derivesB M U) P) eqn:E.
  - left. apply existsb_exists in E as (r & I & H). apply derivesB_ok in H. exists r. tauto.
  - right. intros r I H. apply derivesB_ok in H. assert (X : existsb (derivesB M U) P = true) by (apply existsb_exists; eauto). congruence.
Qed.
Lemma stable_founded P M : posP P -> (stable P M <-> progT M M P /\ foundedModel P M).
Proof.
  intros Hp. split.
  - intros [T S]. split; [auto|]. intros U HU (u & Hu).
    destruct (classicP P M U) as [D|D]; [exact D|]. exfalso.
    assert (X : progT (without M U) M P).
    { intros r I Hb. specialize (D r I).
      assert (HbM : bodyT M M (r_body r) = true). { apply bodyT_mono with (without M U); auto. intros a K. unfold without in K. apply andb_true_iff in K. apply K. }
      destruct (r_choice r) eqn:Ec.
      - intros h K Mh. unfold without. rewrite Mh. simpl. destruct (U h) eqn:Eu; [|reflexivity]. exfalso. apply D. split; [eauto|]. split; [auto|]. discriminate.
      - pose proof (T r I HbM) as X. rewrite Ec in X. destruct X as (h & K & Mh).
        destruct (existsb (fun x => M x && negb (U x)) (r_head r)) eqn:E.
        + apply existsb_exists in E as (x & Kx & Ex). exists x. auto.
        + exfalso. apply D. assert (Z : forall x, In x (r_head r) -> M x = true -> U x = true).
          { intros x Kx Mx. destruct (U x) eqn:Ux; [reflexivity|]. rewrite <- E. apply existsb_exists. exists x. split; [auto|]. now rewrite Mx, Ux. }
          split; [exists h; auto|]. split; [auto|]. intros _. exact Z. }
    assert (Y := S (without M U)). specialize (Y (fun a K => proj1 (proj1 (andb_true_iff _ _) K)) X u). unfold without in Y. rewrite (HU u Hu), Hu in Y. discriminate.
  - intros [T F]. split; [auto|]. intros N HN TN a. destruct (N a) eqn:En; [now rewrite (HN a En)|]. destruct (M a) eqn:Em; [|reflexivity]. exfalso.
    set (U := fun x => M x && negb (N x)).
    destruct (F U) as (r & I & (h & Kh & Uh) & Hb & K).
    + intros x Hx. unfold U in Hx. apply andb_true_iff in Hx. apply Hx.
    + exists a. unfold U. now rewrite Em, En.
    + assert (Ew : forall x, without M U x = N x). { intros x. unfold without, U. destruct (M x) eqn:E1, (N x) eqn:E2; try reflexivity. rewrite (HN x E2) in E1. discriminate. }
      assert (HbN : bodyT N M (r_body r) = true). { apply bodyT_mono with (without M U); auto. intros x Hx. now rewrite Ew in Hx. }
      pose proof (TN r I HbN) as X. destruct (r_choice r) eqn:Ec.
      * unfold U in Uh. apply andb_true_iff in Uh as [U1 U2]. rewrite (X h Kh U1) in U2. discriminate.
      * destruct X as (x & Kx & Nx). specialize (K eq_refl x Kx (HN x Nx)). unfold U in K. rewrite Nx in K. destruct (M x); discriminate.
Qed.
