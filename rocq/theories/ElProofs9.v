(** Preprocessor: the stack of removed clauses extends models *)
From Coq Require Import List Bool Arith Lia.
Import ListNotations.
From Verif Require Import Base ElModel ElSpec ElProofs ElProofs2 ElProofs3 ElProofs4 ElProofs5 ElProofs6 ElProofs7 ElProofs8.

Definition ext (P : asg -> Prop) : Prop := forall a b : asg, (forall u, a u = b u) -> P a -> P b.
Definition am (m : nat -> nat) : asg := fun v => (m v =? 1) || (m v =? 5).
Definition okv (n : nat) : Prop := n = 1 \/ n = 2 \/ n = 5.

Lemma am_upd_true m x : forall u, am (upd m (fst x) (trueValue x)) u = setTo (am m) x u.
Proof. intros u. unfold am, setTo, upd, trueValue. destruct (u =? fst x); [|auto]. now destruct (snd x). Qed.
Lemma holds_ext (a b : asg) p : a (fst p) = b (fst p) -> holds a p = holds b p.
Proof. unfold holds. now intros ->. Qed.
Lemma sat_ext (a b : asg) c : (forall p, In p c -> a (fst p) = b (fst p)) -> sat_clause a c = sat_clause b c.
Proof.
  induction c as [|p c IH]; intros H; [auto|]. rewrite !sat_cons, IH; [|intros q I; apply H; now right]. rewrite (holds_ext a b p); [auto|]. apply H. now left.
Qed.
Lemma false_iff m q : okv (m (fst q)) -> (Nat.land (m (fst q)) 3 =? falseValue q) = negb (holds (am m) q).
Proof. unfold okv, holds, am, falseValue. intros [->|[->| ->]]; destruct (snd q); reflexivity. Qed.
Lemma allFalse m c : (forall q, In q c -> okv (m (fst q))) ->
  forallb (fun q => Nat.land (m (fst q)) 3 =? falseValue q) c = negb (sat_clause (am m) c).
Proof.
  induction c as [|p c IH]; intros H; [auto|]. rewrite sat_cons. cbn [forallb]. rewrite IH by (intros q I; apply H; now right).
  rewrite false_iff by (apply H; now left). now rewrite negb_orb.
Qed.
Lemma tv_ok p : okv (trueValue p). Proof. unfold okv, trueValue. destruct (snd p); auto. Qed.
Lemma tv_holds m p : m (fst p) = trueValue p -> holds (am m) p = true.
Proof. unfold holds, am, trueValue. intros ->. now destruct (snd p). Qed.

Section El.
Context (fz : nat -> bool) (Q : asg -> Prop).
Notation J := (J fz Q).

(** the invariant of a running group *)
Definition others (last : nat) (m : nat -> nat) : Prop := forall v, v <> last -> okv (m v).
Inductive gst (last : nat) (P : asg -> Prop) (x : xst) : bool -> Prop :=
| gV : okv (x_m x last) -> P (am (x_m x)) -> gst last P x true
| gU : x_m x last = 4 -> (forall sg, P (setTo (am (x_m x)) (last, sg))) -> gst last P x true
| gR y cf : x_m x last = 1 \/ x_m x last = 2 -> fst y = last -> ~ In last (map fst cf) ->
    (forall a, P a -> sat_clause a (y :: cf) = true) -> sat_clause (am (x_m x)) cf = false -> holds (am (x_m x)) y = true ->
    P (am (x_m x)) -> gst last P x false.
Definition opens (m0 : nat -> nat) (x : xst) : Prop :=
  x_uv x = 0 /\ (forall v, x_m x v = 5 -> In (pos v) (x_un x)) /\ (forall v, fz v = true -> x_m x v = m0 v)
  /\ (forall u, In u (x_un x) -> fz (fst u) = false).

Lemma xClause_ok m0 last P P' x p c check x' check' : ext P -> (forall a, P' a <-> P a /\ sat_clause a (p :: c) = true) ->
  (forall a, P a -> sat_clause a (p :: c) = false -> P (setTo a p)) -> fst p = last -> fz last = false -> ~ In last (map fst c) ->
  others last (x_m x) -> opens m0 x -> gst last P x check -> xClause (p :: c) x check = (x', check') ->
  others last (x_m x') /\ opens m0 x' /\ gst last P' x' check'.
Proof.
  intros EP EP' RC Ep Ff Nc Ot Op G H. unfold xClause in H.
  assert (Oc : forall q, In q c -> okv (x_m x (fst q))). { intros q I. apply Ot. intros E. apply Nc. rewrite <- E. now apply in_map. }
  assert (Fire : forall z, P z -> (forall u, z u = setTo (am (x_m x)) p u) -> sat_clause (am (x_m x)) c = false ->
     x' = Xst (upd (x_m x) (fst p) (trueValue p)) (x_un x) (x_uv x) -> check' = false ->
     others last (x_m x') /\ opens m0 x' /\ gst last P' x' check').
  { intros z Pz Ez Sc -> ->. cbn [x_m].
    assert (Pm : P (am (upd (x_m x) (fst p) (trueValue p)))) by (apply (EP z); [intros u; now rewrite am_upd_true|auto]).
    assert (Hp : holds (am (upd (x_m x) (fst p) (trueValue p))) p = true) by (apply tv_holds; apply upd_same).
    split; [|split].
    - intros v Nv. rewrite upd_other by congruence. auto.
    - destruct Op as (O1 & O2 & O3 & O4). split; [auto|]. cbn [x_m x_un]. split; [|split; [|auto]].
      + intros v. unfold upd. destruct (v =? fst p); [|apply O2]. unfold trueValue. destruct (snd p); discriminate.
      + intros v Fv. rewrite upd_other; [auto|]. intros ->. congruence.
    - apply (gR _ _ _ p c); cbn [x_m]; auto.
      + rewrite Ep, upd_same. unfold trueValue. destruct (snd p); auto.
      + intros a A. now apply EP' in A.
      + rewrite <- Sc. apply sat_ext. intros q I. rewrite am_upd_true. unfold setTo. destruct (fst q =? fst p) eqn:E; [|auto].
        apply Nat.eqb_eq in E. exfalso. apply Nc. rewrite <- Ep, <- E. now apply in_map.
      + apply EP'. split; [auto|]. rewrite sat_cons, Hp. auto. }
  destruct G as [Vo Pm|U Pu|y cf Vo Ey Ny Py Sf Hy Pm].
  - rewrite andb_true_r in H. destruct (x_m x (fst p) =? trueValue p) eqn:Et; cbn [negb] in H.
    + injection H as <- <-. apply Nat.eqb_eq in Et. split; [auto|]. split; [auto|]. apply gV; [auto|]. apply EP'. split; [auto|].
      rewrite sat_cons, tv_holds; auto.
    + rewrite allFalse in H by auto. destruct (sat_clause (am (x_m x)) c) eqn:Sc; cbn [negb] in H.
      * injection H as <- <-. split; [auto|]. split; [auto|]. apply gV; [auto|]. apply EP'. split; [auto|]. rewrite sat_cons, Sc, orb_true_r. auto.
      * injection H as <- <-. destruct (holds (am (x_m x)) p) eqn:Hp.
        -- apply (Fire (am (x_m x))); auto. intros u. unfold setTo. destruct (u =? fst p) eqn:E; [|auto]. apply Nat.eqb_eq in E as ->.
           unfold holds in Hp. destruct (am (x_m x) (fst p)), (snd p); auto; discriminate.
        -- apply (Fire (setTo (am (x_m x)) p)); auto. apply RC; auto. rewrite sat_cons, Hp, Sc. auto.
  - rewrite andb_true_r in H. assert (Et : (x_m x (fst p) =? trueValue p) = false).
    { rewrite Ep, U. unfold trueValue. now destruct (snd p). }
    rewrite Et in H. cbn [negb] in H. rewrite allFalse in H by auto. destruct (sat_clause (am (x_m x)) c) eqn:Sc; cbn [negb] in H.
    + injection H as <- <-. split; [auto|]. split; [auto|]. apply gU; [auto|]. intros sg. apply EP'. split; [auto|].
      rewrite sat_cons, setTo_clause, Sc, orb_true_r by auto. auto.
    + injection H as <- <-. apply (Fire (setTo (am (x_m x)) (last, snd p))); auto. intros u. unfold setTo. cbn. now rewrite Ep.
  - rewrite andb_false_r in H. injection H as <- <-. split; [auto|]. split; [auto|]. apply (gR _ _ _ y cf); auto.
    + intros a A. apply EP' in A as [A _]. auto.
    + apply EP'. split; [auto|]. destruct (sat_clause (am (x_m x)) (p :: c)) eqn:S; [auto|]. exfalso.
      pose proof (Py _ (RC _ Pm S)) as K. rewrite sat_cons, setTo_clause, Sf, orb_false_r in K by (now rewrite Ep).
      destruct (bool_dec (snd y) (snd p)) as [E|E].
      * assert (y = p) by (apply pair_eta; congruence). subst y. rewrite sat_cons, Hy in S. discriminate.
      * unfold holds, setTo in K. rewrite Ey, <- Ep, Nat.eqb_refl in K. destruct (snd y), (snd p); cbn in K; try discriminate; now apply E.
Qed.

Lemma xEnd_ok m0 last P x check : ext P -> fz last = false -> others last (x_m x) -> opens m0 x -> gst last P x check ->
  let x' := xEnd (Some (last, check)) x in (forall v, okv (x_m x' v)) /\ opens m0 x' /\ P (am (x_m x')).
Proof.
  intros EP Ff Ot Op G x'. unfold xEnd in x'.
  assert (Go : (exists v, x_m x last = v /\ okv v /\ P (am (x_m x))) -> x' = x /\ (forall v, okv (x_m x v))).
  { intros (v & E & O & _). unfold x'. assert ((x_m x last =? value_eliminated) = false) as ->.
    { rewrite E. destruct O as [->|[->| ->]]; reflexivity. }
    split; [auto|]. intros u. destruct (Nat.eq_dec u last) as [->|N]; [now rewrite E|auto]. }
  destruct G as [Vo Pm|U Pu|y cf Vo Ey Ny Py Sf Hy Pm].
  - destruct Go as [E O]; [eauto|]. rewrite E. auto.
  - unfold x'. rewrite U. cbn [Nat.eqb value_eliminated]. cbn [x_m]. split; [|split].
    + intros u. unfold upd. destruct (u =? last) eqn:E; [right; right; reflexivity|]. apply Ot. now apply Nat.eqb_neq.
    + destruct Op as (O1 & O2 & O3 & O4). split; [auto|]. cbn [x_m x_un]. split; [|split].
      * intros v. unfold upd. destruct (v =? last) eqn:E; intros K; apply in_app_iff; [apply Nat.eqb_eq in E as ->; right; now left|auto].
      * intros v Fv. rewrite upd_other by congruence. auto.
      * intros u I. apply in_app_iff in I as [I|[<-|[]]]; auto.
    + apply (EP (setTo (am (x_m x)) (last, false))); [|auto]. intros u. unfold setTo, am, upd. cbn. destruct (u =? last); auto.
  - destruct Go as [E O]; [exists (x_m x last); split; [auto|split; [|auto]]; destruct Vo as [->| ->]; unfold okv; auto|]. rewrite E. auto.
Qed.

Lemma xStart_ok m0 up mk (p : lit) P x x' check : ext P -> (forall v, okv (x_m x v)) -> opens m0 x -> P (am (x_m x)) -> fz (fst p) = false ->
  (mk = false -> up = Some (fst p) \/ indep (fst p) P) -> up <> Some (fst p) -> xStart 0 mk (fst p) x = (x', check) ->
  others (fst p) (x_m x') /\ opens m0 x' /\ gst (fst p) P x' check.
Proof.
  intros EP O Op Pm Ff Hi Nu H. unfold xStart in H. pose proof Op as (O1 & O2 & O3 & O4). rewrite O1 in H. cbn [Nat.eqb negb andb] in H.
  assert (E : (x', check) = (Xst (if mk then x_m x else upd (x_m x) (fst p) value_eliminated) (x_un x) 0, true)).
  { destruct (nth_error (x_un x) 0); auto. }
  clear H. injection E as -> ->. destruct mk; cbn [x_m].
  - split; [intros v _; auto|]. split; [split; auto|]. apply gV; cbn [x_m]; auto.
  - split; [intros v N; rewrite upd_other; auto|]. split.
    + split; [auto|]. cbn [x_m x_un]. split; [|split; [|auto]].
      * intros v. unfold upd. destruct (v =? fst p); [discriminate|auto].
      * intros v Fv. rewrite upd_other by congruence. auto.
    + apply gU; cbn [x_m]; [apply upd_same|]. intros sg. destruct (Hi eq_refl) as [K|K]; [congruence|]. apply (K (am (x_m x))); [|auto].
      intros u N. unfold setTo, am, upd. cbn. apply Nat.eqb_neq in N. now rewrite N.
Qed.

Lemma xLoop_ok m0 T : forall last check P x, ext P -> J (Some last) T P -> fz last = false -> others last (x_m x) -> opens m0 x -> gst last P x check ->
  exists x', xLoop 0 T (Some (last, check)) x = Ok x' /\ (forall v, okv (x_m x' v)) /\ opens m0 x' /\ Q (am (x_m x')).
Proof.
  induction T as [|[mk c] T IH]; intros last check P x EP HJ Ff Ot Op G; cbn [xLoop].
  - destruct (xEnd_ok m0 last P x check EP Ff Ot Op G) as (A & B & C). eexists. split; [reflexivity|]. split; [auto|]. split; [auto|].
    inversion HJ; subst. auto.
  - inversion HJ as [|up' mk' p r T' P0 P' H1 H2 H3 H4 H5 H6 H7]; subst.
    assert (EP' : ext P'). { intros a b E Ha. apply H1. apply H1 in Ha as [Ha Hs]. split; [eapply EP; eauto|]. rewrite <- Hs. apply sat_ext. auto. }
    destruct (fst p =? last) eqn:El.
    + apply Nat.eqb_eq in El. destruct (xClause (p :: r) x check) as [x1 c1] eqn:Ex.
      destruct (xClause_ok m0 last P P' x p r check x1 c1) as (A & B & C); auto; try congruence.
      apply (IH last c1 P' x1); auto. now rewrite <- El.
    + apply Nat.eqb_neq in El. destruct (xEnd_ok m0 last P x check EP Ff Ot Op G) as (A & B & C).
      set (x0 := xEnd (Some (last, check)) x) in *. destruct (xStart 0 mk (fst p) x0) as [x1 c1] eqn:Es.
      destruct (xStart_ok m0 (Some last) mk p P x0 x1 c1) as (A1 & B1 & C1); auto; try congruence.
      destruct (xClause (p :: r) x1 c1) as [x2 c2] eqn:Ex.
      destruct (xClause_ok m0 (fst p) P P' x1 p r c1 x2 c2) as (A2 & B2 & C2); auto.
      apply (IH (fst p) c2 P' x2); auto.
Qed.

Lemma xFinal_ok m0 : forall new m k m', (forall v, okv (m v)) -> (forall v, m v = 5 -> In v (map fst new)) ->
  (forall u, In u new -> fz (fst u) = false) -> (forall v, fz v = true -> m v = m0 v) ->
  xFinal new m = (k, m') -> totalVec m' /\ (forall u, am m' u = am m u) /\ (forall v, fz v = true -> m' v = m0 v).
Proof.
  induction new as [|u new IH]; intros m k m' O I5 Nf Fr H; cbn [xFinal] in H.
  - injection H as <- <-. split; [|auto]. intros v. destruct (O v) as [E|[E|E]]; auto. destruct (I5 v E).
  - destruct (negb (Nat.land (m (fst u)) value_eliminated =? 0)) eqn:E.
    + destruct (xFinal new (upd m (fst u) 1)) as [k1 m1] eqn:Ex. injection H as <- <-.
      assert (E5 : m (fst u) = 5). { destruct (O (fst u)) as [K|[K|K]]; [rewrite K in E; discriminate|rewrite K in E; discriminate|auto]. }
      apply IH in Ex as (A & B & C).
      * split; [auto|]. split; [|auto]. intros v. rewrite B. unfold am, upd. destruct (v =? fst u) eqn:Ev; [|auto]. apply Nat.eqb_eq in Ev as ->. now rewrite E5.
      * intros v. unfold upd. destruct (v =? fst u); [left; auto|auto].
      * intros v. unfold upd. destruct (v =? fst u) eqn:Ev; [discriminate|]. apply Nat.eqb_neq in Ev. intros K. destruct (I5 v K) as [G|G]; [congruence|auto].
      * intros q Iq. apply Nf. now right.
      * intros v Fv. rewrite upd_other; [auto|]. intros ->. rewrite (Nf u) in Fv; [discriminate|now left].
    + apply IH in H; auto.
      * intros v K. destruct (I5 v K) as [G|G]; [|auto]. subst v. rewrite K in E. discriminate.
      * intros q Iq. apply Nf. now right.
Qed.

Lemma extend_ok T P m : ext P -> ext Q -> J None T P -> totalVec m -> P (asgOf m) ->
  exists m' open, extendModel T m [] = Ok (m', open) /\ totalVec m' /\ Q (asgOf m') /\ (forall v, fz v = true -> m' v = m v).
Proof.
  intros EP EQ HJ Tm Pm.
  assert (Am : forall m, totalVec m -> forall u, asgOf m u = am m u).
  { intros m1 T1 u. unfold asgOf, am. destruct (T1 u) as [->| ->]; reflexivity. }
  unfold extendModel. cbn [flipLast]. unfold doExtendModel. destruct T as [|[mk c] T].
  - cbn. exists m, []. split; [auto|]. split; [auto|]. split; [|auto]. inversion HJ; subst. auto.
  - inversion HJ as [|up' mk' p r T' P0 P' H1 H2 H3 H4 H5 H6 H7]; subst.
    assert (EP' : ext P'). { intros a b E Ha. apply H1. apply H1 in Ha as [Ha Hs]. split; [eapply EP; eauto|]. rewrite <- Hs. apply sat_ext. auto. }
    assert (O0 : forall v, okv (m v)) by (intros v; destruct (Tm v) as [->| ->]; unfold okv; auto).
    assert (Op0 : opens m (Xst m [] 0)).
    { split; [auto|]. split; [|split; [auto|intros ? []]]. intros v K. cbn in K. destruct (Tm v); congruence. }
    cbn [length xLoop]. destruct (xStart 0 mk (fst p) (Xst m [] 0)) as [x1 c1] eqn:Es.
    destruct (xStart_ok m None mk p P (Xst m [] 0) x1 c1) as (A1 & B1 & C1); auto; [|discriminate|].
    { apply (EP (asgOf m)); auto. }
    destruct (xClause (p :: r) x1 c1) as [x2 c2] eqn:Ex.
    destruct (xClause_ok m (fst p) P P' x1 p r c1 x2 c2) as (A2 & B2 & C2); auto.
    destruct (xLoop_ok m T (fst p) c2 P' x2) as (x3 & E3 & A3 & B3 & C3); auto.
    rewrite E3. cbn [bind skipn firstn]. destruct (xFinal (x_un x3) (x_m x3)) as [k m'] eqn:Ef.
    destruct B3 as (O1 & O2 & O3 & O4).
    apply (xFinal_ok m) in Ef as (D1 & D2 & D3); auto.
    + cbn [bind]. exists m', (popNeg ([] ++ k)). split; [auto|]. split; [auto|]. split; [|auto].
      apply (EQ (am (x_m x3))); [|auto]. intros u. now rewrite Am, D2.
    + intros v K. apply O2 in K. apply in_map_iff. now exists (pos v).
Qed.
End El.
