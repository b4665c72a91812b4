From Coq Require Import List Bool Arith ZArith Lia.
Import ListNotations.
From Verif Require Import Base LpSpec LpProofs SrModel DsSpec DsProofs CpModel CpSpec CpProofs CpProofs2 DgModel DgProofs VsModel VsSpec VsProofs VsProofs2.

Section Prog.
Variables (pr : prep) (init : list nat).
Hypothesis HI : simpleInput pr init.
Notation tb := (theBody pr).
Notation n := (nBodies pr).
Notation P := (rulesOf pr).
Notation bt M i := (bodyT M M (b_body (tb i))).

Definition ignOk (s : vst) : Prop := forall a, v_ign s a = true -> exists i t, i < n /\ In (a, t) (b_heads (tb i)) /\ b_val (tb i) = VTrue.
Record visiting (s : vst) (done D : list nat) : Prop := {
  w_ctl : ctl pr s (v_up s) done;
  w_lits : lits pr s D;
  w_ign : ignOk s
}.

Lemma addHead_ok s done D i h : i < n -> In h (b_heads (tb i)) -> visiting s done D ->
  let s' := addHead pr i s h in visiting s' done D /\ v_b s' = v_b s /\ v_unit s' = v_unit s /\ (forall a, v_up s a = true -> v_up s' a = true)
    /\ (isVFalse (p_val pr (fst h)) = false -> v_up s' (fst h) = true).
Proof.
  intros L I [C K G]. unfold addHead. destruct (isVFalse (p_val pr (fst h))) eqn:Ev.
  - cbn. split; [constructor; auto|]. split; [auto|]. split; [auto|]. split; [auto|discriminate].
  - set (s1 := if isVTrue (b_val (tb i)) then setIgn s (fst h) else s).
    assert (E1 : v_a s1 = v_a s /\ v_b s1 = v_b s /\ v_up s1 = v_up s /\ v_nx s1 = v_nx s /\ v_un s1 = v_un s /\ v_q s1 = v_q s /\ v_unit s1 = v_unit s) by (unfold s1; destruct (isVTrue _); cbn; auto 10).
    destruct E1 as (Ea & Eb & Eu & En & Eun & Eq & Eun').
    assert (G1 : ignOk s1). { unfold s1. destruct (isVTrue (b_val (tb i))) eqn:E; [|auto]. intros a. cbn. destruct (Nat.eq_dec a (fst h)) as [->|Ne]; [|rewrite upd_ne by auto; auto]. intros _. exists i, (snd h). split; [auto|]. split; [now destruct h|]. destruct (b_val (tb i)); try discriminate; auto. }
    assert (C1 : ctl pr s1 (v_up s1) done) by (rewrite Eu; eapply ctl_ext; eauto).
    assert (K1 : lits pr s1 D) by (eapply lits_ext; eauto).
    destruct (v_up s1 (fst h)) eqn:U.
    + cbn. split; [constructor; auto|]. split; [auto|]. split; [auto|]. split; [rewrite Eu; auto|auto].
    + unfold addHeadToUpper. destruct (propAll_lits pr (fst h) (seq 0 n) (setUp (assignAtom pr s1 (fst h) i (snd h)) (fst h))) as (F1 & F2 & F3 & F4 & F5 & F6 & F7). cbn zeta in *.
      assert (Q : v_b (assignAtom pr s1 (fst h) i (snd h)) = v_b s1 /\ v_unit (assignAtom pr s1 (fst h) i (snd h)) = v_unit s1 /\ v_up (assignAtom pr s1 (fst h) i (snd h)) = v_up s1 /\ v_ign (assignAtom pr s1 (fst h) i (snd h)) = v_ign s1
        /\ v_q (assignAtom pr s1 (fst h) i (snd h)) = v_q s1 /\ v_un (assignAtom pr s1 (fst h) i (snd h)) = v_un s1) by (unfold assignAtom; destruct (_ && _); cbn; auto 10).
      destruct Q as (Q1 & Q2 & Q3 & Q4 & Q5 & Q6). split; [constructor|].
      * rewrite F3. cbn [setUp v_up]. rewrite Q3. apply propagate_ctl with init; auto. eapply ctl_ext; [| |exact C1]; cbn; auto.
      * eapply lits_ext; [exact F1|exact F2|exact F3|exact F4|]. apply assignAtom_lits with init; auto. now destruct h.
      * intros a. rewrite F6. cbn [setUp v_ign]. rewrite Q4. apply G1.
      * rewrite F2, F7, F3. cbn [setUp v_b v_unit v_up]. rewrite Q1, Q2, Q3, Eb, Eun', Eu. split; [auto|]. split; [auto|]. split; [|intros _; apply upd_eq].
        intros a Ha. destruct (Nat.eq_dec a (fst h)) as [->|Ne]; [apply upd_eq|now rewrite upd_ne].
Qed.
Lemma addHeads_ok done D i : i < n -> forall hs s, incl hs (b_heads (tb i)) -> visiting s done D ->
  let s' := fold_left (addHead pr i) hs s in visiting s' done D /\ v_b s' = v_b s /\ v_unit s' = v_unit s /\ (forall a, v_up s a = true -> v_up s' a = true)
    /\ (forall h, In h hs -> isVFalse (p_val pr (fst h)) = false -> v_up s' (fst h) = true).
Proof.
  intros L. induction hs as [|h hs IH]; intros s Hi V; cbn [fold_left]; [cbn; split; [auto|]; split; [auto|]; split; [auto|]; split; [auto|intros h []]|].
  destruct (addHead_ok s done D i h L (Hi h (or_introl eq_refl)) V) as (V1 & E1 & E2 & E3 & E4). destruct (IH (addHead pr i s h)) as (V2 & F1 & F2 & F3 & F4); [intros x X; apply Hi; now right|auto|].
  split; [auto|]. split; [congruence|]. split; [congruence|]. split; [auto|]. intros x [<-|X] Hx; auto.
Qed.

Definition unitB (i : nat) : bool := bsize (b_body (tb i)) =? 1.
Definition headsUp (s : vst) (done : list nat) : Prop := forall i h, In i done -> In h (b_heads (tb i)) -> isVFalse (p_val pr (fst h)) = false -> v_up s (fst h) = true.
Record inv (s : vst) (done : list nat) : Prop := {
  i_vis : exists D, visiting s done D /\ forall i, In i D <-> In i done /\ unitB i = false;
  i_up : headsUp s done;
  i_unit : v_unit s = filter unitB done
}.
Definition setQ (s : vst) (q : list nat) : vst := Vs (v_a s) (v_b s) (v_up s) (v_un s) q (v_nx s) (v_ty s) (v_ign s) (v_unit s).

Lemma assignBody_same s i : let s' := assignBody pr s i in v_a s' = v_a s /\ v_up s' = v_up s /\ v_un s' = v_un s /\ v_q s' = v_q s /\ v_ign s' = v_ign s /\ v_unit s' = v_unit s.
Proof.
  unfold assignBody. destruct (hasVar (v_b s i)); [cbn; auto 10|]. destruct (_ || _); [cbn; auto 10|].
  destruct (goalsW (b_body (tb i))) as [|[g w] [|y l]]; try destruct (hasVar (v_a s (fst g))); destruct (isVFalse (b_val (tb i))); cbn; auto 10.
Qed.
Lemma visit_inv s done i q : v_q s = i :: q -> inv s done -> inv (visit pr (setQ s q) i) (done ++ [i]).
Proof.
  intros Eq [(D & [C K G] & HD) Hu Hun]. destruct C as [C1 C2 C3 C4 C5]. rewrite Eq in *.
  assert (L : i < n) by (apply C2, in_or_app; right; now left).
  assert (Nd : ~ In i done). { intros J. apply NoDup_remove_2 in C1. apply C1, in_or_app. auto. }
  assert (App : forall j, In j (done ++ i :: q) <-> In j ((done ++ [i]) ++ q)) by (intros j; rewrite <- app_assoc; reflexivity).
  assert (C' : ctl pr (setQ s q) (v_up s) (done ++ [i])).
  { constructor; cbn [setQ v_q v_un].
    - rewrite <- app_assoc. exact C1.
    - intros j J. apply C2. now apply App.
    - intros j Lj Uj. apply App. auto.
    - intros j Lj. rewrite <- App. auto.
    - intros j J. apply C5. now apply App. }
  set (s1 := if unitB i then Vs (v_a s) (v_b s) (v_up s) (v_un s) q (v_nx s) (v_ty s) (v_ign s) (v_unit s ++ [i]) else assignBody pr (setQ s q) i).
  set (D1 := if unitB i then D else i :: D).
  assert (V1 : visiting s1 (done ++ [i]) D1 /\ v_up s1 = v_up s /\ v_unit s1 = filter unitB (done ++ [i])).
  { rewrite filter_app. cbn [filter]. unfold s1, D1. destruct (unitB i) eqn:Ui.
    - split; [constructor; cbn|cbn; now rewrite Hun].
      + eapply ctl_ext; [| |exact C']; reflexivity.
      + eapply lits_ext; [| | | |exact K]; reflexivity.
      + exact G.
    - destruct (assignBody_same (setQ s q) i) as (F1 & F2 & F3 & F4 & F5 & F6). cbn zeta in *. split; [|rewrite F2, F6; cbn; now rewrite app_nil_r]. constructor.
      + rewrite F2. eapply ctl_ext; [exact F4|exact F3|exact C'].
      + apply assignBody_lits with init; auto; [|eapply lits_ext; [| | | |exact K]; reflexivity]. cbn. destruct (hasVar (v_b s i)) eqn:Hv; [|reflexivity]. apply (l_b _ _ _ K) in Hv. apply HD in Hv. tauto.
      + intros a. rewrite F5. apply G. }
  destruct V1 as (V1 & Eup & Eun).
  change (visit pr (setQ s q) i) with (fold_left (addHead pr i) (b_heads (tb i)) s1).
  destruct (addHeads_ok (done ++ [i]) D1 i L (b_heads (tb i)) s1 (incl_refl _) V1) as (V2 & F1 & F2 & F3 & F4). constructor.
  - exists D1. split; [auto|]. intros j. rewrite in_app_iff. unfold D1. destruct (unitB i) eqn:Ui; cbn; rewrite HD; split.
    + tauto.
    + intros [[J|[<-|[]]] U]; [tauto|congruence].
    + intros [<-|[J U]]; tauto.
    + intros [[J|[<-|[]]] U]; tauto.
  - intros j h J Ih Hv. apply in_app_or in J as [J|[<-|[]]]; [|auto]. apply F3. rewrite Eup. eapply Hu; eauto.
  - congruence.
Qed.
Lemma start_inv : inv (startV pr init) [].
Proof.
  destruct (si_init _ _ HI) as [N1 N2]. constructor.
  - exists []. split; [|intros i; split; [intros []|intros [[] _]]]. constructor.
    + constructor; cbn [startV v_q v_un v_up app]; auto.
      * intros i I. now apply N2.
      * intros i L U. apply N2. auto.
      * intros i L. right. rewrite posSum_none. lia.
      * intros i I. now apply N2.
    + constructor; cbn; try lia; try discriminate; auto.
      intros M HM. exists (fun v => v =? 0). split; [reflexivity|]. split; [discriminate|intros i []].
    + intros a. discriminate.
  - intros i h [].
  - reflexivity.
Qed.
Lemma visitAll_inv : forall fuel s s' done, inv s done -> visitAll pr fuel s = Ok s' -> exists done', inv s' done' /\ v_q s' = [].
Proof.
  induction fuel as [|f IH]; intros s s' done V E; cbn [visitAll] in E; destruct (v_q s) as [|i q] eqn:Q; try discriminate; try (injection E as <-; eauto).
  eapply IH; [|exact E]. apply visit_inv; eauto.
Qed.
Lemma inv_len s done : inv s done -> length done + length (v_q s) <= n.
Proof.
  intros [(D & [[C1 C2 _ _ _] _ _] & _) _ _]. rewrite <- app_length. rewrite <- (seq_length n 0). apply NoDup_incl_length; [exact C1|]. intros i I. apply in_seq. specialize (C2 i I). lia.
Qed.
Lemma visitAll_ok : forall fuel s done, inv s done -> n <= fuel + length done -> exists s', visitAll pr fuel s = Ok s'.
Proof.
  induction fuel as [|f IH]; intros s done V L; cbn [visitAll]; destruct (v_q s) as [|i q] eqn:Q; eauto.
  - pose proof (inv_len s done V) as X. rewrite Q in X. cbn in X. lia.
  - apply IH with (done ++ [i]); [now apply visit_inv|]. rewrite app_length. cbn. lia.
Qed.
Lemma visitAll_more : forall fuel s s', visitAll pr fuel s = Ok s' -> forall f, fuel <= f -> visitAll pr f s = Ok s'.
Proof.
  induction fuel as [|f IH]; intros s s' E g L; cbn [visitAll] in E; destruct (v_q s) as [|i q] eqn:Q; try discriminate.
  - injection E as <-. destruct g; cbn [visitAll]; now rewrite Q.
  - injection E as <-. destruct g; cbn [visitAll]; now rewrite Q.
  - destruct g as [|g]; [lia|]. cbn [visitAll]. rewrite Q. apply IH; [auto|lia].
Qed.

(** unit bodies at the end *)
Lemma units_ok : forall us s D, (forall i, In i us -> i < n) -> NoDup us -> (forall i, In i us -> ~ In i D) -> lits pr s D ->
  let s' := fold_left (assignBody pr) us s in lits pr s' (rev us ++ D) /\ v_up s' = v_up s /\ v_ign s' = v_ign s.
Proof.
  induction us as [|i us IH]; intros s D H1 H2 H3 K; cbn [fold_left]; [cbn; auto|]. inversion H2 as [|? ? X1 X2]; subst.
  destruct (assignBody_same s i) as (_ & F2 & _ & _ & F5 & _). cbn zeta in F2, F5.
  destruct (IH (assignBody pr s i) (i :: D)) as (G1 & G2 & G3).
  - intros j J. apply H1. now right.
  - auto.
  - intros j J [<-|J']; [contradiction|]. apply (H3 j); [now right|auto].
  - apply assignBody_lits with init; auto; [apply H1; now left|]. destruct (hasVar (v_b s i)) eqn:Hv; [|reflexivity]. apply (l_b _ _ _ K) in Hv. exfalso. apply (H3 i); [now left|auto].
  - split; [|split; congruence]. cbn [rev]. rewrite <- app_assoc. exact G1.
Qed.

(** ** the result *)
Definition closed (s : vst) (done : list nat) : Prop :=
  headsUp s done /\ forall i, i < n -> ~ In i done -> (posSum (v_up s) (b_body (tb i)) < unsupp0 (b_body (tb i)))%Z.
Record final (s : vst) : Prop := {
  f_ex : exists done, lits pr s done /\ closed s done;
  f_ign : ignOk s
}.
Lemma final_ok fuel s : preprocessSimple pr fuel init = Ok s -> final s.
Proof.
  unfold preprocessSimple. destruct (visitAll pr fuel (startV pr init)) as [s1| |] eqn:E; try discriminate. intros X. injection X as <-.
  destruct (visitAll_inv fuel _ _ [] start_inv E) as (done & [(D & [C K G] & HD) Hu Hun] & Hq). destruct C as [C1 C2 C3 C4 C5]. rewrite Hq, app_nil_r in *.
  destruct (units_ok (v_unit s1) s1 D) as (K2 & U2 & I2).
  - intros i I. rewrite Hun in I. apply filter_In in I as [I _]. auto.
  - rewrite Hun. now apply filter_nodup.
  - intros i I J. rewrite Hun in I. apply filter_In in I as [_ I]. apply HD in J as [_ J]. congruence.
  - exact K.
  - assert (Set1 : forall i, In i (rev (v_unit s1) ++ D) <-> In i done).
    { intros i. rewrite in_app_iff, <- in_rev, HD, Hun, filter_In. destruct (unitB i); intuition congruence. }
    constructor; [|intros a; rewrite I2; apply G]. exists (rev (v_unit s1) ++ D). split; [exact K2|]. split.
    + intros i h J. rewrite U2. apply Hu. now apply Set1.
    + intros i L N. rewrite Set1 in N. rewrite U2. destruct (C4 i L) as [X|X]; [contradiction|]. destruct (Z_le_gt_dec (v_un s1 i) 0) as [Y|Y]; [apply C3 in Y; auto; contradiction|]. lia.
Qed.

(** answer sets are within the closure *)
Lemma upper_ok s M : final s -> answer pr M -> forall a, M a = true -> v_up s a = true.
Proof.
  intros [(done & K & Hu & Hc) _] HM a Ha. destruct (v_up s a) eqn:Ua; [reflexivity|exfalso].
  destruct HM as [S V]. pose proof S as S'. apply (stable_founded _ _ (prog_pos pr init HI)) in S' as [_ F].
  destruct (F (fun x => M x && negb (v_up s x))) as (r & Ir & (h & Ih & Xh) & Hb & _).
  - intros x Hx. apply andb_true_iff in Hx. tauto.
  - exists a. now rewrite Ha, Ua.
  - apply andb_true_iff in Xh as [Mh Uh]. apply rules_in in Ir as (b & Ib & X). destruct (si_plain _ _ HI b Ib) as [Hd _]. destruct (body_ex pr b Ib) as (i & L & E).
    assert (Eb : r_body r = b_body b /\ exists t, In (h, t) (b_heads b)) by (destruct X as [(x & -> & J)|[(x & -> & J)|(hs & _ & J)]]; cbn in Ih |- *; [| |rewrite Hd in J; destruct J]; destruct Ih as [<-|[]]; eauto).
    destruct Eb as [Eb (t & It)]. rewrite Eb in Hb.
    assert (Id : In i done). { destruct (in_dec Nat.eq_dec i done) as [I|N]; [auto|]. specialize (Hc i L N). rewrite E in Hc. exfalso.
      assert (Q : (unsupp0 (b_body b) <= posSum (v_up s) (b_body b))%Z); [|lia]. eapply true_supported; [|now apply (body_pos pr init HI)|exact Hb]. intros x Hx. unfold without in Hx. destruct (M x), (v_up s x); cbn in Hx; auto; discriminate. }
    rewrite <- E in It. specialize (Hu i _ Id It). cbn [fst] in Hu. rewrite Hu in Uh; [discriminate|]. destruct (si_plain _ _ HI b Ib) as [_ Hp]. rewrite E in It. destruct (Hp _ It) as [_ Ia]. destruct V as [_ V]. specialize (V h Ia). rewrite Mh in V. destruct (p_val pr h); auto.
Qed.
Lemma unvisited_false s M done : closed s done -> (forall a, M a = true -> v_up s a = true) -> forall i, i < n -> ~ In i done -> bt M i = false.
Proof.
  intros [_ Hc] HU i L N. destruct (bt M i) eqn:E; [|reflexivity]. specialize (Hc i L N). exfalso. assert (Q : (unsupp0 (b_body (tb i)) <= posSum (v_up s) (b_body (tb i)))%Z); [|lia]. eapply true_supported; [exact HU|now apply (body_pos pr init HI), tb_in|exact E].
Qed.

(** ** the program with literals *)
Lemma bodies_all : map tb (seq 0 n) = p_bodies pr.
Proof.
  unfold theBody, nBodies. set (d := Pb (Norm []) VFree litFalse [] []). generalize (p_bodies pr). induction l as [|b l IH]; [reflexivity|]. cbn [length seq map]. f_equal. rewrite <- seq_shift, map_map. exact IH.
Qed.
Lemma lits_body s b : In b (p_bodies (withLits pr s)) <-> exists i, i < n /\ b = Pb (b_body (tb i)) (b_val (tb i)) (v_b s i) (b_heads (tb i)) (b_disj (tb i)).
Proof. unfold withLits. cbn. rewrite in_map_iff. split; intros (i & A & B); exists i; [apply in_seq in B; split; [lia|auto]|split; [auto|apply in_seq; lia]]. Qed.
Lemma flat_map_map {T U V} (f : U -> list V) (g : T -> U) : forall l, flat_map f (map g l) = flat_map (fun x => f (g x)) l.
Proof. induction l as [|x l IH]; [reflexivity|]. cbn. now rewrite IH. Qed.
Lemma rules_same s : rulesOf (withLits pr s) = P.
Proof. unfold rulesOf, withLits. cbn [p_bodies]. rewrite flat_map_map. rewrite <- bodies_all. rewrite flat_map_map. reflexivity. Qed.
Lemma values_same s M : valuesOk (withLits pr s) M <-> valuesOk pr M.
Proof.
  unfold valuesOk. cbn [p_atoms withLits p_val]. split; intros [A B]; (split; [|exact B]).
  - intros b I. destruct (body_ex pr b I) as (i & L & <-). apply (A (Pb (b_body (tb i)) (b_val (tb i)) (v_b s i) (b_heads (tb i)) (b_disj (tb i)))). apply lits_body. eauto.
  - intros b I. apply lits_body in I as (i & L & ->). cbn. apply A. now apply tb_in.
Qed.
Lemma prepared_ok s : final s -> prepared (withLits pr s).
Proof.
  intros [(done & K & _) _].
  assert (Hd : forall i, i < n -> b_disj (tb i) = []) by (intros i L; now apply (si_plain _ _ HI), tb_in).
  assert (Hh : forall i h, i < n -> In h (b_heads (tb i)) -> (snd h = ENormal \/ snd h = EChoice) /\ In (fst h) (p_atoms pr)) by (intros i h L J; apply (si_plain _ _ HI (tb i)); [now apply tb_in|auto]).
  constructor.
  - intros b h I J. apply lits_body in I as (i & L & ->). cbn in *. now apply (Hh i).
  - intros b hs h I J. exfalso. apply lits_body in I as (i & L & ->). cbn in J. rewrite Hd in J; auto.
  - intros a N. cbn in *. apply (l_out _ _ _ K). destruct (v_up s a) eqn:E; [|reflexivity]. apply (l_in _ _ _ K) in E. contradiction.
  - intros _ b hs h I J. exfalso. apply lits_body in I as (i & L & ->). cbn in J. rewrite Hd in J; auto.
  - intros _ b h I J. exfalso. apply lits_body in I as (i & L & ->). cbn in J. destruct (Hh i _ L J) as [[X|X] _]; discriminate X.
  - intros _ b h I J. apply lits_body in I as (i & L & ->). cbn in J. destruct (Hh i _ L J) as [[X|X] _]; discriminate X.
  - intros _ b hs h I J. exfalso. apply lits_body in I as (i & L & ->). cbn in J. rewrite Hd in J; auto.
  - intros b h I J. exfalso. apply lits_body in I as (i & L & ->). cbn in J. destruct (Hh i _ L J) as [[X|X] _]; discriminate X.
  - intros b hs I J. exfalso. apply lits_body in I as (i & L & ->). cbn in J. rewrite Hd in J; auto.
Qed.

Lemma bodyT_ext N M N' M' b : (forall a, N a = N' a) -> (forall a, M a = M' a) -> bodyT N M b = bodyT N' M' b.
Proof.
  intros HN HM. destruct b as [ls|bd ls]; cbn.
  - apply forallb_ext. intros x _. unfold litT. now rewrite HN, HM.
  - rewrite (sumT_ext N M N' M'); [reflexivity|]. intros x _. unfold litT. now rewrite HN, HM.
Qed.
Lemma represent s M : final s -> answer pr M -> exists A, A 0 = true /\ (forall a, atomsOf (withLits pr s) A a = M a) /\ CpSpec.bodiesOk (withLits pr s) A.
Proof.
  intros F HM. pose proof (upper_ok s M F HM) as HU. destruct F as [(done & K & C) _]. destruct (l_sem _ _ _ K M HM) as (A & A0 & A1 & A2). exists A. split; [auto|].
  assert (Ea : forall a, atomsOf (withLits pr s) A a = M a).
  { intros a. unfold atomsOf. cbn. destruct (v_up s a) eqn:U; [auto|]. rewrite (l_out _ _ _ K a U), holds_F by auto. destruct (M a) eqn:Ma; [|reflexivity]. rewrite (HU a Ma) in U. discriminate. }
  split; [exact Ea|]. intros b I. apply lits_body in I as (i & L & ->). cbn [b_lit b_body]. rewrite (bodyT_ext _ _ M M) by auto.
  destruct (in_dec Nat.eq_dec i done) as [J|J]; [auto|]. rewrite (unvisited_false s M done C HU i L J).
  destruct (hasVar (v_b s i)) eqn:Hv; [apply (l_b _ _ _ K) in Hv; contradiction|]. apply hasVar_eq in Hv. rewrite Hv. now apply holds_F.
Qed.
Lemma unique s A A' : final s -> A 0 = true -> A' 0 = true -> CpSpec.bodiesOk (withLits pr s) A -> CpSpec.bodiesOk (withLits pr s) A' ->
  (forall a, atomsOf (withLits pr s) A a = atomsOf (withLits pr s) A' a) -> forall v, v < v_nx s -> A v = A' v.
Proof.
  intros [(done & K & _) _] H0 H0' B B' E v Lv. destruct v as [|v]; [congruence|].
  assert (X : forall A1 : asg, holds A1 (pos (S v)) = A1 (S v)) by (intros A1; unfold holds, pos; cbn; apply xorb_false_r).
  rewrite <- (X A), <- (X A'). destruct (l_own _ _ _ K (S v) ltac:(lia)) as [(a & Ua & Ea)|(i & L & Ei)].
  - rewrite <- Ea. apply E.
  - assert (I : In (Pb (b_body (tb i)) (b_val (tb i)) (v_b s i) (b_heads (tb i)) (b_disj (tb i))) (p_bodies (withLits pr s))) by (apply lits_body; eauto).
    specialize (B _ I). specialize (B' _ I). cbn [b_lit b_body] in B, B'. rewrite Ei in B, B'. rewrite B, B'. now apply bodyT_ext.
Qed.
End Prog.
