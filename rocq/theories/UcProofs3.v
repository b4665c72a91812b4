(** Core-guided optimisation: the constraints for a core. *)
From Coq Require Import List Bool Arith ZArith Lia.
Import ListNotations.
From Verif Require Import Base UcModel UcSpec UcProofs UcProofs2.
Open Scope Z_scope.

Lemma holds_pos M v : holds M (pos v) = M v. Proof. unfold holds, pos. cbn. now destruct (M v). Qed.
Lemma viol_split M p : viol M p = 1 - b2z (holds M p). Proof. unfold viol. destruct (holds M p); reflexivity. Qed.
Lemma keep_nil_trans s s1 s2 : keep [] s s1 -> keep [] s1 s2 -> keep [] s s2.
Proof. intros A B. apply keep_trans with s1; auto. intros i []. Qed.

Section Sim3.
Variables (G : asg -> Prop) (o : opts) (n0 : nat).
Hypothesis HG : over n0 G.
Notation sats := (sats G).
Notation sim := (sim G).

Lemma sim_coreLits w ids : forall s, wf s -> (n0 <= nv s)%nat -> 0 < w -> NoDup ids ->
  (forall i, In i ids -> (i < length (dat s))%nat /\ w <= d_w (getData s i) /\ d_as (getData s i) || disj s = true) ->
  let s' := fold_left (coreLit o w) ids s in
  sim (fun _ => 0) (fun M => w * count M (map (fun i => neg (d_lit (getData s i))) ids)) s s' /\ keep ids s s' /\ (forall i, In i ids -> settled (getData s' i)).
Proof.
  induction ids as [|i ids IH]; intros s W N0 Hw ND H; cbv zeta.
  - cbn [fold_left map]. split; [apply sim_refl; auto; intros M _; cbn; lia|]. split; [apply keep_refl|intros i []].
  - cbn [fold_left map]. destruct (H i (or_introl eq_refl)) as (L & Hi & HA). destruct (sim_coreLit G o n0 HG w s i W N0 L (conj Hw Hi) HA) as (S1 & K1 & ST & EL). set (s1 := coreLit o w s i) in *.
    apply NoDup_cons_iff in ND as (NI & ND). pose proof (sim_nv _ _ _ _ _ S1) as NV. destruct K1 as (E1 & E2 & E3 & E4 & E5 & E6 & E7) eqn:EK. clear EK.
    assert (EG : forall j, In j ids -> getData s1 j = getData s j). { intros j J. apply E6; [apply H; now right|]. intros [<-|[]]. auto. }
    destruct (IH s1) as (S2 & K2 & ST2); auto; [now apply sim_wf in S1|lia| |].
    { intros j J. rewrite EG, E2; auto. destruct (H j (or_intror J)) as (X & Y). split; [lia|auto]. }
    set (s2 := fold_left (coreLit o w) ids s1) in *.
    assert (EM : map (fun i0 => neg (d_lit (getData s1 i0))) ids = map (fun i0 => neg (d_lit (getData s i0))) ids) by (apply map_ext_in; intros j J; now rewrite EG).
    rewrite EM in S2. split; [|split].
    + apply sim_trans with (1 := S1). apply (sim_frame G _ _ (fun M => w * viol M (d_lit (getData s i)))) in S2.
      * eapply sim_ext; [exact S2| |]; intros M _; cbv beta; [lia|]. rewrite count_cons, holds_neg. fold (viol M (d_lit (getData s i))). lia.
      * apply local_le with (nv s); auto. apply local_mul, local_viol, (w_dat s W). now apply getData_in.
    + apply keep_trans with s1; auto; [intros j J; now apply H|apply keep_incl with [i]; [intros j [<-|[]]; now left|]; exact K1|apply keep_incl with ids; auto; intros j J; now right].
    + intros j [<-|J]; [|now apply ST2]. destruct K2 as (_ & _ & _ & _ & _ & K & _). rewrite K; auto. lia.
Qed.

(** OLL *)
Lemma sim_addOll s ls w : wf s -> (n0 <= nv s)%nat -> 0 < w -> ls <> [] -> litsBelow (nv s) ls -> (forall M, sats M s -> 1 <= count M ls) ->
  sim (fun M => w * (count M ls - 1)) (fun _ => 0) s (addOll o s ls w) /\ keep [] s (addOll o s ls w).
Proof.
  intros W N0 Hw NE BL P. unfold addOll. set (t := tempOf s 2 ls). assert (TC : forall M, sats M s -> count M (snd t) - fst t = count M ls - 2) by (intros M S; now apply (temp_count G M s)).
  pose proof (temp_le s 2 ls) as TL. fold t in TL. assert (BT : litsBelow (nv s) (snd t)) by (intros p I; apply BL; now apply temp_in in I).
  destruct (Z.ltb_spec 0 (fst t)) as [A|A]; cbn [andb].
  2:{ split; [|apply keep_ollCon]. eapply sim_ext; [apply sim_ollCon with (n0 := n0); auto| |reflexivity]. intros M S. cbv beta. specialize (P M S). specialize (TC M S). rewrite Z.max_r by lia. f_equal. lia. }
  destruct (Z.ltb_spec (Z.of_nat (length (snd t))) (fst t)) as [B|B].
  2:{ split; [|apply keep_ollCon]. eapply sim_ext; [apply sim_ollCon with (n0 := n0); auto| |reflexivity]. intros M S. cbv beta. specialize (P M S). specialize (TC M S). rewrite Z.max_r by lia. f_equal. lia. }
  assert (Z0 : forall M, sats M s -> w * (count M ls - 1) = 0). { intros M S. specialize (P M S). specialize (TC M S). pose proof (count_range M (snd t)). replace (count M ls - 1) with 0; lia. }
  destruct (Z.ltb_spec (fst t) 2) as [C|C]; [split; [now apply sim_refl|apply keep_refl]|]. split; [|apply keep_fix].
  eapply sim_ext; [apply sim_fixLit with (f := fun _ => 0); auto| |reflexivity].
  - destruct (snd t) as [|p l] eqn:E; [destruct ls as [|p l]; [congruence|]; apply BL; now left|apply BT; now left].
  - intros M S. specialize (P M S). specialize (TC M S). destruct (snd t) as [|p l]; [rewrite count_nil in TC; lia|]. destruct l; [|cbn in B; lia]. rewrite count_cons, count_nil in TC. destruct (holds M p); auto. cbn in TC. lia.
  - exact Z0.
Qed.

(** PMRES *)
Definition pmrCs (conj : bool) (h b1 b2 : lit) : list con :=
  let all := [ [xorl (neg h) conj; xorl b1 conj; xorl b2 conj]; [xorl h conj; xorl (neg b1) conj]; [xorl h conj; xorl (neg b2) conj] ] in
  map Cls (if succinct o then (if conj then firstn 1 all else skipn 1 all) else all).
Lemma fold_addCon cs : forall s, let s' := fold_left (fun s c => addCon s (Cls c)) cs s in
  cons s' = cons s ++ map Cls cs /\ dat s' = dat s /\ nv s' = nv s /\ low s' = low s /\ top s' = top s /\ up s' = up s /\ disj s' = disj s /\ todo s' = todo s /\ shr s' = shr s.
Proof.
  induction cs as [|c cs IH]; intros s; cbv zeta; cbn [fold_left map]; [rewrite app_nil_r; auto 10|]. specialize (IH (addCon s (Cls c))). cbv zeta in IH. destruct IH as (A & B & C & D & E & F & H & I & J).
  rewrite A, B, C, D, E, F, H, I, J. cbn [addCon cons dat nv low top up disj todo shr]. rewrite <- app_assoc. auto 10.
Qed.
Lemma pmrCon_spec s conj h b1 b2 : let s' := addPmrCon o s conj h b1 b2 in
  cons s' = cons s ++ pmrCs conj h b1 b2 /\ dat s' = dat s /\ nv s' = nv s /\ low s' = low s /\ top s' = top s /\ up s' = up s /\ disj s' = disj s /\ todo s' = todo s /\ shr s' = shr s.
Proof. unfold addPmrCon. apply fold_addCon. Qed.
Lemma pmrCs_conj M h b1 b2 : (forall c, In c (pmrCs true h b1 b2) -> satCon M c = true) -> holds M b1 = true -> holds M b2 = true -> holds M h = true.
Proof.
  intros H H1 H2. assert (X : satCon M (Cls [xorl (neg h) true; xorl b1 true; xorl b2 true]) = true) by (apply H; unfold pmrCs; destruct (succinct o); cbn; auto).
  cbn in X. unfold holds in *. cbn in X. destruct h as [h sh], b1 as [b1 s1], b2 as [b2 s2]. cbn in *. destruct (M h), (M b1), (M b2), sh, s1, s2; cbn in *; congruence.
Qed.
Lemma pmrCs_conj' M h b1 b2 : holds M h = holds M b1 && holds M b2 -> forall c, In c (pmrCs true h b1 b2) -> satCon M c = true.
Proof.
  intros H c I. assert (J : In c (map Cls [[xorl (neg h) true; xorl b1 true; xorl b2 true]; [xorl h true; xorl (neg b1) true]; [xorl h true; xorl (neg b2) true]])) by (unfold pmrCs in I; destruct (succinct o); cbn in *; tauto).
  destruct h as [h sh], b1 as [b1 s1], b2 as [b2 s2]. destruct J as [<-|[<-|[<-|[]]]]; cbn; unfold holds in *; cbn in *; destruct (M h), (M b1), (M b2), sh, s1, s2; cbn in *; congruence.
Qed.
Lemma pmrCs_disj M h b1 b2 : (forall c, In c (pmrCs false h b1 b2) -> satCon M c = true) -> holds M b1 || holds M b2 = true -> holds M h = true.
Proof.
  intros H H1. assert (X : satCon M (Cls [xorl h false; xorl (neg b1) false]) = true) by (apply H; unfold pmrCs; destruct (succinct o); cbn; auto).
  assert (Y : satCon M (Cls [xorl h false; xorl (neg b2) false]) = true) by (apply H; unfold pmrCs; destruct (succinct o); cbn; auto).
  cbn in X, Y. unfold holds in *. cbn in X, Y. destruct h as [h sh], b1 as [b1 s1], b2 as [b2 s2]. cbn in *. destruct (M h), (M b1), (M b2), sh, s1, s2; cbn in *; congruence.
Qed.
Lemma pmrCs_disj' M h b1 b2 : holds M h = holds M b1 || holds M b2 -> forall c, In c (pmrCs false h b1 b2) -> satCon M c = true.
Proof.
  intros H c I. assert (J : In c (map Cls [[xorl (neg h) false; xorl b1 false; xorl b2 false]; [xorl h false; xorl (neg b1) false]; [xorl h false; xorl (neg b2) false]])) by (unfold pmrCs in I; destruct (succinct o); cbn in *; tauto).
  destruct h as [h sh], b1 as [b1 s1], b2 as [b2 s2]. destruct J as [<-|[<-|[<-|[]]]]; cbn; unfold holds in *; cbn in *; destruct (M h), (M b1), (M b2), sh, s1, s2; cbn in *; congruence.
Qed.
Lemma xorl_var p b : fst (xorl p b) = fst p. Proof. now destruct p, b. Qed.
Lemma pmrCs_below n conj h b1 b2 c : (fst h < n)%nat -> (fst b1 < n)%nat -> (fst b2 < n)%nat -> In c (pmrCs conj h b1 b2) -> litsBelow n (conLits c) /\ noTag c.
Proof.
  intros A B C I. unfold pmrCs in I. assert (J : In c (map Cls [[xorl (neg h) conj; xorl b1 conj; xorl b2 conj]; [xorl h conj; xorl (neg b1) conj]; [xorl h conj; xorl (neg b2) conj]])) by (destruct (succinct o), conj; cbn in *; tauto).
  destruct J as [<-|[<-|[<-|[]]]]; split; try exact Logic.I; cbn [conLits]; intros p Q; cbn [In] in Q; repeat destruct Q as [<-|Q]; try destruct Q; rewrite xorl_var; cbn; auto.
Qed.

Lemma sim_pmrLoop w r : forall s bp, r <> [] -> wf s -> (n0 <= nv s)%nat -> 0 < w -> (fst bp < nv s)%nat -> litsBelow (nv s) r -> (forall M, sats M s -> 1 <= b2z (holds M bp) + count M r) ->
  sim (fun M => w * (b2z (holds M bp) + count M r - 1)) (fun _ => 0) s (pmrLoop o s bp r w) /\ keep [] s (pmrLoop o s bp r w).
Proof.
  induction r as [|an r IH]; intros s bp NE W N0 Hw LB BL P; [congruence|]. assert (LA : (fst an < nv s)%nat) by (apply BL; now left). destruct r as [|an' r'].
  - cbn [pmrLoop]. set (cn := pos (nv s)). set (s1 := newAssumption (newVar s) (neg cn) w None). destruct (pmrCon_spec s1 true cn an bp) as (E1 & E2 & E3 & E4 & E5 & E6 & E7 & E8 & E9). set (s' := addPmrCon o s1 true cn an bp) in *. split.
    + apply sim_grow with (n0 := n0) (cs := pmrCs true cn an bp) (ds := [LD (neg cn) w true None]); auto.
      * rewrite E3. cbn. lia.
      * intros c I. rewrite E3. cbn [s1 newAssumption newVar setDat nv]. eapply pmrCs_below; [| | |exact I]; cbn; lia.
      * intros d [<-|[]]. rewrite E3. split; [split; cbn; auto|split; cbn; auto; lia].
      * intros d [<-|[]] X. discriminate X.
      * constructor.
      * intros f w' ls b I. eapply (pmrCs_below (S (nv s))) in I as (_ & []); cbn; lia.
      * intros M S C. unfold potOf, dPot. cbn [fold_right d_w d_lit d_core corePot]. rewrite viol_neg, count_cons, count_nil. pose proof (pmrCs_conj M _ _ _ C) as X. destruct (holds M bp), (holds M an); cbn [b2z]; try (rewrite X by auto; cbn [b2z]); try lia; pose proof (b2z_range (holds M cn)); nia.
      * intros M S. set (v := holds M an && holds M bp). exists (updM M (nv s) v). assert (A : agree (nv s) M (updM M (nv s) v)) by (apply updM_agree; lia). split; auto.
        assert (HC : holds (updM M (nv s) v) cn = v) by apply holds_upd. split.
        { apply pmrCs_conj'. rewrite HC, (holds_agree _ _ _ an A), (holds_agree _ _ _ bp A); auto. }
        unfold potOf, dPot. cbn [fold_right d_w d_lit d_core corePot]. rewrite viol_neg, HC, count_cons, count_nil. specialize (P M S). rewrite count_cons, count_nil in P. unfold v. destruct (holds M bp), (holds M an); cbn [b2z andb] in *; lia.
    + apply keep_app with (ds := [LD (neg cn) w true None]); auto. intros d [<-|[]]. reflexivity.
  - remember (an' :: r') as r2 eqn:ER. assert (EL : pmrLoop o s bp (an :: r2) w = pmrLoop o (addPmrCon o (addPmrCon o (newAssumption (newVar (newVar s)) (neg (pos (S (nv s)))) w None) false (pos (nv s)) an bp) true (pos (S (nv s))) an bp) (pos (nv s)) r2 w) by (rewrite ER; reflexivity).
    rewrite EL. clear EL. set (bn := pos (nv s)) in *. set (cn := pos (S (nv s))). set (s1 := newAssumption (newVar (newVar s)) (neg cn) w None). destruct (pmrCon_spec s1 false bn an bp) as (A1 & A2 & A3 & A4 & A5 & A6 & A7 & A8 & A9). set (s2 := addPmrCon o s1 false bn an bp) in *.
    destruct (pmrCon_spec s2 true cn an bp) as (E1 & E2 & E3 & E4 & E5 & E6 & E7 & E8 & E9). set (s3 := addPmrCon o s2 true cn an bp) in *.
    assert (NV3 : nv s3 = S (S (nv s))) by (rewrite E3, A3; reflexivity).
    assert (ST : sim (fun M => w * (b2z (holds M bp) + count M (an :: r2) - 1)) (fun M => w * (b2z (holds M bn) + count M r2 - 1)) s s3).
    { apply sim_grow with (n0 := n0) (cs := pmrCs false bn an bp ++ pmrCs true cn an bp) (ds := [LD (neg cn) w true None]); auto.
      * lia.
      * rewrite E4, A4. reflexivity.
      * rewrite E1, A1, app_assoc. reflexivity.
      * rewrite E2, A2. reflexivity.
      * rewrite E5, A5. reflexivity.
      * intros c I. rewrite NV3. apply in_app_or in I as [I|I]; (eapply pmrCs_below; [| | |exact I]; cbn; lia).
      * intros d [<-|[]]. rewrite NV3. split; [split; cbn; auto|split; cbn; auto; lia].
      * intros d [<-|[]] X. discriminate X.
      * constructor.
      * intros f w' ls b I. apply in_app_or in I as [I|I]; eapply (pmrCs_below (S (S (nv s)))) in I as (_ & []); cbn; lia.
      * intros M S C. unfold potOf, dPot. cbn [fold_right d_w d_lit d_core corePot]. rewrite viol_neg, count_cons.
        assert (X : holds M an = true -> holds M bp = true -> holds M cn = true) by (apply pmrCs_conj; intros c I; apply C, in_or_app; auto).
        assert (Y : holds M an || holds M bp = true -> holds M bn = true) by (apply pmrCs_disj; intros c I; apply C, in_or_app; auto).
        pose proof (b2z_range (holds M cn)). pose proof (b2z_range (holds M bn)). destruct (holds M bp), (holds M an); cbn [b2z orb] in *; try rewrite (X eq_refl eq_refl) in *; try rewrite (Y eq_refl) in *; cbn [b2z] in *; nia.
      * intros M S. set (v1 := holds M an || holds M bp). set (v2 := holds M an && holds M bp). set (M' := updM (updM M (nv s) v1) (Datatypes.S (nv s)) v2). exists M'.
        assert (A : agree (nv s) M M'). { apply agree_trans with (nv s) (updM M (nv s) v1); [lia|apply updM_agree; lia|apply updM_agree; lia]. } split; auto.
        assert (HC : holds M' cn = v2) by apply holds_upd.
        assert (HB : holds M' bn = v1). { unfold bn. rewrite holds_pos. unfold M', updM at 1. destruct (Nat.eqb_spec (nv s) (Datatypes.S (nv s))); [lia|]. apply updM_eq. }
        assert (HAn : holds M' an = holds M an) by now apply holds_agree with (nv s). assert (HBp : holds M' bp = holds M bp) by now apply holds_agree with (nv s). split.
        { intros c I. apply in_app_or in I as [I|I]; [apply (pmrCs_disj' M' bn an bp); auto; now rewrite HB, HAn, HBp|apply (pmrCs_conj' M' cn an bp); auto; now rewrite HC, HAn, HBp]. }
        unfold potOf, dPot. cbn [fold_right d_w d_lit d_core corePot]. rewrite viol_neg, HC, HB, count_cons, (count_agree (nv s) M M' r2); auto; [|intros p I; apply BL; now right]. unfold v1, v2. destruct (holds M bp), (holds M an); cbn [b2z andb orb] in *; lia. }
    destruct (IH s3 bn) as (S2 & K2); auto.
    + rewrite ER. discriminate.
    + now apply sim_wf in ST.
    + lia.
    + rewrite NV3. cbn. lia.
    + intros p I. rewrite NV3. specialize (BL p (or_intror I)). lia.
    + intros M S. pose proof (sim_back _ _ _ _ _ M ST S) as S0. specialize (P M S0). rewrite count_cons in P. pose proof (count_range M r2).
      assert (Y : holds M an || holds M bp = true -> holds M bn = true). { apply pmrCs_disj. intros c I. apply (sats_cons G M s3 S). rewrite E1, A1. apply in_or_app. left. apply in_or_app. now right. }
      destruct (holds M bp), (holds M an); cbn [b2z orb] in *; try rewrite (Y eq_refl) in *; pose proof (b2z_range (holds M bn)); cbn [b2z]; lia.
    + split; [now apply sim_trans with (1 := ST)|]. apply keep_nil_trans with s3; auto. apply keep_app with (ds := [LD (neg cn) w true None]); try (rewrite ?E2, ?A2, ?E6, ?A6, ?E7, ?A7, ?E8, ?A8, ?E9, ?A9; reflexivity). intros d [<-|[]]. reflexivity.
Qed.
Lemma sim_addPmr s ls w : wf s -> (n0 <= nv s)%nat -> 0 < w -> (2 <= length ls)%nat -> litsBelow (nv s) ls -> (forall M, sats M s -> 1 <= count M ls) ->
  sim (fun M => w * (count M ls - 1)) (fun _ => 0) s (addPmr o s ls w) /\ keep [] s (addPmr o s ls w).
Proof.
  intros W N0 Hw LE BL P. unfold addPmr. rewrite <- rev_length in LE. assert (EC : forall M, count M ls = count M (rev ls)) by (intros M; now rewrite count_rev). assert (BR : litsBelow (nv s) (rev ls)) by (intros p I; apply BL; now apply in_rev).
  destruct (rev ls) as [|bp r]; [cbn in LE; lia|]. destruct (sim_pmrLoop w r s bp) as (A & B); auto.
  - intros ->. cbn in LE. lia.
  - apply BR. now left.
  - intros p I. apply BR. now right.
  - intros M S. specialize (P M S). now rewrite EC, count_cons in P.
  - split; auto. eapply sim_ext; [exact A| |reflexivity]. intros M _. cbv beta. rewrite EC, count_cons. reflexivity.
Qed.
End Sim3.
