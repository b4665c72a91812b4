(** Rule simplification: the result for a sum, and for a rule *)
From Coq Require Import List Bool Arith ZArith Lia.
Import ListNotations.
From Verif Require Import Base LpSpec LpProofs RtModel RtProofs RtProofs2 SrModel SrSpec SrProofs SrProofs2 SrProofs3.
Local Open Scope Z_scope.

Section S.
Context (bodyId : nat) (K : known).
Lemma lvl_unknown p : lvl K p = VFree \/ lvl K p = VWeak -> unknown K p.
Proof.
  intros [H|H]; [|now apply lvl_notweak in H]. unfold lvl, litVal in H. unfold unknown. destruct (k_val K (fst p)), (k_rel K (fst p)), (snd p); cbn in H; try discriminate; auto.
Qed.
Definition batomsIn (b' b : body) : Prop := incl (batoms b') (batoms b).
(** everything about the result *)
Definition good (r : rule) (m' : marks) (o : outcome) : Prop :=
  (o <> Threw -> m' = noMarks) /\ resOk K r o
  /\ forall r', o = Keep r' -> r_choice r' = r_choice r /\ incl (r_head r') (r_head r) /\ cleanHead K (r_head r') /\ cleanBody K (r_body r') /\ batomsIn (r_body r') (r_body r).
Lemma simplifyNormal_good ch hs ls m' o : simplifyNormal bodyId K noMarks ch hs ls = (m', o) -> good (Rule ch hs (Norm ls)) m' o.
Proof.
  intros E. apply simplifyNormal_ok in E as (A & B & C). split; [auto|]. split; [auto|]. intros r' Er. destruct (C r' Er) as ((D1 & D2 & D3 & D4) & out & F1 & F2 & F3 & F4 & F5).
  split; [auto|]. split; [auto|]. split; [split; auto|]. rewrite F1. split; [split; [auto|]; split; [auto|]; intros p J; now apply lvl_unknown, F5|].
  unfold batomsIn. cbn. intros a J. apply in_map_iff in J as (p & <- & J). apply in_map. auto.
Qed.
Lemma resOk_equiv r1 r2 o : (forall N M, sub N M -> knows K N M -> ruleT N M r1 <-> ruleT N M r2) -> resOk K r2 o -> resOk K r1 o.
Proof. intros H R N M Hs Hk. specialize (R N M Hs Hk). specialize (H N M Hs Hk). destruct o; [rewrite H; auto|apply H; auto|auto]. Qed.
Lemma body_equiv ch hs b1 b2 N M : bodyT N M b1 = bodyT N M b2 -> ruleT N M (Rule ch hs b1) <-> ruleT N M (Rule ch hs b2).
Proof. intros E. unfold ruleT. cbn [r_body r_choice r_head]. rewrite E. reflexivity. Qed.
(** the head is pushed to a body equivalent to the rule's *)
Lemma push_good m ch hs b0 b wof slack atoms : 0 <= slack -> headOk K wof slack b m -> m_head m = [] -> (forall p, In p (m_body m) -> In (fst p) atoms) ->
  (forall N M, sub N M -> knows K N M -> bodyT N M b0 = bodyT N M b) -> cleanBody K b -> batomsIn b b0 ->
  forall m' o, pushHead K m ch hs wof slack = (m', o) -> good (Rule ch hs b0) (clearAll m' atoms) (match o with Some h => Keep (Rule ch h b) | None => Drop end).
Proof.
  intros S0 Ho Hh Ha Hb Hc Hi m' o E. destruct (pushHead_ok K wof slack b S0 m ch hs m' o Ho Hh E) as (B1 & B2 & B3 & B4). split; [|split].
  - intros _. apply clear_clean; auto.
  - apply resOk_equiv with (r2 := Rule ch hs b); [intros N M Hs Hk; apply body_equiv; auto|]. intros N M Hs Hk. specialize (B4 N M Hs Hk). destruct o; [auto|]. now apply B4.
  - intros r' Er. destruct o as [h|]; [|discriminate]. injection Er as <-. destruct (B3 h eq_refl) as (C1 & C2 & C3). cbn [r_choice r_head r_body]. split; [auto|]. split; [auto|]. split; [split; auto|]. auto.
Qed.
(** what the two loops establish *)
Record mid (m : marks) (bound : Z) (out : wl) (mx mn sw sr : Z) : Prop := Mid
  { d_w : forall x, In x out -> 0 < snd x <= mx /\ mn <= snd x /\ snd x <= bound;
    d_sw : sw = sumW out; d_sr : forall N M, sub N M -> sumT N M out <= sr; d_le : sr <= sw;
    d_m : forall p, In p (m_body m) <-> In p (lits out); d_h : m_head m = []; d_nd : NoDup (lits out);
    d_c : forall p, In p (lits out) -> In (neg p) (lits out) -> sr <= sw - mn;
    d_free : forall p, In p (lits out) -> unknown K p }.
Lemma cut_mid m c out mx mn sw sr : inv K m c -> 0 < c_bound c ->
  (if (0 <? c_bound c) && (c_dirty c || (c_bound c <? c_max c)) then cutLoop m (c_bound c) [] (c_out c) (c_max c) int_max (c_sum c) 0 else (c_out c, c_max c, c_min c, c_sum c, c_sum c)) = (out, mx, mn, sw, sr) ->
  mid m (c_bound c) out mx mn sw sr /\ lits out = lits (c_out c) /\ forall N M, bodyT N M (Agg (c_bound c) out) = bodyT N M (Agg (c_bound c) (c_out c)).
Proof.
  intros H Hb E. pose proof (inv_nonneg K m c H) as Nn. destruct H as [h1 h2 h3 h4 h5 h6 h7 h8 h9]. destruct ((0 <? c_bound c) && (c_dirty c || (c_bound c <? c_max c))) eqn:Cd.
  - set (b := c_bound c) in *. apply cutLoop_ok in E; auto; [|intros x []|].
    + destruct E as (A1 & A2 & A3 & A4 & A5 & A6). cbn [app] in A1. rewrite <- A1 in *. assert (Lo : lits out = lits (c_out c)) by (rewrite A1; apply lits_cut).
      assert (Po : forall x, In x out -> 0 < snd x <= b). { intros x J. rewrite A1 in J. apply in_map_iff in J as (y & <- & J). destruct (h3 y J). cbn. lia. }
      assert (Po' : forall x, In x out -> 0 <= snd x) by (intros x J; destruct (Po x J); lia).
      split; [|split; [auto|]].
      * split.
        -- intros x J. pose proof (Po x J). pose proof (A6 x J). pose proof (A5 x J). lia.
        -- lia.
        -- intros N M Hs. rewrite A3. cbn. apply sumT_sumD; auto. now rewrite Lo.
        -- rewrite A3, A2, h1. pose proof (sumD_le m out Po' out (fun y J => J)). lia.
        -- intros p. rewrite Lo. auto.
        -- auto.
        -- now rewrite Lo.
        -- intros p J1 J2. rewrite A3, A2, h1. assert (sumD m out out <= sumW out - mn); [|lia]. apply (sumD_compl m out mn p); auto. intros q J. apply h5. now rewrite <- Lo.
        -- intros p J. rewrite Lo in J. now apply lvl_unknown, h9.
      * intros N M. rewrite A1. apply cut_body. rewrite <- A1. auto.
    + cbn [app]. intros x J. apply in_map_iff in J as (y & <- & J). destruct (h3 y J). cbn. lia.
  - injection E as <- <- <- <- <-. apply andb_false_iff in Cd as [Cd|Cd]; [apply Z.ltb_ge in Cd; lia|]. apply orb_false_iff in Cd as [Cd1 Cd2]. apply Z.ltb_ge in Cd2.
    split; [|split; auto]. split; auto.
    + intros x J. destruct (h3 x J). lia.
    + intros N M _. rewrite h1. now apply sumT_le.
    + lia.
    + intros p J1 J2. destruct (h8 Cd1 p J1 J2).
    + intros p J. now apply lvl_unknown, h9.
Qed.
Lemma atoms_of m out : (forall p, In p (m_body m) <-> In p (lits out)) -> forall p, In p (m_body m) -> In (fst p) (map (fun x : lit * Z => fst (fst x)) out).
Proof. intros H p J. apply H in J. unfold lits in J. apply in_map_iff in J as (x & <- & J). apply in_map_iff. exists x. auto. Qed.
Lemma simplifySum_good ch hs bound l m' o : (forall x, In x l -> 0 <= snd x) -> simplifySum bodyId K noMarks ch hs bound l = (m', o) -> good (Rule ch hs (Agg bound l)) m' o.
Proof.
  intros Hp E. unfold simplifySum in E. destruct (sumLoop bodyId K noMarks (Acc bound 1 int_max 0 false []) l) as [m [c|]] eqn:El.
  2: { injection E as <- <-. split; [congruence|]. split; [intros N M _ _; exact I|discriminate]. }
  apply sumLoop_ok in El as (H & Hi & He); auto.
  2: { split; cbn; auto; try lia; try (intros x []); try tauto; try constructor. unfold int_max. lia. }
  cbn [c_bound c_out lits map app] in Hi, He.
  assert (Eb : forall N M, sub N M -> knows K N M -> bodyT N M (Agg bound l) = bodyT N M (Agg (c_bound c) (c_out c))).
  { intros N M Hs Hk. cbn [bodyT]. apply Bool.eq_true_iff_eq. rewrite !Z.leb_le. rewrite <- (He N M Hs Hk). cbn. reflexivity. }
  destruct (Z.le_gt_cases (c_bound c) 0) as [Cb|Cb].
  - assert (X0 : (0 <? c_bound c) = false) by (apply Z.ltb_ge; auto). assert (X1 : (c_bound c <=? 0) = true) by (apply Z.leb_le; auto). cbn zeta in E. rewrite X0, X1 in E. cbn [andb orb] in E.
    rewrite clear_clean in E; [|apply atoms_of, (v_m _ _ _ H)|apply (v_h _ _ _ H)].
    apply simplifyNormal_good in E as (A & B & C). split; [auto|]. split.
    + apply resOk_equiv with (2 := B). intros N M Hs Hk. apply body_equiv. rewrite (Eb N M Hs Hk). cbn. apply Z.leb_le. pose proof (sumT_nonneg N M _ (inv_nonneg _ _ _ H)). lia.
    + intros r' Er. destruct (C r' Er) as (C1 & C2 & C3 & C4 & C5). split; [auto|]. split; [auto|]. split; [auto|]. split; [auto|]. unfold batomsIn in *. cbn [r_body batoms map] in C5. intros a J. now apply C5 in J.
  - cbn zeta in E. assert (X1 : (c_bound c <=? 0) = false) by (apply Z.leb_gt; lia). rewrite X1 in E. cbn [orb] in E.
    destruct (if (0 <? c_bound c) && _ then _ else _) as [[[[out mx] mn] sw] sr] eqn:Ec. apply cut_mid in Ec as (D & Lo & Eo); auto.
    assert (Eb' : forall N M, sub N M -> knows K N M -> bodyT N M (Agg bound l) = bodyT N M (Agg (c_bound c) out)) by (intros N M Hs Hk; rewrite Eo; auto).
    assert (Inc : incl (map (fun x : lit * Z => fst (fst x)) out) (batoms (Agg bound l))).
    { intros a J. apply in_map_iff in J as (x & <- & J). assert (Y : In (fst x) (lits out)) by (unfold lits; apply in_map_iff; eauto). rewrite Lo in Y. apply Hi in Y. unfold lits in Y. apply in_map_iff in Y as (y & Ey & Y).
      cbn [batoms]. apply in_map_iff. exists y. split; [f_equal; exact Ey|auto]. }
    destruct D as [d1 d2 d3 d4 d5 d6 d7 d8 d9]. set (b := c_bound c) in *. assert (Nn : forall x, In x out -> 0 <= snd x) by (intros x J; destruct (d1 x J); lia).
    destruct (sr <? b) eqn:C1.
    { injection E as <- <-. apply Z.ltb_lt in C1. split; [|split; [|discriminate]].
      - intros _. apply clear_clean; [|auto]. now apply atoms_of.
      - intros N M Hs Hk Ht. cbn [r_body] in Ht. rewrite (Eb' N M Hs Hk) in Ht. cbn in Ht. apply Z.leb_le in Ht. specialize (d3 N M Hs). lia. }
    apply Z.ltb_ge in C1. destruct (sw - mn <? b) eqn:C2.
    + apply Z.ltb_lt in C2. destruct (pushHead K m ch hs one 0) as [m1 o1] eqn:Ep. injection E as <- <-.
      apply push_good with (b0 := Agg bound l) (b := Norm (map fst out)) (atoms := map (fun x : lit * Z => fst (fst x)) out) (wof := one) (slack := 0) in Ep; auto; try lia.
      * apply headOk_norm. intros p. rewrite d5. reflexivity.
      * now apply atoms_of.
      * intros N M Hs Hk. rewrite (Eb' N M Hs Hk). cbn [bodyT]. rewrite (allNeeded N M mn out) with (b := b); auto; try lia. intros y J. destruct (d1 y J). lia.
      * split; [exact d7|]. split; [|exact d9]. intros p J1 J2. pose proof (d8 p J1 J2). lia.
      * unfold batomsIn. cbn [batoms]. rewrite map_map. exact Inc.
    + apply Z.ltb_ge in C2. destruct (mn =? mx) eqn:C3.
      * apply Z.eqb_eq in C3. assert (Eq : forall x, In x out -> snd x = mx) by (intros x J; destruct (d1 x J); lia).
        assert (Ne : out <> []) by (intros X; subst out; cbn in *; lia). assert (Mx : 0 < mx <= b) by (destruct out as [|x r]; [congruence|]; destruct (d1 x (or_introl eq_refl)); lia).
        assert (Sl : 1 <= sw - boundOf (weakenCount b mx out)) by (rewrite d2; apply count_slack; auto; lia).
        destruct (pushHead K m ch hs one (sw - boundOf (weakenCount b mx out))) as [m1 o1] eqn:Ep. injection E as <- <-.
        apply push_good with (b0 := Agg bound l) (b := weakenCount b mx out) (atoms := map (fun x : lit * Z => fst (fst x)) out) (wof := one) in Ep; auto; try lia.
        -- intros N M _ _ _. split; intros h _ X; unfold one in X; lia.
        -- now apply atoms_of.
        -- intros N M Hs Hk. rewrite weaken_ok; auto. lia.
        -- unfold weakenCount. destruct (mx =? 1) eqn:E1.
           ++ split; [exact d7|]. split; [|fold (sumW out); lia]. intros p w J. split; [apply d9; unfold lits; apply in_map_iff; exists (p, w); auto|]. destruct (d1 _ J). cbn in *. lia.
           ++ assert (Bp : 1 <= (b + (mx - 1)) / mx) by (apply Z.div_le_lower_bound; lia). split; [rewrite map_map; exact d7|]. split.
              ** intros p w J. apply in_map_iff in J as (x & Ex & J). injection Ex as <- <-. split; [apply d9; unfold lits; apply in_map_iff; exists x; auto|]. lia.
              ** split; [lia|]. fold (sumW (map (fun x : lit * Z => (fst x, 1)) out)). rewrite (sumW_const 1) by (intros x J; apply in_map_iff in J as (y & <- & _); auto). rewrite map_length.
                 rewrite Z.mul_1_l. apply ceil; [lia|]. rewrite d2, (sumW_const mx out Eq) in C2. lia.
        -- unfold batomsIn, weakenCount. destruct (mx =? 1); cbn [batoms]; [exact Inc|]. rewrite map_map. exact Inc.
      * destruct (pushHead K m ch hs (findW out) (sw - boundOf (Agg b out))) as [m1 o1] eqn:Ep. injection E as <- <-. cbn [boundOf] in Ep.
        apply push_good with (b0 := Agg bound l) (b := Agg b out) (atoms := map (fun x : lit * Z => fst (fst x)) out) in Ep; auto; try lia.
        -- intros N M Hs Hk Ht. cbn in Ht. apply Z.leb_le in Ht. split; intros h J X; apply inBody_iff, d5 in J.
           ++ destruct (litT N M (pos h)) eqn:Y; [exact Y|]. pose proof (needed N M out _ Nn J Y). lia.
           ++ destruct (litT N M (ngt h)) eqn:Y; [apply negb_true_iff; exact Y|]. pose proof (needed N M out _ Nn J Y). lia.
        -- now apply atoms_of.
        -- split; [exact d7|]. split; [|fold (sumW out); lia]. intros p w J. split; [apply d9; unfold lits; apply in_map_iff; exists (p, w); auto|]. destruct (d1 _ J). cbn in *. lia.
Qed.
Lemma simplifyRule_good r m' o : posB (r_body r) -> simplifyRule bodyId K noMarks r = (m', o) -> good r m' o.
Proof.
  destruct r as [ch hs [ls|b l]]; intros Hp E; unfold simplifyRule in E; cbn [r_body r_choice r_head] in E; [now apply simplifyNormal_good in E|]. now apply simplifySum_good in E.
Qed.
End S.
