(** Rule transformation: the loop of the split translation builds a correct table *)
From Coq Require Import List Bool Arith ZArith Lia Permutation.
Import ListNotations.
From Verif Require Import Base LpSpec LpProofs RtModel RtProofs RtProofs2 RtProofs3.

Lemma setNth_nth : forall l k x i, k < length l -> nth_error (setNth l k x) i = if i =? k then Some x else nth_error l i.
Proof.
  induction l as [|y l IH]; intros k x i Lk; cbn in Lk; [lia|]. destruct k as [|k], i as [|i]; cbn [setNth nth_error Nat.eqb]; auto. apply IH. lia.
Qed.
Lemma setNth_len : forall l k x, length (setNth l k x) = length l.
Proof. induction l as [|y l IH]; intros [|k] x; cbn; auto. Qed.
Lemma skipn_cons {A} (l : list A) i x : nth_error l i = Some x -> skipn i l = x :: skipn (S i) l.
Proof. revert i. induction l as [|y l IH]; intros [|i] H; cbn in H; try discriminate; [injection H as ->; reflexivity|]. cbn [skipn]. now apply IH. Qed.

Section Loop.
Context (agg : list (lit * Z)) (sumR : list Z) (bound : Z) (mn : lit * Z).
Context (HR : forall i, nth_error sumR i = if i <? length agg then Some (sumW (skipn i agg)) else None).
Context (H0 : forall x, In x agg -> (0 <= snd x)%Z) (Hb : back agg = Ok mn) (Hm : forall x, In x agg -> (snd mn <= snd x)%Z).
Definition good (it : item) : Prop := match it with (i, b, a) => (0 < b)%Z /\ (b <= bound)%Z /\ (b <= sumW (skipn i agg) - snd mn)%Z end.
Lemma mn0 : (0 <= snd mn)%Z.
Proof. apply H0. unfold back in Hb. destruct agg as [|z l]; [discriminate|]. unfold lookup in Hb. destruct (nth_error _ _) eqn:E; [|discriminate]. injection Hb as <-. eapply nth_error_In; eauto. Qed.
Lemma good_lt i b a : good (i, b, a) -> S i < length agg.
Proof.
  intros (G1 & _ & G2). destruct (Nat.lt_ge_cases (S i) (length agg)) as [H|H]; [auto|]. exfalso. pose proof mn0.
  destruct (Nat.lt_ge_cases i (length agg)) as [H'|H'].
  - unfold back in Hb. destruct agg as [|z l] eqn:Ea; [cbn in H'; lia|]. rewrite <- Ea in *. unfold lookup in Hb. replace (length agg - 1) with i in Hb by lia.
    destruct (nth_error agg i) eqn:En; [|discriminate]. injection Hb as ->. rewrite (skipn_cons _ _ _ En) in G2. rewrite skipn_all2 in G2 by lia. cbn in G2. lia.
  - rewrite skipn_all2 in G2 by lia. cbn in G2. lia.
Qed.
Definition auxOk (s : st) (todo : list item) (level : nat) : Prop :=
  length (t_aux s) = Z.to_nat bound /\ forall k a, nth_error (t_aux s) k = Some a -> a <> 0 -> In (S level, Z.of_nat (S k), a) todo.
Definition fresh (s : st) (new : list item) : Prop := map (fun it : item => snd it) new = seq (t_next s) (length new).

Lemma addSplit_ok s todo h add i b x : auxOk s todo i -> t_next s <> 0 -> nth_error agg i = Some x -> S i < length agg -> (b <= bound)%Z -> (add = false -> (0 < b)%Z) ->
  exists new L s1, addSplit agg sumR s todo h add i b = Ok (s1, todo ++ new) /\ t_next s1 = t_next s + length new /\ t_out s1 = t_out s ++ rulesOf h L
    /\ length new <= 1 /\ fresh s new /\ (forall it, In it new -> good it /\ fst (fst it) = S i)
    /\ auxOk s1 (todo ++ new) i
    /\ (forall ls p, In ls L -> In p ls -> In p (map fst agg) \/ exists b' a, p = pos a /\ In (S i, b', a) (todo ++ new))
    /\ forall V M, exactAt agg (todo ++ new) V M (S i) -> existsb (forallb (litT V M)) L = ((if add then litT V M (fst x) else true) && (b <=? val agg V M (S i))%Z).
Proof.
  intros [Al An] Kz Ex Li Lb Ab. unfold addSplit. rewrite Hb. cbn [bind]. unfold lookup at 1. rewrite HR. assert (El : S i <? length agg = true) by now apply Nat.ltb_lt. rewrite El. cbn [bind].
  set (mx := sumW (skipn (S i) agg)).
  assert (Hin : forall y, In y (skipn (S i) agg) -> In y agg) by (intros y J; rewrite <- (firstn_skipn (S i) agg); apply in_app_iff; auto).
  assert (Hs0 : forall y, In y (skipn (S i) agg) -> (0 <= snd y)%Z) by auto.
  assert (Hsm : forall y, In y (skipn (S i) agg) -> (snd mn <= snd y)%Z) by auto.
  pose proof (skipn_cons agg i x Ex) as Sk.
  assert (Ax : forall L, auxOk (addAll s h L) (todo ++ []) i) by (intros L; split; [exact Al|rewrite app_nil_r; exact An]).
  destruct (b <=? 0)%Z eqn:Eb.
  { apply Z.leb_le in Eb. destruct add; [|specialize (Ab eq_refl); lia]. exists [], [[fst x]], (addAll s h [[fst x]]). unfold lookup. rewrite Ex. cbn [bind]. rewrite app_nil_r at 1.
    split; [reflexivity|]. split; [cbn; lia|]. split; [reflexivity|]. split; [auto|]. split; [reflexivity|]. split; [intros it []|]. split; [apply Ax|]. split.
    - intros ls p [<-|[]] [<-|[]]. left. apply in_map. eapply nth_error_In; eauto.
    - intros V M _. cbn [existsb forallb]. rewrite andb_true_r, orb_false_r. pose proof (sumT_nonneg V M _ Hs0). assert (E : (b <=? val agg V M (S i))%Z = true) by (apply Z.leb_le; unfold val; lia).
      now rewrite E, andb_true_r. }
  apply Z.leb_gt in Eb. destruct (mx - snd mn <? b)%Z eqn:En.
  { apply Z.ltb_lt in En. destruct (b <=? mx)%Z eqn:Em.
    - apply Z.leb_le in Em. exists [], [map fst (skipn (if add then i else S i) agg)], (addAll s h [map fst (skipn (if add then i else S i) agg)]). rewrite app_nil_r at 1.
      split; [reflexivity|]. split; [cbn; lia|]. split; [reflexivity|]. split; [auto|]. split; [reflexivity|]. split; [intros it []|]. split; [apply Ax|]. split.
      + intros ls p [<-|[]] J. left. apply in_map_iff in J as (y & <- & J). apply in_map. rewrite <- (firstn_skipn (if add then i else S i) agg). apply in_app_iff. auto.
      + intros V M _. cbn [existsb]. rewrite orb_false_r. unfold val. rewrite <- (allNeeded V M (snd mn) _ Hs0 Hsm b En Em). destruct add; [rewrite Sk; reflexivity|reflexivity].
    - apply Z.leb_gt in Em. exists [], [], (addAll s h []). rewrite app_nil_r at 1. split; [now rewrite addAll_nil|]. split; [cbn; lia|]. split; [reflexivity|]. split; [auto|]. split; [reflexivity|]. split; [intros it []|]. split; [apply Ax|].
      split; [intros ls p []|]. intros V M _. cbn [existsb]. assert (E : (b <=? val agg V M (S i))%Z = false) by (apply Z.leb_gt; unfold val; pose proof (sumT_le V M _ Hs0); lia).
      now rewrite E, andb_false_r. }
  apply Z.ltb_ge in En.
  assert (Pre : (do pre <- (if add then do x0 <- lookup agg i; Ok [fst x0] else Ok []); Ok pre) = Ok (if add then [fst x] else [])).
  { destruct add; [|reflexivity]. unfold lookup. now rewrite Ex. }
  assert (PreE : (if add then do x0 <- lookup agg i; Ok [fst x0] else Ok []) = Ok (if add then [fst x] else [])) by (destruct add; [unfold lookup; now rewrite Ex|reflexivity]).
  rewrite PreE. cbn [bind]. unfold getAuxVar. set (k := Z.to_nat (b - 1)). assert (Lk : k < length (t_aux s)) by (unfold k; lia).
  unfold lookup. destruct (nth_error (t_aux s) k) as [a|] eqn:Ea; [|apply nth_error_None in Ea; lia]. cbn [bind].
  assert (Sem : forall a D, In (S i, b, a) D -> forall V M, exactAt agg D V M (S i) -> existsb (forallb (litT V M)) [(if add then [fst x] else []) ++ [pos a]]
     = ((if add then litT V M (fst x) else true) && (b <=? val agg V M (S i))%Z)).
  { intros c D J V M X. cbn [existsb]. rewrite orb_false_r, forallb_app. rewrite <- (X (S i) b c J eq_refl). destruct add; cbn [forallb]; rewrite ?andb_true_r; reflexivity. }
  assert (Lits : forall a D, In (S i, b, a) D -> forall ls p, In ls [(if add then [fst x] else []) ++ [pos a]] -> In p ls -> In p (map fst agg) \/ exists b' a, p = pos a /\ In (S i, b', a) D).
  { intros c D J ls p [<-|[]] K. apply in_app_iff in K as [K|[<-|[]]]; [|right; eauto]. left. destruct add; [|destruct K]. destruct K as [<-|[]]. apply in_map. eapply nth_error_In; eauto. }
  destruct (a =? 0) eqn:E0.
  - apply Nat.eqb_eq in E0. subst a. exists [(S i, b, t_next s)], [(if add then [fst x] else []) ++ [pos (t_next s)]]. eexists. cbn [length Nat.eqb].
    assert (J : In (S i, b, t_next s) (todo ++ [(S i, b, t_next s)])) by (apply in_app_iff; right; now left).
    split; [unfold newAtom, setAux, addNorm, addRule; cbn; reflexivity|]. split; [cbn; lia|]. split; [reflexivity|]. split; [auto|]. split; [reflexivity|]. split.
    + intros it [<-|[]]. split; [|reflexivity]. unfold good. fold mx. lia.
    + split; [|split; [apply (Lits _ _ J)|apply (Sem _ _ J)]]. split; [cbn; now rewrite setNth_len|]. cbn [t_aux]. intros k' a' Ek Ez. rewrite setNth_nth in Ek by auto. apply in_app_iff. destruct (k' =? k) eqn:E.
      * apply Nat.eqb_eq in E. subst k'. injection Ek as <-. right. left. unfold k. now rewrite nat_of by lia.
      * left. now apply An.
  - apply Nat.eqb_neq in E0. pose proof (An k a Ea E0) as J. unfold k in J. rewrite nat_of in J by lia.
    assert (J' : In (S i, b, a) (todo ++ [])) by now rewrite app_nil_r.
    exists [], [(if add then [fst x] else []) ++ [pos a]]. eexists. rewrite app_nil_r at 1. split; [reflexivity|]. split; [cbn; lia|]. split; [reflexivity|]. split; [auto|]. split; [reflexivity|]. split; [intros it []|]. split; [apply (Ax [(if add then [fst x] else []) ++ [pos a]])|].
    split; [apply (Lits _ _ J')|apply (Sem _ _ J')].
Qed.

Definition meas (todo : list item) : nat := fold_right (fun it m => 3 ^ (length agg - fst (fst it)) + m) 0 todo.
Lemma meas_app a b : meas (a ++ b) = meas a + meas b.
Proof. induction a as [|x a IH]; [auto|]. cbn [app meas fold_right]. fold (meas (a ++ b)). fold (meas a). rewrite IH. lia. Qed.
Lemma meas_new new i : length new <= 1 -> (forall it, In it new -> fst (fst it) = S i) -> meas new <= 3 ^ (length agg - S i).
Proof.
  intros Hl H. destruct new as [|y [|z r]]; cbn [length] in Hl; [cbn [meas fold_right]; lia| |lia]. cbn [meas fold_right]. rewrite (H y) by now left. lia.
Qed.
Definition Inv (s : st) (todo : list item) (level : nat) : Prop :=
  auxOk s todo level /\ t_next s <> 0 /\ (forall it, In it todo -> good it)
  /\ exists l1 l2, todo = l1 ++ l2 /\ (forall it, In it l1 -> fst (fst it) = level) /\ (forall it, In it l2 -> fst (fst it) = S level).
Definition litsOk (D : list item) (L : list (list lit)) : Prop :=
  forall ls p, In ls L -> In p ls -> In p (map fst agg) \/ exists i b a, p = pos a /\ In (i, b, a) D /\ 0 < i.
Definition Post (s : st) (todo : list item) (s' : st) : Prop :=
  exists T new, map fst T = todo ++ new /\ t_out s' = t_out s ++ trules T /\ t_next s' = t_next s + length new /\ fresh s new
    /\ Forall (fun a => a = 0) (t_aux s') /\ (forall it, In it new -> 0 < fst (fst it))
    /\ forall i b a L, In ((i, b, a), L) T -> i < length agg /\ itemOk agg (todo ++ new) i b L /\ litsOk (todo ++ new) L.

Lemma loop_ok : forall fuel s todo level, Inv s todo level ->
  (forall s', splitLoop fuel agg sumR bound s todo level = Ok s' -> Post s todo s')
  /\ (meas todo <= fuel -> exists s', splitLoop fuel agg sumR bound s todo level = Ok s').
Proof.
  induction fuel as [|fuel IH]; intros s todo level ((Al & An) & Kz & G & l1 & l2 & Et & I1 & I2).
  1: { destruct todo as [|[[i b] a] todo]; cbn [splitLoop].
       - split; [|eauto]. intros s' E. injection E as <-. exists [], []. split; [auto|]. split; [now rewrite app_nil_r|]. split; [cbn; lia|]. split; [reflexivity|]. split; [|split; [intros it []|intros i b a L []]].
         apply Forall_forall. intros y J. apply In_nth_error in J as (k & J). destruct (Nat.eq_dec y 0); [auto|]. destruct (An k y J n).
       - split; [discriminate|]. cbn. pose proof (Nat.pow_nonzero 3 (length agg - i)). lia. }
  destruct todo as [|[[i b] h] todo]; cbn [splitLoop].
  1: { split; [|eauto]. intros s' E. injection E as <-. exists [], []. split; [auto|]. split; [now rewrite app_nil_r|]. split; [cbn; lia|]. split; [reflexivity|]. split; [|split; [intros it []|intros i b a L []]].
       apply Forall_forall. intros y J. apply In_nth_error in J as (k & J). destruct (Nat.eq_dec y 0); [auto|]. destruct (An k y J n). }
  pose proof (G _ (or_introl eq_refl)) as Gi. pose proof (good_lt _ _ _ Gi) as Li. destruct Gi as (Gb & Gb2 & Gs).
  set (c := if level <? i then (setAux s (repeat 0 (Z.to_nat bound)), i) else (s, level)).
  assert (C : exists s0, c = (s0, i) /\ t_next s0 = t_next s /\ t_out s0 = t_out s /\ auxOk s0 todo i /\ exists m1 m2, todo = m1 ++ m2 /\ (forall it, In it m1 -> fst (fst it) = i) /\ (forall it, In it m2 -> fst (fst it) = S i)).
  { unfold c. destruct (level <? i) eqn:E.
    - apply Nat.ltb_lt in E. exists (setAux s (repeat 0 (Z.to_nat bound))). split; [auto|]. split; [auto|]. split; [auto|]. split.
      + split; [apply repeat_length|]. cbn [setAux t_aux]. intros k a Ek Ez. apply nth_error_In in Ek. apply repeat_spec in Ek. lia.
      + destruct l1 as [|y l1]; [|cbn in Et; injection Et as <- _; specialize (I1 _ (or_introl eq_refl)); cbn in I1; lia].
        exists todo, []. rewrite app_nil_r. split; [auto|]. split; [|intros it []]. cbn in Et. subst l2. intros it J. rewrite (I2 it) by now right. now rewrite <- (I2 _ (or_introl eq_refl)).
    - apply Nat.ltb_ge in E. destruct l1 as [|y l1].
      { cbn in Et. subst l2. specialize (I2 _ (or_introl eq_refl)). cbn in I2. lia. }
      cbn in Et. injection Et as <- Et. pose proof (I1 _ (or_introl eq_refl)) as Ei. cbn in Ei. subst level.
      exists s. split; [auto|]. split; [auto|]. split; [auto|]. split.
      + split; [auto|]. intros k a Ek Ez. destruct (An k a Ek Ez) as [Eq|J]; [|auto]. injection Eq as Eq _ _. lia.
      + exists l1, l2. split; [auto|]. split; [intros it J; apply I1; now right|auto]. }
  destruct C as (s0 & Ec & En0 & Eo0 & Ax0 & m1 & m2 & Em & M1 & M2). rewrite Ec. clear c Ec.
  destruct (nth_error agg i) as [x|] eqn:Ex; [|apply nth_error_None in Ex; lia]. assert (Lx : lookup agg i = Ok x) by (unfold lookup; now rewrite Ex). rewrite Lx. cbn [bind].
  pose proof (H0 x (nth_error_In _ _ Ex)) as Hx.
  destruct (addSplit_ok s0 todo h true i (b - snd x) x Ax0) as (nw1 & L1 & sa & E1 & Na & Oa & N1 & F1 & G1 & A1 & T1 & S1); auto; [now rewrite En0|lia|discriminate|].
  rewrite E1. cbn [bind].
  destruct (addSplit_ok sa (todo ++ nw1) h false i b x A1) as (nw2 & L2 & sb & E2 & Nb & Ob & N2 & F2 & G2 & A2 & T2 & S2); auto; [lia|].
  rewrite E2. cbn [bind]. rewrite <- app_assoc in E2, A2, T2, S2.
  assert (Inv' : Inv sb (todo ++ nw1 ++ nw2) i).
  { split; [exact A2|]. split; [lia|]. split.
    - intros it J. rewrite !in_app_iff in J. destruct J as [J|[J|J]]; [apply G; now right|now apply G1|now apply G2].
    - exists m1, (m2 ++ nw1 ++ nw2). split; [now rewrite Em, <- app_assoc|]. split; [auto|]. intros it J. rewrite !in_app_iff in J. destruct J as [J|[J|J]]; [auto|now apply G1|now apply G2]. }
  rewrite <- app_assoc. destruct (IH sb (todo ++ nw1 ++ nw2) i Inv') as [Q1 Q2]. split.
  - intros s' E. destruct (Q1 s' E) as (T & new & P1 & P2 & P3 & P4 & P5 & P6 & P7).
    exists (((i, b, h), L1 ++ L2) :: T), (nw1 ++ nw2 ++ new). split; [|split; [|split; [|split; [|split; [|split]]]]].
    + cbn [map fst]. rewrite P1. now rewrite <- !app_assoc.
    + rewrite P2, Ob, Oa, Eo0. unfold trules. cbn [flat_map fst snd]. unfold rulesOf. rewrite map_app. now rewrite <- !app_assoc.
    + rewrite P3, Nb, Na, En0, !app_length. lia.
    + unfold fresh in *. rewrite !map_app, F1, F2, P4, !app_length, !seq_app, Nb, Na, En0. reflexivity.
    + auto.
    + intros it J. rewrite !in_app_iff in J. destruct J as [J|[J|J]]; [apply G1 in J as [_ ->]; lia|apply G2 in J as [_ ->]; lia|auto].
    + intros i0 b0 a0 L0 [Eq|J].
      * injection Eq as <- <- <- <-. split; [lia|]. split.
        -- intros V M X. rewrite existsb_app.
           assert (X2 : exactAt agg (todo ++ nw1 ++ nw2) V M (S i)).
           { intros i' b' a' J. apply X. rewrite !in_app_iff in *. cbn [In]. tauto. }
           assert (X1 : exactAt agg (todo ++ nw1) V M (S i)).
           { intros i' b' a' J. apply X2. rewrite !in_app_iff in *. tauto. }
           rewrite (S1 V M X1), (S2 V M X2). unfold val. rewrite (skipn_cons agg i x Ex). cbn [sumT fold_right]. fold (sumT V M (skipn (S i) agg)). cbn [andb].
           destruct (litT V M (fst x)); cbn [andb orb]; [|reflexivity]. set (v := sumT V M (skipn (S i) agg)).
           destruct (b - snd x <=? v)%Z eqn:Z1; [apply Z.leb_le in Z1; symmetry; apply Z.leb_le; lia|]. apply Z.leb_gt in Z1. cbn [orb].
           transitivity false; [apply Z.leb_gt; lia|symmetry; apply Z.leb_gt; lia].
        -- intros ls p J K. apply in_app_iff in J as [J|J].
           ++ destruct (T1 ls p J K) as [H|(b' & a' & -> & H)]; [auto|]. right. exists (S i), b', a'. split; [auto|]. split; [|lia]. rewrite !in_app_iff in *. cbn [In]. tauto.
           ++ destruct (T2 ls p J K) as [H|(b' & a' & -> & H)]; [auto|]. right. exists (S i), b', a'. split; [auto|]. split; [|lia]. rewrite !in_app_iff in *. cbn [In]. tauto.
      * destruct (P7 _ _ _ _ J) as (Y1 & Y2 & Y3). split; [auto|].
        assert (Ic : incl ((todo ++ nw1 ++ nw2) ++ new) (((i, b, h) :: todo) ++ nw1 ++ nw2 ++ new)) by (intros it K; rewrite !in_app_iff in *; cbn [In]; tauto).
        split; [eapply itemOk_incl; [exact Ic|exact Y2]|]. intros ls p K1 K2. destruct (Y3 ls p K1 K2) as [H|(i' & b' & a' & -> & H & Hi)]; [auto|]. right. exists i', b', a'. auto.
  - intros Lm. apply Q2. change (3 ^ (length agg - i) + meas todo <= S fuel) in Lm. rewrite !meas_app.
    pose proof (meas_new nw1 i N1 (fun it J => proj2 (G1 it J))). pose proof (meas_new nw2 i N2 (fun it J => proj2 (G2 it J))).
    replace (length agg - i) with (S (length agg - S i)) in Lm by lia. rewrite Nat.pow_succ_r' in Lm. pose proof (Nat.pow_nonzero 3 (length agg - S i)). lia.
Qed.
End Loop.
