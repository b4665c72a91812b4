(** Rule transformation: sums, whole rules and programs *)
From Coq Require Import List Bool Arith ZArith Lia Permutation.
Import ListNotations.
From Verif Require Import Base LpSpec LpProofs RtModel RtProofs RtProofs2 RtProofs3 RtProofs4.

Definition zeros (s : st) : Prop := Forall (fun a => a = 0) (t_aux s).
Definition normalR (r : rule) : Prop := exists h ls, r = Rule false (hd1 h) (Norm ls).
(** what a translation step adds *)
Definition adds (s s' : st) (R T : prog) : Prop :=
  t_out s' = t_out s ++ T /\ t_next s <= t_next s' /\ below (t_next s') T /\ zeros s' /\ replaces (t_next s) R T.

Lemma hd1_in h a : In a (hd1 h) -> a = h.
Proof. unfold hd1. destruct (h =? 0); [intros []|]. intros [<-|[]]. auto. Qed.
Lemma rulesOf_below k h L : h < k -> (forall ls p, In ls L -> In p ls -> fst p < k) -> below k (rulesOf h L).
Proof.
  intros Lh H r a I J. apply in_map_iff in I as (ls & <- & I). apply in_app_iff in J as [J|J]; [apply hd1_in in J; now subst|].
  cbn in J. apply in_map_iff in J as (p & <- & J). eauto.
Qed.
Lemma rulesOf_normal h L r : In r (rulesOf h L) -> normalR r.
Proof. intros I. apply in_map_iff in I as (ls & <- & _). exists h, ls. auto. Qed.

Section Sum.
Context (s : st) (h : nat) (bound : Z) (wl : list (lit * Z)).
Context (Bl : below (t_next s) [Rule false (hd1 h) (Agg bound wl)]) (Hh : h < t_next s) (Kz : t_next s <> 0) (Zs : zeros s).
Lemma sum_lits x : In x wl -> fst (fst x) < t_next s.
Proof. intros I. rewrite single_below in Bl. apply Bl. apply in_app_iff. right. cbn. now apply (in_map (fun x => fst (fst x))). Qed.

Context (agg : list (lit * Z)) (sumR : list Z) (sum : Z) (Ec : cutSum bound (sortW wl) = Ok (agg, sumR, sum)).
Lemma agg_eq : agg = map (cut bound) (sortW wl).
Proof. now apply cutSum_ok in Ec. Qed.
Lemma agg_lits x : In x agg -> fst (fst x) < t_next s.
Proof.
  intros I. rewrite agg_eq in I. apply in_map_iff in I as (y & <- & I). cbn. apply sum_lits. eapply Permutation_in; [apply Permutation_sym, sortW_perm|auto].
Qed.
Lemma agg_body N M : bodyT N M (Agg bound wl) = bodyT N M (Agg bound agg).
Proof.
  pose proof (cutSum_ok _ _ _ _ _ Ec) as (E1 & _ & _ & E4). rewrite E1 in E4. rewrite agg_eq, cut_body by auto. cbn. f_equal. apply sumT_perm, sortW_perm.
Qed.
Lemma agg_posB : posB (Agg bound wl).
Proof.
  pose proof (cutSum_ok _ _ _ _ _ Ec) as (E1 & _ & _ & E4). intros x I. assert (J : In (cut bound x) agg).
  { rewrite E1. apply in_map. eapply Permutation_in; [apply sortW_perm|auto]. }
  apply E4 in J. cbn in J. lia.
Qed.
Lemma list_ok L : (forall N M, existsb (forallb (litT N M)) L = bodyT N M (Agg bound agg)) -> (forall ls p, In ls L -> In p ls -> In p (map fst agg)) ->
  below (t_next s) (rulesOf h L) /\ replaces (t_next s) [Rule false (hd1 h) (Agg bound wl)] (rulesOf h L).
Proof.
  intros H Hl. assert (B : below (t_next s) (rulesOf h L)).
  { apply rulesOf_below; auto. intros ls p I J. specialize (Hl ls p I J). apply in_map_iff in Hl as (x & <- & I'). now apply agg_lits. }
  split; [auto|]. apply replaces_equiv; auto. intros N M _. apply rulesOf_equiv. now rewrite H, agg_body.
Qed.

Lemma transformSum_post fuel x s' : transformSum fuel s h bound wl x = Ok s' ->
  exists T, adds s s' [Rule false (hd1 h) (Agg bound wl)] T /\ forall r, In r T -> normalR r.
Proof.
  unfold transformSum. rewrite Ec. cbn [bind]. pose proof (cutSum_ok _ _ _ _ _ Ec) as (E1 & E2 & E3 & E4).
  assert (Simple : forall L, (forall N M, existsb (forallb (litT N M)) L = bodyT N M (Agg bound agg)) -> (forall ls p, In ls L -> In p ls -> In p (map fst agg)) ->
    exists T, adds s (addAll s h L) [Rule false (hd1 h) (Agg bound wl)] T /\ forall r, In r T -> normalR r).
  { intros L H1 H2. destruct (list_ok L H1 H2) as [B R]. exists (rulesOf h L). split; [|apply rulesOf_normal].
    split; [auto|]. split; [auto|]. split; [auto|]. split; auto. }
  destruct (sum <? bound)%Z eqn:C1.
  { apply Z.ltb_lt in C1. intros E. injection E as <-. pose proof (Simple []) as S0. rewrite addAll_nil in S0. apply S0; [|intros ls p []]. intros N M. cbn. symmetry. apply Z.leb_gt.
    pose proof (sumT_le N M agg E4). lia. }
  apply Z.ltb_ge in C1. destruct (bound <=? 0)%Z eqn:C2.
  { apply Z.leb_le in C2. intros E. injection E as <-. apply (Simple [[]]); [|intros ls p [<-|[]] []]. intros N M. cbn. symmetry. apply Z.leb_le. pose proof (sumT_nonneg N M agg E4). lia. }
  apply Z.leb_gt in C2. destruct (back agg) as [mn| |] eqn:Eb; try discriminate. cbn [bind].
  assert (D : desc agg) by (rewrite agg_eq; apply cut_desc, sortW_desc). destruct (back_min _ _ D Eb) as [Im Mm].
  destruct (sum - snd mn <? bound)%Z eqn:C3.
  { apply Z.ltb_lt in C3. intros E. injection E as <-. apply (Simple [map fst agg]); [|intros ls p [<-|[]] J; auto]. intros N M. cbn [existsb]. rewrite orb_false_r. cbn [bodyT].
    apply (allNeeded N M (snd mn)); auto; lia. }
  apply Z.ltb_ge in C3. destruct (_ || _).
  - intros E. destruct (select_ok agg sumR bound h E3 (setAux s []) C2) as (n & Hn); [lia|].
    pose proof (selLoop_mono _ _ _ _ _ _ _ _ _ _ _ _ E (fuel + n) (Nat.le_add_r _ _)) as E'. rewrite Hn in E' by lia. injection E' as <-.
    destruct (list_ok (selB agg bound)) as [B R].
    + intros N M. apply selB_ok; auto.
    + intros ls p. apply selB_lits.
    + exists (rulesOf h (selB agg bound)). split; [|apply rulesOf_normal]. split; [auto|]. split; [auto|]. split; [auto|]. split; [constructor|auto].
  - unfold transformSplit. set (s0 := setAux s (resize (t_aux s) (Z.to_nat bound))). intros E.
    assert (Zs0 : Forall (fun a => a = 0) (t_aux s0)).
    { cbn. unfold resize. apply Forall_app. split; [|apply Forall_forall; intros y J; now apply repeat_spec in J]. apply Forall_forall. intros y J. unfold zeros in Zs. rewrite Forall_forall in Zs. apply Zs.
      rewrite <- (firstn_skipn (Z.to_nat bound) (t_aux s)). apply in_app_iff. auto. }
    assert (Iv : Inv agg bound mn s0 [(0, bound, h)] 0).
    { split; [split|split; [auto|split]].
      - cbn. unfold resize. rewrite app_length, repeat_length, firstn_length. lia.
      - intros k a Ek Ez. apply nth_error_In in Ek. rewrite Forall_forall in Zs0. specialize (Zs0 a Ek). lia.
      - intros it [<-|[]]. cbn [good skipn]. lia.
      - exists [(0, bound, h)], []. split; [auto|]. split; [intros it [<-|[]]; auto|intros it []]. }
    destruct (loop_ok agg sumR bound mn E3 E4 Eb Mm fuel s0 _ _ Iv) as [Q _]. destruct (Q s' E) as (T & new & P1 & P2 & P3 & P4 & P5 & P6 & P7). clear Q.
    destruct T as [|[it Lr] T]; [discriminate|]. cbn [map fst app] in P1. injection P1 as -> P1. cbn [fst] in P1.
    assert (Fr : forall i b a, In (i, b, a) new -> t_next s <= a < t_next s').
    { intros i b a J. apply (in_map (fun it : item => snd it)) in J. rewrite P4 in J. apply in_seq in J. cbn in J. rewrite P3. cbn. lia. }
    assert (Tab : tab T = new) by exact P1.
    assert (Weak : forall i b L, itemOk agg ([(0, bound, h)] ++ new) i b L -> itemOk agg new i b L).
    { intros i b L H V M X. apply H. intros i' b' a' J Ei. apply X; [|auto]. destruct J as [J|J]; [|auto]. injection J as <- <- <-. discriminate Ei. }
    assert (Lits : forall i b a L ls p, In ((i, b, a), L) (((0, bound, h), Lr) :: T) -> In ls L -> In p ls -> fst p < t_next s').
    { intros i b a L ls p J J1 J2. destruct (P7 _ _ _ _ J) as (_ & _ & Y). destruct (Y ls p J1 J2) as [K|(i' & b' & a' & -> & K & Ki)].
      - apply in_map_iff in K as (y & <- & K). apply agg_lits in K. rewrite P3. cbn. cbn in K. lia.
      - destruct K as [K|K]; [injection K as <- _ _; lia|]. apply Fr in K. cbn. lia. }
    exists (rulesOf h Lr ++ trules T). split.
    + split; [rewrite P2; reflexivity|]. split; [rewrite P3; cbn; lia|]. split; [|split].
      * apply below_app. split.
        -- apply rulesOf_below; [rewrite P3; cbn; lia|]. intros ls p J1 J2. apply (Lits 0 bound h Lr ls); auto. now left.
        -- intros r c J1 J2. apply trules_in in J1 as (i & b & a & L & ls & J & K & ->). apply in_app_iff in J2 as [J2|J2].
           ++ apply hd1_in in J2. subst c. assert (Ja : In (i, b, a) new) by (rewrite <- Tab; now apply (in_map fst) in J). apply Fr in Ja. lia.
           ++ cbn in J2. apply in_map_iff in J2 as (p & <- & J2). apply (Lits i b a L ls); auto. now right.
      * exact P5.
      * apply (replaces_trans _ (t_next s) _ [Rule false (hd1 h) (Agg bound agg)]); [auto| |].
        -- apply replaces_equiv; auto.
           ++ apply single_below. intros a J. apply in_app_iff in J as [J|J]; [apply hd1_in in J; now subst|]. cbn in J. apply in_map_iff in J as (y & <- & J). now apply agg_lits.
           ++ intros N M _. rewrite !single_progT. unfold ruleT. cbn [r_body r_choice r_head]. rewrite agg_body. reflexivity.
        -- apply table_ok; auto.
           ++ exact agg_lits.
           ++ rewrite Tab. destruct (P7 0 bound h Lr (or_introl eq_refl)) as (_ & Y & _). now apply Weak.
           ++ intros i b a L J. rewrite Tab. destruct (P7 i b a L (or_intror J)) as (Y1 & Y2 & _). split; [|split; [auto|now apply Weak]].
              assert (Ja : In (i, b, a) new) by (rewrite <- Tab; now apply (in_map fst) in J). apply Fr in Ja. lia.
           ++ rewrite Tab. intros i b i' b' a J J'. assert (Nd : NoDup (map (fun it : item => snd it) new)) by (rewrite P4; apply seq_NoDup).
              assert (X : (i, b, a) = (i', b', a)); [|now injection X]. clear - J J' Nd. induction new as [|y l IH]; [destruct J|]. cbn [map] in Nd. inversion Nd as [|u v Ni Nd']; subst.
              destruct J as [->|J], J' as [J'|J'].
              ** auto.
              ** destruct Ni. now apply (in_map (fun it : item => snd it)) in J'.
              ** subst y. destruct Ni. now apply (in_map (fun it : item => snd it)) in J.
              ** auto.
    + intros r J. apply in_app_iff in J as [J|J]; [now apply rulesOf_normal in J|]. apply trules_in in J as (i & b & a & L & ls & _ & _ & ->). exists a, ls. auto.
Qed.
Lemma transformSum_total x : exists n, forall fuel, n <= fuel -> exists s', transformSum fuel s h bound wl x = Ok s'.
Proof.
  unfold transformSum. rewrite Ec. cbn [bind]. pose proof (cutSum_ok _ _ _ _ _ Ec) as (E1 & E2 & E3 & E4).
  destruct (sum <? bound)%Z eqn:C1; [exists 0; eauto|]. apply Z.ltb_ge in C1. destruct (bound <=? 0)%Z eqn:C2; [exists 0; eauto|]. apply Z.leb_gt in C2.
  destruct (back agg) as [mn| |] eqn:Eb.
  2,3: unfold back in Eb; destruct agg as [|z l]; [cbn in E2; lia|]; unfold lookup in Eb; destruct (nth_error _ _) eqn:En; [discriminate|]; apply nth_error_None in En; cbn in En; lia.
  cbn [bind]. assert (D : desc agg) by (rewrite agg_eq; apply cut_desc, sortW_desc). destruct (back_min _ _ D Eb) as [Im Mm].
  destruct (sum - snd mn <? bound)%Z eqn:C3; [exists 0; eauto|]. apply Z.ltb_ge in C3. destruct (_ || _).
  - destruct (select_ok agg sumR bound h E3 (setAux s []) C2) as (n & Hn); [lia|]. exists n. intros f L. eauto.
  - unfold transformSplit. set (s0 := setAux s (resize (t_aux s) (Z.to_nat bound))).
    assert (Zs0 : Forall (fun a => a = 0) (t_aux s0)).
    { cbn. unfold resize. apply Forall_app. split; [|apply Forall_forall; intros y J; now apply repeat_spec in J]. apply Forall_forall. intros y J. unfold zeros in Zs. rewrite Forall_forall in Zs. apply Zs.
      rewrite <- (firstn_skipn (Z.to_nat bound) (t_aux s)). apply in_app_iff. auto. }
    assert (Iv : Inv agg bound mn s0 [(0, bound, h)] 0).
    { split; [split|split; [auto|split]].
      - cbn. unfold resize. rewrite app_length, repeat_length, firstn_length. lia.
      - intros k a Ek Ez. apply nth_error_In in Ek. rewrite Forall_forall in Zs0. specialize (Zs0 a Ek). lia.
      - intros it [<-|[]]. cbn [good skipn]. lia.
      - exists [(0, bound, h)], []. split; [auto|]. split; [intros it [<-|[]]; auto|intros it []]. }
    exists (meas agg [(0, bound, h)]). intros f L. destruct (loop_ok agg sumR bound mn E3 E4 Eb Mm f s0 _ _ Iv) as [_ Q]. now apply Q.
Qed.
End Sum.
