(** Rule transformation: sums, preparation and enumeration of subsets *)
From Coq Require Import List Bool Arith ZArith Lia Permutation.
Import ListNotations.
From Verif Require Import Base LpSpec LpProofs RtModel RtProofs.

Definition sumW (l : list (lit * Z)) : Z := fold_right (fun x s => snd x + s)%Z 0%Z l.
Lemma sumT_perm N M l l' : Permutation l l' -> sumT N M l = sumT N M l'.
Proof.
  induction 1 as [|x l l' H IH|x y l|l1 l2 l3 H1 IH1 H2 IH2]; auto.
  - cbn [sumT fold_right]. unfold sumT in IH. now rewrite IH.
  - cbn [sumT fold_right]. destruct (litT N M (fst x)), (litT N M (fst y)); lia.
  - congruence.
Qed.
Lemma insW_perm x : forall l, Permutation (x :: l) (insW x l).
Proof.
  induction l as [|y l IH]; cbn [insW]; [auto|]. destruct (snd y <=? snd x)%Z; [auto|].
  apply (Permutation_trans (l' := y :: x :: l)); [constructor|]. now constructor.
Qed.
Lemma sortW_perm : forall l, Permutation l (sortW l).
Proof.
  induction l as [|x l IH]; cbn [sortW]; [auto|]. apply (Permutation_trans (l' := x :: sortW l)); [now constructor|apply insW_perm].
Qed.
(** decreasing weights *)
Inductive desc : list (lit * Z) -> Prop :=
| desc_nil : desc []
| desc_cons x l : (forall y, In y l -> (snd y <= snd x)%Z) -> desc l -> desc (x :: l).
Lemma insW_desc x : forall l, desc l -> desc (insW x l).
Proof.
  induction l as [|y l IH]; intros D; cbn [insW]; [constructor; [intros ? []|auto]|]. inversion D as [|a b Hy Dl]; subst.
  destruct (snd y <=? snd x)%Z eqn:E.
  - apply Z.leb_le in E. constructor; [|auto]. intros z [<-|I]; [auto|]. specialize (Hy z I). lia.
  - apply Z.leb_gt in E. constructor; [|auto]. intros z I. apply (Permutation_in _ (Permutation_sym (insW_perm x l))) in I as [<-|I]; [lia|auto].
Qed.
Lemma sortW_desc : forall l, desc (sortW l).
Proof. induction l; cbn [sortW]; [constructor|now apply insW_desc]. Qed.

Definition cut (bound : Z) (x : lit * Z) : lit * Z := (fst x, Z.min (snd x) bound).
Lemma cutSum_ok bound : forall l agg sumR sum, cutSum bound l = Ok (agg, sumR, sum) ->
  agg = map (cut bound) l /\ sum = sumW agg /\ (forall i, nth_error sumR i = if i <? length agg then Some (sumW (skipn i agg)) else None)
  /\ (forall x, In x agg -> (0 <= snd x)%Z).
Proof.
  induction l as [|[p w] l IH]; intros agg sumR sum H; cbn [cutSum] in H.
  - injection H as <- <- <-. split; [auto|]. split; [auto|]. split; [intros [|i]; reflexivity|intros x []].
  - destruct (cutSum bound l) as [[[agg' sumR'] sum']| |] eqn:E; try discriminate H. cbn [bind] in H. destruct (IH _ _ _ eq_refl) as (A & B & C & D).
    match type of H with (if ?c then _ else _) = _ => destruct c eqn:G end; [|discriminate]. injection H as <- <- <-.
    apply andb_true_iff in G as [G _]. apply Z.leb_le in G.
    split; [cbn; now rewrite <- A|]. split; [cbn [sumW fold_right snd]; fold (sumW agg'); lia|]. split.
    + intros [|i].
      * transitivity (Some (Z.min w bound + sumW agg')%Z); [|reflexivity]. cbn [nth_error]. f_equal. lia.
      * cbn [nth_error length skipn]. rewrite C. reflexivity.
    + intros x [<-|I]; auto.
Qed.
Lemma sumT_nonneg N M : forall l, (forall x, In x l -> (0 <= snd x)%Z) -> (0 <= sumT N M l)%Z.
Proof.
  induction l as [|x l IH]; intros H; [reflexivity|]. cbn [sumT fold_right]. fold (sumT N M l).
  assert (0 <= sumT N M l)%Z by (apply IH; intros y I; apply H; now right). specialize (H x (or_introl eq_refl)). destruct (litT N M (fst x)); lia.
Qed.
Lemma sumT_le N M : forall l, (forall x, In x l -> (0 <= snd x)%Z) -> (sumT N M l <= sumW l)%Z.
Proof.
  induction l as [|x l IH]; intros H; [reflexivity|]. cbn [sumT sumW fold_right]. fold (sumT N M l). fold (sumW l).
  assert (sumT N M l <= sumW l)%Z by (apply IH; intros y I; apply H; now right). specialize (H x (or_introl eq_refl)). destruct (litT N M (fst x)); lia.
Qed.
Lemma sumT_in N M x : forall l, (forall x, In x l -> (0 <= snd x)%Z) -> In x l -> litT N M (fst x) = true -> (snd x <= sumT N M l)%Z.
Proof.
  induction l as [|y l IH]; intros H I T; [destruct I|]. cbn [sumT fold_right]. fold (sumT N M l). destruct I as [<-|I].
  - rewrite T. assert (0 <= sumT N M l)%Z by (apply sumT_nonneg; intros z J; apply H; now right). lia.
  - assert (snd x <= sumT N M l)%Z by (apply IH; auto; intros z J; apply H; now right). specialize (H y (or_introl eq_refl)). destruct (litT N M (fst y)); lia.
Qed.
Lemma cut_body bound l N M : (forall x, In x (map (cut bound) l) -> (0 <= snd x)%Z) -> bodyT N M (Agg bound (map (cut bound) l)) = bodyT N M (Agg bound l).
Proof.
  intros H. cbn [bodyT].
  assert (Hl : forall x, In x l -> (0 <= snd x)%Z). { intros x I. specialize (H (cut bound x) (in_map _ _ _ I)). cbn in H. lia. }
  destruct (existsb (fun x => litT N M (fst x) && (bound <=? snd x)%Z) l) eqn:E.
  - apply existsb_exists in E as (x & I & E). apply andb_true_iff in E as [T G]. apply Z.leb_le in G.
    pose proof (sumT_in N M x l Hl I T). assert (Hc : (snd (cut bound x) <= sumT N M (map (cut bound) l))%Z) by (apply sumT_in; auto using in_map).
    cbn in Hc. transitivity true; [apply Z.leb_le; lia|symmetry; apply Z.leb_le; lia].
  - f_equal. induction l as [|x l IH]; [reflexivity|]. cbn [existsb] in E. apply orb_false_iff in E as [E1 E2]. cbn [map sumT fold_right]. unfold sumT in IH.
    rewrite IH; [|intros y I; apply H; now right|intros y I; apply Hl; now right|auto]. cbn [cut fst snd]. destruct (litT N M (fst x)); [|auto]. cbn in E1. apply Z.leb_gt in E1. lia.
Qed.

(** the last weight is the smallest *)
Lemma back_min : forall l x, desc l -> back l = Ok x -> In x l /\ forall y, In y l -> (snd x <= snd y)%Z.
Proof.
  intros l x D H. unfold back in H. destruct l as [|z l]; [discriminate|]. unfold lookup in H. destruct (nth_error (z :: l) (length (z :: l) - 1)) as [y|] eqn:E; [|discriminate].
  injection H as <-. split; [eapply nth_error_In; eauto|]. revert z D E. induction l as [|u l IH]; intros z D E w I.
  - cbn in E. injection E as <-. destruct I as [<-|[]]. lia.
  - inversion D as [|a b Hz Dl]; subst. assert (E' : nth_error (u :: l) (length (u :: l) - 1) = Some y). { cbn in E. cbn. now rewrite Nat.sub_0_r in *. }
    pose proof (IH u Dl E') as Hm. destruct I as [<-|I]; [|auto]. apply Hz. eapply nth_error_In; eauto.
Qed.
Lemma cut_desc bound : forall l, desc l -> desc (map (cut bound) l).
Proof.
  induction 1 as [|x l Hx D IH]; cbn [map]; [constructor|]. constructor; [|auto]. intros y I. apply in_map_iff in I as (z & <- & I). specialize (Hx z I). cbn. lia.
Qed.
(** when all literals are needed *)
Lemma allNeeded N M mn : forall l, (forall y, In y l -> (0 <= snd y)%Z) -> (forall y, In y l -> (mn <= snd y)%Z) -> forall b, (sumW l - mn < b)%Z -> (b <= sumW l)%Z ->
  forallb (litT N M) (map fst l) = (b <=? sumT N M l)%Z.
Proof.
  intros l H0 Hm b L1 L2. destruct (forallb (litT N M) (map fst l)) eqn:E.
  - symmetry. apply Z.leb_le. assert (X : sumT N M l = sumW l); [|lia]. clear - E. induction l as [|x l IH]; [reflexivity|]. cbn [map forallb] in E. apply andb_true_iff in E as [E1 E2].
    cbn [sumT sumW fold_right]. rewrite E1. unfold sumT, sumW in IH. now rewrite IH.
  - symmetry. apply Z.leb_gt. assert (X : (sumT N M l <= sumW l - mn)%Z); [|lia]. clear L1 L2. induction l as [|x l IH]; [discriminate|]. cbn [map forallb] in E.
    cbn [sumT sumW fold_right]. fold (sumT N M l). fold (sumW l). assert (G : (sumT N M l <= sumW l)%Z) by (apply sumT_le; intros y I; apply H0; now right).
    pose proof (Hm x (or_introl eq_refl)). destruct (litT N M (fst x)); cbn in E; [|lia].
    assert (sumT N M l <= sumW l - mn)%Z; [|lia]. apply IH; auto; intros y I; [apply H0|apply Hm]; now right.
Qed.

(** ** one rule per body *)
Definition rulesOf (h : nat) (L : list (list lit)) : prog := map (fun ls => Rule false (hd1 h) (Norm ls)) L.
Lemma rulesOf_equiv h L b N M : existsb (forallb (litT N M)) L = bodyT N M b -> progT N M [Rule false (hd1 h) b] <-> progT N M (rulesOf h L).
Proof.
  intros E. rewrite single_progT. split.
  - intros H r I. apply in_map_iff in I as (ls & <- & I). intros B. apply H. cbn [r_body]. rewrite <- E. apply existsb_exists. exists ls. auto.
  - intros H B. cbn [r_body] in B. rewrite <- E in B. apply existsb_exists in B as (ls & I & B). apply (H (Rule false (hd1 h) (Norm ls))); auto.
    now apply (in_map (fun ls => Rule false (hd1 h) (Norm ls))).
Qed.
Definition addAll (s : st) (h : nat) (L : list (list lit)) : st := St (t_next s) (t_out s ++ rulesOf h L) (t_aux s).
Lemma addAll_app s h L1 L2 : addAll s h (L1 ++ L2) = addAll (addAll s h L1) h L2.
Proof. unfold addAll, rulesOf. cbn. now rewrite map_app, app_assoc. Qed.
Lemma addNorm_all s h ls : addNorm s h ls = addAll s h [ls].
Proof. reflexivity. Qed.
Lemma addAll_nil s h : addAll s h [] = s.
Proof. destruct s. unfold addAll. cbn. now rewrite app_nil_r. Qed.

(** ** subsets *)
Fixpoint selB (l : list (lit * Z)) (need : Z) : list (list lit) :=
  match l with
  | [] => []
  | (p, w) :: r =>
      (if (need - w <=? 0)%Z then [[p]] else map (cons p) (selB r (need - w)%Z))
      ++ (if (length r =? 0) || (sumW r <? need)%Z then [] else selB r need)
  end.
Lemma selB_ok N M : forall l need, (0 < need)%Z -> (forall x, In x l -> (0 <= snd x)%Z) -> existsb (forallb (litT N M)) (selB l need) = (need <=? sumT N M l)%Z.
Proof.
  induction l as [|[p w] r IH]; intros need Hn H0; [cbn; symmetry; apply Z.leb_gt; lia|]. cbn [selB sumT fold_right fst snd]. fold (sumT N M r).
  assert (Hr : forall x, In x r -> (0 <= snd x)%Z) by (intros x I; apply H0; now right). pose proof (H0 (p, w) (or_introl eq_refl)) as Hw. cbn in Hw.
  pose proof (sumT_nonneg N M r Hr) as Hp. pose proof (sumT_le N M r Hr) as Hle. rewrite existsb_app.
  assert (X2 : existsb (forallb (litT N M)) (if (length r =? 0) || (sumW r <? need)%Z then [] else selB r need) = (need <=? sumT N M r)%Z).
  { destruct (length r =? 0) eqn:El; cbn [orb].
    - apply Nat.eqb_eq in El. destruct r; [|discriminate]. cbn. symmetry. apply Z.leb_gt. lia.
    - destruct (sumW r <? need)%Z eqn:Es; [|now apply IH]. apply Z.ltb_lt in Es. cbn. symmetry. apply Z.leb_gt. lia. }
  rewrite X2.
  assert (X1 : existsb (forallb (litT N M)) (if (need - w <=? 0)%Z then [[p]] else map (cons p) (selB r (need - w))) = litT N M p && (need - w <=? sumT N M r)%Z).
  { destruct (need - w <=? 0)%Z eqn:Ew.
    - apply Z.leb_le in Ew. cbn. rewrite andb_true_r, orb_false_r. destruct (litT N M p); [|auto]. symmetry. apply Z.leb_le. lia.
    - apply Z.leb_gt in Ew. rewrite <- IH by (auto; lia). clear. induction (selB r (need - w)) as [|x l IHl]; [cbn; now rewrite andb_false_r|].
      cbn [map existsb forallb]. rewrite IHl. destruct (litT N M p), (forallb (litT N M) x); reflexivity. }
  rewrite X1. destruct (litT N M p); cbn [andb orb].
  - destruct (need - w <=? sumT N M r)%Z eqn:E1; [apply Z.leb_le in E1; symmetry; apply Z.leb_le; lia|]. apply Z.leb_gt in E1. cbn.
    transitivity false; [apply Z.leb_gt; lia|symmetry; apply Z.leb_gt; lia].
  - reflexivity.
Qed.
Lemma selB_lits : forall l need ls p, In ls (selB l need) -> In p ls -> In p (map fst l).
Proof.
  induction l as [|[q w] r IH]; intros need ls p I J; [destruct I|]. cbn [selB] in I. apply in_app_iff in I as [I|I].
  - destruct (need - w <=? 0)%Z.
    + destruct I as [<-|[]]. destruct J as [<-|[]]. now left.
    + apply in_map_iff in I as (l' & <- & I). destruct J as [<-|J]; [now left|]. right. eapply IH; eauto.
  - destruct (_ || _); [destruct I|]. right. eapply IH; eauto.
Qed.

Lemma selLoop_mono agg sumR bound h : forall f s pu it cw ls stk s', selLoop f agg sumR bound h s pu it cw ls stk = Ok s' ->
  forall f', f <= f' -> selLoop f' agg sumR bound h s pu it cw ls stk = Ok s'.
Proof.
  induction f as [|f IH]; intros s pu it cw ls stk s' H f' L; [discriminate|]. destruct f' as [|f']; [lia|]. cbn [selLoop] in *. destruct pu.
  - destruct (cw <? bound)%Z.
    + destruct (lookup agg it) as [x| |]; try discriminate H. cbn [bind] in *. apply IH; auto. lia.
    + apply IH; auto. lia.
  - destruct stk as [|i stk]; [auto|]. destruct (lookup agg i) as [x| |]; try discriminate H. cbn [bind] in *.
    destruct (if S i =? length agg then _ else _) as [y| |]; try discriminate H. cbn [bind] in *. apply IH; auto. lia.
Qed.
Section Sel.
Context (agg : list (lit * Z)) (sumR : list Z) (bound : Z) (h : nat).
Context (HR : forall i, nth_error sumR i = if i <? length agg then Some (sumW (skipn i agg)) else None).
Lemma sel_ok : forall l pre s cw ls stk, agg = pre ++ l -> (cw < bound)%Z -> (bound <= cw + sumW l)%Z ->
  exists n it', forall f, selLoop (n + f) agg sumR bound h s true (length pre) cw ls stk
    = selLoop f agg sumR bound h (addAll s h (map (app (rev ls)) (selB l (bound - cw)%Z))) false it' cw ls stk.
Proof.
  induction l as [|[p w] r IH]; intros pre s cw ls stk Ea Lc Lb; [cbn in Lb; lia|].
  assert (Ln : nth_error agg (length pre) = Some (p, w)) by (rewrite Ea, nth_error_app2, Nat.sub_diag by auto; reflexivity).
  assert (Ea' : agg = (pre ++ [(p, w)]) ++ r) by now rewrite <- app_assoc.
  assert (Lp : length (pre ++ [(p, w)]) = S (length pre)) by (rewrite app_length; cbn; lia).
  cbn [sumW fold_right snd] in Lb. fold (sumW r) in Lb.
  (* with the literal *)
  assert (X1 : exists n it', forall f, selLoop (n + f) agg sumR bound h s true (length pre) cw ls stk
    = selLoop f agg sumR bound h (addAll s h (map (app (rev ls)) (if (bound - cw - w <=? 0)%Z then [[p]] else map (cons p) (selB r (bound - cw - w)))))
        false it' (cw + w)%Z (p :: ls) (length pre :: stk)).
  { destruct (bound - cw - w <=? 0)%Z eqn:E.
    - apply Z.leb_le in E. exists 2, (S (length pre)). intros f. cbn [Nat.add selLoop]. apply Z.ltb_lt in Lc. rewrite Lc. unfold lookup. rewrite Ln. cbn [bind fst snd].
      assert (G : (cw + w <? bound)%Z = false) by (apply Z.ltb_ge; lia). rewrite G. rewrite addNorm_all. cbn [map rev]. reflexivity.
    - apply Z.leb_gt in E. destruct (IH (pre ++ [(p, w)]) s (cw + w)%Z (p :: ls) (length pre :: stk) Ea') as (n & it' & H); [lia|lia|].
      exists (S n), it'. intros f. cbn [Nat.add selLoop]. apply Z.ltb_lt in Lc. rewrite Lc. unfold lookup. rewrite Ln. cbn [bind fst snd]. rewrite <- Lp, H.
      f_equal. f_equal. rewrite map_map. replace (bound - (cw + w))%Z with (bound - cw - w)%Z by lia. apply map_ext. intros x. cbn [rev]. now rewrite <- app_assoc. }
  destruct X1 as (n1 & it1 & X1).
  set (s1 := addAll s h (map (app (rev ls)) (if (bound - cw - w <=? 0)%Z then [[p]] else map (cons p) (selB r (bound - cw - w))))) in *.
  assert (Pop : forall f, selLoop (S f) agg sumR bound h s1 false it1 (cw + w)%Z (p :: ls) (length pre :: stk)
    = selLoop f agg sumR bound h s1 (negb ((length r =? 0) || (sumW r <? bound - cw)%Z)) (S (length pre)) cw ls stk).
  { intros f. cbn [selLoop]. unfold lookup. rewrite Ln. cbn [bind fst snd tl]. replace (cw + w - w)%Z with cw by lia.
    assert (Le : (S (length pre) =? length agg) = (length r =? 0)).
    { rewrite Ea. rewrite app_length. cbn [length]. destruct (length r =? 0) eqn:Er; [apply Nat.eqb_eq in Er; apply Nat.eqb_eq; lia|apply Nat.eqb_neq in Er; apply Nat.eqb_neq; lia]. }
    rewrite Le. destruct (length r =? 0) eqn:Er; [reflexivity|]. rewrite HR. apply Nat.eqb_neq in Er.
    assert (Ll : (S (length pre) <? length agg) = true) by (apply Nat.ltb_lt; rewrite Ea, app_length; cbn; lia). rewrite Ll. cbn [bind orb].
    assert (Sk : skipn (S (length pre)) agg = r). { rewrite Ea', <- Lp, skipn_app, Nat.sub_diag, skipn_all2 by auto. reflexivity. }
    rewrite Sk. f_equal. f_equal. destruct (cw + sumW r <? bound)%Z eqn:A, (sumW r <? bound - cw)%Z eqn:B; auto; rewrite ?Z.ltb_lt, ?Z.ltb_ge in *; lia. }
  cbn [selB]. rewrite map_app. destruct ((length r =? 0) || (sumW r <? bound - cw)%Z) eqn:Ec.
  - exists (n1 + 1), (S (length pre)). intros f. replace (n1 + 1 + f) with (n1 + S f) by lia. rewrite X1, Pop. cbn [negb map]. rewrite app_nil_r. reflexivity.
  - apply orb_false_iff in Ec as [_ Ec]. apply Z.ltb_ge in Ec. destruct (IH (pre ++ [(p, w)]) s1 cw ls stk Ea' Lc) as (n2 & it2 & H); [lia|].
    exists (n1 + (1 + n2)), it2. intros f. replace (n1 + (1 + n2) + f) with (n1 + S (n2 + f)) by lia. rewrite X1, Pop. cbn [negb]. rewrite <- Lp, H, addAll_app. reflexivity.
Qed.
Lemma select_ok s : (0 < bound)%Z -> (bound <= sumW agg)%Z -> exists n, forall f, n <= f ->
  selLoop f agg sumR bound h s true 0 0%Z [] [] = Ok (setAux (addAll s h (selB agg bound)) []).
Proof.
  intros H1 H2. destruct (sel_ok agg [] s 0%Z [] [] eq_refl H1 H2) as (n & it & H). exists (n + 1). intros f L.
  apply selLoop_mono with (f := n + 1); [|auto]. cbn [length] in H. rewrite H. cbn [selLoop]. f_equal. unfold setAux, addAll. cbn. f_equal. f_equal. f_equal.
  rewrite Z.sub_0_r. rewrite <- (map_id (selB agg bound)) at 2. apply map_ext. reflexivity.
Qed.
End Sel.
