(** Rule transformation: the translation ends and does not depend on the fuel of the model *)
From Coq Require Import List Bool Arith ZArith Lia Permutation.
Import ListNotations.
From Verif Require Import Base LpSpec LpProofs RtModel RtProofs RtProofs2 RtProofs3 RtProofs4 RtProofs5 RtProofs6.

Lemma splitLoop_mono agg sumR bound : forall f s todo lv s', splitLoop f agg sumR bound s todo lv = Ok s' -> forall f', f <= f' -> splitLoop f' agg sumR bound s todo lv = Ok s'.
Proof.
  induction f as [|f IH]; intros s todo lv s' H f' L.
  - destruct todo as [|[[i b] h] todo]; [destruct f'; auto|discriminate].
  - destruct f' as [|f']; [lia|]. destruct todo as [|[[i b] h] todo]; [auto|]. cbn [splitLoop] in *. destruct (if lv <? i then _ else _) as [s0 l0].
    destruct (lookup agg i) as [x| |]; try discriminate H. cbn [bind] in *. destruct (addSplit agg sumR s0 todo h true i (b - snd x)) as [[s1 t1]| |]; try discriminate H. cbn [bind] in *.
    destruct (addSplit agg sumR s1 t1 h false i b) as [[s2 t2]| |]; try discriminate H. cbn [bind] in *. apply IH; auto. lia.
Qed.
Lemma transformSum_mono f s h b wl x s' : transformSum f s h b wl x = Ok s' -> forall f', f <= f' -> transformSum f' s h b wl x = Ok s'.
Proof.
  unfold transformSum. intros H f' L. destruct (cutSum b (sortW wl)) as [[[agg sumR] sum]| |]; try discriminate H. cbn [bind] in *. destruct (sum <? b)%Z; [auto|]. destruct (b <=? 0)%Z; [auto|].
  destruct (back agg) as [mn| |]; try discriminate H. cbn [bind] in *. destruct (sum - snd mn <? b)%Z; [auto|]. destruct (_ || _); [eapply selLoop_mono; eauto|]. unfold transformSplit in *. eapply splitLoop_mono; eauto.
Qed.
Lemma transform_mono f s r x s' : transform f s r x = Ok s' -> forall f', f <= f' -> transform f' s r x = Ok s'.
Proof.
  unfold transform. intros H f' L. destruct (r_body r) as [c|b wl]; [auto|]. destruct (r_choice r || _); [cbn [newAtom] in *|]; eapply transformSum_mono; eauto.
Qed.

(** the checks of the code hold *)
Definition okW (b : body) : Prop := match b with Norm _ => True | Agg bound wl => (0 <= bound)%Z /\ (forall x, In x wl -> (0 <= snd x)%Z) /\ (sumW (map (cut bound) wl) <= int_max)%Z end.
Lemma sumW_perm l l' : Permutation l l' -> sumW l = sumW l'.
Proof. induction 1 as [|x l l' H IH|x y l|l1 l2 l3 H1 IH1 H2 IH2]; auto; [|cbn [sumW fold_right]; lia|congruence]. cbn [sumW fold_right]. unfold sumW in IH. lia. Qed.
Lemma sumW_nonneg l : (forall x, In x l -> (0 <= snd x)%Z) -> (0 <= sumW l)%Z.
Proof. induction l as [|x l IH]; intros H; [reflexivity|]. cbn [sumW fold_right]. fold (sumW l). specialize (IH (fun y J => H y (or_intror J))). specialize (H x (or_introl eq_refl)). lia. Qed.
Lemma cutSum_total bound : (0 <= bound)%Z -> forall l, (forall x, In x l -> (0 <= snd x)%Z) -> (sumW (map (cut bound) l) <= int_max)%Z -> exists agg sumR, cutSum bound l = Ok (agg, sumR, sumW (map (cut bound) l)).
Proof.
  intros Hb. induction l as [|[p w] l IH]; intros H L; [eexists; eexists; reflexivity|]. cbn [map sumW fold_right] in L. fold (sumW (map (cut bound) l)) in L. cbn [cut fst snd] in L.
  pose proof (H (p, w) (or_introl eq_refl)) as Hw. cbn in Hw. destruct IH as (agg & sumR & E); [intros x J; apply H; now right|lia|].
  cbn [cutSum]. rewrite E. cbn [bind]. assert (X : ((0 <=? Z.min w bound) && (sumW (map (cut bound) l) + Z.min w bound <=? int_max))%Z = true) by (apply andb_true_iff; split; apply Z.leb_le; lia).
  rewrite X. eexists. eexists. cbn [map sumW fold_right]. fold (sumW (map (cut bound) l)). cbn [cut fst snd]. rewrite (Z.add_comm (Z.min w bound)). reflexivity.
Qed.
(** from some fuel on the result is the same *)
Definition evt {A} (F : nat -> res A) : Prop := exists n x, forall f, n <= f -> F f = Ok x.
Lemma evt_ret {A} (x : A) : evt (fun _ => Ok x).
Proof. exists 0, x. auto. Qed.
Lemma evt_bind {A B} (F : nat -> res A) (G : nat -> A -> res B) : evt F -> (forall x, (exists f, F f = Ok x) -> evt (fun f => G f x)) -> evt (fun f => bind (F f) (G f)).
Proof.
  intros (n & x & H) K. destruct (K x) as (n' & y & H'); [eauto|]. exists (n + n'), y. intros f L. rewrite H by lia. cbn [bind]. apply H'. lia.
Qed.
Lemma sum_total s h bound wl x : okW (Agg bound wl) -> h < t_next s -> t_next s <> 0 -> zeros s -> evt (fun f => transformSum f s h bound wl x).
Proof.
  intros (H1 & H2 & H3) L K Z. destruct (cutSum_total bound H1 (sortW wl)) as (agg & sumR & E).
  - intros y J. apply H2. eapply Permutation_in; [apply Permutation_sym, sortW_perm|auto].
  - rewrite <- (sumW_perm (map (cut bound) wl)); auto. apply Permutation_map, sortW_perm.
  - destruct (transformSum_total s h bound wl L K Z agg sumR _ E x) as (n & Hn). destruct (Hn n (le_n n)) as (s' & Es). exists n, s'. intros f Lf. eapply transformSum_mono; eauto.
Qed.
Lemma transform_total s r x : okW (r_body r) -> (forall h, In h (r_head r) -> h < t_next s) -> t_next s <> 0 -> zeros s -> evt (fun f => transform f s r x).
Proof.
  intros Hw Hh K Z. unfold transform. destruct (r_body r) as [cond|bound wl].
  - destruct (Nat.ltb (if r_choice r then 0 else 1) (length (r_head r))) eqn:C; [|apply evt_ret]. apply Nat.ltb_lt in C.
    assert (D : forall s ls, exists s', (if r_choice r then Ok (transformChoice s ls (r_head r)) else transformDisjunction s ls (r_head r)) = Ok s').
    { intros s0 ls. destruct (r_choice r); [eauto|]. unfold transformDisjunction. destruct (r_head r); [cbn in C; lia|eauto]. }
    destruct (_ && _); cbn [newAtom].
    + destruct (D (addNorm (St (S (t_next s)) (t_out s) (t_aux s)) (t_next s) cond) [pos (t_next s)]) as (s' & ->). apply evt_ret.
    + destruct (D s cond) as (s' & ->). apply evt_ret.
  - destruct (r_choice r || _); [cbn [newAtom]|]; apply sum_total; auto; cbn; try lia.
    destruct (r_head r); [lia|apply Hh; now left].
Qed.
Section Ext.
Context (m : ermode) (isCount small : rule -> bool).
Notation native := (handleNatively m isCount small).
Lemma evt_if {A} (c : bool) (F G : nat -> res A) : (c = true -> evt F) -> (c = false -> evt G) -> evt (fun f => if c then F f else G f).
Proof. destruct c; auto. Qed.
Lemma extendedOne_total s r : okW (r_body r) -> below (t_next s) [r] -> wfR r -> t_next s <> 0 -> zeros s -> evt (fun f => extendedOne m isCount small f s r).
Proof.
  intros Hw B Hf K Z. unfold extendedOne. apply evt_if; intros C; [apply transform_total; auto; intros h J; rewrite single_below in B; apply B; apply in_app_iff; auto|]. cbn [newAtom].
  set (s0 := St (S (t_next s)) (t_out s) (t_aux s)). set (r1 := Rule false [t_next s] (r_body r)).
  assert (Z0 : zeros s0) by exact Z. assert (K0 : t_next s0 <> 0) by (cbn; lia).
  assert (B1 : below (t_next s0) [r1]). { destruct r as [ch hs b]. apply (below_body _ ch hs); [apply (below_le (t_next s)); [cbn; lia|auto]|]. intros h [<-|[]]. cbn. lia. }
  apply evt_bind.
  - apply evt_if; intros C1; [apply evt_ret|]. apply transform_total; auto. intros h [<-|[]]. cbn. lia.
  - intros s1 (f & E1). apply evt_if; intros C2; [apply evt_ret|].
    apply step_ok in E1 as (T1 & (A1 & A2 & A3 & A4 & A5) & N1); auto; [|intros h [<-|[]]; auto].
    apply transform_total; auto; [exact I| |cbn in A2; lia]. cbn [r_head]. intros h J. rewrite single_below in B. cbn in A2. assert (h < t_next s) by (apply B; apply in_app_iff; auto). lia.
Qed.
Lemma transformExtended_total : forall ext s, (forall r, In r ext -> native r = false /\ wfR r /\ okW (r_body r)) -> below (t_next s) ext -> t_next s <> 0 -> zeros s -> evt (fun f => transformExtended m isCount small f s ext).
Proof.
  induction ext as [|r ext IH]; intros s H B K Z; cbn [transformExtended]; [apply evt_ret|]. apply cons_below in B as [B1 B2]. apply single_below in B1. destruct (H r (or_introl eq_refl)) as (H1 & H2 & H3).
  apply evt_bind; [now apply extendedOne_total|]. intros s1 (f & E1). apply extendedOne_ok in E1 as (T1 & (A1 & A2 & A3 & A4 & A5) & N1); auto.
  apply IH; auto; [intros q J; apply H; now right|now apply (below_le (t_next s))|lia].
Qed.
Lemma addRules_total : forall P s ext, (forall r, In r P -> wfR r /\ okW (r_body r)) -> below (t_next s) P -> t_next s <> 0 -> evt (fun f => addRules m isCount small f s ext P).
Proof.
  induction P as [|r P IH]; intros s ext H B K; cbn [addRules]; [apply evt_ret|]. apply cons_below in B as [B1 B2]. apply single_below in B1. destruct (H r (or_introl eq_refl)) as (H1 & H2).
  assert (H' : forall r, In r P -> wfR r /\ okW (r_body r)) by (intros q J; apply H; now right).
  apply (evt_bind (fun f => addOne m isCount small f s ext r) (fun f x => let '(s0, ext0) := x in addRules m isCount small f s0 ext0 P)).
  - unfold addOne. apply evt_if; intros C; [apply evt_ret|]. apply evt_if; intros C1; [|apply evt_ret].
    apply evt_bind; [|intros s1 _; apply evt_ret]. apply transform_total; auto; [|constructor]. intros h J. cbn. rewrite single_below in B1. apply B1. apply in_app_iff. auto.
  - intros [s1 e1] (f & E). unfold addOne in E. destruct (native r) eqn:En; [injection E as <- <-; now apply IH|]. destruct (_ && _) eqn:C.
    + destruct (transform f (setAux s []) r NoAux) as [s2| |] eqn:E1; try discriminate E. cbn [bind] in E. injection E as <- <-. apply transform_ok in E1 as (T1 & (A1 & A2 & A3 & A4 & A5) & N1 & _); auto.
      * cbn in A2. apply IH; auto; [now apply (below_le (t_next s))|lia].
      * apply H1.
      * constructor.
      * unfold notDisj. pose proof (nonnative_notDisj m isCount small r En). tauto.
    + injection E as <- <-. now apply IH.
Qed.

Lemma addProgram_ok fuel k P Q : addProgram m isCount small fuel k P = Ok Q -> (forall r, In r P -> wfR r) -> below k P -> k <> 0 -> sameAS k P Q /\ forall q, In q Q -> native q = true.
Proof.
  unfold addProgram. intros E H B K. destruct (addRules m isCount small fuel (St k [] []) [] P) as [[s ext]| |] eqn:E1; try discriminate E. cbn [bind] in E.
  destruct (transformExtended m isCount small fuel (setAux s []) ext) as [s'| |] eqn:E2; try discriminate E. cbn [bind] in E. injection E as <-.
  apply addRules_ok in E1 as (T & e & D1 & D2 & D3 & D4 & D5 & D6 & D7 & D8); auto. cbn in D1, D2, D3, D8. subst ext.
  assert (Be : below k e) by (intros q a J; apply B; auto).
  apply transformExtended_ok in E2 as (T2 & (A1 & A2 & A3 & A4 & A5) & N2); auto; [|cbn; now apply (below_le k)|cbn; lia|constructor].
  cbn in A1, A5. rewrite A1, D1. split; [|intros q J; apply in_app_iff in J as [J|J]; auto].
  assert (R : replaces k P (T ++ T2)) by (apply (replaces_trans k (t_next s) _ (T ++ e)); auto; now apply replaces_frame).
  apply (R []). intros r a [].
Qed.
Lemma addProgram_total k P : (forall r, In r P -> wfR r /\ okW (r_body r)) -> below k P -> k <> 0 -> evt (fun f => addProgram m isCount small f k P).
Proof.
  intros H B K. unfold addProgram.
  apply (evt_bind (fun f => addRules m isCount small f (St k [] []) [] P) (fun f x => let '(s, ext) := x in do s <- transformExtended m isCount small f (setAux s []) ext; Ok (t_out s))).
  - apply addRules_total; auto.
  - intros [s ext] (f & E1). apply addRules_ok in E1 as (T & e & D1 & D2 & D3 & D4 & D5 & D6 & D7 & D8); auto; [|intros r J; now apply H]. cbn in D1, D2, D3, D8. subst ext.
    apply evt_bind; [|intros s1 _; apply evt_ret]. apply transformExtended_total.
    + intros r J. destruct (D6 r J). destruct (H r (D5 r J)). auto.
    + cbn. apply (below_le k); auto. intros q a J. apply B. auto.
    + cbn. lia.
    + constructor.
Qed.
End Ext.
