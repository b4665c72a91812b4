(** Preprocessor: setting up, handing over, and the whole run *)
From Coq Require Import List Bool Arith ZArith NArith Lia Permutation.
Import ListNotations.
From Verif Require Import Base ElModel ElSpec ElProofs ElProofs2 ElProofs3 ElProofs4 ElProofs5 ElProofs6 ElProofs7 ElProofs8 ElProofs9.

Section Simp.
Context (s : st).
Definition nf (p : lit) : bool := negb (falseL s p).
Lemma simpTail_ok : forall ls k0,
  match simpTail s ls k0 with inl k => k = k0 ++ filter nf ls | inr p => In p ls /\ trueL s p = true end.
Proof.
  induction ls as [|p ls IH]; intros k0; cbn [simpTail filter]; [now rewrite app_nil_r|].
  destruct (trueL s p) eqn:E; [split; [now left|auto]|]. unfold nf at 1. destruct (falseL s p); cbn [negb].
  - specialize (IH k0). destruct (simpTail s ls k0); [auto|]. split; [right|]; apply IH.
  - specialize (IH (k0 ++ [p])). destruct (simpTail s ls (k0 ++ [p])); [rewrite <- app_assoc in IH; auto|]. split; [right|]; apply IH.
Qed.
Lemma free_nf p : freeL s p = true -> nf p = true.
Proof. unfold freeL, nf, falseL. now destruct (litVal s p). Qed.
Lemma simpHead_ok : forall ls pre,
  match simpHead s ls pre with
  | None => filter nf ls = ls
  | Some (inl k) => k = pre ++ filter nf ls
  | Some (inr p) => In p ls /\ trueL s p = true
  end.
Proof.
  induction ls as [|p ls IH]; intros pre; cbn [simpHead filter]; [auto|].
  destruct (freeL s p) eqn:Ef.
  - rewrite (free_nf p Ef). specialize (IH (pre ++ [p])). destruct (simpHead s ls (pre ++ [p])) as [[k|q]|].
    + rewrite <- app_assoc in IH. auto.
    + split; [right|]; apply IH.
    + now rewrite IH.
  - destruct (trueL s p) eqn:Et; [split; [now left|auto]|].
    assert (En : nf p = false). { unfold nf, falseL, freeL, trueL in *. destruct (litVal s p) as [[|]|]; auto; discriminate. }
    rewrite En. pose proof (simpTail_ok ls pre) as K. destruct (simpTail s ls pre); [auto|]. split; [right|]; apply K.
Qed.
Lemma simpClause_ok ls x : ls <> [] -> simpClause s ls = Ok x ->
  match x with
  | inl k => k_lits k = filter nf ls /\ k_lits k <> []
  | inr p => In p ls /\ (trueL s p = true \/ filter nf ls = [])
  end.
Proof.
  intros Ne. unfold simpClause. pose proof (simpHead_ok ls []) as K. destruct (simpHead s ls []) as [[k|q]|].
  - cbn in K. destruct k as [|y k].
    + destruct ls as [|p ls]; [congruence|]. intros H; injection H as <-. split; [now left|auto].
    + intros H; injection H as <-. cbn. split; [auto|discriminate].
  - intros H; injection H as <-. tauto.
  - intros H; injection H as <-. cbn. split; [auto|auto].
Qed.
End Simp.

(** A state [t] in which the clauses from [k] on are hidden *)
Definition hid (k : nat) (s t : st) : Prop :=
  s_n t = s_n s /\ (forall j, s_cls t j = if j <? k then s_cls s j else None) /\ s_occ t = s_occ s /\ s_wat t = s_wat s /\ s_lm t = s_lm s
  /\ s_tr t = s_tr s /\ s_facts t = s_facts s /\ s_q t = s_q s /\ s_elim t = s_elim s /\ s_top t = s_top s.
Lemma hid_setC k s t id c : id < k -> hid k s t -> hid k (setC s id c) (setC t id c).
Proof.
  intros Hk (A1&A2&A3&A4&A5&A6&A7&A8&A9&A10). repeat (split; [first [assumption|idtac]|]); [|auto..].
  intros j. unfold setC. cbn [s_cls]. unfold upd. destruct (j =? id) eqn:E; [|auto]. apply Nat.eqb_eq in E as ->. apply Nat.ltb_lt in Hk. now rewrite Hk.
Qed.
Lemma hid_deref k s t id : id < k -> hid k s t -> deref t id = deref s id.
Proof. intros Hk (A1&A2&_). unfold deref, getc. rewrite A1, A2. apply Nat.ltb_lt in Hk. now rewrite Hk. Qed.
Lemma hid_attach k s t id s' : id < k -> hid k s t -> attach id s = Ok s' -> exists t', attach id t = Ok t' /\ hid k s' t'.
Proof.
  intros Hk Hh H. unfold attach in *. rewrite (hid_deref k s t id Hk Hh). apply bind_ok in H as (c & Hc & H). rewrite Hc. cbn [bind]. cbv zeta in *.
  set (g := fun (s : st) (p : nat * bool) => unmark (addOcc s (fst p) (id, snd p)) (fst p)) in *.
  assert (G : forall l s t, hid k s t -> hid k (fold_left g l s) (fold_left g l t)).
  { induction l as [|p l IH]; intros s1 t1 H1; cbn [fold_left]; [auto|]. apply IH. destruct H1 as (A1&A2&A3&A4&A5&A6&A7&A8&A9&A10).
    unfold g. repeat (split; [cbn; rewrite ?A3, ?A5; auto|]). cbn. auto. }
  specialize (G (k_lits c) s t Hh). apply (hid_setC k _ _ id (Some (Pcl (k_lits c) (k_old c) (k_inq c) (abstr (k_lits c)))) Hk) in G.
  match type of H with context [addWatch ?y] => set (s1 := y) in * end. match goal with |- context [addWatch ?y] => set (t1 := y) in * end. clearbody s1 t1.
  apply bind_ok in H as (x & Hx & H). rewrite Hx. cbn [bind].
  assert (G2 : hid k (addWatch s1 (fst x) id) (addWatch t1 (fst x) id)).
  { destruct G as (A1&A2&A3&A4&A5&A6&A7&A8&A9&A10). repeat (split; [cbn; rewrite ?A4; auto|]). cbn. auto. }
  set (s2 := addWatch s1 (fst x) id) in *. set (t2 := addWatch t1 (fst x) id) in *. clearbody s2 t2.
  unfold addToSubQueue in *. rewrite (hid_deref k s2 t2 id Hk G2). apply bind_ok in H as (c2 & Hc2 & H). rewrite Hc2. cbn [bind].
  injection H as <-. eexists. split; [reflexivity|]. destruct (k_inq c2); [auto|]. apply hid_setC; [auto|].
  destruct G2 as (A1&A2&A3&A4&A5&A6&A7&A8&A9&A10). repeat (split; [cbn; rewrite ?A8; auto|]). cbn. auto.
Qed.
Lemma hid_lits k s t j : hid k s t -> lits t j = if j <? k then lits s j else None.
Proof. intros (_&A&_). unfold lits. rewrite A. now destruct (j <? k). Qed.

Section El.
Context (R : asg -> Prop) (fz : nat -> bool) (w : world) (SW : soundWorld R fz w) (OR : onlyOn fz R).
Context (Z0 : forall v, fz v = true -> v <> 0).
Context (Q : asg -> Prop).
Notation F := (F R). Notation wf0 := (wf0 fz). Notation wfx := (wfx fz). Notation wf := (ElProofs2.wfx fz []).
Notation J := (J fz Q).

Definition pre (s : st) : Prop := wf0 [] s /\ (forall v, s_occ s v = []) /\ (forall v, s_wat s v = []) /\ s_facts s = 0
  /\ (forall id c, lits s id = Some c -> c <> []).
Definition goodC (s : st) (c : list lit) : Prop := c <> [] /\ NoDup (map fst c) /\ forall p, In p c -> fst p <> 0 /\ s_elim s (fst p) = false.

Lemma pre_tr s s' : trOnly s s' -> wf0 [] s' -> pre s -> pre s'.
Proof.
  intros T W (_ & A & B & C & D). pose proof (trOnly_lits _ _ T) as L. destruct T as (_&_&To&Tw&_&Tf&_). split; [auto|]. rewrite To, Tw, Tf.
  split; [auto|]. split; [auto|]. split; [auto|]. intros id c. rewrite L. apply D.
Qed.
Lemma map_fst_filter (g : lit -> bool) l : NoDup (map fst l) -> NoDup (map fst (filter g l)).
Proof.
  induction l as [|p l IH]; cbn; [auto|]. intros N. inversion N; subst. destruct (g p); cbn; auto. constructor; [|auto].
  intros I. apply H1. apply in_map_iff in I as (q & <- & I). apply in_map. now apply filter_In in I.
Qed.

Lemma simpAll_ok : forall cs s j s' b, pre s -> s_n s = j -> (forall c, In c cs -> goodC s c) -> simpAll s cs j = Ok (s', b) ->
  (b = true -> pre s' /\ s_elim s' = s_elim s /\ s_top s' = s_top s /\ (forall a, F s' a <-> F s a /\ allSat a cs))
  /\ (b = false -> forall a, ~ (F s a /\ allSat a cs)).
Proof.
  induction cs as [|c cs IH]; intros s j s' b P Hn Hc H; cbn [simpAll] in H.
  - injection H as <- <-. split; [intros _|discriminate]. split; [auto|]. split; [auto|]. split; [auto|]. intros a. split; [intros Fa; split; [auto|intros ? []]|tauto].
  - apply bind_ok in H as (x & Hx & H). destruct (Hc c (or_introl eq_refl)) as (Ne & Nd & Vc). apply (simpClause_ok s c x Ne) in Hx.
    pose proof P as (W & P2 & P3 & P4 & P5).
    assert (Sf : forall a, F s a -> sat_clause a (filter (nf s) c) = sat_clause a c).
    { intros a Fa. destruct (sat_clause a c) eqn:E.
      - apply sat_in in E as (p & I & Hp). apply (satL _ _ p); [|auto]. apply filter_In. split; [auto|]. unfold nf, falseL.
        destruct (litVal s p) as [y|] eqn:El; [|auto]. destruct (Vc p I) as [Vz Ve]. apply (litVal_F R s a p y Fa Vz Ve) in El. rewrite Hp in El. now subst y.
      - destruct (sat_clause a (filter (nf s) c)) eqn:E2; [|auto]. rewrite <- E. symmetry. eapply sat_incl; [|exact E2]. intros p I. now apply filter_In in I. }
    destruct x as [k|p].
    + destruct Hx as [Ek Nk]. match type of H with simpAll ?y _ _ = _ => set (s1 := y) in * end.
      assert (L1 : forall i, lits s1 i = if i =? j then Some (k_lits k) else lits s i).
      { intros i. unfold s1. rewrite lits_setC. destruct (i =? j); auto. }
      assert (Lj : lits s j = None). { destruct (lits s j) as [y|] eqn:E; [|auto]. apply (q_lt _ _ _ W) in E. lia. }
      assert (F1 : forall a, F s1 a <-> F s a /\ sat_clause a c = true).
      { intros a. split.
        - intros (Ra & Ta & Ca). assert (Fa : F s a). { split; [auto|]. split; [auto|]. intros i y E. apply (Ca i). rewrite L1. destruct (i =? j) eqn:Ei; [|auto].
            apply Nat.eqb_eq in Ei. subst i. congruence. }
          split; [auto|]. rewrite <- (Sf a Fa), <- Ek. apply (Ca j). now rewrite L1, Nat.eqb_refl.
        - intros [Fa Sa]. pose proof Fa as (Ra & Ta & Ca). split; [auto|]. split; [auto|]. intros i y. rewrite L1. destruct (i =? j); [|apply Ca].
          intros E. injection E as <-. now rewrite Ek, Sf. }
      assert (Pk : pre s1).
      { split; [|split; [auto|split; [auto|split; [auto|]]]].
        - destruct W as [Q1 Q2 Q3 Q4 Q5 Q6 Q7 Q8 Q9]. constructor; auto.
          + intros i y. rewrite L1. cbn. destruct (i =? j) eqn:Ei; [apply Nat.eqb_eq in Ei; lia|]. intros E. apply Q1 in E. lia.
          + intros i y. rewrite L1. destruct (i =? j); [|apply Q2]. intros E. injection E as <-. rewrite Ek. now apply map_fst_filter.
          + intros i y q. rewrite L1. destruct (i =? j); [|apply Q3]. intros E I. injection E as <-. rewrite Ek in I. apply filter_In in I as [I _].
            destruct (Vc q I) as [G1 G2]. split; [auto|]. split; [auto|intros []].
          + intros i h t v _. cbn. rewrite P3. cbn. lia.
        - intros i y. rewrite L1. destruct (i =? j); [|apply P5]. intros E. injection E as <-. auto. }
      apply IH in H as [A B]; auto.
      * split; intros Hb.
        -- destruct (A Hb) as (A1 & A2 & A3 & A4). split; [auto|]. split; [auto|]. split; [auto|]. intros a. rewrite A4, F1. split.
           ++ intros [[G1 G2] G3]. split; [auto|]. intros y [<-|I]; auto.
           ++ intros [G1 G2]. split; [split; [auto|apply G2; now left]|]. intros y I. apply G2. now right.
        -- intros a [G1 G2]. apply (B Hb a). split; [apply F1; split; [auto|apply G2; now left]|]. intros y I. apply G2. now right.
      * intros y I. apply (Hc y). now right.
    + destruct Hx as [Ip Hp]. destruct (Vc p Ip) as [Vz Ve]. destruct (force s p) as [s1 b1] eqn:Ef.
      destruct (force_ok R fz [] s p s1 b1 W Vz Ve Ef) as (T1 & W1 & A1 & B1).
      assert (Tr : trueL s p = true -> forall a, F s a -> holds a p = true).
      { unfold trueL. destruct (litVal s p) as [[|]|] eqn:El; try discriminate. intros _ a Fa. exact (litVal_F R s a p true Fa Vz Ve El). }
      assert (Key : forall a, F s a /\ sat_clause a c = true -> F s a /\ holds a p = true).
      { intros a [Fa Sa]. split; [auto|]. destruct Hp as [Hp|Hp]; [now apply Tr|]. rewrite <- (Sf a Fa), Hp in Sa. discriminate. }
      destruct b1.
      * assert (F1 : forall a, F s1 a <-> F s a /\ sat_clause a c = true).
        { intros a. rewrite A1 by auto. split; [|apply Key]. intros [Fa Hh]. split; [auto|]. now apply (satL _ _ p). }
        apply IH in H as [A B]; auto.
        -- assert (E1 : s_elim s1 = s_elim s) by apply T1. assert (E2 : s_top s1 = s_top s) by apply T1. split; intros Hb.
           ++ destruct (A Hb) as (C1 & C2 & C3 & C4). split; [auto|]. split; [congruence|]. split; [congruence|]. intros a. rewrite C4, F1. split.
              ** intros [[G1 G2] G3]. split; [auto|]. intros y [<-|I]; auto.
              ** intros [G1 G2]. split; [split; [auto|apply G2; now left]|]. intros y I. apply G2. now right.
           ++ intros a [G1 G2]. apply (B Hb a). split; [apply F1; split; [auto|apply G2; now left]|]. intros y I. apply G2. now right.
        -- eapply pre_tr; eauto.
        -- rewrite <- Hn. apply T1.
        -- intros y I. destruct (Hc y) as (G1 & G2 & G3); [now right|]. split; [auto|]. split; [auto|]. intros q Iq. destruct T1 as (_&_&_&_&_&_&_&Te&_). rewrite Te. auto.
      * injection H as <- <-. split; [discriminate|]. intros _ a [G1 G2]. destruct (Key a) as [K1 K2]; [split; [auto|apply G2; now left]|].
        rewrite B1 in K2; auto. discriminate.
Qed.

(** ** attaching all clauses *)
Definition AI (k : nat) (s : st) : Prop := exists t, hid k s t /\ wfx [] [] t
  /\ (forall v j, In j (s_wat s v) \/ In j (map fst (s_occ s v)) -> j < k)
  /\ (forall j c, lits s j = Some c -> j < s_n s /\ goodC s c).
Lemma attach_step k s s' : AI k s -> attach k s = Ok s' ->
  AI (S k) s' /\ (forall j, lits s' j = lits s j) /\ s_n s' = s_n s /\ s_tr s' = s_tr s /\ s_elim s' = s_elim s /\ s_top s' = s_top s.
Proof.
  intros (t & Hh & (W & O & Ef) & Lt & Gd) H.
  assert (exists t2, hid (S k) s t2) as [t2 Hh2].
  { exists (St (s_n s) (fun j => if j <? S k then s_cls s j else None) (s_occ s) (s_wat s) (s_lm s) (s_tr s) (s_facts s) (s_q s) (s_elim s) (s_top s) (s_tick s)).
    repeat (split; [reflexivity|]). reflexivity. }
  destruct (hid_attach (S k) s t2 k s' ltac:(lia) Hh2 H) as (t3 & H3 & Hh3).
  assert (exists cl, lits s k = Some cl) as [cl El].
  { unfold attach in H. apply bind_ok in H as (c & Hc & _). apply deref_ok in Hc as [Hc _]. exists (k_lits c). now apply lits_cls. }
  assert (L2 : forall j, lits t2 j = if j <? S k then lits s j else None) by (intros; now apply hid_lits).
  assert (L1 : forall j, lits t j = if j <? k then lits s j else None) by (intros; now apply hid_lits).
  assert (El2 : lits t2 k = Some cl). { rewrite L2. assert ((k <? S k) = true) as -> by (apply Nat.ltb_lt; lia). auto. }
  destruct (Gd k cl El) as (Hkn & Ne & Nd & Vc).
  destruct Hh as (A1&A2&A3&A4&A5&A6&A7&A8&A9&A10). destruct Hh2 as (B1&B2&B3&B4&B5&B6&B7&B8&B9&B10).
  assert (Hk : forall j c, lits t2 j = Some c -> j = k \/ lits t j = Some c).
  { intros j c. rewrite L2, L1. destruct (j <? S k) eqn:E1; [|discriminate]. apply Nat.ltb_lt in E1. destruct (j <? k) eqn:E2; [auto|].
    apply Nat.ltb_ge in E2. left. lia. }
  apply (attach_ok fz [] [] t2 k cl) in H3 as (W3 & Fr3 & L3 & T3 & Fr); auto.
  - assert (Ls : forall j, lits s' j = lits s j).
    { intros j. clear - H. unfold attach in H. apply bind_ok in H as (c & Hc & H). apply deref_ok in Hc as [Hc _].
      cbv zeta in H. match type of H with context [fold_left ?f _ _] => change f with (attF k) in H end.
      pose proof (attF_same k (k_lits c) s) as (Q1 & Q2 & _). match type of H with context [setC ?z k _] => set (s1 := z) in H; assert (Q2' : s_cls s1 = s_cls s) by exact Q2; clear Q2; rename Q2' into Q2; clearbody s1 end.
      apply bind_ok in H as (x & Hx & H). unfold addToSubQueue in H. apply bind_ok in H as (c2 & Hc2 & H). apply deref_ok in Hc2 as [Hc2 _]. injection H as <-.
      set (c3 := Pcl (k_lits c) _ _ _) in *.
      assert (E1 : forall i, lits (addWatch (setC s1 k (Some c3)) (fst x) k) i = lits s i).
      { intros i. change (lits (setC s1 k (Some c3)) i = lits s i). rewrite lits_setC. destruct (i =? k) eqn:E; [apply Nat.eqb_eq in E as ->; exact (eq_sym (lits_cls _ _ _ Hc))|].
        unfold lits. now rewrite Q2. }
      destruct (k_inq c2); [apply E1|]. rewrite lits_setC. destruct (j =? k) eqn:E; [|apply E1]. apply Nat.eqb_eq in E as ->.
      rewrite <- E1. unfold lits. now rewrite Hc2. }
    destruct Hh3 as (C1&C2&C3&C4&C5&C6&C7&C8&C9&C10). destruct Fr3 as [f1 f2 f3 f4].
    assert (En : s_n s' = s_n s) by congruence. assert (Ee : s_elim s' = s_elim s) by congruence.
    split; [|repeat split; congruence].
    exists t3. split; [repeat (split; [assumption|]); assumption|]. split; [auto|]. split.
    + intros v j I. destruct (Nat.lt_trichotomy j k) as [G|[G|G]]; [lia|lia|]. exfalso.
      assert (Nj : lits t2 j = None). { rewrite L2. destruct (j <? S k) eqn:E; [apply Nat.ltb_lt in E; lia|auto]. }
      destruct (Fr j ltac:(lia)) as (_ & G2 & G3). destruct I as [I|I].
      * rewrite <- C4 in I. apply (G3 Nj) in I. rewrite B4 in I. assert (j < k) by (apply (Lt v); auto). lia.
      * rewrite <- C3 in I. apply G2 in I. rewrite B3 in I. assert (j < k) by (apply (Lt v); auto). lia.
    + intros j c. rewrite Ls, En. intros E. destruct (Gd j c E) as (G1 & G2 & G3 & G4). split; [auto|]. split; [auto|]. split; [auto|]. rewrite Ee. auto.
  - destruct W as [Q1 Q2 Q3 Q4 Q5 Q6 Q7 Q8 Q9]. constructor; cbn [relm s_n s_cls s_occ s_wat s_lm s_tr s_facts s_q s_elim s_top]; rewrite ?B1, ?B4, ?B6, ?B9, <- ?A1, <- ?A4, <- ?A6, <- ?A9; auto.
    + intros id c E. change (lits t2 id = Some c) in E. destruct (Hk _ _ E) as [->|E']; [congruence|]. eapply Q1; eauto.
    + intros id c E. change (lits t2 id = Some c) in E. destruct (Hk _ _ E) as [->|E']; [|eapply Q2; eauto]. rewrite El2 in E. injection E as <-. auto.
    + intros id c p E I. change (lits t2 id = Some c) in E. destruct (Hk _ _ E) as [->|E']; [|eapply Q3; eauto]. rewrite El2 in E. injection E as <-.
      destruct (Vc p I). rewrite A9. split; [auto|]. split; [auto|intros []].
    + intros id h r v E. change (lits t2 id = Some (h :: r)) in E. destruct (Hk _ _ E) as [->|E']; [|eapply Q4; eauto].
      assert (Z : ~ In k (s_wat t v)). { intros I. rewrite A4 in I. assert (k < k) by (apply (Lt v); auto). lia. }
      apply (count_occ_not_In Nat.eq_dec) in Z. rewrite Z. lia.
  - intros v I. rewrite B4 in I. assert (k < k) by (apply (Lt v); auto). lia.
  - intros v _. rewrite B3. split.
    + pose proof (O v (fun x => x)) as Ov. rewrite A3 in Ov. eapply occOk_lsub; [|exact Ov]. intros j c. rewrite lits_setC.
      destruct (j =? k) eqn:E; [discriminate|]. apply Nat.eqb_neq in E. intros G. destruct (Hk _ _ G); [congruence|auto].
    + intros I. assert (k < k) by (apply (Lt v); auto). lia.
  - intros v. left. rewrite B5, <- A5. apply (q_lm _ _ _ W).
  - rewrite B7, <- A7. exact Ef.
Qed.
Lemma attachAll_ok : forall m k s s', AI k s -> attachAll (seq k m) s = Ok s' ->
  AI (k + m) s' /\ (forall j, lits s' j = lits s j) /\ s_n s' = s_n s /\ s_tr s' = s_tr s /\ s_elim s' = s_elim s /\ s_top s' = s_top s.
Proof.
  induction m as [|m IH]; intros k s s' A H; cbn [seq attachAll] in H.
  - injection H as <-. rewrite Nat.add_0_r. repeat split; auto.
  - apply bind_ok in H as (s1 & H1 & H). apply attach_step in H1 as (A1 & B1 & B2 & B3 & B4 & B5); auto.
    apply IH in H as (C1 & C2 & C3 & C4 & C5 & C6); auto. replace (k + S m) with (S k + m) by lia. split; [auto|].
    split; [intros j; now rewrite C2|]. repeat split; congruence.
Qed.
Lemma pre_AI s : pre s -> AI 0 s.
Proof.
  intros (W & P2 & P3 & P4 & P5).
  exists (St (s_n s) (fun _ => None) (s_occ s) (s_wat s) (s_lm s) (s_tr s) (s_facts s) (s_q s) (s_elim s) (s_top s) (s_tick s)).
  split; [repeat (split; [reflexivity|]); reflexivity|]. split; [|split].
  - split; [|split; [|auto]].
    + destruct W. constructor; auto; unfold lits; cbn; discriminate.
    + intros v _. cbn. rewrite P2. split; [unfold lits; cbn; discriminate|]. split; [intros ? ? ? []|constructor].
  - intros v j. rewrite P2, P3. cbn. tauto.
  - intros j c E. split; [eapply q_lt; eauto|]. split; [eauto|]. split; [eapply q_nd; eauto|]. intros p I. destruct (q_var _ _ _ W _ _ _ E I) as (G1 & G2 & _). auto.
Qed.
Lemma AI_end s : AI (s_n s) s -> wf [] s.
Proof.
  intros (t & Hh & W & _ & Gd). pose proof (fun j => hid_lits _ _ _ j Hh) as L. destruct Hh as (A1&A2&A3&A4&A5&A6&A7&A8&A9&A10).
  apply (wf_ext fz [] t); auto; try congruence.
  intros j. rewrite L. destruct (j <? s_n s) eqn:E; [auto|]. apply Nat.ltb_ge in E. destruct (lits s j) as [c|] eqn:Ej; [|auto]. apply Gd in Ej. lia.
Qed.

(** ** the rounds, from a state with pending facts *)
Context (nb : bool).
Definition InvD (s : st) : Prop := (exists D, wf D s) /\ J None (s_top s) (F s) /\ (forall a, Q a -> F s a) /\ (nb = true -> hdE (s_elim s) (s_top s)).
Lemma bs_postD n s s' b : InvD s -> backwardSubsume w n s = Ok (s', b) -> post R fz Q nb s' b.
Proof.
  intros ([D W] & HJ & HQ & HH) H. apply (backwardSubsume_ok R fz w SW Z0 n _ _ _ _ W) in H as [A B]. split; intros Hb.
  - destruct (A Hb) as (C1 & C2 & C3). split; [auto|]. rewrite (f_top _ _ C2), (f_elim _ _ C2). split; [|split; [intros a K; apply C3; auto|auto]].
    now apply (J_ext _ _ _ _ (F s)).
  - intros a K. apply (B Hb a). auto.
Qed.
Lemma doPreprocess_ok o n script s s' b : (nb = true -> o_bce o = 0) -> (nb = true -> hdE (s_elim s) (s_top s)) -> (forall v, fz v = true -> o_frozen o v = true) -> pre s -> J None (s_top s) (F s) -> (forall a, Q a -> F s a) ->
  doPreprocess w o n script s = Ok (s', b) -> (b = true -> InvD s') /\ (b = false -> forall a, ~ Q a).
Proof.
  intros Hnb Hh Hz P HJ HQ H. unfold doPreprocess in H. apply bind_ok in H as (s1 & H1 & H). apply pre_AI in P.
  apply attachAll_ok in H1 as (A1 & A2 & A3 & A4 & A5 & A6); auto. cbn [Nat.add] in A1. rewrite <- A3 in A1. apply AI_end in A1.
  assert (FE : forall a, F s a <-> F s1 a) by (intros a; now apply F_ext).
  assert (I1 : InvD s1). { split; [eauto|]. split; [rewrite A6; now apply (J_ext _ _ _ _ (F s))|]. split; [intros a K; apply FE; auto|]. rewrite A6, A5. auto. }
  clear - Hnb Hz I1 H SW OR Z0. destruct script as [|[brk picks] script]; cbn [rounds] in H.
  - injection H as <- <-. split; [auto|discriminate].
  - assert (Inj : forall s', Inv R fz Q nb s' -> InvD s') by (intros s2 (W2 & X); split; [eauto|auto]).
    apply bind_ok in H as ([s2 b2] & H2 & H). apply bs_postD in H2 as [A B]; auto. destruct b2; cbn [negb] in H.
    + destruct brk; [injection H as <- <-; split; [auto|discriminate]|]. apply bind_ok in H as ([s3 b3] & H3 & H).
      apply (eliminateVars_ok R fz w SW OR Z0 Q nb) in H3 as [A2 B2]; auto. destruct b3.
      * apply (rounds_ok R fz w SW OR Z0 Q nb) in H as [A3 B3]; auto.
      * injection H as <- <-. split; [discriminate|auto].
    + injection H as <- <-. split; [discriminate|auto].
Qed.

(** ** handing the clauses over *)
Lemma emit_ok : forall ids s s' out b, (forall j c p, lits s j = Some c -> In p c -> fst p <> 0 /\ s_elim s (fst p) = false) ->
  emit s ids = (s', out, b) ->
  (exists r, s_tr s' = s_tr s ++ r) /\ s_elim s' = s_elim s /\ s_top s' = s_top s
  /\ (b = true -> (forall a, F s a -> (forall p, In p (s_tr s') -> holds a p = true) /\ allSat a out)
                  /\ (forall a, (forall p, In p (s_tr s') -> holds a p = true) -> allSat a out -> forall id c, In id ids -> lits s id = Some c -> sat_clause a c = true))
  /\ (b = false -> forall a, ~ F s a).
Proof.
  induction ids as [|id ids IH]; intros s s' out b V H; cbn [emit] in H.
  - injection H as <- <- <-. split; [exists []; now rewrite app_nil_r|]. split; [auto|]. split; [auto|]. split; [|discriminate]. intros _.
    split; [intros a (_ & T & _); split; [auto|intros ? []]|intros a _ _ id c []].
  - destruct (s_cls s id) as [k|] eqn:Ek.
    2:{ apply IH in H as (A1 & A2 & A3 & A4 & A5); auto. split; [auto|]. split; [auto|]. split; [auto|]. split; [|auto]. intros Hb. destruct (A4 Hb) as [G1 G2].
        split; [auto|]. intros a T O j c [<-|I] E; [unfold lits in E; rewrite Ek in E; discriminate|eauto]. }
    pose proof (lits_cls _ _ _ Ek) as El. destruct (k_lits k) as [|u [|u2 ls]].
    + injection H as <- <- <-. split; [exists []; now rewrite app_nil_r|]. split; [auto|]. split; [auto|]. split; [discriminate|]. intros _ a (_ & _ & C).
      apply C in El. discriminate.
    + destruct (V id [u] u El (or_introl eq_refl)) as [Vz Ve].
      assert (Sat1 : forall a, F s a -> holds a u = true). { intros a (_ & _ & C). apply C in El. rewrite sat_cons in El. cbn in El. now rewrite orb_false_r in El. }
      unfold force in H. destruct (litVal s u) as [y|] eqn:Eu.
      * destruct y.
        -- apply IH in H as (A1 & A2 & A3 & A4 & A5); auto. split; [auto|]. split; [auto|]. split; [auto|]. split; [|auto]. intros Hb. destruct (A4 Hb) as [G1 G2].
           split; [auto|]. intros a T O j c [<-|I] E; [|eauto]. rewrite El in E. injection E as <-. apply (satL _ _ u); [now left|]. apply T.
           destruct A1 as [r ->]. apply in_app_iff. left. apply litVal_some in Eu; auto.
        -- injection H as <- <- <-. split; [exists []; now rewrite app_nil_r|]. split; [auto|]. split; [auto|]. split; [discriminate|]. intros _ a Fa.
           pose proof (litVal_F R s a u false Fa Vz Ve Eu). rewrite Sat1 in H; auto. discriminate.
      * set (s1 := setTr s (s_tr s ++ [u])) in *.
        assert (F1 : forall a, F s a -> F s1 a). { intros a Fa. pose proof (Sat1 a Fa) as K. destruct Fa as (Ra & Ta & Ca). split; [auto|]. split; [|auto].
          intros p I. cbn in I. apply in_app_iff in I as [I|[<-|[]]]; auto. }
        apply IH in H as (A1 & A2 & A3 & A4 & A5); [|exact V]. destruct A1 as [r A1]. cbn in A1, A2, A3.
        split; [exists ([u] ++ r); now rewrite app_assoc|]. split; [auto|]. split; [auto|]. split.
        -- intros Hb. destruct (A4 Hb) as [G1 G2]. split; [auto|]. intros a T O j c [<-|I] E; [|eauto]. rewrite El in E. injection E as <-.
           apply (satL _ _ u); [now left|]. apply T. rewrite A1. apply in_app_iff. left. apply in_app_iff. right. now left.
        -- intros Hb a Fa. apply (A5 Hb a). auto.
    + destruct (emit s ids) as [[s1 out1] b1] eqn:Ee. injection H as <- <- <-. apply IH in Ee as (A1 & A2 & A3 & A4 & A5); auto.
      split; [auto|]. split; [auto|]. split; [auto|]. split; [|auto]. intros Hb. destruct (A4 Hb) as [G1 G2]. split.
      * intros a Fa. destruct (G1 a Fa) as [K1 K2]. split; [auto|]. intros y [<-|I]; auto. destruct Fa as (_ & _ & C). eapply C; eauto.
      * intros a T O j c [<-|I] E; [|apply (G2 a T) with (id := j); auto; intros y Iy; apply O; now right]. rewrite El in E. injection E as <-. apply O. now left.
Qed.

Lemma emit_good : forall ids s s' out b, (forall j c p, lits s j = Some c -> In p c -> fst p <> 0 /\ s_elim s (fst p) = false) ->
  emit s ids = (s', out, b) -> NoDup (map fst (s_tr s)) -> (forall p, In p (s_tr s) -> fst p <> 0 /\ s_elim s (fst p) = false) ->
  NoDup (map fst (s_tr s')) /\ (forall p, In p (s_tr s') -> fst p <> 0 /\ s_elim s (fst p) = false)
  /\ (forall c p, In c out -> In p c -> s_elim s (fst p) = false).
Proof.
  induction ids as [|id ids IH]; intros s s' out b V H N T; cbn [emit] in H.
  - injection H as <- <- <-. split; [auto|split; [auto|intros ? ? []]].
  - destruct (s_cls s id) as [k|] eqn:Ek; [|now apply (IH s s' out b)]. pose proof (lits_cls _ _ _ Ek) as El. destruct (k_lits k) as [|u [|u2 ls]].
    + injection H as <- <- <-. split; [auto|split; [auto|intros ? ? []]].
    + destruct (V id [u] u El (or_introl eq_refl)) as [Vz Ve]. unfold force in H. destruct (litVal s u) as [y|] eqn:Eu.
      * destruct y; [now apply (IH s s' out b)|]. injection H as <- <- <-. split; [auto|split; [auto|intros ? ? []]].
      * apply (IH (setTr s (s_tr s ++ [u])) s' out b); auto.
        -- cbn. rewrite map_app. cbn [map]. apply litVal_none in Eu as (_ & _ & Nu). apply NoDup_snoc; [exact N|exact Nu].
        -- intros p I. cbn in I. apply in_app_iff in I as [I|[<-|[]]]; [exact (T p I)|exact (conj Vz Ve)].
    + destruct (emit s ids) as [[s1 out1] b1] eqn:Ee. injection H as <- <- <-. apply IH in Ee as (A1 & A2 & A3); auto.
      split; [auto|]. split; [auto|]. intros c p [<-|I] Ip; [|eauto]. apply (V id _ p El Ip).
Qed.

Lemma sat_cnf_all a cs : sat_cnf a cs = true <-> allSat a cs.
Proof. unfold sat_cnf, allSat. rewrite forallb_forall. reflexivity. Qed.

(** The whole run, from any state of the solver *)
Definition goodY (y : carry) : Prop := NoDup (map fst (y_tr y)) /\ (forall p, In p (y_tr y) -> fst p <> 0 /\ y_elim y (fst p) = false)
  /\ (forall v, y_elim y v = true -> fz v = false).
Definition Pof (t : list lit) (cs : list (list lit)) (a : asg) : Prop := R a /\ satAll a t cs.
Lemma preprocess_ok o n run script units cs y r : (nb = true -> o_bce o = 0) -> (nb = true -> hdE (y_elim y) (y_top y)) -> (forall v, fz v = true -> o_frozen o v = true) -> goodY y ->
  (forall p, In p units -> fst p <> 0 /\ y_elim y (fst p) = false) ->
  (forall c, In c cs -> properClause c /\ forall p, In p c -> y_elim y (fst p) = false) ->
  J None (y_top y) (Pof (y_tr y ++ units) cs) -> (forall a, Q a -> Pof (y_tr y ++ units) cs a) ->
  preprocess w o n run script units cs y = Ok r ->
  match r with
  | None => forall a, ~ Q a
  | Some (y', out) => J None (y_top y') (Pof (y_tr y') out) /\ (forall a, Q a -> Pof (y_tr y') out a) /\ goodY y'
      /\ (forall c p, In c out -> In p c -> y_elim y' (fst p) = false) /\ (nb = true -> hdE (y_elim y') (y_top y'))
  end.
Proof.
  intros Hnb Hh Hz (Y1 & Y2 & Y3) Hu Hcs HJ HQ H. unfold preprocess in H. cbv zeta in H.
  match type of H with context [forceAll ?y0 units] => set (s0 := y0) in * end.
  assert (P0 : pre s0).
  { split; [|split; [auto|split; [auto|split; [auto|unfold lits; cbn; discriminate]]]]. constructor; auto; try (unfold lits; cbn; discriminate). exists (y_tr y). auto. }
  assert (F0 : forall a, F s0 a <-> R a /\ forall p, In p (y_tr y) -> holds a p = true).
  { intros a. split; [intros (A & B & _); auto|]. intros [A B]. split; [auto|]. split; [auto|]. unfold lits; cbn; discriminate. }
  assert (FQ : forall a, Pof (y_tr y ++ units) cs a <-> (F s0 a /\ forall p, In p units -> holds a p = true) /\ allSat a cs).
  { intros a. unfold Pof, satAll. rewrite F0, sat_cnf_all. split.
    - intros (A & B & C). split; [split; [split; [auto|]|]|auto]; intros p I; apply B, in_app_iff; auto.
    - intros [[[A B] C] D]. split; [auto|]. split; [|auto]. intros p I. apply in_app_iff in I as [I|I]; auto. }
  destruct (forceAll s0 units) as [s1 b1] eqn:E1.
  destruct (forceAll_ok R fz [] units s0 s1 b1) as (T1 & W1 & A1 & B1); auto; [apply P0|].
  pose proof (pre_tr _ _ T1 W1 P0) as P1.
  assert (S0n : s_n s0 = 0) by reflexivity. assert (S0e : s_elim s0 = y_elim y) by reflexivity. assert (S0t : s_top s0 = y_top y) by reflexivity. clearbody s0.
  destruct b1; cbn [negb] in H.
  2:{ injection H as <-. intros a K. apply HQ, FQ in K as [[K1 K2] _]. exact (B1 eq_refl a K1 K2). }
  destruct (propagate w s1) as [s2 b2] eqn:E2.
  destruct (propagate_ok R fz w SW [] s1 s2 b2) as (T2 & W2 & A2 & B2); auto.
  pose proof (pre_tr _ _ T2 W2 P1) as P2.
  destruct b2; cbn [negb] in H.
  2:{ injection H as <-. intros a K. apply HQ, FQ in K as [K1 _]. apply A1 in K1; auto. exact (B2 eq_refl a K1). }
  assert (FQ2 : forall a, Pof (y_tr y ++ units) cs a <-> F s2 a /\ allSat a cs) by (intros a; rewrite FQ, A2, A1; tauto).
  pose proof (trOnly_trans _ _ _ T1 T2) as T12.
  assert (Tp2 : s_top s2 = y_top y) by (rewrite <- S0t; apply T12).
  assert (El2 : s_elim s2 = y_elim y) by (rewrite <- S0e; apply T12).
  assert (Emit : forall s3 s4 out b, (forall a, Q a -> F s3 a) -> J None (s_top s3) (F s3) ->
    (forall j c, lits s3 j = Some c -> j < s_n s3) -> (forall j c p, lits s3 j = Some c -> In p c -> fst p <> 0 /\ s_elim s3 (fst p) = false) ->
    NoDup (map fst (s_tr s3)) -> (forall p, In p (s_tr s3) -> fst p <> 0 /\ s_elim s3 (fst p) = false) -> (forall v, s_elim s3 v = true -> fz v = false) ->
    (nb = true -> hdE (s_elim s3) (s_top s3)) ->
    emit s3 (seq 0 (s_n s3)) = (s4, out, b) ->
    match (if b then Some (Carry (s_tr s4) (s_elim s4) (s_top s4) (s_tick s4), out) else None) with
    | None => forall a, ~ Q a
    | Some (y', out) => J None (y_top y') (Pof (y_tr y') out) /\ (forall a, Q a -> Pof (y_tr y') out a) /\ goodY y'
      /\ (forall c p, In c out -> In p c -> y_elim y' (fst p) = false) /\ (nb = true -> hdE (y_elim y') (y_top y'))
    end).
  { intros s3 s4 out b HQ3 HJ3 Lt3 V3 N3 T3 Z3 H3 E. pose proof (emit_good _ _ _ _ _ V3 E N3 T3) as (M1 & M2 & M3). apply emit_ok in E as ([r' G1] & G2 & G3 & G4 & G5); auto. destruct b.
    - destruct (G4 eq_refl) as [K1 K2]. cbn [y_top y_tr y_elim]. rewrite G2.
      assert (FE : forall a, F s3 a <-> Pof (s_tr s4) out a).
      { intros a. unfold Pof, satAll. rewrite sat_cnf_all. split.
        - intros Fa. destruct (K1 a Fa). split; [apply Fa|auto].
        - intros (Ra & Ta & Oa). split; [auto|]. split; [intros p I; apply Ta; rewrite G1; apply in_app_iff; auto|].
          intros id c E. apply (K2 a Ta Oa id); auto. apply in_seq. apply Lt3 in E. lia. }
      split; [rewrite G3; now apply (J_ext _ _ _ _ (F s3))|]. split; [intros a K; apply FE; auto|]. split; [split; [auto|split; auto]|]. split; [auto|]. rewrite G3. auto.
    - intros a K. apply (G5 eq_refl a). auto. }
  destruct run; cbn [negb] in H.
  - apply bind_ok in H as ([s3 b3] & H3 & H). destruct T12 as (Tn & _). 
    apply simpAll_ok in H3 as [A3 B3]; auto; [|rewrite Tn; exact S0n|].
    2:{ intros c I. destruct (Hcs c I) as ((G1 & G2 & G3) & G4). split; [destruct c; [cbn in G1; lia|discriminate]|]. split; [auto|].
        intros p Ip. rewrite El2. auto. }
    destruct b3; cbn [negb] in H.
    2:{ injection H as <-. intros a K. apply HQ, FQ2 in K. exact (B3 eq_refl a K). }
    destruct (A3 eq_refl) as (P3 & E3 & Tp3 & F3).
    destruct (propagate w s3) as [s4 b4] eqn:E4.
    destruct (propagate_ok R fz w SW [] s3 s4 b4) as (T4 & W4 & A4 & B4); auto; [apply P3|].
    pose proof (pre_tr _ _ T4 W4 P3) as P4.
    destruct b4; cbn [negb] in H.
    2:{ injection H as <-. intros a K. apply (B4 eq_refl a). apply F3. now apply FQ2, HQ. }
    assert (FE : forall a, Pof (y_tr y ++ units) cs a <-> F s4 a) by (intros a; rewrite FQ2, A4, F3 by auto; tauto).
    assert (Tp4 : s_top s4 = y_top y) by (transitivity (s_top s3); [apply T4|congruence]).
    apply bind_ok in H as ([s5 b5] & H5 & H). apply (doPreprocess_ok o n script) in H5 as [A5 B5]; auto.
    + destruct b5; cbn [negb] in H; [|injection H as <-; auto].
      destruct (emit s5 (seq 0 (s_n s5))) as [[s6 out] b6] eqn:E6. injection H as <-.
      destruct (A5 eq_refl) as ((D & W5 & _ & _) & HJ5 & HQ5 & HH5). apply (Emit s5); auto; try apply W5.
      intros j c p E I. destruct (q_var _ _ _ W5 _ _ _ E I) as (G1 & G2 & _). auto.
    + assert (El4 : s_elim s4 = y_elim y) by (transitivity (s_elim s3); [apply T4|congruence]). rewrite Tp4, El4. auto.
    + rewrite Tp4. apply (J_ext _ _ _ _ (Pof (y_tr y ++ units) cs)); auto.
    + intros a K. apply FE. auto.
  - match type of H with context [emit ?z (seq 0 (s_n ?z))] => set (s3 := z) in * end.
    assert (L3 : forall j, lits s3 j = nth_error cs j).
    { intros j. unfold lits, s3. cbn [s_cls]. now destruct (nth_error cs j). }
    assert (FE : forall a, Pof (y_tr y ++ units) cs a <-> F s3 a).
    { intros a. rewrite FQ2. split.
      - intros [(A & B & _) C]. split; [auto|]. split; [auto|]. intros j c. rewrite L3. intros E. apply C. eapply nth_error_In; eauto.
      - intros (A & B & C). split; [split; [auto|split; [auto|]]|].
        + intros j c E. exfalso. destruct P2 as (W & _). apply (q_lt _ _ _ W) in E. destruct T12 as (Tn & _). rewrite Tn, S0n in E. lia.
        + intros c I. apply In_nth_error in I as [j E]. apply (C j). now rewrite L3. }
    destruct (emit s3 (seq 0 (s_n s3))) as [[s4 out] b4] eqn:E4. injection H as <-. apply (Emit s3); auto.
    + intros a K. apply FE. auto.
    + change (s_top s3) with (s_top s2). rewrite Tp2. apply (J_ext _ _ _ _ (Pof (y_tr y ++ units) cs)); auto.
    + intros j c. rewrite L3. intros E. change (s_n s3) with (length cs). apply nth_error_Some. congruence.
    + intros j c p. rewrite L3. intros E I. apply nth_error_In in E. destruct (Hcs c E) as ((G1 & G2 & G3) & G4). split; [auto|].
      change (s_elim s3) with (s_elim s2). rewrite El2. auto.
    + apply P2.
    + apply P2.
    + apply P2.
    + change (s_top s3) with (s_top s2). change (s_elim s3) with (s_elim s2). rewrite Tp2, El2. auto.
Qed.
End El.
