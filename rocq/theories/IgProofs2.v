(** C52: what a step leaves alone. *)
From Coq Require Import List Arith Bool Lia.
From Verif Require Import Base IgSpec IgModel IgProofs.
Import ListNotations.

Record Grow (ch : nat) (E D : nat -> list entry) (L : nat -> lit) (s : st) (E' D' : nat -> list entry) (L' : nat -> lit) (s' : st) : Prop := mkGrow {
  gBrk : s_brk s <= s_brk s';
  gVis : s_vis s <= s_vis s';
  gBlk : forall b, 0 < b < s_brk s -> L' b = L b /\ D' b = D b /\ (exists X, E' b = E b ++ X) /\
           (b <> ch -> s_lock s' b = s_lock s b /\ s_size s' b = s_size s b /\ forall i, s_data s' b i = s_data s b i);
  gHead : forall l, s_head s l <> 0 -> s_head s l <> ch -> s_head s' l = s_head s l;
  gCont : forall l e, times e (cont E D s l) <= times e (cont E' D' s' l);
  gE : forall b e, 0 < b < s_brk s -> times e (E' b) + times e (cont E D s (L b)) <= times e (E b) + times e (cont E' D' s' (L b)) }.

Definition evis (x : ev) : option nat := match x with Read g _ | End_ g => Some g | Begin _ g _ => Some g | _ => None end.
Lemma seen_other g x : evis x <> Some g -> seen g [x] = [].
Proof. destruct x as [| |? g' ?|g' ?|g']; cbn; try easy. intro H. destruct (Nat.eqb_spec g' g); [subst; easy | easy]. Qed.

Lemma kOK_grow E D s E' D' s' tr ev l k r r' : s_vis s <= s_vis s' ->
  (forall e, times e r <= times e r' /\ times e r' + times e (cont E D s l) <= times e r + times e (cont E' D' s' l)) ->
  (forall g, k = KProp g -> ev = [] \/ exists x, ev = [x] /\ evis x <> Some g) ->
  kOK E D s tr l k r -> kOK E' D' s' (tr ++ ev) l k r'.
Proof.
  intros V R X [K1 K2]. split; [intro e; specialize (R e); specialize (K1 e); lia|].
  destruct k as [g | c]; [|easy]. destruct K2 as (G & NE & B & U). destruct (X g eq_refl) as [-> | (x & -> & N)].
  - rewrite app_nil_r. repeat split; try easy; try lia; [apply (B _ _ _ _ H) | intro e; destruct (B _ _ _ _ H) as [-> H2]; specialize (H2 e); specialize (R e); lia|].
    intro e. specialize (U e). specialize (R e). lia.
  - assert (S0 : seen g (tr ++ [x]) = seen g tr) by (rewrite seen_app, seen_other by easy; apply app_nil_r).
    repeat split; try lia.
    + intro H. apply in_app_iff in H as [H | [H | []]]; [easy | subst x; now apply N].
    + apply split_snoc in H as [(-> & -> & ->) | (t3 & -> & ->)]; [now exfalso; apply N | apply (B _ _ _ _ eq_refl)].
    + intro e. rewrite S0. apply split_snoc in H as [(-> & -> & ->) | (t3 & -> & H)]; [now exfalso; apply N|]. destruct (B _ _ _ _ H) as [-> H2].
      specialize (H2 e). specialize (R e). lia.
    + intro e. rewrite S0. specialize (U e). specialize (R e). lia.
Qed.

Lemma pcOK_grow ch E D L s E' D' L' s' tr ev p : Grow ch E D L s E' D' L' s' -> (holds_lock p <> 0 -> holds_lock p <> ch) ->
  (forall g, visit_of p = Some g -> ev = [] \/ exists x, ev = [x] /\ evis x <> Some g) ->
  pcOK E D L s tr p -> pcOK E' D' L' s' (tr ++ ev) p.
Proof.
  intros [GB GV GK GH GC GE] HL HV. destruct p as [|l k|l k b|l k b i n|c j|c j x|c j x n z|c j|c|c v]; cbn [pcOK]; try easy.
  - intros (r & -> & K). exists (cont E' D' s' l). split; [easy|]. revert K. apply kOK_grow; [easy | | intros g ->; now apply HV].
    intro e. specialize (GC l e). lia.
  - intros (r & (B & ->) & K). destruct (Nat.eqb_spec b 0) as [Z | N].
    + exists []. cbn [rest]. apply Nat.eqb_eq in Z as Z'. rewrite Z'. split; [split; [lia | easy]|]. revert K. apply kOK_grow; [easy | | intros g ->; now apply HV]. intro e. specialize (GC l e). lia.
    + destruct (B N) as [B1 <-]. destruct (GK b ltac:(lia)) as (HL' & HD & (X & HX) & _). exists (E' b ++ D' b). cbn [rest]. apply Nat.eqb_neq in N as N'. rewrite N', HL'.
      split; [split; [intros _; split; [lia | easy] | easy]|]. revert K. apply kOK_grow; [easy | | intros g ->; now apply HV].
      intro e. specialize (GE b e ltac:(lia)). rewrite HD, HX in *. rewrite !times_app in *. lia.
  - intros (r & (B & <- & E1 & E2 & E3 & HE & I1 & I2 & ->) & K). destruct (GK b B) as (HL' & HD & (X & HX) & _). exists (E2 ++ D' b). cbn [rest]. split.
    + split; [lia|]. split; [easy|]. exists E1, E2, (E3 ++ X). rewrite HX, HE, <- !app_assoc. auto.
    + revert K. apply kOK_grow; [easy | | intros g ->; now apply HV]. intro e. rewrite HD. specialize (GC (L b) e). lia.
  - intros (A & B & LL). destruct (GK x B) as (HL' & _). split; [easy|]. split; [lia | congruence].
  - intros (A & B & LK & HD & SZ & Z & F & C). cbn in HL. destruct (GK x B) as (HL' & _ & _ & G4). destruct (G4 ltac:(lia)) as (G5 & G6 & G7).
    split; [easy|]. split; [lia|]. split; [congruence|]. split; [rewrite GH; [easy | lia | lia]|]. split; [congruence|]. split; [easy|]. split; [easy|].
    intros i H. rewrite G7. auto.
Qed.

Section Step.
Variable m : nat.
Lemma step_inv ch E D L E' D' L' tr ev s s' t p' : Inv m E D L tr s -> Core E' D' L' s' -> Grow ch E D L s E' D' L' s' ->
  t < m -> s_pc s' = fset (s_pc s) t p' -> pcOK E' D' L' s' (tr ++ ev) p' ->
  (forall u, u <> t -> holds_lock (s_pc s u) <> 0 -> holds_lock (s_pc s u) <> ch) -> (holds_lock p' <> 0 -> holds_lock p' = ch) ->
  (forall g, visit_of p' = Some g -> visit_of (s_pc s t) = Some g \/ g = s_vis s) ->
  (ev = [] \/ exists x, ev = [x] /\ (forall g, evis x = Some g -> visit_of (s_pc s t) = Some g \/ exists l, x = Begin t g l /\ g = s_vis s /\ s_vis s' = S g) /\
     (forall g, x = End_ g -> forall t1 t2 u l, tr = t1 ++ Begin u g l :: t2 -> forall e, follows l e (added t1) <= times e (seen g tr) <= times e (cont E D s l)) /\
     (forall u c, x = Ret u c false -> exists c', In c' (called tr) /\ subsumes c' c)) ->
  Forall wfc (called ev) ->
  (forall l e, follows l e (added ev) + doneC (l, e) p' + times e (cont E D s l) = doneC (l, e) (s_pc s t) + times e (cont E' D' s' l)) ->
  (forall l e, times e (cont E' D' s' l) + pendC (l, e) p' <= times e (cont E D s l) + pendC (l, e) (s_pc s t) + follows l e (called ev)) ->
  Inv m E' D' L' (tr ++ ev) s'.
Proof.
  intros I CO G T PC PO HU HP VP EV WF CA CC.
  assert (VB : forall u g, visit_of (s_pc s u) = Some g -> g < s_vis s /\ ~ In (End_ g) tr).
  { intros u g V. generalize (iPc _ _ _ _ _ _ I u). destruct (s_pc s u) as [|l k|l k b|l k b i n| | | | | |]; cbn in V; try easy; destruct k; try easy; inversion V; subst; intros (r & _ & _ & K & K' & _); auto. }
  assert (EO : forall u g, u <> t -> visit_of (s_pc s u) = Some g -> ev = [] \/ exists x, ev = [x] /\ evis x <> Some g).
  { intros u g U V. destruct EV as [-> | (x & -> & X1 & _)]; [now left|]. right. exists x. split; [easy|]. intro X. destruct (X1 g X) as [V' | (l & _ & -> & _)].
    - apply U. eapply (iVis _ _ _ _ _ _ I); eauto.
    - apply VB in V. lia. }
  split.
  - easy.
  - intro u. rewrite PC. destruct (Nat.eq_dec u t) as [-> | N]; [now rewrite fset_eq|]. rewrite fset_ne by easy.
    eapply pcOK_grow; [exact G | now apply HU | intros g V; eapply EO; eauto | apply (iPc _ _ _ _ _ _ I)].
  - rewrite PC. intros u v. destruct (Nat.eq_dec u t) as [-> | N], (Nat.eq_dec v t) as [-> | N']; rewrite ?fset_eq, ?fset_ne by easy; try easy.
    + intros H1 H2. specialize (HP H1). exfalso. apply (HU v N'); congruence.
    + intros H1 H2. exfalso. apply (HU u N H1). rewrite H2. apply HP. congruence.
    + apply (iUniq _ _ _ _ _ _ I).
  - rewrite PC. intros u v g. destruct (Nat.eq_dec u t) as [-> | N], (Nat.eq_dec v t) as [-> | N']; rewrite ?fset_eq, ?fset_ne by easy; try easy.
    + intros H1 H2. destruct (VP g H1) as [H3 | ->]; [exfalso; apply N'; eapply (iVis _ _ _ _ _ _ I); eauto | apply VB in H2; lia].
    + intros H1 H2. destruct (VP g H2) as [H3 | ->]; [exfalso; apply N; eapply (iVis _ _ _ _ _ _ I); eauto | apply VB in H1; lia].
    + apply (iVis _ _ _ _ _ _ I).
  - intros g H. pose proof (gVis _ _ _ _ _ _ _ _ _ G) as GV. destruct (iFresh _ _ _ _ _ _ I g ltac:(lia)) as (F1 & F2 & F3).
    destruct EV as [-> | (x & -> & X1 & _)]; [now rewrite app_nil_r|].
    assert (X : evis x <> Some g). { intro X. destruct (X1 g X) as [V | (l & _ & V1 & V2)]; [apply VB in V; lia | lia]. }
    split; [rewrite seen_app, F1; now apply seen_other|]. split.
    + intro Q. apply in_app_iff in Q as [Q | [Q | []]]; [easy | subst x; now apply X].
    + intros u l Q. apply in_app_iff in Q as [Q | [Q | []]]; [now apply (F3 u l) | subst x; now apply X].
  - intros l e. specialize (CA l e). pose proof (iAdd _ _ _ _ _ _ I l e) as H. rewrite added_app, follows_app, PC.
    pose proof (sumN_fset (doneC (l, e)) m t (s_pc s) p' T). lia.
  - intros l e. specialize (CC l e). pose proof (iCall _ _ _ _ _ _ I l e) as H. rewrite called_app, follows_app, PC.
    pose proof (sumN_fset (pendC (l, e)) m t (s_pc s) p' T). lia.
  - rewrite called_app. apply Forall_app. split; [apply (iWf _ _ _ _ _ _ I) | easy].
  - intros g t1 t2 u l H1 H2 e. pose proof (gCont _ _ _ _ _ _ _ _ _ G l e) as GC. destruct EV as [-> | (x & -> & X1 & X2 & _)].
    { rewrite app_nil_r in *. pose proof (iEnd _ _ _ _ _ _ I _ _ _ _ _ H1 H2 e). lia. }
    apply split_snoc in H1 as [(-> & -> & ->) | (t3 & -> & H1)].
    { apply in_app_iff in H2 as [H2 | [H2 | []]]; [|easy]. destruct (X1 g eq_refl) as [V | (l' & _ & -> & _)]; [apply VB in V; tauto|]. now apply (iFresh _ _ _ _ _ _ I (s_vis s)) in H2. }
    rewrite seen_app, times_app. apply in_app_iff in H2 as [H2 | [-> | []]].
    + rewrite (seen_other g x); [pose proof (iEnd _ _ _ _ _ _ I _ _ _ _ _ H1 H2 e); cbn; lia|]. intro X. destruct (X1 g X) as [V | (l' & _ & -> & _)]; [apply VB in V; tauto|]. now apply (iFresh _ _ _ _ _ _ I (s_vis s)) in H2.
    + cbn. specialize (X2 g eq_refl _ _ _ _ H1 e). lia.
  - intros u c H. rewrite called_app. destruct EV as [-> | (x & -> & _ & _ & X3)].
    + rewrite app_nil_r in *. now apply (iFalse _ _ _ _ _ _ I) in H.
    + apply in_app_iff in H as [H | [-> | []]]; [apply (iFalse _ _ _ _ _ _ I) in H as (c' & H1 & H2) | destruct (X3 u c eq_refl) as (c' & H1 & H2)]; exists c'; (split; [apply in_app_iff; now left | easy]).
Qed.

(** Steps that change only the pc (and the counter) *)
Definition same (s s' : st) : Prop := s_head s' = s_head s /\ s_next s' = s_next s /\ s_size s' = s_size s /\ s_lock s' = s_lock s /\ s_data s' = s_data s /\ s_brk s' = s_brk s.
Lemma same_cont E D s s' : same s s' -> forall l, cont E D s' l = cont E D s l.
Proof. intros (A & _) l. unfold cont. now rewrite A. Qed.
Lemma same_core E D L s s' : same s s' -> Core E D L s -> Core E D L s'.
Proof. intros (A & B & C & F & G & H) []. split; rewrite ?A, ?B, ?C, ?F, ?G, ?H; easy. Qed.
Lemma same_grow E D L s s' : same s s' -> s_vis s <= s_vis s' -> Grow 0 E D L s E D L s'.
Proof.
  intros HS V. pose proof (same_cont E D s s' HS) as HC. destruct HS as (A & B & C & F & G & H). split.
  - now rewrite H.
  - easy.
  - intros b Hb. rewrite F, C, G. repeat split; try easy. exists []. symmetry. apply app_nil_r.
  - intros l _ _. now rewrite A.
  - intros l e. now rewrite HC.
  - intros b e Hb. now rewrite HC.
Qed.
Lemma same_inv E D L tr ev s s' t p' : Inv m E D L tr s -> same s s' -> s_vis s <= s_vis s' ->
  t < m -> s_pc s' = fset (s_pc s) t p' -> pcOK E D L s' (tr ++ ev) p' -> holds_lock p' = 0 ->
  (forall g, visit_of p' = Some g -> visit_of (s_pc s t) = Some g \/ g = s_vis s) ->
  (ev = [] \/ exists x, ev = [x] /\ (forall g, evis x = Some g -> visit_of (s_pc s t) = Some g \/ exists l, x = Begin t g l /\ g = s_vis s /\ s_vis s' = S g) /\
     (forall g, x = End_ g -> forall t1 t2 u l, tr = t1 ++ Begin u g l :: t2 -> forall e, follows l e (added t1) <= times e (seen g tr) <= times e (cont E D s l)) /\
     (forall u c, x = Ret u c false -> exists c', In c' (called tr) /\ subsumes c' c)) ->
  Forall wfc (called ev) ->
  (forall l e, follows l e (added ev) + doneC (l, e) p' = doneC (l, e) (s_pc s t)) ->
  (forall l e, pendC (l, e) p' <= pendC (l, e) (s_pc s t) + follows l e (called ev)) ->
  Inv m E D L (tr ++ ev) s'.
Proof.
  intros I HS V T PC PO HP VP EV WF CA CC. eapply (step_inv 0); eauto.
  - eapply same_core; [exact HS | apply (iCore _ _ _ _ _ _ I)].
  - now apply same_grow.
  - intros l e. rewrite (same_cont E D s s' HS). specialize (CA l e). lia.
  - intros l e. rewrite (same_cont E D s s' HS). specialize (CC l e). lia.
Qed.
End Step.
