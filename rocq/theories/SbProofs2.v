(** Proofs about SatBuilder, second part: the invariant and the end of the program. *)
From Coq Require Import List Bool Arith ZArith Lia.
From Verif Require Import Base WcModel WcSpec WcProofs WcThms SbModel SbSpec SbProofs.
Import ListNotations.

Inductive ent := EU (w : Z) (p : lit) | EC (w : Z) (v : nat) (cc : list lit).
Definition enc (e : ent) : list sword := match e with EU w p => [SW w; SL p true] | EC w v cc => SW w :: SL (v, false) false :: flagLast cc end.
Definition violE (a : asg) (e : ent) : Z := match e with EU w p => if holds a p then w else 0%Z | EC w v cc => if sat_clause a cc then 0%Z else w end.
Fixpoint viol (a : asg) (l : list ent) : Z := match l with [] => 0%Z | e :: l => (violE a e + viol a l)%Z end.
Definition relaxes (l : list ent) : list nat := flat_map (fun e => match e with EC _ v _ => [v] | _ => [] end) l.
Definition entOk (n : nat) (e : ent) : Prop := match e with EU w p => (0 <= w)%Z /\ fst p <= n | EC w v cc => (0 <= w)%Z /\ n < v /\ 2 <= length cc /\ forall l, In l cc -> fst l <= n end.

Lemma viol_app : forall a l m, viol a (l ++ m) = (viol a l + viol a m)%Z. Proof. induction l as [|e l IH]; intros m; cbn; auto. rewrite IH. lia. Qed.
Lemma wsum_app : forall a l m, wsum a (l ++ m) = (wsum a l + wsum a m)%Z. Proof. induction l as [|[x w] l IH]; intros m; cbn; auto. rewrite IH. lia. Qed.
Lemma cost_app : forall hw l m a, cost hw (l ++ m) a = (cost hw l a + cost hw m a)%Z. Proof. induction l as [|o l IH]; intros m a; cbn; auto. rewrite IH. lia. Qed.
Lemma hard_snoc : forall hw l o a, hard hw (l ++ [o]) a <-> hard hw l a /\ hardOp hw a o.
Proof. intros hw l o a. unfold hard. split. - intros [A B]. sp; auto; intros; apply B; apply in_app_iff; cbn; auto. - intros [[A B] C]. split; auto. intros p P. apply in_app_iff in P as [P|[<- |[]]]; auto. Qed.
Lemma satDb_app : forall a l m, satDb a (l ++ m) <-> satDb a l /\ satDb a m.
Proof. intros a l m. unfold satDb. split; [intros H; split; intros c C; apply H, in_app_iff; auto|intros [A B] c C; apply in_app_iff in C as [C|C]; auto]. Qed.
Lemma satDb_clause : forall a c, satDb a [CClauses [c]] <-> sat_clause a c = true.
Proof. intros a c. unfold satDb. split; [intros H; specialize (H _ (or_introl eq_refl)); cbn in H; now rewrite andb_true_r in H|intros H d [<- |[]]; cbn; now rewrite H]. Qed.
Lemma top_ext : forall tr a, a 0 = true -> (forall l, In l tr -> holds a l = true) -> extends a (topOf tr).
Proof. intros tr a Z0 H v b E. unfold topOf in E. destruct (Nat.eqb_spec v 0) as [-> |_]; [congruence|]. destruct (find (fun l : nat * bool => Nat.eqb (fst l) v) tr) as [l|] eqn:F; [|discriminate]. injection E as <-. apply find_some in F as [F1 F2]. apply Nat.eqb_eq in F2. subst v. apply H in F1. unfold holds in F1. destruct (a (fst l)), (snd l); cbn in *; congruence. Qed.
Lemma flip_holds : forall a v l, fst l <> v -> holds (flip a v) l = holds a l.
Proof. intros a v l N. unfold holds, flip. destruct (Nat.eqb_spec (fst l) v); [contradiction|reflexivity]. Qed.
Lemma flip_clause : forall a v c, (forall l, In l c -> fst l <> v) -> sat_clause (flip a v) c = sat_clause a c.
Proof. intros a v c. unfold sat_clause. induction c as [|l c IH]; intros N; cbn; auto. rewrite flip_holds, IH; auto; [intros; apply N; now right|apply N; now left]. Qed.
Lemma flip_wsum : forall a v (c : list wlit), (forall e, In e c -> fst (fst e) <> v) -> wsum (flip a v) c = wsum a c.
Proof. intros a v c. induction c as [|[l w] c IH]; intros N; cbn; auto. rewrite flip_holds, IH; auto; [intros; apply N; now right|apply (N (l, w)); now left]. Qed.

Section Inv.
Variables (prop : list created -> list lit -> list lit * bool) (n : nat) (hw : Z).
Hypothesis SP : soundProp prop.

(** What does not depend on the flag *)
Record Occ (ops : list op) (x : sb) : Prop := {
  o_hard : forall v a, v <> 0 -> b_st x v = 0 -> b_occ x v = 0 -> hard hw ops a -> hard hw ops (flip a v);
  o_min : forall e, In e (b_min x) -> b_occ x (fst (fst e)) <> 0;
  o_ass : forall l, In l (b_assume x) -> b_occ x (fst l) <> 0 }.
Record Good (ops : list op) (ents : list ent) (x : sb) : Prop := {
  g_db : forall a, satDb a (b_db x) <-> hard hw ops a;
  g_tr : forall l, In l (b_tr x) -> forall a, satDb a (b_db x) -> holds a l = true;
  g_small : small (b_st x);
  g_st : forall a, satDb a (b_db x) -> marksOk (b_st x) a;
  g_soft : b_soft x = flat_map enc ents;
  g_ents : forall e, In e ents -> entOk n e;
  g_rel : NoDup (relaxes ents) /\ (forall v, In v (relaxes ents) -> v <= b_vars x);
  g_vars : n <= b_vars x;
  g_cost : forall a, satDb a (b_db x) -> (wsum a (b_min x) + viol a ents = cost hw ops a)%Z;
  g_occ : Occ ops x }.
Record Inv (ops : list op) (x : sb) : Prop := {
  i_n : b_n x = n /\ b_hw x = hw;
  i_bad : b_ok x = false -> forall a, ~ hard hw ops a;
  i_good : b_ok x = true -> exists ents, Good ops ents x }.

Lemma add_inv : forall ops ents x cs o, Good ops ents x -> b_n x = n /\ b_hw x = hw -> (forall a, satDb a (b_db x) -> (satDb a cs <-> hardOp hw a o)) ->
  (forall a, costOp hw a o = 0%Z) ->
  (forall v a, v <> 0 -> b_st x v = 0 -> b_occ x v = 0 -> hard hw ops a -> hard hw ops (flip a v) -> hardOp hw a o -> hardOp hw (flip a v) o) ->
  Inv (ops ++ [o]) (add prop x cs) /\ (b_ok (add prop x cs) = true -> Good (ops ++ [o]) ents (add prop x cs)).
Proof.
  intros ops ents x cs o [G1 G2 G3 G4 G5 G6 G7 G8 G9 [O1 O2 O3]] I HO CO FO.
  assert (DB : forall a, satDb a (cs ++ b_db x) <-> hard hw (ops ++ [o]) a). { intros a. rewrite satDb_app, hard_snoc, <- G1. split; intros [A B]; [split; [exact B|now apply (HO a B)]|split; [now apply (HO a A)|exact A]]. }
  unfold add. destruct (SP (cs ++ b_db x) (b_tr x)) as [ext [E1 [E2 E3]]]. { intros l L a S. apply satDb_app in S as [_ S]. eapply G2; eauto. }
  destruct (prop (cs ++ b_db x) (b_tr x)) as [tr ok]. cbn [fst snd] in *. subst tr.
  assert (GG : Good (ops ++ [o]) ents (Sb (cs ++ b_db x) (b_tr x ++ ext) ok (b_pos x) (b_st x) (b_occ x) (b_soft x) (b_vars x) (b_n x) (b_hw x) (b_min x) (b_assume x))).
  { constructor; cbn [b_db b_tr b_ok b_st b_occ b_soft b_vars b_min b_assume]; auto.
    - intros a S. apply satDb_app in S as [_ S]. auto.
    - intros a S. apply satDb_app in S as [_ S]. rewrite cost_app. cbn. rewrite CO, <- G9; auto. lia.
    - constructor; cbn [b_st b_occ b_min b_assume]; auto. intros v a V S C H. apply hard_snoc in H as [H1 H2]. apply hard_snoc. split; eauto. }
  split; auto. constructor; cbn [b_n b_hw b_ok]; auto; [|eauto]. intros -> a H. apply (E3 eq_refl a). now apply DB.
Qed.
Lemma mark_inv : forall ops ents x, Good ops ents x -> b_n x = n /\ b_hw x = hw -> b_ok x = true -> Inv ops (markAssigned prop x).
Proof.
  intros ops ents x G I OK. unfold markAssigned. destruct (Nat.eqb (b_pos x) (length (b_tr x))); [constructor; eauto; congruence|]. rewrite OK.
  destruct G as [G1 G2 G3 G4 G5 G6 G7 G8 G9 [O1 O2 O3]]. destruct (SP (b_db x) (b_tr x) G2) as [ext [E1 [E2 E3]]]. destruct (prop (b_db x) (b_tr x)) as [tr ok]. cbn [fst snd] in *. subst tr.
  constructor; cbn [b_n b_hw b_ok]; auto; [intros -> a H; apply (E3 eq_refl a), G1; auto|]. intros _. exists ents.
  constructor; cbn [b_db b_tr b_ok b_st b_occ b_soft b_vars b_min b_assume]; auto.
  - apply mark_fold_small; auto.
  - intros a S. apply mark_fold; auto. intros l L. apply E2; auto. rewrite <- (firstn_skipn (b_pos x)). apply in_app_iff. now right.
  - constructor; cbn [b_st b_occ b_min b_assume]; auto. intros v a V S. apply O1; auto. destruct (Nat.eq_dec (b_st x v) 0); auto. exfalso. revert S. apply (fold_mono lit neg); auto.
Qed.
Lemma good_occ : forall ops ents x y, Good ops ents x -> (forall v, b_st y v = b_st x v) -> (forall v, b_occ x v <> 0 -> b_occ y v <> 0) ->
  y = Sb (b_db x) (b_tr x) (b_ok x) (b_pos x) (b_st y) (b_occ y) (b_soft x) (b_vars x) (b_n x) (b_hw x) (b_min x) (b_assume x) -> Good ops ents y.
Proof.
  intros ops ents x y [G1 G2 G3 G4 G5 G6 G7 G8 G9 [O1 O2 O3]] S O E. rewrite E. constructor; cbn [b_db b_tr b_ok b_st b_occ b_soft b_vars b_min b_assume]; auto.
  - intros v. rewrite S. auto.
  - intros a A l L. rewrite S in L. eapply G4; eauto.
  - constructor; cbn [b_st b_occ b_min b_assume]; auto. intros v a V S' O'. rewrite S in S'. apply O1; auto. destruct (Nat.eq_dec (b_occ x v) 0); auto. exfalso. now apply (O v).
Qed.
(** An operation that only changes the cost *)
Lemma soft_inv : forall ops ents x o e v, Good ops ents x -> b_n x = n /\ b_hw x = hw -> b_ok x = true -> entOk n e -> b_vars x <= v -> (forall u, In u (relaxes [e]) -> b_vars x < u <= v) ->
  (forall a, hardOp hw a o) -> (forall a, satDb a (b_db x) -> violE a e = costOp hw a o) -> Inv (ops ++ [o]) (store x (enc e) v).
Proof.
  intros ops ents x o e v [G1 G2 G3 G4 G5 G6 [G7a G7b] G8 G9 [O1 O2 O3]] I OK EO V RV HO CO. constructor; cbn [store b_n b_hw b_ok]; auto; [congruence|]. intros _. exists (ents ++ [e]).
  constructor; cbn [store b_db b_tr b_ok b_st b_occ b_soft b_vars b_min b_assume]; auto.
  - intros a. rewrite hard_snoc, G1. split; [auto|tauto].
  - rewrite flat_map_app, G5. cbn. now rewrite app_nil_r.
  - intros d D. apply in_app_iff in D as [D|[<- |[]]]; auto.
  - unfold relaxes in *. rewrite flat_map_app. split.
    + destruct e as [w p|w u cc]; cbn in *; rewrite ?app_nil_r; auto. apply NoDup_snoc; auto. intros Q. apply G7b in Q. specialize (RV u (or_introl eq_refl)). lia.
    + intros u U. apply in_app_iff in U as [U|U]; [apply G7b in U; lia|apply RV in U; lia].
  - lia.
  - intros a S. rewrite viol_app, cost_app. cbn [viol cost]. rewrite <- G9, CO; auto. lia.
  - constructor; cbn [store b_st b_occ b_min b_assume]; auto. intros u a U S C H. apply hard_snoc in H as [H _]. apply hard_snoc. auto.
Qed.
Lemma skip_inv : forall ops ents x o, Good ops ents x -> b_n x = n /\ b_hw x = hw -> b_ok x = true -> (forall a, satDb a (b_db x) -> hardOp hw a o /\ costOp hw a o = 0%Z) -> Inv (ops ++ [o]) x.
Proof.
  intros ops ents x o [G1 G2 G3 G4 G5 G6 G7 G8 G9 [O1 O2 O3]] I OK HO. constructor; auto; [congruence|]. intros _. exists ents. constructor; auto.
  - intros a. rewrite hard_snoc, G1. split; [intros H; split; auto; apply HO, G1; auto|tauto].
  - intros a S. rewrite cost_app. cbn. rewrite <- G9; auto. destruct (HO a S) as [_ ->]. lia.
  - constructor; auto. intros v a V S C H. apply hard_snoc in H as [H _]. apply hard_snoc. pose proof (O1 v a V S C H) as H'. split; auto. apply HO, G1; auto.
Qed.
Lemma step_inv : forall ops x o y, Inv ops x -> inRange n o -> step prop x o = Ok y -> Inv (ops ++ [o]) y.
Proof.
  intros ops x o y IX IR E. destruct IX as [I1 I2 I3]. destruct (b_ok x) eqn:OK.
  2:{ assert (BAD : forall a, ~ hard hw (ops ++ [o]) a) by (intros a H; apply hard_snoc in H as [H _]; now apply (I2 eq_refl a)).
      destruct o as [c w|l b|l|l]; cbn in E; unfold addClause, addConstraint in E; rewrite ?OK in E; cbn in E; injection E as <-; constructor; cbn [addObjective addAssumption b_n b_hw b_ok]; auto; congruence. }
  destruct (I3 eq_refl) as [ents G]. destruct o as [c w|l b|l|l]; cbn [step] in E.
  - unfold addClause in E. rewrite OK in E. cbn [negb] in E. destruct (satisfied x c) as [[s cc] x1] eqn:S. apply satisfied_ok in S; [|apply G]. destruct S as [S1 [S2 [S3 [S4 [S5 [S6 S7]]]]]].
    assert (G1 : Good ops ents x1) by (eapply good_occ; eauto). assert (N1 : b_n x1 = n /\ b_hw x1 = hw) by (rewrite S5; exact I1). assert (OK1 : b_ok x1 = true) by (rewrite S5; exact OK).
    assert (D1 : b_db x1 = b_db x) by (rewrite S5; reflexivity).
    destruct s.
    + injection E as <-. eapply skip_inv; eauto. intros a A. rewrite D1 in A. assert (X : sat_clause a c = true) by (apply S3; auto; now apply (g_st _ _ _ G)). cbn. rewrite X. split; auto. now destruct (w =? hw)%Z.
    + destruct (negb _) eqn:W in E; [discriminate|]. apply negb_false_iff, andb_true_iff in W as [W _]. apply Z.leb_le in W. destruct N1 as [N1 N2]. rewrite N2 in E. destruct (Z.eqb_spec w hw) as [WH|WH].
      * destruct (add_inv ops ents x1 [CClauses [cc]] (OClause c w) G1) as [A1 A2]; auto.
        -- intros a A. rewrite satDb_clause. rewrite D1 in A. rewrite (S4 a); auto; [|now apply (g_st _ _ _ G)]. cbn. split; auto.
        -- intros a. cbn. destruct (Z.eqb_spec w hw); [reflexivity|contradiction].
        -- intros v a V ST C H HF HO _. specialize (HO WH). assert (M1 : marksOk (b_st x) a) by (apply (g_st _ _ _ G), (g_db _ _ _ G); auto). assert (M2 : marksOk (b_st x) (flip a v)) by (apply (g_st _ _ _ G), (g_db _ _ _ G); auto).
           rewrite <- (S4 (flip a v)); auto. rewrite flip_clause; [rewrite (S4 a); auto|]. intros l L Q. apply (S7 eq_refl l L). now rewrite Q.
        -- injection E as <-. destruct (b_ok (add prop x1 [CClauses [cc]])) eqn:OK2; auto. eapply mark_inv; eauto. destruct A1 as [A1 _ _]. exact A1.
      * assert (CO : forall a, satDb a (b_db x1) -> costOp hw a (OClause c w) = if sat_clause a cc then 0%Z else w). { intros a A. rewrite D1 in A. cbn. destruct (Z.eqb_spec w hw); [contradiction|]. rewrite (S4 a); auto. now apply (g_st _ _ _ G). }
        assert (HO : forall a, hardOp hw a (OClause c w)) by (intros a Q; contradiction).
        assert (RC : forall l, In l cc -> fst l <= n) by (intros l L; apply IR; auto).
        destruct cc as [|l1 [|l2 cc]]; injection E as <-.
        -- apply (soft_inv ops ents x1 (OClause c w) (EU w (0, false)) (b_vars x1)); cbn; auto; [split; auto; lia|intros u []|]. intros a A. specialize (CO a A). cbn in CO. rewrite CO. assert (Z0 : a 0 = true) by (apply (g_db _ _ _ G1) in A; apply A). unfold holds. cbn. now rewrite Z0.
        -- apply (soft_inv ops ents x1 (OClause c w) (EU w (neg l1)) (b_vars x1)); cbn; auto; [split; auto; apply RC; now left|intros u []|]. intros a A. specialize (CO a A). cbn in CO. rewrite orb_false_r in CO. rewrite CO, holds_neg'. now destruct (holds a l1).
        -- apply (soft_inv ops ents x1 (OClause c w) (EC w (S (b_vars x1)) (l1 :: l2 :: cc)) (S (b_vars x1))); cbn [entOk violE]; auto.
           ++ pose proof (g_vars _ _ _ G1). cbn [length]. sp; auto; lia.
           ++ cbn. intros u [<- |[]]. lia.
           ++ intros a A. symmetry. now apply CO.
  - unfold addConstraint in E. rewrite OK in E. cbn [negb] in E. destruct (create_rep (topOf (b_tr x)) l b) as [r| |] eqn:CR; [|discriminate..]. cbn [bind] in E.
    destruct (wc_create (topOf (b_tr x)) (0, false) l b false (WFlags false false)) as [[f cs]| |] eqn:WC; [|discriminate..]. cbn [bind] in E. injection E as <-.
    set (x1 := if r_open r then _ else x).
    assert (G1 : Good ops ents x1). { unfold x1. destruct (r_open r); auto. eapply good_occ; eauto. intros v V. cbn. apply (fold_mono wlit fst); auto. }
    assert (D1 : b_db x1 = b_db x /\ b_n x1 = b_n x /\ b_hw x1 = b_hw x /\ b_st x1 = b_st x) by (unfold x1; destruct (r_open r); auto). destruct D1 as [D1 [D2 [D3 D4]]].
    apply (add_inv ops ents x1 _ (OSum l b) G1); auto.
    + now rewrite D2, D3.
    + intros a A. rewrite D1 in A. assert (X : extends a (topOf (b_tr x))) by (apply top_ext; [apply (g_db _ _ _ G) in A; apply A|intros q Q; eapply (g_tr _ _ _ G); eauto]).
      pose proof (c09_ge_meaning _ _ _ _ _ _ _ WC a X) as M. assert (Z0 : a 0 = true) by (apply (g_db _ _ _ G) in A; apply A). cbn [hardOp]. unfold holds in M at 1. cbn [fst snd] in M. rewrite Z0 in M. cbn [xorb] in M.
      rewrite satDb_app. rewrite <- Z.leb_le. split.
      * intros [A1 A2]. symmetry. apply M. split; [|exact A2]. intros q Q. assert (T : satDb a [CClauses [[q]]]) by (intros d [<- |[]]; apply A1; apply in_map_iff; eauto). apply satDb_clause in T. cbn in T. now rewrite orb_false_r in T.
      * intros T. symmetry in T. apply M in T as [T1 T2]. split; [|exact T2]. intros d D. apply in_map_iff in D as [q [<- Q]]. cbn. now rewrite (T1 q Q).
    + intros v a V ST OC H HF HO. cbn [hardOp] in *. rewrite D4 in ST.
      assert (X : forall q, In q (b_tr x) -> fst q <> v). { intros q Q QV. pose proof (g_tr _ _ _ G q Q a) as T1. pose proof (g_tr _ _ _ G q Q (flip a v)) as T2. rewrite (g_db _ _ _ G) in T1, T2. specialize (T1 H). specialize (T2 HF). unfold holds, flip in *. rewrite QV, Nat.eqb_refl in T2. rewrite QV in T1. destruct (a v), (snd q); cbn in *; congruence. }
      assert (XA : extends a (topOf (b_tr x))) by (apply top_ext; [apply H|intros q Q; eapply (g_tr _ _ _ G); eauto; now apply (g_db _ _ _ G)]).
      assert (XF : extends (flip a v) (topOf (b_tr x))) by (apply top_ext; [apply HF|intros q Q; eapply (g_tr _ _ _ G); eauto; now apply (g_db _ _ _ G)]).
      pose proof (c08_same_solutions _ _ _ _ CR) as SS. rewrite <- (SS _ XF). rewrite <- (SS _ XA) in HO.
      destruct (r_open r) eqn:RO.
      * rewrite flip_wsum; auto. intros e' E' Q. revert OC. unfold x1. cbn [withOcc b_occ]. rewrite <- Q. apply (fold_hit wlit fst); auto.
      * (* satisfied or unsatisfiable for every assignment *)
        unfold r_open in RO. destruct (c08_verdict _ _ _ _ CR) as [V1 [V2 _]]. assert (C : r_sat r = true \/ r_unsat r = true). { unfold r_sat, r_unsat in *. destruct (Z.leb_spec (r_bound r) 0); auto. right. apply Z.ltb_lt. rewrite Z.gtb_ltb in RO. destruct (Z.ltb_spec 0 (r_bound r)); [|lia]. cbn in RO. apply Z.leb_gt in RO. lia. }
        destruct C as [C|C]; [apply V1 with (a := flip a v) in C; auto; now rewrite (SS _ XF)|]. apply V2 with (a := a) in C; auto. rewrite (SS _ XA) in HO. lia.
  - injection E as <-. destruct G as [G1 G2 G3 G4 G5 G6 G7 G8 G9 [O1 O2 O3]]. constructor; cbn [addObjective b_n b_hw b_ok]; auto; [congruence|]. intros _. exists ents. constructor; cbn [addObjective b_db b_tr b_ok b_st b_occ b_soft b_vars b_min b_assume]; auto.
    + intros a. rewrite hard_snoc, G1. cbn. tauto.
    + intros a A. rewrite wsum_app, cost_app. cbn. rewrite <- G9; auto. lia.
    + assert (MO : forall v, b_occ x v <> 0 -> fold_left (fun o e => markLit o (neg (fst e))) l (b_occ x) v <> 0) by (intros v V; apply (fold_mono wlit (fun e => neg (fst e))); auto).
      constructor; cbn [addObjective b_st b_occ b_min b_assume]; auto.
      * intros v a V S C H. apply hard_snoc in H as [H _]. apply hard_snoc. split; cbn; auto. apply O1; auto. destruct (Nat.eq_dec (b_occ x v) 0); auto. exfalso. now apply (MO v).
      * intros e' E'. apply in_app_iff in E' as [E'|E']; auto. apply (fold_hit wlit (fun e => neg (fst e)) l (b_occ x) e' E').
  - injection E as <-. destruct G as [G1 G2 G3 G4 G5 G6 G7 G8 G9 [O1 O2 O3]]. constructor; cbn [addAssumption b_n b_hw b_ok]; auto; [congruence|]. intros _. exists ents. constructor; cbn [addAssumption b_db b_tr b_ok b_st b_occ b_soft b_vars b_min b_assume]; auto.
    + intros a. rewrite hard_snoc, G1. cbn. tauto.
    + intros a A. rewrite cost_app. cbn. rewrite <- G9; auto. lia.
    + assert (MO : forall v, b_occ x v <> 0 -> markLit (b_occ x) l v <> 0) by (intros v V; apply mark_mono; auto).
      constructor; cbn [addAssumption b_st b_occ b_min b_assume]; auto.
      * intros v a V S C H. apply hard_snoc in H as [H _]. apply hard_snoc. split; cbn; auto. apply O1; auto. destruct (Nat.eq_dec (b_occ x v) 0); auto. exfalso. now apply (MO v).
      * intros q Q. apply in_app_iff in Q as [Q|[<- |[]]]; auto. unfold markLit. rewrite upd_eq, Nat.eqb_refl. apply lor_nz, bits_cases.
Qed.
Lemma init_inv : Inv [] (init n hw).
Proof.
  constructor; cbn; auto; [discriminate|]. intros _. exists []. constructor; cbn; auto; try (intros; contradiction).
  - intros a. rewrite satDb_clause. unfold hard. cbn. unfold holds. cbn. rewrite orb_false_r, xorb_false_r. split; [intros H; split; auto; intros o []|tauto].
  - intros v. lia.
  - intros a S l [H|H]; destruct (bits_cases l); cbn in *; lia.
  - split; [constructor|intros v []].
  - constructor; cbn; try (intros; contradiction). intros v a V _ _ [H _]. split; [|intros o []]. unfold flip. destruct (Nat.eqb_spec 0 v); [congruence|auto].
Qed.
Lemma steps_inv : forall l ops x y, Inv ops x -> Forall (inRange n) l -> steps prop x l = Ok y -> Inv (ops ++ l) y.
Proof.
  induction l as [|o l IH]; intros ops x y I F E; cbn in E; [injection E as <-; now rewrite app_nil_r|]. inversion F; subst. destruct (step prop x o) as [z| |] eqn:Z; [|discriminate..]. cbn in E.
  change (o :: l) with ([o] ++ l). rewrite app_assoc. eapply IH; eauto. eapply step_inv; eauto.
Qed.

(** The end of the program: soft clauses *)
Lemma read_lits : forall cc acc x w p l, cc <> [] -> readSoft prop x (RdLits w p acc) (flagLast cc ++ l) = readSoft prop (minLit (add prop x [CClauses [acc ++ cc]]) (p, w)) RdW l.
Proof.
  induction cc as [|q cc IH]; intros acc x w p l N; [congruence|]. destruct cc as [|q' cc]; [reflexivity|]. change (flagLast (q :: q' :: cc) ++ l) with (SL q false :: (flagLast (q' :: cc) ++ l)). cbn [readSoft]. rewrite IH by discriminate. now rewrite <- app_assoc.
Qed.
Definition relaxLit (e : ent) : wlit := match e with EU w p => (p, w) | EC w v _ => ((v, false), w) end.
Definition softOk (a : asg) (e : ent) : Prop := match e with EU _ _ => True | EC _ v cc => a v = true \/ sat_clause a cc = true end.
(** what the state looks like when some entries have been read *)
Record Read (x y : sb) (done : list ent) : Prop := {
  r_db : forall a, satDb a (b_db y) <-> satDb a (b_db x) /\ forall e, In e done -> softOk a e;
  r_tr : forall l, In l (b_tr y) -> forall a, satDb a (b_db y) -> holds a l = true;
  r_min : b_min y = b_min x ++ map relaxLit done;
  r_okf : b_ok y = false -> forall a, ~ satDb a (b_db y);
  r_same : b_st y = b_st x /\ b_occ y = b_occ x /\ b_assume y = b_assume x }.
Lemma read_all : forall todo done x y, (forall e, In e todo -> entOk n e) -> Read x y done ->
  exists k, Read x (readSoft prop y RdW (flat_map enc todo)) (done ++ firstn k todo) /\ (b_ok (readSoft prop y RdW (flat_map enc todo)) = true -> k = length todo).
Proof.
  induction todo as [|e todo IH]; intros done x y EO R; cbn [flat_map].
  - exists 0. cbn. rewrite app_nil_r. auto.
  - destruct (b_ok y) eqn:OK.
    2:{ exists 0. cbn [firstn]. rewrite app_nil_r. assert (Q : readSoft prop y RdW (enc e ++ flat_map enc todo) = y) by (destruct e; cbn; rewrite OK; reflexivity). rewrite Q. split; auto. congruence. }
    destruct R as [R1 R2 R3 R4 R5]. destruct e as [w p|w v cc].
    + destruct (IH (done ++ [EU w p]) x (minLit y (p, w))) as [k [K1 K2]]; [intros d D; apply EO; now right| |].
      * constructor; cbn [minLit b_db b_tr b_min b_ok b_st b_occ b_assume]; auto; [|rewrite R3, map_app, app_assoc; reflexivity].
        intros a. rewrite R1. split; intros [A B]; split; auto; intros d D; [apply in_app_iff in D as [D|[<- |[]]]; cbn; auto|apply B, in_app_iff; auto].
      * exists (S k). cbn [enc app readSoft firstn length]. rewrite OK. rewrite <- app_assoc in K1. split; auto.
    + destruct (EO _ (or_introl eq_refl)) as [E1 [E2 [E3 E4]]]. set (c := CClauses [[(v, false)] ++ cc]).
      assert (RD : readSoft prop y RdW (enc (EC w v cc) ++ flat_map enc todo) = readSoft prop (minLit (add prop y [c]) ((v, false), w)) RdW (flat_map enc todo)).
      { cbn [enc app readSoft]. rewrite OK. apply read_lits. destruct cc; [cbn in E3; lia|discriminate]. }
      rewrite RD. destruct (IH (done ++ [EC w v cc]) x (minLit (add prop y [c]) ((v, false), w))) as [k [K1 K2]]; [intros d D; apply EO; now right| |].
      * destruct (SP (c :: b_db y) (b_tr y)) as [ext [F1 [F2 F3]]]. { intros l L a A. apply R2; auto. intros d D. apply A. now right. }
        unfold add. cbn [app]. destruct (prop (c :: b_db y) (b_tr y)) as [tr ok]. cbn [fst snd] in *. subst tr.
        constructor; cbn [minLit b_db b_tr b_min b_ok b_st b_occ b_assume]; auto; [|rewrite R3, map_app, app_assoc; reflexivity].
        intros a. assert (Q : satDb a (c :: b_db y) <-> (a v = true \/ sat_clause a cc = true) /\ satDb a (b_db y)).
        { change (c :: b_db y) with ([c] ++ b_db y). rewrite satDb_app. unfold c. rewrite satDb_clause. unfold sat_clause. cbn [app existsb]. rewrite orb_true_iff. unfold holds at 1. cbn [fst snd]. rewrite xorb_false_r. tauto. }
        rewrite Q, R1. split.
        -- intros [A [B C]]. split; auto. intros d D. apply in_app_iff in D as [D|[<- |[]]]; auto.
        -- intros [A B]. split; [apply (B (EC w v cc)), in_app_iff; right; now left|]. split; auto. intros d D. apply B, in_app_iff. auto.
      * exists (S k). cbn [firstn length]. rewrite <- app_assoc in K1. split; auto.
Qed.
(** Extending an assignment to the relaxation variables *)
Definition extend (a : asg) (ents : list ent) : asg := fun v => if Nat.leb v n then a v else existsb (fun e => match e with EC _ u cc => Nat.eqb u v && negb (sat_clause a cc) | _ => false end) ents.
Lemma ext_agree : forall a ents, agree n (extend a ents) a.
Proof. intros a ents v V. unfold extend. apply Nat.leb_le in V. now rewrite V. Qed.
Lemma agree_holds : forall a b l, agree n a b -> fst l <= n -> holds a l = holds b l. Proof. intros a b l A L. unfold holds. now rewrite A. Qed.
Lemma agree_clause : forall a b c, agree n a b -> (forall l, In l c -> fst l <= n) -> sat_clause a c = sat_clause b c.
Proof. intros a b c A. unfold sat_clause. induction c as [|l c IH]; intros C; cbn; auto. rewrite (agree_holds a b), IH; auto; [intros; apply C; now right|apply C; now left]. Qed.
Lemma agree_wsum : forall a b (c : list wlit), agree n a b -> (forall e, In e c -> fst (fst e) <= n) -> wsum a c = wsum b c.
Proof. intros a b c A. induction c as [|[l w] c IH]; intros C; cbn; auto. rewrite (agree_holds a b), IH; auto; [intros; apply C; now right|apply (C (l, w)); now left]. Qed.
Lemma agree_hard : forall a b ops, agree n a b -> Forall (inRange n) ops -> hard hw ops a -> hard hw ops b.
Proof.
  intros a b ops A F [H1 H2]. rewrite Forall_forall in F. split; [rewrite <- A; auto; lia|]. intros o O. specialize (H2 o O). specialize (F o O). destruct o as [c w|l w|l|l]; cbn in *; auto.
  - intros W. rewrite <- (agree_clause a b); auto.
  - rewrite <- (agree_wsum a b); auto.
Qed.
Lemma agree_cost : forall a b ops, agree n a b -> Forall (inRange n) ops -> cost hw ops a = cost hw ops b.
Proof.
  intros a b ops A F. induction F as [|o ops O F IH]; cbn; auto. rewrite IH. f_equal. destruct o as [c w|l w|l|l]; cbn in *; auto; [rewrite (agree_clause a b); auto|now apply agree_wsum].
Qed.
Lemma ext_relax : forall a ents w v cc, (forall e, In e ents -> entOk n e) -> NoDup (relaxes ents) -> In (EC w v cc) ents -> extend a ents v = negb (sat_clause a cc).
Proof.
  intros a ents w v cc EO ND I. destruct (EO _ I) as [_ [V _]]. unfold extend. destruct (Nat.leb_spec v n); [lia|]. clear EO.
  induction ents as [|e ents IH]; [destruct I|]. destruct I as [-> |I]; cbn [existsb].
  - rewrite Nat.eqb_refl. cbn [andb]. destruct (negb (sat_clause a cc)) eqn:Q; auto. cbn [orb]. cbn in ND. inversion ND as [|? ? N1 N2]; subst. destruct (existsb _ ents) eqn:X; auto. exfalso. apply existsb_exists in X as [[u p|u v' cc'] [X1 X2]]; [discriminate|]. apply andb_true_iff in X2 as [X2 _]. apply Nat.eqb_eq in X2. subst v'. apply N1. apply in_flat_map. exists (EC u v cc'). split; auto. now left.
  - destruct e as [u p|u v' cc'].
    + cbn. apply IH; auto.
    + cbn in ND. inversion ND as [|? ? N1 N2]; subst. destruct (Nat.eqb_spec v' v) as [-> |Q]; [exfalso; apply N1; apply in_flat_map; exists (EC w v cc); split; auto; now left|]. cbn. apply IH; auto.
Qed.
Lemma ext_cost : forall a ents, (forall e, In e ents -> entOk n e) -> NoDup (relaxes ents) -> wsum (extend a ents) (map relaxLit ents) = viol a ents.
Proof.
  intros a ents EO ND. assert (X : forall l, incl l ents -> wsum (extend a ents) (map relaxLit l) = viol a l); [|now apply X, incl_refl].
  induction l as [|e l IH]; intros I; cbn [map wsum viol]; auto. assert (E : In e ents) by (apply I; now left). rewrite <- IH by (intros d D; apply I; now right). destruct e as [w p|w v cc]; cbn [relaxLit wsum violE].
  - rewrite (agree_holds (extend a ents) a); auto using ext_agree. apply (EO _ E).
  - unfold holds. cbn [fst snd]. rewrite xorb_false_r, (ext_relax a ents w v cc); auto. destruct (sat_clause a cc); reflexivity.
Qed.
Lemma soft_lower : forall a l, (forall e, In e l -> entOk n e) -> (forall e, In e l -> softOk a e) -> (viol a l <= wsum a (map relaxLit l))%Z.
Proof.
  induction l as [|e l IH]; intros EO SO; cbn [map wsum viol]; [lia|]. assert (X : (viol a l <= wsum a (map relaxLit l))%Z) by (apply IH; intros; [apply EO|apply SO]; now right).
  pose proof (SO e (or_introl eq_refl)) as S. destruct e as [w p|w v cc]; cbn [relaxLit wsum violE softOk] in *; [destruct (EO _ (or_introl eq_refl)); destruct (holds a p); lia|].
  destruct (EO _ (or_introl eq_refl)) as [W' _]. unfold holds. cbn [fst snd]. rewrite xorb_false_r. destruct (sat_clause a cc); [destruct (a v); lia|]. destruct S as [-> |S]; [lia|discriminate].
Qed.
End Inv.
