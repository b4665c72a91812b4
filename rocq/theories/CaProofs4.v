(** Proofs: reverse arcs, finalisation, cores. *)
From Coq Require Import List Bool Arith Lia Permutation.
From Verif Require Import Base ClModel CaModel CaSpec CaProofs CaProofs2 CaProofs3.
Import ListNotations.

Lemma nodup_map_perm : forall (A B : list lit), Permutation A B -> NoDup (map fst A) -> NoDup (map fst B).
Proof. intros A B P. apply Permutation_NoDup, Permutation_map, P. Qed.
Lemma map_fst_neg : forall l : list lit, map fst (map neg l) = map fst l.
Proof. intros l. rewrite map_map. apply map_ext. reflexivity. Qed.

Lemma nodup_app2 : forall (A B : list nat), NoDup A -> NoDup B -> (forall v, In v A -> ~ In v B) -> NoDup (A ++ B).
Proof.
  induction A as [|v l IH]; intros B N2 NN DJ; [exact NN|]. cbn. inversion N2 as [|y m M1 M2]; subst. constructor.
  - rewrite in_app_iff. intros [H|H]; [contradiction|]. apply (DJ v); cbn; auto.
  - apply IH; auto. intros u Hu. apply DJ. cbn; auto.
Qed.

Section F.
Variable G : asg -> Prop.
Variable E : env.
Hypothesis TO : trail_ok G E.
Variable f0 : fl.
Hypothesis FO : flags_ok E f0.
Hypothesis DL : 0 < dl E.
Variable o : opt.
Variable p : lit.
Hypothesis Pt : In p (v_trail E).
Hypothesis Lp : lv E p = dl E.

(** State before finalizeConflictClause *)
Record pre (f : fl) (K R : list lit) : Prop := {
  pr_seen1 : forall v, f_seen f v = true -> f_seen f0 v = true \/ In v (map fst K);
  pr_seen2 : forall v, f_seen f0 v = true -> f_seen f v = true;
  pr_mark1 : forall l, f_mark f l = true -> In l (map (lv E) K) \/ In l (map (lv E) R);
  pr_mark2 : forall q, In q K -> f_mark f (lv E q) = true;
  pr_nd : NoDup (map fst (p :: K));
  pr_tr : forall q, In q K -> In q (v_trail E);
  pr_lv : forall q, In q K -> 0 < lv E q < dl E;
  pr_ref : refutes G (p :: K) }.

Lemma clearAll_spec : forall l f v, f_seen (clearAll l f) v = f_seen f v && negb (memv v l).
Proof.
  induction l as [|x l IH]; intros f v; [cbn; now rewrite andb_true_r|]. cbn [clearAll fold_left]. fold (clearAll l (clearSeen f x)). rewrite IH.
  cbn [clearSeen f_seen memv existsb]. rewrite setf_spec. rewrite (Nat.eqb_sym v (fst x)). destruct (Nat.eqb (fst x) v); cbn [orb negb]; [now rewrite !andb_false_r|reflexivity].
Qed.
Lemma clearAll_mark : forall l f, f_mark (clearAll l f) = f_mark f.
Proof. induction l as [|x l IH]; intros f; auto. cbn [clearAll fold_left]. fold (clearAll l (clearSeen f x)). now rewrite IH. Qed.
Lemma unmarkAll_seen : forall l f, f_seen (unmarkAll E l f) = f_seen f.
Proof. induction l as [|x l IH]; intros f; auto. cbn [unmarkAll fold_left]. fold (unmarkAll E l (unmarkLevel f (lv E x))). now rewrite IH. Qed.
Lemma unmarkAll_mark : forall l f k, f_mark (unmarkAll E l f) k = f_mark f k && negb (existsb (fun x => Nat.eqb (lv E x) k) l).
Proof.
  induction l as [|x l IH]; intros f k; [cbn; now rewrite andb_true_r|]. cbn [unmarkAll fold_left]. fold (unmarkAll E l (unmarkLevel f (lv E x))). rewrite IH.
  cbn [unmarkLevel f_mark existsb]. rewrite setf_spec, (Nat.eqb_sym k). destruct (Nat.eqb (lv E x) k); cbn [orb negb]; [now rewrite !andb_false_r|reflexivity].
Qed.

Lemma pos_not0 : forall q, In q (v_trail E) -> 0 < lv E q -> f_seen f0 (fst q) = false.
Proof. intros q A B. destruct (f_seen f0 (fst q)) eqn:S; auto. apply (fo_seen _ _ FO q A) in S. lia. Qed.

(** After minimisation *)
Lemma pre_min : forall f C K R, marked E f0 f [] C -> refutes G (p :: K) -> Permutation (K ++ R) C -> pre (clearAll (map neg R) f) K R.
Proof.
  intros f C K R M RF PM.
  assert (IC : forall q, In q K \/ In q R <-> In q C). { intros q. rewrite <- in_app_iff. split; intros; [eapply Permutation_in; eauto|eapply Permutation_in; [apply Permutation_sym|]; eauto]. }
  assert (ND : NoDup (map fst (K ++ R))). { eapply nodup_map_perm; [apply Permutation_sym, PM|]. exact (mk_nd _ _ _ _ _ M). }
  constructor.
  - intros v. rewrite clearAll_spec, (mk_seen _ _ _ _ _ M). cbn [app]. rewrite andb_true_iff, orb_true_iff, negb_true_iff.
    intros [[A|A] B]; auto. right. apply memv_in in A as [q [A1 A2]]. apply IC in A1 as [A1|A1]; [subst; now apply in_map|].
    exfalso. apply memv_notin in B. apply B. rewrite map_fst_neg. subst. now apply in_map.
  - intros v Hv. rewrite clearAll_spec, (mk_seen _ _ _ _ _ M), Hv. cbn [orb]. apply andb_true_iff. split; auto. apply negb_true_iff, memv_notin.
    rewrite map_fst_neg, in_map_iff. intros [q [A B]]. assert (QC : In q C) by (apply IC; auto). subst v.
    rewrite pos_not0 in Hv; [discriminate|apply (mk_tr _ _ _ _ _ M); auto|apply (mk_C _ _ _ _ _ M) in QC; lia].
  - intros l. rewrite clearAll_mark, (mk_mark _ _ _ _ _ M), existsb_exists. intros [q [A B]]. apply Nat.eqb_eq in B. subst l.
    apply IC in A as [A|A]; [left|right]; now apply in_map.
  - intros q Hq. rewrite clearAll_mark, (mk_mark _ _ _ _ _ M). apply existsb_exists. exists q. rewrite Nat.eqb_refl. split; auto. apply IC; auto.
  - cbn. constructor.
    + rewrite in_map_iff. intros [q [A B]]. assert (QC : In q C) by (apply IC; auto). pose proof (mk_C _ _ _ _ _ M q QC).
      rewrite (nd_eq G E TO q p) in H; [lia|apply (mk_tr _ _ _ _ _ M); auto|auto|auto].
    + rewrite map_app in ND. clear - ND. induction K as [|x K IH]; [constructor|]. cbn in *. inversion ND as [|y m N1 N2]; subst. constructor; auto.
      intros A. apply N1. rewrite in_app_iff. auto.
  - intros q Hq. apply (mk_tr _ _ _ _ _ M). apply IC; auto.
  - intros q Hq. apply (mk_C _ _ _ _ _ M). apply IC; auto.
  - exact RF.
Qed.

(** Reverse arcs *)
Lemma addNew_spec : forall r f cc, exists new, addNew E r f cc = (fold_left (fun f q => markLevel f (lv E q)) new f, cc ++ map neg new) /\
  (forall q, In q new <-> In q r /\ seen f q = false) /\ (NoDup (map fst r) -> NoDup (map fst new)).
Proof.
  induction r as [|x r IH]; intros f cc; cbn [addNew].
  - exists []. rewrite app_nil_r. sp; [reflexivity| |auto]. intros q. cbn. tauto.
  - destruct (seen f x) eqn:S.
    + destruct (IH f cc) as [new [A [B D]]]. exists new. sp; auto.
      * intros q. rewrite B. cbn. split; [tauto|]. intros [[<-|]]; [congruence|auto].
      * cbn. intros N. inversion N; auto.
    + destruct (IH (markLevel f (lv E x)) (cc ++ [neg x])) as [new [A [B D]]]. exists (x :: new). sp.
      * rewrite A. cbn [fold_left map]. now rewrite <- app_assoc.
      * intros q. cbn. rewrite B. change (seen (markLevel f (lv E x)) q) with (seen f q). split; [intros [<-|[]]; auto|intros [[<-|]]; auto].
      * cbn. intros N. inversion N as [|y m N1 N2]; subst. constructor; auto. intros H. apply N1. rewrite in_map_iff in *.
        destruct H as [q [H1 H2]]. apply B in H2. exists q. tauto.
Qed.
Lemma marks_seen : forall new f, f_seen (fold_left (fun f q => markLevel f (lv E q)) new f) = f_seen f.
Proof. induction new as [|q new IH]; intros f; auto. cbn. rewrite IH. reflexivity. Qed.
Lemma marks_mark : forall new f l, f_mark (fold_left (fun f q => markLevel f (lv E q)) new f) l = f_mark f l || existsb (fun q => Nat.eqb (lv E q) l) new.
Proof.
  induction new as [|q new IH]; intros f l; [cbn; now rewrite orb_false_r|]. cbn [fold_left existsb]. rewrite IH. cbn [markLevel f_mark].
  rewrite setf_spec, (Nat.eqb_sym l). destruct (Nat.eqb (lv E q) l); [cbn; now rewrite orb_true_r|reflexivity].
Qed.
Lemma resolve_shape : forall (c0 x : lit) (L : list lit), removelast (set_nth 1 (last (c0 :: x :: L) lit_false) (c0 :: x :: L)) =
  c0 :: (match L with [] => [] | _ => last L lit_false :: removelast L end).
Proof.
  intros c0 x L. unfold set_nth. cbn [firstn skipn app]. destruct L as [|y L]; [reflexivity|].
  change (last (c0 :: x :: y :: L) lit_false) with (last (y :: L) lit_false). set (z := last (y :: L) lit_false). reflexivity.
Qed.
Lemma last_perm : forall L : list lit, Permutation L (match L with [] => [] | _ => last L lit_false :: removelast L end).
Proof.
  intros [|y L]; [constructor|]. pose proof (app_removelast_last (l := y :: L) lit_false ltac:(discriminate)) as A. rewrite A at 1.
  apply Permutation_sym, Permutation_cons_append.
Qed.

Lemma pre_perm : forall f K K' R, Permutation K K' -> pre f K R -> pre f K' R.
Proof.
  intros f K K' R P [A1 A2 A3 A4 A5 A6 A7 A8].
  assert (I : forall q, In q K' -> In q K) by (intros; eapply Permutation_in; [apply Permutation_sym|]; eauto).
  constructor; auto.
  - intros v Hv. destruct (A1 v Hv); auto. right. eapply Permutation_in; [apply Permutation_map, P|auto].
  - intros l Hl. destruct (A3 l Hl); auto. left. eapply Permutation_in; [apply Permutation_map, P|auto].
  - eapply nodup_map_perm; [apply perm_skip, P|auto].
  - intros a Ga. destruct (A8 a Ga) as [q [Hq1 Hq2]]. exists q. split; auto. destruct Hq1; [cbn; auto|right; eapply Permutation_in; eauto].
Qed.

Lemma pre_rev : forall f x K R rt pop maxN r, v_trail E = rev rt ++ p :: pop -> arcs_ok G E -> pre f (x :: K) R -> (forall q, In q (x :: K) -> seen f q = true) -> (forall q, In q K -> lv E q < lv E x) ->
  revArc E (markSeen f (neg p)) (p :: rt) (neg x) (lv E x) maxN = Some r ->
  exists f' K', ccResolve E (neg p :: map neg (x :: K)) r (markSeen f (neg p)) = (f', neg p :: map neg K') /\ pre (clearSeen f' (neg p)) K' R.
Proof.
  intros f x K R rt pop maxN r T AO P KS KL RA.
  set (f2 := markSeen f (neg p)) in *.
  assert (RR : exists c, r = map neg c /\ (In c (v_short E (neg x)) \/ In c (v_long E (neg x))) /\ forallb (isRevLit E f2 (p :: rt) (lv E x)) c = true).
  { unfold revArc in RA. destruct (find _ (v_short E (neg x))) as [c|] eqn:F1.
    - injection RA as <-. exists c. apply find_some in F1 as [F1 F2]. auto.
    - destruct (find _ (v_long E (neg x))) as [c|] eqn:F2; [|discriminate]. injection RA as <-. exists c. apply find_some in F2 as [F2 F3].
      apply andb_true_iff in F3 as [F3 _]. auto. }
  destruct RR as [c [-> [Hc Hr]]]. rewrite forallb_forall in Hr. destruct (AO _ _ Hc) as [NDc Vc]. rewrite neg_neg in Vc. cbn [fst neg] in NDc.
  inversion NDc as [|y m Nx NDc']; subst.
  assert (PN : forall q, In q (x :: K) -> fst q <> fst p). { intros q Hq Z. pose proof (pr_nd _ _ _ P) as ND. cbn [map] in ND. inversion ND as [|y m N1 N2]; subst.
    apply N1. change (In (fst p) (map fst (x :: K))). rewrite <- Z. now apply in_map. }
  assert (S2 : forall v, f_seen f2 v = true <-> v = fst p \/ f_seen f v = true).
  { intros v. unfold f2. cbn [markSeen f_seen]. rewrite setf_spec. change (fst (neg p)) with (fst p). destruct (Nat.eqb v (fst p)) eqn:Ev.
    - apply Nat.eqb_eq in Ev. tauto.
    - apply Nat.eqb_neq in Ev. tauto. }
  assert (TR : forall q, In q (p :: rt) -> In q (v_trail E)). { intros q [<-|H]; auto. rewrite T, in_app_iff. left. now apply in_rev in H. }
  assert (RT : forall q, In q (map neg c) -> In q (v_trail E) /\ (seen f2 q = true \/ lv E q < lv E x)).
  { intros q Hq. apply in_map_iff in Hq as [y [<- Hy]]. pose proof (Hr y Hy) as Z. unfold isRevLit in Z. apply andb_true_iff in Z as [Z1 Z2].
    apply memL_in in Z1. split; [auto|]. apply orb_true_iff in Z2 as [Z2|Z2]; [left; exact Z2|right]. apply Nat.ltb_lt in Z2. exact Z2. }
  unfold ccResolve. cbn [map nth].
  destruct (addNew_spec (map neg c) f2 (neg p :: neg x :: map neg K)) as [new [A [B D]]]. rewrite A.
  change ((neg p :: neg x :: map neg K) ++ map neg new) with (neg p :: neg x :: (map neg K ++ map neg new)).
  rewrite resolve_shape. rewrite <- map_app.
  set (L := map neg (K ++ new)). set (L' := match L with [] => [] | _ :: _ => last L lit_false :: removelast L end).
  assert (PL : Permutation L L') by (apply last_perm).
  assert (LN : exists K', L' = map neg K'). { exists (map neg L'). rewrite map_map. rewrite <- (map_id L') at 1. apply map_ext. intros. now rewrite neg_neg. }
  destruct LN as [K' LK]. rewrite LK in *.
  assert (PK : Permutation (K ++ new) K').
  { unfold L in PL. apply (Permutation_map neg) in PL. rewrite !map_map in PL. rewrite !(map_ext (fun x => neg (neg x)) (fun x => x) neg_neg), !map_id in PL. exact PL. }
  eexists _, K'. split; [reflexivity|].
  apply (pre_perm _ (K ++ new) K' R PK).
  assert (NW : forall q, In q new -> In q (v_trail E) /\ f_seen f (fst q) = false /\ fst q <> fst p /\ lv E q < lv E x /\ 0 < lv E q).
  { intros q Hq. apply B in Hq as [H1 H2]. destruct (RT q H1) as [R1 R2]. unfold seen in *. assert (N1 : fst q <> fst p) by (intros Z; rewrite (proj2 (S2 (fst q))) in H2; [discriminate|auto]).
    assert (N2 : f_seen f (fst q) = false). { destruct (f_seen f (fst q)) eqn:Z; auto. rewrite (proj2 (S2 (fst q))) in H2; [discriminate|auto]. }
    sp; auto; [destruct R2; [congruence|auto]|]. destruct (lv E q) eqn:L0; [|lia]. exfalso.
    assert (Z : f_seen f0 (fst q) = true) by (now apply (fo_seen _ _ FO q R1)). apply (pr_seen2 _ _ _ P) in Z. congruence. }
  assert (KX : NoDup (map fst (x :: K))). { pose proof (pr_nd _ _ _ P) as ND. cbn [map] in *. now inversion ND. }
  constructor.
  - intros v. cbn [clearSeen f_seen]. rewrite setf_spec. change (fst (neg p)) with (fst p). destruct (Nat.eqb v (fst p)) eqn:Ev; [discriminate|]. apply Nat.eqb_neq in Ev.
    cbn [unmarkLevel f_seen]. cbn [clearSeen f_seen]. rewrite setf_spec. change (fst (neg x)) with (fst x). destruct (Nat.eqb v (fst x)) eqn:Ex; [discriminate|]. apply Nat.eqb_neq in Ex.
    rewrite marks_seen. intros H. apply S2 in H as [H|H]; [congruence|]. destruct (pr_seen1 _ _ _ P v H) as [|H']; auto. right.
    rewrite map_app, in_app_iff. left. cbn in H'. destruct H'; [congruence|auto].
  - intros v Hv. cbn [clearSeen f_seen unmarkLevel]. rewrite !setf_spec. change (fst (neg p)) with (fst p). change (fst (neg x)) with (fst x).
    assert (v <> fst p). { intros ->. rewrite pos_not0 in Hv; auto; [discriminate|]. lia. }
    assert (v <> fst x). { intros ->. rewrite pos_not0 in Hv; [discriminate|apply (pr_tr _ _ _ P); cbn; auto|apply (pr_lv _ _ _ P x); cbn; auto]. }
    rewrite (proj2 (Nat.eqb_neq v (fst p))), (proj2 (Nat.eqb_neq v (fst x))) by auto. rewrite marks_seen. apply S2. right. now apply (pr_seen2 _ _ _ P).
  - intros l. cbn [clearSeen f_mark unmarkLevel]. rewrite setf_spec. destruct (Nat.eqb l (lv E (neg x))) eqn:El; [discriminate|]. apply Nat.eqb_neq in El. change (lv E (neg x)) with (lv E x) in El.
    rewrite marks_mark. intros H. apply orb_true_iff in H as [H|H].
    + unfold f2 in H. cbn [markSeen f_mark] in H. destruct (pr_mark1 _ _ _ P l H) as [H'|]; auto. left. cbn in H'. destruct H'; [congruence|]. rewrite map_app, in_app_iff. auto.
    + apply existsb_exists in H as [q [H1 H2]]. apply Nat.eqb_eq in H2. left. rewrite map_app, in_app_iff. right. subst l. now apply in_map.
  - intros q Hq. cbn [clearSeen f_mark unmarkLevel]. rewrite setf_spec. change (lv E (neg x)) with (lv E x).
    assert (LQ : lv E q < lv E x). { apply in_app_iff in Hq as [Hq|Hq]; [auto|now apply NW]. }
    rewrite (proj2 (Nat.eqb_neq (lv E q) (lv E x))) by lia. rewrite marks_mark. apply orb_true_iff.
    apply in_app_iff in Hq as [Hq|Hq]; [left|right].
    + unfold f2. cbn [markSeen f_mark]. apply (pr_mark2 _ _ _ P). cbn; auto.
    + apply existsb_exists. exists q. now rewrite Nat.eqb_refl.
  - cbn [map]. constructor.
    + rewrite map_app, in_app_iff. intros [H|H].
      * pose proof (pr_nd _ _ _ P) as ND. cbn [map] in ND. inversion ND as [|y m N1 N2]; subst. apply N1. cbn; auto.
      * apply in_map_iff in H as [q [H1 H2]]. apply NW in H2. destruct H2 as [_ [_ [H2 _]]]. congruence.
    + rewrite map_app. cbn in KX. inversion KX as [|y m N1 N2]; subst.
      assert (NN : NoDup (map fst new)). { apply D. now rewrite map_fst_neg. }
      assert (DJ : forall v, In v (map fst K) -> ~ In v (map fst new)).
      { intros v H1 H2. apply in_map_iff in H2 as [q [H2 H3]]. apply NW in H3 as H4. destruct H4 as [H4 [H5 [H6 [H7 H8]]]].
        apply in_map_iff in H1 as [q' [H1 H1']]. assert (q' = q). { apply (nd_eq G E TO); auto; [apply (pr_tr _ _ _ P); cbn; auto|congruence]. }
        subst q'. pose proof (KS q ltac:(cbn; auto)) as Z. unfold seen in Z. congruence. }
      apply nodup_app2; auto.
  - intros q. rewrite in_app_iff. intros [Hq|Hq]; [apply (pr_tr _ _ _ P); cbn; auto|now apply NW].
  - intros q. rewrite in_app_iff. pose proof (pr_lv _ _ _ P x ltac:(cbn; auto)). intros [Hq|Hq]; [apply (pr_lv _ _ _ P); cbn; auto|apply NW in Hq; lia].
  - intros a Ga. destruct (pr_ref _ _ _ P a Ga) as [q [[<-|[<-|Hq]] Hf]].
    + exists p. cbn; auto.
    + destruct (Vc a Ga) as [Z|[y [Y1 Y2]]]; [congruence|].
      assert (YN : In (neg y) (map neg c)) by (now apply in_map).
      assert (HY : holds a (neg y) = false) by (rewrite holds_neg, Y2; auto).
      destruct (seen f2 (neg y)) eqn:SY.
      * unfold seen in SY. apply S2 in SY as [SY|SY].
        -- exists p. split; [cbn; auto|]. rewrite <- (nd_eq G E TO (neg y) p); auto. now apply RT.
        -- destruct (pr_seen1 _ _ _ P _ SY) as [SY'|SY'].
           ++ exfalso. destruct (RT _ YN) as [YT _]. assert (LZ : lv E (neg y) = 0) by (now apply (fo_seen _ _ FO _ YT)).
              rewrite (to_top _ _ TO (neg y) a YT LZ Ga) in HY. discriminate.
           ++ apply in_map_iff in SY' as [z [Z1 Z2]]. assert (z = neg y). { apply (nd_eq G E TO); auto; [now apply (pr_tr _ _ _ P)|now apply RT]. }
              subst z. destruct Z2 as [Z2|Z2].
              ** exfalso. apply Nx. rewrite Z2. change (fst (neg y)) with (fst y). now apply in_map.
              ** exists (neg y). split; auto. right. apply in_app_iff. auto.
      * exists (neg y). split; auto. right. apply in_app_iff. right. apply B. auto.
    + exists q. split; auto. right. apply in_app_iff. auto.
Qed.

(** The loop of finalizeConflictClause *)
Definition lvr (l : nat) : nat := Nat.max (v_root E) l.
Lemma finLoop_spec : forall K i n, 
  (forall l, n_level n < l -> True) ->
  let n' := finLoop E o i (map neg K) n in
  (forall v, f_seen (n_f n') v = f_seen (n_f n) v && negb (memv v K)) /\
  (forall l, f_mark (n_f n') l = f_mark (n_f n) l && negb (existsb (fun q => Nat.eqb (lv E q) l) K)) /\
  n_max n' = fold_left (fun m q => Nat.max m (fst q)) K (n_max n) /\
  n_tag n' = n_tag n || existsb (lit_eqb (neg (o_tag o))) (map neg K) /\
  (forall q, In q K -> lv E q <= n_level n') /\ n_level n <= n_level n' /\
  (n_level n' = n_level n /\ n_pos n' = n_pos n \/ exists k, n_pos n' = i + k /\ k < length K /\ lv E (nth k K lit_true) = n_level n').
Proof.
  induction K as [|q K IH]; intros i n _; cbn [map finLoop].
  - cbn. sp; auto; try (intros; now rewrite andb_true_r); [now rewrite orb_false_r|easy].
  - set (n1 := fin1 E o i (neg q) n).
    assert (H1 : (forall v, f_seen (n_f n1) v = f_seen (n_f n) v && negb (Nat.eqb (fst q) v)) /\
                 (forall l, f_mark (n_f n1) l = f_mark (n_f n) l && negb (Nat.eqb (lv E q) l)) /\ n_max n1 = Nat.max (n_max n) (fst q) /\
                 n_tag n1 = n_tag n || lit_eqb (neg (o_tag o)) (neg q) /\
                 n_level n1 = Nat.max (n_level n) (lv E q) /\ n_pos n1 = if Nat.ltb (n_level n) (lv E q) then i else n_pos n).
    { unfold n1, fin1. change (lv E (neg q)) with (lv E q). change (fst (neg q)) with (fst q). rewrite (lit_eqb_sym (neg q)).
      destruct (Nat.ltb (n_level n) (lv E q)) eqn:L; [apply Nat.ltb_lt in L|apply Nat.ltb_ge in L]; cbn [clearSeen f_mark f_seen];
      (destruct (f_mark (n_f n) (lv E q)) eqn:Mk; [destruct (Nat.ltb (v_root E) (lv E q)) eqn:Rt|]);
      cbn [n_f n_max n_tag n_level n_pos unmarkLevel clearSeen f_seen f_mark]; sp; auto; try lia; try (intros v; rewrite ?setf_spec);
      try (change (fst (neg q)) with (fst q); rewrite (Nat.eqb_sym v (fst q)); destruct (Nat.eqb (fst q) v); [now rewrite andb_false_r|now rewrite andb_true_r]);
      try (rewrite (Nat.eqb_sym v (lv E q)); destruct (Nat.eqb (lv E q) v); [now rewrite andb_false_r|now rewrite andb_true_r]).
      all: destruct (Nat.eqb (lv E q) v) eqn:Z; [apply Nat.eqb_eq in Z; subst; rewrite Mk; reflexivity|now rewrite andb_true_r]. }
    destruct H1 as [A1 [A2 [A3 [A4 [A5 A6]]]]].
    destruct (IH (S i) n1 ltac:(auto)) as [B1 [B2 [B3 [B4 [B5 [B6 B7]]]]]]. sp.
    + intros v. rewrite B1, A1. cbn [memv existsb]. rewrite negb_orb. now rewrite andb_assoc.
    + intros l. rewrite B2, A2. cbn [existsb]. rewrite negb_orb. now rewrite andb_assoc.
    + rewrite B3, A3. reflexivity.
    + rewrite B4, A4. cbn [existsb]. now rewrite orb_assoc.
    + intros x [<-|Hx]; auto. lia.
    + lia.
    + destruct B7 as [[B7 B8]|[k [B7 [B8 B9]]]].
      * rewrite B8, A6. destruct (Nat.ltb (n_level n) (lv E q)) eqn:L.
        -- apply Nat.ltb_lt in L. right. exists 0. cbn [length nth]. sp; lia.
        -- apply Nat.ltb_ge in L. left. lia.
      * right. exists (S k). cbn [length nth]. sp; auto; lia.
Qed.

Lemma nodup_len_le : forall (A B : list nat), NoDup A -> incl A B -> length A <= length (nodup Nat.eq_dec B).
Proof. intros A B N I. apply NoDup_incl_length; auto. intros x Hx. apply nodup_In. auto. Qed.
(** lbd: marked levels are counted once, those up to the root level together *)
Lemma finLoop_lbd : forall K i n done, (forall q, In q K -> f_mark (n_f n) (lv E q) = true \/ In (lv E q) done) -> (forall l, In l done -> f_mark (n_f n) l = false) ->
  (forall q, In q K -> lv E q < dl E) -> (forall l, In l done -> l < dl E) -> v_root E < dl E ->
  n_lbd n = length (nodup Nat.eq_dec (map lvr (dl E :: done))) -> (n_root n = 0 <-> forall l, In l done -> v_root E < l) ->
  n_lbd (finLoop E o i (map neg K) n) = length (nodup Nat.eq_dec (map lvr (dl E :: done ++ map (lv E) K))).
Proof.
  induction K as [|q K IH]; intros i n done H1 H2 H3 H4 H5 H6 H7.
  - cbn [map finLoop]. rewrite app_nil_r. exact H6.
  - change (finLoop E o i (map neg (q :: K)) n) with (finLoop E o (S i) (map neg K) (fin1 E o i (neg q) n)).
    replace (dl E :: done ++ map (lv E) (q :: K)) with (dl E :: (done ++ [lv E q]) ++ map (lv E) K) by (rewrite <- app_assoc; reflexivity).
    assert (Lq : lv E q < dl E) by (apply H3; cbn; auto).
    assert (NDL : forall x l, In x l -> length (nodup Nat.eq_dec (l ++ [x])) = length (nodup Nat.eq_dec l)).
    { intros x l Hx. apply Nat.le_antisymm; apply NoDup_incl_length; try apply NoDup_nodup; intros y; rewrite !nodup_In, ?in_app_iff; cbn; intuition congruence. }
    assert (NDN : forall x l, ~ In x l -> length (nodup Nat.eq_dec (l ++ [x])) = S (length (nodup Nat.eq_dec l))).
    { intros x l Hx. assert (PP : Permutation (nodup Nat.eq_dec (l ++ [x])) (x :: nodup Nat.eq_dec l)).
      { apply NoDup_Permutation; [apply NoDup_nodup|constructor; [now rewrite nodup_In|apply NoDup_nodup]|]. intros y. cbn. rewrite !nodup_In, in_app_iff. cbn. intuition. }
      rewrite (Permutation_length PP). reflexivity. }
    assert (EM : map lvr (dl E :: done ++ [lv E q]) = map lvr (dl E :: done) ++ [lvr (lv E q)]) by (now rewrite app_comm_cons, map_app).
    set (n1 := fin1 E o i (neg q) n).
    destruct (f_mark (n_f n) (lv E q)) eqn:Mk.
    + assert (ND : ~ In (lv E q) done) by (intros Z; apply H2 in Z; congruence).
      assert (F1 : f_mark (n_f n1) = setf (f_mark (n_f n)) (lv E q) false /\
         (if Nat.ltb (v_root E) (lv E q) then n_lbd n1 = S (n_lbd n) /\ n_root n1 = n_root n
          else n_lbd n1 = (if Nat.eqb (n_root n) 0 then S (n_lbd n) else n_lbd n) /\ n_root n1 = S (n_root n))).
      { unfold n1, fin1. change (lv E (neg q)) with (lv E q). destruct (Nat.ltb (n_level n) (lv E q)); cbn [clearSeen f_mark]; rewrite Mk;
          destruct (Nat.ltb (v_root E) (lv E q)); cbn; auto. }
      destruct F1 as [F1 F2]. apply IH; auto.
      * intros x Hx. rewrite F1, setf_spec. destruct (Nat.eqb (lv E x) (lv E q)) eqn:Z.
        -- apply Nat.eqb_eq in Z. right. rewrite Z, in_app_iff. cbn; auto.
        -- destruct (H1 x) as [|K1]; [cbn; auto|auto|right; rewrite in_app_iff; auto].
      * intros l. rewrite in_app_iff, F1, setf_spec. intros [Hl|[<-|[]]]; [destruct (Nat.eqb l (lv E q)); auto|now rewrite Nat.eqb_refl].
      * intros x Hx. apply H3. cbn; auto.
      * intros l. rewrite in_app_iff. intros [Hl|[<-|[]]]; auto.
      * rewrite EM. destruct (Nat.ltb (v_root E) (lv E q)) eqn:Rt; destruct F2 as [F2 F3]; rewrite F2, H6.
        -- apply Nat.ltb_lt in Rt. rewrite NDN; auto. intros Z. apply in_map_iff in Z as [y [Z1 Z2]]. unfold lvr in Z1. destruct Z2 as [<-|Z2]; [lia|]. assert (y = lv E q) by lia. subst. contradiction.
        -- apply Nat.ltb_ge in Rt. destruct (Nat.eqb (n_root n) 0) eqn:R0.
           ++ apply Nat.eqb_eq in R0. rewrite NDN; auto. intros Z. apply in_map_iff in Z as [y [Z1 Z2]]. unfold lvr in Z1. destruct Z2 as [<-|Z2]; [lia|].
              apply (proj1 H7 R0) in Z2. lia.
           ++ apply Nat.eqb_neq in R0. rewrite NDL; auto. assert (EXL : exists l, In l done /\ l <= v_root E).
              { destruct (existsb (fun l => Nat.leb l (v_root E)) done) eqn:EX; [apply existsb_exists in EX as [l [X1 X2]]; apply Nat.leb_le in X2; eauto|].
                exfalso. apply R0, H7. intros l Hl. destruct (Nat.le_gt_cases l (v_root E)); auto. enough (false = true) by discriminate. rewrite <- EX. apply existsb_exists. exists l. split; auto. now apply Nat.leb_le. }
              destruct EXL as [l [L1 L2]]. apply in_map_iff. exists l. split; [unfold lvr; lia|cbn; auto].
      * destruct (Nat.ltb (v_root E) (lv E q)) eqn:Rt; destruct F2 as [F2 F3]; rewrite F3.
        -- apply Nat.ltb_lt in Rt. rewrite H7. split; intros W l; [rewrite in_app_iff; intros [Hl|[<-|[]]]; auto|intros Hl; apply W; rewrite in_app_iff; auto].
        -- apply Nat.ltb_ge in Rt. split; [discriminate|]. intros W. assert (v_root E < lv E q) by (apply W; rewrite in_app_iff; cbn; auto). lia.
    + assert (D1 : In (lv E q) done) by (destruct (H1 q (or_introl eq_refl)); [congruence|auto]).
      assert (F1 : f_mark (n_f n1) = f_mark (n_f n) /\ n_lbd n1 = n_lbd n /\ n_root n1 = n_root n).
      { unfold n1, fin1. change (lv E (neg q)) with (lv E q). destruct (Nat.ltb (n_level n) (lv E q)); cbn [clearSeen f_mark]; rewrite Mk; cbn; auto. }
      destruct F1 as [F1 [F2 F3]]. apply IH; rewrite ?F1, ?F2, ?F3; auto.
      * intros x Hx. destruct (H1 x) as [|K1]; [cbn; auto|auto|right; rewrite in_app_iff; auto].
      * intros l. rewrite in_app_iff. intros [Hl|[<-|[]]]; auto.
      * intros x Hx. apply H3. cbn; auto.
      * intros l. rewrite in_app_iff. intros [Hl|[<-|[]]]; auto.
      * rewrite EM, H6, NDL; auto. right. now apply in_map.
      * rewrite H7. split; intros W l; [rewrite in_app_iff; intros [Hl|[<-|[]]]; auto|intros Hl; apply W; rewrite in_app_iff; auto].
Qed.

End F.
