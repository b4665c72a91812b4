(** Proofs about PBBuilder. *)
From Coq Require Import List Bool Arith ZArith Lia Sorting.Sorted.
From Verif Require Import Base WcModel WcSpec WcProofs WcThms SbModel SbSpec SbProofs SbProofs2 PbModel PbSpec.
Import ListNotations.
Ltac sp := repeat match goal with |- _ /\ _ => split end.

Definition inc (l : list lit) : Prop := StronglySorted (fun x y : lit => fst x < fst y) l.
Lemma inc_snoc : forall l x, inc l -> (forall y, In y l -> fst y < fst x) -> inc (l ++ [x]).
Proof.
  unfold inc. induction l as [|y l IH]; intros x S H; cbn; [repeat constructor|]. inversion S as [|? ? S1 S2]; subst. constructor; [apply IH; auto; intros; apply H; now right|].
  apply Forall_app. split; auto. constructor; [apply H; now left|constructor].
Qed.
Lemma inc_eq : forall l m, inc l -> inc m -> (forall x, In x l <-> In x m) -> l = m.
Proof.
  unfold inc. induction l as [|x l IH]; intros [|y m] L M E; auto; [destruct (E y) as [_ X]; destruct X; now left|destruct (E x) as [X _]; destruct X; now left|].
  inversion L as [|? ? L1 L2]; inversion M as [|? ? M1 M2]; subst. rewrite Forall_forall in L2, M2.
  assert (XY : x = y). { destruct (E x) as [X _], (E y) as [_ Y]. destruct (X (or_introl eq_refl)) as [Q|Q]; auto. destruct (Y (or_introl eq_refl)) as [R|R]; auto. apply M2 in Q. apply L2 in R. lia. }
  subst y. f_equal. apply IH; auto. intros z. destruct (E z) as [X Y]. split; intros Z.
  - destruct (X (or_intror Z)) as [Q|Q]; auto. subst z. apply L2 in Z. lia.
  - destruct (Y (or_intror Z)) as [Q|Q]; auto. subst z. apply M2 in Z. lia.
Qed.
Lemma ins_in : forall x l y, In y (insertLit x l) <-> y = x \/ In y l.
Proof.
  induction l as [|z l IH]; intros y; [cbn; intuition|]. cbn [insertLit]. destruct (Nat.leb (key x) (key z)); [cbn; intuition|].
  change (In y (z :: insertLit x l)) with (z = y \/ In y (insertLit x l)). change (In y (z :: l)) with (z = y \/ In y l). rewrite IH. tauto.
Qed.
Lemma sort_in : forall l y, In y (sortLits l) <-> In y l.
Proof. induction l as [|x l IH]; intros y; cbn; [tauto|]. rewrite ins_in, IH. intuition. Qed.
Definition vsorted (l : list lit) : Prop := StronglySorted (fun x y : lit => fst x <= fst y) l.
Lemma ins_sorted : forall x l, StronglySorted (fun x y : lit => key x <= key y) l -> StronglySorted (fun x y : lit => key x <= key y) (insertLit x l).
Proof.
  induction l as [|y l IH]; intros S; [repeat constructor|]. cbn [insertLit]. inversion S as [|? ? S1 S2]; subst. destruct (Nat.leb_spec (key x) (key y)) as [L|L].
  - constructor; auto. constructor; auto. rewrite Forall_forall in *. intros z Z. specialize (S2 z Z). cbn beta in *. lia.
  - constructor; auto. rewrite Forall_forall in *. intros z Z. apply ins_in in Z as [-> |Z]; [lia|auto].
Qed.
Lemma sort_sorted : forall l, vsorted (sortLits l).
Proof.
  intros l. assert (S : StronglySorted (fun x y : lit => key x <= key y) (sortLits l)) by (induction l; [constructor|now apply ins_sorted]).
  unfold vsorted. induction S as [|x m S IH F]; constructor; auto. rewrite Forall_forall in *. intros y Y. specialize (F y Y). unfold key in F. destruct (snd x), (snd y); lia.
Qed.

(** productSubsumed *)
Record pinv (kept stale : list lit) (last : lit) (top : pasg) : Prop := {
  v_stale : forall x, In x stale -> isTrue top x = true \/ In x kept;
  v_kept : forall x, In x kept -> isTrue top x = false /\ isFalse top x = false;
  v_inc : inc kept;
  v_last : (kept = [] /\ last = (0, false)) \/ (In last kept /\ forall y, In y kept -> fst y <= fst last) }.
Lemma pinv_skip : forall kept stale last top x, pinv kept stale last top -> (isTrue top x = true \/ In x kept) -> pinv kept (stale ++ [x]) last top.
Proof. intros kept stale last top x [V1 V2 V3 V4] H. constructor; auto. intros y Y. apply in_app_iff in Y as [Y|[<- |[]]]; auto. Qed.
Lemma false_true : forall top x, isFalse top x = true -> isTrue top x = false. Proof. intros top x. unfold isFalse, isTrue. destruct (pval top x) as [[]|]; auto; discriminate. Qed.
Lemma isF_neg : forall top x, isFalse top (neg x) = isTrue top x. Proof. intros top [v s]. unfold isFalse, isTrue, pval, neg. cbn. destruct (top v) as [b|]; cbn; auto. destruct b, s; reflexivity. Qed.

Lemma prodLoop_ok : forall top, top 0 = Some true -> forall rest kept stale last, pinv kept stale last top ->
  match prodLoop top kept stale rest last with
  | PFalse => exists x, In x (kept ++ stale ++ rest) /\ (isFalse top x = true \/ (isTrue top x = false /\ In (neg x) (kept ++ stale ++ rest) /\ isTrue top (neg x) = false))
  | PUnsorted v => (forall x, In x v -> In x (kept ++ stale ++ rest)) /\ (forall x, In x (kept ++ stale ++ rest) -> isTrue top x = true \/ In x v) /\ ~ vsorted rest \/ exists y, In y rest /\ fst y < fst last /\ (forall x, In x v -> In x (kept ++ stale ++ rest)) /\ (forall x, In x (kept ++ stale ++ rest) -> isTrue top x = true \/ In x v)
  | PDone k => inc k /\ (forall x, In x k <-> In x (kept ++ stale ++ rest) /\ isTrue top x = false) /\ (forall x, In x (kept ++ stale ++ rest) -> isFalse top x = false)
  end.
Proof.
  intros top T0. induction rest as [|x rest IH]; intros kept stale last V; cbn [prodLoop].
  - destruct V as [V1 V2 V3 V4]. rewrite app_nil_r. split; auto. split.
    + intros x. split; [intros X; split; [apply in_app_iff; auto|now apply V2]|]. intros [X N]. apply in_app_iff in X as [X|X]; auto. apply V1 in X as [X|X]; auto; congruence.
    + intros x X. apply in_app_iff in X as [X|X]; [now apply V2|]. apply V1 in X as [X|X]; [|now apply V2]. destruct (isFalse top x) eqn:F; auto. apply false_true in F. congruence.
  - destruct (isFalse top x || lit_eqb (neg x) last) eqn:F.
    + apply orb_true_iff in F as [F|F].
      * exists x. split; auto. rewrite !in_app_iff. right; right; now left.
      * apply lit_eqb_eq in F. exists x. split; [rewrite !in_app_iff; right; right; now left|]. destruct V as [V1 V2 V3 [[V4 V5]|[V4 V5]]].
        -- left. rewrite V5 in F. destruct x as [v []]; cbn in F; [|discriminate]. injection F as ->. unfold isFalse, pval. cbn. rewrite T0. reflexivity.
        -- rewrite <- F in V4. destruct (isFalse top x) eqn:FX; auto. right. destruct (V2 _ V4) as [N1 N2]. rewrite isF_neg in N2. split; auto. split; auto. apply in_app_iff; auto.
    + apply orb_false_iff in F as [F1 F2]. apply lit_eqb_neq in F2. destruct (Nat.ltb_spec (fst x) (fst last)) as [L|L].
      * right. exists x. sp; auto; now left. 
      * destruct (negb (isTrue top x) && negb (lit_eqb last x)) eqn:K.
        -- apply andb_true_iff in K as [K1 K2]. apply negb_true_iff in K1, K2. apply lit_eqb_neq in K2.
           assert (NV : forall y, In y kept -> fst y < fst x). { intros y Y. destruct V as [V1 V2 V3 [[-> V5]|[V4 V5]]]; [destruct Y|]. specialize (V5 y Y). destruct (Nat.eq_dec (fst last) (fst x)) as [Q|Q]; [|lia]. exfalso. destruct last as [lv ls], x as [xv xs]. cbn in Q. subst xv. unfold neg in F2; cbn in F2; destruct ls, xs; cbn in F2; congruence. }
           set (stale' := match stale with [] => [] | _ :: s => s ++ [x] end).
           assert (V' : pinv (kept ++ [x]) stale' x top).
           { destruct V as [V1 V2 V3 V4]. constructor.
             - intros y Y. unfold stale' in Y. destruct stale as [|s0 s]; [destruct Y|]. apply in_app_iff in Y as [Y|[<- |[]]]; [|right; apply in_app_iff; right; now left]. destruct (V1 y (or_intror Y)); auto. right. apply in_app_iff; auto.
             - intros y Y. apply in_app_iff in Y as [Y|[<- |[]]]; auto.
             - apply inc_snoc; auto.
             - right. split; [apply in_app_iff; right; now left|]. intros y Y. apply in_app_iff in Y as [Y|[<- |[]]]; auto. specialize (NV y Y). lia. }
           assert (IN1 : forall z, In z ((kept ++ [x]) ++ stale' ++ rest) -> In z (kept ++ stale ++ x :: rest)). { intros z Z. rewrite !in_app_iff in *. cbn in *. unfold stale' in Z. destruct stale as [|s0 s]; cbn in Z; [tauto|]. rewrite in_app_iff in Z. cbn in Z. cbn. tauto. }
           assert (IN2 : forall z, In z (kept ++ stale ++ x :: rest) -> isTrue top z = true \/ In z ((kept ++ [x]) ++ stale' ++ rest)). { intros z Z. rewrite !in_app_iff in *. cbn in Z. cbn [In]. destruct Z as [Z|[Z|[Z|Z]]]; [right; left; left; exact Z| |right; left; right; left; exact Z|right; right; right; exact Z]. destruct (v_stale _ _ _ _ V z Z); auto. }
           specialize (IH _ _ _ V'). destruct (prodLoop top (kept ++ [x]) stale' rest x) as [|v|k].
           ++ destruct IH as [y [Y1 Y2]]. exists y. split; auto. destruct Y2 as [Y2|[Y2 [Y3 Y4]]]; auto.
           ++ destruct IH as [[A1 [A2 A3]]|[y [Y1 [Y2 [A1 A2]]]]].
              ** left. sp; auto; [intros z Z; apply IN2 in Z as [Z|Z]; auto|]. intros S. inversion S. auto.
              ** left. sp; auto; [intros z Z; apply IN2 in Z as [Z|Z]; auto|]. intros S. inversion S as [|? ? S1 S2]; subst. rewrite Forall_forall in S2. specialize (S2 y Y1). lia.
           ++ destruct IH as [A1 [A2 A3]]. sp; auto.
              ** intros z. rewrite A2. split; [intros [Z1 Z2]; auto|]. intros [Z1 Z2]. split; auto. apply IN2 in Z1 as [Z1|Z1]; auto. congruence.
              ** intros z Z. apply IN2 in Z as [Z|Z]; auto. destruct (isFalse top z) eqn:Q; auto. apply false_true in Q. congruence.
        -- assert (TX : isTrue top x = true \/ In x kept). { apply andb_false_iff in K as [K|K]; apply negb_false_iff in K; auto. apply lit_eqb_eq in K. subst last. destruct (v_last _ _ _ _ V) as [[_ Q]|[Q _]]; auto. left. subst x. unfold isTrue, pval. cbn. rewrite T0. reflexivity. }
           specialize (IH _ _ _ (pinv_skip _ _ _ _ _ V TX)). rewrite <- app_assoc in IH. cbn [app] in IH. destruct (prodLoop top kept (stale ++ [x]) rest last) as [|v|k]; auto.
           destruct IH as [[A1 [A2 A3]]|[y [Y1 [Y2 [A1 A2]]]]].
           ++ left. sp; auto. intros S. inversion S. auto.
           ++ right. exists y. sp; auto. now right.
Qed.
Lemma nil_pinv : forall top, pinv [] [] (0, false) top. Proof. intros top. constructor; [intros x []|intros x []|constructor|now left]. Qed.
(** the result, by the set of literals *)
Record psubOk (top : pasg) (lits : list lit) (r : psub) : Prop := {
  s_cases : (r = Subsumed (0, true) /\ exists x, In x lits /\ (isFalse top x = true \/ (isTrue top x = false /\ In (neg x) lits /\ isTrue top (neg x) = false))) \/
    (exists k, inc k /\ (forall x, In x k <-> In x lits /\ isTrue top x = false) /\ (forall x, In x lits -> isFalse top x = false) /\ r = match k with [] => Subsumed (0, false) | [l] => Subsumed l | _ => Product k end) }.
Lemma psub_one : forall top lits f r, top 0 = Some true -> productSubsumed (S f) top lits = Ok r ->
  psubOk top lits r \/ exists v, ~ vsorted lits /\ (forall x, In x v -> In x lits) /\ (forall x, In x lits -> isTrue top x = true \/ In x v) /\ productSubsumed f top (sortLits v) = Ok r.
Proof.
  intros top lits f r T0 E. cbn [productSubsumed] in E. pose proof (prodLoop_ok top T0 lits [] [] (0, false) (nil_pinv top)) as P. destruct (prodLoop top [] [] lits (0, false)) as [|v|k]; cbn [app] in P.
  - injection E as <-. left. constructor. left. auto.
  - right. exists v. destruct P as [[A1 [A2 A3]]|[y [Y1 [Y2 _]]]]; [auto|cbn in Y2; lia].
  - left. constructor. right. exists k. destruct P as [A1 [A2 A3]]. sp; auto. destruct k as [|l [|l2 k]]; injection E as <-; reflexivity.
Qed.
Lemma psub_ok : forall top lits r, top 0 = Some true -> productSubsumed 2 top lits = Ok r -> psubOk top lits r.
Proof.
  intros top lits r T0 E. destruct (psub_one top lits 1 r T0 E) as [P|[v [_ [V1 [V2 E2]]]]]; auto. destruct (psub_one top _ 0 r T0 E2) as [P|[w [W _]]]; [|exfalso; apply W, sort_sorted].
  destruct P as [[[-> [x [X1 X2]]]|[k [K1 [K2 [K3 K4]]]]]]; constructor.
  - left. split; auto. rewrite sort_in in X1. exists x. split; auto. destruct X2 as [X2|[X2 [X3 X4]]]; auto. rewrite sort_in in X3. auto.
  - right. exists k. sp; auto.
    + intros x. rewrite K2, sort_in. split; intros [A B]; split; auto. apply V2 in A as [A|A]; auto; congruence.
    + intros x X. apply V2 in X as [X|X]; [|apply K3, sort_in; auto]. destruct (isFalse top x) eqn:F; auto. apply false_true in F. congruence.
Qed.
Lemma psub_total : forall top lits, top 0 = Some true -> exists r, productSubsumed 2 top lits = Ok r.
Proof.
  intros top lits T0. cbn [productSubsumed]. destruct (prodLoop top [] [] lits (0, false)) as [|v|[|l [|l2 k]]]; eauto.
  pose proof (prodLoop_ok top T0 (sortLits v) [] [] (0, false) (nil_pinv top)) as P. destruct (prodLoop top [] [] (sortLits v) (0, false)) as [|w|[|l [|l2 k]]]; eauto.
  exfalso. destruct P as [[_ [_ N]]|[y [_ [Y _]]]]; [apply N, sort_sorted|cbn in Y; lia].
Qed.
Lemma inc_no_compl : forall k x, inc k -> In x k -> ~ In (neg x) k.
Proof. intros k x I X N. unfold inc in I. induction I as [|y k I IH F]; [destruct X|]. rewrite Forall_forall in F. destruct X as [-> |X], N as [N|N]; auto. - destruct x as [v []]; discriminate. - apply F in N. cbn in N. lia. - subst y. apply F in X. cbn in X. lia. Qed.
Lemma psub_det : forall top1 top2 l1 l2 r1 r2, top1 0 = Some true -> top2 0 = Some true -> sameLits l1 l2 -> (forall x, In x l1 -> top1 (fst x) = top2 (fst x)) ->
  productSubsumed 2 top1 l1 = Ok r1 -> productSubsumed 2 top2 l2 = Ok r2 -> r1 = r2.
Proof.
  intros top1 top2 l1 l2 r1 r2 T1 T2 SL TT E1 E2. apply psub_ok in E1, E2; auto. destruct E1 as [E1], E2 as [E2].
  assert (V : forall x, In x l1 -> isTrue top1 x = isTrue top2 x /\ isFalse top1 x = isFalse top2 x) by (intros x X; unfold isTrue, isFalse, pval; now rewrite TT).
  assert (BAD : forall top l k x, inc k -> (forall x, In x k <-> In x l /\ isTrue top x = false) -> (forall x, In x l -> isFalse top x = false) -> In x l -> (isFalse top x = true \/ (isTrue top x = false /\ In (neg x) l /\ isTrue top (neg x) = false)) -> False).
  { intros top l k x K1 K2 K3 X [Q|[Q1 [Q2 Q3]]]; [rewrite K3 in Q; auto; discriminate|]. apply (inc_no_compl k x); auto; apply K2; auto. }
  destruct E1 as [[-> [x [X1 X2]]]|[k1 [A1 [A2 [A3 ->]]]]], E2 as [[-> [y [Y1 Y2]]]|[k2 [B1 [B2 [B3 ->]]]]]; auto.
  - exfalso. apply (BAD top2 l2 k2 x); auto; [now apply SL|]. destruct (V x X1) as [V1 V2]. rewrite <- V1, <- V2. destruct X2 as [X2|[X2 [X3 X4]]]; auto. right. destruct (V _ X3) as [V3 _]. rewrite <- V3. sp; auto. now apply SL.
  - exfalso. apply (BAD top1 l1 k1 y); auto; [now apply SL|]. apply SL in Y1. destruct (V y Y1) as [V1 V2]. rewrite V1, V2. destruct Y2 as [Y2|[Y2 [Y3 Y4]]]; auto. right. apply SL in Y3. destruct (V _ Y3) as [V3 _]. rewrite V3. auto.
  - assert (k1 = k2); [|now subst]. apply inc_eq; auto. intros x. rewrite A2, B2. split; intros [X1 X2].
    + destruct (V x X1) as [V1 _]. rewrite <- V1. split; auto. now apply SL.
    + apply SL in X1. destruct (V x X1) as [V1 _]. rewrite V1. auto.
Qed.
Lemma ext_true : forall a top x, extends a top -> isTrue top x = true -> holds a x = true.
Proof. intros a top x E T. unfold isTrue, pval in T. destruct (top (fst x)) as [b|] eqn:B; cbn in T; [|discriminate]. apply E in B. unfold holds. rewrite B. now destruct (xorb b (snd x)). Qed.
Lemma ext_false : forall a top x, extends a top -> isFalse top x = true -> holds a x = false.
Proof. intros a top x E T. unfold isFalse, pval in T. destruct (top (fst x)) as [b|] eqn:B; cbn in T; [|discriminate]. apply E in B. unfold holds. rewrite B. now destruct (xorb b (snd x)). Qed.
Lemma forallb_ext_in : forall (a : asg) l k, (forall x, In x k -> In x l) -> (forall x, In x l -> holds a x = true \/ In x k) -> forallb (holds a) l = forallb (holds a) k.
Proof.
  intros a l k I J. destruct (forallb (holds a) k) eqn:K.
  - apply forallb_forall. intros x X. rewrite forallb_forall in K. destruct (J x X); auto.
  - rewrite <- not_true_iff_false in *. intros L. apply K. apply forallb_forall. intros x X. rewrite forallb_forall in L. auto.
Qed.
Lemma forallb_false : forall (a : asg) l x, In x l -> holds a x = false -> forallb (holds a) l = false.
Proof. intros a l x X F. rewrite <- not_true_iff_false. intros L. rewrite forallb_forall in L. apply L in X. congruence. Qed.
Lemma psub_sem : forall top lits r a, a 0 = true -> extends a top -> psubOk top lits r ->
  forallb (holds a) lits = match r with Subsumed l => holds a l | Product k => forallb (holds a) k end.
Proof.
  intros top lits r a Z0 E [[[-> [x [X1 X2]]]|[k [K1 [K2 [K3 ->]]]]]].
  - transitivity false; [|unfold holds; cbn; now rewrite Z0]. destruct X2 as [X2|[X2 [X3 X4]]]; [eapply forallb_false; eauto; eapply ext_false; eauto|].
    destruct (holds a x) eqn:H; [eapply (forallb_false a lits (neg x)); auto; now rewrite holds_neg', H|exact (forallb_false a lits x X1 H)].
  - assert (Q : forallb (holds a) lits = forallb (holds a) k). { apply forallb_ext_in; [intros x X; now apply K2|]. intros x X. destruct (isTrue top x) eqn:T; [left; eapply ext_true; eauto|right; apply K2; auto]. }
    rewrite Q. destruct k as [|l [|l2 k]]; cbn; auto; [unfold holds; cbn; now rewrite Z0|apply andb_true_r].
Qed.
