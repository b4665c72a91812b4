(** Proofs: minimisation of conflict clauses. *)
From Coq Require Import List Bool Arith Lia Permutation.
From Verif Require Import Base ClModel CaModel CaSpec CaProofs.
Import ListNotations.

Section M.
Variable G : asg -> Prop.
Variable E : env.
Hypothesis TO : trail_ok G E.
Variable f0 : fl.
Hypothesis FO : flags_ok E f0.
Hypothesis DL : 0 < dl E.
Variable f : fl.
Variable C : list lit.
Hypothesis M : marked E f0 f [] C.
Variable o : opt.
Let red := redundant E (o_antes o) C.

Lemma seen_iff : forall q, q = lit_true \/ In q (v_trail E) -> (seen f q = true <-> top E q \/ In q C).
Proof.
  intros q A. split.
  - intros B. apply (seen_cases G E TO f0 FO DL f [] C q M A B).
  - intros [B|B].
    + unfold seen. rewrite (mk_seen _ _ _ _ _ M). apply orb_true_iff. left. now apply (top_seen0 E f0 FO q).
    + now apply (marked_seen E f0 f [] C q M).
Qed.
Lemma mark_iff : forall l, f_mark f l = true <-> In l (map (lv E) C).
Proof.
  intros l. rewrite (mk_mark _ _ _ _ _ M), existsb_exists, in_map_iff. split; intros [q [A B]]; exists q.
  - apply Nat.eqb_eq in B. auto.
  - split; auto. now apply Nat.eqb_eq.
Qed.
Lemma usable_spec : forall x r, usable E o x = Some r <-> rs E x = Some r /\ o_antes o <= v_ty E (fst x).
Proof.
  intros x r. unfold usable. destruct (rs E x) as [r'|]; [|split; [discriminate|intros [[=] _]]].
  destruct (Nat.leb (o_antes o) (v_ty E (fst x))) eqn:L; split.
  - intros [= ->]. split; auto. now apply Nat.leb_le.
  - intros [[= ->] _]. auto.
  - discriminate.
  - intros [_ A]. apply Nat.leb_gt in L. lia.
Qed.
Lemma reason_in : forall x r q, In x (v_trail E) -> usable E o x = Some r -> In q r -> q = lit_true \/ In q (v_trail E).
Proof. intros x r q A B D. apply usable_spec in B as [B _]. eapply earlier_in. apply (to_reason _ _ TO x r q A B D). Qed.
Lemma red_inv : forall x, In x (v_trail E) -> red x -> exists r, usable E o x = Some r /\
  forall q, In q r -> seen f q = true \/ f_mark f (lv E q) = true /\ red q.
Proof.
  intros x A B. inversion B as [y r R1 R2 R3 R4]; subst. exists r. assert (U : usable E o x = Some r) by (apply usable_spec; auto).
  split; auto. intros q Hq. destruct (seen f q) eqn:S; auto. right.
  assert (N : ~ (top E q \/ In q C)). { intros K. apply (seen_iff q) in K; [congruence|]. eapply reason_in; eauto. }
  split; [apply mark_iff; auto|apply R4; auto].
Qed.
Lemma red_intro : forall x r, In x (v_trail E) -> usable E o x = Some r ->
  (forall q, In q r -> seen f q = true \/ f_mark f (lv E q) = true /\ red q) -> red x.
Proof.
  intros x r A U H. pose proof (proj1 (usable_spec x r) U) as [R1 R2]. apply (Redundant _ _ _ x r); auto; intros q Hq N.
  - destruct (H q Hq) as [S|[S _]]; [|now apply mark_iff]. exfalso. apply N. apply (seen_iff q); auto. eapply reason_in; eauto.
  - destruct (H q Hq) as [S|[_ S]]; auto. exfalso. apply N. apply (seen_iff q); auto. eapply reason_in; eauto.
Qed.

(** The order of the trail *)
Definition bef (x y : lit) : Prop := exists t1 t2, v_trail E = t1 ++ y :: t2 /\ In x t1.
Lemma bef_trans : forall x y z, bef x y -> bef y z -> bef x z.
Proof.
  intros x y z [t1 [t2 [A B]]] [u1 [u2 [A' B']]]. exists u1, u2. split; auto.
  apply in_split in B' as [w1 [w2 ->]]. rewrite <- app_assoc in A'. cbn in A'.
  destruct (nodup_split_uniq _ _ _ _ _ _ (to_nodup _ _ TO) A A') as [<- _]. apply in_app_iff. auto.
Qed.
Lemma bef_irrefl : forall x, ~ bef x x.
Proof.
  intros x [t1 [t2 [A B]]]. pose proof (to_nodup _ _ TO) as ND. rewrite A, map_app in ND. cbn in ND. apply NoDup_remove_2 in ND.
  apply ND. rewrite in_app_iff. left. now apply in_map.
Qed.
Lemma bef_in : forall x y, bef x y -> In x (v_trail E) /\ In y (v_trail E).
Proof. intros x y [t1 [t2 [A B]]]. rewrite A, !in_app_iff. cbn. auto. Qed.
Definition child (x y : lit) : Prop := exists r, usable E o y = Some r /\ In x r /\ seen f x = false.
Lemma child_bef : forall x y, In y (v_trail E) -> child x y -> bef x y.
Proof.
  intros x y A [r [B [D S]]]. apply usable_spec in B as [B _]. destruct (to_reason _ _ TO y r x A B D) as [->|K]; auto.
  exfalso. unfold seen in S. rewrite (mk_seen _ _ _ _ _ M) in S. cbn [fst lit_true] in S. rewrite (fo_seen0 _ _ FO) in S. discriminate.
Qed.

(** The stack *)
Fixpoint par (l : list (lit * bool)) : option lit :=
  match l with [] => None | (x, true) :: _ => Some x | (_, false) :: l => par l end.
Variable p : lit.
Hypothesis Pt : In p (v_trail E).
Hypothesis Ps : seen f p = true.
Inductive stk : list (lit * bool) -> Prop :=
| stk_base : forall b, stk [(p, b)]
| stk_cons : forall x b y l, stk l -> par l = Some y -> child x y -> stk ((x, b) :: l).
Lemma par_in : forall l y, par l = Some y -> In (y, true) l.
Proof. induction l as [|[x []] l IH]; intros y H; [discriminate|injection H as ->; cbn; auto|right; auto]. Qed.
Lemma stk_trail : forall l, stk l -> forall x b, In (x, b) l -> In x (v_trail E).
Proof.
  intros l S. induction S as [b|x b y l S IH P Ch]; intros z c H.
  - destruct H as [[= -> ->]|[]]; auto.
  - destruct H as [[= -> ->]|H]; [|eauto]. apply (bef_in z y). apply child_bef; auto. eapply IH, par_in, P.
Qed.
Lemma stk_flag_par : forall l, stk l -> forall y, par l = Some y -> forall z, In (z, true) l -> z = y \/ bef y z.
Proof.
  intros l S. induction S as [b|x b y l S IH P Ch]; intros w H z Hz.
  - destruct Hz as [[= -> ->]|[]]. cbn in H. injection H as ->. auto.
  - destruct b; cbn in H.
    + injection H as ->. destruct Hz as [[= ->]|Hz]; auto. right. assert (B : bef w y). { apply child_bef; auto. eapply stk_trail, par_in; eauto. }
      destruct (IH y P z Hz) as [->|]; auto. eapply bef_trans; eauto.
    + destruct Hz as [[=]|Hz]. apply IH; auto.
Qed.
Lemma stk_flag : forall x b l, stk ((x, b) :: l) -> forall z, In (z, true) l -> bef x z.
Proof.
  intros x b l S z Hz. inversion S as [b'|x' b' y l' S' P Ch]; subst; [easy|].
  assert (B : bef x y). { apply child_bef; auto. eapply stk_trail, par_in; eauto. }
  destruct (stk_flag_par _ S' y P z Hz) as [->|]; auto. eapply bef_trans; eauto.
Qed.
Lemma stk_bottom : forall l, stk l -> par l <> None -> In (p, true) l.
Proof.
  intros l S. induction S as [b|x b y l S IH P Ch]; intros H.
  - destruct b; [cbn; auto|cbn in H; congruence].
  - right. apply IH. congruence.
Qed.
Lemma stk_neq : forall x b y l, stk l -> par l = Some y -> child x y -> stk ((x, b) :: l) -> x <> p.
Proof.
  intros x b y l S P Ch S' ->. apply (bef_irrefl p). eapply stk_flag; eauto. apply stk_bottom; congruence.
Qed.
Lemma stk_poison : forall l, stk l -> forall y, par l = Some y -> ~ red y -> forall z, In (z, true) l -> ~ red z.
Proof.
  intros l S. induction S as [b|x b y l S IH P Ch]; intros w H N z Hz.
  - destruct Hz as [[= -> ->]|[]]. cbn in H. injection H as ->. auto.
  - destruct b; cbn in H.
    + injection H as ->. destruct Hz as [[= ->]|Hz]; auto. apply (IH y P); auto. intros R.
      destruct (red_inv y) as [r [U1 U2]]; auto. { eapply stk_trail, par_in; eauto. }
      destruct Ch as [r' [V1 [V2 V3]]]. assert (r' = r) by congruence. subst r'. destruct (U2 w V2) as [|[_ X]]; [congruence|auto].
    + destruct Hz as [[=]|Hz]. eapply IH; eauto.
Qed.
Lemma child_poison : forall x y, In y (v_trail E) -> child x y -> ~ red x -> ~ red y.
Proof.
  intros x y A Ch N R. destruct (red_inv y A R) as [r [U1 U2]]. destruct Ch as [r' [V1 [V2 V3]]].
  assert (r' = r) by congruence. subst r'. destruct (U2 x V2) as [|[_ X]]; [congruence|auto].
Qed.

Definition epOk (ep : nat -> dst) : Prop :=
  (forall v, ep v <> Open -> f_seen f v = false) /\
  (forall x, In x (v_trail E) -> ep (fst x) = Removable -> red x) /\ (forall x, In x (v_trail E) -> ep (fst x) = Poison -> ~ red x).
Record dinv (ep : nat -> dst) (todo : list (lit * bool)) (ok : bool) : Prop := {
  di_ep : epOk ep;
  di_stk : stk todo;
  di_ok : ok = true -> forall l1 y l2, todo = l1 ++ (y, true) :: l2 -> exists r, usable E o y = Some r /\
           forall q, In q r -> seen f q = true \/ f_mark f (lv E q) = true /\ (red q \/ In q (map fst l1));
  di_bad : ok = false -> par todo <> None /\ forall y, In (y, true) todo -> ~ red y }.

Lemma visit_spec : forall ep r todo, epOk ep -> (forall q, In q r -> q = lit_true \/ In q (v_trail E)) ->
  exists new, snd (visit E f ep r todo) = map (fun q => (q, false)) new ++ todo /\ length new <= length r /\
    (forall q, In q new -> In q r /\ seen f q = false) /\
    (fst (visit E f ep r todo) = true -> forall q, In q r -> seen f q = true \/ f_mark f (lv E q) = true /\ (red q \/ In q new)) /\
    (fst (visit E f ep r todo) = false -> exists q, In q r /\ seen f q = false /\ (f_mark f (lv E q) = true -> ~ red q)).
Proof.
  intros ep r. induction r as [|q r IH]; intros todo EO T; cbn [visit].
  - exists []. cbn. sp; auto; easy.
  - assert (T' : forall x, In x r -> x = lit_true \/ In x (v_trail E)) by (intros; apply T; cbn; auto).
    destruct (seen f q) eqn:S.
    + destruct (IH todo EO T') as [new [A [B [D [H1 H2]]]]]. exists new. cbn [length]. sp; auto.
      * intros x Hx. destruct (D x Hx). cbn; auto.
      * intros K x [<-|Hx]; auto.
      * intros K. destruct (H2 K) as [x [X1 [X2 X3]]]. exists x. cbn. auto.
    + destruct (f_mark f (lv E q)) eqn:Mk.
      * assert (Qt : In q (v_trail E)). { destruct (T q (or_introl eq_refl)) as [->|]; auto. exfalso.
          unfold seen in S. rewrite (mk_seen _ _ _ _ _ M) in S. cbn [fst lit_true] in S. rewrite (fo_seen0 _ _ FO) in S. discriminate. }
        destruct (ep (fst q)) eqn:Ep.
        -- destruct (IH ((q, false) :: todo) EO T') as [new [A [B [D [H1 H2]]]]]. exists (new ++ [q]). sp; auto.
           ++ rewrite A, map_app, <- app_assoc. reflexivity.
           ++ rewrite app_length. cbn. lia.
           ++ intros x. rewrite in_app_iff. intros [Hx|[<-|[]]]; [destruct (D x Hx); cbn; auto|cbn; auto].
           ++ intros K x [<-|Hx]; [right; split; auto; right; apply in_app_iff; cbn; auto|].
              destruct (H1 K x Hx) as [|[? [?|?]]]; auto. right. split; auto. right. apply in_app_iff. auto.
           ++ intros K. destruct (H2 K) as [x [X1 [X2 X3]]]. exists x. cbn. auto.
        -- destruct (IH todo EO T') as [new [A [B [D [H1 H2]]]]]. exists new. cbn [length]. sp; auto.
           ++ intros x Hx. destruct (D x Hx). cbn; auto.
           ++ intros K x [<-|Hx]; auto. right. split; auto. left. now apply EO.
           ++ intros K. destruct (H2 K) as [x [X1 [X2 X3]]]. exists x. cbn. auto.
        -- exists []. cbn. sp; auto; try easy; try lia. intros _. exists q. sp; auto. intros _. now apply EO.
      * exists []. cbn. sp; auto; try easy; try lia. intros _. exists q. sp; auto. congruence.
Qed.

(** Termination *)
Definition flagged (todo : list (lit * bool)) (x : lit) : bool := existsb (fun e => snd e && lit_eqb (fst e) x) todo.
Lemma flagged_in : forall todo x, flagged todo x = true <-> In (x, true) todo.
Proof.
  intros todo x. unfold flagged. rewrite existsb_exists. split.
  - intros [[y b] [A B]]. cbn in B. apply andb_true_iff in B as [-> B]. apply lit_eqb_eq in B. now subst.
  - intros A. exists (x, true). split; auto. cbn. apply lit_eqb_refl.
Qed.
Definition isOpen (d : dst) : bool := match d with Open => true | _ => false end.
Definition cost1 (ep : nat -> dst) (todo : list (lit * bool)) (x : lit) : nat :=
  if isOpen (ep (fst x)) && negb (flagged todo x) then 2 + rsize E x else 0.
Definition cost (ep : nat -> dst) (todo : list (lit * bool)) : nat :=
  list_sum (map (cost1 ep todo) (v_trail E)) + length todo.
Lemma sum_le : forall (l : list lit) (g h : lit -> nat), (forall x, In x l -> g x <= h x) -> list_sum (map g l) <= list_sum (map h l).
Proof. induction l as [|x l IH]; intros g h H; [cbn; auto|]. change (g x + list_sum (map g l) <= h x + list_sum (map h l)). pose proof (H x (or_introl eq_refl)). pose proof (IH g h ltac:(intros; apply H; cbn; auto)). lia. Qed.
Lemma sum_le_at : forall (l : list lit) (g h : lit -> nat) y k, In y l -> (forall x, In x l -> g x <= h x) -> g y + k <= h y -> list_sum (map g l) + k <= list_sum (map h l).
Proof.
  induction l as [|x l IH]; intros g h y k Hy H K; [easy|]. change (g x + list_sum (map g l) + k <= h x + list_sum (map h l)). destruct Hy as [->|Hy].
  - pose proof (sum_le l g h ltac:(intros; apply H; cbn; auto)). lia.
  - pose proof (H x (or_introl eq_refl)). pose proof (IH g h y k Hy ltac:(intros; apply H; cbn; auto) K). lia.
Qed.
Lemma cost_pop : forall ep x b l d, In x (v_trail E) -> b = false \/ d <> Open ->
  (b = false -> d = ep (fst x)) -> cost (setd ep (fst x) d) l < cost ep ((x, b) :: l).
Proof.
  intros ep x b l d Xt H1 H2. unfold cost. cbn [length].
  enough (list_sum (map (cost1 (setd ep (fst x) d) l) (v_trail E)) <= list_sum (map (cost1 ep ((x, b) :: l)) (v_trail E))) by lia.
  apply sum_le. intros z Hz. unfold cost1. cbn [flagged existsb fst snd]. fold (flagged l z). unfold setd.
  destruct (Nat.eqb (fst z) (fst x)) eqn:Ez.
  - apply Nat.eqb_eq in Ez. pose proof (nd_eq G E TO z x Hz Xt Ez). subst z. destruct b.
    + destruct H1 as [|H1]; [discriminate|]. destruct d; [congruence|cbn; lia|cbn; lia].
    + rewrite (H2 eq_refl). cbn [andb orb]. lia.
  - rewrite (proj2 (lit_eqb_neq x z)); [rewrite andb_false_r; cbn [orb]; lia|]. intros ->. now rewrite Nat.eqb_refl in Ez.
Qed.
Lemma cost_push : forall ep x l new, In x (v_trail E) -> ep (fst x) = Open -> ~ In (x, true) l -> length new <= rsize E x ->
  cost ep (map (fun q => (q, false)) new ++ (x, true) :: l) < cost ep ((x, false) :: l).
Proof.
  intros ep x l new Xt Ep N L. unfold cost. rewrite app_length, map_length. cbn [length].
  enough (list_sum (map (cost1 ep (map (fun q => (q, false)) new ++ (x, true) :: l)) (v_trail E)) + (2 + rsize E x) <=
          list_sum (map (cost1 ep ((x, false) :: l)) (v_trail E))) by lia.
  assert (FL : forall z, flagged (map (fun q => (q, false)) new ++ (x, true) :: l) z = lit_eqb x z || flagged l z).
  { intros z. unfold flagged. rewrite existsb_app. cbn [existsb fst snd andb]. rewrite orb_assoc. f_equal.
    replace (existsb _ (map (fun q => (q, false)) new)) with false; auto. symmetry. clear L. induction new; cbn; auto. }
  apply (sum_le_at _ _ _ x); auto.
  - intros z Hz. unfold cost1. rewrite FL. cbn [flagged existsb fst snd andb orb]. fold (flagged l z).
    destruct (lit_eqb x z); cbn [orb negb]; [rewrite andb_false_r; apply Nat.le_0_l|apply Nat.le_refl].
  - unfold cost1. rewrite FL, lit_eqb_refl. cbn [orb negb flagged existsb fst snd andb]. fold (flagged l x). rewrite andb_false_r, Ep.
    destruct (flagged l x) eqn:F; [apply flagged_in in F; contradiction|]. cbn. lia.
Qed.

Lemma epOk_set : forall ep x d, epOk ep -> In x (v_trail E) -> seen f x = false -> (d = Removable -> red x) -> (d = Poison -> ~ red x) -> epOk (setd ep (fst x) d).
Proof.
  intros ep x d [A [B D]] Xt S H1 H2. unfold epOk, setd. sp.
  - intros v. destruct (Nat.eqb v (fst x)) eqn:Ev; auto. apply Nat.eqb_eq in Ev. subst v. intros _. exact S.
  - intros z Hz. destruct (Nat.eqb (fst z) (fst x)) eqn:Ev; auto. apply Nat.eqb_eq in Ev. rewrite (nd_eq G E TO z x Hz Xt Ev). auto.
  - intros z Hz. destruct (Nat.eqb (fst z) (fst x)) eqn:Ev; auto. apply Nat.eqb_eq in Ev. rewrite (nd_eq G E TO z x Hz Xt Ev). auto.
Qed.
Lemma setd_same : forall ep v, (fun u => setd ep v (ep v) u) = setd ep v (ep v). Proof. reflexivity. Qed.
Lemma cost_drop : forall ep x l, In x (v_trail E) -> cost ep l < cost ep ((x, false) :: l).
Proof.
  intros ep x l Xt. pose proof (cost_pop ep x false l (ep (fst x)) Xt (or_introl eq_refl) (fun _ => eq_refl)) as A.
  enough (cost ep l = cost (setd ep (fst x) (ep (fst x))) l) by lia. unfold cost. f_equal. f_equal. apply map_ext. intros z.
  unfold cost1, setd. destruct (Nat.eqb (fst z) (fst x)) eqn:Ez; auto. apply Nat.eqb_eq in Ez. now rewrite Ez.
Qed.

Lemma dfs_spec : forall fuel ep todo ok, dinv ep todo ok -> cost ep todo < fuel ->
  exists b ep', dfs fuel E o f p ep todo ok = Ok (b, ep') /\ (b = true <-> red p) /\ epOk ep'.
Proof.
  induction fuel as [|fuel IH]; intros ep todo ok I Hc; [lia|]. cbn [dfs].
  pose proof (di_stk _ _ _ I) as S. destruct todo as [|[x b] l]; [inversion S|].
  assert (Xt : In x (v_trail E)) by (eapply (stk_trail _ S); cbn; eauto).
  destruct b.
  - destruct (lit_eqb x p) eqn:Exp.
    + apply lit_eqb_eq in Exp. subst x. exists ok, ep. sp; auto; [|apply (di_ep _ _ _ I)].
      destruct ok.
      * split; auto. intros _. destruct (di_ok _ _ _ I eq_refl [] p l eq_refl) as [r [U H]]. apply (red_intro p r); auto.
        intros q Hq. destruct (H q Hq) as [|[? [?|[]]]]; auto.
      * split; [discriminate|]. intros R. exfalso. eapply (proj2 (di_bad _ _ _ I eq_refl) p); cbn; auto.
    + apply lit_eqb_neq in Exp. inversion S as [b'|x' b' y l' S' P Ch]; subst; [congruence|].
      destruct Ch as [r0 [Ch1 [Ch2 Sx]]].
      assert (RX : ok = true -> red x). { intros ->. destruct (di_ok _ _ _ I eq_refl [] x l eq_refl) as [r [U H]]. apply (red_intro x r); auto.
        intros q Hq. destruct (H q Hq) as [|[? [?|[]]]]; auto. }
      assert (NX : ok = false -> ~ red x). { intros ->. apply (proj2 (di_bad _ _ _ I eq_refl) x). cbn; auto. }
      apply IH.
      * constructor.
        -- apply epOk_set; auto; [apply (di_ep _ _ _ I)| |]; destruct ok; intros; try discriminate; auto.
        -- exact S'.
        -- intros K l1 z l2 Hl. destruct (di_ok _ _ _ I K ((x, true) :: l1) z l2) as [r [U H]]; [cbn; congruence|].
           exists r. split; auto. intros q Hq. destruct (H q Hq) as [|[? [?|[<-|?]]]]; auto.
        -- intros K. split; [congruence|]. intros z Hz. apply (proj2 (di_bad _ _ _ I K)). cbn; auto.
      * assert (cost (setd ep (fst x) (if ok then Removable else Poison)) l < cost ep ((x, true) :: l)); [|lia].
        apply cost_pop; auto; [right; destruct ok; discriminate|discriminate].
  - destruct ok.
    + assert (KP : ep (fst x) <> Open -> exists y, stk l /\ par l = Some y /\ child x y).
      { intros K. inversion S as [b'|x' b' y l' S' P Ch]; subst; [|eauto]. exfalso. apply (di_ep _ _ _ I) in K. unfold seen in Ps. congruence. }
      destruct (ep (fst x)) eqn:Ep.
      * assert (NF : ~ In (x, true) l). { intros K. apply (bef_irrefl x). eapply stk_flag; eauto. }
        assert (S' : stk ((x, true) :: l)). { inversion S; subst; [constructor|econstructor; eauto]. }
        destruct (usable E o x) as [r|] eqn:Ux.
        -- destruct (visit_spec ep r ((x, true) :: l) (di_ep _ _ _ I)) as [new [A [B [D [H1 H2]]]]].
           { intros q Hq. eapply reason_in; eauto. }
           destruct (visit E f ep r ((x, true) :: l)) as [ok1 todo1] eqn:V. cbn [fst snd] in *. subst todo1.
           assert (SN : stk (map (fun q => (q, false)) new ++ (x, true) :: l) /\ par (map (fun q => (q, false)) new ++ (x, true) :: l) = Some x).
           { clear - S' D Ux. induction new as [|q new IHn]; cbn [map app]; [split; auto|].
             destruct IHn as [I1 I2]; [intros; apply D; cbn; auto|]. split; [|exact I2]. apply (stk_cons q false x); auto.
             destruct (D q (or_introl eq_refl)). exists r. auto. }
           apply IH.
           ++ constructor; [apply (di_ep _ _ _ I)|apply SN| |].
              ** intros K l1 y l2 Hl. assert (CS : (exists m, l1 = map (fun q => (q, false)) new ++ (x, true) :: m /\ l = m ++ (y, true) :: l2) \/ y = x /\ l1 = map (fun q => (q, false)) new).
                 { clear - Hl. revert l1 Hl. induction new as [|q new IHn]; intros l1 Hl; cbn [map app] in *.
                   - destruct l1 as [|e l1]; cbn in Hl; injection Hl as -> Hl; [auto|]. left. exists l1. auto.
                   - destruct l1 as [|e l1]; cbn in Hl; [discriminate|]. injection Hl as <- Hl. destruct (IHn l1 Hl) as [[m [-> ->]]|[-> ->]]; eauto. }
                 destruct CS as [[m [-> ->]]|[-> ->]].
                 --- destruct (di_ok _ _ _ I eq_refl ((x, false) :: m) y l2 eq_refl) as [r' [U' H']]. exists r'. split; auto.
                     intros q Hq. destruct (H' q Hq) as [|[? [?|Hx]]]; auto. right. split; auto. right.
                     rewrite map_app. apply in_app_iff. right. exact Hx.
                 --- exists r. split; auto. intros q Hq. destruct (H1 K q Hq) as [|[? [?|Hx]]]; auto. right. split; auto. right.
                     rewrite map_map. cbn. now rewrite map_id.
              ** intros K. split; [rewrite (proj2 SN); discriminate|]. apply (stk_poison _ (proj1 SN) x (proj2 SN)).
                 intros R. destruct (red_inv x Xt R) as [r' [U1 U2]]. assert (r' = r) by congruence. subst r'.
                 destruct (H2 K) as [q [Q1 [Q2 Q3]]]. destruct (U2 q Q1) as [|[X1 X2]]; [congruence|]. apply Q3; auto.
           ++ assert (LR : length new <= rsize E x). { unfold rsize. apply usable_spec in Ux as [-> _]. exact B. }
              pose proof (cost_push ep x l new Xt Ep NF LR). lia.
        -- apply IH.
           ++ constructor; [apply (di_ep _ _ _ I)|exact S'|discriminate|]. intros _. split; [discriminate|].
              apply (stk_poison _ S' x eq_refl). intros R. destruct (red_inv x Xt R) as [r' [U1 U2]]. congruence.
           ++ pose proof (cost_push ep x l [] Xt Ep NF ltac:(cbn; lia)). cbn [map app] in H. lia.
      * destruct (KP ltac:(discriminate)) as [y [S' [P Ch]]]. apply IH.
        -- constructor; [apply (di_ep _ _ _ I)|exact S'| |discriminate].
           intros K l1 z l2 Hl. destruct (di_ok _ _ _ I K ((x, false) :: l1) z l2) as [r [U H]]; [cbn; congruence|].
           exists r. split; auto. intros q Hq. destruct (H q Hq) as [|[? [?|[<-|?]]]]; auto. right. split; auto. left. now apply (di_ep _ _ _ I).
        -- pose proof (cost_drop ep x l Xt). lia.
      * destruct (KP ltac:(discriminate)) as [y [S' [P Ch]]]. apply IH.
        -- constructor; [apply (di_ep _ _ _ I)|exact S'|discriminate|]. intros _. split; [congruence|].
           apply (stk_poison _ S' y P). apply (child_poison x y); auto; [eapply stk_trail, par_in; eauto|]. now apply (di_ep _ _ _ I).
        -- pose proof (cost_drop ep x l Xt). lia.
    + destruct (di_bad _ _ _ I eq_refl) as [B1 B2]. inversion S as [b'|x' b' y l' S' P Ch]; subst; [cbn in B1; congruence|]. apply IH.
      * constructor; [apply (di_ep _ _ _ I)|exact S'|discriminate|]. intros _. split; [congruence|]. intros z Hz. apply B2. cbn; auto.
      * pose proof (cost_drop ep x l Xt). lia.
Qed.
End M.
