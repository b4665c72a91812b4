(** Proofs: the first-UIP clause. *)
From Coq Require Import List Bool Arith Lia Permutation.
From Verif Require Import Base ClModel CaModel CaSpec.
Import ListNotations.

Ltac sp := repeat match goal with |- _ /\ _ => split end.
Definition memv (v : nat) (l : list lit) : bool := existsb (fun q => Nat.eqb (fst q) v) l.
Lemma memv_in : forall v l, memv v l = true <-> exists q, In q l /\ fst q = v.
Proof. intros v l. unfold memv. rewrite existsb_exists. split; intros [q [A B]]; exists q; split; auto; now apply Nat.eqb_eq. Qed.
Lemma memv_notin : forall v l, memv v l = false <-> ~ In v (map fst l).
Proof.
  intros v l. rewrite in_map_iff. split.
  - intros A [q [B C]]. rewrite (proj2 (memv_in v l)) in A; [discriminate|]. exists q. auto.
  - intros A. destruct (memv v l) eqn:M; auto. exfalso. apply A. apply memv_in in M as [q [B C]]. exists q. auto.
Qed.
Lemma memL_in : forall p l, memL p l = true <-> In p l.
Proof.
  intros p l. unfold memL. rewrite existsb_exists. split.
  - intros [q [A B]]. apply lit_eqb_eq in B. now subst.
  - intros A. exists p. split; auto. apply lit_eqb_refl.
Qed.
Lemma nodup_fst_eq : forall (l : list lit) p q, NoDup (map fst l) -> In p l -> In q l -> fst p = fst q -> p = q.
Proof.
  induction l as [|x l IH]; intros p q N A B C; [easy|]. cbn in N. inversion N as [|y m N1 N2]; subst.
  destruct A as [A|A], B as [B|B]; subst; auto.
  - exfalso. apply N1. rewrite C. now apply in_map.
  - exfalso. apply N1. rewrite <- C. now apply in_map.
Qed.
Lemma nodup_split_uniq : forall (l t1 t2 u1 u2 : list lit) p, NoDup (map fst l) -> l = t1 ++ p :: t2 -> l = u1 ++ p :: u2 -> t1 = u1 /\ t2 = u2.
Proof.
  intros l t1. revert l. induction t1 as [|x t1 IH]; intros l t2 u1 u2 p N A B; subst.
  - destruct u1 as [|y u1]; cbn in B; [injection B; auto|]. injection B as -> B.
    cbn in N. inversion N as [|z m N1 N2]; subst. exfalso. apply N1. rewrite map_app, in_app_iff. cbn. auto.
  - destruct u1 as [|y u1]; cbn in B.
    + injection B as -> B. cbn in N. inversion N as [|z m N1 N2]; subst. exfalso. apply N1. rewrite map_app, in_app_iff. cbn. auto.
    + injection B as -> B. cbn in N. inversion N as [|z m N1 N2]; subst. destruct (IH _ _ _ _ _ N2 eq_refl B). subst. auto.
Qed.
Lemma setf_spec : forall f v b u, setf f v b u = if Nat.eqb u v then b else f u.
Proof. reflexivity. Qed.

Section G.
Variable G : asg -> Prop.
Variable E : env.
Hypothesis TO : trail_ok G E.

Lemma nd_eq : forall p q, In p (v_trail E) -> In q (v_trail E) -> fst p = fst q -> p = q.
Proof. intros. eapply nodup_fst_eq; eauto. apply (to_nodup _ _ TO). Qed.

(** Induction along the trail *)
Lemma trail_ind : forall P : lit -> Prop,
  (forall p, In p (v_trail E) -> (forall q, earlier E q p -> q <> lit_true -> P q) -> P p) -> forall p, In p (v_trail E) -> P p.
Proof.
  intros P H. assert (A : forall t1 t2, v_trail E = t1 ++ t2 -> forall p, In p t1 -> P p).
  { intros t1. induction t1 as [|x t1 IH] using rev_ind; intros t2 Ht p Hp; [easy|].
    rewrite <- app_assoc in Ht. cbn in Ht. apply in_app_iff in Hp as [Hp|[->|[]]].
    - eapply IH; eauto.
    - apply H; [rewrite Ht, in_app_iff; cbn; auto|]. intros q [->|[u1 [u2 [Hu Hq]]]] Hn; [congruence|].
      destruct (nodup_split_uniq _ _ _ _ _ _ (to_nodup _ _ TO) Ht Hu) as [<- <-]. eapply IH; eauto. }
  intros p Hp. apply (A (v_trail E) []); auto. now rewrite app_nil_r.
Qed.
Lemma earlier_in : forall q p, earlier E q p -> q = lit_true \/ In q (v_trail E).
Proof. intros q p [A|[t1 [t2 [A B]]]]; [auto|right]. rewrite A, in_app_iff. auto. Qed.
Lemma earlier_lev : forall q p, earlier E q p -> In p (v_trail E) -> lv E q <= lv E p.
Proof.
  intros q p [->|[t1 [t2 [A B]]]] _.
  - unfold lv. cbn [fst lit_true]. rewrite (to_var0 _ _ TO). lia.
  - eapply (to_sorted _ _ TO); eauto.
Qed.
Lemma earlier_prefix : forall q p t1 t2, v_trail E = t1 ++ p :: t2 -> earlier E q p -> q = lit_true \/ In q t1.
Proof.
  intros q p t1 t2 A [->|[u1 [u2 [B C]]]]; auto. destruct (nodup_split_uniq _ _ _ _ _ _ (to_nodup _ _ TO) A B) as [<- <-]. auto.
Qed.
Lemma top_holds : forall a p, G a -> top E p -> holds a p = true.
Proof. intros a p Ga [->|[A B]]; [now apply (to_lit0 _ _ TO)|now apply (to_top _ _ TO p a A B)]. Qed.
Lemma trail_lit_true : forall p, In p (v_trail E) -> 0 < lv E p -> fst p <> 0.
Proof. intros p A B C. unfold lv in B. rewrite C in B. rewrite (to_var0 _ _ TO) in B. lia. Qed.

Variable f0 : fl.
Hypothesis FO : flags_ok E f0.

Lemma seen0_top : forall q, q = lit_true \/ In q (v_trail E) -> seen f0 q = true -> top E q.
Proof. intros q [->|A] S; [now left|]. right. split; auto. now apply (fo_seen _ _ FO). Qed.
Lemma top_seen0 : forall q, top E q -> seen f0 q = true.
Proof. intros q [->|[A B]]; [apply (fo_seen0 _ _ FO)|now apply (fo_seen _ _ FO)]. Qed.

(** Flags of a set of marked literals *)
Definition seenIs (f : fl) (S : list lit) : Prop := forall v, f_seen f v = f_seen f0 v || memv v S.
Definition markIs (f : fl) (C : list lit) : Prop := forall l, f_mark f l = existsb (fun q => Nat.eqb (lv E q) l) C.
Definition refutes (S : list lit) : Prop := forall a, G a -> exists q, In q S /\ holds a q = false.

Record marked (f : fl) (U C : list lit) : Prop := {
  mk_seen : seenIs f (U ++ C);
  mk_mark : markIs f C;
  mk_nd : NoDup (map fst (U ++ C));
  mk_tr : forall q, In q (U ++ C) -> In q (v_trail E);
  mk_U : forall q, In q U -> lv E q = dl E;
  mk_C : forall q, In q C -> 0 < lv E q < dl E }.
Hypothesis DL : 0 < dl E.

Lemma mk_pos : forall f U C q, marked f U C -> In q (U ++ C) -> 0 < lv E q.
Proof. intros f U C q M A. apply in_app_iff in A as [A|A]; [rewrite (mk_U _ _ _ M q A); auto|apply (mk_C _ _ _ M) in A; lia]. Qed.
Lemma seen_cases : forall f U C q, marked f U C -> q = lit_true \/ In q (v_trail E) ->
  seen f q = true -> top E q \/ In q (U ++ C).
Proof.
  intros f U C q M A S. unfold seen in S. rewrite (mk_seen _ _ _ M) in S. apply orb_true_iff in S as [S|S].
  - left. now apply seen0_top.
  - apply memv_in in S as [x [B D]]. right. pose proof (mk_tr _ _ _ M x B) as T. pose proof (mk_pos _ _ _ _ M B) as P.
    destruct A as [->|A].
    + exfalso. now apply (trail_lit_true x T P).
    + rewrite <- (nd_eq x q); auto.
Qed.
Lemma marked_seen : forall f U C q, marked f U C -> In q (U ++ C) -> seen f q = true.
Proof. intros f U C q M A. unfold seen. rewrite (mk_seen _ _ _ M). apply orb_true_iff. right. apply memv_in. eauto. Qed.
Lemma memv_app : forall v l m, memv v (l ++ m) = memv v l || memv v m.
Proof. intros. apply existsb_app. Qed.

(** Absorbing a set of true literals *)
Lemma absorb_spec : forall rt r f U C, marked f U C -> (forall q, In q r -> q = lit_true \/ In q rt) ->
  (forall q, In q rt -> In q (v_trail E)) ->
  exists f' U' C', absorb E rt r f (map neg C) (length U) = Ok (f', map neg C', length U') /\ marked f' U' C' /\
    (forall q, In q U -> In q U') /\ (forall q, In q U' -> In q U \/ In q r /\ In q rt) /\ (forall q, In q C -> In q C') /\
    (forall q, In q r -> top E q \/ In q (U' ++ C')) /\ length U <= length U'.
Proof.
  intros rt. induction r as [|q r IH]; intros f U C M R T.
  - exists f, U, C. cbn. sp; auto. intros q []. 
  - cbn [absorb]. destruct (seen f q) eqn:Sq.
    + destruct (IH f U C M) as [f' [U' [C' [A [B [D1 [D2 [D3 [D4 D5]]]]]]]]]; [intros; apply R; cbn; auto|auto|].
      exists f', U', C'. sp; auto.
      * intros x Hx. destruct (D2 x Hx) as [|[? ?]]; [auto|right; cbn; auto].
      * intros x [<-|Hx]; auto. destruct (seen_cases f U C q M) as [Tq|Tq]; auto.
        -- destruct (R q (or_introl eq_refl)); auto.
        -- right. apply in_app_iff in Tq. apply in_app_iff. destruct Tq; auto.
    + assert (Q : In q rt). { destruct (R q (or_introl eq_refl)) as [->|]; auto. exfalso.
        unfold seen in Sq. rewrite (mk_seen _ _ _ M) in Sq. cbn [fst lit_true] in Sq. rewrite (fo_seen0 _ _ FO) in Sq. discriminate. }
      pose proof (T q Q) as Qt. rewrite (proj2 (memL_in q rt) Q). cbn [negb orb].
      assert (P : 0 < lv E q). { destruct (lv E q) eqn:L; [|lia]. exfalso. unfold seen in Sq. rewrite (mk_seen _ _ _ M) in Sq.
        apply orb_false_iff in Sq as [Sq _]. pose proof (proj2 (fo_seen _ _ FO q Qt) L) as W. unfold seen in W. congruence. }
      rewrite (proj2 (Nat.eqb_neq (lv E q) 0)) by lia.
      assert (NI : ~ In (fst q) (map fst (U ++ C))).
      { apply memv_notin. unfold seen in Sq. rewrite (mk_seen _ _ _ M) in Sq. now apply orb_false_iff in Sq. }
      pose proof (to_max _ _ TO q Qt) as MX.
      destruct (Nat.eqb (lv E q) (dl E)) eqn:Lq.
      * apply Nat.eqb_eq in Lq. assert (M' : marked (markSeen f q) (q :: U) C).
        { constructor.
          - intros v. cbn [markSeen f_seen]. rewrite setf_spec, (mk_seen _ _ _ M). cbn [app memv existsb]. fold (memv v (U ++ C)).
            rewrite (Nat.eqb_sym v (fst q)). destruct (Nat.eqb (fst q) v); [now rewrite orb_true_r|reflexivity].
          - intros l. cbn [markSeen f_mark]. apply (mk_mark _ _ _ M).
          - cbn. constructor; auto. apply (mk_nd _ _ _ M).
          - intros x [<-|Hx]; auto. now apply (mk_tr _ _ _ M).
          - intros x [<-|Hx]; auto. now apply (mk_U _ _ _ M).
          - apply (mk_C _ _ _ M). }
        destruct (IH _ _ _ M') as [f' [U' [C' [A [B [D1 [D2 [D3 [D4 D5]]]]]]]]]; [intros; apply R; cbn; auto|auto|].
        exists f', U', C'. cbn [length] in A. sp; auto.
        -- intros x Hx. apply D1. cbn; auto.
        -- intros x Hx. destruct (D2 x Hx) as [[<-|?]|[? ?]]; [right; cbn; auto|auto|right; cbn; auto].
        -- intros x [<-|Hx]; auto. right. apply in_app_iff. left. apply D1. cbn; auto.
        -- cbn [length] in D5. lia.
      * apply Nat.eqb_neq in Lq. assert (M' : marked (markLevel (markSeen f q) (lv E q)) U (C ++ [q])).
        { constructor.
          - intros v. cbn [markLevel markSeen f_seen]. rewrite setf_spec, (mk_seen _ _ _ M). rewrite app_assoc, !memv_app. cbn [memv existsb].
            rewrite (Nat.eqb_sym v (fst q)). destruct (Nat.eqb (fst q) v); cbn [orb]; [now rewrite !orb_true_r|now rewrite !orb_false_r].
          - intros l. cbn [markLevel markSeen f_mark]. rewrite setf_spec, (mk_mark _ _ _ M), existsb_app. cbn [existsb].
            rewrite (Nat.eqb_sym l (lv E q)). destruct (Nat.eqb (lv E q) l); cbn [orb]; [now rewrite !orb_true_r|now rewrite !orb_false_r].
          - apply (Permutation_NoDup (l := map fst (q :: U ++ C))).
            + apply Permutation_map. rewrite app_assoc. apply Permutation_cons_append.
            + cbn. constructor; auto. apply (mk_nd _ _ _ M).
          - intros x. rewrite app_assoc, in_app_iff. intros [Hx|[<-|[]]]; auto. now apply (mk_tr _ _ _ M).
          - apply (mk_U _ _ _ M).
          - intros x. rewrite in_app_iff. intros [Hx|[<-|[]]]; [now apply (mk_C _ _ _ M)|lia]. }
        destruct (IH _ _ _ M') as [f' [U' [C' [A [B [D1 [D2 [D3 [D4 D5]]]]]]]]]; [intros; apply R; cbn; auto|auto|].
        exists f', U', C'. rewrite map_app in A. cbn [map] in A. sp; auto.
        -- intros x Hx. destruct (D2 x Hx) as [?|[? ?]]; [auto|right; cbn; auto].
        -- intros x Hx. apply D3. rewrite in_app_iff. auto.
        -- intros x [<-|Hx]; auto. right. apply in_app_iff. right. apply D3. rewrite in_app_iff. cbn; auto.
Qed.

(** Removing a literal of the current level *)
Lemma marked_clear : forall f p U1 U2 C, marked f (U1 ++ p :: U2) C -> marked (clearSeen f p) (U1 ++ U2) C.
Proof.
  intros f p U1 U2 C M.
  assert (Pm : Permutation ((U1 ++ p :: U2) ++ C) (p :: (U1 ++ U2) ++ C)).
  { rewrite <- !app_assoc. cbn. apply Permutation_sym, Permutation_middle. }
  assert (ND : NoDup (map fst (p :: (U1 ++ U2) ++ C))).
  { eapply Permutation_NoDup; [apply Permutation_map, Pm|apply (mk_nd _ _ _ M)]. }
  cbn in ND. inversion ND as [|z m N1 N2]; subst.
  assert (Pt : In p (v_trail E)). { apply (mk_tr _ _ _ M). eapply Permutation_in; [apply Permutation_sym, Pm|cbn; auto]. }
  assert (Pp : 0 < lv E p). { apply (mk_pos _ _ _ _ M). eapply Permutation_in; [apply Permutation_sym, Pm|cbn; auto]. }
  constructor.
  - intros v. cbn [clearSeen f_seen]. rewrite setf_spec. destruct (Nat.eqb v (fst p)) eqn:Ev.
    + apply Nat.eqb_eq in Ev. subst v. symmetry. apply orb_false_iff. split.
      * destruct (f_seen f0 (fst p)) eqn:Z; auto. apply (fo_seen _ _ FO p Pt) in Z. lia.
      * now apply memv_notin.
    + rewrite (mk_seen _ _ _ M). f_equal. rewrite !memv_app. cbn [memv existsb]. rewrite (Nat.eqb_sym (fst p) v), Ev. reflexivity.
  - apply (mk_mark _ _ _ M).
  - exact N2.
  - intros x Hx. apply (mk_tr _ _ _ M). eapply Permutation_in; [apply Permutation_sym, Pm|cbn; auto].
  - intros x Hx. apply (mk_U _ _ _ M). rewrite in_app_iff in *. cbn. tauto.
  - apply (mk_C _ _ _ M).
Qed.

Hypothesis Flip : forall p, In p (v_trail E) -> lv E p = dl E -> rs E p = None -> p = decision E (dl E).

(** The walk along the trail *)
Lemma rev_prefix : forall (p : lit) rt' pop, rev (p :: rt') ++ pop = rev rt' ++ p :: pop.
Proof. intros. cbn. now rewrite <- app_assoc. Qed.
Lemma walk_spec : forall rt pop f U C, v_trail E = rev rt ++ pop -> marked f U C -> U <> [] ->
  (forall q, In q U -> In q rt) -> refutes (U ++ C) ->
  exists p rt' pop' f' C', walk E rt f (map neg C) (length U) = Ok (p, p :: rt', f', map neg C') /\
    v_trail E = rev rt' ++ p :: pop' /\ lv E p = dl E /\ marked f' [] C' /\ refutes (p :: C').
Proof.
  induction rt as [|p rt IH]; intros pop f U C T M U0 UI RF.
  - exfalso. destruct U as [|u U]; [congruence|]. apply (UI u). cbn; auto.
  - cbn [walk]. rewrite rev_prefix in T.
    assert (Pt : In p (v_trail E)). { rewrite T, in_app_iff. cbn; auto. }
    assert (Lp : lv E p = dl E).
    { destruct U as [|u U]; [congruence|]. pose proof (mk_U _ _ _ M u (or_introl eq_refl)) as Lu.
      destruct (UI u (or_introl eq_refl)) as [<-|Hu]; auto.
      pose proof (to_sorted _ _ TO _ _ _ u T ltac:(now apply in_rev in Hu)). pose proof (to_max _ _ TO p Pt). lia. }
    destruct (seen f p) eqn:Sp.
    + destruct (seen_cases f U C p M (or_intror Pt) Sp) as [[->|[_ W]]|W]; [unfold lv in Lp; cbn [fst lit_true] in Lp; rewrite (to_var0 _ _ TO) in Lp; lia|lia|].
      apply in_app_iff in W as [W|W]; [|apply (mk_C _ _ _ M) in W; lia].
      apply in_split in W as [U1 [U2 ->]].
      pose proof (marked_clear _ _ _ _ _ M) as M'.
      assert (LU : length (U1 ++ p :: U2) = S (length (U1 ++ U2))). { rewrite !app_length. cbn. lia. }
      rewrite LU. destruct (length (U1 ++ U2)) eqn:L2.
      * apply length_zero_iff_nil in L2. rewrite L2 in *. exists p, rt, pop, (clearSeen f p), C. sp; auto.
        intros a Ga. destruct (RF a Ga) as [q [Hq1 Hq2]]. exists q. split; auto. apply app_eq_nil in L2 as [-> ->]. exact Hq1.
      * destruct (U1 ++ U2) as [|u U'] eqn:EU; [discriminate|]. rewrite <- EU in *.
        assert (Uu : In u (U1 ++ p :: U2)). { assert (X : In u (U1 ++ U2)) by (rewrite EU; cbn; auto). rewrite in_app_iff in *. cbn. tauto. }
        assert (up : u <> p). { intros ->. pose proof (mk_nd _ _ _ M) as ND. rewrite map_app in ND.
          assert (X : In p (U1 ++ U2)) by (rewrite EU; cbn; auto).
          pose proof (mk_nd _ _ _ M) as ND'. rewrite <- app_assoc in ND'. cbn in ND'. rewrite map_app in ND'. cbn in ND'.
          apply NoDup_remove_2 in ND'. apply ND'. rewrite <- map_app. apply in_map. rewrite in_app_iff in *. destruct X; [auto|right; rewrite in_app_iff; auto]. }
        assert (Hu : In u rt). { destruct (UI u Uu) as [->|]; [congruence|auto]. }
        destruct (rs E p) as [r|] eqn:Rp.
        2:{ exfalso. pose proof (Flip p Pt Lp Rp) as D. destruct (to_dec _ _ TO (dl E) ltac:(lia)) as [t1 [t2 [D1 [D2 [D3 [D4 D5]]]]]].
            rewrite <- D in D1. destruct (nodup_split_uniq _ _ _ _ _ _ (to_nodup _ _ TO) T D1) as [<- <-].
            assert (X : lv E u < dl E). { apply D5. now apply in_rev in Hu. } pose proof (mk_U _ _ _ M u Uu). lia. }
        assert (RE : forall q, In q r -> q = lit_true \/ In q (p :: rt)).
        { intros q Hq. pose proof (to_reason _ _ TO p r q Pt Rp Hq) as X. destruct (earlier_prefix _ _ _ _ T X) as [|Y]; auto.
          right. right. now apply in_rev. }
        destruct (absorb_spec (p :: rt) r (clearSeen f p) (U1 ++ U2) C M' RE) as [f1 [UU [CC [A [B [D1 [D2 [D3 [D4 D5]]]]]]]]].
        { intros q [<-|Hq]; auto. rewrite T, in_app_iff. left. now apply in_rev in Hq. }
        rewrite L2 in A, D5. rewrite A. cbn [bind].
        apply (IH (p :: pop) f1 UU CC); auto.
        -- intros ->. cbn in D5. lia.
        -- intros q Hq. destruct (D2 q Hq) as [X|[X Y]].
           ++ assert (Z : In q (U1 ++ p :: U2)) by (rewrite in_app_iff in *; cbn; tauto).
              destruct (UI q Z) as [<-|]; auto. exfalso. pose proof (mk_nd _ _ _ M) as ND'. rewrite <- app_assoc in ND'. cbn in ND'. rewrite map_app in ND'. cbn in ND'.
              apply NoDup_remove_2 in ND'. apply ND'. rewrite <- map_app. apply in_map. rewrite !in_app_iff in *. tauto.
           ++ destruct Y as [<-|]; auto. exfalso. pose proof (to_reason _ _ TO p r p Pt Rp X) as Z. destruct (earlier_prefix _ _ _ _ T Z) as [Y|Y].
              ** subst p. unfold lv in Lp. cbn [fst lit_true] in Lp. rewrite (to_var0 _ _ TO) in Lp. lia.
              ** pose proof (to_nodup _ _ TO) as ND. rewrite T, map_app in ND. cbn in ND. apply NoDup_remove_2 in ND. apply ND.
                 rewrite in_app_iff. left. now apply in_map.
        -- intros a Ga. destruct (RF a Ga) as [q [Hq1 Hq2]].
           assert (CS : q = p \/ In q (UU ++ CC)).
           { rewrite <- app_assoc in Hq1. cbn in Hq1. rewrite !in_app_iff in Hq1. cbn in Hq1. rewrite in_app_iff in *.
             destruct Hq1 as [X|[X|X]]; [right; left; apply D1; rewrite in_app_iff; auto|auto|].
             destruct X; [right; left; apply D1; rewrite in_app_iff; auto|auto]. }
           destruct CS as [->|X]; [|exists q; auto].
           destruct (existsb (fun x => negb (holds a x)) r) eqn:EX.
           ++ apply existsb_exists in EX as [x [X1 X2]]. apply negb_true_iff in X2. exists x. split; auto.
              destruct (D4 x X1) as [X|X]; auto. rewrite (top_holds a x Ga X) in X2. discriminate.
           ++ exfalso. rewrite (to_valid _ _ TO p r a Pt Rp Ga) in Hq2; [discriminate|]. intros x Hx.
              destruct (holds a x) eqn:HX; auto. exfalso. enough (K : true = false) by discriminate. rewrite <- EX. symmetry. apply existsb_exists. exists x. rewrite HX. auto.
    + apply (IH (p :: pop) f U C); auto. intros q Hq. destruct (UI q Hq) as [<-|]; auto.
      rewrite (marked_seen _ _ _ _ M) in Sp; [discriminate|]. rewrite in_app_iff. auto.
Qed.
End G.

Lemma firstUip_spec : forall G E f0 conf, trail_ok G E -> flags_ok E f0 -> conflict_ok G E conf ->
  exists p rt pop f C, firstUip E conf f0 = Ok (p, p :: rt, f, map neg C) /\
    v_trail E = rev rt ++ p :: pop /\ lv E p = dl E /\ marked E f0 f [] C /\ refutes G (p :: C).
Proof.
  intros G E f0 conf TO FO [D CT CV [q [Q1 [Q2 Q3]]] FL].
  assert (M : marked E f0 f0 [] []).
  { constructor; cbn; try easy.
    - intros v. cbn. now rewrite orb_false_r.
    - intros l. cbn. apply (fo_mark _ _ FO).
    - constructor. }
  unfold firstUip. destruct (absorb_spec G E TO f0 FO D (rev (v_trail E)) conf f0 [] [] M) as [f1 [U [C [A [B [D1 [D2 [D3 [D4 D5]]]]]]]]].
  { intros x Hx. destruct (CT x Hx); auto. right. now apply in_rev in H. }
  { intros x Hx. now apply in_rev in Hx. }
  cbn [map length] in A. rewrite A. cbn [bind].
  assert (UQ : In q U). { destruct (D4 q Q1) as [[->|[_ X]]|X].
    - unfold lv in Q3. cbn [fst lit_true] in Q3. rewrite (to_var0 _ _ TO) in Q3. lia.
    - lia.
    - apply in_app_iff in X as [X|X]; auto. apply (mk_C _ _ _ _ _ B) in X. lia. }
  destruct U as [|u U]; [easy|]. cbn [length Nat.eqb].
  destruct (walk_spec G E TO f0 FO D FL (rev (v_trail E)) [] f1 (u :: U) C) as [p [rt [pop [f [C' H]]]]]; auto.
  - now rewrite rev_involutive, app_nil_r.
  - discriminate.
  - intros x Hx. destruct (D2 x Hx) as [[]|[_ X]]. auto.
  - intros a Ga. destruct (CV a Ga) as [x [X1 X2]]. exists x. split; auto. destruct (D4 x X1) as [X|X]; auto.
    rewrite (top_holds G E TO a x Ga X) in X2. discriminate.
  - exists p, rt, pop, f, C'. exact H.
Qed.
