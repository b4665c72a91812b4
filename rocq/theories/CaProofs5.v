(** Proofs: representations of the conflict clause, the whole analysis, cores. *)
From Coq Require Import List Bool Arith Lia Permutation.
From Verif Require Import Base ClModel CaModel CaSpec CaProofs CaProofs2 CaProofs3 CaProofs4.
Import ListNotations.

Lemma markAll_spec : forall r f m, exists new, snd (markAll r f m) = m + length new /\ f_mark (fst (markAll r f m)) = f_mark f /\
  (forall v, f_seen (fst (markAll r f m)) v = f_seen f v || memv v new) /\ NoDup (map fst new) /\
  (forall q, In q new -> In q r /\ seen f q = false) /\ (forall q, In q r -> seen f q = true \/ memv (fst q) new = true).
Proof.
  induction r as [|q r IH]; intros f m; cbn [markAll].
  - exists []. cbn. sp; auto; try easy. + intros. now rewrite orb_false_r. + constructor.
  - destruct (seen f q) eqn:S.
    + destruct (IH f m) as [new [A [B [D [N [H1 H2]]]]]]. exists new. sp; auto.
      * intros x Hx. apply H1 in Hx. cbn; tauto.
      * intros x [<-|Hx]; auto.
    + destruct (IH (markSeen f q) (Datatypes.S m)) as [new [A [B [D [N [H1 H2]]]]]]. exists (q :: new). cbn [length]. sp; auto.
      * rewrite A. lia.
      * intros v. rewrite D. cbn [markSeen f_seen memv existsb]. rewrite setf_spec, (Nat.eqb_sym v). destruct (Nat.eqb (fst q) v); [cbn; now rewrite orb_true_r|reflexivity].
      * cbn. constructor; auto. intros Z. apply in_map_iff in Z as [x [Z1 Z2]]. apply H1 in Z2 as [_ Z2]. unfold seen in Z2. cbn [markSeen f_seen] in Z2.
        rewrite setf_spec, Z1, Nat.eqb_refl in Z2. discriminate.
      * intros x [<-|Hx]; [cbn; auto|]. apply H1 in Hx as [Z1 Z2]. split; [cbn; auto|]. unfold seen in *. cbn [markSeen f_seen] in Z2. rewrite setf_spec in Z2.
        destruct (Nat.eqb (fst x) (fst q)); [discriminate|auto].
      * intros x [<-|Hx]; [right; cbn; now rewrite Nat.eqb_refl|]. destruct (H2 x Hx) as [Z|Z].
        -- unfold seen in *. cbn [markSeen f_seen] in Z. rewrite setf_spec in Z. destruct (Nat.eqb (fst x) (fst q)) eqn:E1; auto. right. cbn. rewrite (Nat.eqb_sym (fst q)), E1. reflexivity.
        -- right. cbn. unfold memv in Z. rewrite Z. apply orb_true_r.
Qed.

Section U.
Variable G : asg -> Prop.
Variable E : env.
Hypothesis TO : trail_ok G E.
Variable f0 : fl.
Hypothesis FO : flags_ok E f0.
Hypothesis DL : 0 < dl E.
Variable o : opt.
Variable p : lit.
Hypothesis Pt : In p (v_trail E).
Hypothesis Lp : lv E p = dl E.

Lemma refutes_sat : forall K a, refutes G (p :: K) -> G a -> sat_clause a (neg p :: map neg K) = true.
Proof.
  intros K a R Ga. destruct (R a Ga) as [q [Hq Hf]]. apply existsb_exists. exists (neg q). split; [|rewrite holds_neg, Hf; auto].
  change (In (neg q) (map neg (p :: K))). now apply in_map.
Qed.
Lemma asserting_intro : forall D k, NoDup (map fst (p :: D)) -> (forall q, In q D -> In q (v_trail E) /\ 0 < lv E q <= k) -> k < dl E ->
  (k = 0 /\ D = [] \/ exists d D', D = d :: D' /\ lv E d = k) -> assertingAt E (neg p :: map neg D) k.
Proof.
  intros D k ND HD Hk HH. exists (neg p), (map neg D). sp; auto.
  - split; [now rewrite neg_neg|exact Lp].
  - cbn [map]. rewrite map_fst_neg. exact ND.
  - intros l Hl. apply in_map_iff in Hl as [q [<- Hq]]. destruct (HD q Hq) as [H1 H2]. exists (lv E q). split; auto. split; [now rewrite neg_neg|reflexivity].
  - destruct HH as [[-> ->]|[d [D' [-> Hd]]]]; [auto|]. right. exists (neg d), (map neg D'). split; auto. split; [rewrite neg_neg; apply HD; cbn; auto|exact Hd].
Qed.

(** Decision sequences *)
Lemma dec_trail : forall i, 1 <= i <= dl E -> In (decision E i) (v_trail E) /\ lv E (decision E i) = i /\ rs E (decision E i) = None.
Proof. intros i Hi. destruct (to_dec _ _ TO i Hi) as [t1 [t2 [A [B [D1 [D2 D3]]]]]]. sp; auto. rewrite A, in_app_iff. cbn; auto. Qed.
Fixpoint decs (k : nat) : list lit := match k with O => [] | S k => decision E (S k) :: decs k end.
Lemma decSeq_decs : forall k, decSeq E k = map neg (decs k).
Proof. induction k; cbn [decSeq decs map]; [auto|now rewrite IHk]. Qed.
Lemma decs_in : forall k q, In q (decs k) <-> exists i, 1 <= i <= k /\ q = decision E i.
Proof.
  induction k as [|k IH]; intros q; cbn [decs In].
  - split; [easy|]. intros [i [H _]]. lia.
  - rewrite IH. split.
    + intros [<-|[i [H1 H2]]]; [exists (S k); split; [lia|auto]|exists i; split; [lia|auto]].
    + intros [i [H1 H2]]. destruct (Nat.eq_dec i (S k)) as [->|]; [auto|]. right. exists i. split; [lia|auto].
Qed.
Lemma decs_nd : forall k, k < dl E -> NoDup (map fst (p :: decs k)).
Proof.
  intros k Hk. cbn [map]. constructor.
  - intros Z. apply in_map_iff in Z as [q [Z1 Z2]]. apply decs_in in Z2 as [i [Hi ->]]. destruct (dec_trail i ltac:(lia)) as [A [B _]].
    rewrite (nd_eq G E TO _ p A Pt Z1) in B. lia.
  - induction k as [|k IH]; [constructor|]. cbn [decs map]. constructor; [|apply IH; lia].
    intros Z. apply in_map_iff in Z as [q [Z1 Z2]]. apply decs_in in Z2 as [i [Hi ->]]. destruct (dec_trail i ltac:(lia)) as [A [B _]].
    destruct (dec_trail (S k) ltac:(lia)) as [A' [B' _]]. rewrite (nd_eq G E TO _ _ A A' Z1) in B. lia.
Qed.
Lemma decs_hold : forall k a, k < dl E -> noFlips E -> G a -> (forall q, In q (decs k) -> holds a q = true) ->
  forall x, In x (v_trail E) -> lv E x <= k -> holds a x = true.
Proof.
  intros k a Hk NF Ga HD. apply (trail_ind G E TO (fun x => lv E x <= k -> holds a x = true)). intros x Xt IH Lx.
  destruct (lv E x) eqn:L0; [now apply (to_top _ _ TO x a Xt L0)|].
  destruct (rs E x) as [r|] eqn:R.
  - apply (to_valid _ _ TO x r a Xt R Ga). intros q Hq. pose proof (to_reason _ _ TO x r q Xt R Hq) as Ea.
    destruct (lit_eq_dec q lit_true) as [->|N]; [now apply (to_lit0 _ _ TO)|]. apply IH; auto.
    pose proof (earlier_lev G E TO q x Ea Xt). lia.
  - apply HD. apply decs_in. exists (lv E x). split; [lia|]. apply NF; auto. lia.
Qed.

(** All-UIP clauses *)
Notation seenIs := (CaProofs.seenIs f0).
Lemma scan_spec : forall steps f rt x, scan f steps rt = Ok x -> In x rt /\ (seen f x = true \/ exists l1 l2, rt = l1 ++ x :: l2 /\ length l1 = steps).
Proof.
  induction steps as [|k IH]; intros f rt x H; destruct rt as [|y rt]; cbn in H; try discriminate.
  - injection H as ->. split; [cbn; auto|]. right. exists [], rt. auto.
  - destruct (seen f y) eqn:S; [injection H as ->; cbn; auto|]. destruct (IH f rt x H) as [H1 [H2|[l1 [l2 [H2 H3]]]]]; [cbn; auto|].
    split; [cbn; auto|]. right. exists (y :: l1), l2. cbn. subst. auto.
Qed.
Lemma scan_total : forall steps f rt, (exists s, In s rt /\ seen f s = true) -> steps <= length rt -> exists x, scan f steps rt = Ok x.
Proof.
  induction steps as [|k IH]; intros f rt [s [A B]] L; (destruct rt as [|y rt]; [easy|]); cbn [scan]; eauto.
  destruct (seen f y) eqn:S; [eauto|]. apply IH; [|cbn in L; lia]. exists s. split; auto. destruct A as [->|]; [congruence|auto].
Qed.
Lemma seenIs_cases : forall f S q, seenIs f S -> (forall q, In q S -> In q (v_trail E) /\ 0 < lv E q) -> q = lit_true \/ In q (v_trail E) -> seen f q = true -> top E q \/ In q S.
Proof.
  intros f S q SI HS A H. unfold seen in H. rewrite SI in H. apply orb_true_iff in H as [H|H].
  - left. now apply (seen0_top E f0 FO).
  - apply memv_in in H as [x [B D]]. right. destruct (HS x B) as [T P]. destruct A as [->|A].
    + exfalso. now apply (trail_lit_true G E TO x T P).
    + rewrite <- (nd_eq G E TO x q); auto.
Qed.
Lemma seenIs_clear : forall f A t B, seenIs f (A ++ t :: B) -> NoDup (map fst (A ++ t :: B)) -> In t (v_trail E) -> 0 < lv E t -> seenIs (clearSeen f t) (A ++ B).
Proof.
  intros f A t B SI ND T P v. cbn [clearSeen f_seen]. rewrite setf_spec. rewrite map_app in ND. cbn in ND. apply NoDup_remove_2 in ND. rewrite <- map_app in ND.
  destruct (Nat.eqb v (fst t)) eqn:Ev.
  - apply Nat.eqb_eq in Ev. subst v. symmetry. apply orb_false_iff. split; [now apply (pos_not0 E f0 FO DL p Lp)|now apply memv_notin].
  - rewrite SI. f_equal. rewrite !memv_app. cbn [memv existsb]. rewrite (Nat.eqb_sym (fst t) v), Ev. reflexivity.
Qed.

Lemma nodup_mid : forall (A B : list nat) x, NoDup (A ++ x :: B) -> NoDup (A ++ B) /\ ~ In x (A ++ B).
Proof. intros A B x N. split; [eapply NoDup_remove_1|eapply NoDup_remove_2]; eauto. Qed.

Lemma uip_spec : forall k, k < dl E -> forall rt pop f S D mx tg, v_trail E = rev rt ++ pop -> seenIs f S -> NoDup (map fst (p :: D ++ S)) ->
  (forall q, In q S -> In q rt) -> (forall q, In q D -> ~ In q rt) -> (forall q, In q (D ++ S) -> In q (v_trail E) /\ 0 < lv E q <= k) -> refutes G (p :: D ++ S) ->
  (D = [] -> S <> [] -> exists s, In s S /\ lv E s = k) -> (D <> [] -> lv E (nth 0 D lit_true) = k) ->
  exists f' D', uipLoop E o rt f (length S) (neg p :: map neg D) mx tg =
      Ok (f', neg p :: map neg (D ++ D'), fold_left (fun m q => Nat.max m (fst q)) D' mx, tg || existsb (fun q => Nat.eqb (fst q) (fst (o_tag o))) D') /\
    seenIs f' [] /\ f_mark f' = f_mark f /\ NoDup (map fst (p :: D ++ D')) /\ (forall q, In q (D ++ D') -> In q (v_trail E) /\ 0 < lv E q <= k) /\
    refutes G (p :: D ++ D') /\ (D ++ S <> [] -> D ++ D' <> [] /\ lv E (nth 0 (D ++ D') lit_true) = k) /\ (S = [] -> D' = []).
Proof.
  intros k Hk. induction rt as [|t rt IH]; intros pop f S D mx tg T SI ND SR DR HT RF H0 H1.
  - assert (S = []). { destruct S as [|s S]; auto. exfalso. apply (SR s). cbn; auto. } subst S. cbn.
    exists f, []. rewrite ?app_nil_r, orb_false_r in *. sp; auto.
  - destruct S as [|s S].
    { cbn. exists f, []. rewrite ?app_nil_r, orb_false_r in *. cbn. sp; auto. }
    remember (s :: S) as SS eqn:ES.
    assert (LS : length SS = Datatypes.S (length S)) by (subst; auto). rewrite LS. cbn [uipLoop].
    rewrite rev_prefix in T. assert (Tt : In t (v_trail E)) by (rewrite T, in_app_iff; cbn; auto).
    assert (HS : forall q, In q SS -> In q (v_trail E) /\ 0 < lv E q) by (intros q Hq; destruct (HT q) as [A B]; [apply in_app_iff; auto|split; [auto|lia]]).
    assert (Lt : forall q, In q SS -> lv E q <= lv E t).
    { intros q Hq. destruct (SR q Hq) as [<-|Hr]; auto. apply (to_sorted _ _ TO _ _ _ q T). now apply in_rev in Hr. }
    destruct (seen f t) eqn:St.
    2:{ rewrite <- LS. apply (IH (t :: pop)); auto; [|intros q Hq Z; apply (DR q Hq); cbn; auto]. intros q Hq. destruct (SR q Hq) as [<-|]; auto. exfalso.
        unfold seen in St. rewrite SI in St. apply orb_false_iff in St as [_ St]. apply memv_notin in St. apply St. now apply in_map. }
    assert (Lt0 : 0 < lv E t). { pose proof (Lt s ltac:(subst; cbn; auto)). pose proof (proj2 (HS s ltac:(subst; cbn; auto))). lia. }
    assert (TS : In t SS). { destruct (seenIs_cases f SS t SI HS (or_intror Tt) St) as [[->|[_ Z]]|]; auto; [|lia].
      exfalso. unfold lv in Lt0. cbn [fst lit_true] in Lt0. rewrite (to_var0 _ _ TO) in Lt0. lia. }
    apply in_split in TS as [A [B EAB]].
    assert (LAB : length S = length (A ++ B)). { assert (length SS = Datatypes.S (length (A ++ B))) by (rewrite EAB, !app_length; cbn; lia). lia. }
    rewrite LAB. rewrite EAB in *. clear s S ES LS LAB EAB SS.
    assert (NDs : NoDup (map fst (A ++ t :: B))). { cbn [map] in ND. inversion ND as [|y m N1 N2]; subst. rewrite map_app in N2. clear - N2. induction D; auto. cbn in N2. inversion N2; auto. }
    assert (SI' : seenIs (clearSeen f t) (A ++ B)) by (apply seenIs_clear; auto).
    assert (NDt : ~ In t (A ++ B)). { rewrite map_app in NDs. cbn in NDs. apply NoDup_remove_2 in NDs. rewrite <- map_app in NDs. intros Z. apply NDs. now apply in_map. }
    assert (SR' : forall q, In q (A ++ B) -> In q rt). { intros q Hq. destruct (SR q) as [<-|]; auto; [rewrite in_app_iff in *; cbn; tauto|contradiction]. }
    assert (TR : ~ In t rt).
    { intros Z. apply in_rev in Z. pose proof (to_nodup _ _ TO) as N. rewrite T in N. rewrite map_app in N. cbn in N. apply NoDup_remove_2 in N. apply N. apply in_app_iff. left. now apply in_map. }
    (* pushing t *)
    assert (PUSH : exists f' D', uipLoop E o rt (clearSeen f t) (length (A ++ B)) (neg p :: map neg D ++ [neg t]) (Nat.max mx (fst t)) (tg || Nat.eqb (fst t) (fst (o_tag o))) =
      Ok (f', neg p :: map neg (D ++ D'), fold_left (fun m q => Nat.max m (fst q)) D' mx, tg || existsb (fun q => Nat.eqb (fst q) (fst (o_tag o))) D') /\
      seenIs f' [] /\ f_mark f' = f_mark f /\ NoDup (map fst (p :: D ++ D')) /\ (forall q, In q (D ++ D') -> In q (v_trail E) /\ 0 < lv E q <= k) /\
      refutes G (p :: D ++ D') /\ (D ++ (A ++ t :: B) <> [] -> D ++ D' <> [] /\ lv E (nth 0 (D ++ D') lit_true) = k) /\ (A ++ t :: B = [] -> D' = [])).
    { assert (PM : Permutation (D ++ A ++ t :: B) ((D ++ [t]) ++ A ++ B)).
      { rewrite <- app_assoc. apply Permutation_app_head. apply Permutation_sym. cbn. apply Permutation_middle. }
      destruct (IH (t :: pop) (clearSeen f t) (A ++ B) (D ++ [t]) (Nat.max mx (fst t)) (tg || Nat.eqb (fst t) (fst (o_tag o)))) as [f' [D' [W1 [W2 [W3 [W4 [W5 [W6 [W7 W8]]]]]]]]]; auto.
      - eapply nodup_map_perm; [apply perm_skip, PM|auto].
      - intros q Hq Z. apply in_app_iff in Hq as [Hq|[<-|[]]]; [apply (DR q Hq); cbn; auto|]. exact (TR Z).
      - intros q Hq. apply HT. eapply Permutation_in; [apply Permutation_sym, PM|auto].
      - intros a Ga. destruct (RF a Ga) as [q [[<-|Hq] Hf]]; [exists p; cbn; auto|]. exists q. split; auto. right. eapply Permutation_in; eauto.
      - intros Z. now apply app_eq_nil in Z as [_ Z].
      - intros _. destruct D as [|d D]; [|apply H1; discriminate]. cbn. destruct H0 as [s [S1 S2]]; [auto|now destruct A|].
        pose proof (Lt s S1). destruct (HT t) as [_ [_ Z]]; [rewrite !in_app_iff; cbn; auto|]. lia.
      - exists f', (t :: D'). rewrite map_app in W1. cbn [map] in W1. assert (EQ : (D ++ [t]) ++ D' = D ++ t :: D') by (now rewrite <- app_assoc). rewrite EQ in *. sp; auto.
        + rewrite W1. cbn [fold_left existsb]. rewrite orb_assoc. reflexivity.
        + intros _. apply W7. clear. now destruct D.
        + intros Z. now destruct A. }
    change (map neg D ++ [neg t]) with (map neg D ++ [neg t]) in PUSH.
    destruct (rs E t) as [r|] eqn:Rt; [|exact PUSH].
    destruct (Nat.eqb (length (A ++ B)) 0) eqn:E0; [exact PUSH|]. apply Nat.eqb_neq in E0.
    assert (SS : exists s, In s rt /\ seen (clearSeen f t) s = true).
    { destruct (A ++ B) as [|s l] eqn:EAB; [cbn in E0; lia|]. exists s. split; [apply SR'; cbn; auto|]. unfold seen. rewrite SI'. apply orb_true_iff. right. apply memv_in. exists s. cbn; auto. }
    destruct (to_dec _ _ TO (lv E t)) as [t1 [t2 [D1 [D2 [D3 [D4 D5]]]]]]; [split; [lia|now apply (to_max _ _ TO)]|].
    assert (LST : levelStart E (lv E t) <= length rt).
    { rewrite <- D2. assert (Z : decision E (lv E t) <> t) by (intros Z; rewrite Z in D4; congruence).
      assert (ZI : In (decision E (lv E t)) (rev rt)).
      { assert (ZI : In (decision E (lv E t)) (v_trail E)) by (rewrite D1, in_app_iff; cbn; auto). rewrite T in ZI. apply in_app_iff in ZI as [ZI|[ZI|ZI]]; auto; [congruence|].
        exfalso. apply in_split in ZI as [u1 [u2 ZI]].
        assert (X : In t t1). { rewrite ZI in T. rewrite app_comm_cons, app_assoc in T. destruct (nodup_split_uniq _ _ _ _ _ _ (to_nodup _ _ TO) T D1) as [<- _]. rewrite in_app_iff. cbn; auto. }
        apply D5 in X. lia. }
      apply in_split in ZI as [u1 [u2 ZI]]. rewrite ZI, <- app_assoc in T. cbn in T.
      destruct (nodup_split_uniq _ _ _ _ _ _ (to_nodup _ _ TO) T D1) as [<- _]. apply (f_equal (@length lit)) in ZI. rewrite rev_length, app_length in ZI. lia. }
    destruct (scan_total (length rt - levelStart E (lv E t)) (clearSeen f t) rt SS ltac:(lia)) as [x SC]. rewrite SC. cbn [bind].
    destruct (Nat.eqb (lv E x) (lv E t)) eqn:Lx; [|exact PUSH]. apply Nat.eqb_eq in Lx.
    (* resolving t out *)
    assert (XS : In x (A ++ B)).
    { destruct (scan_spec _ _ _ _ SC) as [X1 [X2|[l1 [l2 [X2 X3]]]]].
      - destruct (seenIs_cases (clearSeen f t) (A ++ B) x SI') as [[->|[_ Z]]|]; auto.
        + intros q Hq. apply HS. rewrite in_app_iff in *. cbn; tauto.
        + right. rewrite T, in_app_iff. left. now apply in_rev in X1.
        + exfalso. unfold lv in Lx at 1. cbn [fst lit_true] in Lx. rewrite (to_var0 _ _ TO) in Lx. lia.
        + lia.
      - exfalso. assert (X4 : length l2 < levelStart E (lv E t)).
        { subst rt. rewrite app_length in *. cbn in *. lia. }
        assert (X5 : In x t1).
        { assert (T' : v_trail E = rev l2 ++ x :: (rev l1 ++ t :: pop)). { rewrite T, X2, rev_app_distr. cbn. rewrite <- !app_assoc. reflexivity. }
          rewrite D1 in T'. clear - T' X4 D2. rewrite <- D2, <- (rev_length l2) in X4. revert T' X4. generalize (rev l2) as u. generalize (rev l1 ++ t :: pop) as w.
          clear D2. revert t1. induction t1 as [|y t1 IHt]; intros w u T' X4; [cbn in X4; lia|]. destruct u as [|z u]; cbn in T'.
          - injection T' as -> _. cbn; auto.
          - injection T' as _ T'. right. eapply IHt; eauto. cbn in X4. lia. }
        apply D5 in X5. lia. }
    destruct (markAll_spec (rev r) (clearSeen f t) (length (A ++ B))) as [new [M1 [M2 [M3 [M4 [M5 M6]]]]]].
    destruct (markAll (rev r) (clearSeen f t) (length (A ++ B))) as [f1 m1]. cbn [fst snd] in *.
    assert (RE : forall q, In q r -> q = lit_true \/ In q rt).
    { intros q Hq. pose proof (to_reason _ _ TO t r q Tt Rt Hq) as X. destruct (earlier_prefix G E TO _ _ _ _ T X) as [|Y]; auto. right. now apply in_rev. }
    assert (RTt : forall q, In q rt -> In q (v_trail E)) by (intros q Hq; rewrite T, in_app_iff; left; now apply in_rev in Hq).
    assert (NW : forall q, In q new -> In q rt /\ In q (v_trail E) /\ 0 < lv E q <= k /\ In q r).
    { intros q Hq. apply M5 in Hq as [Q1 Q2]. apply in_rev in Q1. assert (QR : In q rt).
      { destruct (RE q Q1) as [->|]; auto. exfalso. unfold seen in Q2. rewrite SI' in Q2. cbn [fst lit_true] in Q2. rewrite (fo_seen0 _ _ FO) in Q2. discriminate. }
      sp; auto.
      - destruct (lv E q) eqn:L0; [|lia]. exfalso. unfold seen in Q2. rewrite SI' in Q2. apply orb_false_iff in Q2 as [Q2 _].
        assert (Z : seen f0 q = true) by (now apply (fo_seen _ _ FO q (RTt q QR))). unfold seen in Z. congruence.
      - pose proof (to_sorted _ _ TO _ _ _ q T ltac:(now apply in_rev in QR)). destruct (HT t) as [_ [_ Z]]; [rewrite !in_app_iff; cbn; auto|]. lia. }
    assert (m1 = length ((A ++ B) ++ new)) by (rewrite app_length; lia). subst m1.
    assert (INC : forall q, In q (D ++ (A ++ B)) -> In q (D ++ (A ++ t :: B))). { intros q. rewrite !in_app_iff. cbn. tauto. }
    destruct (IH (t :: pop) f1 ((A ++ B) ++ new) D mx tg) as [f' [D' [W1 [W2 [W3 [W4 [W5 [W6 [W7 W8]]]]]]]]]; auto.
    + intros v. rewrite M3, SI'. rewrite (memv_app _ (A ++ B) new). now rewrite orb_assoc.
    + assert (N1 : NoDup (map fst (p :: D ++ (A ++ B)))).
      { cbn [map] in *. inversion ND as [|y m N1 N2]; subst. rewrite !map_app in *. cbn [map] in *. rewrite app_assoc in N2. apply nodup_mid in N2 as [N2 N3]. rewrite <- app_assoc in N2.
        constructor; auto. intros Z. apply N1. rewrite !in_app_iff in *. cbn. tauto. }
      rewrite (app_assoc D (A ++ B) new). change (p :: (D ++ A ++ B) ++ new) with ((p :: D ++ A ++ B) ++ new). rewrite map_app. apply nodup_app2; auto.
      intros v V1 V2. apply in_map_iff in V2 as [q [V2 V3]]. destruct (M5 q V3) as [_ V4]. apply NW in V3 as [V5 [V6 [V7 V8]]].
      apply in_map_iff in V1 as [y [V1 V9]]. 
      assert (YT : In y (v_trail E)). { destruct V9 as [<-|V9]; auto. now apply HT, INC. }
      assert (y = q) by (apply (nd_eq G E TO); auto; congruence). subst y.
      destruct V9 as [<-|V9]; [lia|]. apply in_app_iff in V9 as [V9|V9].
      * (* q in D: not among the remaining trail *)
        now apply (DR q V9), or_intror.
      * unfold seen in V4. rewrite SI' in V4. apply orb_false_iff in V4 as [_ V4]. apply memv_notin in V4. apply V4. now apply in_map.
    + intros q. rewrite in_app_iff. intros [Hq|Hq]; auto. now apply NW.
    + intros q Hq Z. apply (DR q Hq). cbn; auto.
    + intros q. rewrite app_assoc, in_app_iff. intros [Hq|Hq]; [apply HT; auto|]. apply NW in Hq. tauto.
    + intros a Ga. assert (CS : (exists q, In q (p :: D ++ A ++ B) /\ holds a q = false) \/ holds a t = false).
      { destruct (RF a Ga) as [q [[<-|Hq] Hf]]; [left; exists p; cbn; auto|]. rewrite !in_app_iff in Hq. cbn in Hq.
        destruct Hq as [Hq|[Hq|[<-|Hq]]]; auto; left; exists q; (split; [right; rewrite !in_app_iff; auto|auto]). }
      destruct CS as [[q [Q1 Q2]]|Ft].
      * exists q. split; auto. destruct Q1 as [<-|Q1]; [cbn; auto|]. right. rewrite !in_app_iff in *. tauto.
      * destruct (existsb (fun y => negb (holds a y)) r) eqn:EX.
        -- apply existsb_exists in EX as [y [Y1 Y2]]. apply negb_true_iff in Y2. exists y. split; auto. right.
           destruct (M6 y) as [Z|Z]; [now apply in_rev in Y1| |].
           ++ destruct (seenIs_cases (clearSeen f t) (A ++ B) y SI') as [Z'|Z']; auto.
              ** intros q Hq. apply HS. rewrite in_app_iff in *. cbn; tauto.
              ** destruct (RE y Y1); auto.
              ** rewrite (top_holds G E TO a y Ga Z') in Y2. discriminate.
              ** rewrite !in_app_iff in *. tauto.
           ++ apply memv_in in Z as [z [Z1 Z2]]. destruct (NW z Z1) as [Z3 [Z4 [Z5 Z6]]].
              assert (YT : In y (v_trail E)). { destruct (RE y Y1) as [->|]; auto. exfalso. apply (trail_lit_true G E TO z Z4); [lia|exact Z2]. }
              assert (z = y) by (apply (nd_eq G E TO); auto). subst z. rewrite !in_app_iff. auto.
        -- exfalso. rewrite (to_valid _ _ TO t r a Tt Rt Ga) in Ft; [discriminate|]. intros y Hy.
           destruct (holds a y) eqn:HX; auto. exfalso. enough (K : true = false) by discriminate. rewrite <- EX. symmetry. apply existsb_exists. exists y. rewrite HX. auto.
    + intros Z _. exists x. split; [apply in_app_iff; auto|]. destruct H0 as [s [S1 S2]]; [auto|now destruct A|]. pose proof (Lt s S1).
      destruct (HT x) as [_ [_ Z1]]; [apply INC, in_app_iff; auto|]. lia.
    + exists f', D'. sp; auto.
      * rewrite <- W1. f_equal. rewrite !app_length. reflexivity.
      * rewrite W3, M2. reflexivity.
      * intros _. apply W7. intros Z. apply app_eq_nil in Z as [_ Z]. apply app_eq_nil in Z as [Z _]. rewrite Z in XS. easy.
      * intros Z. now destruct A.
Qed.

Lemma map_neg2 : forall l : list lit, map neg (map neg l) = l.
Proof. induction l; cbn [map]; [auto|]. now rewrite neg_neg, IHl. Qed.
Definition maxv (D : list lit) (m : nat) : nat := fold_left (fun m q => Nat.max m (fst q)) D m.
Lemma maxv_perm : forall D D', Permutation D D' -> forall m, maxv D m = maxv D' m.
Proof.
  intros D D' P. induction P as [|x l l' P IH|x y l|l l' l'' P1 IH1 P2 IH2]; intros m.
  - reflexivity.
  - apply IH.
  - unfold maxv. cbn [fold_left]. f_equal. lia.
  - rewrite IH1. apply IH2.
Qed.
Lemma nodup_length_le : forall l : list nat, length (nodup Nat.eq_dec l) <= length l.
Proof. intros l. apply NoDup_incl_length; [apply NoDup_nodup|]. intros x Hx. now apply nodup_In in Hx. Qed.
Lemma nodup_length_eq : forall l l' : list nat, (forall x, In x l <-> In x l') -> length (nodup Nat.eq_dec l) = length (nodup Nat.eq_dec l').
Proof.
  intros l l' H. apply Nat.le_antisymm; apply NoDup_incl_length; try apply NoDup_nodup; intros x Hx; apply nodup_In; apply nodup_In in Hx; apply H; auto.
Qed.
Lemma memv_perm : forall v K K', Permutation K K' -> memv v K = memv v K'.
Proof.
  intros v K K' P. apply eq_true_iff_eq. rewrite !memv_in. split; intros [q [A B]]; exists q; (split; [|auto]).
  - eapply Permutation_in; eauto.
  - eapply Permutation_in; [apply Permutation_sym|]; eauto.
Qed.

Definition tagOk (r : out) (cs : list lit) : Prop :=
  (In (neg (o_tag o)) cs -> r_tagged r = true) /\ (r_tagged r = true -> exists l, In l cs /\ fst l = fst (o_tag o)).

Lemma finalize_spec : forall rep f K R rt pop, v_root E < dl E -> v_trail E = rev rt ++ p :: pop -> pre G E f0 p f K R ->
  exists r D, finalize E o rep (p :: rt) (neg p :: map neg K) f = Ok r /\ r_cc r = neg p :: map neg D /\
    (forall v, f_seen (r_fl r) v = f_seen f0 v) /\ (forall l, f_mark (r_fl r) l = true -> In l (map (lv E) R)) /\
    assertingAt E (r_cc r) (r_level r) /\ ((rep = 1 \/ rep = 3 -> noFlips E) -> refutes G (p :: D)) /\
    (rep = 0 -> Permutation D K /\ r_lbd r = lbdOf E (r_cc r)) /\ lbdOf E (r_cc r) <= r_lbd r <= length (r_cc r) /\
    tagOk r (map neg D) /\ r_max r = maxv D (fst p).
Proof.
  intros rep f K R rt pop HR T P. unfold finalize.
  set (n0 := Fin f 1 0 0 1 (fst (neg p)) false).
  destruct (finLoop_spec E DL o p Lp K 1 n0 ltac:(auto)) as [F1 [F2 [F3 [F4 [F5 [_ F6]]]]]].
  assert (LB : n_lbd (finLoop E o 1 (map neg K) n0) = lbdOf E (neg p :: map neg K)).
  { rewrite (finLoop_lbd E DL o p Lp K 1 n0 []).
    - unfold lbdOf. cbn [app]. f_equal. f_equal. cbn [map]. unfold lvr. rewrite <- Lp. change (lv E (neg p)) with (lv E p). f_equal. rewrite !map_map. reflexivity.
    - intros q Hq. left. now apply (pr_mark2 _ _ _ _ _ _ _ P).
    - easy.
    - intros q Hq. now apply (pr_lv _ _ _ _ _ _ _ P).
    - easy.
    - auto.
    - cbn. destruct (in_dec Nat.eq_dec (lvr E (dl E)) []); auto.
    - cbn. split; easy. }
  set (n := finLoop E o 1 (map neg K) n0) in *. cbn [n0 n_f n_max n_tag n_level n_pos] in F1, F2, F3, F4, F5, F6.
  assert (FS : forall v, f_seen (n_f n) v = f_seen f0 v).
  { intros v. rewrite F1. destruct (f_seen f0 v) eqn:S0.
    - rewrite (pr_seen2 _ _ _ _ _ _ _ P v S0). cbn. apply negb_true_iff, memv_notin. intros Z. apply in_map_iff in Z as [q [Z1 Z2]].
      rewrite <- Z1, (pos_not0 E f0 FO DL p Lp) in S0; [discriminate|now apply (pr_tr _ _ _ _ _ _ _ P)|now apply (pr_lv _ _ _ _ _ _ _ P)].
    - destruct (f_seen f v) eqn:S1; auto. destruct (pr_seen1 _ _ _ _ _ _ _ P v S1) as [Z|Z]; [congruence|]. cbn. apply negb_false_iff, memv_in.
      apply in_map_iff in Z as [q [Z1 Z2]]. eauto. }
  assert (FM : forall l, f_mark (n_f n) l = true -> In l (map (lv E) R)).
  { intros l Hl. rewrite F2 in Hl. apply andb_true_iff in Hl as [H1 H2]. destruct (pr_mark1 _ _ _ _ _ _ _ P l H1) as [Z|]; auto.
    exfalso. apply negb_true_iff in H2. apply in_map_iff in Z as [q [Z1 Z2]]. enough (true = false) by discriminate. rewrite <- H2. symmetry.
    apply existsb_exists. exists q. rewrite Z1, Nat.eqb_refl. auto. }
  assert (LV : K = [] /\ n_level n = 0 /\ n_pos n = 1 \/ exists k, n_pos n = S k /\ k < length K /\ lv E (nth k K lit_true) = n_level n /\ n_level n < dl E).
  { destruct F6 as [[L1 L2]|[k [K1 [K2 K3]]]].
    - left. destruct K as [|q K]; auto. exfalso. specialize (F5 q ltac:(cbn; auto)). pose proof (pr_lv _ _ _ _ _ _ _ P q ltac:(cbn; auto)). lia.
    - right. exists k. sp; auto. rewrite <- K3. apply (pr_lv _ _ _ _ _ _ _ P). now apply nth_In. }
  assert (CC : exists K', (if Nat.eqb (n_pos n) 1 then neg p :: map neg K else swap 1 (n_pos n) (neg p :: map neg K)) = neg p :: map neg K' /\ Permutation K K' /\
     (n_level n = 0 /\ K' = [] \/ exists d D', K' = d :: D' /\ lv E d = n_level n)).
  { destruct LV as [[-> [L1 ->]]|[k [K1 [K2 [K3 _]]]]].
    - exists []. cbn. sp; auto.
    - rewrite K1. destruct (swap1 (neg p) (map neg K) k) as [l' [S1 [S2 S3]]]; [now rewrite map_length|]. rewrite S1.
      exists (map neg l'). assert (NN : map neg (map neg l') = l') by (apply map_neg2).
      assert (NK : map neg (map neg K) = K) by (apply map_neg2).
      rewrite NN. sp; auto.
      + rewrite <- NK. now apply Permutation_map.
      + right. destruct l' as [|d D]; [apply Permutation_sym, Permutation_nil in S2; destruct K; [cbn in K2; lia|discriminate]|].
        exists (neg d), (map neg D). split; auto. cbn [nth] in S3. rewrite S3.
        rewrite <- K3. unfold lv. cbn [neg fst]. f_equal. rewrite (nth_indep (map neg K) lit_true (neg lit_true)) by (now rewrite map_length). rewrite map_nth. reflexivity. }
  destruct CC as [K' [CC [PK HD]]]. rewrite CC.
  assert (P' := pre_perm G E f0 p f K K' R PK P).
  assert (Lk : n_level n < dl E) by (destruct LV as [[_ [-> _]]|[k [_ [_ [_ Z]]]]]; auto).
  assert (LV' : forall q, In q K' -> In q (v_trail E) /\ 0 < lv E q <= n_level n).
  { intros q Hq. split; [now apply (pr_tr _ _ _ _ _ _ _ P')|]. split; [apply (pr_lv _ _ _ _ _ _ _ P' q Hq)|]. apply F5. eapply Permutation_in; [apply Permutation_sym|]; eauto. }
  assert (LBeq : lbdOf E (neg p :: map neg K') = lbdOf E (neg p :: map neg K)).
  { unfold lbdOf. apply nodup_length_eq. intros x. cbn [map In]. rewrite !map_map, !in_map_iff. split; (intros [Z|[q [Z1 Z2]]]; [auto|right; exists q; split; [auto|]]).
    - eapply Permutation_in; [apply Permutation_sym|]; eauto.
    - eapply Permutation_in; eauto. }
  assert (UIP : exists r D, (do '(f1, cc1, mx, tg) <- uipLoop E o (p :: rt) (fst (markAll (rev (map neg (tl (neg p :: map neg K')))) (n_f n) 0)) (length (neg p :: map neg K') - 1) [neg p] (fst (neg p)) false;
           Ok (Out cc1 (n_level n) (length cc1) tg mx f1)) = Ok r /\ r_cc r = neg p :: map neg D /\
    (forall v, f_seen (r_fl r) v = f_seen f0 v) /\ (forall l, f_mark (r_fl r) l = true -> In l (map (lv E) R)) /\
    assertingAt E (r_cc r) (r_level r) /\ refutes G (p :: D) /\
    lbdOf E (r_cc r) <= r_lbd r <= length (r_cc r) /\
    tagOk r (map neg D) /\ r_max r = maxv D (fst p)).
  { cbn [tl]. assert (NK : map neg (map neg K') = K') by (apply map_neg2). rewrite NK.
    destruct (markAll_spec (rev K') (n_f n) 0) as [new [_ [M2 [M3 [_ [M5 M6]]]]]]. destruct (markAll (rev K') (n_f n) 0) as [f1 m1]. cbn [fst snd] in *.
    assert (LN : length (neg p :: map neg K') - 1 = length K') by (cbn [length]; rewrite map_length; lia). rewrite LN.
    destruct (uip_spec (n_level n) Lk (p :: rt) pop f1 K' [] (fst p) false) as [f' [D' [W1 [W2 [W3 [W4 [W5 [W6 [W7 W8]]]]]]]]]; auto.
    - now rewrite rev_prefix.
    - intros v. rewrite M3, FS. f_equal. apply eq_true_iff_eq. rewrite !memv_in. split; intros [q [A B]].
      + exists q. split; auto. apply M5 in A as [A _]. now apply in_rev in A.
      + destruct (M6 q) as [Z|Z]; [now apply in_rev in A| |].
        * unfold seen in Z. rewrite FS in Z. destruct (LV' q A) as [Z1 Z2]. rewrite (pos_not0 E f0 FO DL p Lp) in Z; [discriminate|auto|lia].
        * rewrite B in Z. now apply memv_in in Z.
    - exact (pr_nd _ _ _ _ _ _ _ P').
    - intros q Hq. destruct (LV' q Hq) as [Z1 Z2]. rewrite T in Z1. apply in_app_iff in Z1 as [Z1|[<-|Z1]]; [right; now apply in_rev|lia|].
      exfalso. apply in_split in Z1 as [u1 [u2 Z1]]. rewrite Z1, app_comm_cons, app_assoc in T.
      pose proof (to_sorted _ _ TO _ _ _ p T ltac:(rewrite in_app_iff; cbn; auto)). lia.
    - exact (pr_ref _ _ _ _ _ _ _ P').
    - intros _ N. destruct HD as [[_ Z]|[d [D' [Z1 Z2]]]]; [contradiction|]. exists d. subst; cbn; auto.
    - easy.
    - cbn [app map fst neg] in *. change (fst (neg p)) with (fst p). rewrite W1. cbn [bind orb]. eexists _, D'. split; [reflexivity|]. cbn [r_cc r_fl r_level r_lbd r_tagged r_max]. sp; auto.
      + intros v. rewrite W2. cbn. apply orb_false_r.
      + intros l. rewrite W3, M2. apply FM.
      + apply asserting_intro; auto. destruct HD as [[Z1 Z2]|[d [D2 [Z1 Z2]]]].
        * left. split; auto.
        * right. destruct (W7 ltac:(subst; discriminate)) as [Y1 Y2]. destruct D' as [|d' D']; [contradiction|]. exists d', D'. cbn in Y2. auto.
      + unfold lbdOf. eapply Nat.le_trans; [apply nodup_length_le|]. now rewrite map_length.
      + split; cbn [r_tagged].
        * intros Z. apply in_map_iff in Z as [q [Z1 Z2]]. apply neg_inj in Z1. subst q. apply existsb_exists. exists (o_tag o). rewrite Nat.eqb_refl. auto.
        * intros Z. apply existsb_exists in Z as [q [Z1 Z2]]. apply Nat.eqb_eq in Z2. exists (neg q). split; [now apply in_map|auto]. }
  assert (DEC : exists r D, Ok (Out (neg p :: decSeq E (n_level n)) (n_level n) (S (n_level n)) (existsb (lit_eqb (neg (o_tag o))) (decSeq E (n_level n)))
           (fold_left (fun m x => Nat.max m (fst x)) (decSeq E (n_level n)) (fst (neg p))) (n_f n)) = Ok r /\ r_cc r = neg p :: map neg D /\
    (forall v, f_seen (r_fl r) v = f_seen f0 v) /\ (forall l, f_mark (r_fl r) l = true -> In l (map (lv E) R)) /\
    assertingAt E (r_cc r) (r_level r) /\ (noFlips E -> refutes G (p :: D)) /\
    lbdOf E (r_cc r) <= r_lbd r <= length (r_cc r) /\
    tagOk r (map neg D) /\ r_max r = maxv D (fst p)).
  { rewrite decSeq_decs. eexists _, (decs (n_level n)). split; [reflexivity|]. cbn [r_cc r_fl r_level r_lbd r_tagged r_max].
    assert (LD : forall k, length (decs k) = k) by (induction k; cbn; congruence). sp; auto.
    - apply asserting_intro; auto.
      + now apply decs_nd.
      + intros q Hq. apply decs_in in Hq as [i [Hi ->]]. destruct (dec_trail i ltac:(lia)) as [A [B _]]. rewrite B. auto.
      + destruct (n_level n) as [|m] eqn:EN; [auto|]. right. exists (decision E (S m)), (decs m). split; auto. apply dec_trail. lia.
    - intros NF a Ga. destruct (pr_ref _ _ _ _ _ _ _ P' a Ga) as [q [Q1 Q2]].
      destruct (existsb (fun q => negb (holds a q)) (p :: decs (n_level n))) eqn:EX.
      + apply existsb_exists in EX as [z [A B]]. exists z. split; auto. now apply negb_true_iff in B.
      + exfalso. assert (HK : forall q, In q (p :: decs (n_level n)) -> holds a q = true).
        { intros z Hz. destruct (holds a z) eqn:H; auto. enough (true = false) by discriminate. rewrite <- EX. symmetry. apply existsb_exists. exists z. rewrite H. auto. }
        destruct Q1 as [<-|Q1]; [rewrite HK in Q2; [discriminate|cbn; auto]|].
        rewrite (decs_hold (n_level n) a Lk NF Ga) in Q2; [discriminate| |apply LV'; auto|apply LV'; auto]. intros z Hz. apply HK. cbn; auto.
    - unfold lbdOf. eapply Nat.le_trans; [apply nodup_length_le|]. cbn [map length]. rewrite !map_length, LD. lia.
    - cbn [length]. rewrite map_length, LD. lia.
    - split; cbn [r_tagged].
      + intros Z. apply existsb_exists. exists (neg (o_tag o)). rewrite lit_eqb_refl. auto.
      + intros Z. apply existsb_exists in Z as [q [Z1 Z2]]. apply lit_eqb_eq in Z2. exists q. split; auto. subst. reflexivity.
    - unfold maxv. change (fst (neg p)) with (fst p). generalize (fst p). generalize (decs (n_level n)). clear. induction l as [|x l IH]; intros m; cbn; auto. }
  destruct rep as [|[|[|[|rep]]]]; cbn [Nat.eqb].
  - eexists _, K'. split; [reflexivity|]. cbn [r_cc r_fl r_level r_lbd r_tagged r_max]. rewrite LB, LBeq. sp; auto.
    + apply asserting_intro; auto. exact (pr_nd _ _ _ _ _ _ _ P').
    + intros _. exact (pr_ref _ _ _ _ _ _ _ P').
    + intros _. split; auto. now apply Permutation_sym.
    + unfold lbdOf. eapply Nat.le_trans; [apply nodup_length_le|]. cbn [map length]. rewrite !map_length, (Permutation_length PK). auto.
    + split; cbn [r_tagged]; rewrite F4; cbn [orb].
      * intros Z. apply existsb_exists. exists (neg (o_tag o)). rewrite lit_eqb_refl. split; auto. apply in_map_iff in Z as [q [Z1 Z2]]. rewrite <- Z1. apply in_map. eapply Permutation_in; [apply Permutation_sym|]; eauto.
      * intros Z. apply existsb_exists in Z as [q [Z1 Z2]]. apply lit_eqb_eq in Z2. exists q. split; [|subst; reflexivity]. apply in_map_iff in Z1 as [x [X1 X2]]. subst q. apply in_map. eapply Permutation_in; eauto.
    + rewrite F3. now apply maxv_perm.
  - destruct DEC as [r [D [D1 [D2 [D3 [D4 [D5 [D6 [D7 [D8 D9]]]]]]]]]]. exists r, D. sp; auto; try tauto. discriminate.
  - destruct UIP as [r [D [D1 [D2 [D3 [D4 [D5 [D6 [D7 [D8 D9]]]]]]]]]]. exists r, D. sp; auto; try tauto. discriminate.
  - destruct (Nat.ltb (66 * dl E) (100 * n_lbd n)).
    + destruct DEC as [r [D [D1 [D2 [D3 [D4 [D5 [D6 [D7 [D8 D9]]]]]]]]]]. exists r, D. sp; auto; try tauto. discriminate.
    + destruct UIP as [r [D [D1 [D2 [D3 [D4 [D5 [D6 [D7 [D8 D9]]]]]]]]]]. exists r, D. sp; auto; try tauto. discriminate.
  - destruct UIP as [r [D [D1 [D2 [D3 [D4 [D5 [D6 [D7 [D8 D9]]]]]]]]]]. exists r, D. sp; auto; try tauto. discriminate.
Qed.
End U.
