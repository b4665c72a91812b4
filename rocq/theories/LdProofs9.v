(** C51: the destructor. *)
From Coq Require Import List Arith Bool Lia Permutation.
From Verif Require Import Base LdSpec LdModel LdProofs LdProofs2 LdProofs3 LdProofs4 LdProofs5 LdProofs6 LdProofs7 LdProofs8.
Import ListNotations.

Section P.
Variables (m : nat) (peers : nat -> nat -> bool).
Hypothesis M2 : 2 <= m.
Notation Inv := (Inv m peers).
Notation Sem := (Sem m peers).
Notation Ref := (Ref m peers).
Notation pubd := (pubd m).

Definition share0 (tr : list ev) (x : item) (i : nat) : nat :=
  if i =? it_from x then (if it_keep x && negb (relb tr i x) then 1 else 0) else if goesTo peers i x then (if relb tr i x then 0 else 1) else 0.

Section D.
Variable PB : item -> Prop.
Hypothesis PBinj : forall x y, PB x -> PB y -> it_id x = it_id y -> x = y.
Record DI (tr : list ev) (s : st) (L : nat -> list nat) : Prop := {
  d_lk : forall i, i < m -> links (s_next s) (fun _ _ => False) (L i);
  d_hd : forall i, i < m -> exists l, L i = s_tail s i :: l;
  d_ok : forall i a, i < m -> In a (L i) -> 0 < a < s_brk s;
  d_nd : forall i, i < m -> NoDup (L i);
  d_dj : forall i j a, i < m -> j < m -> In a (L i) -> In a (L j) -> i = j;
  d_dt : forall i a, i < m -> In a (tl (L i)) -> s_data s a <> None;
  d_pn : forall i, i < m -> NoDup (pend s (L i));
  d_px : forall i x, i < m -> In x (pend s (L i)) -> PB x /\ goesTo peers i x = true /\ relb tr i x = false;
  d_rf : forall x, PB x -> s_refs s (it_id x) = sumTo m (share0 tr x);
  d_dl : forall x, In x (deleted tr) <-> PB x /\ s_refs s (it_id x) = 0;
  d_dn : NoDup (deleted tr) }.

Lemma drain_one tr s L t a b l x : DI tr s L -> t < m -> L t = a :: b :: l -> s_data s b = Some x ->
  exists s' e, release (w_data (w_data (w_tail s t b) a (Some x)) b None) x 1 = Ok (s', e) /\ DI (tr ++ Rel t x :: e) s' (fset L t (b :: l)) /\
    s_next s' = s_next s /\ s_top s' = s_top s /\ s_brk s' = s_brk s /\ (e = [] \/ e = [Del x]) /\
    pend s (L t) = x :: pend s' (b :: l) /\ (forall i, i < m -> i <> t -> pend s' (L i) = pend s (L i)).
Proof.
  intros H T EL ED. pose proof (d_nd _ _ _ H t T) as ND. rewrite EL in ND. inversion_clear ND as [|? ? N1 N2]. inversion_clear N2 as [|? ? N3 N4].
  assert (In x (pend s (L t))) as XP by (rewrite EL; unfold pend; cbn; rewrite ED; now left).
  destruct (d_px _ _ _ H t x T XP) as (PX & GX & RX). assert (t <> it_from x) as NF by (intros Q; unfold goesTo in GX; rewrite Q, Nat.eqb_refl in GX; discriminate).
  assert (share0 tr x t = 1) as S1 by (unfold share0; destruct (Nat.eqb_spec t (it_from x)); [congruence|now rewrite GX, RX]).
  pose proof (d_rf _ _ _ H x PX) as RF.
  assert (1 <= s_refs s (it_id x)) as L1.
  { rewrite RF. rewrite (sum_one m (share0 tr x) (fun i => if i =? t then 0 else share0 tr x i) t T S1); [lia|now rewrite Nat.eqb_refl|]. intros i I NE. destruct (Nat.eqb_spec i t); congruence. }
  unfold release. cbn [s_refs w_data w_tail]. destruct (Nat.ltb_spec (s_refs s (it_id x)) 1); [lia|].
  eexists _, _. split; [reflexivity|]. set (e := if _ =? 0 then [Del x] else []). set (s' := w_refs _ _ _).
  assert (e = [] \/ e = [Del x]) as EE by (subst e; destruct (_ =? 0); auto).
  assert (forall y, In y l -> s_data s' y = s_data s y) as DL.
  { intros y Y. cbn. rewrite fset_other by (intros ->; contradiction). apply fset_other. intros ->. apply N1. now right. }
  assert (forall i y, i < m -> i <> t -> In y (L i) -> s_data s' y = s_data s y) as DO.
  { intros i y I NE Y. cbn. rewrite fset_other by (intros ->; apply NE; apply (d_dj _ _ _ H i t b I T Y); rewrite EL; cbn; auto).
    apply fset_other. intros ->. apply NE. apply (d_dj _ _ _ H i t a I T Y). rewrite EL. now left. }
  assert (pend s (L t) = x :: pend s' (b :: l)) as PT.
  { rewrite EL. unfold pend at 1. cbn [tl flat_map]. rewrite ED. cbn [optl app]. f_equal. symmetry. apply (pend_ext s s' (b :: l)). cbn. exact DL. }
  assert (forall i, i < m -> i <> t -> pend s' (L i) = pend s (L i)) as PO by (intros i I NE; apply pend_ext; intros y Y; apply (DO i); auto; now apply in_tl).
  assert (forall i y, relb (tr ++ Rel t x :: e) i y = relb tr i y || ((t =? i) && eqi x y)) as RL by (intros; now apply relb_one).
  pose proof (d_pn _ _ _ H t T) as PN. rewrite PT in PN. inversion_clear PN as [|? ? PN1 PN2].
  assert (forall y, y <> x -> forall i, share0 (tr ++ Rel t x :: e) y i = share0 tr y i) as SY.
  { intros y NE i. unfold share0. rewrite RL, (eqi_false x y) by auto. now rewrite andb_false_r, orb_false_r. }
  assert (sumTo m (share0 tr x) = S (sumTo m (share0 (tr ++ Rel t x :: e) x))) as SX.
  { apply (sum_one m _ _ t T S1).
    - unfold share0. rewrite RL, eqi_refl, Nat.eqb_refl, orb_true_r, GX. destruct (Nat.eqb_spec t (it_from x)); [congruence|reflexivity].
    - intros i I NE. unfold share0. rewrite RL. destruct (Nat.eqb_spec t i); [congruence|]. cbn. now rewrite orb_false_r. }
  assert (deleted (tr ++ Rel t x :: e) = deleted tr ++ deleted e) as DT by (rewrite deleted_app; reflexivity).
  assert (incl (b :: l) (L t)) as INC by (rewrite EL; intros y Y; now right).
  split; [|repeat split; auto].
  constructor.
  - intros i I. cbn [s_next s' w_refs w_data w_tail]. pose proof (d_lk _ _ _ H i I) as K. destruct (Nat.eq_dec i t) as [->|NE]; [rewrite fset_same|now rewrite fset_other].
    rewrite EL in K. apply K.
  - intros i I. cbn [s_tail s' w_refs w_data w_tail]. destruct (Nat.eq_dec i t) as [->|NE]; [rewrite !fset_same; eauto|]. rewrite !fset_other by exact NE. now apply (d_hd _ _ _ H).
  - intros i y I Y. cbn [s_brk s' w_refs w_data w_tail]. apply (d_ok _ _ _ H i y I). destruct (Nat.eq_dec i t) as [->|NE]; [rewrite fset_same in Y; auto|now rewrite fset_other in Y].
  - intros i I. destruct (Nat.eq_dec i t) as [->|NE]; [rewrite fset_same; now constructor|rewrite fset_other by exact NE; now apply (d_nd _ _ _ H)].
  - intros i j y I J Y Y'. apply (d_dj _ _ _ H i j y I J).
    + destruct (Nat.eq_dec i t) as [->|NE]; [rewrite fset_same in Y; auto|now rewrite fset_other in Y].
    + destruct (Nat.eq_dec j t) as [->|NE]; [rewrite fset_same in Y'; auto|now rewrite fset_other in Y'].
  - intros i y I Y. destruct (Nat.eq_dec i t) as [->|NE].
    + rewrite fset_same in Y. cbn in Y. rewrite DL by exact Y. apply (d_dt _ _ _ H t y T). rewrite EL. cbn. now right.
    + rewrite fset_other in Y by exact NE. rewrite (DO i) by (auto; now apply in_tl). now apply (d_dt _ _ _ H i).
  - intros i I. destruct (Nat.eq_dec i t) as [->|NE]; [now rewrite fset_same|]. rewrite fset_other, PO by auto. now apply (d_pn _ _ _ H).
  - intros i y I Y. rewrite RL. destruct (Nat.eq_dec i t) as [->|NE].
    + rewrite fset_same in Y. destruct (d_px _ _ _ H t y T) as (K1 & K2 & K3); [rewrite PT; now right|]. split; [exact K1|]. split; [exact K2|]. rewrite K3, eqi_false by (intros ->; contradiction). now rewrite andb_false_r.
    + rewrite fset_other, PO in Y by auto. destruct (d_px _ _ _ H i y I Y) as (K1 & K2 & K3). split; [exact K1|]. split; [exact K2|]. rewrite K3. destruct (Nat.eqb_spec t i); [congruence|reflexivity].
  - intros y Y. cbn [s_refs s' w_refs w_data w_tail]. destruct (item_dec y x) as [->|NE].
    + rewrite fset_same. lia.
    + rewrite fset_other by (intros Q; apply NE; now apply PBinj). rewrite (d_rf _ _ _ H y Y). apply sum_ext. intros i I. symmetry. now apply SY.
  - intros y. rewrite DT, in_app_iff, (d_dl _ _ _ H y). cbn [s_refs s' w_refs w_data w_tail]. destruct (item_dec y x) as [->|NE].
    + rewrite fset_same. split.
      * intros [[_ K]|K]; [lia|]. split; [exact PX|]. subst e. destruct (Nat.eqb_spec (s_refs s (it_id x) - 1) 0); [assumption|destruct K].
      * intros [_ K]. right. subst e. rewrite K. now left.
    + assert (~ In y (deleted e)) as NI by (destruct EE as [->| ->]; cbn; intuition congruence). split.
      * intros [[K1 K2]|K]; [|tauto]. rewrite fset_other by (intros Q; apply NE; now apply PBinj). auto.
      * intros [K1 K2]. left. rewrite fset_other in K2 by (intros Q; apply NE; now apply PBinj). auto.
  - rewrite DT. destruct EE as [Q|Q]; rewrite Q; cbn; [rewrite app_nil_r; apply (d_dn _ _ _ H)|]. apply NoDup_snoc; [apply (d_dn _ _ _ H)|].
    intros K. apply (d_dl _ _ _ H) in K. lia.
Qed.

Lemma drain_ok n : forall tr s L t, DI tr s L -> t < m -> length (L t) <= S n ->
  exists s' e z, drain n t s = Ok (s', e) /\ DI (tr ++ e) s' (fset L t [z]) /\ s_next s' = s_next s /\ s_top s' = s_top s /\
    (forall i x, relb (tr ++ e) i x = true <-> relb tr i x = true \/ i = t /\ In x (pend s (L t))) /\ (forall i, i < m -> i <> t -> pend s' (L i) = pend s (L i)).
Proof.
  assert (forall tr s L t a, DI tr s L -> t < m -> L t = [a] -> DI (tr ++ []) s (fset L t [a]) /\ (forall i x, relb (tr ++ []) i x = true <-> relb tr i x = true \/ i = t /\ In x (pend s (L t)))) as BASE.
  { intros tr s L t a H T E. rewrite app_nil_r. assert (forall i, fset L t [a] i = L i) as F by (intros i; unfold fset; destruct (Nat.eqb_spec i t) as [->|]; auto). split.
    - destruct H. constructor; auto; intros; rewrite ?F in *; eauto.
    - intros i x. rewrite E. cbn. tauto. }
  induction n as [|n IH]; intros tr s L t H T LN.
  - destruct (d_hd _ _ _ H t T) as [l E]. destruct l as [|b l]; [|rewrite E in LN; cbn in LN; lia]. destruct (BASE tr s L t _ H T E) as [B1 B2].
    exists s, [], (s_tail s t). split; [reflexivity|]. split; [exact B1|]. split; [reflexivity|]. split; [reflexivity|]. split; [exact B2|auto].
  - cbn [drain]. destruct (d_hd _ _ _ H t T) as [l E]. assert (ok s (s_tail s t) = true) as OK.
    { pose proof (d_ok _ _ _ H t (s_tail s t) T) as K. rewrite E in K. specialize (K (or_introl eq_refl)). unfold ok. apply andb_true_iff. split; apply Nat.ltb_lt; lia. }
    rewrite OK. cbn [negb]. pose proof (d_lk _ _ _ H t T) as LK. rewrite E in LK. destruct l as [|b l].
    + cbn in LK. rewrite LK. cbn [Nat.eqb]. destruct (BASE tr s L t _ H T E) as [B1 B2]. exists s, [], (s_tail s t). split; [reflexivity|]. split; [exact B1|]. split; [reflexivity|]. split; [reflexivity|]. split; [exact B2|auto].
    + destruct LK as [[LK|[_ []]] _]. rewrite LK. assert (ok s b = true /\ b <> 0) as [OB NB].
      { pose proof (d_ok _ _ _ H t b T) as K. rewrite E in K. specialize (K (or_intror (or_introl eq_refl))). split; [|lia]. unfold ok. apply andb_true_iff. split; apply Nat.ltb_lt; lia. }
      rewrite OB. cbn [negb]. destruct (Nat.eqb_spec b 0) as [|_]; [contradiction|].
      destruct (s_data s b) as [x|] eqn:ED; [|exfalso; apply (d_dt _ _ _ H t b T); [rewrite E; now left|exact ED]].
      destruct (drain_one tr s L t _ b l x H T E ED) as (s1 & e1 & RE & H1 & N1 & T1 & K1 & EE & P1 & P2). rewrite RE. cbn [bind].
      destruct (IH (tr ++ Rel t x :: e1) s1 (fset L t (b :: l)) t H1 T) as (s2 & e2 & z & DR & H2 & N2 & T2 & R2 & O2).
      { rewrite fset_same. rewrite E in LN. cbn in LN |- *. lia. }
      rewrite DR. cbn [bind]. exists s2, (Rel t x :: e1 ++ e2), z. split; [reflexivity|].
      replace (tr ++ Rel t x :: e1 ++ e2) with ((tr ++ Rel t x :: e1) ++ e2) by (rewrite <- app_assoc; reflexivity). split; [|split; [congruence|split; [congruence|split]]].
      * assert (forall i, fset (fset L t (b :: l)) t [z] i = fset L t [z] i) as F by (intros i; unfold fset; now destruct (i =? t)).
        destruct H2. constructor; auto; intros; rewrite <- ?F in *; eauto.
      * intros i y. rewrite R2, fset_same, relb_one by exact EE. rewrite P1. cbn. rewrite orb_true_iff, andb_true_iff, Nat.eqb_eq, eqi_true. intuition congruence.
      * intros i I NE. specialize (O2 i I NE). rewrite fset_other in O2 by exact NE. rewrite O2. auto.
Qed.
Lemma drainAll_ok n k : k <= m -> forall tr s L, DI tr s L -> (forall i, i < m -> length (L i) <= S n) ->
  exists s' e L', drainAll n k s = Ok (s', e) /\ DI (tr ++ e) s' L' /\ s_next s' = s_next s /\ s_top s' = s_top s /\
    (forall i x, relb (tr ++ e) i x = true <-> relb tr i x = true \/ i < k /\ In x (pend s (L i))).
Proof.
  induction k as [|k IH]; intros K tr s L H LN.
  - exists s, [], L. rewrite app_nil_r. split; [reflexivity|]. split; [exact H|]. split; [reflexivity|]. split; [reflexivity|]. intros i x. split; [now left|]. intros [Q|[Q _]]; [exact Q|lia].
  - cbn [drainAll]. destruct (drain_ok n tr s L k H ltac:(lia) (LN k ltac:(lia))) as (s1 & e1 & z & D1 & H1 & N1 & T1 & R1 & O1). rewrite D1. cbn [bind].
    destruct (IH ltac:(lia) (tr ++ e1) s1 (fset L k [z]) H1) as (s2 & e2 & L2 & D2 & H2 & N2 & T2 & R2).
    { intros i I. unfold fset. destruct (i =? k); [cbn; lia|auto]. }
    rewrite D2. cbn [bind]. exists s2, (e1 ++ e2), L2. rewrite app_assoc. split; [reflexivity|]. split; [exact H2|]. split; [congruence|]. split; [congruence|].
    intros i x. rewrite R2, R1. split.
    + intros [[Q|[-> Q]]|[Q1 Q2]]; [now left|right; split; [lia|exact Q]|]. right. split; [lia|]. rewrite fset_other, O1 in Q2 by lia. exact Q2.
    + intros [Q|[Q1 Q2]]; [now left; left|]. destruct (Nat.eq_dec i k) as [->|NE]; [left; right; auto|]. right. split; [lia|]. rewrite fset_other, O1 by lia. exact Q2.
Qed.
End D.

Lemma freeAll_chain s l : forall a n, chain (s_next s) a l -> length l <= n -> freeAll n a s = l.
Proof.
  induction l as [|b l IH]; intros a n C L; cbn in C.
  - subst a. destruct n; reflexivity.
  - destruct C as (-> & NB & C). destruct n as [|n]; [cbn in L; lia|]. cbn. destruct (Nat.eqb_spec b 0); [contradiction|]. f_equal. apply IH; [exact C|]. cbn in L. lia.
Qed.
Lemma freeAll_ext s s' n : s_next s' = s_next s -> forall a, freeAll n a s' = freeAll n a s.
Proof. intros E. induction n as [|n IH]; intros a; cbn; [reflexivity|]. destruct (a =? 0); [reflexivity|]. now rewrite E, IH. Qed.

Lemma list_max_ge {A} (f : A -> nat) l x : In x l -> f x <= list_max (map f l).
Proof. intros I. assert (Forall (fun y => y <= list_max (map f l)) (map f l)) as K by (now apply list_max_le). rewrite Forall_forall in K. apply K. now apply in_map. Qed.

(** The destructor: all queues and blocks are freed, and exactly the nogoods that no client holds are deleted. *)
Lemma destructor tr s : exec m peers tr s -> (forall t, t < m -> s_pc s t = Idle) ->
  exists n, forall k, n <= k -> exists s' e, drainAll k m s = Ok (s', e) /\ NoDup (deleted (tr ++ e)) /\
    (forall x, In x (deleted (tr ++ e)) <-> (exists u, u < m /\ In x (published tr u)) /\
       forall t, t < m -> In x (received tr t) \/ it_keep x = true /\ t = it_from x -> In (Rel t x) tr) /\
    Permutation (freeAll k (s_top s') s') (blocks tr).
Proof.
  intros EX ID. destruct (exec_inv m peers M2 tr s EX) as (g & HI & HS & HR).
  assert (forall i, i < m -> trans s g i = pend s (gL g i)) as TR by (intros i I; unfold trans; now rewrite ID).
  assert (forall i x, i < m -> curb (s_pc s i) x = false) as CU by (intros i x I; now rewrite ID).
  assert (DI (pubd tr) tr s (gL g)) as H.
  { constructor.
    - intros i I. eapply links_ext; [reflexivity| |apply (i_lk _ _ _ _ HI i I)]. intros a b (u & x & U & K). cbn. rewrite ID in K by exact U. discriminate.
    - apply (i_hd _ _ _ _ HI).
    - intros i a I A. eapply in_L_ok; eauto.
    - apply (i_nd _ _ _ _ HI).
    - intros i j a I J A A'. pose proof (i_qu _ _ _ _ HI i a I A) as Q1. pose proof (i_qu _ _ _ _ HI j a J A') as Q2. congruence.
    - apply (i_dt _ _ _ _ HI).
    - intros i I. pose proof (sem_nodup m peers tr s g i HS I) as N. rewrite TR in N by exact I. clear - N. induction (received tr i) as [|y r IH]; [exact N|]. inversion_clear N; auto.
    - intros i x I X. pose proof (sem_nodup m peers tr s g i HS I) as N. rewrite TR in N by exact I.
      destruct (sem_recv m peers tr s g i x HS I) as [K1 K2]; [rewrite TR by exact I; apply in_app_iff; now right|]. split; [exact K1|]. split; [exact K2|].
      destruct (relb tr i x) eqn:Q; [|reflexivity]. exfalso. apply relb_in in Q. apply (r_rel _ _ _ _ HR) in Q. destruct Q as (_ & [Q|Q] & _).
      + apply in_split in Q. destruct Q as (l1 & l2 & Q). rewrite Q, <- app_assoc in N. cbn in N. apply NoDup_remove_2 in N. apply N. apply in_app_iff. right. apply in_app_iff. now right.
      + apply (z_pub _ _ _ _ _ HS i x I) in Q. destruct Q as [Q _]. unfold goesTo in K2. rewrite Q, Nat.eqb_refl in K2. discriminate.
    - intros x X. rewrite (r_refs _ _ _ _ HR x X). apply sum_ext. intros i I. unfold share0, LdProofs5.share. destruct (i =? it_from x); [reflexivity|]. destruct (goesTo peers i x); [reflexivity|].
      destruct X as (u & U & X). destruct (z_pub _ _ _ _ _ HS u x U X) as [-> _]. now rewrite CU.
    - apply (r_del _ _ _ _ HR).
    - apply (r_dnd _ _ _ _ HR). }
  exists (list_max (map (fun i => length (gL g i)) (seq 0 m)) + length (gB g)). intros k K.
  destruct (drainAll_ok (pubd tr) (z_inj _ _ _ _ _ HS) k m (le_n m) tr s (gL g) H) as (s' & e & L' & D & H' & N' & T' & R').
  { intros i I. pose proof (list_max_ge (fun i => length (gL g i)) (seq 0 m) i) as Q. specialize (Q ltac:(apply in_seq; lia)). cbn in Q. lia. }
  exists s', e. split; [exact D|]. split; [apply (d_dn _ _ _ _ H')|]. split.
  - intros x. rewrite (d_dl _ _ _ _ H' x). split.
    + intros [X Z]. split; [exact X|]. rewrite (d_rf _ _ _ _ H' x X), sum_zero in Z. intros t T Q. specialize (Z t T). unfold share0 in Z.
      assert (t = it_from x /\ it_keep x = true \/ t <> it_from x /\ goesTo peers t x = true /\ In x (received tr t)) as Q'.
      { destruct Q as [Q|[Q1 Q2]]; [right|now left]. destruct (sem_recv m peers tr s g t x HS T) as [_ G]; [apply in_app_iff; now left|]. split; [|auto]. intros QQ. unfold goesTo in G. rewrite QQ, Nat.eqb_refl in G. discriminate. }
      assert (relb (tr ++ e) t x = true) as RB.
      { destruct Q' as [[Q1 Q2]|(Q1 & Q2 & _)].
        - rewrite Q1, Nat.eqb_refl, Q2 in Z. rewrite Q1. destruct (relb (tr ++ e) (it_from x) x); [reflexivity|discriminate].
        - destruct (Nat.eqb_spec t (it_from x)); [contradiction|]. rewrite Q2 in Z. destruct (relb (tr ++ e) t x); [reflexivity|discriminate]. }
      apply R' in RB. destruct RB as [RB|[_ RB]]; [now apply relb_in|]. exfalso. destruct Q' as [[Q1 Q2]|(Q1 & Q2 & Q3)].
      * apply (d_px _ _ _ _ H t x T) in RB. destruct RB as (_ & G & _). unfold goesTo in G. rewrite Q1, Nat.eqb_refl in G. discriminate.
      * pose proof (sem_nodup m peers tr s g t HS T) as N. rewrite TR in N by exact T. apply in_split in Q3. destruct Q3 as (l1 & l2 & Q3). rewrite Q3, <- app_assoc in N. cbn in N. apply NoDup_remove_2 in N.
        apply N. apply in_app_iff. right. apply in_app_iff. now right.
    + intros [X Q]. split; [exact X|]. rewrite (d_rf _ _ _ _ H' x X). apply sum_zero. intros t T. unfold share0. destruct (Nat.eqb_spec t (it_from x)) as [->|NE].
      * destruct (it_keep x) eqn:KX; [|reflexivity]. specialize (Q (it_from x) T (or_intror (conj eq_refl eq_refl))). apply relb_in in Q. assert (relb (tr ++ e) (it_from x) x = true) as -> by (apply R'; now left). reflexivity.
      * destruct (goesTo peers t x) eqn:G; [|reflexivity]. assert (relb (tr ++ e) t x = true) as ->; [|reflexivity]. apply R'. destruct X as (u & U & X).
        assert (In x (filter (goesTo peers t) (published tr u))) as XI by (apply filter_In; auto). rewrite (z_seq _ _ _ _ _ HS t u T U) in XI.
        assert (LdProofs4.todoG peers (s_pc s u) t = []) as E0 by (now rewrite ID). rewrite E0, app_nil_r in XI. apply filter_In in XI. destruct XI as [XI _]. apply in_app_iff in XI.
        destruct XI as [XI|XI]; [left; apply relb_in; apply Q; auto|]. right. split; [exact T|]. now rewrite TR in XI.
  - rewrite T', (freeAll_ext s s' k N'). rewrite (freeAll_chain s (gB g)); [|apply (i_bc _ _ _ _ HI)|lia]. apply NoDup_Permutation; [apply (i_bn _ _ _ _ HI)|apply (z_bnd _ _ _ _ _ HS)|].
    intros a. rewrite (z_blk _ _ _ _ _ HS a). split; [now left|]. intros [A|(u & U & A)]; [exact A|]. rewrite ID in A by exact U. discriminate.
Qed.
End P.
