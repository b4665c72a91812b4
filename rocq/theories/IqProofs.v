From Coq Require Import List Bool Arith Lia ZArith.
From Verif Require Import Base IqModel IqSpec.
Import ListNotations.

(** * Arithmetic of heaps *)
Lemma parent_lt : forall i, 0 < i -> parent i < i.
Proof. intros i H. unfold parent. pose proof (Nat.div_mod (i - 1) 2 ltac:(lia)). lia. Qed.
Lemma parent_left : forall i, parent (left i) = i.
Proof. intros i. unfold parent, left. replace (2 * i + 1 - 1) with (i * 2) by lia. apply Nat.div_mul. lia. Qed.
Lemma parent_right : forall i, parent (right i) = i.
Proof. intros i. unfold parent, right. replace (2 * (i + 1) - 1) with (1 + i * 2) by lia. rewrite Nat.div_add by lia. reflexivity. Qed.
Lemma parent_child : forall i, 0 < i -> i = left (parent i) \/ i = right (parent i).
Proof.
  intros i H. unfold left, right, parent. pose proof (Nat.div_mod (i - 1) 2 ltac:(lia)) as E. pose proof (Nat.mod_upper_bound (i - 1) 2 ltac:(lia)) as B.
  set (d := (i - 1) / 2) in *. set (m := (i - 1) mod 2) in *. lia.
Qed.
Lemma left_right : forall n, left n < right n /\ n < left n.
Proof. intros. unfold left, right. lia. Qed.

(** * Lists *)
Lemma put_length : forall (A : Type) (l : list A) i x, length (put l i x) = length l.
Proof. induction l; destruct i; cbn; auto. Qed.
Lemma put_nth : forall (A : Type) (l : list A) i x j, i < length l -> nth_error (put l i x) j = if Nat.eqb j i then Some x else nth_error l j.
Proof. induction l as [|y l IH]; intros i x j H; cbn in H; [lia|]. destruct i, j; cbn; auto. apply IH. lia. Qed.
Lemma set_ok : forall (A : Type) (l : list A) i x, i < length l -> set l i x = Ok (put l i x).
Proof. intros. unfold set. rewrite (proj2 (Nat.ltb_lt _ _)); auto. Qed.
Lemma get_ok : forall (A : Type) (l : list A) i x, nth_error l i = Some x -> get l i = Ok x.
Proof. intros. unfold get. rewrite H. reflexivity. Qed.
Lemma nth_lt : forall (A : Type) (l : list A) i x, nth_error l i = Some x -> i < length l.
Proof. intros. apply nth_error_Some. congruence. Qed.
Lemma nth_ex : forall (A : Type) (l : list A) i, i < length l -> exists x, nth_error l i = Some x.
Proof. intros A l i H. apply nth_error_Some in H. destruct (nth_error l i); eauto. congruence. Qed.

(** * Heaps as functions: keys at positions, positions of keys *)
Definition pf := nat -> option nat.
Definition kf := nat -> option (option nat).
Definition Wf (H : pf) (I : kf) : Prop := forall j k, H j = Some k <-> I k = Some (Some j).
Definition edge (c : cmp) (H : pf) (i : nat) : Prop := forall a b, 0 < i -> H i = Some a -> H (parent i) = Some b -> c a b = false.
Definition gap (c : cmp) (H : pf) (n : nat) : Prop := forall i a b, 0 < n -> 0 < i -> parent i = n -> H i = Some a -> H (parent n) = Some b -> c a b = false.
Definition vh (q : queue) (x n : nat) : pf := fun j => if Nat.eqb j n then Some x else nth_error (q_heap q) j.
Definition vi (q : queue) (x n : nat) : kf := fun k => if Nat.eqb k x then Some (Some n) else nth_error (q_idx q) k.
Definition hf (q : queue) : pf := nth_error (q_heap q).
Definition xf (q : queue) : kf := nth_error (q_idx q).
Definition eqf {A : Type} (f g : nat -> A) : Prop := forall j, f j = g j.
Definition keys (H : pf) (k : nat) : Prop := exists j, H j = Some k.

Lemma Wf_inj : forall H I i j k, Wf H I -> H i = Some k -> H j = Some k -> i = j.
Proof. intros H I i j k W A B. apply W in A. apply W in B. congruence. Qed.
(** exchanging the keys x (at n) and y (at p) *)
Definition swh (H : pf) (n p x y : nat) : pf := fun j => if Nat.eqb j p then Some x else if Nat.eqb j n then Some y else H j.
Definition swi (I : kf) (n p x y : nat) : kf := fun k => if Nat.eqb k x then Some (Some p) else if Nat.eqb k y then Some (Some n) else I k.
Lemma sw_Wf : forall H I n p x y, Wf H I -> H n = Some x -> H p = Some y -> n <> p -> Wf (swh H n p x y) (swi I n p x y) /\ forall k, keys (swh H n p x y) k <-> keys H k.
Proof.
  intros H I n p x y W Hn Hp NP. assert (XY : x <> y) by (intros ->; apply NP; eapply Wf_inj; eauto). split.
  - pose proof (proj1 (W _ _) Hn) as In1. pose proof (proj1 (W _ _) Hp) as Ip1.
    intros j k. pose proof (W j k) as WJ. unfold swh, swi. destruct (Nat.eqb_spec j p) as [-> |J1]; [|destruct (Nat.eqb_spec j n) as [-> |J2]];
      (destruct (Nat.eqb_spec k x) as [-> |K1]; [|destruct (Nat.eqb_spec k y) as [-> |K2]]); try exact WJ; split; intros E;
      try congruence; try (apply WJ in E; congruence).
  - intros k. unfold swh. split; intros [j E].
    + destruct (Nat.eqb_spec j p); [exists n; congruence|]. destruct (Nat.eqb_spec j n); [exists p; congruence|]. exists j. auto.
    + destruct (Nat.eq_dec j p) as [-> |J1]; [exists n|destruct (Nat.eq_dec j n) as [-> |J2]; [exists p|exists j]].
      * rewrite (proj2 (Nat.eqb_neq n p) NP), Nat.eqb_refl. congruence.
      * rewrite Nat.eqb_refl. congruence.
      * rewrite (proj2 (Nat.eqb_neq j p) J1), (proj2 (Nat.eqb_neq j n) J2). auto.
Qed.
Lemma Wf_ext : forall H I H' I', eqf H H' -> eqf I I' -> Wf H I -> Wf H' I'.
Proof. intros H I H' I' E1 E2 W j k. rewrite <- E1, <- E2. apply W. Qed.

Record res_ok (c : cmp) (q0 : queue) (H : pf) (q : queue) : Prop := {
  r_wf : Wf (hf q) (xf q); r_edge : forall i, edge c (hf q) i; r_keys : forall k, keys (hf q) k <-> keys H k;
  r_len : length (q_heap q) = length (q_heap q0); r_ilen : length (q_idx q) = length (q_idx q0) }.

Section C.
Variable c : cmp.
Hypothesis SW : swo c.
Lemma asym : forall x y, c x y = true -> c y x = false.
Proof. intros x y H. destruct (c y x) eqn:E; auto. pose proof (swo_tr c SW x y x H E) as X. rewrite (swo_irr c SW) in X. discriminate. Qed.

Lemma finish : forall q x n, n < length (q_heap q) -> x < length (q_idx q) ->
  (do h <- set (q_heap q) n x; do i <- set (q_idx q) x (Some n); Ok (Q i h)) = Ok (Q (put (q_idx q) x (Some n)) (put (q_heap q) n x)) /\
  eqf (hf (Q (put (q_idx q) x (Some n)) (put (q_heap q) n x))) (vh q x n) /\ eqf (xf (Q (put (q_idx q) x (Some n)) (put (q_heap q) n x))) (vi q x n).
Proof.
  intros q x n Hn Hx. rewrite !set_ok by auto. cbn [bind]. split; [reflexivity|]. split; intros j; unfold hf, xf, vh, vi; cbn [q_heap q_idx]; rewrite put_nth by auto; reflexivity.
Qed.
Lemma finish_ok : forall q x n q0, n < length (q_heap q) -> x < length (q_idx q) -> length (q_heap q) = length (q_heap q0) -> length (q_idx q) = length (q_idx q0) -> Wf (vh q x n) (vi q x n) -> (forall i, edge c (vh q x n) i) ->
  exists q', (do h <- set (q_heap q) n x; do i <- set (q_idx q) x (Some n); Ok (Q i h)) = Ok q' /\ res_ok c q0 (vh q x n) q' /\ eqf (hf q') (vh q x n) /\ eqf (xf q') (vi q x n).
Proof.
  intros q x n q0 Hn Hx L1 L2 W E. destruct (finish q x n Hn Hx) as [F [F1 F2]]. eexists. split; [exact F|]. split; [|split; [exact F1|exact F2]]. constructor.
  - eapply Wf_ext; [| |exact W]; intros j; symmetry; [apply F1|apply F2].
  - intros i a b Hi. rewrite F1, F1. apply E; auto.
  - intros k. split; intros [j J]; exists j; [rewrite <- F1|rewrite F1]; auto.
  - cbn. rewrite put_length. auto.
  - cbn. rewrite put_length. auto.
Qed.
(** one exchange *)
Lemma exchange : forall q x n p y, n < length (q_heap q) -> p < length (q_heap q) -> x < length (q_idx q) -> n <> p -> Wf (vh q x n) (vi q x n) -> nth_error (q_heap q) p = Some y ->
  y < length (q_idx q) /\ exists q1, (do h <- set (q_heap q) n y; do i <- set (q_idx q) y (Some n); Ok (Q i h)) = Ok q1 /\
    eqf (vh q1 x p) (swh (vh q x n) n p x y) /\ eqf (vi q1 x p) (swi (vi q x n) n p x y) /\ length (q_heap q1) = length (q_heap q) /\ length (q_idx q1) = length (q_idx q).
Proof.
  intros q x n p y Hn Hp Hx NP W Y. assert (Hy : y < length (q_idx q)).
  { assert (V : vh q x n p = Some y) by (unfold vh; rewrite (proj2 (Nat.eqb_neq p n)); auto). apply W in V. unfold vi in V. destruct (Nat.eqb_spec y x) as [-> |YX]; auto. eapply nth_lt; eauto. }
  split; auto. destruct (finish q y n Hn Hy) as [F [F1 F2]]. eexists. split; [exact F|]. split; [|split; [|cbn; rewrite !put_length; auto]].
  - intros j. unfold vh at 1, swh. change (nth_error (q_heap ?a) j) with (hf a j). rewrite F1. unfold vh. destruct (Nat.eqb j p), (Nat.eqb j n); auto.
  - intros k. unfold vi at 1, swi. change (nth_error (q_idx ?a) k) with (xf a k). rewrite F2. unfold vi. destruct (Nat.eqb k x), (Nat.eqb k y); auto.
Qed.

(** * Moving up *)
Lemma up_ok : forall q0 fuel q x n, n < fuel -> n < length (q_heap q) -> x < length (q_idx q) -> length (q_heap q) = length (q_heap q0) -> length (q_idx q) = length (q_idx q0) ->
  Wf (vh q x n) (vi q x n) -> (forall i, i <> n -> edge c (vh q x n) i) -> gap c (vh q x n) n ->
  exists q', upLoop fuel c q x n = Ok q' /\ res_ok c q0 (vh q x n) q'.
Proof.
  intros q0. induction fuel as [|fuel IH]; intros q x n HF Hn Hx L1 L2 W E GP; [lia|]. cbn [upLoop]. destruct (Nat.eqb_spec n 0) as [-> |N0].
  - destruct (finish_ok q x 0 q0 Hn Hx L1 L2 W) as [q' [F [R _]]]; eauto. intros i. destruct (Nat.eq_dec i 0) as [-> |I0]; [intros a b Z; lia|apply E; auto].
  - pose proof (parent_lt n ltac:(lia)) as PL. destruct (nth_ex _ (q_heap q) (parent n) ltac:(lia)) as [y Y]. rewrite (get_ok _ _ _ _ Y). cbn [bind].
    set (H := vh q x n) in *. assert (Hnx : H n = Some x) by (unfold H, vh; rewrite Nat.eqb_refl; auto). assert (Hpy : H (parent n) = Some y) by (unfold H, vh; rewrite (proj2 (Nat.eqb_neq (parent n) n)); auto; lia).
    destruct (c x y) eqn:CXY.
    + destruct (exchange q x n (parent n) y) as [Hy [q1 [F [V1 [V2 [L3 L4]]]]]]; auto; try lia. fold H in V1, V2.
      destruct (sw_Wf H _ n (parent n) x y W Hnx Hpy ltac:(lia)) as [W1 K1].
      destruct (set (q_heap q) n y) as [h| |]; cbn [bind] in *; try discriminate. destruct (set (q_idx q) y (Some n)) as [i| |]; cbn [bind] in *; try discriminate. injection F as <-.
      destruct (IH (Q i h) x (parent n)) as [q' [U [R1 R2 R3 R4 R5]]]; cbn [q_heap q_idx] in *; try lia.
      * eapply Wf_ext; [| |exact W1]; intros j; symmetry; [apply V1|apply V2].
      * intros i0 I0 a b P0. rewrite V1, V1. unfold swh. destruct (Nat.eqb_spec i0 (parent n)) as [Z|Z]; [congruence|].
        destruct (Nat.eqb_spec i0 n) as [-> |Z2].
        -- rewrite Nat.eqb_refl. intros A B. injection A as <-. injection B as <-. apply asym; auto.
        -- destruct (Nat.eqb_spec (parent i0) (parent n)) as [Z3|Z3].
           ++ intros A B. injection B as <-. assert (X : c a y = false) by (apply (E i0 Z2 a y P0 A); rewrite Z3; auto).
              destruct (c a x) eqn:CA; auto. rewrite <- X. symmetry. eapply (swo_tr c SW); eauto.
           ++ destruct (Nat.eqb_spec (parent i0) n) as [Z4|Z4].
              ** intros A B. injection B as <-. apply (GP i0 a y); auto. lia.
              ** intros A B. apply (E i0 Z2 a b P0 A B).
      * intros i0 a b P0 P1 P2. rewrite V1, V1. unfold swh.
        assert (PP : parent (parent n) < parent n) by (apply parent_lt; auto).
        rewrite (proj2 (Nat.eqb_neq i0 (parent n))) by (intros Z; rewrite Z in P2; lia).
        rewrite (proj2 (Nat.eqb_neq (parent (parent n)) (parent n))) by lia. rewrite (proj2 (Nat.eqb_neq (parent (parent n)) n)) by lia.
        intros A B. assert (X : c y b = false) by (apply (E (parent n) ltac:(lia) y b P0 Hpy B)).
        destruct (Nat.eqb_spec i0 n) as [-> |Z2]; [injection A as <-; auto|]. eapply (swo_ntr c SW); [|exact X]. apply (E i0 Z2 a y); auto. rewrite P2. auto.
      * exists q'. split; [exact U|]. constructor; auto. intros k. rewrite R3. rewrite <- K1. unfold keys. split; intros [j J]; exists j; [rewrite <- V1|rewrite V1]; auto.
    + destruct (finish_ok q x n q0 Hn Hx L1 L2 W) as [q' [F [R _]]]; eauto. intros i. destruct (Nat.eq_dec i n) as [-> |I0]; [|apply E; auto].
      intros a b _ A B. fold H in A, B. rewrite Hnx in A. rewrite Hpy in B. congruence.
Qed.
(** moving up from a position whose children may have higher priorities *)
Lemma up_first : forall q x n, nth_error (q_heap q) n = Some x -> x < length (q_idx q) -> Wf (hf q) (xf q) -> (forall i, i <> n -> parent i <> n -> edge c (hf q) i) -> gap c (hf q) n ->
  exists q', siftup c q n = Ok q' /\ (res_ok c q (hf q) q' \/ eqf (hf q') (hf q) /\ eqf (xf q') (xf q) /\ edge c (hf q) n /\ length (q_heap q') = length (q_heap q) /\ length (q_idx q') = length (q_idx q)).
Proof.
  intros q x n X Hx W E GP. unfold siftup. rewrite (get_ok _ _ _ _ X). cbn [bind]. pose proof (nth_lt _ _ _ _ X) as Hn.
  assert (V1 : eqf (vh q x n) (hf q)) by (intros j; unfold vh, hf; destruct (Nat.eqb_spec j n) as [-> |]; congruence).
  assert (V2 : eqf (vi q x n) (xf q)). { intros k. unfold vi. destruct (Nat.eqb_spec k x) as [-> |]; [|reflexivity]. symmetry. apply W. exact X. }
  assert (STAY : edge c (hf q) n -> exists q', (do h <- set (q_heap q) n x; do i <- set (q_idx q) x (Some n); Ok (Q i h)) = Ok q' /\ (eqf (hf q') (hf q) /\ eqf (xf q') (xf q) /\ edge c (hf q) n /\ length (q_heap q') = length (q_heap q) /\ length (q_idx q') = length (q_idx q))).
  { intros EN. destruct (finish q x n Hn Hx) as [F [F1 F2]]. eexists. split; [exact F|]. repeat split; auto; [intros j; rewrite F1; apply V1|intros j; rewrite F2; apply V2|cbn; apply put_length|cbn; apply put_length]. }
  cbn [upLoop]. destruct (Nat.eqb_spec n 0) as [-> |N0].
  - destruct STAY as [q' [F R]]; [intros a b Z; lia|]. exists q'. auto.
  - pose proof (parent_lt n ltac:(lia)) as PL. destruct (nth_ex _ (q_heap q) (parent n) ltac:(lia)) as [y Y]. rewrite (get_ok _ _ _ _ Y). cbn [bind]. destruct (c x y) eqn:CXY.
    2:{ destruct STAY as [q' [F R]]; [intros a b _ A B; unfold hf in *; congruence|]. exists q'. auto. }
    set (H := vh q x n) in *. assert (WV : Wf H (vi q x n)) by (eapply Wf_ext; [| |exact W]; intros j; symmetry; [apply V1|apply V2]).
    destruct (exchange q x n (parent n) y) as [Hy [q1 [F [U1 [U2 [L3 L4]]]]]]; auto; try lia. fold H in U1, U2.
    destruct (sw_Wf H _ n (parent n) x y WV ltac:(rewrite V1; exact X) ltac:(rewrite V1; exact Y) ltac:(lia)) as [W1 K1].
    destruct (set (q_heap q) n y) as [h| |]; cbn [bind] in *; try discriminate. destruct (set (q_idx q) y (Some n)) as [i| |]; cbn [bind] in *; try discriminate. injection F as <-.
    assert (HH : forall j, j <> n -> j <> parent n -> vh (Q i h) x (parent n) j = hf q j).
    { intros j J1 J2. rewrite U1. unfold swh. rewrite (proj2 (Nat.eqb_neq j _) J2), (proj2 (Nat.eqb_neq j _) J1). apply V1. }
    assert (HN : vh (Q i h) x (parent n) n = Some y) by (rewrite U1; unfold swh; rewrite (proj2 (Nat.eqb_neq n (parent n)) ltac:(lia)), Nat.eqb_refl; auto).
    assert (HP : vh (Q i h) x (parent n) (parent n) = Some x) by (unfold vh; rewrite Nat.eqb_refl; auto).
    destruct (up_ok q n (Q i h) x (parent n)) as [q' [U [R1 R2 R3 R4 R5]]]; cbn [q_heap q_idx] in *; try lia.
    + eapply Wf_ext; [| |exact W1]; intros j; symmetry; [apply U1|apply U2].
    + intros i0 I0 a b P0 A B. destruct (Nat.eq_dec i0 n) as [-> |Z2].
      * rewrite HN in A. rewrite HP in B. injection A as <-. injection B as <-. apply asym; auto.
      * rewrite HH in A by auto. destruct (Nat.eq_dec (parent i0) (parent n)) as [Z3|Z3].
        -- rewrite Z3, HP in B. injection B as <-. assert (Q0 : c a y = false) by (apply (E i0 Z2 ltac:(lia) a y P0 A); rewrite Z3; auto).
           destruct (c a x) eqn:CA; auto. rewrite <- Q0. symmetry. eapply (swo_tr c SW); eauto.
        -- destruct (Nat.eq_dec (parent i0) n) as [Z4|Z4].
           ++ rewrite Z4, HN in B. injection B as <-. apply (GP i0 a y); [lia|exact P0|exact Z4|exact A|exact Y].
           ++ rewrite HH in B by auto. apply (E i0 Z2 Z4 a b P0 A B).
    + intros i0 a b P0 P1 P2 A B. assert (PP : parent (parent n) < parent n) by (apply parent_lt; auto). rewrite HH in B by lia.
      assert (X0 : c y b = false) by (apply (E (parent n) ltac:(lia) ltac:(lia) y b P0 Y B)).
      destruct (Nat.eq_dec i0 n) as [-> |Z2]; [rewrite HN in A; injection A as <-; auto|]. rewrite HH in A by (auto; intros Z; rewrite Z in P2; lia). eapply (swo_ntr c SW); [|exact X0]. apply (E i0 Z2 ltac:(lia) a y); auto. rewrite P2. exact Y.
    + exists q'. split; [exact U|]. left. constructor; auto. intros k. rewrite R3. transitivity (keys (swh H n (parent n) x y) k).
      * unfold keys. split; intros [j J]; exists j; [rewrite <- U1|rewrite U1]; auto.
      * rewrite K1. unfold keys. split; intros [j J]; exists j; [rewrite <- V1|rewrite V1]; auto.
Qed.

(** * Moving down *)
Lemma down_ok : forall q0 fuel q x n, length (q_heap q) <= n + fuel -> n < length (q_heap q) -> x < length (q_idx q) -> length (q_heap q) = length (q_heap q0) -> length (q_idx q) = length (q_idx q0) ->
  Wf (vh q x n) (vi q x n) -> (forall i, parent i <> n \/ i = 0 -> edge c (vh q x n) i) -> gap c (vh q x n) n ->
  exists q', downLoop (S fuel) c q x n = Ok q' /\ res_ok c q0 (vh q x n) q'.
Proof.
  intros q0. induction fuel as [|fuel IH]; intros q x n HF Hn Hx L1 L2 W E GP; [lia|].
  remember (S fuel) as f1 eqn:F1. cbn [downLoop]. subst f1. set (H := vh q x n) in *. assert (Hnx : H n = Some x) by (unfold H, vh; rewrite Nat.eqb_refl; auto).
  assert (HO : forall j, j <> n -> H j = nth_error (q_heap q) j) by (intros j J; unfold H, vh; rewrite (proj2 (Nat.eqb_neq j n) J); auto).
  pose proof (left_right n) as [LR1 LR2].
  assert (DONE : (forall i, 0 < i -> parent i = n -> edge c H i) -> exists q', (do h <- set (q_heap q) n x; do i <- set (q_idx q) x (Some n); Ok (Q i h)) = Ok q' /\ res_ok c q0 H q').
  { intros X. destruct (finish_ok q x n q0 Hn Hx L1 L2 W) as [q' [F [R _]]]; eauto. intros i. destruct (Nat.eq_dec i 0) as [-> |I0]; [apply E; auto|]. destruct (Nat.eq_dec (parent i) n); [apply X; auto; lia|apply E; auto]. }
  destruct (Nat.ltb_spec (left n) (length (q_heap q))) as [LL|LL].
  2:{ apply DONE. intros i I0 PI a b _ A B. exfalso. destruct (parent_child i I0) as [Z|Z]; rewrite PI in Z; rewrite HO in A by lia; apply nth_lt in A; lia. }
  assert (SC : exists ch y, smallerChild c q n = Ok ch /\ nth_error (q_heap q) ch = Some y /\ parent ch = n /\ n < ch /\ forall i a, 0 < i -> parent i = n -> H i = Some a -> c a y = false).
  { unfold smallerChild. destruct (nth_ex _ _ _ LL) as [l Y1]. destruct (Nat.ltb_spec (right n) (length (q_heap q))) as [RL|RL].
    - destruct (nth_ex _ _ _ RL) as [r Y2]. rewrite (get_ok _ _ _ _ Y2), (get_ok _ _ _ _ Y1). cbn [bind]. destruct (c r l) eqn:CRL.
      + exists (right n), r. rewrite parent_right. repeat split; auto; [lia|]. intros i a I0 PI A. destruct (parent_child i I0) as [Z|Z]; rewrite PI in Z; subst i; rewrite HO in A by lia; assert (X : Some a = Some l \/ Some a = Some r) by (rewrite <- A; auto).
        * assert (a = l) by congruence. subst a. apply asym; auto.
        * assert (a = r) by congruence. subst a. apply (swo_irr c SW).
      + exists (left n), l. rewrite parent_left. repeat split; auto. intros i a I0 PI A. destruct (parent_child i I0) as [Z|Z]; rewrite PI in Z; subst i; rewrite HO in A by lia.
        * assert (a = l) by congruence. subst a. apply (swo_irr c SW).
        * assert (a = r) by congruence. subst a. auto.
    - exists (left n), l. rewrite parent_left. repeat split; auto. intros i a I0 PI A. destruct (parent_child i I0) as [Z|Z]; rewrite PI in Z; subst i; rewrite HO in A by lia.
      * assert (a = l) by congruence. subst a. apply (swo_irr c SW).
      * apply nth_lt in A. lia. }
  destruct SC as [ch [y [SC [Y [PC [NC BEST]]]]]]. rewrite SC. cbn [bind]. rewrite (get_ok _ _ _ _ Y). cbn [bind]. pose proof (nth_lt _ _ _ _ Y) as Hc.
  destruct (c y x) eqn:CYX; cbn [negb].
  - destruct (exchange q x n ch y) as [Hy [q1 [F [V1 [V2 [L3 L4]]]]]]; auto; try lia. fold H in V1, V2.
    assert (Hcy : H ch = Some y) by (rewrite HO by lia; auto).
    destruct (sw_Wf H _ n ch x y W Hnx Hcy ltac:(lia)) as [W1 K1].
    destruct (set (q_heap q) n y) as [h| |]; cbn [bind] in *; try discriminate. destruct (set (q_idx q) y (Some n)) as [i| |]; cbn [bind] in *; try discriminate. injection F as <-.
    assert (HH : forall j, j <> n -> j <> ch -> vh (Q i h) x ch j = H j).
    { intros j J1 J2. rewrite V1. unfold swh. rewrite (proj2 (Nat.eqb_neq j _) J2), (proj2 (Nat.eqb_neq j _) J1). auto. }
    assert (HN : vh (Q i h) x ch n = Some y) by (rewrite V1; unfold swh; rewrite (proj2 (Nat.eqb_neq n ch) ltac:(lia)), Nat.eqb_refl; auto).
    assert (HC : vh (Q i h) x ch ch = Some x) by (unfold vh; rewrite Nat.eqb_refl; auto).
    destruct (IH (Q i h) x ch) as [q' [U [R1 R2 R3 R4 R5]]]; cbn [q_heap q_idx] in *; try lia.
    + eapply Wf_ext; [| |exact W1]; intros j; symmetry; [apply V1|apply V2].
    + intros i0 PI a b I0 A B. assert (PI' : parent i0 <> ch) by lia. clear PI. destruct (Nat.eq_dec i0 ch) as [-> |Z1].
      * rewrite PC, HN in B. rewrite HC in A. injection A as <-. injection B as <-. apply asym; auto.
      * destruct (Nat.eq_dec i0 n) as [-> |Z2].
        -- rewrite HN in A. injection A as <-. rewrite HH in B by (auto; pose proof (parent_lt n I0); lia). apply (GP ch y b); auto. lia.
        -- rewrite HH in A by auto. destruct (Nat.eq_dec (parent i0) n) as [Z3|Z3].
           ++ rewrite Z3, HN in B. injection B as <-. apply (BEST i0 a); auto.
           ++ rewrite HH in B by auto. apply (E i0 (or_introl Z3) a b I0 A B).
    + intros i0 a b P0 P1 P2 A B. rewrite PC, HN in B. injection B as <-. pose proof (parent_lt i0 P1). rewrite HH in A by lia. assert (PN : parent i0 <> n) by lia. apply (E i0 (or_introl PN) a y P1 A). rewrite P2. exact Hcy.
    + exists q'. split; [exact U|]. constructor; auto. intros k. rewrite R3, <- K1. unfold keys. split; intros [j J]; exists j; [rewrite <- V1|rewrite V1]; auto.
  - apply DONE. intros i I0 PI a b _ A B. rewrite PI, Hnx in B. injection B as <-. eapply (swo_ntr c SW); [|exact CYX]. apply (BEST i a); auto.
Qed.
Lemma siftdown_ok : forall q x n, nth_error (q_heap q) n = Some x -> x < length (q_idx q) -> Wf (hf q) (xf q) -> (forall i, parent i <> n \/ i = 0 -> edge c (hf q) i) -> gap c (hf q) n ->
  exists q', siftdown c q n = Ok q' /\ res_ok c q (hf q) q'.
Proof.
  intros q x n X Hx W E GP. unfold siftdown. rewrite (get_ok _ _ _ _ X). cbn [bind]. pose proof (nth_lt _ _ _ _ X) as Hn.
  assert (V1 : eqf (vh q x n) (hf q)) by (intros j; unfold vh, hf; destruct (Nat.eqb_spec j n) as [-> |]; congruence).
  assert (V2 : eqf (vi q x n) (xf q)). { intros k. unfold vi. destruct (Nat.eqb_spec k x) as [-> |]; [|reflexivity]. symmetry. apply W. exact X. }
  destruct (down_ok q (length (q_heap q)) q x n) as [q' [U [R1 R2 R3 R4 R5]]]; auto; try lia.
  - eapply Wf_ext; [| |exact W]; intros j; symmetry; [apply V1|apply V2].
  - intros i PI a b I0. rewrite !V1. apply E; auto.
  - intros i a b. rewrite !V1. apply GP.
  - exists q'. split; auto. constructor; auto. intros k. rewrite R3. unfold keys. split; intros [j J]; exists j; [rewrite <- V1|rewrite V1]; auto.
Qed.
End C.
