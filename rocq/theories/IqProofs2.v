From Coq Require Import List Bool Arith Lia.
From Verif Require Import Base IqModel IqSpec IqProofs.
Import ListNotations.

Ltac sp := repeat match goal with |- _ /\ _ => split end.
Record Hp (q : queue) (S : list nat) (c : cmp) : Prop := {
  p_swo : swo c; p_wf : Wf (hf q) (xf q); p_edge : forall i, edge c (hf q) i; p_keys : forall k, keys (hf q) k <-> In k S; p_nd : NoDup S }.

Lemma in_without : forall k S x, In x (without k S) <-> In x S /\ x <> k.
Proof. intros k S x. unfold without. rewrite filter_In. rewrite negb_true_iff, Nat.eqb_neq. tauto. Qed.
Lemma nd_without : forall k S, NoDup S -> NoDup (without k S).
Proof. intros. apply NoDup_filter. auto. Qed.
Lemma wf_idx : forall q n x, Wf (hf q) (xf q) -> nth_error (q_heap q) n = Some x -> x < length (q_idx q).
Proof. intros q n x W H. apply W in H. unfold xf in H. eapply nth_lt; eauto. Qed.
Lemma isIn_keys : forall q k, Wf (hf q) (xf q) -> (isIn q k = true <-> keys (hf q) k).
Proof.
  intros q k W. unfold isIn, keys. change (nth_error (q_idx q) k) with (xf q k). split.
  - destruct (xf q k) as [[j|]|] eqn:E; try discriminate. intros _. exists j. apply W. auto.
  - intros [j J]. apply W in J. rewrite J. auto.
Qed.
Lemma pos_keys : forall q k j, Wf (hf q) (xf q) -> hf q j = Some k -> pos q k = Ok j.
Proof. intros q k j W H. apply W in H. unfold pos, get. unfold xf in H. rewrite H. reflexivity. Qed.
Lemma gap_edges : forall c H n, swo c -> (forall i, edge c H i) -> (exists x, H n = Some x) -> gap c H n.
Proof.
  intros c H n SW E [x X] i a b N0 I0 PI A B. eapply (swo_ntr c SW).
  - apply (E i a x); auto. rewrite PI. auto.
  - apply (E n x b); auto.
Qed.

(** * push *)
Lemma app_nth : forall (A : Type) (l : list A) x j, nth_error (l ++ [x]) j = if Nat.eqb j (length l) then Some x else nth_error l j.
Proof.
  intros A l x j. destruct (Nat.eqb_spec j (length l)) as [-> |N].
  - rewrite nth_error_app2 by lia. rewrite Nat.sub_diag. reflexivity.
  - destruct (Nat.lt_ge_cases j (length l)) as [L|L].
    + apply nth_error_app1. auto.
    + rewrite (proj2 (nth_error_None l j)) by auto. apply nth_error_None. rewrite app_length. cbn. lia.
Qed.
Lemma nth_repeat_none : forall n j o, nth_error (repeat (@None nat) n) j = Some o -> o = None.
Proof. intros n j o H. apply nth_error_In in H. apply repeat_spec in H. auto. Qed.
Lemma siftup_ok : forall c q x n, swo c -> nth_error (q_heap q) n = Some x -> Wf (hf q) (xf q) -> (forall i, i <> n -> edge c (hf q) i) -> gap c (hf q) n ->
  exists q', siftup c q n = Ok q' /\ res_ok c q (hf q) q'.
Proof.
  intros c q x n SW X W E GP. destruct (up_first c SW q x n X (wf_idx _ _ _ W X) W) as [q' [U R]]; auto. exists q'. split; auto. destruct R as [R|[V1 [V2 [EN [L1 L2]]]]]; auto.
  constructor; auto.
  - eapply Wf_ext; [| |exact W]; intros j; symmetry; [apply V1|apply V2].
  - intros i a b I0. rewrite V1, V1. destruct (Nat.eq_dec i n) as [-> |]; [apply EN|apply E]; auto.
  - intros k. unfold keys. split; intros [j J]; exists j; [rewrite <- V1|rewrite V1]; auto.
Qed.
Lemma push_ok : forall q S c k, Hp q S c -> ~ In k S -> exists q', push c q k = Ok q' /\ Hp q' (k :: S) c.
Proof.
  intros q S c k P NK. destruct P as [SW W E K ND]. unfold push. destruct (isIn q k) eqn:II; [apply isIn_keys in II; auto; apply K in II; contradiction|].
  set (idx := if Nat.leb (length (q_idx q)) k then q_idx q ++ repeat None (Datatypes.S k - length (q_idx q)) else q_idx q).
  assert (LI : k < length idx) by (unfold idx; destruct (Nat.leb_spec (length (q_idx q)) k); auto; rewrite app_length, repeat_length; lia).
  assert (NI : forall k' j, nth_error idx k' = Some (Some j) <-> xf q k' = Some (Some j)).
  { intros k' j. unfold xf, idx. destruct (Nat.leb_spec (length (q_idx q)) k); [|tauto]. destruct (Nat.lt_ge_cases k' (length (q_idx q))) as [L|L].
    - rewrite nth_error_app1 by auto. tauto.
    - rewrite nth_error_app2 by auto. rewrite (proj2 (nth_error_None (q_idx q) k')) by auto. split; [|discriminate]. intros X. apply nth_repeat_none in X. discriminate. }
  rewrite set_ok by auto. cbn [bind]. set (n := length (q_heap q)). set (q1 := Q (put idx k (Some n)) (q_heap q ++ [k])).
  assert (H1 : forall j, hf q1 j = if Nat.eqb j n then Some k else hf q j) by (intros j; unfold hf, q1; cbn; apply app_nth).
  assert (X1 : forall k', xf q1 k' = if Nat.eqb k' k then Some (Some n) else nth_error idx k') by (intros j; unfold xf, q1; cbn; apply put_nth; auto).
  assert (HN : hf q n = None) by (unfold hf; apply nth_error_None; auto).
  assert (W1 : Wf (hf q1) (xf q1)).
  { intros j k'. rewrite H1, X1. destruct (Nat.eqb_spec j n) as [-> |J]; destruct (Nat.eqb_spec k' k) as [-> |K']; split; intros X; try congruence.
    - apply NI in X. apply W in X. congruence.
    - exfalso. apply NK. apply K. exists j. auto.
    - apply NI. apply W. auto.
    - apply W. apply NI. auto. }
  assert (HK : hf q1 n = Some k) by (rewrite H1, Nat.eqb_refl; auto).
  rewrite (pos_keys q1 k n W1 HK). cbn [bind].
  destruct (siftup_ok c q1 k n SW HK W1) as [q' [U [R1 R2 R3 R4 R5]]].
  - intros i IN a b I0. rewrite !H1. rewrite (proj2 (Nat.eqb_neq i n) IN). destruct (Nat.eqb_spec (parent i) n) as [PI|PI]; [|apply E; auto].
    intros A. exfalso. apply nth_lt in A. pose proof (parent_lt i I0). unfold n in PI. lia.
  - intros i a b N0 I0 PI. rewrite !H1. pose proof (parent_lt i I0). rewrite (proj2 (Nat.eqb_neq i n)) by lia. intros A. exfalso. apply nth_lt in A. unfold n in *. lia.
  - exists q'. split; auto. constructor; auto.
    + intros k'. rewrite R3. cbn. rewrite <- K. split.
      * intros [j J]. rewrite H1 in J. destruct (Nat.eqb_spec j n); [left; congruence|right; exists j; auto].
      * intros [<- |[j J]]; [exists n; auto|]. exists j. rewrite H1. destruct (Nat.eqb_spec j n); congruence.
    + constructor; auto.
Qed.

(** * Taking out a key *)
Lemma removelast_nth : forall (A : Type) (l : list A) j, nth_error (removelast l) j = if Nat.ltb j (length l - 1) then nth_error l j else None.
Proof.
  induction l as [|x l IH]; intros j; [destruct j; auto|]. destruct l as [|y l]; [destruct j; auto|].
  change (removelast (x :: y :: l)) with (x :: removelast (y :: l)). destruct j; [reflexivity|]. cbn [nth_error]. rewrite IH. cbn [length]. 
  replace (Datatypes.S j <? Datatypes.S (Datatypes.S (length l)) - 1) with (j <? Datatypes.S (length l) - 1); auto.
  destruct (Nat.ltb_spec j (Datatypes.S (length l) - 1)), (Nat.ltb_spec (Datatypes.S j) (Datatypes.S (Datatypes.S (length l)) - 1)); auto; lia.
Qed.
Lemma removelast_len : forall (A : Type) (l : list A), length (removelast l) = length l - 1.
Proof. induction l as [|x l IH]; auto. destruct l as [|y l]; auto. change (removelast (x :: y :: l)) with (x :: removelast (y :: l)). cbn [length]. rewrite IH. cbn. lia. Qed.
Definition outq (q : queue) (n k b : nat) : queue := Q (put (put (q_idx q) b (Some n)) k None) (removelast (put (q_heap q) n b)).
Lemma take_out : forall q n k b, Wf (hf q) (xf q) -> hf q n = Some k -> hf q (length (q_heap q) - 1) = Some b ->
  let q1 := outq q n k b in
  (forall j, hf q1 j = if Nat.ltb j (length (q_heap q) - 1) then if Nat.eqb j n then Some b else hf q j else None) /\
  Wf (hf q1) (xf q1) /\ (forall k', keys (hf q1) k' <-> keys (hf q) k' /\ k' <> k).
Proof.
  intros q n k b W Hn Hb q1. pose proof (nth_lt _ _ _ _ Hn) as LN. pose proof (wf_idx _ _ _ W Hn) as LK. pose proof (wf_idx _ _ _ W Hb) as LB.
  assert (H1 : forall j, hf q1 j = if Nat.ltb j (length (q_heap q) - 1) then if Nat.eqb j n then Some b else hf q j else None).
  { intros j. unfold hf, q1, outq. cbn [q_heap]. rewrite removelast_nth, put_length, put_nth by auto. reflexivity. }
  assert (X1 : forall k', xf q1 k' = if Nat.eqb k' k then Some None else if Nat.eqb k' b then Some (Some n) else xf q k').
  { intros k'. unfold xf, q1, outq. cbn [q_idx]. rewrite put_nth by (rewrite put_length; auto). rewrite put_nth by auto. reflexivity. }
  set (L := length (q_heap q)) in *.
  assert (IB : xf q b = Some (Some (L - 1))) by (apply W; auto). assert (IK : xf q k = Some (Some n)) by (apply W; auto).
  clearbody q1. split; [exact H1|]. split.
  - intros j k'. pose proof (W j k') as WJ. rewrite H1, X1. destruct (Nat.ltb_spec j (L - 1)) as [JL|JL].
    + destruct (Nat.eqb_spec j n) as [-> |JN].
      * destruct (Nat.eqb_spec k' k) as [-> |K1]; [|destruct (Nat.eqb_spec k' b) as [-> |K2]]; split; intros X; try congruence.
        -- injection X as <-. rewrite Hn in *. assert (n = L - 1) by congruence. lia.
        -- apply WJ in X. congruence.
      * destruct (Nat.eqb_spec k' k) as [-> |K1]; [|destruct (Nat.eqb_spec k' b) as [-> |K2]]; [| |exact WJ]; split; intros X; try congruence.
        -- apply WJ in X. congruence.
        -- apply WJ in X. assert (j = L - 1) by congruence. lia.
    + split; [discriminate|]. intros X. exfalso. destruct (Nat.eqb_spec k' k) as [-> |K1]; [discriminate|]. destruct (Nat.eqb_spec k' b) as [-> |K2].
      * assert (n = L - 1) by (unfold L in *; injection X; lia). apply K1. congruence.
      * apply WJ in X. pose proof (nth_lt _ _ _ _ X). assert (j = L - 1) by (unfold L in *; lia). subst j. congruence.
  - intros k'. split.
    + intros [j J]. rewrite H1 in J. destruct (Nat.ltb_spec j (L - 1)) as [JL|JL]; [|discriminate]. destruct (Nat.eqb_spec j n) as [JN|JN]; [subst j|].
      * injection J as <-. split; [exists (L - 1); auto|]. intros ->. assert (n = L - 1) by congruence. lia.
      * split; [exists j; auto|]. intros ->. apply W in J. congruence.
    + intros [[j J] NK]. pose proof (nth_lt _ _ _ _ J) as JL. destruct (Nat.eq_dec j (L - 1)) as [-> |JN].
      * assert (k' = b) by congruence. subst k'. exists n. rewrite H1, Nat.eqb_refl. destruct (Nat.ltb_spec n (L - 1)) as [Z|Z]; auto. exfalso. apply NK. assert (n = L - 1) by (unfold L in *; lia). subst n. congruence.
      * exists j. rewrite H1. destruct (Nat.ltb_spec j (L - 1)) as [Z|Z]; [|unfold L in *; lia]. destruct (Nat.eqb_spec j n); [congruence|auto].
Qed.
Lemma out_edges : forall c q n k b, (forall i, edge c (hf q) i) -> Wf (hf q) (xf q) -> hf q n = Some k -> hf q (length (q_heap q) - 1) = Some b -> swo c ->
  (forall i, i <> n -> parent i <> n -> edge c (hf (outq q n k b)) i) /\ gap c (hf (outq q n k b)) n.
Proof.
  intros c q n k b E W Hn Hb SW. destruct (take_out q n k b W Hn Hb) as [H1 _]. pose proof (gap_edges c (hf q) n SW E (ex_intro _ _ Hn)) as G. split.
  - intros i I1 I2 a p I0. rewrite !H1. rewrite (proj2 (Nat.eqb_neq i n) I1), (proj2 (Nat.eqb_neq _ n) I2).
    destruct (Nat.ltb i _); [|discriminate]. destruct (Nat.ltb (parent i) _); [|discriminate]. apply E; auto.
  - intros i a p N0 I0 PI. rewrite !H1. pose proof (parent_lt n N0). pose proof (parent_lt i I0). rewrite (proj2 (Nat.eqb_neq i n)) by lia. rewrite (proj2 (Nat.eqb_neq (parent n) n)) by lia.
    destruct (Nat.ltb i _); [|discriminate]. destruct (Nat.ltb (parent n) _); [|discriminate]. apply G; auto.
Qed.
Lemma trivial_edges : forall c q, length (q_heap q) <= 1 -> forall i, edge c (hf q) i.
Proof. intros c q L i a b I0 A. apply nth_lt in A. lia. Qed.
Lemma pop_ok : forall q S c, Hp q S c -> S <> [] -> exists t q', top q = Ok t /\ pop c q = Ok q' /\ In t S /\ Hp q' (without t S) c.
Proof.
  intros q S c P NE. destruct P as [SW W E K ND]. assert (exists t, hf q 0 = Some t) as [t T].
  { destruct S as [|s S]; [congruence|]. destruct (proj2 (K s) (or_introl eq_refl)) as [j J]. apply nth_ex. apply nth_lt in J. lia. }
  pose proof (nth_lt _ _ _ _ T) as L0. destruct (nth_ex _ (q_heap q) (length (q_heap q) - 1) ltac:(lia)) as [b B].
  destruct (take_out q 0 t b W T B) as [H1 [W1 K1]]. destruct (out_edges c q 0 t b E W T B SW) as [E1 G1].
  assert (PE : pop c q = if Nat.ltb 1 (length (q_heap (outq q 0 t b))) then siftdown c (outq q 0 t b) 0 else Ok (outq q 0 t b)).
  { unfold pop. rewrite (get_ok _ _ _ _ T), (get_ok _ _ _ _ B). cbn [bind]. rewrite (set_ok _ (q_heap q)) by auto. cbn [bind]. rewrite (get_ok _ _ 0 b) by (rewrite put_nth by auto; reflexivity). cbn [bind].
    rewrite (set_ok _ (q_idx q)) by (eapply wf_idx; eauto). cbn [bind]. rewrite set_ok by (rewrite put_length; eapply wf_idx; eauto). reflexivity. }
  assert (FIN : forall q', (forall k, keys (hf q') k <-> keys (hf (outq q 0 t b)) k) -> Wf (hf q') (xf q') -> (forall i, edge c (hf q') i) -> Hp q' (without t S) c).
  { intros q' KK WW EE. constructor; auto; [|apply nd_without; auto]. intros k. rewrite KK, K1, K, in_without. tauto. }
  rewrite PE. exists t. destruct (Nat.ltb_spec 1 (length (q_heap (outq q 0 t b)))) as [L1|L1].
  - destruct (nth_ex _ (q_heap (outq q 0 t b)) 0 ltac:(lia)) as [y Y].
    destruct (siftdown_ok c SW (outq q 0 t b) y 0 Y (wf_idx _ _ _ W1 Y) W1) as [q' [U [R1 R2 R3 R4 R5]]]; auto.
    + intros i [PI| ->]; [|intros a p Z; lia]. apply E1; auto. intros ->. apply PI. reflexivity.
    + exists q'. sp; auto; [apply get_ok; auto|]. apply K. exists 0. auto.
  - eexists. sp; [apply get_ok; auto|reflexivity|apply K; exists 0; auto|]. apply FIN; auto; [tauto|]. apply trivial_edges. lia.
Qed.
(** siftup followed by siftdown repairs a position *)
Lemma updown_ok : forall c q x n, swo c -> nth_error (q_heap q) n = Some x -> Wf (hf q) (xf q) -> (forall i, i <> n -> parent i <> n -> edge c (hf q) i) -> gap c (hf q) n ->
  exists q1, siftup c q n = Ok q1 /\ length (q_heap q1) = length (q_heap q) /\ Wf (hf q1) (xf q1) /\ (forall k, keys (hf q1) k <-> keys (hf q) k) /\
    (forall m y, m = n \/ y = x -> nth_error (q_heap q1) m = Some y -> exists q2, siftdown c q1 m = Ok q2 /\ Wf (hf q2) (xf q2) /\ (forall i, edge c (hf q2) i) /\ forall k, keys (hf q2) k <-> keys (hf q) k).
Proof.
  intros c q x n SW X W E GP. destruct (up_first c SW q x n X (wf_idx _ _ _ W X) W E GP) as [q1 [U R]]. exists q1. split; auto. destruct R as [[R1 R2 R3 R4 R5]|[V1 [V2 [EN [L1 L2]]]]].
  - sp; auto. intros m y _ Y. destruct (siftdown_ok c SW q1 y m Y (wf_idx _ _ _ R1 Y) R1) as [q2 [D [S1 S2 S3 S4 S5]]]; auto.
    + apply gap_edges; auto. exists y. auto.
    + exists q2. sp; auto. intros k. rewrite S3. apply R3.
  - assert (W1 : Wf (hf q1) (xf q1)) by (eapply Wf_ext; [| |exact W]; intros j; symmetry; [apply V1|apply V2]).
    assert (K1 : forall k, keys (hf q1) k <-> keys (hf q) k) by (intros k; unfold keys; split; intros [j J]; exists j; [rewrite <- V1|rewrite V1]; auto).
    sp; auto. intros m y MY Y. assert (m = n) as ->. { destruct MY as [M| ->]; auto. eapply Wf_inj; [exact W1|exact Y|]. rewrite V1. exact X. }
    destruct (siftdown_ok c SW q1 y n Y (wf_idx _ _ _ W1 Y) W1) as [q2 [D [S1 S2 S3 S4 S5]]]; auto.
    + intros i PI a b I0. rewrite !V1. destruct (Nat.eq_dec i n) as [-> |IN]; [apply EN; auto|]. apply E; auto. lia.
    + intros i a b. rewrite !V1. apply GP.
    + exists q2. sp; auto. intros k. rewrite S3. apply K1.
Qed.
Lemma remove_ok : forall q S c k, Hp q S c -> exists q', remove c q k = Ok q' /\ Hp q' (without k S) c.
Proof.
  intros q S c k P. destruct P as [SW W E K ND]. unfold remove. destruct (isIn q k) eqn:II.
  2:{ exists q. split; auto. constructor; auto; [|apply nd_without; auto]. intros k'. rewrite K, in_without. split; [|tauto]. intros X. split; auto. intros ->. apply K in X. apply isIn_keys in X; auto. congruence. }
  apply isIn_keys in II; auto. destruct II as [n N]. rewrite (pos_keys q k n W N). cbn [bind]. pose proof (nth_lt _ _ _ _ N) as L0.
  destruct (nth_ex _ (q_heap q) (length (q_heap q) - 1) ltac:(lia)) as [b B]. rewrite (get_ok _ _ _ _ B). cbn [bind]. rewrite set_ok by auto. cbn [bind].
  rewrite (get_ok _ _ _ b) by (rewrite put_length, put_nth by auto; destruct (Nat.eqb _ _); auto). cbn [bind]. rewrite set_ok by (eapply wf_idx; eauto). cbn [bind]. rewrite set_ok by (rewrite put_length; eapply wf_idx; eauto). cbn [bind].
  change (Q (put (put (q_idx q) b (Some n)) k None) (removelast (put (q_heap q) n b))) with (outq q n k b).
  change (length (removelast (put (q_heap q) n b))) with (length (q_heap (outq q n k b))). set (q1 := outq q n k b).
  destruct (take_out q n k b W N B) as [H1 [W1 K1]]. destruct (out_edges c q n k b E W N B SW) as [E1 G1]. fold q1 in H1, W1, K1, E1, G1.
  assert (LQ : length (q_heap q1) = length (q_heap q) - 1) by (unfold q1, outq; cbn; rewrite removelast_len, put_length; auto).
  assert (FIN : forall q', (forall k, keys (hf q') k <-> keys (hf q1) k) -> Wf (hf q') (xf q') -> (forall i, edge c (hf q') i) -> Hp q' (without k S) c).
  { intros q' KK WW EE. constructor; auto; [|apply nd_without; auto]. intros k'. rewrite KK, K1, K, in_without. tauto. }
  destruct (Nat.ltb_spec 1 (length (q_heap q1))) as [L1|L1]; cbn [andb].
  2:{ exists q1. split; auto. apply FIN; auto; [tauto|]. apply trivial_edges. lia. }
  destruct (Nat.eqb_spec n (length (q_heap q1))) as [NL|NL]; cbn [negb].
  - exists q1. split; auto. apply FIN; auto; [tauto|]. intros i a p I0 A. pose proof (nth_lt _ _ _ _ A) as IL. rewrite H1 in A |- *. pose proof (parent_lt i I0).
    destruct (Nat.ltb_spec i (length (q_heap q) - 1)) as [_|Z]; [|lia]. rewrite (proj2 (Nat.eqb_neq i n)) in A by lia. destruct (Nat.ltb_spec (parent i) (length (q_heap q) - 1)) as [_|Z]; [|lia]. rewrite (proj2 (Nat.eqb_neq (parent i) n)) by lia. apply E; auto.
  - destruct (nth_ex _ (q_heap q1) n ltac:(lia)) as [x X]. destruct (updown_ok c q1 x n SW X W1 E1 G1) as [q2 [U [L2 [W2 [K2 D]]]]]. rewrite U. cbn [bind].
    destruct (nth_ex _ (q_heap q2) n ltac:(lia)) as [y Y]. destruct (D n y (or_introl eq_refl) Y) as [q3 [D1 [D2 [D3 D4]]]]. exists q3. split; auto.
Qed.

(** * Changed priorities *)
Lemma changed : forall c d q S n k, Hp q S c -> swo d -> agree (without k S) c d -> hf q n = Some k ->
  (forall i, i <> n -> parent i <> n -> edge d (hf q) i) /\ gap d (hf q) n.
Proof.
  intros c d q S n k [SW W E K ND] SD AG N. assert (IN : forall j a, j <> n -> hf q j = Some a -> In a (without k S)).
  { intros j a JN A. apply in_without. split; [apply K; exists j; auto|]. intros ->. apply JN. eapply Wf_inj; eauto. }
  split.
  - intros i I1 I2 a b I0 A B. rewrite <- (AG a b); [apply (E i a b); auto|apply (IN i a); auto|apply (IN (parent i) b); auto].
  - intros i a b N0 I0 PI A B. pose proof (parent_lt i I0). pose proof (parent_lt n N0). rewrite <- (AG a b); [|apply (IN i); auto; lia|apply (IN (parent n)); auto; lia].
    apply (gap_edges c (hf q) n SW E (ex_intro _ _ N) i a b); auto.
Qed.
Lemma update_ok : forall q S c d k, Hp q S c -> swo d -> agree (without k S) c d -> exists q', update d q k = Ok q' /\ Hp q' (k :: without k S) d.
Proof.
  intros q S c d k P SD AG. pose proof P as [SW W E K ND]. unfold update. destruct (isIn q k) eqn:II; cbn [negb].
  - apply isIn_keys in II; auto. destruct II as [n N]. rewrite (pos_keys q k n W N). cbn [bind]. destruct (changed c d q S n k P SD AG N) as [E1 G1].
    destruct (updown_ok d q k n SD N W E1 G1) as [q1 [U [L1 [W1 [K1 D]]]]]. rewrite U. cbn [bind].
    destruct (proj2 (K1 k) (ex_intro _ _ N)) as [m M]. rewrite (pos_keys q1 k m W1 M). cbn [bind]. destruct (D m k (or_intror eq_refl) M) as [q2 [D1 [D2 [D3 D4]]]]. exists q2. split; auto. constructor; auto.
    + intros k'. rewrite D4, K. cbn. rewrite in_without. split; [|intros [<- |[? ?]]; auto; apply K; exists n; auto]. intros X. destruct (Nat.eq_dec k k'); auto.
    + constructor; [|apply nd_without; auto]. rewrite in_without. intros [_ X]. congruence.
  - assert (NK : ~ In k S) by (intros X; apply K in X; apply isIn_keys in X; auto; congruence).
    destruct (push_ok q (without k S) d k) as [q' [U P']]; [| |exists q'; auto].
    + assert (IA : forall j a, hf q j = Some a -> In a (without k S)). { intros j a A. assert (In a S) by (apply K; exists j; auto). apply in_without. split; auto. intros ->. contradiction. }
      constructor; auto; [| |apply nd_without; auto].
      * intros i a b I0 A B. rewrite <- (AG a b); [apply (E i a b); auto|apply (IA i a); auto|apply (IA (parent i) b); auto].
      * intros k'. rewrite in_without, K. split; [|tauto]. intros X. split; auto. intros ->. contradiction.
    + rewrite in_without. tauto.
Qed.
Lemma increase_ok : forall q S c d k, Hp q S c -> In k S -> swo d -> agree (without k S) c d -> (forall y, In y S -> c y k = false -> d y k = false) ->
  exists q', increase d q k = Ok q' /\ Hp q' S d.
Proof.
  intros q S c d k P IK SD AG INC. pose proof P as [SW W E K ND]. unfold increase. pose proof (proj2 (K k) IK) as [n N]. rewrite (proj2 (isIn_keys q k W)) by (exists n; auto). rewrite (pos_keys q k n W N). cbn [bind].
  destruct (changed c d q S n k P SD AG N) as [E1 G1]. destruct (siftup_ok d q k n SD N W) as [q' [U [R1 R2 R3 R4 R5]]]; auto.
  - intros i I1. destruct (Nat.eq_dec (parent i) n) as [PI|PI]; [|apply E1; auto]. intros a b I0 A B. rewrite PI, N in B. injection B as <-. apply INC; [apply K; exists i; auto|]. apply (E i a k); auto. rewrite PI. auto.
  - exists q'. split; auto. constructor; auto. intros k'. rewrite R3. apply K.
Qed.
Lemma decrease_ok : forall q S c d k, Hp q S c -> In k S -> swo d -> agree (without k S) c d -> (forall y, In y S -> c k y = false -> d k y = false) ->
  exists q', decrease d q k = Ok q' /\ Hp q' S d.
Proof.
  intros q S c d k P IK SD AG DEC. pose proof P as [SW W E K ND]. unfold decrease. pose proof (proj2 (K k) IK) as [n N]. rewrite (proj2 (isIn_keys q k W)) by (exists n; auto). rewrite (pos_keys q k n W N). cbn [bind].
  destruct (changed c d q S n k P SD AG N) as [E1 G1]. destruct (siftdown_ok d SD q k n N (wf_idx _ _ _ W N) W) as [q' [U [R1 R2 R3 R4 R5]]]; auto.
  - intros i I1. destruct (Nat.eq_dec i 0) as [-> |Z]; [intros a b X; lia|]. destruct (Nat.eq_dec i n) as [-> |PI]; [|apply E1; auto; lia]. intros a b I0 A B. rewrite N in A. injection A as <-. apply DEC; [apply K; exists (parent n); auto|]. apply (E n k b); auto.
  - exists q'. split; auto. constructor; auto. intros k'. rewrite R3. apply K.
Qed.

Lemma hist_ok : forall q S c, hist q S c -> Hp q S c.
Proof.
  assert (NEW : forall c, swo c -> Hp clear [] c).
  { intros c SW. constructor; auto; [| | |constructor].
    - intros j k. unfold hf, xf, clear; cbn. destruct j, k; split; discriminate.
    - apply trivial_edges. cbn. lia.
    - intros k. split; [|intros []]. intros [j J]. destruct j; discriminate. }
  induction 1; auto.
  - destruct IHhist as [SW W E K ND]. constructor; auto. intros i a b I0 A B. rewrite <- (H1 a b); [apply (E i a b); auto|apply K; exists i; auto|apply K; exists (parent i); auto].
  - destruct (push_ok q S c k IHhist H0) as [q2 [U P]]. congruence.
  - destruct (pop_ok q S c IHhist H0) as [t2 [q2 [T [U [_ P]]]]]. congruence.
  - destruct (update_ok q S c d k IHhist H0 H1) as [q2 [U P]]. congruence.
  - destruct (increase_ok q S c d k IHhist H0 H1 H2 H3) as [q2 [U P]]. congruence.
  - destruct (decrease_ok q S c d k IHhist H0 H1 H2 H3) as [q2 [U P]]. congruence.
  - destruct (remove_ok q S c k IHhist) as [q2 [U P]]. congruence.
  - apply NEW. destruct IHhist; auto.
Qed.
Lemma top_best : forall q S c t, Hp q S c -> hf q 0 = Some t -> forall n y, hf q n = Some y -> c y t = false.
Proof.
  intros q S c t [SW W E K ND] T. induction n as [n IH] using lt_wf_ind. intros y Y. destruct (Nat.eq_dec n 0) as [-> |N0].
  - assert (y = t) by congruence. subst. apply (swo_irr c SW).
  - pose proof (parent_lt n ltac:(lia)) as PL. destruct (nth_ex _ (q_heap q) (parent n)) as [z Z]. { apply nth_lt in Y. lia. }
    eapply (swo_ntr c SW); [apply (E n y z); auto; lia|]. apply (IH (parent n)); auto.
Qed.
Lemma heap_nd : forall q, Wf (hf q) (xf q) -> NoDup (q_heap q).
Proof.
  intros q W. rewrite NoDup_nth_error. intros i j L EQ. destruct (nth_ex _ _ _ L) as [x X]. eapply Wf_inj; [exact W| |]; unfold hf; [exact X|congruence].
Qed.
Lemma size_eq : forall q S c, Hp q S c -> size q = length S.
Proof.
  intros q S c [SW W E K ND]. unfold size. assert (M : forall k, In k (q_heap q) <-> In k S). { intros k. rewrite <- K. split; [apply In_nth_error|]. intros [j J]. eapply nth_error_In; eauto. }
  apply Nat.le_antisymm; apply NoDup_incl_length; auto; [apply heap_nd; auto| |]; intros k; apply M.
Qed.
