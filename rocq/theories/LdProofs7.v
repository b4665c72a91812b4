(** C51: the invariants hold in every execution. *)
From Coq Require Import List Arith Bool Lia Permutation.
From Verif Require Import Base LdSpec LdModel LdProofs LdProofs2 LdProofs3 LdProofs4 LdProofs5 LdProofs6.
Import ListNotations.

Section P.
Variables (m : nat) (peers : nat -> nat -> bool).
Hypothesis M2 : 2 <= m.
Notation Inv := (Inv m peers).
Notation todoG := (todoG peers).
Notation Sem := (Sem m peers).
Notation Ref := (Ref m peers).
Notation share := (share peers).
Notation pubd := (pubd m).

Lemma Inv_mem s g s' : Inv s g -> sameMem s s' -> s_pc s' = s_pc s -> Inv s' g.
Proof.
  intros H (E1 & E2 & E3 & E4 & E5 & E6 & E7) EP. destruct H. constructor; unfold pend2; rewrite ?E1, ?E2, ?E3, ?E4, ?E5, ?E6, ?E7, ?EP; auto.
  intros t T. specialize (i_pc t T). unfold pcOK in *. rewrite E1, E2, E5. exact i_pc.
Qed.
Lemma mem_refl s : sameMem s s. Proof. repeat split. Qed.

Definition g0 : gh := Gh (fun i => [S i]) (fun _ => []) [] (fun a => match a with O => Nowhere | S i => if i <? m then Qu i else Nowhere end).
Lemma Inv_init : Inv (init m) g0.
Proof.
  constructor; cbn -[Nat.ltb]; auto; try (constructor; auto; fail); try (intros; contradiction).
  - intros [|a] A; [congruence|]. destruct (Nat.ltb_spec a m); [lia|congruence].
  - intros i _. now exists [].
  - intros i _. constructor; [intros []|constructor].
  - intros i a I [<-|[]]. destruct (Nat.ltb_spec i m); [reflexivity|lia].
  - discriminate.
Qed.
Lemma Sem_init : Sem [] (init m) g0.
Proof.
  constructor; cbn; auto; try (intros; contradiction); try (constructor; fail).
  - intros x y (u & _ & []).
  - discriminate.
  - intros a. split; [intros []|intros [[]|(u & _ & U)]; discriminate].
Qed.
Lemma Ref_init : Ref [] (init m).
Proof.
  constructor; cbn; auto; try (intros; contradiction); try (constructor; fail).
  - intros x (u & _ & []).
  - intros x. split; [intros []|intros ((u & _ & []) & _)].
Qed.

Lemma ref_ok tr s g t : Inv s g -> Sem tr s g -> Ref tr s -> t < m -> refOK s t.
Proof.
  intros H Z R T. unfold refOK. destruct (s_pc s t) eqn:E; auto. pose proof (i_pb _ _ _ _ H t T) as B. unfold LdProofs.pubOK in B. rewrite E in B. cbn [pubOf] in B. destruct B as (B1 & B2 & B3 & _).
  assert (In (p_it b) (published tr t)) as P by (apply (z_cur _ _ _ _ _ Z t b T); now rewrite E).
  rewrite (r_refs _ _ _ _ R) by (exists t; auto). rewrite B2, B3.
  assert (forall k, cnt peers (p_it b) k <= sumTo k (share tr s (p_it b))) as K; [|apply K].
  induction k as [|k IH]; [apply le_n|]. rewrite sum_S, cnt_S. unfold LdProofs5.share at 2. rewrite B1. destruct (k =? t); cbn [negb andb]; [lia|].
  destruct (goesTo peers k (p_it b)); cbn [negb]; [lia|]. rewrite E. unfold curb. cbn. rewrite eqi_refl. lia.
Qed.

(** A new call *)
Lemma Inv_call s g t u k : Inv s g -> t < m -> s_pc s t = Idle -> Inv (snd (newCall m s t u k)) g.
Proof.
  intros H T E. eapply (Inv_pc m peers s g _ t (Loop (Pb (It (s_num s) t u k) 0 0))); [exact H|exact T|repeat split|reflexivity|rewrite E; discriminate|discriminate| |exact I].
  unfold LdProofs.pubOK. cbn. repeat split. lia.
Qed.
Lemma trans_pc s g s' i p' t : sameMem s s' -> s_pc s' = fset (s_pc s) t p' -> s_pc s t = Idle -> inh s p' = [] -> trans s' g i = trans s g i.
Proof.
  intros (E1 & E2 & _) EP EI EH. unfold trans. rewrite EP. unfold fset. assert (pend s' (gL g i) = pend s (gL g i)) as -> by (apply pend_ext; intros; now rewrite E2).
  destruct (Nat.eqb_spec i t) as [->|]; [|destruct (s_pc s i); cbn; now rewrite ?E2]. rewrite EI. f_equal. transitivity (inh s p'); [|exact EH]. destruct p'; cbn; now rewrite ?E2.
Qed.
Lemma Sem_call tr s g t u k : Inv s g -> Sem tr s g -> t < m -> s_pc s t = Idle ->
  Sem (tr ++ [Call t (fst (newCall m s t u k))]) (snd (newCall m s t u k)) g.
Proof.
  intros H Z T E. unfold newCall. cbn [fst snd]. set (x := It (s_num s) t u k). set (s' := St _ _ _ _ _ _ _ _ _ _ _).
  assert (forall i, trans s' g i = trans s g i) as TR by (intros i; eapply (trans_pc s g s' i (Loop (Pb x 0 0)) t); [repeat split|reflexivity|exact E|reflexivity]).
  assert (forall v, published (tr ++ [Call t x]) v = published tr v ++ (if t =? v then [x] else [])) as PB by (intros v; rewrite published_app; cbn; now destruct (t =? v)).
  assert (forall v, received (tr ++ [Call t x]) v = received tr v) as RV by (intros v; rewrite received_app; cbn; apply app_nil_r).
  assert (blocks (tr ++ [Call t x]) = blocks tr) as BT by (rewrite blocks_app; cbn; apply app_nil_r).
  assert (forall y, pubd (tr ++ [Call t x]) y -> pubd tr y \/ y = x) as PD.
  { intros y (v & V & K). rewrite PB in K. apply in_app_iff in K. destruct K as [K|K]; [left; exists v; auto|]. destruct (t =? v); [destruct K as [<-|[]]; auto|destruct K]. }
  assert (forall y, pubd tr y -> it_id y < s_num s) as LT by (intros y (v & V & K); now apply (z_pub _ _ _ _ _ Z v)).
  constructor.
  - intros i v I V. rewrite PB, RV, TR, filter_app, (z_seq _ _ _ _ _ Z i v I V), <- app_assoc. f_equal. cbn [s_pc s']. destruct (Nat.eqb_spec t v) as [<-|NE].
    + rewrite fset_same, E. reflexivity.
    + rewrite fset_other by auto. cbn. apply app_nil_r.
  - intros i y I. rewrite RV, TR. now apply (z_from _ _ _ _ _ Z).
  - intros v y V Y. rewrite PB in Y. apply in_app_iff in Y. cbn [s_num s']. destruct Y as [Y|Y].
    + destruct (z_pub _ _ _ _ _ Z v y V Y). split; [assumption|lia].
    + destruct (Nat.eqb_spec t v) as [<-|]; [|destruct Y]. destruct Y as [<-|[]]. cbn. lia.
  - intros v V. rewrite PB. destruct (Nat.eqb_spec t v) as [<-|]; [|rewrite app_nil_r; now apply (z_nd _ _ _ _ _ Z)].
    apply NoDup_snoc; [now apply (z_nd _ _ _ _ _ Z)|]. intros K. apply (z_pub _ _ _ _ _ Z t x T) in K. cbn in K. lia.
  - intros y z Y Q EI. apply PD in Y, Q. destruct Y as [Y| ->], Q as [Q| ->]; auto.
    + now apply (z_inj _ _ _ _ _ Z).
    + apply LT in Y. cbn in EI. lia.
    + apply LT in Q. cbn in EI. lia.
  - intros v b V. cbn [s_pc s']. rewrite PB. destruct (Nat.eq_dec v t) as [->|NE].
    + rewrite fset_same. cbn. intros K. injection K as <-. cbn. rewrite Nat.eqb_refl. apply in_app_iff. right. now left.
    + rewrite fset_other by auto. intros K. apply in_app_iff. left. now apply (z_cur _ _ _ _ _ Z v b).
  - intros a. rewrite BT, (z_blk _ _ _ _ _ Z a). cbn [s_pc s']. split; (intros [K|(v & V & K)]; [now left|right; exists v; split; [exact V|]]).
    + rewrite fset_other; [exact K|]. intros ->. now rewrite E in K.
    + destruct (Nat.eq_dec v t) as [->|NE]; [now rewrite fset_same in K|now rewrite fset_other in K].
  - rewrite BT. apply (z_bnd _ _ _ _ _ Z).
Qed.
Lemma sum_const1 k t : (forall f : nat -> nat, (forall i, i < k -> f i = if i =? t then 0 else 1) -> t < k -> S (sumTo k f) = k).
Proof.
  induction k as [|k IH]; intros f F T; [lia|]. rewrite sum_S, (F k) by lia. destruct (Nat.eqb_spec k t) as [->|NE].
  - assert (sumTo t f = t) as ->; [|lia]. clear - F. assert (forall i, i < t -> f i = 1) as F' by (intros i I; rewrite F by lia; destruct (Nat.eqb_spec i t); [lia|reflexivity]).
    clear F. induction t as [|t IH]; [reflexivity|]. rewrite sum_S, F', IH by (intros; auto; apply F'; lia). lia.
  - specialize (IH f ltac:(intros; apply F; lia) ltac:(lia)). lia.
Qed.
Lemma Ref_call tr s g t u k : Inv s g -> Sem tr s g -> Ref tr s -> t < m -> s_pc s t = Idle ->
  Ref (tr ++ [Call t (fst (newCall m s t u k))]) (snd (newCall m s t u k)).
Proof.
  intros H Z R T E. unfold newCall. cbn [fst snd]. set (x := It (s_num s) t u k). set (s' := St _ _ _ _ _ _ _ _ _ _ _).
  assert (forall v, published (tr ++ [Call t x]) v = published tr v ++ (if t =? v then [x] else [])) as PB by (intros v; rewrite published_app; cbn; now destruct (t =? v)).
  assert (forall v, received (tr ++ [Call t x]) v = received tr v) as RV by (intros v; rewrite received_app; cbn; apply app_nil_r).
  assert (deleted (tr ++ [Call t x]) = deleted tr) as DT by (rewrite deleted_app; cbn; apply app_nil_r).
  assert (forall v y, relb (tr ++ [Call t x]) v y = relb tr v y) as RL by (intros; rewrite relb_app; cbn; apply orb_false_r).
  assert (forall y, pubd (tr ++ [Call t x]) y <-> pubd tr y \/ y = x) as PD.
  { intros y. split.
    - intros (v & V & K). rewrite PB in K. apply in_app_iff in K. destruct K as [K|K]; [left; exists v; auto|]. destruct (t =? v); [destruct K as [<-|[]]; auto|destruct K].
    - intros [K| ->]; [now apply pubd_app|]. exists t. split; [exact T|]. rewrite PB, Nat.eqb_refl. apply in_app_iff. right. now left. }
  assert (forall y, pubd tr y -> it_id y < s_num s) as LT by (intros y (v & V & K); now apply (z_pub _ _ _ _ _ Z v)).
  assert (forall v y, v < m -> In y (received tr v) -> y <> x) as NX.
  { intros v y V Y ->. destruct (sem_recv m peers tr s g v x Z V) as [K _]; [apply in_app_iff; now left|]. apply LT in K. cbn in K. lia. }
  assert (forall v y, v < m -> In y (published tr v) -> y <> x) as NX2 by (intros v y V Y ->; assert (pubd tr x) as K by (exists v; auto); apply LT in K; cbn in K; lia).
  assert (forall v y, y <> x -> curb (s_pc s' v) y = curb (s_pc s v) y) as CY.
  { intros v y NE. cbn [s_pc s']. destruct (Nat.eq_dec v t) as [->|NV]; [|now rewrite fset_other]. rewrite fset_same, E. unfold curb. cbn. apply eqi_false. auto. }
  assert (forall v, relb tr v x = false) as RX.
  { intros v. destruct (relb tr v x) eqn:Q; [|reflexivity]. apply relb_in in Q. apply (r_rel _ _ _ _ R) in Q. destruct Q as (V & [Q|Q] & _); exfalso; [now apply (NX v x)|now apply (NX2 v x)]. }
  assert (s_refs s' (it_id x) = sumTo m (share (tr ++ [Call t x]) s' x)) as RN.
  { cbn [s_refs s' it_id x]. rewrite fset_same. assert (forall i, i < m -> share (tr ++ [Call t x]) s' x i = if i =? t then (if k then 1 else 0) else 1) as SH.
    { intros i I. unfold LdProofs5.share. rewrite RL, RX. cbn [it_from it_keep x]. destruct (i =? t); [now destruct k|]. destruct (goesTo _ _ _); [reflexivity|]. cbn [s_pc s']. rewrite fset_same. unfold curb. cbn. now rewrite eqi_refl. }
    destruct k.
    - pose proof (sum_const1 m t (fun i => if i =? t then 0 else 1) (fun i _ => eq_refl) T) as Q.
      rewrite (sum_one m (share (tr ++ [Call t x]) s' x) (fun i => if i =? t then 0 else 1) t T); [lia| | |].
      + rewrite SH by exact T. now rewrite Nat.eqb_refl.
      + now rewrite Nat.eqb_refl.
      + intros i I NE. rewrite SH by exact I. destruct (Nat.eqb_spec i t); congruence.
    - pose proof (sum_const1 m t (share (tr ++ [Call t x]) s' x) SH T) as Q. lia. }
  constructor.
  - intros y Y. apply PD in Y. destruct Y as [Y| ->]; [|exact RN]. pose proof (LT y Y) as L. cbn [s_refs s']. rewrite fset_other by lia. rewrite (r_refs _ _ _ _ R y Y).
    symmetry. apply sum_ext. intros i I. unfold LdProofs5.share. rewrite RL, CY; [reflexivity|]. intros ->. cbn in L. lia.
  - intros v y V Y. cbn [s_hold s'] in Y. destruct (r_hold _ _ _ _ R v y V Y) as (K1 & K2 & K3). assert (y <> x) as NE by (destruct K1 as [K1|[_ K1]]; eauto).
    rewrite RV, PB, RL, CY by exact NE. split; [|auto]. destruct K1 as [K1|[K1 K1']]; [now left|right]. split; [exact K1|]. apply in_app_iff. now left.
  - intros v V. now apply (r_hnd _ _ _ _ R).
  - intros v y Y. apply in_app_iff in Y. destruct Y as [Y|[Y|[]]]; [|discriminate]. destruct (r_rel _ _ _ _ R v y Y) as (V & K1 & K2). assert (y <> x) as NE by (destruct K1; eauto).
    rewrite RV, PB, CY by exact NE. split; [exact V|]. split; [|exact K2]. destruct K1 as [K1|K1]; [now left|right]. apply in_app_iff. now left.
  - intros y. rewrite DT, (r_del _ _ _ _ R y), PD. cbn [s_refs s']. split.
    + intros [Y1 Y2]. pose proof (LT y Y1). rewrite fset_other by lia. auto.
    + intros [[Y1| ->] Y2].
      * pose proof (LT y Y1). rewrite fset_other in Y2 by lia. auto.
      * cbn [it_id x] in Y2. rewrite fset_same in Y2. lia.
  - rewrite DT. apply (r_dnd _ _ _ _ R).
Qed.

(** receive starts *)
Lemma Inv_receive s g t : Inv s g -> t < m -> s_pc s t = Idle -> Inv (goto s t Po0) g.
Proof. intros H T E. eapply (Inv_pc m peers s g _ t Po0); [exact H|exact T|repeat split|reflexivity|rewrite E; discriminate|discriminate|exact I|exact I]. Qed.
Lemma Sem_receive tr s g t : Sem tr s g -> t < m -> s_pc s t = Idle -> Sem tr (goto s t Po0) g.
Proof.
  intros Z T E. assert (forall i, trans (goto s t Po0) g i = trans s g i) as TR by (intros i; eapply (trans_pc s g _ i Po0 t); [repeat split|reflexivity|exact E|reflexivity]).
  assert (forall v, pubOf (fset (s_pc s) t Po0 v) = pubOf (s_pc s v)) as PO by (intros v; unfold fset; destruct (Nat.eqb_spec v t) as [->|]; [now rewrite E|reflexivity]).
  assert (forall v, heldB (fset (s_pc s) t Po0 v) = heldB (s_pc s v)) as HB by (intros v; unfold fset; destruct (Nat.eqb_spec v t) as [->|]; [now rewrite E|reflexivity]).
  destruct Z. constructor; auto.
  - intros i v I V. rewrite TR, z_seq by assumption. f_equal. cbn. unfold fset. destruct (Nat.eqb_spec v t) as [->|]; [now rewrite E|reflexivity].
  - intros i x I. rewrite TR. now apply z_from.
  - intros v b V. cbn [s_pc goto]. rewrite PO. auto.
  - intros a. rewrite z_blk. cbn [s_pc goto]. split; (intros [K|(v & V & K)]; [now left|right; exists v; split; [exact V|]]); [now rewrite HB|now rewrite HB in K].
Qed.
Lemma Ref_receive tr s t : Ref tr s -> t < m -> s_pc s t = Idle -> Ref tr (goto s t Po0).
Proof.
  intros R T E. assert (forall v x, curb (fset (s_pc s) t Po0 v) x = curb (s_pc s v) x) as CU by (intros v x; unfold fset; destruct (Nat.eqb_spec v t) as [->|]; [now rewrite E|reflexivity]).
  destruct R. constructor; auto.
  - intros x X. cbn [s_refs goto]. rewrite r_refs by exact X. apply sum_ext. intros i I. unfold LdProofs5.share. cbn [s_pc goto]. now rewrite CU.
  - intros v x V X. cbn [s_pc goto s_hold] in *. rewrite CU. auto.
  - intros v x X. cbn [s_pc goto]. rewrite CU. auto.
Qed.

(** a client gives a reference back *)
Lemma hold_pubd tr s g t x : Sem tr s g -> Ref tr s -> t < m -> In x (s_hold s t) -> pubd tr x /\ share tr s x t = 1 /\ (goesTo peers t x = true \/ t = it_from x /\ it_keep x = true) /\ relb tr t x = false.
Proof.
  intros Z R T X. destruct (r_hold _ _ _ _ R t x T X) as (K1 & K2 & K3). unfold LdProofs5.share. rewrite K3. destruct K1 as [K1|[K1 K1']].
  - destruct (sem_recv m peers tr s g t x Z T) as [P G]; [apply in_app_iff; now left|]. split; [exact P|]. rewrite G. split; [|auto].
    destruct (Nat.eqb_spec t (it_from x)) as [EQ|]; [|reflexivity]. unfold goesTo in G. rewrite EQ, Nat.eqb_refl in G. discriminate.
  - destruct (z_pub _ _ _ _ _ Z t x T K1') as [F _]. split; [exists t; auto|]. rewrite F, Nat.eqb_refl, K1. auto.
Qed.
Lemma release_ok tr s g t x : Sem tr s g -> Ref tr s -> t < m -> In x (s_hold s t) -> 1 <= s_refs s (it_id x).
Proof.
  intros Z R T X. destruct (hold_pubd tr s g t x Z R T X) as (P & S1 & _). rewrite (r_refs _ _ _ _ R x P).
  rewrite (sum_one m (share tr s x) (fun i => if i =? t then 0 else share tr s x i) t T S1); [lia|now rewrite Nat.eqb_refl|]. intros i I NE. destruct (Nat.eqb_spec i t); congruence.
Qed.
Lemma Sem_mem tr e s s' g : Sem tr s g -> sameMem s s' -> s_pc s' = s_pc s -> s_num s' = s_num s -> (forall u, published e u = []) -> (forall u, received e u = []) -> blocks e = [] -> Sem (tr ++ e) s' g.
Proof.
  intros Z (_ & E2 & _) EP EN P1 P2 P3.
  assert (forall i, trans s' g i = trans s g i) as TR by (intros i; unfold trans; rewrite EP; f_equal; [destruct (s_pc s i); cbn; now rewrite ?E2|apply pend_ext; intros; now rewrite E2]).
  assert (forall u, published (tr ++ e) u = published tr u) as PT by (intros u; now rewrite published_app, P1, app_nil_r).
  assert (forall u, received (tr ++ e) u = received tr u) as RT by (intros u; now rewrite received_app, P2, app_nil_r).
  assert (blocks (tr ++ e) = blocks tr) as BT by (now rewrite blocks_app, P3, app_nil_r).
  assert (forall x, pubd (tr ++ e) x -> pubd tr x) as PD by (intros x (u & U & K); exists u; rewrite PT in *; auto).
  destruct Z. constructor.
  - intros i u I U. rewrite PT, RT, TR, EP. auto.
  - intros i x I. rewrite RT, TR. now apply z_from.
  - intros u x U. rewrite PT, EN. auto.
  - intros u U. rewrite PT. auto.
  - intros x y X Y. apply PD in X, Y. auto.
  - intros u b U. rewrite PT, EP. auto.
  - intros a. rewrite BT, EP. auto.
  - now rewrite BT.
Qed.
Lemma relb_one tr t x e u y : (e = [] \/ e = [Del x]) -> relb (tr ++ Rel t x :: e) u y = relb tr u y || ((t =? u) && eqi x y).
Proof. intros E. rewrite relb_app. f_equal. unfold relb. cbn. destruct E as [->| ->]; cbn; apply orb_false_r. Qed.
Lemma Ref_release tr s g t h1 x h2 s' e : Sem tr s g -> Ref tr s -> t < m -> s_pc s t = Idle -> s_hold s t = h1 ++ x :: h2 -> release (w_hold s t (h1 ++ h2)) x 1 = Ok (s', e) ->
  Ref (tr ++ Rel t x :: e) s'.
Proof.
  intros Z R T EI EH E. assert (In x (s_hold s t)) as XH by (rewrite EH; apply in_app_iff; right; now left).
  destruct (hold_pubd tr s g t x Z R T XH) as (P & S1 & G & RX). pose proof (release_ok tr s g t x Z R T XH) as L1.
  unfold release in E. cbn [s_refs w_hold] in E. destruct (Nat.ltb_spec (s_refs s (it_id x)) 1); [lia|]. injection E as <- <-.
  set (e := if _ =? 0 then [Del x] else []). assert (e = [] \/ e = [Del x]) as EE by (subst e; destruct (_ =? 0); auto).
  assert (forall u, published (tr ++ Rel t x :: e) u = published tr u) as PT by (intros u; rewrite published_app; destruct EE as [->| ->]; cbn; now rewrite app_nil_r).
  assert (forall u, received (tr ++ Rel t x :: e) u = received tr u) as RT by (intros u; rewrite received_app; destruct EE as [->| ->]; cbn; now rewrite app_nil_r).
  assert (deleted (tr ++ Rel t x :: e) = deleted tr ++ deleted e) as DT by (rewrite deleted_app; reflexivity).
  assert (forall y, pubd (tr ++ Rel t x :: e) y <-> pubd tr y) as PD by (intros y; unfold LdProofs5.pubd; split; intros (u & U & K); exists u; rewrite PT in *; auto).
  pose proof (r_hnd _ _ _ _ R t T) as ND. rewrite EH in ND. pose proof (NoDup_remove_1 _ _ _ ND) as ND1. apply NoDup_remove_2 in ND.
  assert (forall y, y <> x -> forall i, share (tr ++ Rel t x :: e) (w_refs (w_hold s t (h1 ++ h2)) (it_id x) (s_refs s (it_id x) - 1)) y i = share tr s y i) as SY.
  { intros y NE i. unfold LdProofs5.share. rewrite relb_one by exact EE. rewrite (eqi_false x y) by auto. now rewrite andb_false_r, orb_false_r. }
  assert (sumTo m (share tr s x) = S (sumTo m (share (tr ++ Rel t x :: e) (w_refs (w_hold s t (h1 ++ h2)) (it_id x) (s_refs s (it_id x) - 1)) x))) as SX.
  { apply (sum_one m _ _ t T S1).
    - unfold LdProofs5.share. rewrite relb_one, eqi_refl, Nat.eqb_refl, orb_true_r by exact EE. cbn. destruct (Nat.eqb_spec t (it_from x)); [now rewrite andb_false_r|]. destruct G as [->|[]]; [reflexivity|congruence].
    - intros i I NE. unfold LdProofs5.share. rewrite relb_one by exact EE. destruct (Nat.eqb_spec t i); [congruence|]. cbn. now rewrite orb_false_r. }
  pose proof (r_refs _ _ _ _ R x P) as RF.
  constructor.
  - intros y Y. apply PD in Y. cbn [s_refs w_refs w_hold]. destruct (item_dec y x) as [->|NE].
    + rewrite fset_same. lia.
    + rewrite fset_other by (intros Q; apply NE; now apply (z_inj _ _ _ _ _ Z)). rewrite (r_refs _ _ _ _ R y Y). apply sum_ext. intros i I. symmetry. now apply SY.
  - intros u y U Y. cbn [s_hold w_refs w_hold s_pc] in *. rewrite RT, PT, relb_one by exact EE. destruct (Nat.eq_dec u t) as [->|NE].
    + rewrite fset_same in Y. assert (In y (s_hold s t)) as Y' by (rewrite EH; apply in_app_iff in Y; apply in_app_iff; cbn; tauto). destruct (r_hold _ _ _ _ R t y T Y') as (K1 & K2 & K3).
      split; [exact K1|]. split; [exact K2|]. rewrite K3, eqi_false by (intros ->; contradiction). now rewrite andb_false_r.
    + rewrite fset_other in Y by exact NE. destruct (r_hold _ _ _ _ R u y U Y) as (K1 & K2 & K3). split; [exact K1|]. split; [exact K2|]. rewrite K3. destruct (Nat.eqb_spec t u); [congruence|reflexivity].
  - intros u U. cbn [s_hold w_refs w_hold]. destruct (Nat.eq_dec u t) as [->|NE]; [now rewrite fset_same|rewrite fset_other by exact NE]. now apply (r_hnd _ _ _ _ R).
  - intros u y Y. rewrite RT, PT. cbn [s_pc w_refs w_hold]. apply in_app_iff in Y. destruct Y as [Y|[Y|Y]].
    + now apply (r_rel _ _ _ _ R).
    + injection Y as <- <-. destruct (r_hold _ _ _ _ R t x T XH) as (K1 & K2 & K3). split; [exact T|]. split; [|exact K2]. destruct K1 as [K1|[_ K1]]; auto.
    + exfalso. destruct EE as [EE|EE]; rewrite EE in Y; cbn in Y; intuition discriminate.
  - intros y. rewrite DT, in_app_iff, (r_del _ _ _ _ R y), PD. cbn [s_refs w_refs w_hold]. destruct (item_dec y x) as [->|NE].
    + rewrite fset_same. split.
      * intros [[_ K]|K]; [lia|]. split; [exact P|]. subst e. destruct (Nat.eqb_spec (s_refs s (it_id x) - 1) 0); [assumption|destruct K].
      * intros [_ K]. right. subst e. rewrite K. now left.
    + assert (~ In y (deleted e)) as NI by (destruct EE as [->| ->]; cbn; intuition congruence). split.
      * intros [[K1 K2]|K]; [|tauto]. rewrite fset_other by (intros Q; apply NE; now apply (z_inj _ _ _ _ _ Z)). auto.
      * intros [K1 K2]. left. rewrite fset_other in K2 by (intros Q; apply NE; now apply (z_inj _ _ _ _ _ Z)). auto.
  - rewrite DT. destruct EE as [Q|Q]; rewrite Q; cbn; [rewrite app_nil_r; apply (r_dnd _ _ _ _ R)|]. apply NoDup_snoc; [apply (r_dnd _ _ _ _ R)|].
    intros K. apply (r_del _ _ _ _ R) in K. lia.
Qed.

Lemma exec_inv tr s : exec m peers tr s -> exists g, Inv s g /\ Sem tr s g /\ Ref tr s.
Proof.
  induction 1 as [|tr s e s' _ (g & HI & HS & HR) ST].
  - exists g0. split; [apply Inv_init|]. split; [apply Sem_init|apply Ref_init].
  - inversion ST as [t s1 e1 T NI RU|t u k T EI|t T EI|t h1 x h2 s1 e1 T EI EH RE]; subst.
    + destruct (run_ok m peers s g t HI T NI (ref_ok tr s g t HI HS HR T)) as (s2 & e2 & g' & RU2 & HI' & EF & p' & EP & BK). rewrite RU in RU2. injection RU2 as <- <-.
      exists g'. split; [exact HI'|]. split; [now apply (Sem_run m peers M2 tr s g t s' e g' p')|now apply (Ref_run m peers M2 tr s g t s' e g' p')].
    + exists g. split; [now apply Inv_call|]. split; [now apply Sem_call|eapply Ref_call; eauto].
    + exists g. rewrite app_nil_r. split; [now apply Inv_receive|]. split; [now apply Sem_receive|now apply Ref_receive].
    + exists g. destruct (memR _ _ _ _ _ RE) as (M & EP & EH' & EE). cbn [s_pc w_hold] in EP. assert (sameMem s s') as M' by exact M.
      split; [now apply (Inv_mem s)|]. split; [|eapply Ref_release; eauto]. apply (Sem_mem tr _ s s' g HS M' EP).
      * unfold release in RE. destruct (_ <? _); [discriminate|]. now injection RE as <- _.
      * destruct EE as [->| ->]; reflexivity.
      * destruct EE as [->| ->]; reflexivity.
      * destruct EE as [->| ->]; reflexivity.
Qed.
End P.
