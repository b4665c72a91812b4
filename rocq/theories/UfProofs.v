(** Unfounded set check: counters, source pointers and the invariant that sources are acyclic *)
From Coq Require Import List Bool Arith ZArith Lia.
From Verif Require Import Base UfModel UfSpec.
Import ListNotations.
Local Open Scope Z_scope.

Ltac sp := repeat match goal with |- _ /\ _ => split end.
Lemma upd_same : forall {T} (f : nat -> T) k v, upd f k v k = v.
Proof. intros. unfold upd. rewrite Nat.eqb_refl. reflexivity. Qed.
Lemma upd_other : forall {T} (f : nat -> T) k v i, i <> k -> upd f k v i = f i.
Proof. intros. unfold upd. destruct (Nat.eqb_spec i k); [contradiction|reflexivity]. Qed.
Lemma filter_same : forall (P Q : nat -> bool) l, (forall y, In y l -> P y = Q y) -> filter P l = filter Q l.
Proof. intros. induction l as [|a l IH]; cbn; auto. rewrite H by (left; auto). rewrite IH; auto. intros. apply H. right. auto. Qed.
Lemma filter_flip : forall (P Q : nat -> bool) x l, NoDup l -> In x l -> (forall y, In y l -> y <> x -> P y = Q y) -> P x = false -> Q x = true -> length (filter Q l) = S (length (filter P l)).
Proof.
  intros P Q x l N I F PX QX. induction l as [|a l IH]; [easy|]. inversion N; subst. cbn. destruct (Nat.eq_dec a x) as [->|D].
  - rewrite PX, QX. cbn. f_equal. f_equal. symmetry. apply filter_same. intros y Y. apply F; [right; auto|]. intros ->. contradiction.
  - destruct I as [->|I]; [contradiction|]. rewrite <- F by (auto; left; auto). specialize (IH H2 I (fun y Y => F y (or_intror Y))). destruct (P a); cbn; lia.
Qed.
Lemma filter_zero : forall (P : nat -> bool) l, length (filter P l) = O <-> forall y, In y l -> P y = false.
Proof.
  intros. induction l as [|a l IH]; cbn; [easy|]. destruct (P a) eqn:E; cbn; split; intros H; try easy.
  - specialize (H a (or_introl eq_refl)). congruence.
  - intros y [<-|Y]; auto. apply IH; auto.
  - apply IH. intros. apply H. auto.
Qed.

Section Uf.
Variable g : graph.
Hypothesis W : gwf g.
Notation nA := (nAtoms g).
Notation nB := (length (g_bodies g)).
Lemma atoms_out : forall x, (length (g_atoms g) <= x)%nat -> atomOf g x = ANode (0%nat, true) 0 false [] [] [].
Proof. intros. unfold atomOf. apply nth_overflow. auto. Qed.
Lemma bodies_out : forall b, (nB <= b)%nat -> bodyOf g b = BNode (0%nat, true) 0 [] None [] [].
Proof. intros. unfold bodyOf. apply nth_overflow. auto. Qed.
Lemma head_range : forall b x, In x (n_heads (bodyOf g b)) -> (b < nB)%nat.
Proof. intros b x I. destruct (le_lt_dec nB b) as [L|L]; auto. rewrite bodies_out in I by auto. easy. Qed.
Lemma pred_range : forall b p, In p (preds g b) -> (b < nB)%nat.
Proof. intros b x I. destruct (le_lt_dec nB b) as [L|L]; auto. unfold preds in I. rewrite bodies_out in I by auto. easy. Qed.
Lemma ext_range : forall b, isExt g b = true -> (b < nB)%nat.
Proof. intros b I. destruct (le_lt_dec nB b) as [L|L]; auto. unfold isExt in I. rewrite bodies_out in I by auto. easy. Qed.
Lemma bodies_heads : forall x b, In b (a_bodies (atomOf g x)) -> In x (n_heads (bodyOf g b)) /\ (b < nB)%nat /\ (x < nA)%nat.
Proof. intros x b I. apply (gw_heads _ W) in I. sp; auto. eapply head_range; eauto. eapply (gw_hrange _ W); eauto. Qed.

(** Sums over positions of an extended body, numbers of missing predecessors, numbers of watchers *)
Definition sumP (b : nat) (P : nat -> bool) : Z := fold_right Z.add 0 (map (fun i => if P i then wt g b i else 0) (seq 0 (length (goals g b)))).
Definition cnt (E : nat -> bool) (b : nat) : nat := length (filter (fun p => negb (E p)) (preds g b)).
Definition nWatch (src : nat -> option nat) (b : nat) : nat := length (filter (fun x => match src x with Some c => Nat.eqb c b | None => false end) (seq 0 nA)).
Definition bound (b : nat) : Z := match n_bound (bodyOf g b) with Some z => z | None => 0 end.
Lemma wt_nonneg : forall b i, 0 <= wt g b i.
Proof. intros. unfold wt. destruct (nth_error (goals g b) i) eqn:N; [|lia]. apply (gw_wt _ W b). eapply nth_error_In; eauto. Qed.
Lemma sum_upd_gen : forall (b : nat) (P : nat -> bool) i (v : bool) l, NoDup l ->
  fold_right Z.add 0 (map (fun j => if upd P i v j then wt g b j else 0) l) =
  fold_right Z.add 0 (map (fun j => if P j then wt g b j else 0) l) + (if in_dec Nat.eq_dec i l then (if v then wt g b i else 0) - (if P i then wt g b i else 0) else 0).
Proof.
  intros b P i v l. induction l as [|a l IH]; intros N; [cbn; lia|]. inversion N; subst. cbn [map fold_right]. rewrite IH by auto.
  destruct (Nat.eq_dec a i) as [->|D].
  - rewrite upd_same. destruct (in_dec Nat.eq_dec i l); [contradiction|]. destruct (in_dec Nat.eq_dec i (i :: l)) as [|X]; [|destruct X; left; auto]. lia.
  - rewrite upd_other by auto. destruct (in_dec Nat.eq_dec i l) as [I|I]; destruct (in_dec Nat.eq_dec i (a :: l)) as [J|J]; try lia.
    + destruct J. right. auto.
    + destruct J as [->|J]; contradiction.
Qed.
Lemma sum_upd : forall (b : nat) (P : nat -> bool) i (v : bool), sumP b (upd P i v) = sumP b P + (if v then wt g b i else 0) - (if P i then wt g b i else 0).
Proof.
  intros. unfold sumP. rewrite sum_upd_gen by apply seq_NoDup. destruct (in_dec Nat.eq_dec i (seq 0 (length (goals g b)))) as [I|I]; [lia|].
  assert (Z0 : wt g b i = 0). { unfold wt. destruct (nth_error (goals g b) i) eqn:N; auto. exfalso. apply I. apply in_seq. assert (i < length (goals g b))%nat; [|lia]. apply nth_error_Some. congruence. }
  rewrite Z0. destruct v, (P i); lia.
Qed.
Lemma sum_same : forall b P Q, (forall i, P i = Q i) -> sumP b P = sumP b Q.
Proof. intros. unfold sumP. f_equal. apply map_ext. intros. rewrite H. reflexivity. Qed.
Lemma sum_le : forall b P Q, (forall i, (i < length (goals g b))%nat -> P i = true -> Q i = true) -> sumP b P <= sumP b Q.
Proof.
  intros. unfold sumP. assert (G : forall i, In i (seq 0 (length (goals g b))) -> P i = true -> Q i = true). { intros i I. apply in_seq in I. apply H. lia. }
  revert G. generalize (seq 0 (length (goals g b))). induction l as [|a l IH]; intros G; cbn; [lia|].
  assert (X := IH (fun i I => G i (or_intror I))). pose proof (G a (or_introl eq_refl)) as Y. pose proof (wt_nonneg b a). destruct (P a); [rewrite Y by auto; lia|]. destruct (Q a); lia.
Qed.
Lemma sum_none : forall b, sumP b (fun _ => false) = 0.
Proof. intros. unfold sumP. induction (seq 0 (length (goals g b))); cbn in *; auto. Qed.

Definition valid (k : ck) (b : nat) : Prop := if isExt g b then k_low k b <= 0 else k_low k b = 0.
Lemma valid_dec : forall k b, valid k b \/ ~ valid k b.
Proof. intros. unfold valid. destruct (isExt g b); lia. Qed.
(** [y] is needed by the source of [x] *)
Definition edge (src : nat -> option nat) (G : nat -> nat -> bool) (y x : nat) : Prop :=
  exists b, src x = Some b /\ sameScc g b x = true /\ if isExt g b then exists i, G b i = true /\ nth_error (preds g b) i = Some y else In y (preds g b).
Definition upG (k : ck) (G : nat -> nat -> bool) : nat -> nat -> bool := fun b i => if k_low k b <=? 0 then k_ws k b i else G b i.

Record Core (N : nat) (bad : nat -> Prop) (E : nat -> nat -> bool) (G : nat -> nat -> bool) (k : ck) : Prop := {
  c_low : forall b, (b < N)%nat -> isExt g b = false -> k_low k b = Z.of_nat (cnt (E b) b);
  c_elow : forall b, (b < N)%nat -> isExt g b = true -> k_low k b = bound b - sumP b (k_ws k b);
  c_ws : forall b i p, isExt g b = true -> nth_error (preds g b) i = Some p -> k_ws k b i = true -> E b p = true;
  c_w : forall b, k_w k b = nWatch (k_src k) b;
  c_src : forall x b, k_src k x = Some b -> In b (a_bodies (atomOf g x)) /\ (b < N)%nat;
  c_valid : forall x, k_val k x = true -> exists b, k_src k x = Some b /\ (sameScc g b x = true -> valid k b \/ bad b);
  c_wf : forall x, Acc (edge (k_src k) G) x;
  c_g : forall b i, (b < N)%nat -> isExt g b = true -> k_low k b <= 0 -> G b i = k_ws k b i;
  c_new : forall b i, (N <= b)%nat -> k_ws k b i = false;
  c_range : forall x, k_val k x = true -> (x < nA)%nat }.
Definition none : nat -> Prop := fun _ => False.
Lemma core_same : forall N bad E G k k', k_src k' = k_src k -> k_val k' = k_val k -> k_w k' = k_w k -> k_low k' = k_low k -> k_ws k' = k_ws k -> Core N bad E G k -> Core N bad E G k'.
Proof.
  intros N bad E G k k' E1 E2 E3 E4 E5 C. destruct C as [C1 C2 C3 C4 C5 C6 C7 C8 C9 C10]. constructor; intros; rewrite ?E1, ?E2, ?E3, ?E4, ?E5 in *; eauto.
  destruct (C6 _ H) as (b & B1 & B2). exists b. split; auto. intros S1. unfold valid in *. rewrite E4. auto.
Qed.
Lemma acc_mono : forall (R R' : nat -> nat -> Prop), (forall y x, R' y x -> R y x) -> forall x, Acc R x -> Acc R' x.
Proof. intros R R' M x A. induction A as [x _ IH]. constructor. intros y Y. apply IH. auto. Qed.
Lemma acc_mono_eq : forall N bad E G k k', Core N bad E G k -> k_src k' = k_src k ->
  (forall b i, (b < N)%nat -> isExt g b = true -> upG k' G b i = true -> G b i = true) -> forall x, Acc (edge (k_src k') (upG k' G)) x.
Proof.
  intros N bad E G k k' C S1 H x. apply (acc_mono (edge (k_src k) G)); [|apply (c_wf _ _ _ _ _ C)].
  intros y z (b & B1 & B2 & B3). exists b. rewrite S1 in B1. sp; auto. pose proof (proj2 (c_src _ _ _ _ _ C _ _ B1)) as L. destruct (isExt g b) eqn:X; auto.
  destruct B3 as (i & I1 & I2). exists i. split; auto.
Qed.
(** A set of atoms that is closed under the sources *)
Lemma acc_closed : forall (R R' : nat -> nat -> Prop) (P : nat -> Prop), (forall x, Acc R x) -> (forall y x, P x -> R' y x -> R y x /\ P y) -> forall x, P x -> Acc R' x.
Proof. intros R R' P A C x. induction (A x) as [x _ IH]. intros PX. constructor. intros y Y. destruct (C _ _ PX Y). apply IH; auto. Qed.

Section Core.
Variable N : nat.
Variable E : nat -> nat -> bool.
Variable G : nat -> nat -> bool.
Variable k : ck.
(** Counters count only sourced atoms *)
Definition sub (F : nat -> nat -> bool) (v : nat -> bool) : Prop := forall b p, In p (preds g b) -> F b p = true -> v p = true.
Lemma cnt_zero : forall F b, cnt F b = O <-> forall p, In p (preds g b) -> F p = true.
Proof. intros. unfold cnt. rewrite filter_zero. split; intros H p P; specialize (H p P); destruct (F p); cbn in *; congruence. Qed.
Lemma sourced_closed : Core N none E G k -> sub E (k_val k) -> forall y x, k_val k x = true -> edge (k_src k) G y x -> k_val k y = true.
Proof.
  intros C S1 y x V (b & B1 & B2 & B3). destruct (c_valid _ _ _ _ _ C _ V) as (b' & Q & Y). rewrite B1 in Q. injection Q as <-. destruct (Y B2) as [Y1|[]]. unfold valid in Y1.
  pose proof (proj2 (c_src _ _ _ _ _ C _ _ B1)) as L. destruct (isExt g b) eqn:X.
  - destruct B3 as (i & I1 & I2). rewrite (c_g _ _ _ _ _ C) in I1 by auto. apply (S1 b); [eapply nth_error_In; eauto|]. eapply (c_ws _ _ _ _ _ C); eauto.
  - rewrite (c_low _ _ _ _ _ C) in Y1 by auto. apply (S1 b); auto. apply (proj1 (cnt_zero (E b) b)); auto. lia.
Qed.
Lemma nWatch_pos : forall src x b, (x < nA)%nat -> src x = Some b -> nWatch src b <> O.
Proof.
  intros src x b L S1 Z0. unfold nWatch in Z0. rewrite filter_zero in Z0. specialize (Z0 x). rewrite S1, Nat.eqb_refl in Z0. assert (true = false); [|easy]. apply Z0. apply in_seq. lia.
Qed.
Lemma setSource_core : forall x b q, Core N none E G k -> sub E (k_val k) -> (x < nA)%nat -> k_val k x = false -> In b (a_bodies (atomOf g x)) -> (b < N)%nat -> (sameScc g b x = true -> valid k b) ->
  Core N none E (upG (updateSource x b k) G) (setQ (updateSource x b k) q).
Proof.
  intros x b q C S1 L V I LB VB.
  assert (SRC : k_src (updateSource x b k) = upd (k_src k) x (Some b)) by (unfold updateSource; destruct (k_src k x); reflexivity).
  assert (VAL : k_val (updateSource x b k) = upd (k_val k) x true) by (unfold updateSource; destruct (k_src k x); reflexivity).
  assert (LOW : k_low (updateSource x b k) = k_low k) by (unfold updateSource; destruct (k_src k x); reflexivity).
  assert (WS : k_ws (updateSource x b k) = k_ws k) by (unfold updateSource; destruct (k_src k x); reflexivity).
  assert (GG : forall c i, (c < N)%nat -> isExt g c = true -> upG (updateSource x b k) G c i = G c i).
  { intros c i LC X. unfold upG. rewrite LOW, WS. destruct (Z.leb_spec (k_low k c) 0); auto. symmetry. eapply c_g; eauto. }
  apply (core_same _ _ _ _ (updateSource x b k)); auto. constructor; rewrite ?SRC, ?VAL, ?LOW, ?WS; intros.
  - eapply c_low; eauto.
  - eapply c_elow; eauto.
  - eapply c_ws; eauto.
  - (* watches *)
    assert (WK : k_w (updateSource x b k) b0 = (let w := match k_src k x with Some c => upd (k_w k) c (pred (k_w k c)) | None => k_w k end in upd w b (S (w b))) b0).
    { unfold updateSource. destruct (k_src k x); reflexivity. }
    rewrite WK. cbn zeta. pose proof (c_w _ _ _ _ _ C) as CW. set (f := fun (s : nat -> option nat) c y => match s y with Some d => Nat.eqb d c | None => false end).
    assert (IX : In x (seq 0 nA)) by (apply in_seq; lia).
    assert (OTH : forall c y, y <> x -> f (upd (k_src k) x (Some b)) c y = f (k_src k) c y) by (intros; unfold f; rewrite upd_other by auto; auto).
    assert (FX : forall c, f (upd (k_src k) x (Some b)) c x = Nat.eqb b c) by (intros; unfold f; rewrite upd_same; auto).
    assert (NW : forall s c, nWatch s c = length (filter (f s c) (seq 0 nA))) by reflexivity.
    destruct (k_src k x) as [c|] eqn:SX.
    + assert (FO : forall d, f (k_src k) d x = Nat.eqb c d) by (intros; unfold f; rewrite SX; auto).
      assert (P1 : k_w k c = S (pred (k_w k c))). { rewrite CW. pose proof (nWatch_pos _ _ _ L SX). lia. }
      destruct (Nat.eq_dec b c) as [->|D].
      * destruct (Nat.eq_dec b0 c) as [->|D2].
        -- rewrite !upd_same. rewrite <- P1, CW, !NW. f_equal. apply filter_same. intros y _. destruct (Nat.eq_dec y x) as [->|]; [rewrite FX, FO; auto|rewrite OTH; auto].
        -- rewrite !upd_other by auto. rewrite CW, !NW. f_equal. apply filter_same. intros y _. destruct (Nat.eq_dec y x) as [->|]; [rewrite FX, FO; auto|rewrite OTH; auto].
      * destruct (Nat.eq_dec b0 b) as [->|D2].
        -- rewrite upd_same, upd_other by auto. rewrite CW, !NW. symmetry. apply (filter_flip _ _ x); auto using seq_NoDup.
           ++ intros y _ Y. rewrite OTH; auto.
           ++ rewrite FO. apply Nat.eqb_neq. auto.
           ++ rewrite FX. apply Nat.eqb_refl.
        -- rewrite upd_other by auto. destruct (Nat.eq_dec b0 c) as [->|D3].
           ++ rewrite upd_same, CW, !NW. assert (Q : length (filter (f (k_src k) c) (seq 0 nA)) = S (length (filter (f (upd (k_src k) x (Some b)) c) (seq 0 nA)))); [|rewrite Q; reflexivity].
              apply (filter_flip _ _ x); auto using seq_NoDup. rewrite FX. apply Nat.eqb_neq. auto. rewrite FO. apply Nat.eqb_refl.
           ++ rewrite upd_other by auto. rewrite CW, !NW. f_equal. apply filter_same. intros y _. destruct (Nat.eq_dec y x) as [->|]; [|rewrite OTH; auto].
              rewrite FX, FO. destruct (Nat.eqb_spec c b0), (Nat.eqb_spec b b0); congruence.
    + assert (FO : forall d, f (k_src k) d x = false) by (intros; unfold f; rewrite SX; auto). destruct (Nat.eq_dec b0 b) as [->|D2].
      * rewrite upd_same, CW, !NW. symmetry. apply (filter_flip _ _ x); auto using seq_NoDup. intros y _ Y. rewrite OTH; auto. rewrite FX. apply Nat.eqb_refl.
      * rewrite upd_other by auto. rewrite CW, !NW. f_equal. apply filter_same. intros y _. destruct (Nat.eq_dec y x) as [->|]; [|rewrite OTH; auto].
        rewrite FX, FO. destruct (Nat.eqb_spec b b0); congruence.
  - destruct (Nat.eq_dec x0 x) as [->|D]; [rewrite upd_same in H; injection H as <-; auto|]. rewrite upd_other in H by auto. eapply c_src; eauto.
  - destruct (Nat.eq_dec x0 x) as [->|D]; [rewrite upd_same; exists b; split; auto; intros Z0; left; unfold valid; rewrite LOW; apply VB; auto|].
    rewrite upd_other in H by auto. rewrite upd_other by auto. destruct (c_valid _ _ _ _ _ C _ H) as (c & C1 & C2). exists c. split; auto. unfold valid in *. rewrite LOW. auto.
  - (* acyclic *)
    assert (P1 : forall z, k_val k z = true -> Acc (edge (upd (k_src k) x (Some b)) (upG (updateSource x b k) G)) z).
    { apply acc_closed with (R := edge (k_src k) G); [apply (c_wf _ _ _ _ _ C)|]. intros y z PZ (c & C1 & C2 & C3).
      assert (z <> x) by congruence. rewrite upd_other in C1 by auto. assert (EE : edge (k_src k) G y z).
      { exists c. sp; auto. pose proof (proj2 (c_src _ _ _ _ _ C _ _ C1)). destruct (isExt g c) eqn:X; auto. destruct C3 as (i & I1 & I2). exists i. rewrite GG in I1 by auto. auto. }
      split; auto. eapply sourced_closed; eauto. }
    assert (P2 : Acc (edge (upd (k_src k) x (Some b)) (upG (updateSource x b k) G)) x).
    { constructor. intros y (c & C1 & C2 & C3). rewrite upd_same in C1. injection C1 as <-. apply P1. specialize (VB C2). unfold valid in VB. destruct (isExt g b) eqn:X.
      - destruct C3 as (i & I1 & I2). rewrite GG in I1 by auto. rewrite (c_g _ _ _ _ _ C) in I1 by auto. apply (S1 b); [eapply nth_error_In; eauto|]. eapply (c_ws _ _ _ _ _ C); eauto.
      - rewrite (c_low _ _ _ _ _ C) in VB by auto. apply (S1 b); auto. apply (proj1 (cnt_zero (E b) b)); auto. lia. }
    induction (c_wf _ _ _ _ _ C x0) as [z _ IH]. destruct (Nat.eq_dec z x) as [->|D]; auto. constructor. intros y (c & C1 & C2 & C3). apply IH.
    rewrite upd_other in C1 by auto. exists c. sp; auto. pose proof (proj2 (c_src _ _ _ _ _ C _ _ C1)). destruct (isExt g c) eqn:X; auto. destruct C3 as (i & I1 & I2). exists i. rewrite GG in I1 by auto. auto.
  - unfold upG. rewrite LOW, WS. destruct (Z.leb_spec (k_low k b0) 0); [auto|lia].
  - eapply c_new; eauto.
  - destruct (Nat.eq_dec x0 x) as [->|D]; auto. rewrite upd_other in H by auto. eapply c_range; eauto.
Qed.

Lemma core_G : forall G' bad, (forall b i, (b < N)%nat -> isExt g b = true -> G' b i = G b i) -> Core N bad E G k -> Core N bad E G' k.
Proof.
  intros G' bad H C. constructor; try (destruct C; assumption).
  - intros x. apply (acc_mono (edge (k_src k) G)); [|apply (c_wf _ _ _ _ _ C)]. intros y z (b & B1 & B2 & B3). exists b. sp; auto. pose proof (proj2 (c_src _ _ _ _ _ C _ _ B1)).
    destruct (isExt g b) eqn:X; auto. destruct B3 as (i & I1 & I2). exists i. rewrite H in I1 by auto. auto.
  - intros b i L X Y. rewrite H by auto. eapply c_g; eauto.
Qed.
Lemma core_upG : forall bad, Core N bad E G k -> Core N bad E (upG k G) k.
Proof. intros bad C. apply core_G; auto. intros. unfold upG. destruct (Z.leb_spec (k_low k b) 0); auto. symmetry. eapply c_g; eauto. Qed.
Definition updE (F : nat -> nat -> bool) (b p : nat) (v : bool) : nat -> nat -> bool := upd F b (upd (F b) p v).
Lemma updE_cnt : forall F b p v c, c <> b -> cnt (updE F b p v c) c = cnt (F c) c.
Proof. intros. unfold updE. rewrite upd_other by auto. reflexivity. Qed.
Lemma updE_down : forall F b p, In p (preds g b) -> F b p = false -> S (cnt (updE F b p true b) b) = cnt (F b) b.
Proof.
  intros F b p I Z0. unfold updE. rewrite upd_same. unfold cnt. symmetry. apply (filter_flip _ _ p); auto.
  - apply (gw_nd3 _ W).
  - intros. rewrite upd_other by auto. reflexivity.
  - rewrite upd_same. reflexivity.
  - rewrite Z0. reflexivity.
Qed.
Lemma updE_up : forall F b p, In p (preds g b) -> F b p = true -> cnt (updE F b p false b) b = S (cnt (F b) b).
Proof.
  intros F b p I Z0. unfold updE. rewrite upd_same. unfold cnt. apply (filter_flip _ _ p); auto.
  - apply (gw_nd3 _ W).
  - intros. rewrite upd_other by auto. reflexivity.
  - rewrite Z0. reflexivity.
  - rewrite upd_same. reflexivity.
Qed.
(** One more subgoal is watched by an extended body without sourced watchers *)
Lemma addToWs_core : forall b i, Core N none E G k -> sub E (k_val k) -> (b < N)%nat -> isExt g b = true -> k_ws k b i = false -> (forall p, nth_error (preds g b) i = Some p -> E b p = true) ->
  (forall y, k_src k y = Some b -> sameScc g b y = true -> k_val k y = false) -> Core N none E (upG (addToWs g b i k) G) (addToWs g b i k).
Proof.
  intros b i C S1 L X WF EI NW.
  assert (GG : forall c j, c <> b -> (c < N)%nat -> isExt g c = true -> upG (addToWs g b i k) G c j = G c j).
  { intros c j D LC XC. unfold upG, addToWs. cbn. rewrite !upd_other by auto. destruct (Z.leb_spec (k_low k c) 0); auto. symmetry. eapply c_g; eauto. }
  assert (WE : forall c j p, isExt g c = true -> nth_error (preds g c) j = Some p -> k_ws (addToWs g b i k) c j = true -> E c p = true).
  { intros c j p XC NP. cbn. destruct (Nat.eq_dec c b) as [->|D]; [rewrite upd_same|rewrite upd_other by auto; eapply c_ws; eauto].
    destruct (Nat.eq_dec j i) as [->|D]; [auto|rewrite upd_other by auto; eapply c_ws; eauto]. }
  constructor; cbn -[upG] in *; intros.
  - rewrite upd_other by congruence. eapply c_low; eauto.
  - destruct (Nat.eq_dec b0 b) as [->|D]; [|rewrite !upd_other by auto; eapply c_elow; eauto]. rewrite !upd_same, sum_upd, WF, (c_elow _ _ _ _ _ C) by auto. lia.
  - eapply WE; eauto.
  - eapply c_w; eauto.
  - eapply c_src; eauto.
  - destruct (c_valid _ _ _ _ _ C _ H) as (c & C1 & C2). exists c. split; auto. intros S2. assert (c <> b). { intros ->. rewrite NW in H by auto. discriminate. }
    unfold valid in *. cbn. rewrite upd_other by auto. auto.
  - assert (P1 : forall z, k_val k z = true -> Acc (edge (k_src k) (upG (addToWs g b i k) G)) z).
    { apply acc_closed with (R := edge (k_src k) G); [apply (c_wf _ _ _ _ _ C)|]. intros y z PZ (c & C1 & C2 & C3).
      assert (c <> b). { intros ->. rewrite NW in PZ by auto. discriminate. }
      assert (EE : edge (k_src k) G y z).
      { exists c. sp; auto. pose proof (proj2 (c_src _ _ _ _ _ C _ _ C1)). destruct (isExt g c) eqn:XC; auto. destruct C3 as (j & I1 & I2). exists j. rewrite GG in I1 by auto. auto. }
      split; auto. eapply sourced_closed; eauto. }
    induction (c_wf _ _ _ _ _ C x) as [z _ IH]. constructor. intros y (c & C1 & C2 & C3). pose proof (proj2 (c_src _ _ _ _ _ C _ _ C1)) as LC.
    destruct (Nat.eq_dec c b) as [->|D].
    + rewrite X in C3. destruct C3 as (j & I1 & I2). unfold upG in I1. destruct (k_low (addToWs g b i k) b <=? 0) eqn:LO.
      * apply P1. apply (S1 b); [eapply nth_error_In; eauto|]. eapply WE; eauto.
      * apply IH. exists b. sp; auto. rewrite X. exists j. auto.
    + apply IH. exists c. sp; auto. destruct (isExt g c) eqn:XC; auto. destruct C3 as (j & I1 & I2). exists j. rewrite GG in I1 by auto. auto.
  - unfold upG. cbn. destruct (Z.leb_spec (upd (k_low k) b (k_low k b - wt g b i) b0) 0); [auto|lia].
  - assert (b0 <> b) by lia. rewrite upd_other by auto. eapply c_new; eauto.
  - eapply c_range; eauto.
Qed.
Lemma extE_up : forall bad b p, Core N bad E G k -> isExt g b = true -> Core N bad (updE E b p true) G k.
Proof.
  intros bad b p C X. constructor; try (destruct C; assumption).
  - intros c L XC. rewrite updE_cnt by congruence. eapply c_low; eauto.
  - intros c i q XC NP WI. pose proof (c_ws _ _ _ _ _ C _ _ _ XC NP WI) as Y. unfold updE. destruct (Nat.eq_dec c b) as [->|D]; [rewrite upd_same|rewrite upd_other; auto].
    destruct (Nat.eq_dec q p) as [->|]; [rewrite upd_same; auto|rewrite upd_other; auto].
Qed.
Lemma extE_down : forall bad b p, Core N bad E G k -> isExt g b = true -> (forall i, nth_error (preds g b) i = Some p -> k_ws k b i = false) -> Core N bad (updE E b p false) G k.
Proof.
  intros bad b p C X F. constructor; try (destruct C; assumption).
  - intros c L XC. rewrite updE_cnt by congruence. eapply c_low; eauto.
  - intros c i q XC NP WI. pose proof (c_ws _ _ _ _ _ C _ _ _ XC NP WI) as Y. unfold updE. destruct (Nat.eq_dec c b) as [->|D]; [rewrite upd_same|rewrite upd_other; auto].
    destruct (Nat.eq_dec q p) as [->|]; [rewrite F in WI by auto; discriminate|rewrite upd_other; auto].
Qed.
(** Counters of normal bodies *)
Lemma dec_core : forall b p, Core N none E G k -> (b < N)%nat -> isExt g b = false -> In p (preds g b) -> E b p = false -> Core N none (updE E b p true) G (setLow k b (k_low k b - 1)).
Proof.
  intros b p C L X I F. pose proof (c_low _ _ _ _ _ C b L X) as CL. pose proof (updE_down E b p I F) as CD.
  constructor; cbn -[upG] in *; try (destruct C; assumption); intros.
  - destruct (Nat.eq_dec b0 b) as [->|D]; [rewrite upd_same; lia|]. rewrite upd_other, updE_cnt by auto. eapply c_low; eauto.
  - rewrite upd_other by congruence. eapply c_elow; eauto.
  - unfold updE. rewrite upd_other by congruence. eapply c_ws; eauto.
  - destruct (c_valid _ _ _ _ _ C _ H) as (c & C1 & C2). exists c. split; auto. intros S2. destruct (C2 S2) as [C3|[]]. left. unfold valid in *. cbn. destruct (Nat.eq_dec c b) as [->|D]; [|rewrite upd_other; auto].
    rewrite X in *. lia.
  - rewrite upd_other in H1 by congruence. eapply c_g; eauto.
Qed.
Lemma inc_core : forall bad b p, Core N bad E G k -> (b < N)%nat -> isExt g b = false -> In p (preds g b) -> E b p = true -> Core N (fun c => bad c \/ c = b) (updE E b p false) G (setLow k b (k_low k b + 1)).
Proof.
  intros bad b p C L X I F. pose proof (c_low _ _ _ _ _ C b L X) as CL. pose proof (updE_up E b p I F) as CD.
  constructor; cbn -[upG] in *; try (destruct C; assumption); intros.
  - destruct (Nat.eq_dec b0 b) as [->|D]; [rewrite upd_same; lia|]. rewrite upd_other, updE_cnt by auto. eapply c_low; eauto.
  - rewrite upd_other by congruence. eapply c_elow; eauto.
  - unfold updE. rewrite upd_other by congruence. eapply c_ws; eauto.
  - destruct (c_valid _ _ _ _ _ C _ H) as (c & C1 & C2). exists c. split; auto. intros S2. destruct (Nat.eq_dec c b) as [->|D]; [right; auto|]. destruct (C2 S2) as [C3|C3]; [left|right; auto]. unfold valid in *. cbn. rewrite upd_other; auto.
  - rewrite upd_other in H1 by congruence. eapply c_g; eauto.
Qed.
Lemma rmWs_core : forall bad b i, Core N bad E G k -> (b < N)%nat -> isExt g b = true -> Core N (fun c => bad c \/ c = b) E (upG (removeFromWs g b i k) G) (removeFromWs g b i k).
Proof.
  intros bad b i C L X. unfold removeFromWs. destruct (k_ws k b i) eqn:WI.
  2: { apply core_upG. constructor; try (destruct C; assumption). intros x V. destruct (c_valid _ _ _ _ _ C _ V) as (c & C1 & C2). exists c. split; auto. intros S2. destruct (C2 S2) as [C3|C3]; auto. }
  set (k' := setLow (setWs k b i false) b (k_low k b + wt g b i)).
  assert (SUBW : forall c j, k_ws k' c j = true -> k_ws k c j = true).
  { intros c j. cbn. destruct (Nat.eq_dec c b) as [->|D]; [rewrite upd_same|rewrite upd_other by auto; auto]. destruct (Nat.eq_dec j i) as [->|D]; [rewrite upd_same; discriminate|rewrite upd_other by auto; auto]. }
  assert (LOW : forall c, k_low k c <= k_low k' c). { intros c. cbn. destruct (Nat.eq_dec c b) as [->|D]; [rewrite upd_same; pose proof (wt_nonneg b i); lia|rewrite upd_other by auto; lia]. }
  constructor; intros; try (destruct C; cbn in *; eauto; fail).
  - cbn. rewrite upd_other by congruence. eapply c_low; eauto.
  - cbn. destruct (Nat.eq_dec b0 b) as [->|D]; [|rewrite !upd_other by auto; eapply c_elow; eauto]. rewrite !upd_same, sum_upd, WI, (c_elow _ _ _ _ _ C) by auto. lia.
  - destruct (c_valid _ _ _ _ _ C _ H) as (c & C1 & C2). exists c. split; auto. intros S2. destruct (Nat.eq_dec c b) as [->|D]; [right; auto|]. destruct (C2 S2) as [C3|C3]; [left|right; auto]. unfold valid in *. cbn. rewrite upd_other; auto.
  - eapply acc_mono_eq; [eassumption|reflexivity|]. intros c j LC XC. unfold upG. destruct (Z.leb_spec (k_low k' c) 0); auto. intros. rewrite (c_g _ _ _ _ _ C) by (auto; specialize (LOW c); lia). auto.
  - unfold upG. destruct (Z.leb_spec (k_low k' b0) 0); [auto|lia].
  - cbn. assert (b0 <> b) by lia. rewrite upd_other by auto. eapply c_new; eauto.
Qed.
Lemma unval_core : forall bad x q, Core N bad E G k -> Core N bad E G (setQ (setVal k x false) q).
Proof.
  intros bad x q C. constructor; try (destruct C; assumption); cbn; intros y V.
  - destruct (Nat.eq_dec y x) as [->|D]; [rewrite upd_same in V; discriminate|]. rewrite upd_other in V by auto. destruct (c_valid _ _ _ _ _ C _ V) as (c & C1 & C2). exists c. auto.
  - destruct (Nat.eq_dec y x) as [->|D]; [rewrite upd_same in V; discriminate|]. rewrite upd_other in V by auto. eapply c_range; eauto.
Qed.
Lemma bad_core : forall bad bad' : nat -> Prop, Core N bad E G k -> (forall b y, bad b -> k_src k y = Some b -> sameScc g b y = true -> k_val k y = true -> valid k b \/ bad' b) -> Core N bad' E G k.
Proof.
  intros bad bad' C F. constructor; try (destruct C; assumption). intros x V. destruct (c_valid _ _ _ _ _ C _ V) as (c & C1 & C2). exists c. split; auto. intros S2. destruct (C2 S2) as [|B]; auto. eapply F; eauto.
Qed.
Lemma core_E : forall bad E', (forall b p, In p (preds g b) -> E' b p = E b p) -> Core N bad E G k -> Core N bad E' G k.
Proof.
  intros bad E' H C. constructor; try (destruct C; assumption).
  - intros b L X. rewrite (c_low _ _ _ _ _ C) by auto. f_equal. unfold cnt. f_equal. apply filter_same. intros y Y. rewrite H by auto. auto.
  - intros b i p X NP WI. rewrite H by (eapply nth_error_In; eauto). eapply c_ws; eauto.
Qed.
End Core.
End Uf.
