(** Unfounded set check: what the sources guarantee under an assignment; removal of sources *)
From Coq Require Import List Bool Arith ZArith Lia.
From Verif Require Import Base UfModel UfSpec UfProofs.
Import ListNotations.
Local Open Scope Z_scope.

Section Uf.
Variable g : graph.
Hypothesis W : gwf g.
Notation nA := (nAtoms g).
Notation nB := (length (g_bodies g)).
Notation Core := (Core g).
Definition okG (A : pasg) (b i : nat) : Prop := forall l w, nth_error (goals g b) i = Some (l, w) -> isFalse A l = false.
Definition supp (A : pasg) (Q : list ev) (G : nat -> nat -> bool) (x b : nat) : Prop :=
  (isFalse A (blit g b) = true /\ In (EvBody b) Q) \/
  (isFalse A (blit g b) = false /\ (isExt g b = true -> sameScc g b x = true -> bound g b <= sumP g b (G b) /\ forall i, G b i = true -> okG A b i \/ In (EvSub b i) Q)).
Record LInv (A : pasg) (Q : list ev) (T : nat -> Prop) (k : ck) (G : nat -> nat -> bool) : Prop := {
  l_ws : forall b i, isExt g b = true -> k_ws k b i = true -> okG A b i \/ In (EvSub b i) Q;
  l_b : forall b x, isFalse A (blit g b) = true -> k_src k x = Some b -> In (EvBody b) Q \/ k_val k x = false;
  l_x : forall x, (x < nA)%nat -> isFalse A (alit g x) = false -> T x \/ exists b, k_src k x = Some b /\ supp A Q G x b }.

(** Sources change only to bodies that are not false; subgoals are added only if they are not false *)
Definition chg (A : pasg) (k k' : ck) : Prop :=
  (forall b i, k_ws k' b i = true -> k_ws k b i = true \/ okG A b i) /\
  (forall x, (k_src k' x = k_src k x /\ (k_val k' x = true -> k_val k x = true)) \/
     exists b, k_src k' x = Some b /\ isFalse A (blit g b) = false /\ (isExt g b = true -> sameScc g b x = true -> k_low k' b <= 0)).
Lemma linv_step : forall N bad E A Q (T T' : nat -> Prop) k k' G, Core N bad E (upG k' G) k' -> chg A k k' -> (forall x, T x -> T' x) -> LInv A Q T k G -> LInv A Q T' k' (upG k' G).
Proof.
  intros N bad E A Q T T' k k' G C (H1 & H2) HT L. constructor.
  - intros b i X WI. destruct (H1 _ _ WI); auto. eapply l_ws; eauto.
  - intros b x FB SX. destruct (H2 x) as [(E1 & E2)|(c & E1 & E2 & E3)]; [|congruence]. rewrite E1 in SX. destruct (l_b _ _ _ _ _ L _ _ FB SX) as [|V]; auto. right. destruct (k_val k' x); auto. rewrite E2 in V by auto. discriminate.
  - intros x LX NX.
    assert (OK : forall c i, isExt g c = true -> k_ws k' c i = true -> okG A c i \/ In (EvSub c i) Q). { intros c i X WI. destruct (H1 _ _ WI); auto. eapply l_ws; eauto. }
    assert (SM : forall b, k_src k' x = Some b -> isExt g b = true -> k_low k' b <= 0 -> bound g b <= sumP g b (upG k' G b) /\ forall i, upG k' G b i = true -> okG A b i \/ In (EvSub b i) Q).
    { intros b SB X LO. assert (GE : forall i, upG k' G b i = k_ws k' b i). { intros i. unfold upG. destruct (Z.leb_spec (k_low k' b) 0); [auto|lia]. }
      rewrite (sum_same g b _ _ GE). pose proof (c_elow _ _ _ _ _ _ C b (proj2 (c_src _ _ _ _ _ _ C _ _ SB)) X). split; [lia|]. intros i. rewrite GE. auto. }
    destruct (H2 x) as [(E1 & E2)|(b & E1 & E2 & E3)].
    + destruct (l_x _ _ _ _ _ L x LX NX) as [|(b & B1 & B2)]; auto. right. exists b. split; [congruence|]. destruct B2 as [|(B2 & B3)]; [left; auto|right]. split; auto. intros X S1.
      rewrite <- E1 in B1. destruct (Z_le_gt_dec (k_low k' b) 0) as [LO|LO]; [auto|].
      assert (GE : forall i, upG k' G b i = G b i). { intros i. unfold upG. destruct (Z.leb_spec (k_low k' b) 0); [lia|auto]. }
      rewrite (sum_same g b _ _ GE). destruct (B3 X S1) as [Y1 Y2]. split; auto. intros i. rewrite GE. auto.
    + right. exists b. split; auto. right. split; auto.
Qed.

Section Phase.
(** Lower levels, current assignment, pending events, atoms that are exempt *)
Variable As : list pasg.
Variable A : pasg.
Hypothesis SUB : forall B l, In B As -> isFalse B l = true -> isFalse A l = true.
Definition Full (Q : list ev) (H : nat -> Prop) (N : nat) (bad : nat -> Prop) (E : nat -> nat -> bool) (k : ck) : Prop :=
  exists G, Core N bad E G k /\ (forall B, In B As -> LInv B [] none k G) /\ LInv A Q (fun x => In x (k_todo k) \/ H x) k G.
Lemma ok_sub : forall B b i, In B As -> okG A b i -> okG B b i.
Proof. intros B b i I O l w N. specialize (O l w N). destruct (isFalse B l) eqn:F; auto. rewrite (SUB _ _ I F) in O. discriminate. Qed.
Lemma nf_sub : forall B l, In B As -> isFalse A l = false -> isFalse B l = false.
Proof. intros B l I O. destruct (isFalse B l) eqn:F; auto. rewrite (SUB _ _ I F) in O. discriminate. Qed.
Lemma full_step : forall Q H N bad E bad' E' k k', Full Q H N bad E k -> (forall G, Core N bad E G k -> Core N bad' E' (upG k' G) k') -> chg A k k' -> incl (k_todo k) (k_todo k') -> Full Q H N bad' E' k'.
Proof.
  intros Q H N bad E bad' E' k k' (G & C & LB & LA) HC CH IT. exists (upG k' G). specialize (HC _ C). sp; auto.
  - intros B IB. eapply linv_step; [eassumption| |intros x X; exact X|apply LB; auto]. destruct CH as [H1 H2]. split.
    + intros b i WI. destruct (H1 _ _ WI); auto. right. eapply ok_sub; eauto.
    + intros x. destruct (H2 x) as [|(b & B1 & B2 & B3)]; auto. right. exists b. sp; auto. eapply nf_sub; eauto.
  - eapply linv_step; [eassumption|eassumption| |eassumption]. intros x [X|X]; auto.
Qed.
Lemma chg_same : forall k k', k_src k' = k_src k -> (forall x, k_val k' x = true -> k_val k x = true) -> (forall b i, k_ws k' b i = true -> k_ws k b i = true) -> chg A k k'.
Proof. intros k k' E1 E2 E3. split; auto. intros x. left. rewrite E1. auto. Qed.
Lemma full_same : forall Q H N bad E k k', k_src k' = k_src k -> k_val k' = k_val k -> k_w k' = k_w k -> k_low k' = k_low k -> k_ws k' = k_ws k -> incl (k_todo k) (k_todo k') -> Full Q H N bad E k -> Full Q H N bad E k'.
Proof.
  intros Q H N bad E k k' E1 E2 E3 E4 E5 IT F. eapply full_step; [eassumption| | |assumption].
  - intros G C. apply core_upG. eapply core_same; eauto.
  - apply chg_same; auto; intros; rewrite ?E2, ?E5 in *; auto.
Qed.
Lemma full_core : forall Q H N bad E bad' E' k, Full Q H N bad E k -> (forall G, Core N bad E G k -> Core N bad' E' G k) -> Full Q H N bad' E' k.
Proof. intros Q H N bad E bad' E' k (G & C & LB & LA) HC. exists G. sp; auto. Qed.

(** Flags of the todo queue *)
Definition tfOk (k : ck) : Prop := (forall x, k_tf k x = true <-> In x (k_todo k)) /\ NoDup (k_todo k) /\ (forall x, In x (k_todo k) -> (x < nA)%nat).
Lemma pushTodo_in : forall k x, tfOk k -> In x (k_todo (pushTodo x k)).
Proof. intros k x [T _]. unfold pushTodo. destruct (k_tf k x) eqn:F; [apply T; auto|]. cbn. apply in_or_app. right. left. auto. Qed.
Lemma pushTodo_incl : forall k x, incl (k_todo k) (k_todo (pushTodo x k)).
Proof. intros k x y. unfold pushTodo. destruct (k_tf k x); auto. cbn. intros. apply in_or_app. auto. Qed.
Lemma nodup_snoc : forall (l : list nat) y, NoDup l -> ~ In y l -> NoDup (l ++ [y]).
Proof. induction l as [|a l IH]; intros y ND I; cbn; [constructor; auto; constructor|]. inversion ND; subst. constructor; [|apply IH; auto; intros Y; apply I; right; auto]. intros Y. apply in_app_or in Y. destruct Y as [|[->|[]]]; auto. apply I. left. auto. Qed.
Lemma pushTodo_tf : forall k x, (x < nA)%nat -> tfOk k -> tfOk (pushTodo x k).
Proof.
  intros k x LX (T & ND & L). unfold pushTodo. destruct (k_tf k x) eqn:F; [unfold tfOk; auto|]. unfold tfOk. cbn. sp.
  - intros y. destruct (Nat.eq_dec y x) as [->|D].
    + rewrite upd_same. split; auto. intros _. apply in_or_app. right. left. auto.
    + rewrite upd_other by auto. rewrite (T y). split; intros I; [apply in_or_app; auto|]. apply in_app_or in I. destruct I as [|[->|[]]]; auto. contradiction.
  - apply nodup_snoc; auto. intros I. apply T in I. congruence.
  - intros y Y. apply in_app_or in Y. destruct Y as [|[<-|[]]]; auto.
Qed.
Lemma pushTodo_same : forall k x, k_src (pushTodo x k) = k_src k /\ k_val (pushTodo x k) = k_val k /\ k_w (pushTodo x k) = k_w k /\ k_low (pushTodo x k) = k_low k /\ k_ws (pushTodo x k) = k_ws k /\
  k_q (pushTodo x k) = k_q k /\ k_uf (pushTodo x k) = k_uf k /\ k_inv (pushTodo x k) = k_inv k.
Proof. intros k x. unfold pushTodo. destruct (k_tf k x); sp; reflexivity. Qed.

Definition nval (v : nat -> bool) : nat := length (filter v (seq 0 nA)).
Lemma nval_le : forall v, (nval v <= nA)%nat.
Proof. intros. unfold nval. rewrite <- (seq_length nA 0) at 2. generalize (seq 0 nA). induction l; cbn; auto. destruct (v a); cbn; lia. Qed.
Lemma nval_down : forall v x, (x < nA)%nat -> v x = true -> nval v = S (nval (upd v x false)).
Proof. intros v x L V. unfold nval. apply (filter_flip _ _ x); auto using seq_NoDup. apply in_seq; lia. intros; apply upd_other; auto. apply upd_same. Qed.
Lemma mem_In : forall x l, inSet l x = true <-> In x l.
Proof. intros. unfold inSet. rewrite existsb_exists. split; [intros (y & Y & E); apply Nat.eqb_eq in E; subst; auto|]. intros. exists x. rewrite Nat.eqb_refl. auto. Qed.

(** What removal leaves unchanged *)
Record Fr (k0 k : ck) : Prop := {
  f_uf : k_uf k = k_uf k0; f_inv : k_inv k = k_inv k0; f_src : k_src k = k_src k0; f_todo : incl (k_todo k0) (k_todo k); f_tf : tfOk k;
  f_val : forall x, k_val k x = true -> k_val k0 x = true; f_ws : forall b i, k_ws k b i = true -> k_ws k0 b i = true }.
Lemma Fr_trans : forall a b c, Fr a b -> Fr b c -> Fr a c.
Proof. intros a b c [A1 A2 A3 A4 A5 A6 A7] [B1 B2 B3 B4 B5 B6 B7]. constructor; auto; try congruence. intros y Y. auto. Qed.

Section Removal.
Variable Q : list ev.
Variable H : nat -> Prop.
Record RP (bad : nat -> Prop) (E X : nat -> nat -> bool) (f : nat) (k0 k : ck) : Prop := {
  r_full : Full Q H nB bad E k;
  r_E : forall b p, In p (preds g b) -> E b p = k_val k p || inSet (k_q k) p || X b p;
  r_X : forall b p, X b p = true -> k_val k p = false /\ ~ In p (k_q k);
  r_nd : NoDup (k_q k);
  r_q : forall y, In y (k_q k) -> (y < nA)%nat /\ k_val k y = false;
  r_f : (length (k_q k) + nval (k_val k) <= f)%nat;
  r_fr : Fr k0 k }.
Lemma full_parts : forall N bad E k, Full Q H N bad E k -> exists G, Core N bad E G k.
Proof. intros N bad E k (G & C & _). exists G. auto. Qed.
Lemma rp_range : forall bad E X f k0 k x, RP bad E X f k0 k -> k_val k x = true -> (x < nA)%nat.
Proof. intros bad E X f k0 k x R V. destruct (full_parts _ _ _ _ (r_full _ _ _ _ _ _ R)) as (G & C). eapply c_range; eauto. Qed.
Lemma rp_w : forall bad E X f k0 k b x, RP bad E X f k0 k -> k_src k x = Some b -> (x < nA)%nat -> k_w k b <> O.
Proof. intros bad E X f k0 k b x R S1 L. destruct (full_parts _ _ _ _ (r_full _ _ _ _ _ _ R)) as (G & C). rewrite (c_w _ _ _ _ _ _ C). eapply nWatch_pos; eauto. Qed.
Lemma rp_unval : forall bad E X f k0 k y, RP bad E X f k0 k -> k_val k y = true -> RP bad E X f k0 (setQ (setVal k y false) (k_q k ++ [y])).
Proof.
  intros bad E X f k0 k y R V. pose proof (rp_range _ _ _ _ _ _ _ R V) as L. constructor; cbn.
  - eapply full_step; [apply (r_full _ _ _ _ _ _ R)| |apply chg_same; auto|apply incl_refl].
    + intros G C. apply core_upG. apply unval_core. auto.
    + cbn. intros x. destruct (Nat.eq_dec x y) as [->|D]; [rewrite upd_same; discriminate|rewrite upd_other; auto].
  - intros b p I. rewrite (r_E _ _ _ _ _ _ R) by auto. unfold inSet. rewrite existsb_app. cbn. rewrite orb_false_r. destruct (Nat.eq_dec p y) as [->|D].
    + rewrite upd_same, V, Nat.eqb_refl, orb_true_r. reflexivity.
    + rewrite upd_other by auto. apply Nat.eqb_neq in D. rewrite D, orb_false_r. reflexivity.
  - intros b p XP. destruct (r_X _ _ _ _ _ _ R b p XP) as [X1 X2]. assert (p <> y) by congruence. rewrite upd_other by auto. split; auto. intros I. apply in_app_or in I. destruct I as [|[|[]]]; auto.
  - assert (N : ~ In y (k_q k)). { intros I. apply (r_q _ _ _ _ _ _ R) in I. destruct I. congruence. }
    pose proof (r_nd _ _ _ _ _ _ R) as ND. revert N ND. generalize (k_q k). induction l; cbn; intros; [constructor; auto; constructor|]. inversion ND; subst. constructor.
    + intros I. apply in_app_or in I. destruct I as [|[|[]]]; auto. 
    + apply IHl; auto.
  - intros z I. apply in_app_or in I. destruct I as [I|[<-|[]]]; [|rewrite upd_same; auto]. destruct (r_q _ _ _ _ _ _ R z I). split; auto. destruct (Nat.eq_dec z y) as [->|]; [apply upd_same|rewrite upd_other; auto].
  - rewrite app_length. cbn. pose proof (r_f _ _ _ _ _ _ R). rewrite (nval_down _ y) in H0 by auto. lia.
  - destruct (r_fr _ _ _ _ _ _ R) as [F1 F2 F3 F4 F5 F6 F7]. constructor; auto. cbn. intros x. destruct (Nat.eq_dec x y) as [->|D]; [rewrite upd_same; discriminate|rewrite upd_other; auto].
Qed.
Lemma rp_todo : forall bad E X f k0 k y, (y < nA)%nat -> RP bad E X f k0 k -> RP bad E X f k0 (pushTodo y k).
Proof.
  intros bad E X f k0 k y LY R. destruct (pushTodo_same k y) as (E1 & E2 & E3 & E4 & E5 & E6 & E7 & E8). destruct R as [R1 R2 R3 R4 R5 R6 [F1 F2 F3 F4 F5 F6 F7]]. constructor; rewrite ?E2, ?E6; auto.
  - eapply full_same; [..|eassumption]; auto. apply pushTodo_incl.
  - constructor; rewrite ?E1, ?E2, ?E5, ?E7, ?E8; auto. intros z Z0. apply pushTodo_incl. auto. apply pushTodo_tf; auto.
Qed.
(** forwardUnsource *)
Lemma unsource_rp : forall bad E X f k0 b add hs h1 k, n_heads (bodyOf g b) = h1 ++ hs -> RP bad E X f k0 k -> (forall y, In y h1 -> k_src k y = Some b -> sameScc g b y = true -> k_val k y = false) ->
  RP bad E X f k0 (unsourceHeads g b add hs k) /\ k_low (unsourceHeads g b add hs k) = k_low k /\
  (forall y, In y (n_heads (bodyOf g b)) -> k_src (unsourceHeads g b add hs k) y = Some b -> sameScc g b y = true -> k_val (unsourceHeads g b add hs k) y = false).
Proof.
  intros bad E X f k0 b add hs. induction hs as [|x hs IH]; intros h1 k EH R D; cbn [unsourceHeads].
  - rewrite app_nil_r in EH. sp; auto. rewrite EH. auto.
  - destruct (sameScc g b x) eqn:SX; cbn [negb].
    2: { sp; auto. intros y Y SY SS. rewrite EH in Y. apply in_app_or in Y. destruct Y as [Y|[<-|Y]]; auto; [congruence|]. exfalso. apply in_split in Y. destruct Y as (l1 & l2 & ->).
         pose proof (gw_first _ W b (h1 ++ x :: l1) y l2) as GF. rewrite <- app_assoc in GF. cbn in GF. specialize (GF EH SS x). rewrite SX in GF. assert (false = true); [|easy]. apply GF. apply in_or_app. right. left. auto. }
    set (k1 := if k_val k x && srcIs k x b then setQ (setVal k x false) (k_q k ++ [x]) else k).
    assert (R1 : RP bad E X f k0 k1). { unfold k1. destruct (k_val k x) eqn:V; cbn; auto. destruct (srcIs k x b); auto. apply rp_unval; auto. }
    assert (S1 : k_src k1 = k_src k) by (unfold k1; destruct (k_val k x && srcIs k x b); reflexivity).
    assert (LO1 : k_low k1 = k_low k) by (unfold k1; destruct (k_val k x && srcIs k x b); reflexivity).
    assert (V1 : forall y, k_val k y = false -> k_val k1 y = false).
    { intros y Y. unfold k1. destruct (k_val k x && srcIs k x b); auto. cbn. destruct (Nat.eq_dec y x) as [->|]; [apply upd_same|rewrite upd_other; auto]. }
    assert (V2 : k_src k x = Some b -> k_val k1 x = false).
    { intros Y. unfold k1. destruct (k_val k x) eqn:V; cbn; auto. unfold srcIs. rewrite Y, Nat.eqb_refl. cbn. apply upd_same. }
    change (if k_val k x && srcIs k x b then setQ (setVal k x false) (k_q (setVal k x false) ++ [x]) else k) with k1. set (k2 := if add && srcIs k1 x b then pushTodo x k1 else k1).
    destruct (pushTodo_same k1 x) as (E1 & E2 & E3 & E4 & E5 & E6 & E7 & E8).
    assert (R2 : RP bad E X f k0 k2). { unfold k2. destruct (add && srcIs k1 x b); auto. apply rp_todo; auto. apply (gw_hrange _ W b). rewrite EH. apply in_or_app. right. left. auto. }
    assert (S2 : k_src k2 = k_src k) by (unfold k2; destruct (add && srcIs k1 x b); congruence).
    assert (V3 : k_val k2 = k_val k1) by (unfold k2; destruct (add && srcIs k1 x b); congruence).
    assert (LO2 : k_low k2 = k_low k) by (unfold k2; destruct (add && srcIs k1 x b); congruence).
    destruct (IH (h1 ++ [x]) k2) as (I1 & I2 & I3); auto.
    + rewrite <- app_assoc. auto.
    + rewrite S2, V3. intros y Y SY SS. apply in_app_or in Y. destruct Y as [Y|[<-|[]]]; auto.
    + sp; auto. congruence.
Qed.
Lemma bad_off : forall (bad : nat -> Prop) E X f k0 k b, RP (fun c => bad c \/ c = b) E X f k0 k -> (forall y, k_src k y = Some b -> sameScc g b y = true -> k_val k y = true -> valid g k b \/ bad b) -> RP bad E X f k0 k.
Proof.
  intros bad E X f k0 k b [R1 R2 R3 R4 R5 R6 R7] F. constructor; auto. eapply full_core; [eassumption|]. intros G C. eapply bad_core; [eassumption|]. intros c y [BC| ->] S1 S2 V; auto. eapply F; eauto.
Qed.
Lemma rp_chg : forall bad bad' E E' X X' f k0 k k', RP bad E X f k0 k -> (forall G, Core nB bad E G k -> Core nB bad' E' (upG k' G) k') -> chg A k k' ->
  k_val k' = k_val k -> k_q k' = k_q k -> k_todo k' = k_todo k -> k_tf k' = k_tf k -> k_uf k' = k_uf k -> k_inv k' = k_inv k -> k_src k' = k_src k -> (forall b i, k_ws k' b i = true -> k_ws k b i = true) ->
  (forall b p, In p (preds g b) -> E' b p = k_val k p || inSet (k_q k) p || X' b p) -> (forall b p, X' b p = true -> X b p = true) -> RP bad' E' X' f k0 k'.
Proof.
  intros bad bad' E E' X X' f k0 k k' [R1 R2 R3 R4 R5 R6 [F1 F2 F3 F4 F5 F6 F7]] HC CH E1 E2 E3 E4 E5 E6 E7 HW HE HX. constructor; rewrite ?E1, ?E2; auto.
  - eapply full_step; [eassumption|eassumption|assumption|]. rewrite E3. apply incl_refl.
  - intros b p XP. apply (R3 b). auto.
  - constructor; rewrite ?E3, ?E5, ?E6, ?E7, ?E1; auto. destruct F5 as (F5 & F8 & F9). unfold tfOk. rewrite E4, E3. auto.
Qed.
Lemma updE_X : forall (F : nat -> nat -> bool) b x c p, updE F b x false c p = true -> F c p = true.
Proof. intros F b x c p. unfold updE, upd. destruct (Nat.eqb_spec c b); auto. subst. destruct (Nat.eqb_spec p x); [discriminate|auto]. Qed.
Lemma updE_eq : forall (E X : nat -> nat -> bool) (v : nat -> bool) b x, (forall c p, In p (preds g c) -> E c p = v p || X c p) -> v x = false ->
  forall c p, In p (preds g c) -> updE E b x false c p = v p || updE X b x false c p.
Proof.
  intros E X v b x H0 V c p I. unfold updE, upd. destruct (Nat.eqb_spec c b); auto. subst. destruct (Nat.eqb_spec p x); auto. subst. rewrite V. reflexivity.
Qed.
Lemma remNormal_rp : forall bad E X f k0 k b x add, RP bad E X f k0 k -> X b x = true -> isExt g b = false -> In x (preds g b) ->
  RP bad (updE E b x false) (updE X b x false) f k0 (remNormal g add k b).
Proof.
  intros bad E X f k0 k b x add R XB EB I. pose proof (pred_range g _ _ I) as LB. destruct (r_X _ _ _ _ _ _ R _ _ XB) as [VX NX].
  assert (EX : E b x = true) by (rewrite (r_E _ _ _ _ _ _ R), XB by auto; apply orb_true_r).
  set (k1 := setLow k b (k_low k b + 1)).
  assert (R1 : RP (fun c => bad c \/ c = b) (updE E b x false) (updE X b x false) f k0 k1).
  { eapply rp_chg; [eassumption| |apply chg_same; auto|..]; try reflexivity.
    - intros G C. apply core_upG. apply inc_core; auto.
    - auto.
    - apply updE_eq; [apply (r_E _ _ _ _ _ _ R)|]. rewrite VX. cbn. destruct (inSet (k_q k) x) eqn:M; auto. apply mem_In in M. contradiction.
    - apply updE_X. }
  destruct (full_parts _ _ _ _ (r_full _ _ _ _ _ _ R)) as (G & C). pose proof (c_low _ _ _ _ _ _ C b LB EB) as CL.
  unfold remNormal. fold k1. assert (LK : k_low k1 b = k_low k b + 1) by (cbn; apply upd_same). rewrite LK. destruct (Z.eqb_spec (k_low k b + 1) 1) as [LO|LO]; cbn [andb].
  - destruct (Nat.eqb_spec (k_w k1 b) 0) as [WZ|WZ]; cbn [negb].
    + apply (bad_off _ _ _ _ _ _ b R1). intros y S1 S2 V. exfalso. eapply (rp_w _ _ _ _ _ _ b y R1); eauto. eapply rp_range; eauto.
    + destruct (unsource_rp _ _ _ _ _ b add (n_heads (bodyOf g b)) [] k1 eq_refl R1) as (U1 & U2 & U3); [easy|]. apply (bad_off _ _ _ _ _ _ b U1). intros y S1 S2 V. exfalso.
      assert (IY : In y (n_heads (bodyOf g b))). { destruct (full_parts _ _ _ _ (r_full _ _ _ _ _ _ U1)) as (G1 & C1). apply (gw_heads _ W). eapply c_src; eauto. }
      unfold forwardUnsource in *. rewrite U3 in V; auto. discriminate.
  - apply (bad_off _ _ _ _ _ _ b R1). intros y S1 S2 V. destruct (c_valid _ _ _ _ _ _ C y V) as (c & C1 & C2). cbn in S1. rewrite S1 in C1. injection C1 as <-. destruct (C2 S2) as [C3|]; auto.
    unfold valid in C3. rewrite EB in C3. lia.
Qed.
Lemma remExt_rp : forall bad E X f k0 k b i x, RP bad E X f k0 k -> X b x = true -> isExt g b = true -> nth_error (preds g b) i = Some x ->
  RP bad (updE E b x false) (updE X b x false) f k0 (remExt g k (b, i)).
Proof.
  intros bad E X f k0 k b i x R XB EB NI. assert (I : In x (preds g b)) by (eapply nth_error_In; eauto). pose proof (pred_range g _ _ I) as LB. destruct (r_X _ _ _ _ _ _ R _ _ XB) as [VX NX].
  set (k1 := removeFromWs g b i k). assert (SM : k_val k1 = k_val k /\ k_q k1 = k_q k /\ k_todo k1 = k_todo k /\ k_tf k1 = k_tf k /\ k_uf k1 = k_uf k /\ k_inv k1 = k_inv k /\ k_src k1 = k_src k).
  { unfold k1, removeFromWs. destruct (k_ws k b i); sp; reflexivity. } destruct SM as (E1 & E2 & E3 & E4 & E5 & E6 & E7).
  assert (WS1 : forall c j, k_ws k1 c j = true -> k_ws k c j = true /\ ~ (c = b /\ j = i)).
  { intros c j. unfold k1, removeFromWs. destruct (k_ws k b i) eqn:WI; cbn.
    - unfold upd. destruct (Nat.eqb_spec c b) as [->|]; [|intuition]. destruct (Nat.eqb_spec j i); [discriminate|intuition].
    - intros Y. split; auto. intros [-> ->]. congruence. }
  assert (R1 : RP (fun c => bad c \/ c = b) (updE E b x false) (updE X b x false) f k0 k1).
  { eapply rp_chg; [eassumption| |apply chg_same; auto|..]; auto.
    - intros G C. apply extE_down; auto. apply rmWs_core; auto. intros j NJ. destruct (k_ws k1 b j) eqn:WJ; auto. exfalso. apply (proj2 (WS1 _ _ WJ)). split; auto.
      apply (proj1 (NoDup_nth_error (preds g b)) (gw_nd3 _ W b)); [apply nth_error_Some; congruence|congruence].
    - intros. rewrite E1 in *. auto.
    - intros c j Y. apply WS1. auto.
    - intros c j Y. apply WS1. auto.
    - apply updE_eq; [apply (r_E _ _ _ _ _ _ R)|]. rewrite VX. cbn. destruct (inSet (k_q k) x) eqn:M; auto. apply mem_In in M. contradiction.
    - apply updE_X. }
  unfold remExt. fold k1. destruct (Z.ltb_spec 0 (k_low k1 b)) as [LO|LO]; cbn [andb].
  - destruct (Nat.eqb_spec (k_w k1 b) 0) as [WZ|WZ]; cbn [negb].
    + apply (bad_off _ _ _ _ _ _ b R1). intros y S1 S2 V. exfalso. eapply (rp_w _ _ _ _ _ _ b y R1); eauto. eapply rp_range; eauto.
    + destruct (unsource_rp _ _ _ _ _ b true (n_heads (bodyOf g b)) [] k1 eq_refl R1) as (U1 & U2 & U3); [easy|]. apply (bad_off _ _ _ _ _ _ b U1). intros y S1 S2 V. exfalso.
      assert (IY : In y (n_heads (bodyOf g b))). { destruct (full_parts _ _ _ _ (r_full _ _ _ _ _ _ U1)) as (G1 & C1). apply (gw_heads _ W). eapply c_src; eauto. }
      unfold forwardUnsource in *. rewrite U3 in V; auto. discriminate.
  - apply (bad_off _ _ _ _ _ _ b R1). intros y S1 S2 V. left. unfold valid. rewrite EB. lia.
Qed.
(** visitSuccessors *)
Definition todoX (x : nat) (lN : list nat) (lE : list (nat * nat)) : nat -> nat -> bool := fun b p => Nat.eqb p x && (inSet lN b || inSet (map fst lE) b).
Lemma rp_X : forall bad E X X' f k0 k, (forall b p, X' b p = X b p) -> RP bad E X f k0 k -> RP bad E X' f k0 k.
Proof. intros bad E X X' f k0 k HX [R1 R2 R3 R4 R5 R6 R7]. constructor; auto. intros. rewrite HX. auto. intros b p. rewrite HX. apply R3. Qed.
Lemma todoX_N : forall x b lN lE c p, ~ In b lN -> ~ In b (map fst lE) -> todoX x lN lE c p = updE (todoX x (b :: lN) lE) b x false c p.
Proof.
  intros x b lN lE c p N1 N2. unfold updE, upd. destruct (Nat.eqb_spec c b) as [->|D].
  - destruct (Nat.eqb_spec p x) as [->|D]; unfold todoX.
    + rewrite Nat.eqb_refl. cbn. destruct (inSet lN b) eqn:M1; [apply mem_In in M1; contradiction|]. destruct (inSet (map fst lE) b) eqn:M2; [apply mem_In in M2; contradiction|]. auto.
    + apply Nat.eqb_neq in D. rewrite D. auto.
  - unfold todoX. cbn. apply Nat.eqb_neq in D. rewrite D. auto.
Qed.
Lemma todoX_E : forall x b i lE c p, ~ In b (map fst lE) -> todoX x [] lE c p = updE (todoX x [] ((b, i) :: lE)) b x false c p.
Proof.
  intros x b i lE c p N2. unfold updE, upd. destruct (Nat.eqb_spec c b) as [->|D].
  - destruct (Nat.eqb_spec p x) as [->|D]; unfold todoX.
    + rewrite Nat.eqb_refl. cbn. destruct (inSet (map fst lE) b) eqn:M2; [apply mem_In in M2; contradiction|]. auto.
    + apply Nat.eqb_neq in D. rewrite D. auto.
  - unfold todoX. cbn. apply Nat.eqb_neq in D. rewrite D. auto.
Qed.
Lemma todoX_nil : forall x c p, todoX x [] [] c p = false.
Proof. intros. unfold todoX. cbn. apply andb_false_r. Qed.
Lemma visitN_rp : forall bad f k0 x add lE lN k E, NoDup lN -> (forall b, In b lN -> isExt g b = false /\ In x (preds g b)) -> (forall b i, In (b, i) lE -> isExt g b = true) ->
  RP bad E (todoX x lN lE) f k0 k -> exists E', RP bad E' (todoX x [] lE) f k0 (fold_left (remNormal g add) lN k).
Proof.
  intros bad f k0 x add lE lN. induction lN as [|b lN IH]; intros k E ND HN HE R; cbn [fold_left]; [exists E; auto|]. inversion ND; subst. destruct (HN b (or_introl eq_refl)) as [B1 B2].
  apply (IH _ (updE E b x false)); auto. { intros c C. apply HN. right. auto. }
  apply (rp_X _ _ (updE (todoX x (b :: lN) lE) b x false)).
  - intros. apply todoX_N; auto. intros I. apply in_map_iff in I. destruct I as ((b' & i) & EQ & I). cbn in EQ. subst b'. rewrite (HE _ _ I) in B1. discriminate.
  - apply remNormal_rp; auto. unfold todoX. cbn. rewrite !Nat.eqb_refl. auto.
Qed.
Lemma visitE_rp : forall bad f k0 x lE k E, NoDup (map fst lE) -> (forall b i, In (b, i) lE -> isExt g b = true /\ nth_error (preds g b) i = Some x) ->
  RP bad E (todoX x [] lE) f k0 k -> exists E', RP bad E' (fun _ _ => false) f k0 (fold_left (remExt g) lE k).
Proof.
  intros bad f k0 x lE. induction lE as [|(b, i) lE IH]; intros k E ND HN R; cbn [fold_left].
  - exists E. apply (rp_X _ _ (todoX x [] [])); auto. intros. rewrite todoX_nil. auto.
  - cbn in ND. inversion ND; subst. destruct (HN b i (or_introl eq_refl)) as [B1 B2]. apply (IH _ (updE E b x false)); auto. { intros c j C. apply HN. right. auto. }
    apply (rp_X _ _ (updE (todoX x [] ((b, i) :: lE)) b x false)); [intros; apply todoX_E; auto|]. apply remExt_rp; auto. unfold todoX. cbn. rewrite !Nat.eqb_refl. auto.
Qed.
Lemma visitRem_rp : forall bad f k0 x add k E, RP bad E (todoX x (a_succs (atomOf g x)) (a_ext (atomOf g x))) f k0 k -> exists E', RP bad E' (fun _ _ => false) f k0 (visitRem g add x k).
Proof.
  intros bad f k0 x add k E R. unfold visitRem. apply visitN_rp with (add := add) in R.
  - destruct R as (E1 & R). eapply visitE_rp; [apply (gw_nd2 _ W)| |eassumption]. intros b i I. apply (gw_ext _ W). auto.
  - apply (gw_nd1 _ W).
  - intros b I. apply (gw_succ _ W). auto.
  - intros b i I. apply (gw_ext _ W) in I. tauto.
Qed.
(** All successors of an atom *)
Lemma todoX_all : forall x b p, In p (preds g b) -> todoX x (a_succs (atomOf g x)) (a_ext (atomOf g x)) b p = Nat.eqb p x.
Proof.
  intros x b p I. unfold todoX. destruct (Nat.eqb_spec p x) as [->|]; auto. cbn. destruct (isExt g b) eqn:X.
  - apply In_nth_error in I. destruct I as (i & I). assert (J : In (b, i) (a_ext (atomOf g x))) by (apply (gw_ext _ W); auto). apply (in_map fst) in J. cbn in J. apply mem_In in J. rewrite J. apply orb_true_r.
  - assert (J : In b (a_succs (atomOf g x))) by (apply (gw_succ _ W); auto). apply mem_In in J. rewrite J. auto.
Qed.
Lemma todoX_x : forall x lN lE b p, todoX x lN lE b p = true -> p = x.
Proof. intros x lN lE b p. unfold todoX. destruct (Nat.eqb_spec p x); auto. discriminate. Qed.
Lemma propRem_rp : forall bad k0 fuel f k E, RP bad E (fun _ _ => false) f k0 k -> (f <= fuel)%nat -> exists k' E', propSrc g A fuel k = Ok k' /\ RP bad E' (fun _ _ => false) f k0 k' /\ k_q k' = [].
Proof.
  intros bad k0 fuel. induction fuel as [|fuel IH]; intros f k E R LF.
  - destruct (k_q k) as [|x q] eqn:QE.
    + exists k, E. cbn. rewrite QE. auto.
    + exfalso. pose proof (r_f _ _ _ _ _ _ R). rewrite QE in H0. cbn in H0. lia.
  - cbn [propSrc]. destruct (k_q k) as [|x q] eqn:QE; [exists k, E; auto|]. assert (IX : In x (k_q k)) by (rewrite QE; left; auto). destruct (r_q _ _ _ _ _ _ R _ IX) as [LX VX].
    cbn [k_val setQ]. rewrite VX. pose proof (r_nd _ _ _ _ _ _ R) as ND. rewrite QE in ND. inversion ND; subst.
    assert (R1 : RP bad E (todoX x (a_succs (atomOf g x)) (a_ext (atomOf g x))) (pred f) k0 (setQ k q)).
    { constructor; cbn.
      - eapply full_same; [..|apply (r_full _ _ _ _ _ _ R)]; auto. apply incl_refl.
      - intros b p I. rewrite todoX_all by auto. rewrite (r_E _ _ _ _ _ _ R) by auto. rewrite QE. unfold inSet. cbn [existsb]. rewrite orb_false_r. destruct (k_val k p), (Nat.eqb p x), (existsb (Nat.eqb p) q); reflexivity.
      - intros b p Y. apply todoX_x in Y. subst. auto.
      - auto.
      - intros y Y. apply (r_q _ _ _ _ _ _ R). rewrite QE. right. auto.
      - pose proof (r_f _ _ _ _ _ _ R). rewrite QE in H0. cbn in H0. lia.
      - destruct (r_fr _ _ _ _ _ _ R). constructor; auto. }
    destruct (visitRem_rp _ _ _ x false _ _ R1) as (E1 & R2). destruct (IH _ _ _ R2 ltac:(lia)) as (k' & E2 & P1 & P2 & P3). exists k', E2. sp; auto.
    destruct P2. constructor; auto. lia.
Qed.
(** Nothing pending: counters agree with the sources *)
Definition Quiet (bad : nat -> Prop) (k : ck) : Prop := Full Q H nB bad (fun _ p => k_val k p) k /\ k_q k = [].
Lemma quiet_rp : forall bad k, Quiet bad k -> tfOk k -> RP bad (fun _ p => k_val k p) (fun _ _ => false) nA k k.
Proof.
  intros bad k [F QE] T. constructor; rewrite ?QE; auto; try easy.
  - intros. cbn. rewrite !orb_false_r. auto.
  - constructor.
  - cbn. apply nval_le.
Qed.
Lemma rp_quiet : forall bad E f k0 k, RP bad E (fun _ _ => false) f k0 k -> k_q k = [] -> Quiet bad k.
Proof.
  intros bad E f k0 k R QE. split; auto. eapply full_core; [apply (r_full _ _ _ _ _ _ R)|]. intros G C. eapply core_E; [|eassumption]. intros b p I. rewrite (r_E _ _ _ _ _ _ R), QE by auto. cbn. rewrite !orb_false_r. auto.
Qed.
Lemma prop_quiet : forall bad E k0 k, RP bad E (fun _ _ => false) nA k0 k -> exists k', propagateSource g A k = Ok k' /\ Quiet bad k' /\ Fr k0 k' /\ Fr k k'.
Proof.
  intros bad E k0 k R. assert (R0 : RP bad E (fun _ _ => false) nA k k). { destruct R as [R1 R2 R3 R4 R5 R6 [F1 F2 F3 F4 F5 F6 F7]]. constructor; auto. constructor; auto. apply incl_refl. }
  destruct (propRem_rp _ _ (S nA) _ _ _ R0 ltac:(lia)) as (k' & E' & P1 & P2 & P3). exists k'. unfold propagateSource. sp; auto. eapply rp_quiet; eauto. eapply Fr_trans; [apply (r_fr _ _ _ _ _ _ R)|]. apply (r_fr _ _ _ _ _ _ P2). apply (r_fr _ _ _ _ _ _ P2).
Qed.
(** removeSource *)
Lemma dropHeads_rp : forall bad E X f k0 b hs k, (forall x, In x hs -> (x < nA)%nat) -> RP bad E X f k0 k ->
  let k' := fold_left (dropHead b) hs k in RP bad E X f k0 k' /\ Fr k k' /\ k_low k' = k_low k /\ (forall y, In y hs -> k_src k' y = Some b -> In y (k_todo k') /\ k_val k' y = false).
Proof.
  intros bad E X f k0 b hs. induction hs as [|x hs IH]; intros k LH R; cbn [fold_left].
  - cbn zeta. sp; auto; [|intros y []]. destruct R as [R1 R2 R3 R4 R5 R6 [F1 F2 F3 F4 F5 F6 F7]]. constructor; auto. apply incl_refl.
  - set (k1 := if k_val k x then setQ (setVal k x false) (k_q k ++ [x]) else k).
    assert (R1 : RP bad E X f k0 k1) by (unfold k1; destruct (k_val k x) eqn:V; auto; apply rp_unval; auto).
    assert (D1 : dropHead b k x = if srcIs k x b then pushTodo x k1 else k) by reflexivity.
    assert (K1 : k_src k1 = k_src k /\ k_low k1 = k_low k /\ k_uf k1 = k_uf k /\ k_inv k1 = k_inv k /\ k_todo k1 = k_todo k /\ k_tf k1 = k_tf k /\ k_ws k1 = k_ws k) by (unfold k1; destruct (k_val k x); sp; reflexivity).
    destruct K1 as (S1 & LO1 & U1 & I1 & T1 & TF1 & WS1). destruct (pushTodo_same k1 x) as (E1 & E2 & E3 & E4 & E5 & E6 & E7 & E8).
    assert (V1 : k_val k1 x = false) by (unfold k1; destruct (k_val k x) eqn:V; [cbn; apply upd_same|auto]).
    assert (V2 : forall y, k_val k1 y = true -> k_val k y = true). { intros y. unfold k1. destruct (k_val k x); auto. cbn. unfold upd. destruct (Nat.eqb y x); [discriminate|auto]. }
    assert (R2 : RP bad E X f k0 (dropHead b k x)). { rewrite D1. destruct (srcIs k x b); auto. apply rp_todo; auto. apply LH. left. auto. }
    assert (T0 : tfOk k) by (destruct R as [_ _ _ _ _ _ [_ _ _ _ T0 _ _]]; auto).
    assert (T0' : tfOk k1) by (unfold tfOk in *; rewrite T1, TF1; apply T0).
    assert (FR : Fr k (dropHead b k x)).
    { rewrite D1. destruct (srcIs k x b).
      - constructor; try congruence. intros y Y. apply pushTodo_incl. congruence. apply pushTodo_tf; auto. apply LH. left. auto. intros y. rewrite E2. auto.
      - constructor; auto. apply incl_refl. }
    destruct (IH _ (fun y Y => LH y (or_intror Y)) R2) as (I2 & I3 & I4 & I5). cbn zeta. sp; auto.
    + eapply Fr_trans; eauto.
    + rewrite I4, D1. destruct (srcIs k x b); congruence.
    + intros y [<-|Y] SY; [|auto]. assert (SX : srcIs k x b = true). { unfold srcIs. rewrite (f_src _ _ I3), (f_src _ _ FR) in SY. rewrite SY. apply Nat.eqb_refl. }
      split.
      * apply (f_todo _ _ I3). rewrite D1, SX. apply pushTodo_in. auto.
      * destruct (k_val (fold_left (dropHead b) hs (dropHead b k x)) x) eqn:V; auto. apply (f_val _ _ I3) in V. rewrite D1, SX, E2 in V. congruence.
Qed.
Lemma removeSource_rp : forall (bad : nat -> Prop) E k0 b k, RP (fun c => bad c \/ c = b) E (fun _ _ => false) nA k0 k ->
  exists k', removeSource g A b k = Ok k' /\ Quiet bad k' /\ Fr k k' /\ (forall y, k_src k' y = Some b -> In y (k_todo k') /\ k_val k' y = false).
Proof.
  intros bad E k0 b k R. destruct (dropHeads_rp _ _ _ _ _ b (n_heads (bodyOf g b)) _ (fun x I => gw_hrange _ W b x I) R) as (I2 & I3 & I4 & I5). cbn zeta in *. set (k1 := fold_left (dropHead b) (n_heads (bodyOf g b)) k) in *.
  assert (HD : forall y, k_src k1 y = Some b -> In y (n_heads (bodyOf g b))). { intros y SY. destruct (full_parts _ _ _ _ (r_full _ _ _ _ _ _ I2)) as (G1 & C1). apply (gw_heads _ W). eapply c_src; eauto. }
  assert (R2 : RP bad E (fun _ _ => false) nA k0 k1). { apply (bad_off _ _ _ _ _ _ b I2). intros y S1 S2 V. destruct (I5 y (HD y S1) S1). congruence. }
  destruct (prop_quiet _ _ _ _ R2) as (k' & P1 & P2 & P3 & P4). exists k'. unfold removeSource. fold k1. sp; auto.
  - eapply Fr_trans; eauto.
  - intros y SY. rewrite (f_src _ _ P4) in SY. destruct (I5 y (HD y SY) SY) as [Y1 Y2]. split; [apply (f_todo _ _ P4); auto|]. destruct (k_val k' y) eqn:V; auto. apply (f_val _ _ P4) in V. congruence.
Qed.
End Removal.
End Phase.
End Uf.
