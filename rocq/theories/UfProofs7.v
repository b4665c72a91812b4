(** Unfounded set check: states at rest *)
From Coq Require Import List Bool Arith ZArith Lia Permutation.
From Verif Require Import Base UfModel UfRun UfSpec UfProofs UfProofs2 UfProofs3 UfProofs4 UfProofs5 UfProofs6.
Import ListNotations.
Local Open Scope Z_scope.

Lemma assign_mono : forall A l p, A (fst l) = None -> isFalse A p = true -> isFalse (assign A l) p = true.
Proof. intros A l p N. unfold isFalse, pval, assign. destruct (Nat.eqb_spec (fst p) (fst l)) as [E|E]; auto. rewrite E, N. discriminate. Qed.
Lemma assign_new : forall A l p, isFalse (assign A l) p = true -> isFalse A p = false -> neg p = l.
Proof.
  intros A [v s] [w t]. unfold isFalse, pval, assign, neg. cbn. destruct (Nat.eqb_spec w v) as [->|E]; [|congruence]. intros F _. destruct s, t; cbn in *; congruence.
Qed.
Section Uf.
Variable g : graph.
Hypothesis W : gwf g.
Notation nA := (nAtoms g).
Notation nB := (length (g_bodies g)).
Lemma neg_eqb : forall l p, neg p = l -> lit_eqb (neg p) l = true.
Proof. intros l p <-. unfold lit_eqb. destruct (neg p) as [v s]. cbn. rewrite Nat.eqb_refl. destruct s; reflexivity. Qed.
Lemma ev_body : forall k l b, (b < nB)%nat -> neg (blit g b) = l -> k_w k b <> O -> In (EvBody b) (events g k l).
Proof. intros k l b LB E KW. unfold events. apply in_or_app. left. apply in_flat_map. exists b. split; [apply in_seq; lia|]. rewrite (neg_eqb _ _ E). destruct (Nat.eqb_spec (k_w k b) 0); [contradiction|]. left. auto. Qed.
Lemma ev_sub : forall k l b i p w, isExt g b = true -> nth_error (goals g b) i = Some (p, w) -> neg p = l -> In (EvSub b i) (events g k l).
Proof.
  intros k l b i p w X NG E. unfold events. apply in_or_app. right. apply in_or_app. right. apply in_flat_map. exists b. split; [apply in_seq; pose proof (ext_range g b X); lia|]. rewrite X.
  apply in_flat_map. exists (i, p). split.
  - rewrite <- (map_length fst (goals g b)). apply combine_seq. split; [lia|]. rewrite Nat.sub_0_r. rewrite nth_error_map, NG. reflexivity.
  - cbn. rewrite (neg_eqb _ _ E). left. auto.
Qed.
Lemma ev_ext : forall k l b i, In (EvSub b i) (events g k l) -> isExt g b = true.
Proof.
  intros k l b i I. unfold events in I. apply in_app_or in I. destruct I as [I|I]; [|apply in_app_or in I; destruct I as [I|I]]; apply in_flat_map in I; destruct I as (c & _ & I).
  - destruct (_ && _); [destruct I as [D|[]]; discriminate D|destruct I].
  - destruct (_ && _); [destruct I as [D|[]]; discriminate D|destruct I].
  - destruct (isExt g c) eqn:X; [|destruct I]. apply in_flat_map in I. destruct I as ((j, p) & _ & I). destruct (lit_eqb _ _); [|destruct I]. destruct I as [D|[]]. injection D as <- _. auto.
Qed.
Definition subA (B A : pasg) : Prop := forall l, isFalse B l = true -> isFalse A l = true.
(** Between two runs of the checker: lower levels, current assignment, exempt atoms *)
Record Rest (As : list pasg) (A : pasg) (H : nat -> Prop) (k : ck) : Prop := {
  q_quiet : Quiet g As A (k_inv k) H none k;
  q_ev : evOk g (k_inv k);
  q_tf : tfOk g k }.
Lemma rest_assign : forall As A H k l A' k', Rest As A H k -> assigned g A k l A' k' -> Rest As A' H k' /\ (k_uf k' = k_uf k) /\ subA A A' /\ k_val k' = k_val k.
Proof.
  intros As A H k l A' k' [[(G & C & LB & LA) QE] EV TF] AS. destruct AS as [evs NA PE]. set (Q := k_inv k). assert (IE : forall e, In e (events g k l) -> In e (Q ++ evs)). { intros e I. apply in_or_app. right. eapply Permutation_in; [apply Permutation_sym; exact PE|exact I]. }
  assert (IQ : forall e, In e Q -> In e (Q ++ evs)) by (intros; apply in_or_app; auto).
  assert (OK : forall b i, isExt g b = true -> okG g A b i \/ In (EvSub b i) Q -> okG g (assign A l) b i \/ In (EvSub b i) (Q ++ evs)).
  { intros b i X [O|O]; auto. destruct (nth_error (goals g b) i) as [(p, w)|] eqn:NG.
    - destruct (isFalse (assign A l) p) eqn:FP; [|left; intros p' w' NG'; rewrite NG in NG'; injection NG' as <- <-; auto]. right. apply IE. eapply ev_sub; eauto. apply (assign_new A); auto. eapply O; eauto.
    - left. intros p w NG'. congruence. }
  assert (BD : forall b x, k_src k x = Some b -> isFalse (assign A l) (blit g b) = true -> isFalse A (blit g b) = true \/ In (EvBody b) (Q ++ evs)).
  { intros b x SX FB. destruct (isFalse A (blit g b)) eqn:F; auto. right. apply IE. destruct (c_src _ _ _ _ _ _ C _ _ SX) as [IB LB']. destruct (bodies_heads g W x b IB) as (_ & _ & LX). apply ev_body; auto.
    - apply (assign_new A); auto.
    - rewrite (c_w _ _ _ _ _ _ C). eapply nWatch_pos; eauto. }
  sp; auto.
  - constructor.
    + split; auto. exists G. sp.
      * eapply core_same; [..|exact C]; reflexivity.
      * intros B IB. destruct (LB B IB) as [L1 L2 L3]. constructor; auto.
      * destruct LA as [L1 L2 L3]. constructor.
        -- intros b i X WS. cbn. apply OK; auto.
        -- intros b x FB SX. cbn. destruct (BD b x SX FB) as [F|I]; auto. destruct (L2 b x F SX); auto.
        -- intros x LX FX. assert (FX0 : isFalse A (alit g x) = false). { destruct (isFalse A (alit g x)) eqn:F; auto. rewrite (assign_mono A l _ NA F) in FX. discriminate. }
           destruct (L3 x LX FX0) as [T|(b & SX & SU)]; auto. right. exists b. split; auto. destruct SU as [[F I]|[F SU]].
           ++ left. split; [apply assign_mono; auto|apply IQ; auto].
           ++ destruct (isFalse (assign A l) (blit g b)) eqn:FB.
              ** left. split; auto. destruct (BD b x SX FB); auto. congruence.
              ** right. split; auto. intros X SS. destruct (SU X SS) as [S1 S2]. split; auto.
    + cbn. intros b i I. apply in_app_or in I. destruct I as [I|I]; [apply EV with (i := i); auto|]. eapply ev_ext. eapply Permutation_in; eauto.
    + exact TF.
  - intros p FP. apply assign_mono; auto.
Qed.
Lemma rest_H : forall As A (H H' : nat -> Prop) k, Rest As A H k -> (forall x, (x < nA)%nat -> isFalse A (alit g x) = false -> H x -> H' x) -> Rest As A H' k.
Proof.
  intros As A H H' k [[(G & C & LB & LA) QE] EV TF] HH. constructor; auto. split; auto. exists G. sp; auto. destruct LA as [L1 L2 L3]. constructor; auto.
  intros x LX FX. destruct (L3 x LX FX) as [[T|T]|]; auto.
Qed.
Lemma rest_uf : forall As A H k k', Rest As A H k -> k_src k' = k_src k -> k_val k' = k_val k -> k_w k' = k_w k -> k_low k' = k_low k -> k_ws k' = k_ws k -> k_todo k' = k_todo k -> k_inv k' = k_inv k -> k_q k' = k_q k -> k_tf k' = k_tf k -> Rest As A H k'.
Proof.
  intros As A H k k' [[(G & C & LB & LA) QE] EV TF] E1 E2 E3 E4 E5 E6 E7 E8 E9. constructor; [split; [|congruence]|rewrite E7; auto|unfold tfOk in *; rewrite E6, E9; auto]. exists G. sp.
  - apply (core_same g nB none _ G k k'); auto. rewrite E2. auto.
  - intros B IB. destruct (LB B IB) as [L1 L2 L3]. constructor; rewrite ?E1, ?E2, ?E5; auto.
  - destruct LA as [L1 L2 L3]. rewrite E7. constructor; rewrite ?E1, ?E2, ?E5, ?E6; auto.
Qed.
Lemma findUfs_ok : forall As A k, (forall B, In B As -> subA B A) -> Rest As A none k -> (forall y, k_uf k y = false) ->
  exists U k', findUfs g A k = Ok (U, k') /\ Rest As A (fun x => In x U) k' /\ k_inv k' = [] /\ (forall y, k_uf k' y = true <-> In y U) /\ (forall y, In y U -> (y < nA)%nat /\ isFalse A (alit g y) = false) /\
  (U = [] -> k_todo k' = []) /\ (upClosed g A -> unf g A U) /\ (forall y z, In y U -> In z U -> a_scc (atomOf g y) = a_scc (atomOf g z)).
Proof.
  intros As A k SB [QU EV TF] UF. assert (SUB : forall B l, In B As -> isFalse B l = true -> isFalse A l = true) by (intros B l IB; apply (SB B IB)).
  assert (Q1 : Quiet g As A (k_inv k) none (badQ g A (k_inv k)) k).
  { destruct QU as [F QE]. split; auto. eapply full_core; [exact F|]. intros G C. eapply bad_core; [exact C|]. intros b y []. }
  destruct (update_ok g W As A SUB none k Q1 TF EV) as (k1 & U1 & U2 & U3 & U4 & U5). unfold findUfs. rewrite U1. cbn [bind].
  destruct (todo_ok g W As A SUB (length (k_todo k1)) k1) as (U & k2 & T1 & (T2 & T3 & T4 & T5 & T6 & T7 & T8) & T9); auto.
  - rewrite U4. auto.
  - exists U, k2. sp; auto; try congruence. constructor; auto.
    + rewrite T9, U5. auto.
    + rewrite T9, U5. intros b i [].
Qed.
(** Backtracking and new levels *)
Lemma rest_back : forall As A H k L1 B L2, Rest As A H k -> As = L1 ++ B :: L2 -> k_todo k = [] -> Rest L2 B none (setInv k []).
Proof.
  intros As A H k L1 B L2 [[(G & C & LB & LA) QE] EV TF] -> TE. constructor; [split; auto| |exact TF].
  - exists G. sp.
    + eapply core_same; [..|exact C]; reflexivity.
    + intros B' IB. destruct (LB B') as [X1 X2 X3]. apply in_or_app. right. right. auto. constructor; auto.
    + destruct (LB B) as [X1 X2 X3]. apply in_or_app. right. left. auto. constructor; auto. intros x LX FX. destruct (X3 x LX FX) as [[]|]; auto.
  - intros b i [].
Qed.
Lemma rest_level : forall As A k, Rest As A none k -> k_todo k = [] -> k_inv k = [] -> Rest (A :: As) A none k.
Proof.
  intros As A k [[(G & C & LB & LA) QE] EV TF] TE IE. constructor; auto. split; auto. exists G. sp; auto. rewrite IE in LA. intros B [<-|IB]; auto. destruct LA as [X1 X2 X3]. constructor; auto.
  intros x LX FX. destruct (X3 x LX FX) as [[T|T]|]; auto. rewrite TE in T. destruct T.
Qed.
Lemma rest_drop : forall As A (H : nat -> Prop) k tf, Rest As A H k -> (forall x, tf x = false) -> Rest As A (fun _ => True) (setTodo k tf []).
Proof.
  intros As A H k tf [[(G & C & LB & LA) QE] EV TF] TE. constructor; [split; auto|exact EV|].
  - exists G. sp.
    + eapply core_same; [..|exact C]; reflexivity.
    + intros B IB. destruct (LB B IB) as [X1 X2 X3]. constructor; auto.
    + destruct LA as [X1 X2 X3]. constructor; auto.
  - unfold tfOk. cbn. sp; [|constructor|intros x []]. intros x. rewrite TE. split; [discriminate|intros []].
Qed.
Lemma reset_tf : forall l f x, fold_left (fun f x => upd f x false) l f x = f x && negb (inSet l x).
Proof.
  induction l as [|y l IH]; intros f x; cbn; [rewrite andb_true_r; auto|]. rewrite IH. unfold upd. destruct (Nat.eqb x y); cbn; [rewrite andb_false_r; auto|auto].
Qed.
Lemma reset_uf : forall l k, let k' := resetUfs l k in (forall x, k_uf k' x = k_uf k x && negb (inSet l x)) /\ k_src k' = k_src k /\ k_val k' = k_val k /\ k_w k' = k_w k /\ k_low k' = k_low k /\ k_ws k' = k_ws k /\ k_todo k' = k_todo k /\ k_inv k' = k_inv k /\ k_q k' = k_q k /\ k_tf k' = k_tf k.
Proof.
  induction l as [|y l IH]; intros k; cbn zeta; [cbn; sp; auto; intros; rewrite andb_true_r; auto|]. unfold resetUfs in *. cbn [fold_left]. destruct (IH (setUf k y false)) as (I1 & I2 & I3 & I4 & I5 & I6 & I7 & I8 & I9 & I10). sp; auto.
  intros x. rewrite I1. cbn. unfold upd. destruct (Nat.eqb x y); cbn; [rewrite andb_false_r; auto|auto].
Qed.
Lemma rest_giveUp : forall As A H k p, Rest As A H k -> (match p with Falsify u _ => forall y, k_uf k y = true -> In y u | _ => forall y, k_uf k y = false end) ->
  Rest As A (fun _ => True) (giveUp p k) /\ k_todo (giveUp p k) = [] /\ (forall y, k_uf (giveUp p k) y = false).
Proof.
  intros As A H k p R UF. unfold giveUp. set (k1 := match p with Falsify u _ => resetUfs u k | _ => k end).
  assert (R1 : Rest As A H k1 /\ forall y, k_uf k1 y = false).
  { destruct p as [| |u r| |]; cbn in k1; auto. pose proof (reset_uf u k) as (I1 & I2 & I3 & I4 & I5 & I6 & I7 & I8 & I9 & I10). split; [eapply rest_uf; eauto|].
    intros y. unfold k1. rewrite I1. destruct (k_uf k y) eqn:E; auto. apply UF in E. apply mem_In in E. rewrite E. auto. }
  clearbody k1. destruct R1 as [R1 UF1]. unfold resetTodo. sp; auto. eapply rest_drop; eauto. intros x. rewrite reset_tf. destruct (k_tf k1 x) eqn:E; auto. apply (proj1 (q_tf _ _ _ _ R1)) in E. apply mem_In in E. rewrite E. auto.
Qed.
(** No unfounded set is left *)
Lemma sum_split : forall b T U, sumP g b (fun i => match nth_error (goals g b) i with Some (l, _) => T l && match nth_error (preds g b) i with Some p => negb (inSet U p) | None => true end | None => false end) =
  sumOut g T U (n_preds (bodyOf g b)) + sumLits T (n_exts (bodyOf g b)).
Proof.
  intros b T U. unfold sumP, wt, goals, preds. set (es := n_exts (bodyOf g b)). 
  assert (GE : forall ps s, s = length ps -> fold_right Z.add 0 (map (fun i => if match nth_error (map (fun p : nat * Z => (alit g (fst p), snd p)) ps ++ es) i with Some (l, _) => T l && match nth_error (map fst ps) i with Some p => negb (inSet U p) | None => true end | None => false end
     then match nth_error (map (fun p : nat * Z => (alit g (fst p), snd p)) ps ++ es) i with Some e => snd e | None => 0 end else 0) (seq 0 (s + length es))) = sumOut g T U ps + sumLits T es).
  { induction ps as [|[p w] ps IH]; intros s ->.
    - cbn [map app length sumOut Nat.add]. rewrite Z.add_0_l. clear. induction es as [|[l w] es IH]; auto. cbn [length]. cbn [seq map fold_right nth_error sumLits]. rewrite <- seq_shift, map_map.
      replace (match nth_error (@nil nat) 0 with Some p => negb (inSet U p) | None => true end) with true by reflexivity. rewrite andb_true_r. cbn [snd]. f_equal; auto; try (destruct (T l); auto; fail).
      etransitivity; [|exact IH]. f_equal. apply map_ext. intros i. cbn [nth_error]. destruct i; auto.
    - cbn [map app length sumOut Nat.add seq fold_right nth_error fst snd]. rewrite <- seq_shift, map_map. rewrite <- Z.add_assoc. f_equal. apply (IH (length ps)). auto. }
  rewrite app_length, map_length. apply GE. auto.
Qed.
Lemma rest_founded : forall As A k, Rest As A none k -> k_todo k = [] -> k_inv k = [] -> founded g (notFalse A).
Proof.
  intros As A k [[(G & C & LB & LA) QE] EV TF] TE IE U NE HU. rewrite IE in LA.
  assert (MIN : exists x, In x U /\ forall y, edge g (k_src k) G y x -> ~ In y U).
  { destruct U as [|x0 U0]; [contradiction|]. set (U := x0 :: U0) in *. assert (I0 : In x0 U) by (left; auto). clearbody U. revert I0. clear NE HU. induction (c_wf _ _ _ _ _ _ C x0) as [x _ IH]. intros I.
    destruct (existsb (fun y => match k_src k x with Some b => sameScc g b x && (if isExt g b then existsb (fun i => G b i && match nth_error (preds g b) i with Some p => Nat.eqb p y | None => false end) (seq 0 (length (preds g b))) else existsb (Nat.eqb y) (preds g b)) | None => false end) U) eqn:EX.
    - apply existsb_exists in EX. destruct EX as (y & IY & E). apply (IH y); auto. destruct (k_src k x) as [b|] eqn:SX; [|discriminate]. apply andb_true_iff in E. destruct E as [SS E]. exists b. sp; auto. destruct (isExt g b).
      + apply existsb_exists in E. destruct E as (i & _ & E). apply andb_true_iff in E. destruct E as [E1 E2]. exists i. split; auto. destruct (nth_error (preds g b) i); [|discriminate]. apply Nat.eqb_eq in E2. congruence.
      + apply existsb_exists in E. destruct E as (z & IZ & E). apply Nat.eqb_eq in E. congruence.
    - exists x. split; auto. intros y (b & SX & SS & E) IY. enough (X : true = false) by discriminate. rewrite <- EX. symmetry. apply existsb_exists. exists y. split; auto. rewrite SX, SS. cbn [andb]. destruct (isExt g b).
      + destruct E as (i & E1 & E2). apply existsb_exists. exists i. split; [apply in_seq; split; [lia|]; apply nth_error_Some; congruence|]. rewrite E1, E2, Nat.eqb_refl. auto.
      + apply existsb_exists. exists y. rewrite Nat.eqb_refl. auto. }
  destruct MIN as (x & IX & MX). destruct (HU x IX) as [LX FX]. unfold notFalse in FX. apply negb_true_iff in FX. destruct (l_x _ _ _ _ _ _ LA x LX FX) as [[T|[]]|(b & SX & SU)]; [rewrite TE in T; destruct T|].
  destruct SU as [[_ []]|[FB SU]]. destruct (c_src _ _ _ _ _ _ C _ _ SX) as [IB _]. exists x, b. sp; auto. split; [unfold notFalse; rewrite FB; auto|]. intros SS. assert (SS' : sameScc g b x = true) by (unfold sameScc; rewrite SS; apply Nat.eqb_refl).
  destruct (n_bound (bodyOf g b)) as [bd|] eqn:NB.
  - assert (X : isExt g b = true) by (unfold isExt; rewrite NB; auto). destruct (SU X SS') as [S1 S2]. rewrite <- sum_split. unfold bound in S1. rewrite NB in S1. etransitivity; [exact S1|]. apply sum_le; auto. intros i LI GI.
    destruct (S2 i GI) as [O|[]]. destruct (nth_error (goals g b) i) as [(l, w)|] eqn:NG; [|apply nth_error_Some in LI; congruence]. unfold notFalse. rewrite (O l w NG). cbn. destruct (nth_error (preds g b) i) as [p|] eqn:NP; auto.
    destruct (inSet U p) eqn:M; auto. apply mem_In in M. exfalso. apply (MX p); auto. exists b. rewrite X. sp; auto. exists i. auto.
  - assert (X : isExt g b = false) by (unfold isExt; rewrite NB; auto). intros p w IP IU. apply (MX p); auto. exists b. rewrite X. sp; auto. unfold preds. change p with (fst (p, w)). apply in_map. auto.
Qed.
End Uf.
