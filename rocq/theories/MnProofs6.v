From Coq Require Import List Bool Arith ZArith Lia Permutation Sorted.
From Verif Require Import Base MnModel MnSpec MnProofs MnProofs2 MnProofs3 MnProofs4 MnProofs5.
Import ListNotations.
Open Scope Z_scope.

Lemma built_in : forall s d vl x, Built s d vl -> In x (litsOf (d_lits d)) -> s (fst (fst x)) = None /\ exists v, vecOk (numRules d) v /\ forall i, weight d x i = vecWeight v i.
Proof.
  intros s d vl x B X. pose proof (b_rep _ _ _ B) as RP. unfold rep in RP. destruct (forall2_in_l _ _ _ _ _ _ RP X) as [[z v] [Z1 [Z2 Z3]]]. pose proof (b_ok _ _ _ B) as OK. rewrite Forall_forall in OK. destruct (OK _ Z1) as [O1 O2]. cbn [fst snd] in *.
  split; [rewrite Z2; auto|]. exists v. auto.
Qed.
Lemma vecOk_pos : forall n v, vecOk n v -> lexGt n (vecWeight v) (fun _ => 0).
Proof.
  intros n v [A [B C]]. destruct v as [|[l w] v]; [destruct C|]. inversion B as [|? ? [W1 [W2 W3]] _]; subst. cbn [fst snd] in *. exists l. sp; auto.
  - intros i I. apply (zero_head l w v i); auto.
  - rewrite at_head. auto.
Qed.
Lemma vecOk_le : forall n v i, vecOk n v -> - int_max <= vecWeight v i <= int_max.
Proof.
  intros n v i [_ [B _]]. induction v as [|[l w] v IH]; cbn [vecWeight]; [unfold int_max; lia|]. inversion B as [|? ? [W1 [W2 W3]] B']; subst. cbn [fst snd] in *. destruct (Nat.eqb l i); auto.
Qed.
Lemma rep_vars : forall d vl, rep d vl -> map (fun x => fst (fst x)) (litsOf (d_lits d)) = map (fun xv => fst (fst xv)) vl.
Proof. intros d vl H. unfold rep in H. induction H as [|x y l1 l2 [E _] _ IH]; auto. destruct x as [x z], y as [y v]. cbn [fst snd map] in *. subst. rewrite IH. auto. Qed.
Lemma rep_sorted : forall s d vl, Built s d vl -> StronglySorted (fun x y => ~ lexGt (numRules d) (weight d y) (weight d x)) (litsOf (d_lits d)).
Proof.
  intros s d vl B. pose proof (b_desc _ _ _ B) as DS. pose proof (b_rep _ _ _ B) as RP. unfold rep in RP. clear B. induction RP as [|x y l1 l2 [E W] RP IH]; [constructor|]. inversion DS as [|? ? SS FF]; subst. constructor; auto.
  rewrite Forall_forall in *. intros z Z LX. destruct (forall2_in_l _ _ _ _ _ _ RP Z) as [u [U1 [U2 U3]]]. apply (FF u U1). eapply lex_ext; [|exact LX]. intros i I. cbn beta. rewrite W, U3. auto.
Qed.
Lemma sum_le : forall d l i a, (forall x, In x l -> weight d x i <= int_max) -> sumOf d l i a <= Z.of_nat (length l) * int_max.
Proof. induction l as [|x l IH]; intros i a H; [cbn; lia|]. cbn [sumOf length]. specialize (IH i a ltac:(intros; apply H; cbn; auto)). specialize (H x ltac:(cbn; auto)). unfold int_max in *. destruct (holds a (fst x)); lia. Qed.
Lemma litsOf_len : forall l, (length (litsOf l) <= length l)%nat.
Proof. induction l as [|x l IH]; cbn; auto. destruct (fst (fst x)); cbn; lia. Qed.
Lemma sum_bound : forall s d vl i a, Built s d vl -> Z.of_nat (length (d_lits d)) <= 4294967296 -> dataSum d i a < maxBound.
Proof.
  intros s d vl i a B L. unfold dataSum. eapply Z.le_lt_trans; [apply sum_le|].
  - intros x X. destruct (built_in _ _ _ x B X) as [_ [v [V1 V2]]]. rewrite V2. apply (vecOk_le _ _ i) in V1. lia.
  - pose proof (litsOf_len (d_lits d)). unfold maxBound, int_max. lia.
Qed.
Lemma vmin_le : forall s d vl i a, Built s d vl -> nth i (d_lower d) 0 <= dataSum d i a.
Proof.
  intros s d vl i a B. rewrite (b_lower _ _ _ B). unfold dataSum. pose proof (b_rep _ _ _ B) as RP. unfold rep in RP. pose proof (b_ok _ _ _ B) as OK. clear B. induction RP as [|x y l1 l2 [E W] RP IH]; [cbn; lia|]. inversion OK as [|? ? [_ [O1 _]] O2]; subst. specialize (IH O2).
  destruct y as [z v]. cbn [fst snd] in *. cbn [sumOf vmin]. rewrite W. destruct (holds a (fst x)); lia.
Qed.
(** The assignment that makes exactly the literals with a negative weight on one level true. *)
Fixpoint best (vl : list (lit * MnProofs2.sv)) (i : nat) (a : asg) : asg :=
  match vl with [] => a | (x, v) :: vl => fun y => if Nat.eqb y (fst x) then xorb (snd x) (vecWeight v i <? 0) else best vl i a y end.
Lemma best_other : forall vl i a y, ~ In y (map (fun xv : lit * MnProofs2.sv => fst (fst xv)) vl) -> best vl i a y = a y.
Proof. induction vl as [|[x v] vl IH]; intros i a y N; auto. cbn [best map] in *. destruct (Nat.eqb_spec y (fst x)) as [->|]; [destruct N; cbn; auto|]. apply IH. intros X. apply N. cbn; auto. Qed.
Lemma vmin_attained : forall s d vl i a0, Built s d vl -> extends a0 s -> exists a, extends a s /\ dataSum d i a = nth i (d_lower d) 0.
Proof.
  intros s d vl i a0 B EX. exists (best vl i a0). split.
  - intros y b Y. rewrite best_other; [apply EX; auto|]. intros I. apply in_map_iff in I. destruct I as [xv [<- I]]. pose proof (b_ok _ _ _ B) as OK. rewrite Forall_forall in OK. destruct (OK xv I) as [O1 _]. change (Base.var) with nat in *. change (fst (fst xv)) with (@fst nat bool (fst xv)) in *. rewrite O1 in Y. discriminate.
  - rewrite (b_lower _ _ _ B). unfold dataSum. pose proof (b_rep _ _ _ B) as RP. unfold rep in RP. pose proof (b_ok _ _ _ B) as OK. pose proof (b_nd _ _ _ B) as ND. clear B EX.
    assert (G : forall a, (forall x v, In (x, v) vl -> a (fst x) = xorb (snd x) (vecWeight v i <? 0)) -> sumOf d (litsOf (d_lits d)) i a = vmin vl i).
    { intros a. clear ND. induction RP as [|x [z v] l1 l2 [E W] RP IH]; intros H; auto. inversion OK as [|? ? [_ [O1 _]] O2]; subst. cbn [fst snd] in *. cbn [sumOf vmin]. rewrite IH; auto; [|intros; apply H; cbn; auto].
      rewrite W, E. unfold holds. rewrite (H z v) by (cbn; auto). destruct (Z.ltb_spec (vecWeight v i) 0); destruct (snd z); cbn [xorb]; lia. }
    apply G. clear - ND. induction vl as [|[z u] vl IH]; intros x v I; [destruct I|]. cbn [best map fst] in *. inversion ND as [|? ? N1 N2]; subst. destruct I as [I|I].
    + injection I as -> ->. rewrite Nat.eqb_refl. auto.
    + destruct (Nat.eqb_spec (fst x) (fst z)) as [E|E]; [|apply IH; auto]. destruct N1. rewrite <- E. apply in_map_iff. exists (x, v). auto.
Qed.
Lemma bound_some_low : forall adjust lower bound up, length lower = length adjust -> boundLoop bound adjust lower false = Some up -> (forall i, (i < length adjust)%nat -> nth i lower 0 < maxBound) -> ~ lexGt (length adjust) (fun i => nth i lower 0) (fun i => nth i up 0).
Proof.
  induction adjust as [|a adjust IH]; intros [|l lower] bound up LL E LM; cbn in LL; try discriminate; cbn [boundLoop] in E; [apply lex_0|]. pose proof (LM 0%nat ltac:(cbn; lia)) as L0. cbn [nth] in L0. intros H. apply lex_S in H.
  destruct bound as [|b bound].
  - destruct (boundLoop [] adjust lower false) as [up'|] eqn:E2; [|discriminate]. cbn in E. injection E as <-. cbn [nth] in H. destruct H as [H|[H _]]; lia.
  - set (B := if (0 <=? a) || (b <=? maxBound + a) then b - a else maxBound) in *. rewrite andb_true_r in E. destruct (Z.ltb_spec (B - l) 0) as [D|D]; [discriminate|]. cbn [orb] in E.
    destruct (boundLoop bound adjust lower _) as [up'|] eqn:E2; [|discriminate]. cbn in E. injection E as <-. cbn [nth] in H. destruct H as [H|[H1 H2]]; [lia|]. rewrite (proj2 (Z.ltb_ge _ _)) in E2 by lia. revert H2. apply (IH lower bound up'); [lia|auto|]. intros i I. apply (LM (S i)). cbn; lia.
Qed.
