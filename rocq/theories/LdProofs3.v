(** C51: the steps on the queues, and what every step does to the nogoods in transit. *)
From Coq Require Import List Arith Bool Lia.
From Verif Require Import Base LdSpec LdModel LdProofs LdProofs2.
Import ListNotations.

Lemma NoDup_snoc {A} (l : list A) x : NoDup l -> ~ In x l -> NoDup (l ++ [x]).
Proof.
  induction l as [|a l IH]; cbn; intros N I; [repeat constructor; tauto|]. inversion_clear N as [|? ? N1 N2]. constructor; [|apply IH; tauto].
  intros K. apply in_app_iff in K. destruct K as [K|[K|[]]]; [tauto|]. apply I. now left.
Qed.

Section P.
Variables (m : nat) (peers : nat -> nat -> bool).
Notation Inv := (Inv m peers).
Notation pubOK := (pubOK m peers).


(** Pu1: a node is appended to a queue *)
Lemma Inv_push s g t b n : Inv s g -> t < m -> s_pc s t = Pu1 b n ->
  Inv (goto (w_head s (p_i b) n) t (Pu2 b n (s_head s (p_i b)))) (Gh (fset (gL g) (p_i b) (gL g (p_i b) ++ [n])) (gF g) (gB g) (fset (gO g) n (Qu (p_i b)))).
Proof.
  intros H T E. pose proof (i_pc _ _ _ _ H t T) as C. pose proof (i_pb _ _ _ _ H t T) as B. rewrite E in C, B. cbn in C. destruct C as [C1 C2].
  destruct (B) as (B1 & B2 & B3 & B4). cbn [pubOf] in *.
  assert (gO g n = Hand t) as O by (apply (i_ha _ _ _ _ H); [exact T|now rewrite E]).
  set (j := p_i b) in *. destruct (i_hd _ _ _ _ H j B3) as (l & HL). pose proof (i_last _ _ _ _ H j B3) as LA.
  assert (gL g j <> []) as NE by (rewrite HL; discriminate).
  destruct (exists_last NE) as (l1 & p & LE). rewrite LE in LA. rewrite last_last in LA. subst p.
  set (s' := goto (w_head s j n) t (Pu2 b n (s_head s j))). set (g' := Gh (fset (gL g) j (gL g j ++ [n])) (gF g) (gB g) (fset (gO g) n (Qu j))).
  assert (forall x n q, s_pc s t <> Pu2 x n q) as NP by (intros; rewrite E; discriminate).
  assert (forall a, gO g a <> Hand t -> gO g' a = gO g a) as OK by (intros a A; cbn; rewrite fset_other; [reflexivity|intros ->; congruence]).
  assert (forall a i, i < m -> In a (gL g i) -> a <> n) as NI by (intros a i I A ->; pose proof (i_qu _ _ _ _ H i n I A); congruence).
  assert (forall a b0, pend2 m s a b0 -> pend2 m s' a b0) as PK by (intros a b0; apply (pend2_keep m s s' t (Pu2 b n (s_head s j))); [reflexivity|exact NP]).
  constructor; cbn [s' g' goto w_head s_brk s_tail s_head s_next s_data s_free s_top s_pc gL gF gB gO].
  - apply (i_brk _ _ _ _ H).
  - intros a A. destruct (Nat.eq_dec a n) as [->|N]; [apply (i_own _ _ _ _ H); congruence|]. rewrite fset_other in A by exact N. now apply (i_own _ _ _ _ H).
  - intros i I. destruct (Nat.eq_dec i j) as [->|N]; [rewrite fset_same, HL; cbn; eauto|]. rewrite fset_other by exact N. now apply (i_hd _ _ _ _ H).
  - intros i I. destruct (Nat.eq_dec i j) as [->|N]; [rewrite !fset_same; apply last_last|]. rewrite !fset_other by exact N. now apply (i_last _ _ _ _ H).
  - intros i I. destruct (Nat.eq_dec i j) as [->|N]; [rewrite fset_same|rewrite fset_other by exact N; now apply (i_nd _ _ _ _ H)].
    apply NoDup_snoc; [now apply (i_nd _ _ _ _ H)|]. intros A. now apply (NI n j B3 A).
  - intros i a I A. destruct (Nat.eq_dec i j) as [->|N].
    + rewrite fset_same in A. apply in_app_iff in A. destruct A as [A|[<-|[]]]; [|now rewrite fset_same]. rewrite fset_other by now apply (NI a j). now apply (i_qu _ _ _ _ H).
    + rewrite fset_other in A by exact N. rewrite fset_other by now apply (NI a i). now apply (i_qu _ _ _ _ H).
  - intros i I. destruct (Nat.eq_dec i j) as [->|N]; [rewrite fset_same|rewrite fset_other by exact N].
    + rewrite LE, <- app_assoc. apply links_snoc; [|exists t, b; split; [exact T|cbn; now rewrite fset_same]|exact C2].
      rewrite <- LE. eapply links_ext; [| |apply (i_lk _ _ _ _ H j B3)]; auto.
    + eapply links_ext; [| |apply (i_lk _ _ _ _ H i I)]; auto.
  - intros i a I A. destruct (Nat.eq_dec i j) as [->|N]; [rewrite fset_same in A|rewrite fset_other in A by exact N; now apply (i_dt _ _ _ _ H i)].
    rewrite HL in A. cbn in A. apply in_app_iff in A. destruct A as [A|[<-|[]]]; [|rewrite C1; discriminate]. apply (i_dt _ _ _ _ H j); [exact B3|]. now rewrite HL.
  - apply (i_fc _ _ _ _ H).
  - apply (i_fn _ _ _ _ H).
  - intros u a U A. pose proof (i_fo _ _ _ _ H u a U A). rewrite fset_other by (intros ->; congruence). assumption.
  - apply (i_bc _ _ _ _ H).
  - apply (i_bn _ _ _ _ H).
  - intros a A. pose proof (i_bo _ _ _ _ H a A). rewrite fset_other by (intros ->; congruence). assumption.
  - intros u a U. destruct (Nat.eq_dec u t) as [->|N]; [rewrite fset_same; discriminate|]. rewrite fset_other by exact N. intros A.
    pose proof (i_ha _ _ _ _ H u a U A). rewrite fset_other by (intros ->; congruence). assumption.
  - intros u U. destruct (Nat.eq_dec u t) as [->|N]; [rewrite fset_same; exact B|]. rewrite fset_other by exact N. now apply (i_pb _ _ _ _ H).
  - intros u U. destruct (Nat.eq_dec u t) as [->|N].
    + rewrite fset_same. cbn. fold j. rewrite fset_same. split; [|split; [|exact C1]].
      * exists l1, []. now rewrite LE, <- app_assoc.
      * pose proof (i_lk _ _ _ _ H j B3) as K. rewrite LE in K. clear - K. induction l1 as [|a l1 IH]; [exact K|]. apply IH. destruct l1; apply K.
    + rewrite fset_other by exact N. apply (pcOK_frame m peers s g s' g' t u H T U); auto.
      intros i I. cbn. destruct (Nat.eq_dec i j) as [->|N']; [right; left; rewrite fset_same; eauto|left; now rewrite fset_other].
Qed.

(** Pu2: the link to the node appended before is written *)
Lemma Inv_link s g t b n p : Inv s g -> t < m -> s_pc s t = Pu2 b n p -> Inv (goto (w_next s p n) t (Loop (inc b))) g.
Proof.
  intros H T E. destruct (pu2_owner _ _ _ _ _ _ _ _ H T E) as (B3 & FR & D & N0 & l1 & l2 & LE). pose proof (i_pb _ _ _ _ H t T) as B. rewrite E in B. destruct B as (B1 & B2 & _ & B4). cbn [pubOf] in *.
  set (j := p_i b) in *. assert (gO g p = Qu j) as O by (apply (i_qu _ _ _ _ H); [exact B3|rewrite LE; apply in_app_iff; right; now left]).
  set (s' := goto (w_next s p n) t (Loop (inc b))).
  assert (forall a, gO g a <> Qu j -> s_next s' a = s_next s a) as NX by (intros a A; cbn; rewrite fset_other; [reflexivity|intros ->; congruence]).
  assert (forall a b0, a <> p -> pend2 m s a b0 -> pend2 m s' a b0) as PK.
  { intros a b0 A (u & x & U & Q). exists u, x. split; [exact U|]. cbn. destruct (Nat.eq_dec u t) as [->|N]; [congruence|]. now rewrite fset_other. }
  constructor; cbn [s' goto w_next s_brk s_tail s_head s_data s_free s_top s_pc].
  - apply (i_brk _ _ _ _ H).
  - apply (i_own _ _ _ _ H).
  - apply (i_hd _ _ _ _ H).
  - apply (i_last _ _ _ _ H).
  - apply (i_nd _ _ _ _ H).
  - apply (i_qu _ _ _ _ H).
  - intros i I. destruct (Nat.eq_dec i j) as [->|N].
    + rewrite LE. cbn. apply links_done with (P := pend2 m s); [rewrite <- LE; now apply (i_nd _ _ _ _ H)|rewrite <- LE; now apply (i_lk _ _ _ _ H)|exact PK].
    + assert (~ In p (gL g i)) as NI by (intros A; pose proof (i_qu _ _ _ _ H i p I A); congruence).
      pose proof (i_lk _ _ _ _ H i I) as K. revert NI K. clear - PK. cbn. induction (gL g i) as [|x [|y r] IH]; cbn; [tauto|intros X K; now rewrite fset_other by (intros ->; tauto)|].
      intros X [K1 K2]. assert (x <> p) by tauto. rewrite fset_other by assumption. split; [destruct K1 as [K1|[K1 K3]]; auto|]. apply IH; [tauto|exact K2].
  - apply (i_dt _ _ _ _ H).
  - intros u U. eapply chain_ext; [|apply (i_fc _ _ _ _ H u U)]. intros a A. apply NX. rewrite (i_fo _ _ _ _ H u a U A). discriminate.
  - apply (i_fn _ _ _ _ H).
  - apply (i_fo _ _ _ _ H).
  - eapply chain_ext; [|apply (i_bc _ _ _ _ H)]. intros a A. apply NX. rewrite (i_bo _ _ _ _ H a A). discriminate.
  - apply (i_bn _ _ _ _ H).
  - apply (i_bo _ _ _ _ H).
  - intros u a U. destruct (Nat.eq_dec u t) as [->|N]; [rewrite fset_same; discriminate|]. rewrite fset_other by exact N. now apply (i_ha _ _ _ _ H).
  - intros u U. destruct (Nat.eq_dec u t) as [->|N]; [rewrite fset_same|rewrite fset_other by exact N; now apply (i_pb _ _ _ _ H)].
    unfold LdProofs.pubOK. cbn [pubOf inc p_it p_i p_dec]. repeat split; [exact B1| |lia]. fold j in B2 |- *. rewrite B2. unfold cnt. rewrite seq_S, filter_app, app_length. cbn. fold j in B4.
    rewrite B4, andb_false_r. cbn. lia.
  - intros u U. destruct (Nat.eq_dec u t) as [->|N]; [rewrite fset_same; exact I|]. rewrite fset_other by exact N. apply (pcOK_frame m peers s g s' g t u H T U); auto.
    + intros a [A|A]; apply NX; congruence.
    + intros a i I A. destruct (Nat.eq_dec a p) as [->|N']; [right; eauto|]. left. cbn. now rewrite fset_other.
Qed.

(** Po1: the tail moves *)
Lemma Inv_pop s g t a n : Inv s g -> t < m -> s_pc s t = Po1 a n -> exists l, gL g t = a :: n :: l /\
  Inv (goto (w_tail s t n) t (Po2 a n)) (Gh (fset (gL g) t (n :: l)) (gF g) (gB g) (fset (gO g) a (Hand t))).
Proof.
  intros H T E. pose proof (i_pc _ _ _ _ H t T) as C. rewrite E in C. cbn in C. destruct C as (l & C1 & C2). exists l. split; [exact C1|].
  pose proof (i_nd _ _ _ _ H t T) as ND. rewrite C1 in ND. inversion_clear ND as [|x y N1 N2].
  assert (gO g a = Qu t) as O by (apply (i_qu _ _ _ _ H); [exact T|rewrite C1; now left]).
  assert (n <> 0) as N0 by (pose proof (in_L_ok m peers s g t n H T) as K; rewrite C1 in K; specialize (K ltac:(right; now left)); lia).
  set (s' := goto (w_tail s t n) t (Po2 a n)). set (g' := Gh (fset (gL g) t (n :: l)) (gF g) (gB g) (fset (gO g) a (Hand t))).
  assert (forall x n q, s_pc s t <> Pu2 x n q) as NP by (intros; rewrite E; discriminate).
  assert (forall a0 b0, pend2 m s a0 b0 -> pend2 m s' a0 b0) as PK by (intros a0 b0; apply (pend2_keep m s s' t (Po2 a n)); [reflexivity|exact NP]).
  constructor; cbn [s' g' goto w_tail s_brk s_tail s_head s_next s_data s_free s_top s_pc gL gF gB gO].
  - apply (i_brk _ _ _ _ H).
  - intros x X. destruct (Nat.eq_dec x a) as [->|N]; [apply (i_own _ _ _ _ H); congruence|]. rewrite fset_other in X by exact N. now apply (i_own _ _ _ _ H).
  - intros i I. destruct (Nat.eq_dec i t) as [->|N]; [rewrite !fset_same; eauto|]. rewrite !fset_other by exact N. now apply (i_hd _ _ _ _ H).
  - intros i I. pose proof (i_last _ _ _ _ H i I) as LA. destruct (Nat.eq_dec i t) as [->|N]; [rewrite fset_same; now rewrite C1 in LA|]. now rewrite fset_other.
  - intros i I. destruct (Nat.eq_dec i t) as [->|N]; [now rewrite fset_same|]. rewrite fset_other by exact N. now apply (i_nd _ _ _ _ H).
  - intros i x I A. destruct (Nat.eq_dec i t) as [->|N]; [rewrite fset_same in A|rewrite fset_other in A by exact N].
    + rewrite fset_other by (intros ->; tauto). apply (i_qu _ _ _ _ H); [exact T|]. rewrite C1. now right.
    + pose proof (i_qu _ _ _ _ H i x I A). rewrite fset_other by (intros ->; congruence). assumption.
  - intros i I. destruct (Nat.eq_dec i t) as [->|N]; [rewrite fset_same|rewrite fset_other by exact N; eapply links_ext; [| |apply (i_lk _ _ _ _ H i I)]; auto].
    pose proof (i_lk _ _ _ _ H t T) as K. rewrite C1 in K. destruct K as [_ K]. eapply links_ext; [| |exact K]; auto.
  - intros i x I A. apply (i_dt _ _ _ _ H i x I). destruct (Nat.eq_dec i t) as [->|N]; [rewrite fset_same in A|rewrite fset_other in A by exact N; exact A]. rewrite C1. now right.
  - apply (i_fc _ _ _ _ H).
  - apply (i_fn _ _ _ _ H).
  - intros u x U A. pose proof (i_fo _ _ _ _ H u x U A). rewrite fset_other by (intros ->; congruence). assumption.
  - apply (i_bc _ _ _ _ H).
  - apply (i_bn _ _ _ _ H).
  - intros x A. pose proof (i_bo _ _ _ _ H x A). rewrite fset_other by (intros ->; congruence). assumption.
  - intros u x U. destruct (Nat.eq_dec u t) as [->|N]; [rewrite fset_same; cbn; intros A; injection A as <-; now rewrite fset_same|]. rewrite fset_other by exact N. intros A.
    pose proof (i_ha _ _ _ _ H u x U A). rewrite fset_other by (intros ->; congruence). assumption.
  - intros u U. destruct (Nat.eq_dec u t) as [->|N]; [rewrite fset_same; exact I|]. rewrite fset_other by exact N. now apply (i_pb _ _ _ _ H).
  - intros u U. destruct (Nat.eq_dec u t) as [->|N].
    + rewrite fset_same. cbn. rewrite fset_same. split; [eauto|]. apply (i_dt _ _ _ _ H t n T). rewrite C1. now left.
    + rewrite fset_other by exact N. apply (pcOK_frame m peers s g s' g' t u H T U); auto.
      intros i I. cbn. destruct (Nat.eq_dec i t) as [->|N']; [|left; now rewrite fset_other]. right; right. split; [reflexivity|]. exists a. rewrite fset_same. split; [exact C1|congruence].
Qed.
End P.
