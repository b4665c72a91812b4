(** C51: the nodes of the queues and free lists are where they should be, whatever the threads do. *)
From Coq Require Import List Arith Bool Lia.
From Verif Require Import Base LdSpec LdModel.
Import ListNotations.

(** Where a node is: nowhere, free list of a thread, in the hands of a thread, in a queue, a block header, given up *)
Inductive place := Nowhere | Free (t : nat) | Hand (t : nat) | Qu (i : nat) | Blk | Gone.
(** Nodes of each queue from tail to head, free lists, stack of blocks, places *)
Record gh := Gh { gL : nat -> list nat; gF : nat -> list nat; gB : list nat; gO : nat -> place }.

Lemma fset_same {A} (f : nat -> A) k v : fset f k v k = v. Proof. unfold fset. now rewrite Nat.eqb_refl. Qed.
Lemma fset_other {A} (f : nat -> A) k v x : x <> k -> fset f k v x = f x. Proof. unfold fset. destruct (Nat.eqb_spec x k); congruence. Qed.

Fixpoint chain (nx : nat -> nat) (a : nat) (l : list nat) : Prop := match l with [] => a = 0 | b :: r => a = b /\ b <> 0 /\ chain nx (nx b) r end.
Fixpoint links (nx : nat -> nat) (P : nat -> nat -> Prop) (l : list nat) : Prop :=
  match l with
  | [] => False
  | a :: r => match r with [] => nx a = 0 | b :: _ => (nx a = b \/ nx a = 0 /\ P a b) /\ links nx P r end
  end.
Lemma chain_ext nx nx' l : forall a, (forall b, In b l -> nx' b = nx b) -> chain nx a l -> chain nx' a l.
Proof.
  induction l as [|b l IH]; cbn; intros a E H; [exact H|]. destruct H as (-> & N & H). repeat split; [exact N|]. rewrite E by auto. apply IH; auto.
Qed.
Lemma links_ext nx nx' (P P' : nat -> nat -> Prop) l : (forall b, In b l -> nx' b = nx b) -> (forall a b, P a b -> P' a b) -> links nx P l -> links nx' P' l.
Proof.
  intros E Q. induction l as [|a [|b r] IH]; cbn; [tauto|intros H; rewrite E by (now left); exact H|].
  intros [H1 H2]. split; [rewrite E by (now left); destruct H1 as [H1|[H1 H3]]; auto|]. apply IH; [|exact H2]. intros x X. apply E. now right.
Qed.
Lemma links_snoc nx (P : nat -> nat -> Prop) n : forall l p, links nx P (l ++ [p]) -> P p n -> nx n = 0 -> links nx P (l ++ [p; n]).
Proof.
  induction l as [|a l IH]; intros p; cbn; [auto|]. destruct l as [|b l]; cbn.
  - intros [H1 H2] H3 H4. auto.
  - intros [H1 H2] H3 H4. split; [exact H1|]. now apply (IH p).
Qed.
(** one pending link is done *)
Lemma links_done nx (P P' : nat -> nat -> Prop) p n l2 : forall l1, NoDup (l1 ++ p :: n :: l2) -> links nx P (l1 ++ p :: n :: l2) ->
  (forall a b, a <> p -> P a b -> P' a b) -> links (fset nx p n) P' (l1 ++ p :: n :: l2).
Proof.
  induction l1 as [|a l1 IH]; intros N H Q.
  - change ([] ++ p :: n :: l2) with (p :: n :: l2) in *. destruct H as [_ H]. split; [left; now rewrite fset_same|].
    inversion_clear N as [|x y N1 N2].
    assert (forall l, ~ In p l -> links nx P l -> links (fset nx p n) P' l) as G.
    { clear - Q. induction l as [|x [|y r] IH]; cbn; [tauto|intros X H; now rewrite fset_other by (intros ->; tauto)|].
      intros X [H1 H2]. assert (x <> p) by tauto. rewrite fset_other by assumption. split; [destruct H1 as [H1|[H1 H3]]; auto|]. apply IH; [tauto|exact H2]. }
    now apply G.
  - cbn [app] in *. inversion_clear N as [|x y N1 N2]. assert (a <> p) as NE by (intros ->; apply N1; apply in_app_iff; right; now left).
    specialize (IH N2). destruct l1 as [|b l1]; cbn [app links] in *; destruct H as [H1 H2]; (split; [rewrite fset_other by exact NE; destruct H1 as [H1|[H1 H3]]; auto|now apply IH]).
Qed.

(** The node in the hands of a thread *)
Definition hnd (p : pc) : option nat :=
  match p with
  | Al3 _ n | Pu0 _ n | Pu1 _ n | Bl0 _ n | Bl1 _ n _ | Bl2 _ n _ | Po2 n _ | Po3 n _ | Po4 n | Fr0 n _ | Fr1 n _ => Some n
  | _ => None
  end.
(** The publish call of a thread *)
Definition pubOf (p : pc) : option pub :=
  match p with
  | Loop b | Al0 b | Al1 b _ | Al2 b _ _ | Al3 b _ | Bl0 b _ | Bl1 b _ _ | Bl2 b _ _ | Pu0 b _ | Pu1 b _ | Pu2 b _ _ | Dec b => Some b
  | _ => None
  end.

Section P.
Variables (m : nat) (peers : nat -> nat -> bool).
Definition cnt (x : item) (k : nat) : nat := length (filter (fun i => negb (i =? it_from x) && negb (goesTo peers i x)) (seq 0 k)).
Definition pubOK (t : nat) (p : pc) : Prop :=
  match pubOf p with
  | None => True
  | Some b => it_from (p_it b) = t /\ p_dec b = cnt (p_it b) (p_i b) /\
      match p with Loop _ => p_i b <= m | Dec _ => p_i b = m /\ p_dec b <> 0 | _ => p_i b < m /\ goesTo peers (p_i b) (p_it b) = true end
  end.
Definition pcOK (s : st) (g : gh) (t : nat) (p : pc) : Prop :=
  match p with
  | Al1 _ n => exists r, gF g t = n :: r
  | Al2 _ n nx => exists r, gF g t = n :: r /\ chain (s_next s) nx r
  | Pu0 b n => s_data s n = Some (p_it b)
  | Pu1 b n => s_data s n = Some (p_it b) /\ s_next s n = 0
  | Pu2 b n p => (exists l1 l2, gL g (p_i b) = l1 ++ p :: n :: l2) /\ s_next s p = 0 /\ s_data s n = Some (p_it b)
  | Bl2 _ a top => s_next s a = top
  | Po1 a n => exists l, gL g t = a :: n :: l /\ s_next s a = n
  | Po2 a n => (exists l, gL g t = n :: l) /\ s_data s n <> None
  | Po3 a n => (exists l, gL g t = n :: l) /\ s_data s a <> None
  | Po4 a => s_data s a <> None
  | Fr1 a _ => s_next s a = s_free s t
  | _ => True
  end.
Definition pend2 (s : st) (a b : nat) : Prop := exists u x, u < m /\ s_pc s u = Pu2 x b a.
Record Inv (s : st) (g : gh) : Prop := {
  i_brk : m < s_brk s;
  i_own : forall a, gO g a <> Nowhere -> 0 < a < s_brk s;
  i_hd : forall i, i < m -> exists l, gL g i = s_tail s i :: l;
  i_last : forall i, i < m -> last (gL g i) 0 = s_head s i;
  i_nd : forall i, i < m -> NoDup (gL g i);
  i_qu : forall i a, i < m -> In a (gL g i) -> gO g a = Qu i;
  i_lk : forall i, i < m -> links (s_next s) (pend2 s) (gL g i);
  i_dt : forall i a, i < m -> In a (tl (gL g i)) -> s_data s a <> None;
  i_fc : forall t, t < m -> chain (s_next s) (s_free s t) (gF g t);
  i_fn : forall t, t < m -> NoDup (gF g t);
  i_fo : forall t a, t < m -> In a (gF g t) -> gO g a = Free t;
  i_bc : chain (s_next s) (s_top s) (gB g);
  i_bn : NoDup (gB g);
  i_bo : forall a, In a (gB g) -> gO g a = Blk;
  i_ha : forall t n, t < m -> hnd (s_pc s t) = Some n -> gO g n = Hand t;
  i_pb : forall t, t < m -> pubOK t (s_pc s t);
  i_pc : forall t, t < m -> pcOK s g t (s_pc s t) }.

Lemma in_L_ok s g i a : Inv s g -> i < m -> In a (gL g i) -> 0 < a < s_brk s.
Proof. intros H I A. apply (i_own _ _ H). rewrite (i_qu _ _ H i a I A). discriminate. Qed.
Lemma pu2_owner s g u b n p : Inv s g -> u < m -> s_pc s u = Pu2 b n p -> p_i b < m /\ it_from (p_it b) = u /\ s_data s n = Some (p_it b) /\ s_next s p = 0 /\
  exists l1 l2, gL g (p_i b) = l1 ++ p :: n :: l2.
Proof.
  intros H U E. pose proof (i_pb _ _ H u U) as B. pose proof (i_pc _ _ H u U) as C. rewrite E in B, C. cbn in B, C. destruct B as (B1 & B2 & B3 & B4).
  destruct C as (C1 & C2 & C3). auto.
Qed.
Lemma next_of (l1 l2 l1' l2' : list nat) p n n' : NoDup (l1 ++ p :: n :: l2) -> l1 ++ p :: n :: l2 = l1' ++ p :: n' :: l2' -> n = n'.
Proof.
  revert l1'. induction l1 as [|a l1 IH]; intros l1' N E; destruct l1' as [|a' l1']; cbn in *.
  - now injection E.
  - injection E as <- E. inversion_clear N as [|x y N1 N2]. exfalso. apply N1. rewrite E. apply in_app_iff. right. now left.
  - injection E as -> E. inversion_clear N as [|x y N1 N2]. exfalso. apply N1. apply in_app_iff. right. now left.
  - injection E as <- E. inversion_clear N as [|x y N1 N2]. now apply (IH l1').
Qed.
(** Two threads do not finish the same push *)
Lemma pu2_unique s g u b n u' b' n' p : Inv s g -> u < m -> u' < m -> s_pc s u = Pu2 b n p -> s_pc s u' = Pu2 b' n' p -> u = u'.
Proof.
  intros H U U' E E'. destruct (pu2_owner _ _ _ _ _ _ H U E) as (I1 & F1 & D1 & _ & l1 & l2 & L1). destruct (pu2_owner _ _ _ _ _ _ H U' E') as (I2 & F2 & D2 & _ & l1' & l2' & L2).
  assert (p_i b = p_i b') as EI.
  { pose proof (i_qu _ _ H (p_i b) p I1) as Q1. pose proof (i_qu _ _ H (p_i b') p I2) as Q2. rewrite L1 in Q1. rewrite L2 in Q2.
    rewrite Q1 in Q2 by (apply in_app_iff; right; now left). specialize (Q2 ltac:(apply in_app_iff; right; now left)). now injection Q2. }
  rewrite <- EI, L1 in L2. assert (n = n') as <-. { eapply next_of; [|exact L2]. rewrite <- L1. now apply (i_nd _ _ H). }
  rewrite D1 in D2. injection D2 as D2. congruence.
Qed.

(** What thread [t] may change without disturbing thread [u] *)
Lemma pcOK_frame s g s' g' t u : Inv s g -> t < m -> u < m -> t <> u ->
  gF g' u = gF g u -> s_free s' u = s_free s u ->
  (forall a, gO g a = Hand u \/ gO g a = Free u -> s_next s' a = s_next s a) ->
  (forall a i, i < m -> gO g a = Qu i -> s_next s' a = s_next s a \/ exists b n, s_pc s t = Pu2 b n a) ->
  (forall a, gO g a = Hand u -> s_data s' a = s_data s a) ->
  (forall a i, i < m -> gO g a = Qu i -> s_data s' a = s_data s a \/ i = t /\ exists l, gL g t = a :: l) ->
  (forall i, i < m -> gL g' i = gL g i \/ (exists z, gL g' i = gL g i ++ [z]) \/ (i = t /\ exists a, gL g i = a :: gL g' i /\ s_next s a <> 0)) ->
  pcOK s' g' u (s_pc s u).
Proof.
  intros H T U NE HF Hf HN HQ HD HE HL.
  pose proof (i_pc _ _ H u U) as C. pose proof (i_ha _ _ H u) as HA. pose proof (i_pb _ _ H u U) as B.
  assert (forall a l, gL g u = a :: l -> exists l', gL g' u = a :: l') as LU.
  { intros a l E. destruct (HL u U) as [Q|[[z Q]|[Q _]]]; [rewrite Q; eauto|rewrite Q, E; cbn; eauto|congruence]. }
  assert (forall a, In a (gL g u) -> s_next s' a = s_next s a \/ exists b n, s_pc s t = Pu2 b n a) as NU.
  { intros a A. apply (HQ a u U). now apply (i_qu _ _ H). }
  assert (forall a, In a (gL g u) -> s_data s' a = s_data s a) as DU.
  { intros a A. destruct (HE a u U (i_qu _ _ H u a U A)) as [E|[E _]]; [exact E|congruence]. }
  destruct (s_pc s u) as [|b|b|b n|b n nx|b n|b a|b a top|b a top|b n|b n|b n p|b| |a n|a n|a n|a|a x|a x] eqn:E; cbn in *; auto.
  - now rewrite HF.
  - destruct C as (r & C1 & C2). exists r. split; [now rewrite HF|]. eapply chain_ext; [|exact C2]. intros y Y. apply HN. right. apply (i_fo _ _ H); [exact U|]. rewrite C1. now right.
  - rewrite HN; [exact C|]. left. now apply HA.
  - rewrite HD; [exact C|]. now apply HA.
  - rewrite HD, HN by (auto). exact C.
  - destruct C as ((l1 & l2 & C1) & C2 & C3). destruct B as (_ & _ & BI & _).
    assert (gO g p = Qu (p_i b)) as Op by (apply (i_qu _ _ H); [exact BI|rewrite C1; apply in_app_iff; right; now left]).
    assert (gO g n = Qu (p_i b)) as On by (apply (i_qu _ _ H); [exact BI|rewrite C1; apply in_app_iff; right; right; now left]).
    assert (s_next s' p = 0) as Np.
    { destruct (HQ p _ BI Op) as [Q|(b2 & n2 & Q)]; [now rewrite Q|]. exfalso. apply NE. eapply pu2_unique; [exact H|exact T|exact U|exact Q|exact E]. }
    split; [|split; [exact Np|]].
    + destruct (HL _ BI) as [Q|[[z Q]|[Q (a & Q1 & Q2)]]].
      * exists l1, l2. now rewrite Q.
      * exists l1, (l2 ++ [z]). rewrite Q, C1. now rewrite <- app_assoc.
      * rewrite C1 in Q1. destruct l1 as [|y l1]; cbn in Q1; injection Q1 as -> Q1; [congruence|]. exists l1, l2. now symmetry.
    + destruct (HE n _ BI On) as [Q|[Q [l Q1]]]; [now rewrite Q|]. exfalso. rewrite <- Q in Q1. pose proof (i_nd _ _ H _ BI) as N. rewrite C1 in Q1, N.
      destruct l1 as [|y l1]; cbn in Q1; injection Q1 as -> Q1; cbn in N; inversion_clear N as [|? ? N1 N2]; apply N1; [now left|apply in_app_iff; right; right; now left].
  - destruct C as (l & C1 & C2). destruct (NU a) as [Q|(b2 & n2 & Q)]; [rewrite C1; now left| |].
    + destruct (HL u U) as [Q'|[[z Q']|[Q' _]]]; [|rewrite Q', C1; cbn|congruence].
      * exists l. rewrite Q', Q. auto.
      * exists (l ++ [z]). rewrite Q. auto.
    + exfalso. destruct (pu2_owner _ _ _ _ _ _ H T Q) as (_ & _ & _ & N0 & _). pose proof (in_L_ok s g u n H U) as K. rewrite C1 in K. specialize (K ltac:(right; now left)). lia.
  - destruct C as ((l & C1) & C2). split; [now apply (LU _ l)|]. rewrite DU; [exact C2|rewrite C1; now left].
  - destruct C as ((l & C1) & C2). split; [now apply (LU _ l)|]. rewrite HD; [exact C2|now apply HA].
  - rewrite HD; [exact C|now apply HA].
  - rewrite HN, Hf; [exact C|]. left. now apply HA.
Qed.
End P.
