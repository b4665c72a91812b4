(** C51: every step keeps the invariant of LdProofs. *)
From Coq Require Import List Arith Bool Lia.
From Verif Require Import Base LdSpec LdModel LdProofs.
Import ListNotations.

Section P.
Variables (m : nat) (peers : nat -> nat -> bool).
Notation Inv := (Inv m peers).
Notation pubOK := (pubOK m peers).

Definition sameMem (s s' : st) : Prop :=
  s_next s' = s_next s /\ s_data s' = s_data s /\ s_head s' = s_head s /\ s_tail s' = s_tail s /\ s_free s' = s_free s /\ s_top s' = s_top s /\ s_brk s' = s_brk s.

Lemma pend2_keep s s' t p' a b : s_pc s' = fset (s_pc s) t p' -> (forall x n q, s_pc s t <> Pu2 x n q) -> pend2 m s a b -> pend2 m s' a b.
Proof.
  intros E N (u & x & U & H). exists u, x. split; [exact U|]. rewrite E. destruct (Nat.eq_dec u t) as [->|NE]; [now apply N in H|]. now rewrite fset_other.
Qed.

(** Thread [t] moves to [p'] and changes its own memory; the nodes of queues and blocks stay. *)
Lemma Inv_own s g s' g' t p' : Inv s g -> t < m -> s_pc s' = fset (s_pc s) t p' -> (forall x n q, s_pc s t <> Pu2 x n q) ->
  s_brk s <= s_brk s' -> s_head s' = s_head s -> s_tail s' = s_tail s -> (forall u, u <> t -> s_free s' u = s_free s u) ->
  gL g' = gL g ->
  (forall a, gO g a <> Nowhere -> gO g' a = gO g a \/ ((gO g a = Hand t \/ gO g a = Free t) /\ gO g' a <> Nowhere)) ->
  (forall a, gO g' a <> Nowhere -> gO g a = Nowhere -> 0 < a < s_brk s') ->
  (forall a, gO g a <> Nowhere -> gO g a <> Hand t -> s_next s' a = s_next s a) ->
  (forall a, gO g a <> Nowhere -> gO g a <> Hand t -> s_data s' a = s_data s a \/ exists l n, gO g a = Qu t /\ gL g t = a :: l /\ s_pc s t = Po3 n a) ->
  (forall u, u <> t -> gF g' u = gF g u) ->
  chain (s_next s') (s_free s' t) (gF g' t) -> NoDup (gF g' t) -> (forall a, In a (gF g' t) -> gO g' a = Free t) ->
  chain (s_next s') (s_top s') (gB g') -> NoDup (gB g') -> (forall a, In a (gB g') -> gO g' a = Blk) ->
  (forall n, hnd p' = Some n -> gO g' n = Hand t) -> pubOK t p' -> pcOK s' g' t p' -> Inv s' g'.
Proof.
  intros H T EP NP HB HH HT HF HL HO HO' HN HD HG C1 C2 C3 B1 B2 B3 P1 P2 P3.
  assert (forall i a, i < m -> In a (gL g i) -> s_next s' a = s_next s a) as NL by (intros i a I A; apply HN; rewrite (i_qu _ _ _ _ H i a I A); discriminate).
  assert (forall a, gO g a <> Nowhere -> gO g a <> Hand t -> gO g a <> Free t -> gO g' a = gO g a) as OK by (intros a A1 A2 A3; destruct (HO a A1) as [E|[[E|E] _]]; congruence).
  assert (forall i a, i < m -> In a (tl (gL g i)) -> s_data s' a = s_data s a) as DL.
  { intros i a I A. assert (In a (gL g i)) as A' by (destruct (gL g i); [exact A|now right]).
    destruct (HD a) as [E|(l & n & E1 & E2 & _)]; [rewrite (i_qu _ _ _ _ H i a I A'); discriminate|rewrite (i_qu _ _ _ _ H i a I A'); discriminate|exact E|].
    rewrite (i_qu _ _ _ _ H i a I A') in E1. injection E1 as ->. exfalso. pose proof (i_nd _ _ _ _ H t T) as N. rewrite E2 in N, A. cbn in A. now inversion_clear N. }
  constructor.
  - pose proof (i_brk _ _ _ _ H). lia.
  - intros a A. destruct (gO g a) eqn:E; [now apply HO'|..]; pose proof (i_own _ _ _ _ H a ltac:(congruence)); lia.
  - intros i I. rewrite HL, HT. now apply (i_hd _ _ _ _ H).
  - intros i I. rewrite HL, HH. now apply (i_last _ _ _ _ H).
  - intros i I. rewrite HL. now apply (i_nd _ _ _ _ H).
  - intros i a I A. rewrite HL in A. pose proof (i_qu _ _ _ _ H i a I A) as E. rewrite OK; congruence.
  - intros i I. rewrite HL. eapply links_ext; [|intros a b; apply (pend2_keep s s' t p' a b EP NP)|apply (i_lk _ _ _ _ H i I)]. intros b B. now apply (NL i).
  - intros i a I A. rewrite HL in A. rewrite (DL i) by auto. now apply (i_dt _ _ _ _ H i).
  - intros u U. destruct (Nat.eq_dec u t) as [->|NE]; [exact C1|]. rewrite HG, HF by exact NE. eapply chain_ext; [|apply (i_fc _ _ _ _ H u U)]. intros b B.
    pose proof (i_fo _ _ _ _ H u b U B) as E. apply HN; congruence.
  - intros u U. destruct (Nat.eq_dec u t) as [->|NE]; [exact C2|]. rewrite HG by exact NE. now apply (i_fn _ _ _ _ H).
  - intros u a U A. destruct (Nat.eq_dec u t) as [->|NE]; [now apply C3|]. rewrite HG in A by exact NE. pose proof (i_fo _ _ _ _ H u a U A) as E. rewrite OK; congruence.
  - exact B1.
  - exact B2.
  - exact B3.
  - intros u n U. rewrite EP. destruct (Nat.eq_dec u t) as [->|NE]; [rewrite fset_same; now apply P1|]. rewrite fset_other by exact NE. intros E.
    pose proof (i_ha _ _ _ _ H u n U E) as E'. rewrite OK; congruence.
  - intros u U. rewrite EP. destruct (Nat.eq_dec u t) as [->|NE]; [rewrite fset_same; exact P2|]. rewrite fset_other by exact NE. now apply (i_pb _ _ _ _ H).
  - intros u U. rewrite EP. destruct (Nat.eq_dec u t) as [->|NE]; [rewrite fset_same; exact P3|]. rewrite fset_other by exact NE.
    apply (pcOK_frame m peers s g s' g' t u H T U); auto.
    + intros a [A|A]; apply HN; congruence.
    + intros a i I A. left. apply HN; congruence.
    + intros a A. destruct (HD a) as [E|(l & n & E & _)]; congruence.
    + intros a i I A. destruct (HD a) as [E|(l & n & E1 & E2 & _)]; [congruence|congruence|now left|right]. split; [congruence|eauto].
    + intros i I. left. now rewrite HL.
Qed.

(** Only the program counter and what concerns references changes. *)
Lemma Inv_pc s g s' t p' : Inv s g -> t < m -> sameMem s s' -> s_pc s' = fset (s_pc s) t p' -> (forall x n q, s_pc s t <> Pu2 x n q) ->
  (forall n, hnd p' = Some n -> gO g n = Hand t) -> pubOK t p' -> pcOK s g t p' -> Inv s' g.
Proof.
  intros H T (E1 & E2 & E3 & E4 & E5 & E6 & E7) EP NP P1 P2 P3. apply (Inv_own s g s' g t p'); rewrite ?E1, ?E2, ?E3, ?E4, ?E5, ?E6, ?E7; auto.
  - congruence.
  - now apply (i_fc _ _ _ _ H).
  - now apply (i_fn _ _ _ _ H).
  - intros a. now apply (i_fo _ _ _ _ H).
  - now apply (i_bc _ _ _ _ H).
  - now apply (i_bn _ _ _ _ H).
  - now apply (i_bo _ _ _ _ H).
  - destruct p'; cbn in *; rewrite ?E1, ?E2, ?E5; exact P3.
Qed.

(** [t] writes the next pointer or the data of the node in its hands. *)
Lemma Inv_hand s g s' t p' n : Inv s g -> t < m -> s_pc s' = fset (s_pc s) t p' -> (forall x n q, s_pc s t <> Pu2 x n q) -> hnd (s_pc s t) = Some n ->
  (forall a, a <> n -> s_next s' a = s_next s a) -> (forall a, a <> n -> s_data s' a = s_data s a) ->
  s_head s' = s_head s -> s_tail s' = s_tail s -> s_free s' = s_free s -> s_top s' = s_top s -> s_brk s' = s_brk s ->
  hnd p' = Some n -> pubOK t p' -> pcOK s' g t p' -> Inv s' g.
Proof.
  intros H T EP NP HN N1 D1 E3 E4 E5 E6 E7 P1 P2 P3. pose proof (i_ha _ _ _ _ H t n T HN) as O.
  assert (forall a, gO g a <> Hand t -> a <> n) as K by (intros a A ->; congruence).
  apply (Inv_own s g s' g t p'); auto.
  - lia.
  - intros u _. now rewrite E5.
  - congruence.
  - rewrite E5. eapply chain_ext; [|now apply (i_fc _ _ _ _ H)]. intros b B. apply N1, K. rewrite (i_fo _ _ _ _ H t b T B). discriminate.
  - now apply (i_fn _ _ _ _ H).
  - intros a. now apply (i_fo _ _ _ _ H).
  - rewrite E6. eapply chain_ext; [|now apply (i_bc _ _ _ _ H)]. intros b B. apply N1, K. rewrite (i_bo _ _ _ _ H b B). discriminate.
  - now apply (i_bn _ _ _ _ H).
  - now apply (i_bo _ _ _ _ H).
  - intros b B. congruence.
Qed.

(** Al2: [t] takes the first node of its free list. *)
Lemma Inv_take s g t b n nx : Inv s g -> t < m -> s_pc s t = Al2 b n nx ->
  exists r, gF g t = n :: r /\ Inv (goto (w_free s t nx) t (Al3 b n)) (Gh (gL g) (fset (gF g) t r) (gB g) (fset (gO g) n (Hand t))).
Proof.
  intros H T E. pose proof (i_pc _ _ _ _ H t T) as C. pose proof (i_pb _ _ _ _ H t T) as B. rewrite E in C, B. cbn in C, B. destruct C as (r & C1 & C2).
  assert (gO g n = Free t) as O by (apply (i_fo _ _ _ _ H t n T); rewrite C1; now left). pose proof (i_fn _ _ _ _ H t T) as N. rewrite C1 in N. inversion_clear N as [|? ? N1 N2].
  exists r. split; [exact C1|].
  apply (Inv_own s g _ _ t (Al3 b n)); cbn; auto; rewrite ?fset_same; auto; try congruence.
  - intros u U. now rewrite fset_other.
  - intros a A. destruct (Nat.eq_dec a n) as [->|NE]; [rewrite fset_same; right; split; [now right|discriminate]|]. left. now rewrite fset_other.
  - intros a A1 A2. destruct (Nat.eq_dec a n) as [->|NE]; [congruence|]. rewrite fset_other in A1 by exact NE. congruence.
  - intros u U. now rewrite fset_other.
  - intros a A. rewrite fset_other by (intros ->; tauto). apply (i_fo _ _ _ _ H t a T). rewrite C1. now right.
  - now apply (i_bc _ _ _ _ H).
  - now apply (i_bn _ _ _ _ H).
  - intros a A. pose proof (i_bo _ _ _ _ H a A). rewrite fset_other by (intros ->; congruence). assumption.
  - intros a A. injection A as <-. now rewrite fset_same.
Qed.

(** Fr1: [t] puts the node in its hands on its free list. *)
Lemma Inv_put s g s' t n x : Inv s g -> t < m -> s_pc s t = Fr1 n x -> sameMem (w_free s t n) s' -> s_pc s' = fset (s_pc s) t Idle ->
  Inv s' (Gh (gL g) (fset (gF g) t (n :: gF g t)) (gB g) (fset (gO g) n (Free t))).
Proof.
  intros H T E (E1 & E2 & E3 & E4 & E5 & E6 & E7) EP. cbn in *. pose proof (i_pc _ _ _ _ H t T) as C. rewrite E in C. cbn in C.
  assert (gO g n = Hand t) as O by (apply (i_ha _ _ _ _ H); [exact T|now rewrite E]).
  apply (Inv_own s g s' _ t Idle); cbn; auto; rewrite ?E1, ?E2, ?E5, ?E6, ?E7, ?fset_same; auto; try congruence; try exact I.
  - intros u U. now rewrite fset_other.
  - intros a A. destruct (Nat.eq_dec a n) as [->|NE]; [rewrite fset_same; right; split; [now left|discriminate]|]. left. now rewrite fset_other.
  - intros a A1 A2. destruct (Nat.eq_dec a n) as [->|NE]; [congruence|]. rewrite fset_other in A1 by exact NE. congruence.
  - intros u U. now rewrite fset_other.
  - cbn. pose proof (i_own _ _ _ _ H n ltac:(congruence)). repeat split; [lia|]. rewrite C. now apply (i_fc _ _ _ _ H).
  - constructor; [|now apply (i_fn _ _ _ _ H)]. intros A. pose proof (i_fo _ _ _ _ H t n T A). congruence.
  - intros a [->|A]; [now rewrite fset_same|]. pose proof (i_fo _ _ _ _ H t a T A). rewrite fset_other by (intros ->; congruence). assumption.
  - now apply (i_bc _ _ _ _ H).
  - now apply (i_bn _ _ _ _ H).
  - intros a A. pose proof (i_bo _ _ _ _ H a A). rewrite fset_other by (intros ->; congruence). assumption.
Qed.

(** Bl2: [t] puts the block in its hands on the stack of blocks. *)
Lemma Inv_block s g t b a top : Inv s g -> t < m -> s_pc s t = Bl2 b a top -> s_top s = top ->
  Inv (goto (w_top s a) t (Al0 b)) (Gh (gL g) (gF g) (a :: gB g) (fset (gO g) a Blk)).
Proof.
  intros H T E ET. pose proof (i_pc _ _ _ _ H t T) as C. pose proof (i_pb _ _ _ _ H t T) as B. rewrite E in C, B. cbn in C, B.
  assert (gO g a = Hand t) as O by (apply (i_ha _ _ _ _ H); [exact T|now rewrite E]).
  apply (Inv_own s g _ _ t (Al0 b)); cbn; auto; try congruence.
  - intros x A. destruct (Nat.eq_dec x a) as [->|NE]; [rewrite fset_same; right; split; [now left|discriminate]|]. left. now rewrite fset_other.
  - intros x A1 A2. destruct (Nat.eq_dec x a) as [->|NE]; [congruence|]. rewrite fset_other in A1 by exact NE. congruence.
  - now apply (i_fc _ _ _ _ H).
  - now apply (i_fn _ _ _ _ H).
  - intros x A. pose proof (i_fo _ _ _ _ H t x T A). rewrite fset_other by (intros ->; congruence). assumption.
  - pose proof (i_own _ _ _ _ H a ltac:(congruence)). repeat split; [lia|]. rewrite C, <- ET. now apply (i_bc _ _ _ _ H).
  - constructor; [|now apply (i_bn _ _ _ _ H)]. intros A. pose proof (i_bo _ _ _ _ H a A). congruence.
  - intros x [->|A]; [now rewrite fset_same|]. pose proof (i_bo _ _ _ _ H x A). rewrite fset_other by (intros ->; congruence). assumption.
Qed.

(** Fr0 for the sentinel: it is given up. *)
Lemma Inv_sent s g s' t n x : Inv s g -> t < m -> s_pc s t = Fr0 n x -> sameMem s s' -> s_pc s' = fset (s_pc s) t Idle ->
  Inv s' (Gh (gL g) (gF g) (gB g) (fset (gO g) n Gone)).
Proof.
  intros H T E (E1 & E2 & E3 & E4 & E5 & E6 & E7) EP. cbn in *.
  assert (gO g n = Hand t) as O by (apply (i_ha _ _ _ _ H); [exact T|now rewrite E]).
  apply (Inv_own s g s' _ t Idle); cbn; auto; rewrite ?E1, ?E2, ?E5, ?E6, ?E7, ?fset_same; auto; try congruence; try exact I.
  - intros a A. destruct (Nat.eq_dec a n) as [->|NE]; [rewrite fset_same; right; split; [now left|discriminate]|]. left. now rewrite fset_other.
  - intros a A1 A2. destruct (Nat.eq_dec a n) as [->|NE]; [congruence|]. rewrite fset_other in A1 by exact NE. congruence.
  - now apply (i_fc _ _ _ _ H).
  - now apply (i_fn _ _ _ _ H).
  - intros a A. pose proof (i_fo _ _ _ _ H t a T A). rewrite fset_other by (intros ->; congruence). assumption.
  - now apply (i_bc _ _ _ _ H).
  - now apply (i_bn _ _ _ _ H).
  - intros a A. pose proof (i_bo _ _ _ _ H a A). rewrite fset_other by (intros ->; congruence). assumption.
Qed.

(** Al0: a new block *)
Lemma chain_seq nx k : forall a, a <> 0 -> (forall x, a <= x -> S x < a + k -> nx x = S x) -> 0 < k -> nx (a + (k - 1)) = 0 -> chain nx a (seq a k).
Proof.
  induction k as [|k IH]; intros a A N K E; [lia|]. cbn. repeat split; [exact A|]. destruct k as [|k].
  - cbn. now replace (a + (1 - 1)) with a in E by lia.
  - rewrite N by lia. apply IH; [lia| |lia|]. { intros x X1 X2. apply N; lia. } replace (S a + (S k - 1)) with (a + (S (S k) - 1)) by lia. exact E.
Qed.
Local Opaque nNodes.
Lemma Inv_new s g t b : Inv s g -> t < m -> s_pc s t = Al0 b -> s_free s t = 0 ->
  Inv (goto (newBlock s t) t (Bl0 b (s_brk s)))
    (Gh (gL g) (fset (gF g) t (seq (S (s_brk s)) (nNodes - 1))) (gB g)
       (fun x => if x =? s_brk s then Hand t else if (s_brk s <? x) && (x <? s_brk s + nNodes) then Free t else gO g x)).
Proof.
  intros H T E EF. pose proof (i_pb _ _ _ _ H t T) as B. rewrite E in B. cbn in B.
  assert (forall a, gO g a <> Nowhere -> a < s_brk s) as LT by (intros a A; pose proof (i_own _ _ _ _ H a A); lia).
  assert (1 < nNodes) as NN by (apply Nat.ltb_lt; reflexivity). assert (forall a, a < s_brk s -> (a =? s_brk s) = false /\ (s_brk s <? a) = false /\ (a =? s_brk s + (nNodes - 1)) = false) as FL.
  { intros a A. repeat split; [apply Nat.eqb_neq|apply Nat.ltb_ge|apply Nat.eqb_neq]; lia. }
  apply (Inv_own s g _ _ t (Bl0 b (s_brk s))); auto; cbn [gL gF gB gO]; try (now rewrite E).
  - cbn. lia.
  - intros u U. cbn. now rewrite fset_other.
  - intros a A. left. destruct (FL a (LT a A)) as (F1 & F2 & F3). now rewrite F1, F2.
  - intros a A1 A2. cbn. destruct (Nat.eqb_spec a (s_brk s)) as [EQ|N1]; [pose proof (i_brk _ _ _ _ H); lia|].
    destruct (Nat.ltb_spec (s_brk s) a), (Nat.ltb_spec a (s_brk s + nNodes)); cbn in A1; try congruence. lia.
  - intros a A _. unfold goto, newBlock; cbn [s_next s_free s_top s_brk s_data hnd]. destruct (FL a (LT a A)) as (F1 & F2 & F3). now rewrite F2, F3.
  - intros u U. now rewrite fset_other.
  - unfold goto, newBlock; cbn [s_next s_free s_top s_brk s_data hnd]. rewrite !fset_same. apply chain_seq; [lia| |lia|].
    + intros x X1 X2. destruct (Nat.ltb_spec (s_brk s) x); [|lia]. destruct (Nat.ltb_spec x (s_brk s + (nNodes - 1))); [reflexivity|lia].
    + replace (S (s_brk s) + (nNodes - 1 - 1)) with (s_brk s + (nNodes - 1)) by lia. rewrite Nat.ltb_irrefl, andb_false_r. now rewrite Nat.eqb_refl.
  - rewrite fset_same. apply seq_NoDup.
  - rewrite fset_same. intros a A. apply in_seq in A. destruct (Nat.eqb_spec a (s_brk s)); [lia|].
    destruct (Nat.ltb_spec (s_brk s) a); [|lia]. destruct (Nat.ltb_spec a (s_brk s + nNodes)); [reflexivity|lia].
  - unfold goto, newBlock; cbn [s_next s_free s_top s_brk s_data hnd]. eapply chain_ext; [|now apply (i_bc _ _ _ _ H)]. intros a A. pose proof (LT a ltac:(rewrite (i_bo _ _ _ _ H a A); discriminate)) as A'.
    destruct (FL a A') as (F1 & F2 & F3). now rewrite F2, F3.
  - now apply (i_bn _ _ _ _ H).
  - intros a A. pose proof (LT a ltac:(rewrite (i_bo _ _ _ _ H a A); discriminate)) as A'.
    destruct (FL a A') as (F1 & F2 & F3). rewrite F1, F2. now apply (i_bo _ _ _ _ H).
  - unfold goto, newBlock; cbn [s_next s_free s_top s_brk s_data hnd]. intros a A. injection A as <-. now rewrite Nat.eqb_refl.
  - exact I.
Qed.
End P.
