(** Proofs: packaging of the results. *)
From Coq Require Import List Bool Arith Lia Permutation.
From Verif Require Import Base ClModel CaModel CaSpec CaProofs CaProofs2 CaProofs3 CaProofs4 CaProofs5 CaProofs6.
Import ListNotations.

Section B.
Variables (G : asg -> Prop) (E : env) (o : opt) (conf : list lit) (f : fl).
Hypothesis C : conflict G E o conf f.

Lemma ca_ok : exists r, analyzeConflict E o conf f = Ok r /\ assertingAt E (r_cc r) (r_level r) /\
  ((o_rep o = 1 \/ o_rep o = 3 -> noFlips E) -> forall a, G a -> sat_clause a (r_cc r) = true) /\
  (forall v, f_seen (r_fl r) v = f_seen f v) /\ (forall l, f_mark (r_fl r) l = f_mark f l) /\
  (o_rep o = 0 -> r_lbd r = lbdOf E (r_cc r)) /\ lbdOf E (r_cc r) <= r_lbd r <= length (r_cc r) /\
  (In (neg (o_tag o)) (tl (r_cc r)) -> r_tagged r = true) /\ (r_tagged r = true -> exists l, In l (tl (r_cc r)) /\ fst l = fst (o_tag o)) /\
  (forall l, In l (r_cc r) -> fst l <= r_max r) /\ (exists l, In l (r_cc r) /\ fst l = r_max r).
Proof.
  destruct C as [TO FO CO RO AO].
  destruct (analyze_spec G E TO f FO o conf CO RO AO) as [p [C' [D [r [_ [A1 [A2 [A3 [A4 [A5 [A6 [A7 [A8 [A9 [A10 [A11 [A12 [A13 [A14 A15]]]]]]]]]]]]]]]]]]].
  exists r. sp; auto; try tauto.
  - intros l. rewrite A8. symmetry. apply (fo_mark _ _ FO).
  - rewrite A2. exact (proj1 A14).
  - rewrite A2. exact (proj2 A14).
  - rewrite A2, A15. intros l Hl. assert (Z : forall D m, m <= maxv D m /\ forall q, In q D -> fst q <= maxv D m).
    { clear. induction D as [|x D IH]; intros m; cbn [maxv fold_left]; [split; [lia|easy]|]. fold (maxv D (Nat.max m (fst x))). destruct (IH (Nat.max m (fst x))) as [I1 I2]. split; [lia|].
      intros q [<-|Hq]; [lia|auto]. }
    destruct (Z D (fst p)) as [Z1 Z2]. destruct Hl as [<-|Hl]; [exact Z1|]. apply in_map_iff in Hl as [q [<- Hq]]. exact (Z2 q Hq).
  - rewrite A2, A15. assert (Z : forall D m, maxv D m = m \/ exists q, In q D /\ fst q = maxv D m).
    { clear. induction D as [|x D IH]; intros m; cbn [maxv fold_left]; [auto|]. fold (maxv D (Nat.max m (fst x))). destruct (IH (Nat.max m (fst x))) as [I|[q [I1 I2]]].
      - rewrite I. destruct (Nat.max_spec m (fst x)) as [[_ Y]|[_ Y]]; rewrite Y; [right; exists x; cbn; auto|auto].
      - right. exists q. cbn; auto. }
    destruct (Z D (fst p)) as [Z1|[q [Z1 Z2]]]; [exists (neg p); cbn; auto|exists (neg q); split; [right; now apply in_map|auto]].
Qed.

Lemma redundant_ext : forall antes A B x, (forall q, In q A <-> In q B) -> redundant E antes A x -> redundant E antes B x.
Proof.
  intros antes A B x H R. induction R as [x r R1 R2 R3 R4 IH]. apply (Redundant _ _ _ x r); auto.
  - intros q Hq N. assert (N' : ~ (top E q \/ In q A)) by (rewrite H; auto). specialize (R3 q Hq N'). apply in_map_iff in R3 as [y [Y1 Y2]]. rewrite <- Y1. apply in_map. now apply H.
  - intros q Hq N. apply IH; auto. rewrite H; auto.
Qed.
Lemma locally_ext : forall antes A B x, (forall q, In q A <-> In q B) -> locally E antes A x -> locally E antes B x.
Proof. intros antes A B x H [r [R1 [R2 R3]]]. exists r. sp; auto. intros q Hq. rewrite <- H. auto. Qed.

Lemma ca_min : o_rep o = 0 -> o_rev o = 0 -> o_antes o < 3 ->
  exists r r0 u cs cs0, analyzeConflict E o conf f = Ok r /\
    analyzeConflict E (Opt 3 (o_rec o) 0 0 (o_compress o) (o_tag o)) conf f = Ok r0 /\ r_cc r = u :: cs /\ r_cc r0 = u :: cs0 /\
    forall l, In l cs <-> In l cs0 /\ ~ (if o_rec o then redundant E (o_antes o) (map neg cs0) (neg l) else locally E (o_antes o) (map neg cs0) (neg l)).
Proof.
  intros H1 H2 H3. destruct C as [TO FO CO RO AO].
  destruct (analyze_spec G E TO f FO o conf CO RO AO) as [p [C' [D [r [_ [A1 [A2 [[rt [f1 A3]] [_ [_ [_ [_ [_ [_ [_ [_ [A13 _]]]]]]]]]]]]]]]]].
  destruct (analyze_spec G E TO f FO (Opt 3 (o_rec o) 0 0 (o_compress o) (o_tag o)) conf CO RO ltac:(cbn; congruence)) as [p0 [C0 [D0 [r0 [_ [B1 [B2 [[rt0 [f10 B3]] [_ [_ [_ [_ [_ [_ [_ [_ [B13 _]]]]]]]]]]]]]]]]].
  rewrite A3 in B3. injection B3 as <- _ _ EC.
  assert (EC' : C' = C0). { rewrite <- (map_neg2 C'), EC. apply map_neg2. } subst C0.
  specialize (A13 H1 H2). specialize (B13 eq_refl eq_refl). unfold rem in B13. cbn [o_antes Nat.eqb] in B13.
  exists r, r0, (neg p), (map neg D), (map neg D0). sp; auto. rewrite map_neg2.
  assert (DC : forall q, In q D0 <-> In q C') by (intros q; rewrite B13; tauto).
  assert (RE : forall x, rem E C' o x <-> (if o_rec o then redundant E (o_antes o) D0 x else locally E (o_antes o) D0 x)).
  { intros x. unfold rem. rewrite (proj2 (Nat.eqb_neq (o_antes o) 3)) by lia. destruct (o_rec o); split; first [apply redundant_ext|apply locally_ext]; intros q; rewrite DC; tauto. }
  intros l. assert (IM : forall L : list lit, In l (map neg L) <-> In (neg l) L).
  { intros L. split; intros H. - apply in_map_iff in H as [q [<- Hq]]. now rewrite neg_neg. - rewrite <- (neg_neg l). now apply in_map. }
  rewrite !IM, A13, DC, RE. tauto.
Qed.

Lemma ca_backjump : forall r, analyzeConflict E o conf f = Ok r -> exists u cs, r_cc r = u :: cs /\
  let left := filter (fun p => Nat.leb (lv E p) (r_level r)) (v_trail E) in
  (forall l, In l cs -> In (neg l) left) /\ ~ In u left /\ ~ In (neg u) left.
Proof.
  intros r R. destruct ca_ok as [r' [R' [A _]]]. rewrite R in R'. injection R' as <-.
  destruct A as [u [cs [A1 [[A2 A3] [A4 [A5 [A6 A7]]]]]]]. exists u, cs. split; auto. cbn. destruct C as [TO _ _ _ _]. sp.
  - intros l Hl. destruct (A6 l Hl) as [i [[B1 B2] B3]]. apply filter_In. split; auto. apply Nat.leb_le. change (lv E (neg l)) with (lv E l). lia.
  - intros Z. apply filter_In in Z as [Z1 Z2]. pose proof (nd_eq G E TO u (neg u) Z1 A2 eq_refl) as Z. exact (neg_neq u (eq_sym Z)).
  - intros Z. apply filter_In in Z as [Z1 Z2]. apply Nat.leb_le in Z2. change (lv E (neg u)) with (lv E u) in Z2. lia.
Qed.
End B.
