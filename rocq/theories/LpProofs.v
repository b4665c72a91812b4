(** Answer sets: dependence on atoms, monotonicity, extension by defined atoms *)
From Coq Require Import List Bool Arith ZArith Lia.
Import ListNotations.
From Verif Require Import Base LpSpec.

Lemma litT_agree k N1 N2 M1 M2 p : agree k N1 N2 -> agree k M1 M2 -> fst p < k -> litT N1 M1 p = litT N2 M2 p.
Proof. intros HN HM H. unfold litT. rewrite HN, HM; auto. Qed.
Lemma sumT_ext N1 M1 N2 M2 : forall ls, (forall x, In x ls -> litT N1 M1 (fst x) = litT N2 M2 (fst x)) -> sumT N1 M1 ls = sumT N2 M2 ls.
Proof.
  induction ls as [|x ls IH]; intros H; [reflexivity|]. cbn [sumT fold_right]. rewrite (H x) by now left.
  unfold sumT in IH. rewrite IH; [reflexivity|]. intros y I. apply H. now right.
Qed.
Lemma forallb_ext (f g : lit -> bool) : forall ls : list lit, (forall x, In x ls -> f x = g x) -> forallb f ls = forallb g ls.
Proof. induction ls as [|x ls IH]; intros H; [reflexivity|]. cbn. rewrite H, IH; auto; [intros y I; apply H; now right|now left]. Qed.
Lemma bodyT_agree k N1 N2 M1 M2 b : agree k N1 N2 -> agree k M1 M2 -> (forall a, In a (batoms b) -> a < k) -> bodyT N1 M1 b = bodyT N2 M2 b.
Proof.
  intros HN HM H. destruct b as [ls|bd ls]; cbn [bodyT batoms] in *.
  - apply forallb_ext. intros x I. apply (litT_agree k); auto. apply H. now apply in_map.
  - rewrite (sumT_ext N1 M1 N2 M2); [reflexivity|]. intros x I. apply (litT_agree k); auto. apply H. now apply (in_map (fun x => fst (fst x))).
Qed.
Lemma ruleT_agree k N1 N2 M1 M2 r : agree k N1 N2 -> agree k M1 M2 -> (forall a, In a (ratoms r) -> a < k) -> ruleT N1 M1 r -> ruleT N2 M2 r.
Proof.
  intros HN HM H T B. unfold ratoms in H. rewrite <- (bodyT_agree k N1 N2 M1 M2) in B; auto; [|intros a I; apply H, in_app_iff; auto].
  specialize (T B). assert (Hh : forall h, In h (r_head r) -> h < k) by (intros h I; apply H, in_app_iff; auto).
  destruct (r_choice r).
  - intros h I K. rewrite <- HN by auto. apply T; auto. rewrite HM; auto.
  - destruct T as (h & I & K). exists h. split; auto. rewrite <- HN; auto.
Qed.
Lemma progT_agree k N1 N2 M1 M2 P : agree k N1 N2 -> agree k M1 M2 -> below k P -> progT N1 M1 P -> progT N2 M2 P.
Proof. intros HN HM H T r I. apply (ruleT_agree k N1 N2 M1 M2); auto. intros a J. apply (H r); auto. Qed.
Lemma progT_app N M P Q : progT N M (P ++ Q) <-> progT N M P /\ progT N M Q.
Proof. unfold progT. split; [intros H; split; intros r I; apply H, in_app_iff; auto|]. intros [A B] r I. apply in_app_iff in I as [I|I]; auto. Qed.
Lemma below_app k P Q : below k (P ++ Q) <-> below k P /\ below k Q.
Proof. unfold below. split; [intros H; split; intros r a I; apply H, in_app_iff; auto|]. intros [A B] r a I. apply in_app_iff in I as [I|I]; eauto. Qed.
Lemma posP_app P Q : posP (P ++ Q) <-> posP P /\ posP Q.
Proof. unfold posP. split; [intros H; split; intros r I; apply H, in_app_iff; auto|]. intros [A B] r I. apply in_app_iff in I as [I|I]; eauto. Qed.
Lemma below_le k k' P : k <= k' -> below k P -> below k' P.
Proof. intros L H r a I J. specialize (H r a I J). lia. Qed.
Lemma agree_le k k' M N : k <= k' -> agree k' M N -> agree k M N.
Proof. intros L H a I. apply H. lia. Qed.
Lemma agree_refl k M : agree k M M. Proof. intros a _. reflexivity. Qed.
Lemma agree_sym k M N : agree k M N -> agree k N M. Proof. intros H a I. symmetry. auto. Qed.
Lemma agree_trans k M N L : agree k M N -> agree k N L -> agree k M L. Proof. intros H K a I. rewrite H, K; auto. Qed.
Lemma sub_refl M : sub M M. Proof. intros a H. exact H. Qed.

Lemma litT_mono N N' M p : sub N N' -> litT N M p = true -> litT N' M p = true.
Proof. unfold litT. destruct (snd p); auto. Qed.
Lemma sumT_mono N N' M : sub N N' -> forall ls, (forall x, In x ls -> (0 <= snd x)%Z) -> (sumT N M ls <= sumT N' M ls)%Z.
Proof.
  intros S. induction ls as [|x ls IH]; intros H; [reflexivity|]. cbn [sumT fold_right]. fold (sumT N M ls). fold (sumT N' M ls).
  assert (IH' : (sumT N M ls <= sumT N' M ls)%Z) by (apply IH; intros y I; apply H; now right). specialize (H x (or_introl eq_refl)).
  destruct (litT N M (fst x)) eqn:E; [rewrite (litT_mono N N'); auto; lia|]. destruct (litT N' M (fst x)); lia.
Qed.
Lemma bodyT_mono N N' M b : sub N N' -> posB b -> bodyT N M b = true -> bodyT N' M b = true.
Proof.
  intros S H. destruct b as [ls|bd ls]; cbn.
  - rewrite !forallb_forall. intros K x I. apply (litT_mono N); auto.
  - rewrite !Z.leb_le. pose proof (sumT_mono N N' M S ls H). lia.
Qed.
(** what was satisfied stays so when the evaluated set agrees on the head atoms and shrinks elsewhere *)
Lemma ruleT_shrink N M r : posB (r_body r) -> sub N M -> (forall h, In h (r_head r) -> M h = true -> N h = true) -> ruleT M M r -> ruleT N M r.
Proof.
  intros Hp S Hh T B. specialize (T (bodyT_mono N M M _ S Hp B)). destruct (r_choice r).
  - intros h I K. auto.
  - destruct T as (h & I & K). exists h. split; auto.
Qed.

Lemma stable_unused k P M : below k P -> stable P M -> forall a, k <= a -> M a = false.
Proof.
  intros B [T Mn] a L. set (N := fun a => if a <? k then M a else false).
  assert (S : sub N M) by (intros x; unfold N; destruct (x <? k); congruence).
  assert (Ag : agree k M N) by (intros x Lx; unfold N; apply Nat.ltb_lt in Lx; now rewrite Lx).
  rewrite <- (Mn N S); [unfold N; apply Nat.ltb_ge in L; now rewrite L|]. apply (progT_agree k M N M M); auto. apply agree_refl.
Qed.
Lemma stable_ext P M M' : (forall a, M a = M' a) -> stable P M -> stable P M'.
Proof.
  intros E [T Mn].
  assert (X : forall N N' r, (forall a, N a = N' a) -> ruleT N M r -> ruleT N' M' r).
  { intros N N' r EN Tr. apply (ruleT_agree (S (list_max (ratoms r))) N N' M M'); [intros a _; auto|intros a _; auto| |exact Tr].
    intros a I. assert (H : Forall (fun k => k <= list_max (ratoms r)) (ratoms r)) by (apply list_max_le; lia). rewrite Forall_forall in H. specialize (H a I). lia. }
  assert (X' : forall N N' r, (forall a, N a = N' a) -> ruleT N M' r -> ruleT N' M r).
  { intros N N' r EN Tr. apply (ruleT_agree (S (list_max (ratoms r))) N N' M' M); [intros a _; auto|intros a _; auto| |exact Tr].
    intros a I. assert (H : Forall (fun k => k <= list_max (ratoms r)) (ratoms r)) by (apply list_max_le; lia). rewrite Forall_forall in H. specialize (H a I). lia. }
  split; [intros r I; apply (X M); auto|]. intros N S TN a. rewrite <- E. apply Mn.
  - intros b Hb. rewrite E. auto.
  - intros r I. apply (X' N); auto.
Qed.

(** ** programs with the same rule truth *)
Lemma sameAS_equiv k P Q : below k P -> below k Q -> (forall N M, sub N M -> progT N M P <-> progT N M Q) -> sameAS k P Q.
Proof.
  intros BP BQ E. assert (X : forall M, stable P M <-> stable Q M).
  { intros M. split; intros [T Mn]; (split; [apply E; auto using sub_refl|intros N S TN; apply Mn; auto; apply E; auto]). }
  split; [intros M H; exists M; split; [now apply X|apply agree_refl]|]. split; [intros M H; exists M; split; [now apply X|apply agree_refl]|].
  intros M1 M2 H1 H2 A a. destruct (Nat.lt_ge_cases a k); [auto|]. rewrite (stable_unused k Q M1), (stable_unused k Q M2); auto.
Qed.
Lemma sameAS_trans k k' P Q R : k <= k' -> sameAS k P Q -> sameAS k' Q R -> sameAS k P R.
Proof.
  intros L (A1 & A2 & A3) (B1 & B2 & B3). split; [|split].
  - intros M H. destruct (A1 M H) as (M1 & H1 & G1). destruct (B1 M1 H1) as (M2 & H2 & G2). exists M2. split; [auto|].
    apply (agree_trans _ _ M1); auto. now apply (agree_le k k').
  - intros M H. destruct (B2 M H) as (M1 & H1 & G1). destruct (A2 M1 H1) as (M2 & H2 & G2). exists M2. split; [auto|].
    apply (agree_trans _ _ M1); auto. now apply (agree_le k k').
  - intros M1 M2 H1 H2 G. destruct (B2 M1 H1) as (N1 & K1 & G1). destruct (B2 M2 H2) as (N2 & K2 & G2).
    assert (X : forall a, N1 a = N2 a).
    { apply A3; auto. apply (agree_trans _ _ M1); [now apply (agree_le k k')|]. apply (agree_trans _ _ M2); auto. apply agree_sym. now apply (agree_le k k'). }
    apply B3; auto. apply (agree_trans _ _ N1); [now apply agree_sym|]. intros a I. rewrite X. now apply G2.
Qed.

(** ** extension by defined atoms *)
Section Gen.
Context (k : nat) (P R T : prog) (E : asg -> asg -> asg).
Definition up (N M : asg) : asg := fun a => if a <? k then N a else E N M a.
Context (BP : below k P) (BR : below k R).
Context (Edep : forall N1 N2 M1 M2, agree k N1 N2 -> agree k M1 M2 -> forall a, k <= a -> E N1 M1 a = E N2 M2 a).
Context (Emono : forall N M, sub N M -> forall a, k <= a -> E N M a = true -> E M M a = true).
Context (A : forall N M, sub N M -> progT N M R -> progT (up N M) (up M M) T).
Context (A' : forall M, progT M M T -> sub (up M M) M -> progT (up M M) M T).
Context (B : forall N M, sub N M -> progT N M T -> (forall a, k <= a -> M a = E M M a) -> progT N M R).
Context (B' : forall N M, sub N M -> progT N M T -> forall a, k <= a -> E N M a = true -> N a = true).
Lemma up_agree N M : agree k N (up N M).
Proof. intros a L. unfold up. apply Nat.ltb_lt in L. now rewrite L. Qed.
Lemma up_hi N M a : k <= a -> up N M a = E N M a.
Proof. intros L. unfold up. apply Nat.ltb_ge in L. now rewrite L. Qed.
Lemma extension : sameAS k (P ++ R) (P ++ T).
Proof.
  assert (BPR : below k (P ++ R)) by (apply below_app; auto).
  assert (First : forall M, stable (P ++ R) M -> stable (P ++ T) (up M M)).
  { intros M [HT Mn]. apply progT_app in HT as [HP HR]. split.
    - apply progT_app. split; [|apply A; auto using sub_refl]. apply (progT_agree k M _ M _); auto using up_agree.
    - intros N' S' TN'. apply progT_app in TN' as [NP NT].
      assert (Ag : agree k (up M M) M) by (apply agree_sym, up_agree).
      set (N := fun a => if a <? k then N' a else false).
      assert (AgN : agree k N' N) by (intros x Lx; unfold N; apply Nat.ltb_lt in Lx; now rewrite Lx).
      assert (SN : sub N M). { intros x. unfold N. destruct (x <? k) eqn:Lx; [|discriminate]. intros Hx. apply S' in Hx. unfold up in Hx. now rewrite Lx in Hx. }
      assert (Ex : forall a, k <= a -> up M M a = E (up M M) (up M M) a). { intros a La. rewrite up_hi by auto. apply Edep; auto using up_agree. }
      assert (NR : progT N' (up M M) R) by (apply B; auto).
      assert (TN : progT N M (P ++ R)) by (apply progT_app; split; apply (progT_agree k N' N (up M M) M); auto).
      pose proof (Mn N SN TN) as Eq. intros a. destruct (Nat.lt_ge_cases a k) as [La|La].
      + rewrite AgN by auto. rewrite Eq. now apply up_agree.
      + destruct (N' a) eqn:Ea; [symmetry; auto|]. destruct (up M M a) eqn:Eu; [|auto]. rewrite up_hi in Eu by auto.
        assert (X : E N' (up M M) a = true). { rewrite (Edep N' M (up M M) M); auto. intros x Lx. rewrite AgN by auto. now rewrite Eq. }
        apply B' in X; auto. congruence. }
  assert (Second : forall M', stable (P ++ T) M' -> (forall a, k <= a -> M' a = E M' M' a)).
  { intros M' [HT Mn] a La. apply progT_app in HT as [HP HT].
    assert (Sx : sub (up M' M') M'). { intros x. unfold up. destruct (x <? k) eqn:Lx; [auto|]. apply Nat.ltb_ge in Lx. apply B'; auto using sub_refl. }
    rewrite <- (up_hi M' M') by auto. symmetry. apply Mn; [auto|]. apply progT_app. split.
    - apply (progT_agree k M' _ M' M'); auto using up_agree, agree_refl.
    - apply A'; auto. }
  split; [|split].
  - intros M H. exists (up M M). split; [auto|apply up_agree].
  - intros M' H. pose proof (Second M' H) as Ex. destruct H as [HT Mn]. apply progT_app in HT as [HP HT].
    set (M := fun a => if a <? k then M' a else false).
    assert (Ag : agree k M' M) by (intros x Lx; unfold M; apply Nat.ltb_lt in Lx; now rewrite Lx).
    exists M. split; [|now apply agree_sym]. split.
    + apply progT_app. split; apply (progT_agree k M' M M' M); auto. apply B; auto using sub_refl.
    + intros N Sn TN. apply progT_app in TN as [NP NR].
      assert (EqM : forall a, M' a = up M M a).
      { intros a. unfold up. destruct (a <? k) eqn:La; [apply Nat.ltb_lt in La; auto|]. apply Nat.ltb_ge in La. rewrite Ex by auto. apply Edep; auto. }
      assert (SM : sub (up N M) M').
      { intros a. rewrite EqM. unfold up. destruct (a <? k) eqn:La; [auto|]. apply Nat.ltb_ge in La. intros Ha. now apply (Emono N). }
      assert (Ag2 : agree k M' (up M M)) by (intros a _; apply EqM).
      assert (X : forall a, up N M a = M' a).
      { apply Mn; [auto|]. apply progT_app. split.
        - apply (progT_agree k N (up N M) M M'); auto using up_agree, agree_sym.
        - assert (XX : forall r, In r T -> ruleT (up N M) M' r); [|exact XX]. intros r I. pose proof (A N M Sn NR r I) as Tr.
          apply (ruleT_agree (S (list_max (ratoms r))) (up N M) (up N M) (up M M) M'); [apply agree_refl|intros a _; now rewrite EqM| |exact Tr].
          intros a J. assert (H : Forall (fun j => j <= list_max (ratoms r)) (ratoms r)) by (apply list_max_le; lia). rewrite Forall_forall in H. specialize (H a J). lia. }
      intros a. destruct (Nat.lt_ge_cases a k) as [La|La].
      * rewrite (up_agree N M) by auto. rewrite X. auto.
      * destruct (N a) eqn:Ea; [|unfold M; apply Nat.ltb_ge in La; now rewrite La]. apply Sn in Ea. auto.
  - intros M1 M2 H1 H2 Ag a. destruct (Nat.lt_ge_cases a k) as [La|La]; [auto|]. rewrite (Second M1), (Second M2); auto.
Qed.
End Gen.
