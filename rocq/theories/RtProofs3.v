(** Rule transformation: splitting a sum with auxiliary atoms *)
From Coq Require Import List Bool Arith ZArith Lia Permutation.
Import ListNotations.
From Verif Require Import Base LpSpec LpProofs RtModel RtProofs RtProofs2.

(** ** meaning of a table of items *)
Section Table.
Context (agg : list (lit * Z)).
Definition val (V M : asg) (i : nat) : Z := sumT V M (skipn i agg).
Definition exactAt (D : list item) (V M : asg) (i : nat) : Prop := forall i' b' a, In (i', b', a) D -> i' = i -> V a = (b' <=? val V M i')%Z.
Definition itemOk (D : list item) (i : nat) (b : Z) (L : list (list lit)) : Prop :=
  forall V M, exactAt D V M (S i) -> existsb (forallb (litT V M)) L = (b <=? val V M i)%Z.
Lemma itemOk_incl D D' i b L : incl D D' -> itemOk D i b L -> itemOk D' i b L.
Proof. intros H K V M X. apply K. intros i' b' a J. apply X. auto. Qed.
Lemma nat_of (b : Z) : (0 < b)%Z -> Z.of_nat (S (Z.to_nat (b - 1))) = b.
Proof. lia. Qed.

Definition trules (T : list (item * list (list lit))) : prog := flat_map (fun e => rulesOf (snd (fst e)) (snd e)) T.

Section Sem.
Context (k h : nat) (bound : Z) (Lr : list (list lit)) (T : list (item * list (list lit))).
Definition tab := map fst T.
Context (Hagg : forall x, In x agg -> fst (fst x) < k) (Hw : forall x, In x agg -> (0 <= snd x)%Z).
Context (Hh : h < k).
Context (Hroot : itemOk tab 0 bound Lr).
Context (Hitems : forall i b a L, In ((i, b, a), L) T -> k <= a /\ i < length agg /\ itemOk tab i b L).
Context (Hfun : forall i b i' b' a, In (i, b, a) tab -> In (i', b', a) tab -> i = i' /\ b = b').
Context (Kz : k <> 0).
Definition tE (N M : asg) : asg := fun a => existsb (fun it => match it with (i, b, a') => (a =? a') && (b <=? val N M i)%Z end) tab.
Lemma val_agree N1 N2 M1 M2 i : agree k N1 N2 -> agree k M1 M2 -> val N1 M1 i = val N2 M2 i.
Proof.
  intros A B. unfold val. apply sumT_ext. intros x J. apply (litT_agree k); auto. apply Hagg.
  rewrite <- (firstn_skipn i agg). apply in_app_iff. auto.
Qed.
Lemma in_skipn x i : In x (skipn i agg) -> In x agg.
Proof. intros J. rewrite <- (firstn_skipn i agg). apply in_app_iff. auto. Qed.
Lemma val_mono N M i : sub N M -> (val N M i <= val M M i)%Z.
Proof. intros H. apply sumT_mono; auto. intros x J. apply Hw. now apply (in_skipn x i). Qed.
Lemma tE_at N M i b a : In (i, b, a) tab -> tE N M a = (b <=? val N M i)%Z.
Proof.
  intros J. unfold tE. destruct (b <=? val N M i)%Z eqn:E.
  - apply existsb_exists. exists (i, b, a). split; [auto|]. now rewrite Nat.eqb_refl.
  - match goal with |- ?g = false => destruct g eqn:X end; [|auto]. apply existsb_exists in X as (((i', b'), a') & J' & X). apply andb_true_iff in X as [X1 X2]. apply Nat.eqb_eq in X1. subst a'.
    destruct (Hfun _ _ _ _ _ J J') as [<- <-]. congruence.
Qed.
Lemma tab_in i b a : In (i, b, a) tab -> exists L, In ((i, b, a), L) T.
Proof. intros J. apply in_map_iff in J as ((it & L) & E & J). cbn in E. subst it. eauto. Qed.
Lemma tab_k i b a : In (i, b, a) tab -> k <= a.
Proof. intros J. apply tab_in in J as (L & J). now apply Hitems in J. Qed.
Lemma tE_dep N1 N2 M1 M2 : agree k N1 N2 -> agree k M1 M2 -> forall a, tE N1 M1 a = tE N2 M2 a.
Proof.
  intros A B a. pose proof (fun i => val_agree N1 N2 M1 M2 i A B) as V. unfold tE. generalize tab. intros t. induction t as [|[[i b] x] l IH]; [auto|]. cbn [existsb]. rewrite IH, V. auto.
Qed.
(** below [k] as [N], above exact *)
Lemma up_exact N M M' i : agree k M M' -> exactAt tab (up k tE N M) M' i.
Proof.
  intros A i' b' a J _. rewrite up_hi by (eapply tab_k; eauto). rewrite (tE_at N M i' b' a J). f_equal. apply val_agree; [apply up_agree|auto].
Qed.
Lemma trules_in r : In r (trules T) <-> exists i b a L ls, In ((i, b, a), L) T /\ In ls L /\ r = Rule false (hd1 a) (Norm ls).
Proof.
  unfold trules. rewrite in_flat_map. split.
  - intros ((((i & b) & a) & L) & J & K). cbn in K. apply in_map_iff in K as (ls & <- & K). exists i, b, a, L, ls. auto.
  - intros (i & b & a & L & ls & J & K & ->). exists ((i, b, a), L). split; [auto|]. cbn. now apply (in_map (fun ls => Rule false (hd1 a) (Norm ls))).
Qed.
Lemma body_mono V N M L : (forall a, V a = true -> N a = true) -> existsb (forallb (litT V M)) L = true -> existsb (forallb (litT N M)) L = true.
Proof.
  intros H X. apply existsb_exists in X as (ls & J & X). apply existsb_exists. exists ls. split; [auto|]. rewrite forallb_forall in *. intros p K. specialize (X p K).
  unfold litT in *. destruct (snd p); auto.
Qed.
Lemma fires N M i b a L : progT N M (trules T) -> In ((i, b, a), L) T -> existsb (forallb (litT N M)) L = true -> N a = true.
Proof.
  intros H J X. apply existsb_exists in X as (ls & K & X). destruct (H (Rule false (hd1 a) (Norm ls))) as (y & Y1 & Y2); [|exact X|].
  - apply trules_in. exists i, b, a, L, ls. auto.
  - apply Hitems in J as (La & _). cbn in Y1. unfold hd1 in Y1. destruct (a =? 0) eqn:E; [apply Nat.eqb_eq in E; lia|]. destruct Y1 as [<-|[]]. auto.
Qed.
Lemma lower N M : progT N M (trules T) -> forall n i b a, length agg - i <= n -> In (i, b, a) tab -> (b <= val N M i)%Z -> N a = true.
Proof.
  intros H. induction n as [|n IH]; intros i b a Ln J Lb.
  - apply tab_in in J as (L & J). apply Hitems in J as (_ & Li & _). lia.
  - pose proof J as J0. apply tab_in in J0 as (L & J0). apply (fires N M i b a L H J0).
    set (V := fun x => if x <? k then N x else existsb (fun it => match it with (i', b', a') => (x =? a') && (i' =? S i) && (b' <=? val N M i')%Z end) tab).
    assert (Ag : agree k V N) by (intros x Lx; unfold V; apply Nat.ltb_lt in Lx; now rewrite Lx).
    apply (body_mono V).
    + intros x. unfold V. destruct (x <? k); [auto|]. intros X. apply existsb_exists in X as (((i', b'), a') & J' & X). rewrite !andb_true_iff in X. destruct X as [[X1 X2] X3].
      apply Nat.eqb_eq in X1, X2. subst a' i'. apply Z.leb_le in X3. apply (IH (S i) b'); auto. lia.
    + apply Hitems in J0 as (_ & _ & Ok0). rewrite (Ok0 V M).
      * apply Z.leb_le. rewrite (val_agree V N M M); auto using agree_refl.
      * intros i' b' a' J' ->. pose proof (tab_k _ _ _ J') as La. unfold V. apply Nat.ltb_ge in La. rewrite La. fold V.
        rewrite (val_agree V N M M (S i)) by (auto using agree_refl). destruct (b' <=? val N M (S i))%Z eqn:Eb.
        -- apply existsb_exists. exists (S i, b', a'). split; [auto|]. now rewrite !Nat.eqb_refl, Eb.
        -- match goal with |- ?g = false => destruct g eqn:X end; [|auto]. apply existsb_exists in X as (((i2, b2), a2) & J2 & X). rewrite !andb_true_iff in X. destruct X as [[X1 X2] X3].
           apply Nat.eqb_eq in X1. subst a2. destruct (Hfun _ _ _ _ _ J' J2) as [<- <-]. congruence.
Qed.
Lemma rootFires N M : sub N M -> progT N M (trules T) -> progT N M (rulesOf h Lr) -> progT N M [Rule false (hd1 h) (Agg bound agg)].
Proof.
  intros Hs H1 H2. apply single_progT. intros Bd. cbn [r_body bodyT] in Bd. apply Z.leb_le in Bd.
  assert (X : existsb (forallb (litT N M)) Lr = true).
  { apply (body_mono (up k tE N M)).
    - intros x. unfold up. destruct (x <? k); [auto|]. intros X. unfold tE in X. apply existsb_exists in X as (((i', b'), a') & J' & X). apply andb_true_iff in X as [X1 X2].
      apply Nat.eqb_eq in X1. subst a'. apply Z.leb_le in X2. eapply (lower N M H1 (length agg)); eauto. lia.
    - rewrite (Hroot (up k tE N M) M) by (apply up_exact, agree_refl). apply Z.leb_le. rewrite (val_agree _ N M M); auto using agree_sym, up_agree, agree_refl. }
  apply existsb_exists in X as (ls & J & X). apply (H2 (Rule false (hd1 h) (Norm ls))); [|exact X]. now apply (in_map (fun ls => Rule false (hd1 h) (Norm ls))).
Qed.
Lemma table_ok : replaces k [Rule false (hd1 h) (Agg bound agg)] (rulesOf h Lr ++ trules T).
Proof.
  intros P BP. apply (extension k P _ _ tE); auto.
  - apply single_below. intros a J. apply in_app_iff in J as [J|J]; cbn in J.
    + unfold hd1 in J. destruct (h =? 0); [destruct J|]. destruct J as [<-|[]]. auto.
    + apply in_map_iff in J as (x & <- & J). auto.
  - intros N1 N2 M1 M2 A B a _. now apply tE_dep.
  - intros N M Hs a _ X. unfold tE in *. apply existsb_exists in X as (((i, b), a') & J & X). apply existsb_exists. exists (i, b, a'). split; [auto|].
    apply andb_true_iff in X as [X1 X2]. rewrite X1. cbn. apply Z.leb_le in X2. apply Z.leb_le. pose proof (val_mono N M i Hs). lia.
  - intros N M Hs H. apply progT_app. split.
    + intros r J. apply in_map_iff in J as (ls & <- & J). intros Bd. cbn [r_body bodyT] in Bd.
      assert (X : existsb (forallb (litT (up k tE N M) (up k tE M M))) Lr = true) by (apply existsb_exists; eauto).
      rewrite (Hroot _ _ (up_exact N M (up k tE M M) 1 (up_agree k tE M M))) in X.
      rewrite (val_agree _ N _ M) in X by (apply agree_sym, up_agree). apply single_progT in H. destruct (H X) as (y & Y1 & Y2). exists y. split; [auto|].
      rewrite <- (up_agree k tE N M); auto. cbn in Y1. unfold hd1 in Y1. destruct (h =? 0); [destruct Y1|]. destruct Y1 as [<-|[]]. auto.
    + intros r J. apply trules_in in J as (i & b & a & L & ls & J & K & ->). intros Bd. cbn [r_body bodyT] in Bd. destruct (Hitems _ _ _ _ J) as (La & _ & Ok0).
      assert (X : existsb (forallb (litT (up k tE N M) (up k tE M M))) L = true) by (apply existsb_exists; eauto).
      rewrite (Ok0 _ _ (up_exact N M (up k tE M M) (S i) (up_agree k tE M M))) in X. rewrite (val_agree _ N _ M) in X by (apply agree_sym, up_agree).
      exists a. split; [cbn; rewrite hd1_pos by lia; now left|]. rewrite up_hi by auto. rewrite (tE_at N M i b a); auto. now apply (in_map fst) in J.
  - intros M H Sb. apply progT_app in H as [H1 H2]. apply progT_app. split.
    + intros r J. pose proof (H1 r J) as Hr. apply in_map_iff in J as (ls & <- & J). apply ruleT_shrink; auto; [exact I|]. intros y Y1 Y2. cbn in Y1.
      rewrite <- (up_agree k tE M M); auto. unfold hd1 in Y1. destruct (h =? 0); [destruct Y1|]. destruct Y1 as [<-|[]]. auto.
    + intros r J. apply trules_in in J as (i & b & a & L & ls & J & K & ->). intros Bd. cbn [r_body bodyT] in Bd. destruct (Hitems _ _ _ _ J) as (La & _ & Ok0).
      assert (X : existsb (forallb (litT (up k tE M M) M)) L = true) by (apply existsb_exists; eauto).
      rewrite (Ok0 _ _ (up_exact M M M (S i) (agree_refl _ _))) in X. rewrite (val_agree _ M M M) in X by (auto using agree_sym, up_agree, agree_refl).
      exists a. split; [cbn; rewrite hd1_pos by lia; now left|]. rewrite up_hi by auto. rewrite (tE_at M M i b a); auto. now apply (in_map fst) in J.
  - intros N M Hs H _. apply progT_app in H as [H1 H2]. now apply rootFires.
  - intros N M Hs H a La X. apply progT_app in H as [H1 H2]. unfold tE in X. apply existsb_exists in X as (((i', b'), a') & J' & X). apply andb_true_iff in X as [X1 X2].
    apply Nat.eqb_eq in X1. subst a'. apply Z.leb_le in X2. eapply (lower N M H2 (length agg)); eauto. lia.
Qed.
End Sem.
End Table.
