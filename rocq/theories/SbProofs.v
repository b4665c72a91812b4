(** Proofs about SatBuilder. *)
From Coq Require Import List Bool Arith ZArith Lia.
From Verif Require Import Base WcModel WcSpec WcProofs WcThms SbModel SbSpec.
Import ListNotations.
Ltac sp := repeat match goal with |- _ /\ _ => split end.

Lemma upd_eq : forall f k x i, upd f k x i = if Nat.eqb i k then x else f i. Proof. reflexivity. Qed.
Lemma bits_cases : forall l, bits l = 1 \/ bits l = 2. Proof. intros [v []]; cbn; auto. Qed.
Lemma bits_neg : forall l, bits (neg l) = 3 - bits l. Proof. intros [v []]; reflexivity. Qed.
Lemma bits_inj : forall l k, fst l = fst k -> bits l = bits k -> l = k.
Proof. intros [v []] [w []]; cbn; intros; subst; auto; discriminate. Qed.
Lemma holds_neg' : forall a l, holds a (neg l) = negb (holds a l). Proof. intros a [v s]. unfold holds, neg. cbn. destruct (a v), s; reflexivity. Qed.
Lemma neg_neg' : forall l, neg (neg l) = l. Proof. intros [v []]; reflexivity. Qed.

(** Marks: the literals that are false under [a] *)
Definition marksOk (st : nat -> nat) (a : asg) : Prop := forall l, (st (fst l) = bits l \/ st (fst l) = 3) -> holds a l = false.
Definition small (st : nat -> nat) : Prop := forall v, st v <= 3.
Lemma lor_small : forall x y, x <= 3 -> y <= 3 -> Nat.lor x y <= 3.
Proof. intros x y X Y. assert (C : forall z, z <= 3 -> z = 0 \/ z = 1 \/ z = 2 \/ z = 3) by (intros; lia). destruct (C x X) as [-> |[-> |[-> | ->]]], (C y Y) as [-> |[-> |[-> | ->]]]; cbn; lia. Qed.
Lemma lor_has : forall x m k, x <= 3 -> (m = 1 \/ m = 2) -> (k = 1 \/ k = 2) -> (Nat.lor x m = k \/ Nat.lor x m = 3) -> k = m \/ x = k \/ x = 3.
Proof. intros x m k X M K. assert (C : x = 0 \/ x = 1 \/ x = 2 \/ x = 3) by lia. destruct C as [-> |[-> |[-> | ->]]], M as [-> | ->], K as [-> | ->]; cbn; intros [E|E]; auto; try discriminate. Qed.
Lemma lor_nz : forall x m, (m = 1 \/ m = 2) -> Nat.lor x m <> 0.
Proof. intros x m M E. apply Nat.lor_eq_0_iff in E as [_ E]. destruct M; lia. Qed.
Lemma markLit_small : forall st l, small st -> small (markLit st l).
Proof. intros st l S v. unfold markLit. rewrite upd_eq. destruct (Nat.eqb_spec v (fst l)) as [-> |]; auto. apply lor_small; auto. destruct (bits_cases l); lia. Qed.
Lemma markLit_ok : forall st l a, small st -> marksOk st a -> holds a l = false -> marksOk (markLit st l) a.
Proof.
  intros st l a S M F k H. unfold markLit in H. rewrite upd_eq in H. destruct (Nat.eqb_spec (fst k) (fst l)) as [E|E]; [|now apply M].
  destruct (lor_has _ _ _ (S (fst l)) (bits_cases l) (bits_cases k) H) as [B|B]; [rewrite (bits_inj k l); auto|]. apply M. rewrite E. auto.
Qed.
Lemma mark_fold : forall ls st a, small st -> marksOk st a -> (forall l, In l ls -> holds a l = true) -> marksOk (fold_left (fun st p => markLit st (neg p)) ls st) a.
Proof.
  induction ls as [|l ls IH]; intros st a S M H; cbn; auto. apply IH; [now apply markLit_small|apply markLit_ok; auto; rewrite holds_neg', H; auto; now left|intros; apply H; now right].
Qed.
Lemma mark_fold_small : forall ls (f : lit -> lit) st, small st -> small (fold_left (fun st p => markLit st (f p)) ls st).
Proof. induction ls as [|l ls IH]; intros f st S; cbn; auto. apply IH. now apply markLit_small. Qed.
Lemma mark_mono : forall l st v, st v <> 0 -> markLit st l v <> 0.
Proof. intros l st v N. unfold markLit. rewrite upd_eq. destruct (Nat.eqb_spec v (fst l)); auto. apply lor_nz, bits_cases. Qed.
Lemma fold_mono : forall A (g : A -> lit) ls st v, st v <> 0 -> fold_left (fun o e => markLit o (g e)) ls st v <> 0.
Proof. intros A g. induction ls as [|e ls IH]; intros st v N; cbn; auto. apply IH. now apply mark_mono. Qed.
Lemma fold_hit : forall A (g : A -> lit) ls st e, In e ls -> fold_left (fun o e => markLit o (g e)) ls st (fst (g e)) <> 0.
Proof. intros A g. induction ls as [|x ls IH]; intros st e I; [destruct I|]. destruct I as [-> |I]; cbn; auto. apply fold_mono. unfold markLit. rewrite upd_eq, Nat.eqb_refl. apply lor_nz, bits_cases. Qed.

Lemma NoDup_snoc : forall (l : list nat) x, NoDup l -> ~ In x l -> NoDup (l ++ [x]).
Proof. induction l as [|y l IH]; intros x N I; cbn; [constructor; [intros []|constructor]|]. inversion N; subst. constructor; [|apply IH; auto; intros Q; apply I; now right]. rewrite in_app_iff. intros [Q|[Q|[]]]; auto. apply I. now left. Qed.
(** satisfied() *)
(** the marks are those of the start plus those of the kept literals *)
Definition kinv (st0 st : nat -> nat) (kept : list lit) : Prop :=
  NoDup (map fst kept) /\ (forall l, In l kept -> st0 (fst l) = 0 /\ st (fst l) = bits l) /\ (forall v, ~ In v (map fst kept) -> st v = st0 v).
Lemma kinv_case : forall st0 st kept v, kinv st0 st kept -> (exists l, In l kept /\ fst l = v /\ st v = bits l) \/ st v = st0 v.
Proof.
  intros st0 st kept v [K1 [K2 K3]]. destruct (in_dec Nat.eq_dec v (map fst kept)) as [I|I]; [left|right; auto].
  apply in_map_iff in I as [l [<- L]]. exists l. sp; auto. apply K2; auto.
Qed.
Lemma satLoop_ok : forall c st0 st kept s cc st', small st0 -> kinv st0 st kept -> satLoop st kept c = (s, cc, st') ->
  kinv st0 st' cc /\ incl cc (kept ++ c) /\ (forall a, marksOk st0 a -> s = true -> sat_clause a (kept ++ c) = true) /\
  (forall a, marksOk st0 a -> s = false -> sat_clause a cc = sat_clause a (kept ++ c)).
Proof.
  induction c as [|x c IH]; intros st0 st kept s cc st' SM K E; cbn [satLoop] in E.
  - injection E as <- <- <-. rewrite app_nil_r. sp; auto using incl_refl; discriminate.
  - destruct (bits_cases x) as [B|B].
    + destruct (Nat.eqb_spec (st (fst x) + bits x) (bits x)) as [E1|E1].
      * assert (Z0 : st (fst x) = 0) by lia. rewrite Z0, Nat.lor_0_l in E.
        assert (NI : ~ In (fst x) (map fst kept)). { intros I. apply in_map_iff in I as [l [L1 L2]]. destruct K as [_ [K2 _]]. destruct (K2 l L2) as [_ K3]. rewrite L1 in K3. destruct (bits_cases l); lia. }
        apply (IH st0) in E; auto.
        -- rewrite <- !app_assoc in E. cbn [app] in E. exact E.
        -- destruct K as [K1 [K2 K3]]. unfold kinv; sp.
           ++ rewrite map_app. apply NoDup_snoc; auto.
           ++ intros l L. apply in_app_iff in L as [L|[<- |[]]].
              ** destruct (K2 l L). rewrite upd_eq. destruct (Nat.eqb_spec (fst l) (fst x)) as [Q|Q]; auto. exfalso. apply NI. rewrite <- Q. now apply in_map.
              ** rewrite upd_eq, Nat.eqb_refl. split; [rewrite <- K3; auto|reflexivity].
           ++ intros v V. rewrite map_app, in_app_iff in V. rewrite upd_eq. destruct (Nat.eqb_spec v (fst x)) as [-> |Q]; [exfalso; apply V; right; now left|]. apply K3. tauto.
      * destruct (Nat.eqb_spec (st (fst x) + bits x) 3) as [E2|E2].
        -- injection E as <- <- <-. sp; auto; try discriminate; [intros l L; apply in_app_iff; auto|].
           intros a M _. unfold sat_clause. rewrite existsb_app. cbn [existsb]. destruct (kinv_case _ _ _ (fst x) K) as [[l [L1 [L2 L3]]]|L].
           ++ assert (l = neg x) by (apply bits_inj; [exact L2|rewrite bits_neg; lia]). subst l. destruct (holds a x) eqn:H; [apply orb_true_r|]. rewrite orb_true_iff. left. apply existsb_exists. exists (neg x). split; auto. now rewrite holds_neg', H.
           ++ assert (F : holds a (neg x) = false). { apply M. cbn. left. rewrite bits_neg. lia. } rewrite holds_neg' in F. destruct (holds a x); [apply orb_true_r|discriminate].
        -- apply (IH st0) in E; auto. destruct E as [A1 [A2 [A3 A4]]]. sp; auto; [intros l L; apply A2 in L; rewrite in_app_iff in *; cbn; tauto| |].
           ++ intros a M Q. specialize (A3 a M Q). unfold sat_clause in *. rewrite existsb_app in *. cbn. apply orb_true_iff in A3 as [A3|A3]; rewrite A3; rewrite ?orb_true_r; auto.
           ++ intros a M Q. rewrite (A4 a M Q). unfold sat_clause. rewrite !existsb_app. cbn. destruct (kinv_case _ _ _ (fst x) K) as [[l [L1 [L2 L3]]]|L].
              ** assert (LL : l = x). { apply bits_inj; auto. destruct (bits_cases l); lia. } subst l. destruct (holds a x) eqn:H; auto. cbn [orb]. assert (X : existsb (holds a) kept = true) by (apply existsb_exists; eauto). now rewrite X.
              ** rewrite (M x); auto. specialize (SM (fst x)). rewrite <- L. rewrite <- L in SM. lia.
    + destruct (Nat.eqb_spec (st (fst x) + bits x) (bits x)) as [E1|E1].
      * assert (Z0 : st (fst x) = 0) by lia. rewrite Z0, Nat.lor_0_l in E.
        assert (NI : ~ In (fst x) (map fst kept)). { intros I. apply in_map_iff in I as [l [L1 L2]]. destruct K as [_ [K2 _]]. destruct (K2 l L2) as [_ K3]. rewrite L1 in K3. destruct (bits_cases l); lia. }
        apply (IH st0) in E; auto.
        -- rewrite <- !app_assoc in E. cbn [app] in E. exact E.
        -- destruct K as [K1 [K2 K3]]. unfold kinv; sp.
           ++ rewrite map_app. apply NoDup_snoc; auto.
           ++ intros l L. apply in_app_iff in L as [L|[<- |[]]].
              ** destruct (K2 l L). rewrite upd_eq. destruct (Nat.eqb_spec (fst l) (fst x)) as [Q|Q]; auto. exfalso. apply NI. rewrite <- Q. now apply in_map.
              ** rewrite upd_eq, Nat.eqb_refl. split; [rewrite <- K3; auto|reflexivity].
           ++ intros v V. rewrite map_app, in_app_iff in V. rewrite upd_eq. destruct (Nat.eqb_spec v (fst x)) as [-> |Q]; [exfalso; apply V; right; now left|]. apply K3. tauto.
      * destruct (Nat.eqb_spec (st (fst x) + bits x) 3) as [E2|E2].
        -- injection E as <- <- <-. sp; auto; try discriminate; [intros l L; apply in_app_iff; auto|].
           intros a M _. unfold sat_clause. rewrite existsb_app. cbn [existsb]. destruct (kinv_case _ _ _ (fst x) K) as [[l [L1 [L2 L3]]]|L].
           ++ assert (l = neg x) by (apply bits_inj; [exact L2|rewrite bits_neg; lia]). subst l. destruct (holds a x) eqn:H; [apply orb_true_r|]. rewrite orb_true_iff. left. apply existsb_exists. exists (neg x). split; auto. now rewrite holds_neg', H.
           ++ assert (F : holds a (neg x) = false). { apply M. cbn. left. rewrite bits_neg. lia. } rewrite holds_neg' in F. destruct (holds a x); [apply orb_true_r|discriminate].
        -- apply (IH st0) in E; auto. destruct E as [A1 [A2 [A3 A4]]]. sp; auto; [intros l L; apply A2 in L; rewrite in_app_iff in *; cbn; tauto| |].
           ++ intros a M Q. specialize (A3 a M Q). unfold sat_clause in *. rewrite existsb_app in *. cbn. apply orb_true_iff in A3 as [A3|A3]; rewrite A3; rewrite ?orb_true_r; auto.
           ++ intros a M Q. rewrite (A4 a M Q). unfold sat_clause. rewrite !existsb_app. cbn. destruct (kinv_case _ _ _ (fst x) K) as [[l [L1 [L2 L3]]]|L].
              ** assert (LL : l = x). { apply bits_inj; auto. destruct (bits_cases l); lia. } subst l. destruct (holds a x) eqn:H; auto. cbn [orb]. assert (X : existsb (holds a) kept = true) by (apply existsb_exists; eauto). now rewrite X.
              ** rewrite (M x); auto. specialize (SM (fst x)). rewrite <- L. rewrite <- L in SM. lia.
Qed.
Lemma reset_fold : forall cc st v, fold_left (fun st (l : lit) => upd st (fst l) 0) cc st v = if existsb (fun l : lit => Nat.eqb v (fst l)) cc then 0 else st v.
Proof. induction cc as [|l cc IH]; intros st v; cbn; auto. rewrite IH, upd_eq. destruct (existsb _ cc); [now rewrite orb_true_r|]. rewrite orb_false_r. reflexivity. Qed.
Lemma satisfied_ok : forall x c s cc y, small (b_st x) -> satisfied x c = (s, cc, y) ->
  (forall v, b_st y v = b_st x v) /\ incl cc c /\ (forall a, marksOk (b_st x) a -> s = true -> sat_clause a c = true) /\ (forall a, marksOk (b_st x) a -> s = false -> sat_clause a cc = sat_clause a c) /\
  y = Sb (b_db x) (b_tr x) (b_ok x) (b_pos x) (b_st y) (b_occ y) (b_soft x) (b_vars x) (b_n x) (b_hw x) (b_min x) (b_assume x) /\
  (forall v, b_occ x v <> 0 -> b_occ y v <> 0) /\ (s = false -> forall l, In l cc -> b_occ y (fst l) <> 0).
Proof.
  intros x c s cc y SM E. unfold satisfied in E. destruct (satLoop (b_st x) [] c) as [[s' cc'] st'] eqn:L. injection E as <- <- <-.
  apply (satLoop_ok c (b_st x)) in L; auto; [|unfold kinv; sp; [constructor|intros l []|auto]]. destruct L as [[K1 [K2 K3]] [A2 [A3 A4]]]. cbn [app] in *. cbn [b_st b_occ]. sp; auto.
  - intros v. rewrite reset_fold. destruct (existsb (fun l : lit => Nat.eqb v (fst l)) cc') eqn:X.
    + apply existsb_exists in X as [l [L1 L2]]. apply Nat.eqb_eq in L2. subst v. symmetry. now apply K2.
    + apply K3. intros I. apply in_map_iff in I as [l [<- L]]. rewrite <- not_true_iff_false in X. apply X. apply existsb_exists. exists l. split; auto. apply Nat.eqb_refl.
  - intros v N. destruct s'; auto. apply (fold_mono lit (fun l => l)); auto.
  - intros -> l L. apply (fold_hit lit (fun l => l)); auto.
Qed.
