From Coq Require Import List Bool Arith Lia Sorted Permutation.
From Verif Require Import Base PlModel PlSpec.
Import ListNotations.
Definition option_eqb (o : slot) (x : nat) : bool := match o with Some y => Nat.eqb y x | None => false end.
Ltac sp := repeat match goal with |- _ /\ _ => split end.

Lemma chain_ext : forall l l' o xs, chain l o xs -> (forall x, In x xs -> n_next l' x = n_next l x) -> chain l' o xs.
Proof. intros l l' o xs H. induction H; intros E; constructor. rewrite E by (cbn; auto). apply IHchain. intros y Y. apply E. cbn. auto. Qed.
Lemma chain_fun : forall l o xs ys, chain l o xs -> chain l o ys -> xs = ys.
Proof. intros l o xs ys H. revert ys. induction H; intros ys K; inversion K; subst; auto. f_equal. auto. Qed.
(** the slot after a prefix *)
Fixpoint lastSlot (pre : list nat) (r : slot) : slot := match pre with [] => r | x :: pre => lastSlot pre (Some x) end.
Lemma lastSlot_snoc : forall pre r x, lastSlot (pre ++ [x]) r = Some x.
Proof. induction pre; cbn; auto. Qed.
Lemma lastSlot_in : forall pre r x, lastSlot pre r = Some x -> In x pre \/ r = Some x.
Proof. induction pre as [|y pre IH]; cbn; intros r x H; auto. apply IH in H. destruct H as [H|H]; auto. injection H as ->. auto. Qed.
Lemma chain_app : forall l pre o xs, chain l o (pre ++ xs) -> chain l (match lastSlot pre None with None => o | Some x => n_next l x end) xs.
Proof.
  intros l pre. induction pre as [|x pre IH] using rev_ind; intros o xs H; [exact H|]. rewrite lastSlot_snoc. rewrite <- app_assoc in H. apply IH in H. inversion H; subst. auto.
Qed.
Lemma chain_load : forall l pre xs, chain l (n_head l) (pre ++ xs) -> chain l (load l (lastSlot pre None)) xs.
Proof. intros l pre xs H. apply chain_app in H. unfold load. destruct (lastSlot pre None); auto. Qed.
(** replacing what follows a prefix *)
Lemma chain_splice : forall l pre xs l' ys, chain l (n_head l) (pre ++ xs) -> NoDup (pre ++ xs) -> chain l' (load l' (lastSlot pre None)) ys ->
  (pre <> [] -> n_head l' = n_head l) -> (forall x, In x pre -> lastSlot pre None <> Some x -> n_next l' x = n_next l x) -> chain l' (n_head l') (pre ++ ys).
Proof.
  intros l pre. induction pre as [|p pre IH] using rev_ind; intros xs l' ys H ND C HH E; [exact C|].
  rewrite lastSlot_snoc in *. rewrite <- app_assoc in *. cbn in *. apply (IH (p :: xs)); auto.
  - apply chain_load in H. inversion H as [|z zs Z Q1 Q2]. subst. 
    assert (LL : load l' (lastSlot pre None) = Some p).
    { rewrite Q1. unfold load. destruct (lastSlot pre None) as [y|] eqn:Y.
      - apply E; [|intros [=->]; apply NoDup_remove_2 in ND; apply ND; apply in_or_app; left].
        + apply lastSlot_in in Y. destruct Y; [apply in_or_app; auto|discriminate].
        + apply lastSlot_in in Y. destruct Y; [auto|discriminate].
      - apply HH. destruct pre; discriminate. }
    rewrite LL. constructor. exact C.
  - intros NE. apply HH. destruct pre; discriminate.
  - intros x X NX. apply E; [apply in_or_app; auto|]. intros [=->]. apply NoDup_remove_2 in ND. apply ND. apply in_or_app. auto.
Qed.

Section P.
Variable prio : nat -> nat.
Record Ok_ (l : plist) (ms xs : list nat) : Prop := {
  c_chain : chain l (n_head l) xs; c_nd : NoDup xs; c_perm : Permutation xs ms; c_ord : order prio ms xs; c_out : forall x, ~ In x xs -> n_next l x = None }.

Lemma sorted_app : forall (R : nat -> nat -> Prop) xs ys, StronglySorted R (xs ++ ys) <-> StronglySorted R xs /\ StronglySorted R ys /\ forall x y, In x xs -> In y ys -> R x y.
Proof.
  intros R. induction xs as [|x xs IH]; intros ys; cbn.
  - split; [intros H; sp; auto; [constructor|intros ? ? []]|tauto].
  - split.
    + intros H. apply StronglySorted_inv in H. destruct H as [H F]. apply IH in H. destruct H as [H1 [H2 H3]]. rewrite Forall_forall in F. sp; auto.
      * constructor; auto. apply Forall_forall. intros y Y. apply F. apply in_or_app. auto.
      * intros a b [<- |A] B; auto. apply F. apply in_or_app. auto.
    + intros [H1 [H2 H3]]. apply StronglySorted_inv in H1. destruct H1 as [H1 F]. constructor; [apply IH; sp; auto|]. rewrite Forall_forall in *. intros y Y. apply in_app_or in Y. destruct Y; auto.
Qed.
Lemma filter_none : forall (f : nat -> bool) xs, (forall x, In x xs -> f x = false) -> filter f xs = [].
Proof. induction xs as [|x xs IH]; intros H; auto. cbn. rewrite H by (cbn; auto). apply IH. intros. apply H. cbn. auto. Qed.

Lemma addLoop_ok : forall p l fuel pre xs, chain l (n_head l) (pre ++ xs) -> NoDup (pre ++ xs) -> ~ In p (pre ++ xs) -> n_next l p = None -> length xs < fuel ->
  StronglySorted (fun a b => prio a <= prio b) (pre ++ xs) -> (forall x, In x pre -> prio x <= prio p) ->
  exists l' ys zs, addLoop prio fuel l p (lastSlot pre None) = Ok l' /\ pre ++ xs = ys ++ zs /\ chain l' (n_head l') (ys ++ p :: zs) /\
    (forall x, In x ys -> prio x <= prio p) /\ (forall x, In x zs -> prio p < prio x) /\ forall x, ~ In x (ys ++ p :: zs) -> n_next l' x = n_next l x.
Proof.
  intros p l. induction fuel as [|fuel IH]; intros pre xs C ND NP NN LF SS LE; [lia|]. cbn [addLoop]. pose proof (chain_load _ _ _ C) as CL.
  assert (STOP : (forall x, In x xs -> prio p < prio x) -> exists l' ys zs, Ok (store (P (n_head l) (upd (n_next l) p (load l (lastSlot pre None)))) (lastSlot pre None) (Some p)) = Ok l' /\ pre ++ xs = ys ++ zs /\ chain l' (n_head l') (ys ++ p :: zs) /\
    (forall x, In x ys -> prio x <= prio p) /\ (forall x, In x zs -> prio p < prio x) /\ forall x, ~ In x (ys ++ p :: zs) -> n_next l' x = n_next l x).
  { intros GT. eexists. exists pre, xs. split; [reflexivity|]. sp; auto.
    - set (l' := store _ _ _). assert (SL : forall x, lastSlot pre None = Some x -> In x pre) by (intros x X; apply lastSlot_in in X; destruct X; [auto|discriminate]).
      assert (NX : forall x, n_next l' x = if option_eqb (lastSlot pre None) x then Some p else if Nat.eqb x p then load l (lastSlot pre None) else n_next l x).
      { intros x. unfold l', store. destruct (lastSlot pre None) as [y|] eqn:Y; cbn [n_next option_eqb]; unfold upd; [rewrite (Nat.eqb_sym x y)|]; reflexivity. }
      apply (chain_splice l pre xs); auto.
      + assert (LP : load l' (lastSlot pre None) = Some p). { unfold l', store, load. destruct (lastSlot pre None) as [y|]; cbn; auto. unfold upd. rewrite Nat.eqb_refl. auto. }
        rewrite LP. constructor. assert (NPx : n_next l' p = load l (lastSlot pre None)).
        { rewrite NX. destruct (lastSlot pre None) as [y|] eqn:Y; cbn [option_eqb]; [|rewrite Nat.eqb_refl; auto]. destruct (Nat.eqb_spec y p) as [-> |]; [|rewrite Nat.eqb_refl; auto]. exfalso. apply NP. apply in_or_app. auto. }
        rewrite NPx. eapply chain_ext; [exact CL|]. intros x X. rewrite NX. destruct (Nat.eqb_spec x p) as [-> |XP]; [exfalso; apply NP; apply in_or_app; auto|].
        destruct (lastSlot pre None) as [y|] eqn:Y; cbn [option_eqb]; auto. destruct (Nat.eqb_spec y x) as [-> |]; auto. exfalso. 
        clear - ND X Y SL. assert (I := SL x eq_refl). induction pre as [|z pre IHp] in ND, I |- *; [destruct I|]. cbn in ND. apply NoDup_cons_iff in ND. destruct ND as [N1 N2]. destruct I as [-> |I]; [apply N1; apply in_or_app; auto|auto].
      + intros NE. unfold l', store. destruct (lastSlot pre None) as [y|] eqn:Y; auto. exfalso. destruct pre as [|a b]; [congruence|]. clear - Y. cbn in Y. revert a Y. induction b; cbn; intros; [discriminate|eauto].
      + intros x X NL. rewrite NX. destruct (Nat.eqb_spec x p) as [-> |XP]; [exfalso; apply NP; apply in_or_app; auto|]. destruct (lastSlot pre None) as [y|]; cbn [option_eqb]; auto. destruct (Nat.eqb_spec y x) as [-> |]; congruence.
    - intros x NX. unfold store. destruct (lastSlot pre None) as [y|] eqn:Y; cbn [n_next]; unfold upd.
      + destruct (Nat.eqb_spec x y) as [-> |]; [exfalso; apply NX; apply in_or_app; left; apply lastSlot_in in Y; destruct Y; [auto|discriminate]|]. destruct (Nat.eqb_spec x p) as [-> |]; auto. exfalso. apply NX. apply in_or_app. cbn. auto.
      + destruct (Nat.eqb_spec x p) as [-> |]; auto. exfalso. apply NX. apply in_or_app. cbn. auto. }
  inversion CL as [E1 E2|y ys E1 E2 E3].
  - subst xs. rewrite <- E1 in STOP. apply STOP. intros x [].
  - subst xs. rewrite <- E2 in STOP. destruct (Nat.ltb_spec (prio p) (prio y)) as [L|L].
    + apply STOP. apply sorted_app in SS. destruct SS as [_ [SS _]]. apply StronglySorted_inv in SS. destruct SS as [_ F]. rewrite Forall_forall in F. intros x [<- |X]; auto. specialize (F x X). cbn in F. lia.
    + destruct (IH (pre ++ [y]) ys) as [l' [ys' [zs [A [B R]]]]].
      * rewrite <- app_assoc. exact C.
      * rewrite <- app_assoc. exact ND.
      * rewrite <- app_assoc. exact NP.
      * exact NN.
      * cbn in LF. lia.
      * rewrite <- app_assoc. exact SS.
      * intros x X. apply in_app_or in X. destruct X as [X|[<- |[]]]; auto.
      * rewrite lastSlot_snoc in A. exists l', ys', zs. split; [exact A|]. rewrite <- app_assoc in B. split; [exact B|exact R].
Qed.

Lemma filter_rm : forall f p ms, filter f (List.remove Nat.eq_dec p ms) = List.remove Nat.eq_dec p (filter f ms).
Proof. induction ms as [|m ms IH]; auto. cbn. destruct (Nat.eq_dec p m) as [-> |N]; cbn; destruct (f m) eqn:F; cbn; try destruct (Nat.eq_dec m m); try destruct (Nat.eq_dec p m); try congruence. Qed.
Lemma rm_mid : forall p ys zs, ~ In p (ys ++ zs) -> List.remove Nat.eq_dec p (ys ++ p :: zs) = ys ++ zs.
Proof.
  intros p ys zs H. rewrite remove_app. cbn. destruct (Nat.eq_dec p p); [|congruence]. rewrite !notin_remove; auto; intros X; apply H; apply in_or_app; auto.
Qed.
Lemma perm_rm : forall p xs ms, Permutation xs ms -> Permutation (List.remove Nat.eq_dec p xs) (List.remove Nat.eq_dec p ms).
Proof.
  intros p xs ms H. induction H; cbn; auto.
  - destruct (Nat.eq_dec p x); auto.
  - destruct (Nat.eq_dec p y), (Nat.eq_dec p x); auto. constructor.
  - eapply perm_trans; eauto.
Qed.
Lemma add_ok : forall l ms xs p fuel, Ok_ l ms xs -> ~ In p ms -> length ms < fuel -> exists l' xs', add prio fuel l p = Ok l' /\ Ok_ l' (ms ++ [p]) xs'.
Proof.
  intros l ms xs p fuel [C ND PM [OS OST] CO] NP LF. assert (NPx : ~ In p xs) by (intros X; apply NP; eapply Permutation_in; eauto).
  unfold add. rewrite (CO p NPx). destruct (addLoop_ok p l fuel [] xs) as [l' [ys [zs [A [B [D [E [F G]]]]]]]]; cbn [app]; auto.
  - rewrite (Permutation_length PM). auto.
  - intros x [].
  - cbn [app lastSlot] in *. subst xs. exists l', (ys ++ p :: zs). split; [exact A|]. 
    assert (PP : Permutation (ys ++ p :: zs) (p :: ys ++ zs)) by (symmetry; apply Permutation_middle). constructor; auto.
    + eapply Permutation_NoDup; [symmetry; exact PP|]. constructor; auto.
    + rewrite PP. rewrite PM. apply Permutation_cons_append.
    + apply sorted_app in OS. destruct OS as [S1 [S2 S3]]. constructor.
      * apply sorted_app. sp; auto.
        -- constructor; auto. apply Forall_forall. intros x X. specialize (F x X). lia.
        -- intros x y X [<- |Y]; auto.
      * intros k. specialize (OST k). rewrite !filter_app in *. cbn. rewrite <- OST. destruct (Nat.eqb_spec (prio p) k) as [K|K].
        -- rewrite (filter_none _ zs) by (intros x X; apply Nat.eqb_neq; specialize (F x X); lia). rewrite app_nil_r. reflexivity.
        -- rewrite app_nil_r. reflexivity.
    + intros x X. rewrite G by auto. apply CO. intros Y. apply X. apply in_or_app. apply in_app_or in Y. cbn. tauto.
Qed.
Lemma removeLoop_ok : forall p l fuel pre xs, chain l (n_head l) (pre ++ xs) -> NoDup (pre ++ xs) -> ~ In p pre -> length xs < fuel ->
  (~ In p xs /\ removeLoop fuel l p (lastSlot pre None) = Ok l) \/
  exists l' ys zs, removeLoop fuel l p (lastSlot pre None) = Ok l' /\ pre ++ xs = ys ++ p :: zs /\ chain l' (n_head l') (ys ++ zs) /\ n_next l' p = None /\
    forall x, ~ In x (ys ++ zs) -> x <> p -> n_next l' x = n_next l x.
Proof.
  intros p l. induction fuel as [|fuel IH]; intros pre xs C ND NP LF; [lia|]. cbn [removeLoop]. pose proof (chain_load _ _ _ C) as CL. destruct xs as [|y ys].
  - inversion CL as [E|]. left. split; [intros []|auto].
  - inversion CL as [|y' ys' CY E1 E2]. subst y' ys'. destruct (Nat.eqb_spec y p) as [-> |YP].
    + right. eexists. exists pre, ys. split; [reflexivity|]. split; auto. set (r := lastSlot pre None) in *.
      assert (SL : forall x, r = Some x -> In x pre) by (intros x X; apply lastSlot_in in X; destruct X; [auto|discriminate]).
      assert (NDp : ~ In p (pre ++ ys)) by (apply NoDup_remove_2 in ND; auto).
      set (l1 := store l r (n_next l p)). set (l' := P (n_head l1) (upd (n_next l1) p None)).
      assert (NX : forall x, x <> p -> r <> Some x -> n_next l' x = n_next l x).
      { intros x X1 X2. unfold l', l1, store. cbn [n_next]. unfold upd. rewrite (proj2 (Nat.eqb_neq x p) X1). destruct r as [z|]; cbn [n_next]; auto. destruct (Nat.eqb_spec x z) as [-> |]; congruence. }
      sp.
      * apply (chain_splice l pre (p :: ys)); auto.
        -- fold r. assert (LP : load l' r = n_next l p).
           { unfold l', l1, store, load. destruct r as [z|]; cbn; auto. unfold upd. rewrite Nat.eqb_refl. destruct (Nat.eqb_spec z p) as [-> |]; auto. exfalso. apply NP. auto. }
           rewrite LP. eapply chain_ext; [exact CY|]. intros x X. apply NX; [intros ->; apply NDp; apply in_or_app; auto|]. intros RX. apply SL in RX. clear - ND RX X.
           induction pre as [|z pre IHp]; [destruct RX|]. cbn in ND. apply NoDup_cons_iff in ND. destruct ND as [N1 N2]. destruct RX as [-> |RX]; auto. apply N1. apply in_or_app. cbn. auto.
        -- intros NE. unfold l', l1, store. destruct r as [z|] eqn:Y; auto. exfalso. unfold r in Y. destruct pre as [|a b]; [congruence|]. clear - Y. cbn in Y. revert a Y. induction b; cbn; intros; [discriminate|eauto].
        -- fold r. intros x X XR. apply NX; auto. intros ->. contradiction.
      * unfold l'. cbn. unfold upd. rewrite Nat.eqb_refl. auto.
      * intros x X XP. apply NX; auto. intros RX. apply X. apply in_or_app. auto.
    + replace (pre ++ y :: ys) with ((pre ++ [y]) ++ ys) in * by (rewrite <- app_assoc; auto). destruct (IH (pre ++ [y]) ys) as [[N R]|R]; auto.
      * intros X. apply in_app_or in X. destruct X as [X|[X|[]]]; auto.
      * cbn in LF. lia.
      * rewrite lastSlot_snoc in R. left. split; auto. intros [X|X]; auto.
      * rewrite lastSlot_snoc in R. right. exact R.
Qed.
Lemma remove_ok : forall l ms xs p fuel, Ok_ l ms xs -> length ms < fuel -> exists l' xs', remove fuel l p = Ok l' /\ Ok_ l' (List.remove Nat.eq_dec p ms) xs'.
Proof.
  intros l ms xs p fuel [C ND PM [OS OST] CO] LF. unfold remove. destruct (removeLoop_ok p l fuel [] xs) as [[N R]|[l' [ys [zs [A [B [D [E F]]]]]]]]; cbn [app lastSlot] in *; auto.
  - rewrite (Permutation_length PM). auto.
  - exists l, xs. split; auto. assert (NM : ~ In p ms) by (intros X; apply N; eapply Permutation_in; [symmetry; exact PM|auto]). rewrite notin_remove by auto. constructor; auto. constructor; auto.
  - subst xs. exists l', (ys ++ zs). split; auto. pose proof (NoDup_remove_1 _ _ _ ND) as ND1. pose proof (NoDup_remove_2 _ _ _ ND) as ND2. constructor; auto.
    + rewrite <- (rm_mid p ys zs ND2). apply perm_rm. auto.
    + constructor.
      * apply sorted_app in OS. destruct OS as [S1 [S2 S3]]. apply StronglySorted_inv in S2. apply sorted_app. sp; try tauto. intros x y X Y. apply S3; cbn; auto.
      * intros k. rewrite filter_rm, <- OST, <- filter_rm, rm_mid by auto. reflexivity.
    + intros x X. destruct (Nat.eq_dec x p) as [-> |XP]; auto. rewrite F by auto. apply CO. intros Y. apply in_app_or in Y. apply X. apply in_or_app. destruct Y as [Y|[Y|Y]]; auto. congruence.
Qed.
Lemma findLoop_ok : forall l k fuel xs o, chain l o xs -> length xs < fuel -> StronglySorted (fun a b => prio a <= prio b) xs -> findLoop prio fuel l k o = Ok (hd_error (filter (fun x => Nat.eqb (prio x) k) xs)).
Proof.
  intros l k. induction fuel as [|fuel IH]; intros xs o C LF SS; [lia|]. cbn [findLoop]. destruct C as [|x xs C]; auto. cbn [filter]. apply StronglySorted_inv in SS. destruct SS as [SS F]. rewrite Forall_forall in F.
  destruct (Nat.leb_spec k (prio x)) as [L|L].
  - destruct (Nat.eqb_spec (prio x) k) as [E|E]; auto. rewrite filter_none; auto. intros y Y. apply Nat.eqb_neq. specialize (F y Y). cbn in F. lia.
  - rewrite (proj2 (Nat.eqb_neq _ _)) by lia. apply IH; auto. cbn in LF. lia.
Qed.
Lemma clearLoop_ok : forall fuel l r xs ds, chain l r xs -> NoDup xs -> length xs < fuel ->
  exists l', clearLoop fuel l r ds = Ok (l', ds ++ xs) /\ n_head l' = None /\ forall x, n_next l' x = if in_dec Nat.eq_dec x xs then None else n_next l x.
Proof.
  induction fuel as [|fuel IH]; intros l r xs ds C ND LF; [lia|]. cbn [clearLoop]. destruct C as [|t xs C].
  - eexists. rewrite app_nil_r. sp; auto.
  - apply NoDup_cons_iff in ND. destruct ND as [N1 N2]. destruct (IH (P (n_head l) (upd (n_next l) t None)) (n_next l t) xs (ds ++ [t])) as [l' [A [B D]]]; auto.
    + eapply chain_ext; [exact C|]. intros x X. cbn. unfold upd. destruct (Nat.eqb_spec x t) as [-> |]; [contradiction|auto].
    + cbn in LF. lia.
    + exists l'. rewrite <- app_assoc in A. sp; auto. intros x. rewrite D. cbn [n_next]. unfold upd. destruct (in_dec Nat.eq_dec x xs) as [I|I], (in_dec Nat.eq_dec x (t :: xs)) as [J|J]; cbn in J; auto; try tauto.
      * destruct (Nat.eqb_spec x t) as [-> |]; auto. exfalso. destruct J; congruence.
      * destruct (Nat.eqb_spec x t) as [-> |]; [exfalso; apply J; auto|auto].
Qed.
(** more fuel does not change a result *)
Lemma addLoop_fuel : forall l p f r l', addLoop prio f l p r = Ok l' -> forall g, f <= g -> addLoop prio g l p r = Ok l'.
Proof. intros l p. induction f as [|f IH]; intros r l' H g G; [discriminate|]. destruct g as [|g]; [lia|]. cbn [addLoop] in *. destruct (load l r) as [y|]; auto. destruct (Nat.ltb _ _); auto. apply (IH _ _ H). lia. Qed.
Lemma removeLoop_fuel : forall l p f r l', removeLoop f l p r = Ok l' -> forall g, f <= g -> removeLoop g l p r = Ok l'.
Proof. intros l p. induction f as [|f IH]; intros r l' H g G; [discriminate|]. destruct g as [|g]; [lia|]. cbn [removeLoop] in *. destruct (load l r) as [y|]; auto. destruct (Nat.eqb _ _); auto. apply (IH _ _ H). lia. Qed.
Lemma clearLoop_fuel : forall f l r ds x, clearLoop f l r ds = Ok x -> forall g, f <= g -> clearLoop g l r ds = Ok x.
Proof. induction f as [|f IH]; intros l r ds x H g G; [discriminate|]. destruct g as [|g]; [lia|]. cbn [clearLoop] in *. destruct r; auto. apply (IH _ _ _ _ H). lia. Qed.

Lemma hist_ok : forall l ms, hist prio l ms -> exists xs, Ok_ l ms xs.
Proof.
  induction 1 as [|l ms p f l' H IH NP A|l ms p f l' H IH A|l ms f l' ds H IH A].
  - exists []. constructor; auto; [constructor|constructor|constructor; [constructor|auto]].
  - destruct IH as [xs K]. destruct (add_ok l ms xs p (Nat.max f (S (length ms))) K NP ltac:(lia)) as [l2 [xs' [B K']]]. exists xs'. replace l' with l2; auto.
    unfold add in *. destruct (n_next l p); try discriminate. rewrite (addLoop_fuel _ _ _ _ _ A) in B by lia. congruence.
  - destruct IH as [xs K]. destruct (remove_ok l ms xs p (Nat.max f (S (length ms))) K ltac:(lia)) as [l2 [xs' [B K']]]. exists xs'. replace l' with l2; auto.
    unfold remove in *. rewrite (removeLoop_fuel _ _ _ _ _ A) in B by lia. congruence.
  - destruct IH as [xs [C ND PM OS CO]]. exists []. destruct (clearLoop_ok (Nat.max f (S (length xs))) l (n_head l) xs [] C ND ltac:(lia)) as [l2 [B [B1 B2]]].
    unfold clear in A. rewrite (clearLoop_fuel _ _ _ _ _ A) in B by lia. injection B as B0 B3. subst l2. constructor; auto; [rewrite B1; constructor|constructor|constructor; [constructor|auto]|].
    intros x _. rewrite B2. destruct (in_dec Nat.eq_dec x xs); auto.
Qed.
End P.
