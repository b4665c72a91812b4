From Coq Require Import List Bool Arith ZArith Lia Permutation.
From Verif Require Import Base ClModel ClSpec ClProofs BpModel BpSpec BpProofs BpProofs2 BpProofs3 BpProofs4 BpProofs5 CaModel CaSpec SeModel SeSpec SeProofs SeProofs2 SeProofs3 SeProofs4 SeProofs5 EnModel EnProofs EnProofs2 QfModel QfSpec.
Import ListNotations.
Ltac sp := repeat match goal with |- _ /\ _ => split end.

(** * Cells *)
Lemma neg_neg : forall p : lit, neg (neg p) = p.
Proof. intros [v b]. unfold neg. cbn. rewrite negb_involutive. reflexivity. Qed.
Lemma holds_neg : forall a p, holds a (neg p) = negb (holds a p).
Proof. intros a [v b]. unfold holds, neg. cbn. destruct (a v), b; reflexivity. Qed.
Lemma same_var : forall p q : lit, fst p = fst q -> p = q \/ p = neg q.
Proof. intros [v b] [u c]. cbn. intros ->. destruct b, c; auto. Qed.
Lemma set_same : forall m v c, setCell m v c v = c.
Proof. intros. unfold setCell. rewrite Nat.eqb_refl. reflexivity. Qed.
Lemma set_other : forall m v c u, u <> v -> setCell m v c u = m u.
Proof. intros. unfold setCell. apply Nat.eqb_neq in H. rewrite H. reflexivity. Qed.
Lemma open_iff : forall m p, isOpen m p = true <-> m (fst p) = Open (snd p).
Proof. intros m p. unfold isOpen. destruct (m (fst p)); split; try discriminate; [intros H; apply eqb_prop in H; congruence|intros [= ->]; apply eqb_reflx]. Qed.
Lemma def_iff : forall m p, inDef m p = true <-> m (fst p) = Fixed (snd p).
Proof. intros m p. unfold inDef. destruct (m (fst p)); split; try discriminate; [intros H; apply eqb_prop in H; congruence|intros [= ->]; apply eqb_reflx]. Qed.
Lemma est_iff : forall m p, inEst m p = isOpen m p || inDef m p.
Proof. intros m p. unfold inEst, isOpen, inDef. destruct (m (fst p)); auto. destruct (eqb neg (snd p)); reflexivity. Qed.

Section Q.
Variables (F : list clause) (A : list (lit * nat)) (cons : list lit) (a0 : asg).
Hypothesis (A0 : holds a0 lit_true = true) (M0 : isModel a0 F A).

Definition counter (p : lit) : Prop := exists a, holds a lit_true = true /\ isModel a F A /\ holds a p = false.
(** What a cell says about a literal; [l]: the literals still to be decided *)
Definition says (m : cells) (l : list lit) (p : lit) : Prop :=
  if inDef m p then consequence F A p else if isOpen m p then In p l /\ holds a0 p = true else counter p.
Definition Inv (m : cells) (l : list lit) : Prop := (forall p, In p cons -> says m l p) /\ forall p, In p l -> In p cons.

Lemma counter_not : forall p, counter p -> consequence F A p -> False.
Proof. intros p [a [H1 [H2 H3]]] C. rewrite (C a H1 H2) in H3. discriminate. Qed.
Lemma true_counter : forall p, holds a0 p = true -> counter (neg p).
Proof. intros p H. exists a0. sp; auto. rewrite holds_neg, H. reflexivity. Qed.
Lemma says_other : forall m m' l l' p, m' (fst p) = m (fst p) -> (isOpen m p = true -> In p l -> In p l') -> says m l p -> says m' l' p.
Proof. intros m m' l l' p E I. unfold says. unfold inDef, isOpen in *. rewrite E. destruct (m (fst p)) as [|b|b]; auto; destruct (eqb b (snd p)); intuition. Qed.
Lemma says_in : forall m l p, says m l p -> inEst m p = true -> holds a0 p = true.
Proof. intros m l p S E. unfold says in S. rewrite est_iff in E. destruct (inDef m p); [apply S; auto|]. destruct (isOpen m p); [tauto|discriminate]. Qed.

(** Changing the cell of a literal that is in the estimate *)
Lemma inv_fix : forall m l l' q, Inv m l -> holds a0 q = true -> consequence F A q -> (forall p, In p l' -> In p l) -> (forall p, In p l -> fst p <> fst q -> In p l') -> Inv (fix_ m q) l'.
Proof.
  intros m l l' q [I1 I2] H C S1 S2. split; [|auto]. intros p P. destruct (Nat.eq_dec (fst p) (fst q)) as [E|E].
  - unfold says, inDef, isOpen, fix_. rewrite E, set_same. destruct (same_var p q E) as [-> | ->]; [rewrite eqb_reflx; exact C|]. cbn [neg fst snd]. destruct (snd q); cbn; apply true_counter; auto.
  - apply (says_other m _ l); auto. unfold fix_. apply set_other. auto.
Qed.
Lemma inv_pop : forall m l l' q, Inv m l -> holds a0 q = true -> counter q -> (forall p, In p l' -> In p l) -> (forall p, In p l -> fst p <> fst q -> In p l') -> Inv (pop m q) l'.
Proof.
  intros m l l' q [I1 I2] H C S1 S2. split; [|auto]. intros p P. destruct (Nat.eq_dec (fst p) (fst q)) as [E|E].
  - unfold says, inDef, isOpen, pop. rewrite E, set_same. destruct (same_var p q E) as [-> | ->]; [exact C|apply true_counter; auto].
  - apply (says_other m _ l); auto. unfold pop. apply set_other. auto.
Qed.
Lemma inv_keep : forall m l l', Inv m l -> (forall p, In p l' -> In p l) -> (forall p, In p l -> isOpen m p = true -> In p l') -> Inv m l'.
Proof. intros m l l' [I1 I2] S1 S2. split; auto. intros p P. apply (says_other m _ l); auto. Qed.
(** Literals of the list other than the one decided keep their places *)
Lemma drop_other : forall m l q p, Inv m l -> In p l -> fst p = fst q -> isOpen m q = true -> isOpen m p = true -> p = q.
Proof. intros m l q p _ _ E O1 O2. apply open_iff in O1, O2. rewrite E in O2. destruct (same_var p q E) as [-> | ->]; auto. cbn in O2. rewrite O1 in O2. injection O2 as O2. destruct (snd q); discriminate. Qed.

(** Cells only change from open to fixed *)
Definition fixes (m m' : cells) : Prop := forall v, m' v = m v \/ exists b, m v = Open b /\ m' v = Fixed b.
Lemma fixes_refl : forall m, fixes m m.
Proof. intros m v. auto. Qed.
Lemma fixes_trans : forall m1 m2 m3, fixes m1 m2 -> fixes m2 m3 -> fixes m1 m3.
Proof. intros m1 m2 m3 H1 H2 v. destruct (H1 v) as [E|[b [E1 E2]]], (H2 v) as [X|[c [X1 X2]]]; [left; congruence|right; exists c; split; congruence|right; exists b; split; congruence|congruence]. Qed.
Lemma fixes_est : forall m m', fixes m m' -> forall p, inEst m' p = inEst m p.
Proof. intros m m' H p. unfold inEst. destruct (H (fst p)) as [-> |[b [-> ->]]]; reflexivity. Qed.
Lemma fixes_open : forall m m' p, fixes m m' -> isOpen m' p = true -> isOpen m p = true.
Proof. intros m m' p H. unfold isOpen. destruct (H (fst p)) as [-> |[b [-> ->]]]; auto. discriminate. Qed.
Lemma fixes_def : forall m m' p, fixes m m' -> inDef m p = true -> inDef m' p = true.
Proof. intros m m' p H. unfold inDef. destruct (H (fst p)) as [-> |[b [-> ->]]]; auto. discriminate. Qed.

(** * updateOpen *)
Lemma rot_in : forall (q : lit) r p, r <> [] -> In p (last r q :: removelast r) <-> In p r.
Proof. intros q r p N. rewrite (app_removelast_last q N) at 3. rewrite in_app_iff. cbn. tauto. Qed.
Lemma rot_len : forall (q : lit) r, r <> [] -> length (last r q :: removelast r) = length r.
Proof. intros q r N. rewrite (app_removelast_last q N) at 3. rewrite app_length. cbn. lia. Qed.
Lemma updOpen_ok : forall s, (forall p, In p cons -> isT s p = true -> consequence F A p) -> (forall p, isF s p = true -> consequence F A (neg p)) ->
  forall k m done l, length l <= k -> Inv m (done ++ l) -> (forall p, In p done -> isFr s p = true /\ isOpen m p = true) ->
  let '(m', l') := updOpen k s m done l in Inv m' l' /\ fixes m m' /\ (forall p, In p l' -> isFr s p = true /\ isOpen m' p = true /\ In p (done ++ l)) /\ length l' <= length (done ++ l) /\
    ((exists q, In q l /\ isOpen m q = false) -> length l' < length (done ++ l)).
Proof.
  intros s ST SF. induction k as [|k IH]; intros m done l L I DN; cbn [updOpen].
  - destruct l; [|cbn in L; lia]. rewrite app_nil_r in *. sp; auto; [apply fixes_refl| |]; [|intros [q [[] _]]]. intros p P. destruct (DN p P). auto.
  - destruct l as [|q r]. { rewrite app_nil_r in *. sp; auto; [apply fixes_refl| |]; [|intros [q [[] _]]]. intros p P. destruct (DN p P). auto. }
    destruct (isFr s q && isOpen m q) eqn:E.
    + apply andb_true_iff in E as [E1 E2]. specialize (IH m (done ++ [q]) r). cbn [length] in L. rewrite <- app_assoc in IH. cbn [app] in IH.
      assert (X : forall p, In p (done ++ [q]) -> isFr s p = true /\ isOpen m p = true). { intros p P. apply in_app_or in P as [P|[<- |[]]]; auto. }
      specialize (IH ltac:(lia) I X). destruct (updOpen k s m (done ++ [q]) r) as [m' l'] eqn:U. destruct IH as [R1 [R2 [R3 [R4 R5]]]]. sp; auto. intros [z [[-> |Z] O]]; [congruence|]. apply R5. eauto.
    + set (r' := match r with [] => [] | _ => last r q :: removelast r end). set (m1 := if isT s q then fix_ m q else if isOpen m q then pop m q else m).
      assert (RI : forall p, In p r' <-> In p r). { intros p. unfold r'. destruct r; [tauto|apply rot_in; discriminate]. }
      assert (RL : length r' = length r). { unfold r'. destruct r; [auto|apply rot_len; discriminate]. }
      assert (QC : In q cons). { apply (proj2 I). apply in_or_app. right. now left. }
      assert (I1 : Inv m1 (done ++ r') /\ fixes m m1).
      { assert (SUB : forall p, In p (done ++ r') -> In p (done ++ q :: r)). { intros p P. apply in_app_or in P as [P|P]; apply in_or_app; [auto|right; right; apply RI; auto]. }
        assert (SUP : forall p, In p (done ++ q :: r) -> p <> q -> In p (done ++ r')). { intros p P N. apply in_app_or in P as [P|[P|P]]; [apply in_or_app; auto|congruence|apply in_or_app; right; apply RI; auto]. }
        unfold m1. destruct (isT s q) eqn:T.
        - pose proof (ST q QC T) as C. pose proof (proj1 I q QC) as SQ. split.
          + apply (inv_fix m (done ++ q :: r)); auto. intros p P N. apply SUP; auto. congruence.
          + intros v. unfold fix_, setCell. destruct (Nat.eqb_spec v (fst q)) as [-> |]; auto. unfold says in SQ. destruct (inDef m q) eqn:DF; [apply def_iff in DF; auto|]. destruct (isOpen m q) eqn:O; [apply open_iff in O; eauto|].
            exfalso. eapply counter_not; eauto.
        - destruct (isOpen m q) eqn:O.
          + exfalso. rewrite andb_true_r in E. unfold isFr in E. rewrite T in E. cbn in E. apply negb_false_iff in E. pose proof (SF q E a0 A0 M0) as X. pose proof (proj1 I q QC) as SQ.
            assert (Y : holds a0 q = true). { apply (says_in m (done ++ q :: r)); auto. rewrite est_iff, O. reflexivity. }
            rewrite holds_neg, Y in X. discriminate.
          + split; [|apply fixes_refl]. apply (inv_keep m (done ++ q :: r)); auto. intros p P OP. apply SUP; auto. congruence. }
      destruct I1 as [I1 FX]. specialize (IH m1 done r'). cbn [length] in L.
      assert (DN1 : forall p, In p done -> isFr s p = true /\ isOpen m1 p = true).
      { intros p P. destruct (DN p P) as [D1 D2]. split; auto. apply open_iff in D2. apply open_iff. destruct (Nat.eq_dec (fst p) (fst q)) as [EQ|NE]; [|unfold m1; destruct (isT s q); [unfold fix_; rewrite set_other; auto|destruct (isOpen m q); [unfold pop; rewrite set_other; auto|auto]]].
        assert (T : isT s q = false). { destruct (same_var p q EQ) as [-> | ->]; unfold isFr, isF in D1; apply andb_true_iff in D1 as [D1 D3]; apply negb_true_iff in D1, D3; auto. rewrite neg_neg in D3. auto. }
        unfold m1. rewrite T. destruct (isOpen m q) eqn:O; auto. exfalso. rewrite andb_true_r in E. unfold isFr in *. destruct (same_var p q EQ) as [-> | ->]; [congruence|]. unfold isF in *. rewrite neg_neg in D1. rewrite andb_comm in D1. congruence. }
      specialize (IH ltac:(lia) I1 DN1). destruct (updOpen k s m1 done r') as [m' l'] eqn:U. destruct IH as [R1 [R2 [R3 [R4 R5]]]].
      assert (LN : length (done ++ q :: r) = S (length (done ++ r'))) by (rewrite !app_length; cbn; lia). sp; auto; [eapply fixes_trans; eauto| |lia|lia].
      intros p P. destruct (R3 p P) as [Q1 [Q2 Q3]]. sp; auto. apply in_app_or in Q3 as [Q3|Q3]; apply in_or_app; [auto|right; right; apply RI; auto].
Qed.

(** * updateUpper *)
Lemma mono_set : forall m v c, (forall b, c <> Open b) -> forall p, isOpen (setCell m v c) p = true -> isOpen m p = true.
Proof. intros m v c N p. rewrite !open_iff. unfold setCell. destruct (Nat.eqb (fst p) v); auto. intros X. exfalso. exact (N _ X). Qed.
Lemma updateUpper_ok : forall s root a, holds a lit_true = true -> isModel a F A -> (forall p, In p cons -> isT s p = holds a p) ->
  (forall p, In p cons -> isT s p = true -> lev s p < root -> consequence F A p) ->
  forall l m j, Inv m (j ++ l) ->
  let '(m', l') := fold_left (fun '(m, j) p => if isOpen m p then
      if negb (isT s p) then (pop m p, j) else if Nat.ltb (lev s p) root then (fix_ m p, j) else (m, j ++ [p])
    else (m, j)) l (m, j) in Inv m' l' /\ (forall p, isOpen m' p = true -> isOpen m p = true) /\ length l' <= length (j ++ l) /\ ((exists q, In q l /\ isOpen m q = false) -> length l' < length (j ++ l)).
Proof.
  intros s root a H0 HM HT HL. induction l as [|q l IH]; intros m j I; cbn [fold_left].
  - rewrite app_nil_r in *. sp; auto. intros [q [[] _]].
  - assert (QC : In q cons). { apply (proj2 I). apply in_or_app. right. now left. }
    assert (SUB : forall p, In p (j ++ l) -> In p (j ++ q :: l)). { intros p P. apply in_app_or in P as [P|P]; apply in_or_app; cbn; auto. }
    assert (SUP : forall p, In p (j ++ q :: l) -> p <> q -> In p (j ++ l)). { intros p P N. apply in_app_or in P as [P|[P|P]]; [apply in_or_app; auto|congruence|apply in_or_app; auto]. }
    assert (LN : length (j ++ q :: l) = S (length (j ++ l))) by (rewrite !app_length; cbn; lia).
    assert (DROP : forall m1, Inv m1 (j ++ l) -> (forall p, isOpen m1 p = true -> isOpen m p = true) -> let '(m', l') := fold_left (fun '(m, j) p => if isOpen m p then
      if negb (isT s p) then (pop m p, j) else if Nat.ltb (lev s p) root then (fix_ m p, j) else (m, j ++ [p]) else (m, j)) l (m1, j) in
      Inv m' l' /\ (forall p, isOpen m' p = true -> isOpen m p = true) /\ length l' <= length (j ++ q :: l) /\ ((exists q0, In q0 (q :: l) /\ isOpen m q0 = false) -> length l' < length (j ++ q :: l))).
    { intros m1 I1 MO. specialize (IH m1 j I1). destruct (fold_left _ l (m1, j)) as [m' l'] eqn:U. destruct IH as [R1 [R2 [R3 R4]]]. sp; auto; lia. }
    destruct (isOpen m q) eqn:O.
    + pose proof (proj1 I q QC) as SQ. assert (HQ : holds a0 q = true). { apply (says_in m (j ++ q :: l)); auto. rewrite est_iff, O. reflexivity. }
      destruct (isT s q) eqn:T; cbn [negb].
      * destruct (Nat.ltb_spec (lev s q) root) as [LT|GE].
        -- apply DROP; [|apply mono_set; discriminate]. apply (inv_fix m (j ++ q :: l)); auto. intros p P N. apply SUP; auto. congruence.
        -- specialize (IH m (j ++ [q])). rewrite <- app_assoc in IH. cbn [app] in IH.
           specialize (IH I). destruct (fold_left _ l (m, j ++ [q])) as [m' l'] eqn:U. destruct IH as [R1 [R2 [R3 R4]]]. sp; auto. intros [z [[-> |Z] OZ]]; [congruence|]. apply R4. eauto.
      * apply DROP; [|apply mono_set; discriminate]. apply (inv_pop m (j ++ q :: l)); auto; [|intros p P N; apply SUP; auto; congruence]. exists a. sp; auto. rewrite <- HT; auto.
    + apply DROP; auto. apply (inv_keep m (j ++ q :: l)); auto. intros p P OP. apply SUP; auto. congruence.
Qed.

(** * initUpper *)
Lemma initUpper_ok : forall s, (forall p, In p cons -> isT s p = holds a0 p) -> (forall p, In p cons -> isT s p = true -> lev s p = 0 -> consequence F A p) ->
  forall l m j pr, (forall p, In p pr -> says m j p) -> (forall p, inEst m p = true -> isT s p = true) -> (forall p, In p l -> In p cons) -> (forall p, In p pr -> In p cons) ->
  let '(m', l') := fold_left (fun '(m, j) p => if isT s p then if Nat.eqb (lev s p) 0 then (fix_ m p, j) else (push m p, j ++ [p]) else (m, j)) l (m, j) in
  (forall p, In p (pr ++ l) -> says m' l' p) /\ (forall p, In p l' -> In p j \/ In p l) /\ length l' <= length j + length l /\ (isT s lit_false = false -> lev s lit_true = 0 -> isOpen m lit_false = false -> isOpen m' lit_false = false).
Proof.
  intros s HT HL. induction l as [|q l IH]; intros m j pr SP ES SL SC; cbn [fold_left].
  - rewrite app_nil_r. sp; auto. cbn. lia.
  - assert (QC : In q cons) by (apply SL; now left). specialize (IH) as IH0.
    assert (STEP : forall m1 j1, (forall p, In p (pr ++ [q]) -> says m1 j1 p) -> (forall p, inEst m1 p = true -> isT s p = true) -> (forall p, In p j1 -> In p j \/ p = q) -> length j1 <= S (length j) ->
      (isT s lit_false = false -> lev s lit_true = 0 -> isOpen m lit_false = false -> isOpen m1 lit_false = false) ->
      let '(m', l') := fold_left (fun '(m, j) p => if isT s p then if Nat.eqb (lev s p) 0 then (fix_ m p, j) else (push m p, j ++ [p]) else (m, j)) l (m1, j1) in
      (forall p, In p (pr ++ q :: l) -> says m' l' p) /\ (forall p, In p l' -> In p j \/ In p (q :: l)) /\ length l' <= length j + length (q :: l) /\ (isT s lit_false = false -> lev s lit_true = 0 -> isOpen m lit_false = false -> isOpen m' lit_false = false)).
    { intros m1 j1 H1 H2 H3 H4 H5. specialize (IH m1 j1 (pr ++ [q]) H1 H2). rewrite <- app_assoc in IH. cbn [app] in IH.
      assert (X : forall p, In p (pr ++ [q]) -> In p cons). { intros p P. apply in_app_or in P as [P|[<- |[]]]; auto. }
      specialize (IH ltac:(intros p P; apply SL; now right) X). destruct (fold_left _ l (m1, j1)) as [m' l'] eqn:U. destruct IH as [R1 [R2 [R3 R4]]]. sp; auto; [|cbn; lia].
      intros p P. destruct (R2 p P) as [Q|Q]; [destruct (H3 p Q) as [Q'| ->]; [auto|right; now left]|right; now right]. }
    assert (SET : forall c j1, isT s q = true -> (c = Fixed (snd q) /\ consequence F A q \/ c = Open (snd q) /\ In q j1) -> (forall p, In p j -> In p j1) -> forall p, In p (pr ++ [q]) -> says (setCell m (fst q) c) j1 p).
    { intros c j1 T C JJ p P. assert (HQ : holds a0 q = true) by (rewrite <- HT; auto). destruct (Nat.eq_dec (fst p) (fst q)) as [E|E].
      - unfold says, inDef, isOpen. rewrite E, set_same. destruct (same_var p q E) as [-> | ->].
        + destruct C as [[-> C]|[-> C]]; rewrite eqb_reflx; auto.
        + assert (X : eqb (snd q) (snd (neg q)) = false) by (destruct q as [v b]; destruct b; reflexivity). destruct C as [[-> C]|[-> C]]; rewrite X; apply true_counter; auto.
      - apply in_app_or in P as [P|[<- |[]]]; [|congruence]. apply (says_other m _ j); auto. apply set_other. auto. }
    assert (EST : forall c, isT s q = true -> (c = Fixed (snd q) \/ c = Open (snd q)) -> forall p, inEst (setCell m (fst q) c) p = true -> isT s p = true).
    { intros c T C p. unfold inEst. unfold setCell. destruct (Nat.eqb_spec (fst p) (fst q)) as [E|]; [|apply ES].
      intros X. assert (snd p = snd q) by (destruct C as [-> | ->]; apply eqb_prop in X; auto). destruct p as [v b], q as [u d]. cbn in *. subst. auto. }
    destruct (isT s q) eqn:T.
    + destruct (Nat.eqb_spec (lev s q) 0) as [L0|L0]; apply STEP.
      * apply SET; auto.
      * apply EST; auto.
      * auto.
      * lia.
      * intros Z1 Z2. apply (fun H => proj1 (Bool.not_true_iff_false _) (fun X => Bool.diff_true_false (eq_trans (eq_sym (mono_set m (fst q) (Fixed (snd q)) ltac:(discriminate) lit_false X)) H))).
      * apply SET; auto; [right; split; auto; apply in_or_app; right; now left|intros p P; apply in_or_app; auto].
      * apply EST; auto.
      * intros p P. apply in_app_or in P as [P|[<- |[]]]; auto.
      * rewrite app_length. cbn. lia.
      * intros Z1 Z2 Z3. unfold push, isOpen, setCell. destruct (Nat.eqb_spec (fst lit_false) (fst q)) as [E|E]; [|exact Z3]. exfalso. cbn in E. apply L0. unfold lev in *. rewrite <- E. exact Z2.
    + apply STEP; auto. intros p P. apply in_app_or in P as [P|[<- |[]]]; auto. unfold says.
      destruct (inEst m q) eqn:E; [apply ES in E; congruence|]. rewrite est_iff in E. apply orb_false_iff in E as [E1 E2]. rewrite E1, E2. exists a0. sp; auto. rewrite <- HT; auto.
Qed.
End Q.
