From Coq Require Import List Bool Arith Lia Permutation.
From Verif Require Import DwModel DwSpec.
Import ListNotations.

Definition csL (p : nat) (l : list rem) : list nat := flat_map (fun o => match o with RemLeft q c => if Nat.eqb q p then [c] else [] | _ => [] end) l.
Definition csR (p : nat) (l : list rem) : list nat := flat_map (fun o => match o with RemRight q c => if Nat.eqb q p then [c] else [] | _ => [] end) l.
Definition csU (p : nat) (l : list rem) : list nat := flat_map (fun o => match o with RemUndo q c => if Nat.eqb q p then [c] else [] | _ => [] end) l.
Definition many (er : nat -> list watch -> list watch) (cs : list nat) (l : list watch) : list watch := fold_left (fun l c => er c l) cs l.
(** A list after the requests [cs] *)
Definition slot (er : nat -> list watch -> list watch) (L0 : list watch) (cs : list nat) : list watch :=
  if Nat.leb (length L0) minSize then many er cs L0 else match cs with [] => L0 | _ => setTag true L0 end.
Definition plain (l : list watch) : Prop := forall x, In x l -> w_tag x = false.
Record eraser (er : nat -> list watch -> list watch) : Prop := {
  er_in : forall c l x, In x (er c l) -> In x l;
  er_len : forall c l, length (er c l) <= length l;
  er_perm : forall c l, Permutation (er c l) (erase c l) }.
Lemma erase_in : forall c l x, In x (erase c l) -> In x l.
Proof. induction l as [|y l IH]; cbn; auto. intros x. destruct (Nat.eqb (w_con y) c); cbn; intuition. Qed.
Lemma erase_len : forall c l, length (erase c l) <= length l.
Proof. induction l as [|y l IH]; cbn; auto. destruct (Nat.eqb (w_con y) c); cbn; lia. Qed.
Lemma erase_er : eraser erase.
Proof. constructor; [apply erase_in|apply erase_len|auto]. Qed.
Lemma swap_perm : forall c l, Permutation (swapOut c l) (erase c l).
Proof.
  induction l as [|y l IH]; cbn; auto. destruct (Nat.eqb (w_con y) c); [|now constructor]. destruct l as [|z l]; auto.
  rewrite (app_removelast_last y (l := z :: l)) at 3 by discriminate. apply Permutation_cons_append.
Qed.
Lemma swap_er : eraser swapOut.
Proof.
  constructor; [|intros c l; rewrite (Permutation_length (swap_perm c l)); apply erase_len|apply swap_perm].
  intros c l x X. apply (erase_in c). now apply (Permutation_in _ (swap_perm c l)).
Qed.
Section ER.
Variables (er : nat -> list watch -> list watch) (OK : eraser er).
Lemma many_in : forall cs l x, In x (many er cs l) -> In x l.
Proof. induction cs as [|c cs IH]; cbn; auto. intros l x X. apply IH in X. eapply er_in; eauto. Qed.
Lemma many_len : forall cs l, length (many er cs l) <= length l.
Proof. induction cs as [|c cs IH]; cbn; auto. intros l. etransitivity; [apply IH|]. now apply er_len. Qed.
Lemma many_snoc : forall cs c l, many er (cs ++ [c]) l = er c (many er cs l).
Proof. intros. unfold many. now rewrite fold_left_app. Qed.
Lemma slot_len : forall L0 cs, Nat.leb (length (slot er L0 cs)) minSize = Nat.leb (length L0) minSize.
Proof.
  intros L0 cs. unfold slot. destruct (Nat.leb_spec (length L0) minSize) as [L|L].
  - apply Nat.leb_le. etransitivity; [apply many_len|auto].
  - destruct cs; [now apply Nat.leb_gt|]. replace (length (setTag true L0)) with (length L0) by (destruct L0; reflexivity). now apply Nat.leb_gt.
Qed.
Lemma plain_untagged : forall l, plain l -> tagged l = false.
Proof. intros [|x l] P; auto. apply P. now left. Qed.
Lemma slot_tagged : forall L0 cs, plain L0 -> tagged (slot er L0 cs) = true -> length L0 > minSize /\ cs <> [].
Proof.
  intros L0 cs P T. unfold slot in T. destruct (Nat.leb_spec (length L0) minSize) as [L|L]; [rewrite plain_untagged in T; [discriminate|intros x X; apply P; eapply many_in; eauto]|].
  split; auto. intros ->. rewrite plain_untagged in T; auto. discriminate.
Qed.
Lemma slot_small : forall L0 cs c, length L0 <= minSize -> slot er L0 (cs ++ [c]) = er c (slot er L0 cs).
Proof. intros L0 cs c L. unfold slot. apply Nat.leb_le in L. rewrite L. apply many_snoc. Qed.
Lemma slot_big : forall L0 cs c, length L0 > minSize -> slot er L0 (cs ++ [c]) = setTag true (slot er L0 cs).
Proof. intros L0 cs c L. unfold slot. apply Nat.leb_gt in L. rewrite L. destruct cs as [|d cs]; cbn [app]; [reflexivity|]. destruct L0; reflexivity. Qed.
End ER.
Lemma copies_erase : forall c d l, copies c (erase d l) = copies c l - (if Nat.eqb c d then 1 else 0).
Proof.
  intros c d. unfold copies. induction l as [|x l IH]; cbn; [destruct (Nat.eqb c d); reflexivity|]. destruct (Nat.eqb (w_con x) d) eqn:E.
  - apply Nat.eqb_eq in E. subst d. rewrite (Nat.eqb_sym c). destruct (Nat.eqb (w_con x) c); cbn; lia.
  - cbn. destruct (Nat.eqb (w_con x) c) eqn:F; cbn; rewrite IH; auto. apply Nat.eqb_eq in F. rewrite F in E. rewrite E. lia.
Qed.
Lemma without_erase : forall gone c l, gone c = true -> without gone (erase c l) = without gone l.
Proof.
  intros gone c l G. induction l as [|x l IH]; cbn; auto. destruct (Nat.eqb_spec (w_con x) c) as [-> |E]; [rewrite G; reflexivity|]. cbn. destruct (negb (gone (w_con x))); [f_equal|]; auto.
Qed.
Lemma copies_perm : forall c l l', Permutation l l' -> copies c l = copies c l'.
Proof. intros c l l' P. unfold copies. induction P; cbn; auto; try lia. - destruct (Nat.eqb (w_con x) c); cbn; auto. - destruct (Nat.eqb (w_con x) c), (Nat.eqb (w_con y) c); reflexivity. Qed.
Lemma without_perm : forall gone l l', Permutation l l' -> Permutation (without gone l) (without gone l').
Proof. intros gone l l' P. unfold without. induction P; cbn; auto. - destruct (negb (gone (w_con x))); auto. - destruct (negb (gone (w_con x))), (negb (gone (w_con y))); auto. apply perm_swap. - etransitivity; eauto. Qed.
Lemma copies_0 : forall c l x, copies c l = 0 -> In x l -> w_con x <> c.
Proof. intros c l x Z X E. unfold copies in Z. assert (Y : In x (filter (fun x => Nat.eqb (w_con x) c) l)) by (apply filter_In; split; auto; now apply Nat.eqb_eq). destruct (filter _ l); [destruct Y|discriminate]. Qed.
Lemma without_id : forall gone l, (forall x, In x l -> gone (w_con x) = false) -> without gone l = l.
Proof. intros gone. induction l as [|x l IH]; intros H; cbn; auto. rewrite (H x (or_introl eq_refl)). cbn. f_equal. apply IH. intros y Y. apply H. now right. Qed.
Definition cnt (c : nat) (cs : list nat) : nat := length (filter (Nat.eqb c) cs).
Lemma many_without : forall er, eraser er -> forall gone cs l, (forall c, In c cs -> gone c = true) -> (forall c, gone c = true -> copies c l <= cnt c cs) -> Permutation (many er cs l) (without gone l).
Proof.
  intros er OK gone. induction cs as [|d cs IH]; intros l G C; cbn [many fold_left]; [|change (fold_left (fun l c => er c l) cs (er d l)) with (many er cs (er d l))].
  - rewrite without_id; auto. intros x X. destruct (gone (w_con x)) eqn:E; auto. exfalso. apply (copies_0 (w_con x) l x); auto. specialize (C _ E). cbn in C. lia.
  - rewrite IH; [| |].
    + rewrite (without_perm gone _ _ (er_perm er OK d l)). rewrite without_erase; auto. apply G. now left.
    + intros c X. apply G. now right.
    + intros c X. rewrite (copies_perm c _ _ (er_perm er OK d l)), copies_erase. specialize (C c X). unfold cnt in *. cbn in C. destruct (Nat.eqb c d); cbn in C; lia.
Qed.
Lemma many_without_eq : forall gone cs l, (forall c, In c cs -> gone c = true) -> (forall c, gone c = true -> copies c l <= cnt c cs) -> many erase cs l = without gone l.
Proof.
  intros gone. induction cs as [|d cs IH]; intros l G C; cbn [many fold_left]; [|change (fold_left (fun l c => erase c l) cs (erase d l)) with (many erase cs (erase d l))].
  - symmetry. apply without_id. intros x X. destruct (gone (w_con x)) eqn:E; auto. exfalso. apply (copies_0 (w_con x) l x); auto. specialize (C _ E). cbn in C. lia.
  - rewrite IH; [apply without_erase; apply G; now left|intros c X; apply G; now right|]. intros c X. rewrite copies_erase. specialize (C c X). unfold cnt in *. cbn in C. destruct (Nat.eqb c d); cbn in C; lia.
Qed.
Lemma tag_untag : forall l, plain l -> setTag false (setTag true l) = l.
Proof. intros [|x l] P; auto. cbn. f_equal. destruct x. specialize (P _ (or_introl eq_refl)). cbn in P. now subst. Qed.
(** a dirty list after the clean-up *)
Lemma slot_clean : forall er L0 cs cons gone, eraser er -> plain L0 -> (forall c, In c cs -> gone c = true) -> (forall c, gone c = true -> copies c L0 <= cnt c cs) ->
  (forall c, In c cons -> gone c = true) -> (length L0 > minSize -> forall c, In c cs -> In c cons) ->
  Permutation (clean cons (slot er L0 cs)) (without gone L0) /\ (er = erase -> clean cons (slot er L0 cs) = without gone L0) /\ plain (clean cons (slot er L0 cs)).
Proof.
  intros er L0 cs cons gone OK P G C GC CI. unfold slot. destruct (Nat.leb_spec (length L0) minSize) as [L|L].
  - unfold clean. assert (PM : plain (many er cs L0)) by (intros x X; apply P; eapply many_in; eauto). rewrite (plain_untagged _ PM). split; [now apply many_without|]. split; auto. intros ->. now apply many_without_eq.
  - assert (E : clean cons (match cs with [] => L0 | _ => setTag true L0 end) = without gone L0).
    { destruct cs as [|c cs].
      - unfold clean. rewrite (plain_untagged _ P). symmetry. apply without_id. intros x X. destruct (gone (w_con x)) eqn:F; auto. exfalso. apply (copies_0 (w_con x) L0 x); auto. specialize (C _ F). cbn in C. lia.
      - unfold clean. replace (tagged (setTag true L0)) with true by (destruct L0; [cbn in L; lia|reflexivity]). rewrite tag_untag by auto. unfold without. apply filter_ext_in. intros x X. f_equal.
        destruct (gone (w_con x)) eqn:F.
        + apply existsb_exists. exists (w_con x). split; [|apply Nat.eqb_refl]. apply CI; auto. specialize (C _ F). assert (N : cnt (w_con x) (c :: cs) <> 0). { intros N. apply (copies_0 (w_con x) L0 x); auto. lia. }
          unfold cnt in N. destruct (filter (Nat.eqb (w_con x)) (c :: cs)) as [|d r] eqn:Q; [exfalso; apply N; reflexivity|]. assert (D : In d (filter (Nat.eqb (w_con x)) (c :: cs))) by (rewrite Q; now left). apply filter_In in D as [D1 D2]. apply Nat.eqb_eq in D2. now subst.
        + destruct (existsb (Nat.eqb (w_con x)) cons) eqn:Y; auto. apply existsb_exists in Y as [d [D1 D2]]. apply Nat.eqb_eq in D2. rewrite (GC (w_con x)) in F; [discriminate|now rewrite D2]. }
    rewrite E. split; auto. split; auto. intros x X. apply P. unfold without in X. now apply filter_In in X.
Qed.
Lemma clean_plain : forall cons l, plain l -> clean cons l = l.
Proof. intros cons l P. unfold clean. now rewrite plain_untagged. Qed.

(** The state after the requests *)
Section INV.
Variable s0 : wst.
Hypothesis CL : clear s0.
Lemma pL : forall p, plain (s_left s0 p). Proof. intros p x X. apply (CL p). auto. Qed.
Lemma pR : forall p, plain (s_right s0 p). Proof. intros p x X. apply (CL p). auto. Qed.
Lemma pU : forall p, plain (s_undo s0 p). Proof. intros p x X. apply (CL p). auto. Qed.
Record J (l : list rem) (s : wst) (d : dirty) : Prop := {
  j_max : s_max s = s_max s0; j_lev : s_lev s = s_lev s0;
  j_left : forall p, s_left s p = if Nat.ltb p (s_max s0) then slot erase (s_left s0 p) (csL p l) else s_left s0 p;
  j_right : forall p, s_right s p = if Nat.ltb p (s_max s0) then slot erase (s_right s0 p) (csR p l) else s_right s0 p;
  j_undo : forall p, s_undo s p = slot swapOut (s_undo s0 p) (csU p l);
  j_lits : forall p, p < s_max s0 -> (length (s_left s0 p) > minSize /\ csL p l <> []) \/ (length (s_right s0 p) > minSize /\ csR p l <> []) -> In p (d_lits d);
  j_levs : forall p, length (s_undo s0 p) > minSize /\ csU p l <> [] -> In p (d_levs d);
  j_cons : forall c, In c (d_cons d) -> exists o, In o l /\ conOf o = c;
  j_cl : forall p c, p < s_max s0 -> length (s_left s0 p) > minSize -> In c (csL p l) -> In c (d_cons d);
  j_cr : forall p c, p < s_max s0 -> length (s_right s0 p) > minSize -> In c (csR p l) -> In c (d_cons d);
  j_cu : forall p c, length (s_undo s0 p) > minSize -> In c (csU p l) -> In c (d_cons d);
  j_last : forall c, d_last d = Some c -> In c (d_cons d) }.
Lemma addCon_in : forall d c x, (forall y, d_last d = Some y -> In y (d_cons d)) -> (In x (d_cons (addCon d c)) <-> x = c \/ In x (d_cons d)).
Proof.
  intros d c x L. unfold addCon. destruct (d_last d) as [y|] eqn:E.
  - destruct (Nat.eqb_spec y c) as [-> |N]; [split; auto; intros [-> |X]; auto|]. cbn. destruct (existsb (Nat.eqb c) (d_cons d)) eqn:X; cbn; [|intuition]. apply existsb_exists in X as [z [Z1 Z2]]. apply Nat.eqb_eq in Z2. subst z. split; auto. intros [-> |Y]; auto.
  - cbn. destruct (existsb (Nat.eqb c) (d_cons d)) eqn:X; cbn; [|intuition]. apply existsb_exists in X as [z [Z1 Z2]]. apply Nat.eqb_eq in Z2. subst z. split; auto. intros [-> |Y]; auto.
Qed.
Lemma addCon_lits : forall d c, d_lits (addCon d c) = d_lits d /\ d_levs (addCon d c) = d_levs d.
Proof. intros d c. unfold addCon. destruct (match d_last d with Some x => Nat.eqb x c | None => false end); auto. Qed.
Lemma addCon_last : forall d c x, (forall y, d_last d = Some y -> In y (d_cons d)) -> d_last (addCon d c) = Some x -> In x (d_cons (addCon d c)).
Proof.
  intros d c x L E. apply addCon_in; auto. unfold addCon in E. destruct (d_last d) as [y|] eqn:F; [destruct (Nat.eqb_spec y c) as [-> |N]; cbn in E; [right; apply L; congruence|left; congruence]|cbn in E; left; congruence].
Qed.
Lemma csL_snoc : forall p l o, csL p (l ++ [o]) = csL p l ++ match o with RemLeft q c => if Nat.eqb q p then [c] else [] | _ => [] end.
Proof. intros. unfold csL. rewrite flat_map_app. cbn. now rewrite app_nil_r. Qed.
Lemma csR_snoc : forall p l o, csR p (l ++ [o]) = csR p l ++ match o with RemRight q c => if Nat.eqb q p then [c] else [] | _ => [] end.
Proof. intros. unfold csR. rewrite flat_map_app. cbn. now rewrite app_nil_r. Qed.
Lemma csU_snoc : forall p l o, csU p (l ++ [o]) = csU p l ++ match o with RemUndo q c => if Nat.eqb q p then [c] else [] | _ => [] end.
Proof. intros. unfold csU. rewrite flat_map_app. cbn. now rewrite app_nil_r. Qed.
Lemma upd_eq : forall f k l i, upd f k l i = if Nat.eqb i k then l else f i.
Proof. reflexivity. Qed.
Lemma j_step : forall l s d o, J l s d -> J (l ++ [o]) (fst (lazyRem (s, d) o)) (snd (lazyRem (s, d) o)).
Proof.
  intros l s d o I. destruct I as [I1 I2 I3 I4 I5 I6 I7 I8 I9 I10 I11 I12]. unfold lazyRem. destruct o as [p c|p c|dl c].
  - rewrite I1. destruct (Nat.leb_spec (s_max s0) p) as [B|B]; cbn [fst snd].
    + assert (EQ : forall q, q < s_max s0 -> csL q (l ++ [RemLeft p c]) = csL q l) by (intros q Q; rewrite csL_snoc; destruct (Nat.eqb_spec p q); [lia|apply app_nil_r]).
      constructor; auto; intros q; rewrite ?csR_snoc, ?csU_snoc, ?app_nil_r; eauto.
      * rewrite I3. destruct (Nat.ltb_spec q (s_max s0)); auto. now rewrite EQ.
      * intros Q. rewrite (EQ q Q). eauto.
      * intros Q. destruct (I8 q Q) as [o [O1 O2]]. exists o. split; auto. apply in_or_app. now left.
      * intros x Q. rewrite (EQ q Q). eauto.
    + assert (PL : Nat.ltb p (s_max s0) = true) by (apply Nat.ltb_lt; lia). pose proof (I3 p) as EP. rewrite PL in EP. rewrite EP, (slot_len erase erase_er).
      destruct (Nat.leb_spec (length (s_left s0 p)) minSize) as [L|L]; cbn [fst snd].
      * assert (NB : forall q, length (s_left s0 q) > minSize -> csL q (l ++ [RemLeft p c]) = csL q l) by (intros q Q; rewrite csL_snoc; destruct (Nat.eqb_spec p q); [subst; lia|apply app_nil_r]).
        constructor; cbn [s_left s_right s_max s_undo s_lev]; auto; intros q; rewrite ?csR_snoc, ?csU_snoc, ?app_nil_r; eauto.
        -- rewrite upd_eq, csL_snoc. destruct (Nat.eqb_spec q p) as [-> |N]; [rewrite PL, Nat.eqb_refl; now rewrite (slot_small erase)|]. destruct (Nat.eqb_spec p q); [congruence|]. rewrite app_nil_r. apply I3.
        -- intros Q [[Q1 Q2]|Q1]; [rewrite (NB q Q1) in Q2|]; auto.
        -- intros Q. destruct (I8 q Q) as [o [O1 O2]]. exists o. split; auto. apply in_or_app. now left.
        -- intros x Q Q1. rewrite (NB q Q1). eauto.
      * assert (FST : forall b : bool, b = negb (tagged (s_right s p) || tagged (slot erase (s_left s0 p) (csL p l))) -> b = false -> In p (d_lits d)).
        { intros b Eb Bf. rewrite Eb in Bf. apply negb_false_iff, orb_true_iff in Bf as [T|T]; [rewrite I4, PL in T; apply slot_tagged in T; [|apply erase_er|apply pR]; apply I6; auto; lia|].
          apply slot_tagged in T; [|apply erase_er|apply pL]. apply I6; auto; lia. }
        remember (negb (tagged (s_right s p) || tagged (slot erase (s_left s0 p) (csL p l)))) as b eqn:Eb. specialize (FST b eq_refl).
        set (d' := if b then D (d_lits (addCon d c) ++ [p]) (d_levs (addCon d c)) (d_cons (addCon d c)) (d_last (addCon d c)) else addCon d c).
        assert (DC : d_cons d' = d_cons (addCon d c) /\ d_levs d' = d_levs d /\ d_last d' = d_last (addCon d c)) by (unfold d'; destruct (addCon_lits d c) as [_ X]; destruct b; cbn; auto). destruct DC as [DC [DV DL]].
        assert (DI : forall q, In q (d_lits d) \/ q = p -> In q (d_lits d')). { intros q Q. unfold d'. destruct (addCon_lits d c) as [X _]. destruct b; cbn; rewrite X; [apply in_or_app; destruct Q as [Q|Q]; [now left|right; now left]|destruct Q as [Q| ->]; auto]. }
        constructor; cbn [s_left s_right s_max s_undo s_lev]; auto; try (intros q; rewrite ?csR_snoc, ?csU_snoc, ?app_nil_r, ?DC, ?DV, ?DL; eauto).
        -- rewrite upd_eq, csL_snoc. destruct (Nat.eqb_spec q p) as [-> |N]; [rewrite PL, Nat.eqb_refl; now rewrite slot_big|]. destruct (Nat.eqb_spec p q); [congruence|]. rewrite app_nil_r. apply I3.
        -- intros Q C. apply DI. destruct (Nat.eq_dec q p) as [-> |N]; auto. left. apply I6; auto. rewrite csL_snoc in C. destruct (Nat.eqb_spec p q); [congruence|]. now rewrite app_nil_r in C.
        -- intros Q. apply addCon_in in Q; auto. destruct Q as [-> |Q]; [exists (RemLeft p c); split; auto; apply in_or_app; right; now left|]. destruct (I8 q Q) as [o [O1 O2]]. exists o. split; auto. apply in_or_app. now left.
        -- intros x Q Q1. rewrite csL_snoc. intros X. apply addCon_in; auto. apply in_app_or in X as [X|X]; [right; eapply I9; eauto|]. destruct (Nat.eqb_spec p q); [destruct X as [<- |[]]; now left|destruct X].
        -- intros x Q Q1 X. apply addCon_in; auto. right. eapply I10; eauto.
        -- intros x Q1 X. apply addCon_in; auto. right. eapply I11; eauto.
        -- apply addCon_last. auto.
  - rewrite I1. destruct (Nat.leb_spec (s_max s0) p) as [B|B]; cbn [fst snd].
    + assert (EQ : forall q, q < s_max s0 -> csR q (l ++ [RemRight p c]) = csR q l) by (intros q Q; rewrite csR_snoc; destruct (Nat.eqb_spec p q); [lia|apply app_nil_r]).
      constructor; auto; intros q; rewrite ?csL_snoc, ?csU_snoc, ?app_nil_r; eauto.
      * rewrite I4. destruct (Nat.ltb_spec q (s_max s0)); auto. now rewrite EQ.
      * intros Q. rewrite (EQ q Q). eauto.
      * intros Q. destruct (I8 q Q) as [o [O1 O2]]. exists o. split; auto. apply in_or_app. now left.
      * intros x Q. rewrite (EQ q Q). eauto.
    + assert (PL : Nat.ltb p (s_max s0) = true) by (apply Nat.ltb_lt; lia). pose proof (I4 p) as EP. rewrite PL in EP. rewrite EP, (slot_len erase erase_er).
      destruct (Nat.leb_spec (length (s_right s0 p)) minSize) as [L|L]; cbn [fst snd].
      * assert (NB : forall q, length (s_right s0 q) > minSize -> csR q (l ++ [RemRight p c]) = csR q l) by (intros q Q; rewrite csR_snoc; destruct (Nat.eqb_spec p q); [subst; lia|apply app_nil_r]).
        constructor; cbn [s_left s_right s_max s_undo s_lev]; auto; intros q; rewrite ?csL_snoc, ?csU_snoc, ?app_nil_r; eauto.
        -- rewrite upd_eq, csR_snoc. destruct (Nat.eqb_spec q p) as [-> |N]; [rewrite PL, Nat.eqb_refl; now rewrite (slot_small erase)|]. destruct (Nat.eqb_spec p q); [congruence|]. rewrite app_nil_r. apply I4.
        -- intros Q [Q1|[Q1 Q2]]; [|rewrite (NB q Q1) in Q2]; auto.
        -- intros Q. destruct (I8 q Q) as [o [O1 O2]]. exists o. split; auto. apply in_or_app. now left.
        -- intros x Q Q1. rewrite (NB q Q1). eauto.
      * assert (FST : forall b : bool, b = negb (tagged (s_left s p) || tagged (slot erase (s_right s0 p) (csR p l))) -> b = false -> In p (d_lits d)).
        { intros b Eb Bf. rewrite Eb in Bf. apply negb_false_iff, orb_true_iff in Bf as [T|T]; [rewrite I3, PL in T; apply slot_tagged in T; [|apply erase_er|apply pL]; apply I6; auto; lia|].
          apply slot_tagged in T; [|apply erase_er|apply pR]. apply I6; auto; lia. }
        remember (negb (tagged (s_left s p) || tagged (slot erase (s_right s0 p) (csR p l)))) as b eqn:Eb. specialize (FST b eq_refl).
        set (d' := if b then D (d_lits (addCon d c) ++ [p]) (d_levs (addCon d c)) (d_cons (addCon d c)) (d_last (addCon d c)) else addCon d c).
        assert (DC : d_cons d' = d_cons (addCon d c) /\ d_levs d' = d_levs d /\ d_last d' = d_last (addCon d c)) by (unfold d'; destruct (addCon_lits d c) as [_ X]; destruct b; cbn; auto). destruct DC as [DC [DV DL]].
        assert (DI : forall q, In q (d_lits d) \/ q = p -> In q (d_lits d')). { intros q Q. unfold d'. destruct (addCon_lits d c) as [X _]. destruct b; cbn; rewrite X; [apply in_or_app; destruct Q as [Q|Q]; [now left|right; now left]|destruct Q as [Q| ->]; auto]. }
        constructor; cbn [s_left s_right s_max s_undo s_lev]; auto; try (intros q; rewrite ?csL_snoc, ?csU_snoc, ?app_nil_r, ?DC, ?DV, ?DL; eauto).
        -- rewrite upd_eq, csR_snoc. destruct (Nat.eqb_spec q p) as [-> |N]; [rewrite PL, Nat.eqb_refl; now rewrite slot_big|]. destruct (Nat.eqb_spec p q); [congruence|]. rewrite app_nil_r. apply I4.
        -- intros Q C. apply DI. destruct (Nat.eq_dec q p) as [-> |N]; auto. left. apply I6; auto. rewrite csR_snoc in C. destruct (Nat.eqb_spec p q); [congruence|]. now rewrite app_nil_r in C.
        -- intros Q. apply addCon_in in Q; auto. destruct Q as [-> |Q]; [exists (RemRight p c); split; auto; apply in_or_app; right; now left|]. destruct (I8 q Q) as [o [O1 O2]]. exists o. split; auto. apply in_or_app. now left.
        -- intros x Q Q1 X. apply addCon_in; auto. right. eapply I9; eauto.
        -- intros x Q Q1. rewrite csR_snoc. intros X. apply addCon_in; auto. apply in_app_or in X as [X|X]; [right; eapply I10; eauto|]. destruct (Nat.eqb_spec p q); [destruct X as [<- |[]]; now left|destruct X].
        -- intros x Q1 X. apply addCon_in; auto. right. eapply I11; eauto.
        -- apply addCon_last. auto.
  - rewrite (I5 dl), (slot_len swapOut swap_er). destruct (Nat.leb_spec (length (s_undo s0 dl)) minSize) as [L|L]; cbn [fst snd].
    + assert (NB : forall q, length (s_undo s0 q) > minSize -> csU q (l ++ [RemUndo dl c]) = csU q l) by (intros q Q; rewrite csU_snoc; destruct (Nat.eqb_spec dl q); [subst; lia|apply app_nil_r]).
      constructor; cbn [s_left s_right s_max s_undo s_lev]; auto; intros q; rewrite ?csL_snoc, ?csR_snoc, ?app_nil_r; eauto.
      * rewrite upd_eq, csU_snoc. destruct (Nat.eqb_spec q dl) as [-> |N]; [rewrite Nat.eqb_refl; now rewrite (slot_small swapOut)|]. destruct (Nat.eqb_spec dl q); [congruence|]. rewrite app_nil_r. apply I5.
      * intros [Q1 Q2]. rewrite (NB q Q1) in Q2. auto.
      * intros Q. destruct (I8 q Q) as [o [O1 O2]]. exists o. split; auto. apply in_or_app. now left.
      * intros x Q1. rewrite (NB q Q1). eauto.
    + assert (FST : forall b : bool, b = negb (tagged (slot swapOut (s_undo s0 dl) (csU dl l))) -> b = false -> In dl (d_levs d)).
      { intros b Eb Bf. rewrite Eb in Bf. apply negb_false_iff in Bf. apply slot_tagged in Bf; [|apply swap_er|apply pU]. auto. }
      remember (negb (tagged (slot swapOut (s_undo s0 dl) (csU dl l)))) as b eqn:Eb. specialize (FST b eq_refl).
      set (d' := if b then D (d_lits (addCon d c)) (d_levs (addCon d c) ++ [dl]) (d_cons (addCon d c)) (d_last (addCon d c)) else addCon d c).
      assert (DC : d_cons d' = d_cons (addCon d c) /\ d_lits d' = d_lits d /\ d_last d' = d_last (addCon d c)) by (unfold d'; destruct (addCon_lits d c) as [X _]; destruct b; cbn; auto). destruct DC as [DC [DV DL]].
      assert (DI : forall q, In q (d_levs d) \/ q = dl -> In q (d_levs d')). { intros q Q. unfold d'. destruct (addCon_lits d c) as [_ X]. destruct b; cbn; rewrite X; [apply in_or_app; destruct Q as [Q|Q]; [now left|right; now left]|destruct Q as [Q| ->]; auto]. }
      constructor; cbn [s_left s_right s_max s_undo s_lev]; auto; try (intros q; rewrite ?csL_snoc, ?csR_snoc, ?app_nil_r, ?DC, ?DV, ?DL; eauto).
      * rewrite upd_eq, csU_snoc. destruct (Nat.eqb_spec q dl) as [-> |N]; [rewrite Nat.eqb_refl; now rewrite slot_big|]. destruct (Nat.eqb_spec dl q); [congruence|]. rewrite app_nil_r. apply I5.
      * intros C. apply DI. destruct (Nat.eq_dec q dl) as [-> |N]; auto. left. apply I7; auto. rewrite csU_snoc in C. destruct (Nat.eqb_spec dl q); [congruence|]. now rewrite app_nil_r in C.
      * intros Q. apply addCon_in in Q; auto. destruct Q as [-> |Q]; [exists (RemUndo dl c); split; auto; apply in_or_app; right; now left|]. destruct (I8 q Q) as [o [O1 O2]]. exists o. split; auto. apply in_or_app. now left.
      * intros x Q Q1 X. apply addCon_in; auto. right. eapply I9; eauto.
      * intros x Q Q1 X. apply addCon_in; auto. right. eapply I10; eauto.
      * intros x Q1. rewrite csU_snoc. intros X. apply addCon_in; auto. apply in_app_or in X as [X|X]; [right; eapply I11; eauto|]. destruct (Nat.eqb_spec dl q); [destruct X as [<- |[]]; now left|destruct X].
      * apply addCon_last. auto.
Qed.
Lemma j_all : forall l, J l (fst (fold_left lazyRem l (s0, D [] [] [] None))) (snd (fold_left lazyRem l (s0, D [] [] [] None))).
Proof.
  intros l. induction l as [|o l IH] using rev_ind.
  - cbn [fold_left fst snd]. constructor; auto; cbn [csL csR csU flat_map d_lits d_levs d_cons d_last In]; try (intros; contradiction); try (intros p [_ X]; congruence); try discriminate.
    + intros p. unfold slot, many. cbn [csL csR flat_map fold_left]. destruct (Nat.ltb p (s_max s0)), (Nat.leb (length (s_left s0 p)) minSize); reflexivity.
    + intros p. unfold slot, many. cbn [csL csR flat_map fold_left]. destruct (Nat.ltb p (s_max s0)), (Nat.leb (length (s_right s0 p)) minSize); reflexivity.
    + intros p. unfold slot, many. cbn [csU flat_map fold_left]. destruct (Nat.leb (length (s_undo s0 p)) minSize); reflexivity.
    + intros p _ [[_ X]|[_ X]]; congruence.
  - rewrite fold_left_app. cbn [fold_left]. pose proof (j_step l _ _ o IH) as S. rewrite <- surjective_pairing in S. exact S.
Qed.
End INV.
