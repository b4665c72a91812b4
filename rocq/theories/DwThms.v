(** C35: removing watches through the deferred clean-up leaves the same watch lists as removing them one by one. *)
From Coq Require Import List Bool Arith Lia Permutation.
From Verif Require Import DwModel DwSpec DwProofs.
Import ListNotations.

Lemma fold_lits : forall cons l s, (forall p, plain (clean cons (s_left s p)) /\ plain (clean cons (s_right s p))) ->
  let s1 := fold_left (fun s p => if Nat.leb (s_max s) p then s else Ws (upd (s_left s) p (clean cons (s_left s p))) (upd (s_right s) p (clean cons (s_right s p))) (s_max s) (s_undo s) (s_lev s)) l s in
  s_max s1 = s_max s /\ s_undo s1 = s_undo s /\ s_lev s1 = s_lev s /\
  forall p, s_left s1 p = (if existsb (Nat.eqb p) l && Nat.ltb p (s_max s) then clean cons (s_left s p) else s_left s p) /\ s_right s1 p = (if existsb (Nat.eqb p) l && Nat.ltb p (s_max s) then clean cons (s_right s p) else s_right s p).
Proof.
  intros cons. induction l as [|q l IH]; intros s P; cbn [fold_left existsb]; [repeat split|].
  destruct (Nat.leb_spec (s_max s) q) as [B|B].
  - destruct (IH s P) as [A1 [A2 [A3 A4]]]. repeat split; auto; intros; destruct (A4 p) as [X Y]; rewrite ?X, ?Y; destruct (Nat.eqb_spec p q) as [-> |N]; cbn [orb]; auto; destruct (Nat.ltb_spec q (s_max s)); try lia; now rewrite !andb_false_r.
  - set (s' := Ws (upd (s_left s) q (clean cons (s_left s q))) (upd (s_right s) q (clean cons (s_right s q))) (s_max s) (s_undo s) (s_lev s)).
    assert (CC : forall l, plain (clean cons l) -> clean cons (clean cons l) = clean cons l) by (intros m M; now apply clean_plain).
    assert (SL : forall p, s_left s' p = if Nat.eqb p q then clean cons (s_left s p) else s_left s p) by (intros p; unfold s'; cbn [s_left]; rewrite upd_eq; destruct (Nat.eqb_spec p q) as [-> |]; auto).
    assert (SR : forall p, s_right s' p = if Nat.eqb p q then clean cons (s_right s p) else s_right s p) by (intros p; unfold s'; cbn [s_right]; rewrite upd_eq; destruct (Nat.eqb_spec p q) as [-> |]; auto).
    assert (P' : forall p, plain (clean cons (s_left s' p)) /\ plain (clean cons (s_right s' p))). { intros p. rewrite SL, SR. destruct (P p) as [P1 P2]. destruct (Nat.eqb p q); rewrite ?CC; auto. }
    destruct (IH s' P') as [A1 [A2 [A3 A4]]]. cbn [s_max s_undo s_lev] in *. repeat split; auto; intros; destruct (A4 p) as [X Y]; rewrite ?X, ?Y, ?SL, ?SR; destruct (P p) as [P1 P2]; unfold s'; cbn [s_max];
      destruct (Nat.eqb_spec p q) as [-> |N]; cbn [orb]; auto; destruct (Nat.ltb_spec q (s_max s)); try lia; cbn [andb]; destruct (existsb (Nat.eqb q) l); cbn [andb]; auto.
Qed.
Lemma fold_levs : forall cons l s, (forall p, plain (clean cons (s_undo s p))) ->
  let s1 := fold_left (fun s dl => if Nat.ltb dl (s_lev s) then Ws (s_left s) (s_right s) (s_max s) (upd (s_undo s) dl (clean cons (s_undo s dl))) (s_lev s) else s) l s in
  s_left s1 = s_left s /\ s_right s1 = s_right s /\ forall p, s_undo s1 p = if existsb (Nat.eqb p) l && Nat.ltb p (s_lev s) then clean cons (s_undo s p) else s_undo s p.
Proof.
  intros cons. induction l as [|q l IH]; intros s P; cbn [fold_left existsb]; [repeat split|]. destruct (Nat.ltb_spec q (s_lev s)) as [B|B].
  - set (s' := Ws (s_left s) (s_right s) (s_max s) (upd (s_undo s) q (clean cons (s_undo s q))) (s_lev s)).
    assert (SU : forall p, s_undo s' p = if Nat.eqb p q then clean cons (s_undo s p) else s_undo s p) by (intros p; unfold s'; cbn [s_undo]; rewrite upd_eq; destruct (Nat.eqb_spec p q) as [-> |]; auto).
    assert (P' : forall p, plain (clean cons (s_undo s' p))). { intros p. rewrite SU. specialize (P p). destruct (Nat.eqb p q); auto. now rewrite clean_plain. }
    destruct (IH s' P') as [A1 [A2 A3]]. repeat split; auto. intros p. rewrite A3, SU. unfold s'; cbn [s_lev]. destruct (Nat.eqb_spec p q) as [-> |N]; cbn [orb]; auto. destruct (Nat.ltb_spec q (s_lev s)); try lia. cbn [andb]. destruct (existsb (Nat.eqb q) l); cbn [andb]; auto. now apply clean_plain.
  - destruct (IH s P) as [A1 [A2 A3]]. repeat split; auto. intros p. rewrite A3. destruct (Nat.eqb_spec p q) as [-> |N]; cbn [orb]; auto. destruct (Nat.ltb_spec q (s_lev s)); try lia. now rewrite !andb_false_r.
Qed.
Lemma cnt_L : forall p c l, cnt c (csL p l) = reqLeft p c l.
Proof. intros p c l. unfold cnt, csL, reqLeft. induction l as [|o l IH]; cbn; auto. rewrite filter_app, app_length, IH. destruct o as [q d|q d|q d]; cbn; auto. destruct (Nat.eqb q p); cbn; auto. rewrite (Nat.eqb_sym d). destruct (Nat.eqb c d); reflexivity. Qed.
Lemma cnt_R : forall p c l, cnt c (csR p l) = reqRight p c l.
Proof. intros p c l. unfold cnt, csR, reqRight. induction l as [|o l IH]; cbn; auto. rewrite filter_app, app_length, IH. destruct o as [q d|q d|q d]; cbn; auto. destruct (Nat.eqb q p); cbn; auto. rewrite (Nat.eqb_sym d). destruct (Nat.eqb c d); reflexivity. Qed.
Lemma cnt_U : forall p c l, cnt c (csU p l) = reqUndo p c l.
Proof. intros p c l. unfold cnt, csU, reqUndo. induction l as [|o l IH]; cbn; auto. rewrite filter_app, app_length, IH. destruct o as [q d|q d|q d]; cbn; auto. destruct (Nat.eqb q p); cbn; auto. rewrite (Nat.eqb_sym d). destruct (Nat.eqb c d); reflexivity. Qed.
Lemma cs_in : forall p c l, (In c (csL p l) -> In (RemLeft p c) l) /\ (In c (csR p l) -> In (RemRight p c) l) /\ (In c (csU p l) -> In (RemUndo p c) l).
Proof.
  intros p c l. unfold csL, csR, csU. repeat split; intros X; apply in_flat_map in X as [o [O X]]; destruct o as [q d|q d|q d]; try destruct X; destruct (Nat.eqb_spec q p); try destruct X; subst; auto; try contradiction.
Qed.
Lemma not_dirty : forall cons er L0 cs, eraser er -> plain L0 -> ~ (length L0 > minSize /\ cs <> []) -> clean cons (slot er L0 cs) = slot er L0 cs.
Proof. intros cons er L0 cs OK P N. unfold clean. destruct (tagged (slot er L0 cs)) eqn:T; auto. exfalso. apply N. eapply slot_tagged; eauto. Qed.

(** For every state without marked pointers and every sequence of removals that removes all watches of the constraints it touches (as destroying
    them does): afterwards every watch list contains exactly the watches of the other constraints in unchanged order, every undo list the same
    entries in some order, and no pointer is marked. *)
Theorem c35_deferred : forall s gone l, clear s -> onLevels s l -> destroysAll s gone l ->
  (forall p, p < s_max s -> s_left (deferred s l) p = without gone (s_left s p) /\ s_right (deferred s l) p = without gone (s_right s p)) /\
  (forall dl, dl < s_lev s -> Permutation (s_undo (deferred s l) dl) (without gone (s_undo s dl))) /\
  (forall p, p < s_max s -> forall x, In x (s_left (deferred s l) p) \/ In x (s_right (deferred s l) p) -> w_tag x = false).
Proof.
  intros s gone l CL OL [G1 [G2 G3]]. pose proof (j_all s CL l) as I. unfold deferred. destruct (fold_left lazyRem l (s, D [] [] [] None)) as [s' d]. cbn [fst snd] in I. destruct I as [I1 I2 I3 I4 I5 I6 I7 I8 I9 I10 I11 I12].
  assert (GC : forall c, In c (d_cons d) -> gone c = true) by (intros c C; destruct (I8 c C) as [o [O1 O2]]; rewrite <- O2; auto).
  assert (AL : forall p, p < s_max s -> clean (d_cons d) (s_left s' p) = without gone (s_left s p) /\ plain (clean (d_cons d) (s_left s' p))).
  { intros p L. rewrite I3. apply Nat.ltb_lt in L as L'. rewrite L'. destruct (slot_clean erase (s_left s p) (csL p l) (d_cons d) gone) as [_ [A B]]; auto using erase_er, pL.
    - intros c C. apply cs_in in C. apply (G1 _ C).
    - intros c C. rewrite cnt_L. apply G2; auto.
    - intros Q c C. eapply I9; eauto. }
  assert (AR : forall p, p < s_max s -> clean (d_cons d) (s_right s' p) = without gone (s_right s p) /\ plain (clean (d_cons d) (s_right s' p))).
  { intros p L. rewrite I4. apply Nat.ltb_lt in L as L'. rewrite L'. destruct (slot_clean erase (s_right s p) (csR p l) (d_cons d) gone) as [_ [A B]]; auto using erase_er, pR.
    - intros c C. apply cs_in in C. apply (G1 _ C).
    - intros c C. rewrite cnt_R. apply G2; auto.
    - intros Q c C. eapply I10; eauto. }
  assert (AU : forall p, p < s_lev s -> Permutation (clean (d_cons d) (s_undo s' p)) (without gone (s_undo s p)) /\ plain (clean (d_cons d) (s_undo s' p))).
  { intros p L. rewrite I5. destruct (slot_clean swapOut (s_undo s p) (csU p l) (d_cons d) gone) as [A [_ B]]; auto using swap_er, pU.
    - intros c C. apply cs_in in C. apply (G1 _ C).
    - intros c C. rewrite cnt_U. apply G3; auto.
    - intros Q c C. eapply I11; eauto. }
  unfold cleanup.
  assert (P1 : forall p, plain (clean (d_cons d) (s_left s' p)) /\ plain (clean (d_cons d) (s_right s' p))).
  { intros p. destruct (Nat.ltb_spec p (s_max s)) as [L|L]; [split; [apply AL|apply AR]; auto|]. apply Nat.ltb_ge in L. rewrite I3, I4, L. rewrite !clean_plain; auto using pL, pR. }
  destruct (fold_lits (d_cons d) (d_lits d) s' P1) as [F1 [F2 [F3 F4]]]. set (s1 := fold_left _ (d_lits d) s') in *.
  assert (P2 : forall p, plain (clean (d_cons d) (s_undo s1 p))).
  { intros p. rewrite F2. destruct (Nat.ltb_spec p (s_lev s)) as [L|L]; [apply AU; auto|]. rewrite I5. assert (E : csU p l = []). { destruct (csU p l) as [|c r] eqn:E; auto. exfalso. assert (C : In c (csU p l)) by (rewrite E; now left). apply cs_in in C. apply OL in C. lia. }
    rewrite E. unfold slot, many. cbn [fold_left]. replace (if Nat.leb (length (s_undo s p)) minSize then s_undo s p else s_undo s p) with (s_undo s p) by (destruct (Nat.leb (length (s_undo s p)) minSize); reflexivity). rewrite clean_plain; apply pU; auto. }
  destruct (fold_levs (d_cons d) (d_levs d) s1 P2) as [K1 [K2 K3]]. set (s2 := fold_left _ (d_levs d) s1) in *.
  assert (RL : forall p, p < s_max s -> s_left s2 p = without gone (s_left s p) /\ plain (s_left s2 p)).
  { intros p L. destruct (AL p L) as [A B]. rewrite <- A. rewrite K1. destruct (F4 p) as [X _]. rewrite X, I1. apply Nat.ltb_lt in L as L'. rewrite L', andb_true_r. destruct (existsb (Nat.eqb p) (d_lits d)) eqn:EX; auto.
    assert (E : clean (d_cons d) (s_left s' p) = s_left s' p). { rewrite I3, L'. apply not_dirty; auto using erase_er, pL. intros N. assert (In p (d_lits d)) by (apply I6; auto). rewrite <- not_true_iff_false in EX. apply EX. apply existsb_exists. exists p. split; auto. apply Nat.eqb_refl. }
    rewrite E in *. auto. }
  assert (RR : forall p, p < s_max s -> s_right s2 p = without gone (s_right s p) /\ plain (s_right s2 p)).
  { intros p L. destruct (AR p L) as [A B]. rewrite <- A. rewrite K2. destruct (F4 p) as [_ X]. rewrite X, I1. apply Nat.ltb_lt in L as L'. rewrite L', andb_true_r. destruct (existsb (Nat.eqb p) (d_lits d)) eqn:EX; auto.
    assert (E : clean (d_cons d) (s_right s' p) = s_right s' p). { rewrite I4, L'. apply not_dirty; auto using erase_er, pR. intros N. assert (In p (d_lits d)) by (apply I6; auto). rewrite <- not_true_iff_false in EX. apply EX. apply existsb_exists. exists p. split; auto. apply Nat.eqb_refl. }
    rewrite E in *. auto. }
  split; [intros p L; split; [apply RL|apply RR]; auto|]. split.
  - intros p L. destruct (AU p L) as [A B]. rewrite <- A. rewrite K3, F2, F3, I2. apply Nat.ltb_lt in L as L'. rewrite L', andb_true_r. destruct (existsb (Nat.eqb p) (d_levs d)) eqn:EX; auto.
    assert (E : clean (d_cons d) (s_undo s' p) = s_undo s' p). { rewrite I5. apply not_dirty; auto using swap_er, pU. intros N. assert (In p (d_levs d)) by (apply I7; auto). rewrite <- not_true_iff_false in EX. apply EX. apply existsb_exists. exists p. split; auto. apply Nat.eqb_refl. }
    now rewrite E.
  - intros p L x [X|X]; [destruct (RL p L) as [_ Y]|destruct (RR p L) as [_ Y]]; apply Y, X.
Qed.
Print Assumptions c35_deferred.

Lemma now_all : forall l s, s_max (immediate s l) = s_max s /\ (forall p, s_left (immediate s l) p = (if Nat.ltb p (s_max s) then many erase (csL p l) (s_left s p) else s_left s p)) /\
  (forall p, s_right (immediate s l) p = (if Nat.ltb p (s_max s) then many erase (csR p l) (s_right s p) else s_right s p)) /\ (forall p, s_undo (immediate s l) p = many swapOut (csU p l) (s_undo s p)).
Proof.
  unfold immediate. induction l as [|o l IH]; intros s; cbn [fold_left]; [unfold many; cbn [csL csR csU flat_map fold_left]; repeat split; intros p; destruct (Nat.ltb p (s_max s)); reflexivity|].
  destruct (IH (nowRem s o)) as [A1 [A2 [A3 A4]]]. rewrite A1. assert (M : s_max (nowRem s o) = s_max s) by (destruct o; cbn; auto; destruct (Nat.leb (s_max s) p); reflexivity). rewrite M in *. split; auto.
  assert (SNL : forall p, csL p (o :: l) = match o with RemLeft q c => if Nat.eqb q p then [c] else [] | _ => [] end ++ csL p l) by reflexivity.
  assert (SNR : forall p, csR p (o :: l) = match o with RemRight q c => if Nat.eqb q p then [c] else [] | _ => [] end ++ csR p l) by reflexivity.
  assert (SNU : forall p, csU p (o :: l) = match o with RemUndo q c => if Nat.eqb q p then [c] else [] | _ => [] end ++ csU p l) by reflexivity.
  split; [|split]; intros p; rewrite ?A2, ?A3, ?A4, ?SNL, ?SNR, ?SNU; destruct o as [q c|q c|q c]; cbn [nowRem app]; try reflexivity.
  - destruct (Nat.leb_spec (s_max s) q) as [B|B]; destruct (Nat.ltb_spec p (s_max s)) as [L|L]; auto.
    + destruct (Nat.eqb_spec q p); [lia|reflexivity].
    + cbn [s_left]. rewrite upd_eq. destruct (Nat.eqb_spec p q) as [-> |N]; [rewrite Nat.eqb_refl; reflexivity|]. destruct (Nat.eqb_spec q p); [congruence|reflexivity].
    + cbn [s_left]. rewrite upd_eq. destruct (Nat.eqb_spec p q); [lia|reflexivity].
  - destruct (Nat.leb (s_max s) q); reflexivity.
  - destruct (Nat.leb (s_max s) q); reflexivity.
  - destruct (Nat.leb_spec (s_max s) q) as [B|B]; destruct (Nat.ltb_spec p (s_max s)) as [L|L]; auto.
    + destruct (Nat.eqb_spec q p); [lia|reflexivity].
    + cbn [s_right]. rewrite upd_eq. destruct (Nat.eqb_spec p q) as [-> |N]; [rewrite Nat.eqb_refl; reflexivity|]. destruct (Nat.eqb_spec q p); [congruence|reflexivity].
    + cbn [s_right]. rewrite upd_eq. destruct (Nat.eqb_spec p q); [lia|reflexivity].
  - destruct (Nat.leb (s_max s) q); reflexivity.
  - destruct (Nat.leb (s_max s) q); reflexivity.
  - cbn [s_undo]. rewrite upd_eq. destruct (Nat.eqb_spec p q) as [-> |N]; [rewrite Nat.eqb_refl; reflexivity|]. destruct (Nat.eqb_spec q p); [congruence|reflexivity].
Qed.
(** The result is the same as that of immediate removal; undo lists may differ in order. *)
Theorem c35_same : forall s gone l, clear s -> onLevels s l -> destroysAll s gone l ->
  (forall p, p < s_max s -> s_left (deferred s l) p = s_left (immediate s l) p /\ s_right (deferred s l) p = s_right (immediate s l) p) /\
  (forall dl, dl < s_lev s -> Permutation (s_undo (deferred s l) dl) (s_undo (immediate s l) dl)).
Proof.
  intros s gone l CL OL G. destruct (c35_deferred s gone l CL OL G) as [A [B _]]. destruct (now_all l s) as [_ [N1 [N2 N3]]]. destruct G as [G1 [G2 G3]]. split.
  - intros p L. destruct (A p L) as [A1 A2]. rewrite A1, A2, N1, N2. apply Nat.ltb_lt in L as L'. rewrite L'. split; symmetry; apply many_without_eq.
    + intros c C. apply cs_in in C. apply (G1 _ C).
    + intros c C. rewrite cnt_L. apply G2; auto.
    + intros c C. apply cs_in in C. apply (G1 _ C).
    + intros c C. rewrite cnt_R. apply G2; auto.
  - intros p L. rewrite (B p L), N3. symmetry. apply many_without; [apply swap_er| |].
    + intros c C. apply cs_in in C. apply (G1 _ C).
    + intros c C. rewrite cnt_U. apply G3; auto.
Qed.
Print Assumptions c35_same.

(** The condition is necessary: if a constraint gives up one watch but keeps another (as when a watch is moved), the clean-up may remove both. *)
Definition wl (l : list nat) : list watch := map (fun c => W c false c) l.
Definition xS : wst := Ws (fun p => match p with 0 => wl [1; 2; 3; 4; 5; 1] | 1 => wl [2; 3; 6; 7; 8] | _ => [] end) (fun p => match p with 0 => wl [9] | 1 => wl [10; 9; 11; 12; 13; 14] | _ => [] end) 2
  (fun dl => match dl with 0 => wl [1; 9; 9; 3; 4; 5] | 1 => wl [1; 9; 2] | _ => [] end) 2.
Theorem c35_partial_removal_refuted : exists s l, clear s /\ onLevels s l /\
  map w_con (s_left (immediate s l) 1) = [2; 3; 6; 8] /\ map w_con (s_left (deferred s l) 1) = [3; 6; 8].
Proof.
  exists xS, [RemLeft 0 2; RemLeft 1 7]. split; [|split; [intros dl c [X|[X|[]]]; discriminate|split; vm_compute; reflexivity]].
  intros i x. unfold xS, wl. cbn [s_left s_right s_undo]. rewrite <- !in_app_iff. destruct i as [|[|i]]; cbn; intuition (subst; reflexivity).
Qed.
Print Assumptions c35_partial_removal_refuted.

Definition xL : list rem := [RemLeft 0 1; RemRight 0 9; RemLeft 0 1; RemRight 1 9; RemUndo 0 1; RemUndo 1 9; RemUndo 0 9; RemUndo 0 9; RemUndo 1 1].
Example c35_nonvacuous : clear xS /\ onLevels xS xL /\ destroysAll xS (fun c => Nat.eqb c 1 || Nat.eqb c 9) xL /\
  map w_con (s_left (deferred xS xL) 0) = [2; 3; 4; 5] /\ map w_con (s_right (deferred xS xL) 1) = [10; 11; 12; 13; 14] /\ map w_con (s_undo (deferred xS xL) 0) = [3; 4; 5].
Proof.
  split; [intros i x; unfold xS, wl; cbn [s_left s_right s_undo]; rewrite <- !in_app_iff; destruct i as [|[|i]]; cbn; intuition (subst; reflexivity)|].
  split; [intros dl c X; cbn in X; intuition (try discriminate); match goal with H : RemUndo _ _ = _ |- _ => injection H as <- <- end; cbn; lia|].
  split; [|repeat split; vm_compute; reflexivity].
  split; [intros o O; cbn in O; intuition (subst; reflexivity)|].
  split; intros p c L G; apply orb_true_iff in G as [G|G]; apply Nat.eqb_eq in G; subst c; destruct p as [|[|p]]; cbn in L; try lia; vm_compute; try split; lia.
Qed.
Print Assumptions c35_nonvacuous.
