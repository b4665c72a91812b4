From Coq Require Import List Bool Arith ZArith Lia Permutation Sorting.Sorted.
From Verif Require Import RdModel RdSpec.
Import ListNotations.

Section L.
Variable t : settings.
Lemma less_worse : forall a b, less t a b = true <-> worse (t_score t) a b.
Proof.
  intros a b. unfold less, compare, worse, scoreAct, scoreLbd, scoreBoth. rewrite Z.ltb_lt. unfold scoreLbd.
  replace (127 + 1 - k_lbd a)%Z with (128 - k_lbd a)%Z by lia. replace (127 + 1 - k_lbd b)%Z with (128 - k_lbd b)%Z by lia.
  generalize ((k_act a + 1) * (128 - k_lbd a))%Z ((k_act b + 1) * (128 - k_lbd b))%Z. intros x y. destruct (t_score t); cbn [Z.eqb negb]; try lia.
  - destruct (Z.eqb_spec (k_act a - k_act b) 0); cbn [negb]; lia.
  - destruct (Z.eqb_spec (128 - k_lbd a - (128 - k_lbd b)) 0); cbn [negb]; lia.
Qed.
Lemma nless : forall a b, less t a b = false <-> ~ worse (t_score t) a b.
Proof. intros a b. rewrite <- less_worse. destruct (less t a b); split; congruence. Qed.
Lemma le_refl_ : forall a, less t a a = false.
Proof. intros a. apply nless. unfold worse. destruct (t_score t); lia. Qed.
Lemma le_trans_ : forall a b c, less t b a = false -> less t c b = false -> less t c a = false.
Proof. intros a b c. rewrite !nless. unfold worse. destruct (t_score t); lia. Qed.
Lemma lt_asym : forall a b, less t a b = true -> less t b a = false.
Proof. intros a b. rewrite nless, less_worse. unfold worse. destruct (t_score t); lia. Qed.

Definition cand (c : con) : bool := negb (k_lock c) && negb (isGlue t c) && negb (isFrozen t c).
Lemma cand_not : forall c, cand c = true <-> ~ protected t c.
Proof.
  intros c. unfold cand, protected, isGlue, isFrozen. destruct (Z.leb_spec (k_lbd c) (t_glue t)), (Z.leb_spec (k_lbd c) (t_protect t)), (k_lock c), (k_bump c); cbn; split; intros; try discriminate; try lia; auto; try (exfalso; intuition lia).
  all: intuition (try discriminate; try lia).
Qed.
Lemma heap_max : forall lt l x, (forall a, lt a a = false) -> (forall a b c, lt b a = false -> lt c b = false -> lt c a = false) -> isHeap lt (x :: l) -> forall y, In y (x :: l) -> lt x y = false.
Proof.
  intros lt l x R T H y Y. apply In_nth_error in Y as [i Y]. revert y Y. induction i as [i IH] using lt_wf_ind. intros y Y. destruct i as [|i]; [cbn in Y; injection Y as <-; apply R|].
  assert (L : i / 2 < S i) by (pose proof (Nat.div_le_upper_bound i 2 i); lia).
  destruct (nth_error (x :: l) (i / 2)) as [p|] eqn:P; [|apply nth_error_None in P; assert (S i < length (x :: l)) by (apply nth_error_Some; congruence); lia].
  eapply T; [exact (H i p y Y P)|exact (IH _ L p P)].
Qed.

(** What a reduction has to do *)
Record Good (maxR : nat) (l K r : list con) : Prop := {
  d_perm : Permutation (K ++ r) l;
  d_cand : forall x, In x r -> cand x = true;
  d_len : length r <= maxR }.
Lemma linear_ok : forall active l maxR k r, reduceLinear t active maxR l = (k, r) ->
  exists K, k = map dec K /\ Good maxR l K r /\ subseq K l /\ (forall x, In x r -> active x = false) /\
    (StronglySorted (fun a b => less t b a = false) l -> forall x y, In x r -> In y K -> cand y = true -> active y = false -> less t y x = false) /\
    ((forall x, active x = false) -> length r = Nat.min maxR (length (filter cand l))).
Proof.
  intros active. induction l as [|c l IH]; intros maxR k r E; cbn [reduceLinear] in E.
  - injection E as <- <-. exists []. split; [reflexivity|]. split; [constructor; [auto|intros x []|cbn; lia]|]. split; [constructor|]. split; [intros x []|]. split; [intros _ x y []|]. cbn. intros _. lia.
  - destruct (Nat.eqb maxR 0 || k_lock c || (active c || isGlue t c) || isFrozen t c) eqn:C.
    + destruct (reduceLinear t active maxR l) as [k' r'] eqn:E'. injection E as <- <-. destruct (IH _ _ _ E') as [K [-> [G [S1 [A [O N]]]]]]. exists (c :: K). split; [reflexivity|].
      assert (G0 : maxR = 0 -> r' = []) by (intros ->; destruct r'; auto; pose proof (d_len _ _ _ _ G); cbn in *; lia).
      split; [constructor; [cbn; constructor; apply G|apply G|apply G]|]. split; [now constructor|]. split; [auto|]. split.
      * intros S x y X [<- |Y] CY AY; [|inversion S; subst; auto]. exfalso. unfold cand in CY. destruct (Nat.eqb_spec maxR 0) as [Z|Z]; [rewrite (G0 Z) in X; destruct X|]. rewrite AY in C. cbn [orb] in C. destruct (k_lock c), (isGlue t c), (isFrozen t c); discriminate.
      * intros AF. cbn [filter]. destruct (Nat.eqb_spec maxR 0) as [Z|Z]; [rewrite (G0 Z), Z; reflexivity|]. rewrite (AF c) in C. cbn [orb] in C. unfold cand at 1. destruct (k_lock c), (isGlue t c), (isFrozen t c); try discriminate; cbn [negb andb]; auto.
    + destruct (reduceLinear t active (pred maxR) l) as [k' r'] eqn:E'. injection E as <- <-. destruct (IH _ _ _ E') as [K [-> [G [S1 [A [O N]]]]]]. exists K. split; [reflexivity|].
      repeat (apply orb_false_iff in C; destruct C as [C ?]). apply Nat.eqb_neq in C. match goal with H : active c || isGlue t c = false |- _ => apply orb_false_iff in H as [AC GC] end.
      assert (CC : cand c = true). { unfold cand. destruct (k_lock c), (isGlue t c), (isFrozen t c); try discriminate; auto. }
      split; [constructor|].
      * symmetry. apply Permutation_cons_app. symmetry. apply G.
      * intros x [<- |X]; auto. apply G, X.
      * pose proof (d_len _ _ _ _ G). cbn. lia.
      * split; [now constructor|]. split; [intros x [<- |X]; auto|]. split.
        -- intros S x y [<- |X] Y CY AY; [|inversion S; subst; eapply O; eauto]. inversion S as [|? ? S2 S3]; subst. rewrite Forall_forall in S3. apply S3. eapply Permutation_in; [apply G|]. apply in_or_app. now left.
        -- intros AF. cbn [filter]. rewrite CC. cbn [length]. rewrite (N AF). lia.
Qed.
Lemma insert_perm : forall c l, Permutation (insert t c l) (c :: l).
Proof. induction l as [|d l IH]; cbn; auto. destruct (less t d c); auto. rewrite IH. apply perm_swap. Qed.
Lemma sort_perm : forall l, Permutation (stableSort t l) l.
Proof. induction l as [|c l IH]; cbn; auto. rewrite insert_perm. now constructor. Qed.
Lemma insert_sorted : forall c l, StronglySorted (fun a b => less t b a = false) l -> StronglySorted (fun a b => less t b a = false) (insert t c l).
Proof.
  intros c. induction l as [|d l IH]; intros S; cbn; [repeat constructor|]. inversion S as [|? ? S1 S2]; subst. destruct (less t d c) eqn:E.
  - constructor; auto. rewrite Forall_forall in *. intros x X. apply (Permutation_in _ (insert_perm c l)) in X as [<- |X]; auto. now apply lt_asym.
  - constructor; auto. constructor; auto. rewrite Forall_forall in *. intros x X. eapply le_trans_; [exact E|auto].
Qed.
Lemma sort_sorted : forall l, StronglySorted (fun a b => less t b a = false) (stableSort t l).
Proof. induction l as [|c l IH]; cbn; [constructor|]. now apply insert_sorted. Qed.
Lemma cands_perm : forall l l', Permutation l l' -> length (filter cand l) = length (filter cand l').
Proof. intros l l' P. induction P; cbn; auto; try lia. - destruct (cand x); cbn; auto. - destruct (cand x), (cand y); reflexivity. Qed.
Lemma sorted_ok : forall l maxR k r, reduceSorted t maxR l = (k, r) ->
  exists K, k = map dec K /\ Good maxR l K r /\ (forall x y, In x r -> In y K -> cand y = true -> less t y x = false) /\ length r = Nat.min maxR (length (filter cand l)).
Proof.
  intros l maxR k r E. unfold reduceSorted in E. set (mR := Nat.min maxR (length l)) in *. set (l' := if negb (Nat.eqb mR 0) && negb (Nat.eqb mR (length l)) then stableSort t l else l) in *.
  destruct (linear_ok (fun _ => false) l' mR k r E) as [K [-> [G [_ [_ [O N]]]]]]. exists K. split; [reflexivity|].
  assert (P : Permutation l' l) by (unfold l'; destruct (negb (Nat.eqb mR 0) && negb (Nat.eqb mR (length l))); auto; apply sort_perm).
  assert (FL : length (filter cand l) <= length l). { clear. induction l as [|c l IH]; cbn; auto. destruct (cand c); cbn; lia. }
  assert (N1 : length r = Nat.min mR (length (filter cand l))). { rewrite (N (fun _ => eq_refl)). now rewrite (cands_perm _ _ P). } clear N.
  split; [constructor; [rewrite (d_perm _ _ _ _ G); auto|apply G|pose proof (d_len _ _ _ _ G); lia]|]. split; [|lia].
  intros x y X Y C. destruct (negb (Nat.eqb mR 0) && negb (Nat.eqb mR (length l))) eqn:B; [apply O; auto; unfold l'; apply sort_sorted|].
  exfalso. apply andb_false_iff in B as [B|B]; apply negb_false_iff in B; apply Nat.eqb_eq in B.
  - pose proof (d_len _ _ _ _ G). destruct r; [destruct X|cbn in *; lia].
  - (* everything that can be removed is removed *)
    assert (C1 : length (filter cand (K ++ r)) = length (filter cand l)) by (apply cands_perm; rewrite (d_perm _ _ _ _ G); auto).
    rewrite filter_app, app_length in C1. assert (R1 : length (filter cand r) = length r). { clear - G. destruct G as [_ G _]. induction r as [|x r IH]; cbn; auto. rewrite (G x (or_introl eq_refl)). cbn. rewrite IH; auto. intros y Y. apply G. now right. }
    assert (KN : filter cand K <> []). { intros Z. assert (X0 : In y (filter cand K)) by (apply filter_In; auto). rewrite Z in X0. destruct X0. }
    destruct (filter cand K); [congruence|]. cbn in C1. lia.
Qed.

Section H.
Variables (mk pop push : list con -> list con).
Hypothesis OPS : heapOps (less t) mk pop push.
Notation LE H D := (forall x y, In x H -> In y D -> cand y = true -> less t y x = false).
Lemma removelast_snoc : forall (l : list con) x, removelast (l ++ [x]) = l.
Proof. intros. apply removelast_last. Qed.
Lemma replace_max : forall x heap c D, isHeap (less t) (x :: heap) -> less t c x = true -> LE (x :: heap) D ->
  exists l', pop (x :: heap) = l' ++ [x] /\ Permutation (push (removelast (pop (x :: heap)) ++ [c])) (c :: heap) /\ isHeap (less t) (push (removelast (pop (x :: heap)) ++ [c])) /\ LE (push (removelast (pop (x :: heap)) ++ [c])) (x :: D).
Proof.
  intros x heap c D HP LT LED. destruct OPS as [_ [PO PU]]. destruct (PO x heap HP) as [l' [E [P1 H1]]]. rewrite E, removelast_snoc. destruct (PU l' c H1) as [P2 H2].
  exists l'. split; [reflexivity|]. split; [rewrite P2, P1; symmetry; apply Permutation_cons_append|]. split; auto.
  assert (MX : forall z, In z (push (l' ++ [c])) -> z = c \/ In z heap). { intros z Z. apply (Permutation_in _ P2) in Z. apply in_app_or in Z as [Z|[<- |[]]]; auto. right. now apply (Permutation_in _ P1). }
  intros z y Z [<- |Y] CY; destruct (MX z Z) as [-> |Z'].
  - now apply lt_asym.
  - apply (heap_max _ heap x le_refl_ le_trans_ HP). now right.
  - destruct (less t y c) eqn:F; auto. exfalso. pose proof (LED x y (or_introl eq_refl) Y CY) as Q. rewrite less_worse in *. rewrite nless in Q. apply Q. clear - F LT. unfold worse in *. destruct (t_score t); lia.
  - apply LED; auto. now right.
Qed.
Lemma collect_ok : forall l maxR heap D P, (maxR > 0 -> D = []) -> (maxR = 0 -> isHeap (less t) heap) -> Permutation (heap ++ D) P -> LE heap D ->
  exists D', Permutation (collect mk pop push t maxR l heap ++ D') (P ++ filter cand l) /\ LE (collect mk pop push t maxR l heap) D' /\ length (collect mk pop push t maxR l heap) = length heap + Nat.min maxR (length (filter cand l)).
Proof.
  induction l as [|c l IH]; intros maxR heap D P D0 HP PE LED; cbn [collect].
  - exists D. rewrite app_nil_r. cbn. split; auto. split; auto. lia.
  - fold (cand c). cbn [filter]. destruct (cand c) eqn:C; [|eapply IH; eauto]. cbn [length].
    assert (ASSOC : forall X, (P ++ [c]) ++ X = P ++ c :: X) by (intros X; rewrite <- app_assoc; reflexivity).
    destruct maxR as [|m].
    + assert (NOT : forall D2, Permutation (heap ++ c :: D2) (c :: heap ++ D2)) by (intros D2; symmetry; apply Permutation_middle).
      destruct heap as [|x heap].
      * destruct (IH 0 [] (c :: D) (P ++ [c])) as [D' [A1 [A2 A3]]]; [lia|auto| |intros x y []|].
        { cbn in *. rewrite PE. apply Permutation_cons_append. }
        exists D'. rewrite ASSOC in A1. split; auto.
      * destruct (less t c x) eqn:LT.
        -- destruct (replace_max x heap c D (HP eq_refl) LT LED) as [l' [E [P1 [H1 L1]]]]. destruct (IH 0 (push (removelast (pop (x :: heap)) ++ [c])) (x :: D) (P ++ [c])) as [D' [A1 [A2 A3]]]; [lia|intros _; exact H1| |exact L1|].
           { rewrite P1, <- PE. transitivity (c :: x :: heap ++ D); [cbn; constructor; symmetry; apply Permutation_middle|apply (Permutation_cons_append (x :: heap ++ D) c)]. }
           exists D'. rewrite ASSOC in A1. split; auto. split; auto. rewrite A3, (Permutation_length P1). reflexivity.
        -- destruct (IH 0 (x :: heap) (c :: D) (P ++ [c])) as [D' [A1 [A2 A3]]]; [lia|auto| | |].
           { rewrite NOT, PE. apply Permutation_cons_append. }
           { intros z y Z [<- |Y] CY; [|apply LED; auto]. eapply le_trans_; [exact (heap_max _ heap x le_refl_ le_trans_ (HP eq_refl) z Z)|exact LT]. }
           exists D'. rewrite ASSOC in A1. split; auto.
    + rewrite (D0 (Nat.lt_0_succ m)) in *. rewrite app_nil_r in PE. set (h := if Nat.eqb m 0 then mk (heap ++ [c]) else heap ++ [c]). assert (PH : Permutation h (heap ++ [c])) by (unfold h; destruct (Nat.eqb m 0); auto; apply (proj1 OPS)).
      destruct (IH m h [] (P ++ [c])) as [D' [A1 [A2 A3]]]; auto.
      { intros ->. unfold h. cbn. apply (proj1 OPS). }
      { rewrite app_nil_r, PH. now apply Permutation_app_tail. }
      { intros x y _ []. }
      exists D'. rewrite ASSOC in A1. split; auto. split; auto. rewrite A3, (Permutation_length PH), app_length. cbn. lia.
Qed.
Lemma nodup_l : forall (h D : list con), NoDup (h ++ D) -> NoDup h.
Proof. induction h as [|x h IH]; intros D N; constructor; inversion N; subst; eauto. intros X. apply H1. apply in_or_app. now left. Qed.
Lemma stable_ok : forall l maxR k r, NoDup (map k_id l) -> reduceSort mk pop push t maxR l = (k, r) -> 0 < maxR -> maxR < length l ->
  exists K, k = map dec K /\ Good maxR l K r /\ subseq K l /\ LE r K /\ length r = Nat.min maxR (length (filter cand l)).
Proof.
  intros l maxR k r ND E M1 M2. unfold reduceSort in E. rewrite Nat.min_l in E by lia. destruct (collect_ok l maxR [] [] []) as [D [A1 [A2 A3]]]; auto; [lia|intros x y []|].
  set (h := collect mk pop push t maxR l []) in *. injection E as <- <-. cbn [app length] in A1, A3. eexists. split; [reflexivity|].
  assert (SUB : forall x, In x h -> In x l /\ cand x = true). { intros x X. apply filter_In. eapply Permutation_in; [exact A1|]. apply in_or_app. now left. }
  assert (INJ : forall x y, In x l -> In y l -> k_id x = k_id y -> x = y).
  { clear - ND. induction l as [|c l IH]; intros x y X Y Q; [destruct X|]. inversion ND as [|? ? N1 N2]; subst. destruct X as [<- |X], Y as [<- |Y]; auto; exfalso; apply N1; [rewrite Q|rewrite <- Q]; now apply in_map. }
  assert (MEM : forall x, In x l -> (existsb (fun d => Nat.eqb (k_id x) (k_id d)) h = true <-> In x h)).
  { intros x X. rewrite existsb_exists. split; [intros [d [D1 D2]]; apply Nat.eqb_eq in D2; rewrite (INJ x d); auto; apply SUB, D1|intros Y; exists x; split; auto; apply Nat.eqb_refl]. }
  assert (NL : NoDup l) by (eapply NoDup_map_inv; eauto).
  assert (NH : NoDup h). { apply nodup_l with D. eapply Permutation_NoDup; [symmetry; exact A1|]. now apply NoDup_filter. }
  split; [constructor|].
  - apply NoDup_Permutation; auto.
    + assert (NF : NoDup (filter (fun c => negb (existsb (fun d => Nat.eqb (k_id c) (k_id d)) h)) l)) by now apply NoDup_filter.
      revert NF. generalize (fun x => proj1 (filter_In (fun c => negb (existsb (fun d => Nat.eqb (k_id c) (k_id d)) h)) x l)). generalize (filter (fun c => negb (existsb (fun d => Nat.eqb (k_id c) (k_id d)) h)) l).
      intros F. induction F as [|x F IH]; intros HF NF; auto. cbn. inversion NF; subst. constructor; [|apply IH; auto; intros y Y; apply HF; now right].
      intros X. apply in_app_or in X as [X|X]; [contradiction|]. destruct (HF x (or_introl eq_refl)) as [F1 F2]. apply (MEM x F1) in X. rewrite X in F2. discriminate.
    + intros x. rewrite in_app_iff, filter_In. split; [intros [[X _]|X]; auto; apply SUB, X|]. intros X. destruct (existsb (fun d => Nat.eqb (k_id x) (k_id d)) h) eqn:B; [right; now apply MEM|left; split; auto].
  - apply SUB.
  - lia.
  - split; [|split].
    + generalize (fun c => negb (existsb (fun d => Nat.eqb (k_id c) (k_id d)) h)). clear. intros f. induction l as [|c l IH]; cbn; [constructor|]. destruct (f c); now constructor.
    + intros x y X Y CY. apply filter_In in Y as [Y1 Y2]. apply A2; auto. assert (YC : In y (h ++ D)) by (eapply Permutation_in; [symmetry; exact A1|]; apply filter_In; auto). apply in_app_or in YC as [YC|YC]; auto.
      apply (MEM y Y1) in YC. rewrite YC in Y2. discriminate.
    + exact A3.
Qed.
Lemma collectIn_ok : forall l maxR heap others P h o, (maxR > 0 -> forall y, In y others -> cand y = false) -> (maxR = 0 -> isHeap (less t) heap) -> Permutation (heap ++ others) P -> LE heap others -> (forall y, In y heap -> cand y = true) ->
  collectIn mk pop push t maxR heap others l = (h, o) ->
  Permutation (h ++ o) (P ++ l) /\ LE h o /\ (forall y, In y h -> cand y = true) /\ length h = length heap + Nat.min maxR (length (filter cand l)).
Proof.
  induction l as [|c l IH]; intros maxR heap others P h o D0 HP PE LED CD E; cbn [collectIn] in E.
  - injection E as <- <-. rewrite app_nil_r. cbn. split; auto. split; auto. split; auto. lia.
  - assert (ASSOC : (P ++ [c]) ++ l = P ++ c :: l) by (rewrite <- app_assoc; reflexivity).
    assert (CE : cand c = negb (k_lock c || isGlue t c || isFrozen t c)) by (unfold cand; destruct (k_lock c), (isGlue t c), (isFrozen t c); reflexivity).
    cbn [filter]. destruct (k_lock c || isGlue t c || isFrozen t c) eqn:B; cbn [negb] in CE; rewrite CE.
    + rewrite <- ASSOC. eapply IH; [| | | |exact CD|exact E].
      * intros M y Y. apply in_app_or in Y as [Y|[<- |[]]]; auto.
      * auto.
      * rewrite app_assoc. now apply Permutation_app_tail.
      * intros x y X Y CY. apply in_app_or in Y as [Y|[<- |[]]]; auto. congruence.
    + cbn [length]. destruct maxR as [|m].
      * assert (KEEP : forall (_ : forall z, In z heap -> less t c z = false), collectIn mk pop push t 0 heap (others ++ [c]) l = (h, o) -> Permutation (h ++ o) (P ++ c :: l) /\ LE h o /\ (forall y, In y h -> cand y = true) /\ length h = length heap + Nat.min 0 (length (filter cand l))).
        { intros Q E2. rewrite <- ASSOC. eapply IH; [lia|exact HP| | |exact CD|exact E2]; [rewrite app_assoc; now apply Permutation_app_tail|]. intros x y X Y CY. apply in_app_or in Y as [Y|[<- |[]]]; auto. }
        destruct heap as [|x heap]; [apply KEEP; [intros z []|exact E]|]. destruct (less t c x) eqn:LT.
        -- destruct (replace_max x heap c others (HP eq_refl) LT LED) as [l' [EP [P1 [H1 L1]]]]. set (nh := push (removelast (pop (x :: heap)) ++ [c])) in *.
           assert (LA : last (pop (x :: heap)) c = x) by (rewrite EP; apply last_last). rewrite LA in E.
           destruct (IH 0 nh (others ++ [x]) (P ++ [c]) h o) as [A1 [A2 [A3 A4]]]; [lia|intros _; exact H1| | | |exact E|].
           { rewrite P1, <- PE. transitivity (c :: x :: heap ++ others); [cbn; constructor; rewrite app_assoc; symmetry; apply Permutation_cons_append|apply (Permutation_cons_append (x :: heap ++ others) c)]. }
           { intros z y Z Y CY. apply L1; auto. apply in_app_or in Y as [Y|[<- |[]]]; [now right|now left]. }
           { intros y Y. apply (Permutation_in _ P1) in Y as [<- |Y]; auto. apply CD. now right. }
           rewrite <- ASSOC. split; auto. split; auto. split; auto. rewrite A4, (Permutation_length P1). reflexivity.
        -- apply KEEP; [|exact E]. intros z Z. eapply le_trans_; [exact (heap_max _ heap x le_refl_ le_trans_ (HP eq_refl) z Z)|exact LT].
      * set (nh := if Nat.eqb m 0 then mk (heap ++ [c]) else heap ++ [c]) in *. assert (PH : Permutation nh (heap ++ [c])) by (unfold nh; destruct (Nat.eqb m 0); auto; apply (proj1 OPS)).
        set (no := match others with [] => [] | x :: r => r ++ [x] end) in *. assert (PO : Permutation no others) by (unfold no; destruct others; auto; symmetry; apply Permutation_cons_append).
        assert (NC : forall y, In y no -> cand y = false) by (intros y Y; apply (Permutation_in _ PO) in Y; apply D0; auto; lia).
        destruct (IH m nh no (P ++ [c]) h o) as [A1 [A2 [A3 A4]]]; auto.
        { intros ->. unfold nh. cbn. apply (proj1 OPS). }
        { rewrite PH, PO, <- PE. rewrite <- app_assoc. cbn. transitivity (c :: heap ++ others); [symmetry; apply Permutation_middle|apply Permutation_cons_append]. }
        { intros x y X Y CY. rewrite (NC y Y) in CY. discriminate. }
        { intros y Y. apply (Permutation_in _ PH) in Y. apply in_app_or in Y as [Y|[<- |[]]]; auto. }
        rewrite <- ASSOC. split; auto. split; auto. split; auto. rewrite A4, (Permutation_length PH), app_length. cbn. lia.
Qed.
Lemma heap_ok : forall l maxR k r, reduceHeap mk pop push t maxR l = (k, r) -> 0 < maxR -> maxR < length l ->
  exists K, k = map dec K /\ Good maxR l K r /\ LE r K /\ length r = Nat.min maxR (length (filter cand l)).
Proof.
  intros l maxR k r E M1 M2. unfold reduceHeap in E. rewrite Nat.min_l in E by lia. destruct (collectIn mk pop push t maxR [] [] l) as [h o] eqn:C. injection E as <- <-.
  destruct (collectIn_ok l maxR [] [] [] h o) as [A1 [A2 [A3 A4]]]; auto; try (intros ? ? []); try (intros ? []); try lia. exists o. split; [reflexivity|]. cbn [app length] in *.
  split; [constructor; [rewrite Permutation_app_comm; auto|auto|lia]|]. split; auto.
Qed.
End H.
End L.
