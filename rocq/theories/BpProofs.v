From Coq Require Import List Bool Arith ZArith Lia Sorted Permutation.
From Verif Require Import Base ClModel ClSpec ClProofs BpModel BpSpec.
Import ListNotations.

Ltac sp := repeat match goal with |- _ /\ _ => split end.

(** * Basic facts *)
Definition litOf (e : ent) : nat := fst (e_lit e).
Definition tr (t : list ent) (p : lit) (L : nat) : Prop := exists e, In e t /\ e_lit e = p /\ e_log e <= L.

Lemma isT_iff : forall s p, isT s p = true <-> tTrue (b_trail s) p.
Proof.
  intros. unfold isT, tTrue. rewrite existsb_exists. split; intros [e [A B]]; exists e; split; auto.
  - now apply lit_eqb_eq.
  - subst. apply lit_eqb_refl.
Qed.
Lemma isF_iff : forall s p, isF s p = true <-> tFalse (b_trail s) p.
Proof. intros. apply isT_iff. Qed.
Lemma isT_no : forall s p, isT s p = false -> ~ tTrue (b_trail s) p.
Proof. intros s p H K. apply isT_iff in K. congruence. Qed.
Lemma isF_no : forall s p, isF s p = false -> ~ tFalse (b_trail s) p.
Proof. intros s p H K. apply isF_iff in K. congruence. Qed.
Lemma tr_true : forall t p L, tr t p L -> tTrue t p.
Proof. intros t p L [e [A [B C]]]. exists e. auto. Qed.

Lemma nd_ent : forall t e e', NoDup (map litOf t) -> In e t -> In e' t -> litOf e = litOf e' -> e = e'.
Proof.
  induction t as [|a t IH]; cbn; intros e e' N A B E; [tauto|]. inversion N; subst.
  destruct A as [-> |A], B as [-> |B]; auto.
  - exfalso. apply H1. rewrite E. apply in_map. auto.
  - exfalso. apply H1. rewrite <- E. apply in_map. auto.
Qed.
Lemma tt_ff : forall t p, NoDup (map litOf t) -> tTrue t p -> tFalse t p -> False.
Proof.
  intros t p N [e [A B]] [e' [A' B']]. assert (e = e') by (eapply nd_ent; eauto; unfold litOf; rewrite B, B'; reflexivity).
  rewrite <- H in B'. rewrite B in B'. exact (neg_neq _ (eq_sym B')).
Qed.

Lemma find_ent : forall t v e, NoDup (map litOf t) -> In e t -> litOf e = v -> find (fun e => Nat.eqb (fst (e_lit e)) v) t = Some e.
Proof.
  induction t as [|a t IH]; cbn; intros v e N I E; [tauto|]. inversion N; subst. destruct I as [-> |I].
  - unfold litOf. rewrite Nat.eqb_refl. reflexivity.
  - destruct (Nat.eqb_spec (fst (e_lit a)) (litOf e)) as [X|X]; auto.
    exfalso. apply H1. unfold litOf at 1. rewrite X. apply in_map. auto.
Qed.
Lemma find_some_ent : forall t v e, find (fun e => Nat.eqb (fst (e_lit e)) v) t = Some e -> In e t /\ litOf e = v.
Proof. intros t v e H. apply find_some in H as [A B]. split; auto. now apply Nat.eqb_eq. Qed.

Lemma upd_same : forall (A : Type) (f : lit -> A) p x, upd f p x p = x.
Proof. intros. unfold upd. now rewrite lit_eqb_refl. Qed.
Lemma upd_other : forall (A : Type) (f : lit -> A) p q x, q <> p -> upd f p x q = f q.
Proof. intros. unfold upd. destruct (lit_eqb q p) eqn:E; auto. apply lit_eqb_eq in E. congruence. Qed.

Lemma put_at_length : forall (A : Type) (l : list A) i x, length (put_at l i x) = length l.
Proof. induction l; destruct i; cbn; intros; auto. Qed.
Lemma put_at_same : forall (A : Type) (l : list A) i x d, i < length l -> nth i (put_at l i x) d = x.
Proof. induction l; destruct i; cbn; intros; try lia; auto. apply IHl. lia. Qed.
Lemma put_at_other : forall (A : Type) (l : list A) i j x d, i <> j -> nth j (put_at l i x) d = nth j l d.
Proof. induction l; destruct i, j; cbn; intros; try lia; auto. Qed.
Lemma put_at_nth_error_other : forall (A : Type) (l : list A) i j x, i <> j -> nth_error (put_at l i x) j = nth_error l j.
Proof. induction l; destruct i, j; cbn; intros; try lia; auto. Qed.

Lemma nth_skipn : forall (A : Type) (l : list A) i j d, nth j (skipn i l) d = nth (i + j) l d.
Proof. induction l; destruct i; cbn; intros; auto. destruct j; auto. Qed.
Lemma nth_firstn_lt : forall (A : Type) n (l : list A) i d, i < n -> nth i (firstn n l) d = nth i l d.
Proof. induction n; intros [|a l] [|i] d H; cbn; try lia; auto. apply IHn. lia. Qed.

(** * Clause structure *)
Definition nf (q : lit) : bool := negb (lit_eqb q lit_false).
Definition clits (c : cls) : list lit :=
  match bd c with
  | Small a b => h0 c :: h1 c :: filter nf [h2 c; a; b]
  | Large tl _ => h0 c :: h1 c :: h2 c :: tl
  | Shared ls => ls
  end.
Definition smOk (c : cls) : Prop := match bd c with Small a b => (h2 c = lit_false -> a = lit_false) /\ (a = lit_false -> b = lit_false) | _ => True end.
Record wfc (c : cls) : Prop := {
  wf_nd : NoDup (map fst (clits c));
  wf_nz : forall q, In q (clits c) -> fst q <> 0;
  wf_h : forall b, In (head c b) (clits c);
  wf_01 : h0 c <> h1 c;
  wf_2 : h2 c = lit_false \/ In (h2 c) (clits c);
  wf_2h : forall b, h2 c <> head c b;
  wf_sm : smOk c }.

Lemma head_neq : forall c b, wfc c -> head c b <> head c (negb b).
Proof. intros c [] W; cbn; pose proof (wf_01 c W); congruence. Qed.
Lemma head_dec : forall c b b', wfc c -> head c b = head c b' -> b = b'.
Proof. intros c b b' W E. destruct b, b'; auto; cbn in E; exfalso; apply (wf_01 c W); congruence. Qed.
Lemma head_set : forall c w x, head (set_head c w x) w = x /\ head (set_head c w x) (negb w) = head c (negb w).
Proof. intros c [] x; cbn; auto. Qed.
Lemma nd_lits : forall (l : list lit) p q, NoDup (map fst l) -> In p l -> In q l -> fst p = fst q -> p = q.
Proof.
  induction l as [|a l IH]; cbn; intros p q N A B E; [tauto|]. inversion N; subst.
  destruct A as [-> |A], B as [-> |B]; auto.
  - exfalso. apply H1. rewrite E. apply in_map. auto.
  - exfalso. apply H1. rewrite <- E. apply in_map. auto.
Qed.

Lemma perm_put : forall (l : list lit) j h d, j < length l -> Permutation (h :: l) (nth j l d :: put_at l j h).
Proof.
  induction l as [|a l IH]; cbn; intros j h d H; [lia|]. destruct j as [|j]; [apply perm_swap|].
  eapply perm_trans; [apply perm_swap|]. eapply perm_trans; [apply perm_skip, (IH j h d); lia|]. apply perm_swap.
Qed.
Lemma perm_filter : forall (f : lit -> bool) l l', Permutation l l' -> Permutation (filter f l) (filter f l').
Proof.
  induction 1; cbn; auto.
  - destruct (f x); auto.
  - destruct (f x), (f y); auto. apply perm_swap.
  - eapply perm_trans; eauto.
Qed.

Lemma find_nf_some : forall s l k j, find_nf s l k = Some j -> k <= j < k + length l /\ isF s (nth (j - k) l lit_false) = false.
Proof.
  induction l as [|a l IH]; cbn; intros k j H; [discriminate|]. destruct (isF s a) eqn:E.
  - apply IH in H as [A B]. split; [lia|]. replace (j - k) with (S (j - S k)) by lia. exact B.
  - inversion H; subst. rewrite Nat.sub_diag. split; [lia|auto].
Qed.
Lemma find_nf_none : forall s l k, find_nf s l k = None -> forall q, In q l -> isF s q = true.
Proof.
  induction l as [|a l IH]; cbn; intros k H q I; [tauto|]. destruct (isF s a) eqn:E; [|discriminate].
  destruct I as [-> |I]; eauto.
Qed.
Lemma shared_scan_some : forall s o ls r q, shared_scan s o ls = Some (r, q) -> NoDup (map fst ls) ->
  In r ls /\ isF s r = false /\ r <> o /\
  (forall x, q = Some x -> In x ls /\ isF s x = false /\ x <> o /\ x <> r).
Proof.
  induction ls as [|a ls IH]; cbn; intros r q H N; [discriminate|]. inversion N; subst.
  destruct (negb (isF s a) && negb (lit_eqb a o)) eqn:E.
  - apply andb_true_iff in E as [E1 E2]. apply negb_true_iff in E1, E2. inversion H; subst. sp; auto.
    + apply lit_eqb_neq. auto.
    + intros x F. apply find_some in F as [F1 F2]. apply andb_true_iff in F2 as [G1 G2]. apply negb_true_iff in G1, G2.
      assert (In x ls) by (rewrite <- (firstn_skipn 7 ls); apply in_or_app; auto).
      sp; auto.
      * apply lit_eqb_neq. auto.
      * intros ->. apply H2. apply in_map. auto.
  - destruct (IH r q H H3) as [A [B [C D]]]. sp; auto. intros x F. destruct (D x F) as [D1 [D2 [D3 D4]]]. auto.
Qed.
Lemma shared_scan_none : forall s o ls, shared_scan s o ls = None -> forall q, In q ls -> q <> o -> isF s q = true.
Proof.
  induction ls as [|a ls IH]; cbn; intros H q I N; [tauto|].
  destruct (negb (isF s a) && negb (lit_eqb a o)) eqn:E; [discriminate|].
  destruct I as [-> |I]; [|eauto]. destruct (isF s q); auto. cbn in E. apply negb_false_iff, lit_eqb_eq in E. congruence.
Qed.

Lemma perm_mid : forall (x y : lit) l1 l2, Permutation (x :: l1 ++ y :: l2) (y :: l1 ++ x :: l2).
Proof.
  intros. eapply perm_trans; [apply perm_skip, Permutation_sym, Permutation_middle|].
  eapply perm_trans; [apply perm_swap|]. apply perm_skip. apply Permutation_middle.
Qed.
Lemma nf_iff : forall q, nf q = true <-> q <> lit_false.
Proof. intros. unfold nf. rewrite negb_true_iff. split; [apply lit_eqb_neq|]. intros H. destruct (lit_eqb q lit_false) eqn:E; auto. apply lit_eqb_eq in E. congruence. Qed.
Lemma nodup_map_fst : forall (l : list lit), NoDup (map fst l) -> NoDup l.
Proof. intros l. apply NoDup_map_inv. Qed.

Lemma swap_wf : forall c c' w x l1 l2, wfc c ->
  clits c = h0 c :: h1 c :: l1 ++ x :: l2 -> clits c' = h0 c' :: h1 c' :: l1 ++ head c w :: l2 ->
  head c' w = x -> head c' (negb w) = head c (negb w) ->
  (h2 c' = lit_false \/ In (h2 c') (l1 ++ head c w :: l2)) -> smOk c' ->
  wfc c' /\ Permutation (clits c) (clits c') /\ x <> head c (negb w) /\ x <> head c w /\ In x (clits c).
Proof.
  intros c c' w x l1 l2 W E E' HX HO H2 SM.
  assert (P : Permutation (clits c) (clits c')).
  { rewrite E, E'. destruct w; cbn in *; subst.
    - rewrite HO. apply perm_skip. apply perm_mid.
    - rewrite HO. eapply perm_trans; [apply perm_swap|]. eapply perm_trans; [|apply perm_swap]. apply perm_skip. apply perm_mid. }
  assert (N : NoDup (clits c)) by (apply nodup_map_fst, (wf_nd c W)).
  assert (N' : NoDup (clits c')) by (eapply Permutation_NoDup; eauto).
  assert (IX : In x (l1 ++ x :: l2)) by (apply in_or_app; right; now left).
  assert (XH : forall b, x <> head c b).
  { intros b Y. rewrite E in N. inversion N as [|? ? A N1]; subst. inversion N1 as [|? ? B N2]; subst. destruct b; cbn in Y; rewrite <- Y in *.
    - apply B. auto.
    - apply A. right. auto. }
  split; [|split; [exact P|split; [apply XH|split; [apply XH|rewrite E; right; right; exact IX]]]].
  constructor.
  - eapply Permutation_NoDup; [|exact (wf_nd c W)]. apply Permutation_map. exact P.
  - intros q Q. apply (wf_nz c W). eapply Permutation_in; [apply Permutation_sym; exact P|exact Q].
  - intros b. rewrite E'. destruct b; cbn; auto.
  - intros Y. rewrite E' in N'. inversion N' as [|? ? A _]; subst. apply A. rewrite Y. now left.
  - destruct H2 as [H2|H2]; auto. right. rewrite E'. right; right; auto.
  - intros b Y. destruct H2 as [H2|H2].
    + rewrite H2 in Y. assert (Z : In (head c' b) (clits c')) by (rewrite E'; destruct b; cbn; auto).
      rewrite <- Y in Z. assert (fst lit_false <> 0). { apply (wf_nz c W). eapply Permutation_in; [apply Permutation_sym; exact P|exact Z]. }
      now apply H.
    + rewrite E' in N'. inversion N' as [|? ? A N1]; subst. inversion N1 as [|? ? B N2]; subst. destruct b; cbn in Y; rewrite <- Y in *.
      * apply B. auto.
      * apply A. right. auto.
  - exact SM.
Qed.

Lemma put_at_split : forall (l : list lit) j h d, j < length l ->
  l = firstn j l ++ nth j l d :: skipn (S j) l /\ put_at l j h = firstn j l ++ h :: skipn (S j) l.
Proof.
  induction l as [|a l IH]; cbn; intros j h d H; [lia|]. destruct j as [|j]; [split; reflexivity|].
  destruct (IH j h d ltac:(lia)) as [A B]. cbn. split; f_equal; auto.
Qed.

Lemma updateWatch_some : forall s c w c', wfc c -> isF s lit_false = true -> isF s (h2 c) = true ->
  updateWatch s c w = Some c' ->
  wfc c' /\ (forall q, In q (clits c') <-> In q (clits c)) /\ head c' (negb w) = head c (negb w) /\
  isF s (head c' w) = false /\ In (head c' w) (clits c) /\ head c' w <> head c (negb w) /\
  (isF s (head c w) = true -> head c' w <> head c w).
Proof.
  intros s c w c' W FF F2 U.
  assert (FIN : forall x l1 l2, isF s x = false -> clits c = h0 c :: h1 c :: l1 ++ x :: l2 -> clits c' = h0 c' :: h1 c' :: l1 ++ head c w :: l2 ->
    head c' w = x -> head c' (negb w) = head c (negb w) -> (h2 c' = lit_false \/ In (h2 c') (l1 ++ head c w :: l2)) -> smOk c' ->
    wfc c' /\ (forall q, In q (clits c') <-> In q (clits c)) /\ head c' (negb w) = head c (negb w) /\
    isF s (head c' w) = false /\ In (head c' w) (clits c) /\ head c' w <> head c (negb w) /\
    (isF s (head c w) = true -> head c' w <> head c w)).
  { intros x l1 l2 FX E E' HX HO H2 SM. destruct (swap_wf c c' w x l1 l2 W E E' HX HO H2 SM) as [Q1 [Q2 [Q3 [Q4 Q5]]]].
    rewrite HX. sp; auto. intros q. split; intros; [apply (Permutation_in _ (Permutation_sym Q2)); auto|apply (Permutation_in _ Q2); auto]. }
  unfold updateWatch in U. destruct (bd c) as [a b|tl idx|ls] eqn:B.
  - assert (HN : nf (head c w) = true) by (apply nf_iff; intros E; apply (wf_nz c W (head c w) (wf_h c W w)); rewrite E; reflexivity).
    destruct (isF s a) eqn:FA; cbn in U; [destruct (isF s b) eqn:FB; cbn in U; [discriminate|]|]; inversion U; subst c'; clear U.
    + assert (nf b = true) by (apply nf_iff; congruence).
      apply (FIN b (filter nf [h2 c; a]) []); auto.
      * unfold clits. rewrite B. cbn. rewrite H. destruct (nf (h2 c)), (nf a); reflexivity.
      * unfold clits. destruct w; cbn in *; rewrite HN; destruct (nf (h2 c)), (nf a); reflexivity.
      * destruct w; reflexivity.
      * destruct w; reflexivity.
      * replace (h2 (set_bd (set_head c w b) (Small a (head c w)))) with (h2 c) by (destruct w; reflexivity).
        destruct (nf (h2 c)) eqn:E2; [right; cbn; rewrite E2; now left|]. left. destruct (lit_eq_dec (h2 c) lit_false); auto. apply nf_iff in n. congruence.
      * pose proof (wf_sm c W) as SM. unfold smOk in SM |- *. rewrite B in SM. apply nf_iff in HN, H. destruct w; cbn in *; split; try tauto; intros Y; exfalso; tauto.
    + assert (nf a = true) by (apply nf_iff; congruence).
      apply (FIN a (filter nf [h2 c]) (filter nf [b])); auto.
      * unfold clits. rewrite B. cbn. rewrite H. destruct (nf (h2 c)), (nf b); reflexivity.
      * unfold clits. destruct w; cbn in *; rewrite HN; destruct (nf (h2 c)), (nf b); reflexivity.
      * destruct w; reflexivity.
      * destruct w; reflexivity.
      * replace (h2 (set_bd (set_head c w a) (Small (head c w) b))) with (h2 c) by (destruct w; reflexivity).
        destruct (nf (h2 c)) eqn:E2; [right; cbn; rewrite E2; now left|]. left. destruct (lit_eq_dec (h2 c) lit_false); auto. apply nf_iff in n. congruence.
      * pose proof (wf_sm c W) as SM. unfold smOk in SM |- *. rewrite B in SM. apply nf_iff in HN, H. destruct w; cbn in *; split; try tauto; intros Y; exfalso; tauto.
  - match type of U with (match ?r with _ => _ end) = _ => destruct r as [j|] eqn:R end; [|discriminate]. inversion U; subst c'; clear U.
    assert (J : j < length tl /\ isF s (nth j tl lit_false) = false).
    { destruct (find_nf s (skipn idx tl) idx) eqn:R1.
      - inversion R; subst. apply find_nf_some in R1 as [A1 A2]. rewrite skipn_length in A1. split; [lia|].
        rewrite nth_skipn in A2. replace (idx + (j - idx)) with j in A2 by lia. exact A2.
      - destruct (Nat.eqb idx 0); [discriminate|]. apply find_nf_some in R as [A1 A2]. rewrite firstn_length in A1. split; [lia|].
        rewrite Nat.sub_0_r in A2. rewrite nth_firstn_lt in A2 by lia. exact A2. }
    destruct J as [J1 J2]. destruct (put_at_split tl j (head c w) lit_false J1) as [S1 S2].
    apply (FIN (nth j tl lit_false) (h2 c :: firstn j tl) (skipn (S j) tl)); auto.
    + unfold clits. rewrite B. cbn. do 3 f_equal. exact S1.
    + unfold clits. replace (bd (set_bd (set_head c w (nth j tl lit_false)) (Large (put_at tl j (head c w)) (S j)))) with (Large (put_at tl j (head c w)) (S j)) by reflexivity.
      cbn [app]. rewrite S2. destruct w; reflexivity.
    + destruct w; reflexivity.
    + destruct w; reflexivity.
    + right. destruct w; cbn; auto.
    + destruct w; exact I.
  - destruct (shared_scan s (head c (negb w)) ls) as [[r q]|] eqn:R; [|discriminate]. inversion U; subst c'; clear U.
    assert (EL : clits c = ls) by (unfold clits; rewrite B; reflexivity).
    pose proof (wf_nd c W) as ND. rewrite EL in ND.
    destruct (shared_scan_some _ _ _ _ _ R ND) as [A1 [A2 [A3 A4]]].
    set (c1 := match q with Some x => set_h2 (set_head c w r) x | None => set_head c w r end).
    assert (H1 : head c1 w = r /\ head c1 (negb w) = head c (negb w) /\ clits c1 = ls /\ ((exists x, q = Some x /\ h2 c1 = x) \/ h2 c1 = h2 c) /\ bd c1 = Shared ls).
    { unfold c1, clits. destruct q as [x|], w; cbn; rewrite B; sp; auto; left; exists x; auto. }
    destruct H1 as [H1 [H2 [H3 [H4 H5]]]]. clearbody c1.
    assert (H2F : h2 c <> r) by congruence.
    assert (WF : wfc c1).
    { assert (HH : forall b, head c1 b = if eqb b w then r else head c (negb w)).
      { intros b. destruct (eqb b w) eqn:EB; [apply eqb_prop in EB; subst; auto|]. apply eqb_false_iff in EB. replace b with (negb w) by (destruct b, w; cbn; congruence). auto. }
      constructor.
      - rewrite H3. exact ND.
      - rewrite H3, <- EL. apply (wf_nz c W).
      - intros b. rewrite H3, HH. destruct (eqb b w); auto. rewrite <- EL. apply (wf_h c W).
      - intros E. assert (HT := HH true). assert (HF := HH false). cbn in HT, HF. rewrite E in HF. rewrite HT in HF. destruct w; cbn in *; congruence.
      - rewrite H3. destruct H4 as [[x [-> ->]]| ->].
        + right; apply (A4 x eq_refl).
        + rewrite <- EL; apply (wf_2 c W).
      - intros b. rewrite HH. destruct H4 as [[x [-> ->]]| ->].
        + destruct (A4 x eq_refl) as [_ [_ [X1 X2]]]. destruct (eqb b w); auto.
        + destruct (eqb b w); auto. apply (wf_2h c W).
      - unfold smOk. rewrite H5. exact I. }
    rewrite H1, H3, EL. sp; auto; try tauto. congruence.
Qed.

Lemma updateWatch_none : forall s c w, wfc c -> isF s (h2 c) = true -> updateWatch s c w = None ->
  forall q, In q (clits c) -> q <> head c (negb w) -> q = head c w \/ isF s q = true.
Proof.
  intros s c w W F2 U q Q N. unfold updateWatch in U. unfold clits in Q.
  assert (HD : In q [h0 c; h1 c] -> q = head c w).
  { cbn. intros [X|[X|[]]]; destruct w; cbn in *; congruence. }
  destruct (bd c) as [a b|tl idx|ls] eqn:B.
  - destruct (isF s a) eqn:FA; cbn in U; [|discriminate]. destruct (isF s b) eqn:FB; cbn in U; [|discriminate].
    destruct Q as [Q|[Q|Q]]; [left; apply HD; cbn; auto|left; apply HD; cbn; auto|].
    apply filter_In in Q as [Q _]. cbn in Q. destruct Q as [Q|[Q|[Q|[]]]]; subst; auto.
  - match type of U with (match ?r with _ => _ end) = _ => destruct r as [j|] eqn:R end; [discriminate|].
    destruct Q as [Q|[Q|[Q|Q]]]; [left; apply HD; cbn; auto|left; apply HD; cbn; auto|subst; auto|]. right.
    destruct (find_nf s (skipn idx tl) idx) eqn:R1; [discriminate|].
    rewrite <- (firstn_skipn idx tl) in Q. apply in_app_or in Q as [Q|Q]; [|eapply find_nf_none; eauto].
    destruct (Nat.eqb_spec idx 0) as [-> |]; [cbn in Q; tauto|]. eapply find_nf_none; eauto.
  - destruct (shared_scan s (head c (negb w)) ls) as [[r x]|] eqn:R; [discriminate|]. right. eapply shared_scan_none; eauto.
Qed.

(** * Invariants *)
Definition zf (t : list ent) (q : lit) : Prop := tr t (neg q) 0.
Definition sub (t : list ent) (c c0 : list lit) : Prop := (forall q, In q c -> In q c0) /\ (forall q, In q c0 -> In q c \/ zf t q).
Definition gc (s : st) (c : list lit) : Prop :=
  match c with
  | [a; b] => In b (b_bin s (neg a)) /\ In a (b_bin s (neg b))
  | [a; b; d] => In (b, d) (b_tern s (neg a)) /\ In (a, d) (b_tern s (neg b)) /\ In (a, b) (b_tern s (neg d))
  | _ => False
  end.
Definition byc (t : list ent) (p : lit) (g : nat) (c0 : list lit) : Prop := In p c0 /\ forall q, In q c0 -> q <> p -> tr t (neg q) g.
(** The literals [rs] are true and all other literals of the clause but [p] are false on level 0. *)
Definition cov (t : list ent) (p : lit) (g : nat) (c0 rs : list lit) : Prop :=
  (forall a, In a rs -> tr t a g) /\ forall q, In q c0 -> q = p \/ In (neg q) rs \/ zf t q.
Definition jw (D : db) (t : list ent) (p : lit) (w : why) (g : nat) : Prop :=
  match w with
  | Dec => False
  | Ext => True
  | ByC i => exists c0, nth_error (d_exp D) i = Some (Some c0) /\ byc t p g c0
  | Fact => exists c0, In c0 (d_imp D) /\ byc t p g c0 /\ cov t p g c0 []
  | By1 a => exists c0, In c0 (d_imp D) /\ byc t p g c0 /\ cov t p g c0 [a]
  | By2 a b => exists c0, In c0 (d_imp D) /\ byc t p g c0 /\ cov t p g c0 [a; b]
  end.
Definition jst (D : db) (t : list ent) (e : ent) : Prop := e_why e = Dec \/ (e_lit e = lit_true /\ e_why e = Fact) \/ jw D t (e_lit e) (e_why e) (e_log e).
Definition cl (s : st) (i : nat) : option cls := nth i (b_cls s) None.
Definition locks (s : st) (p : lit) (w : why) : Prop := forall i c, w = ByC i -> cl s i = Some c -> exists b, p = head c b.

Definition sent (t : list ent) : Prop := exists e, In e t /\ e_lit e = lit_true /\ e_lev e = 0 /\ e_log e = 0.
Lemma sent_app : forall t x, sent t -> sent (t ++ x).
Proof. intros t x [e [A B]]. exists e. split; auto. apply in_or_app; auto. Qed.
Lemma sent_tr : forall t, sent t -> tr t lit_true 0.
Proof. intros t [e [A [B [C E]]]]. exists e. rewrite E. auto. Qed.

Record Core (n : nat) (s : st) (D : db) (G : list (list lit)) : Prop := {
  k_nd : NoDup (map litOf (b_trail s));
  k_lv : forall e, In e (b_trail s) -> e_lev e <= b_dl s;
  k_so : forall t1 e t2, b_trail s = t1 ++ e :: t2 -> forall e', In e' t1 -> e_lev e' <= e_lev e;
  k_sent : sent (b_trail s);
  k_var : forall e, In e (b_trail s) -> litOf e <= n;
  k_front : b_front s <= length (b_trail s);
  k_queue : forall e, In e (skipn (b_front s) (b_trail s)) -> e_lev e = b_dl s;
  k_just : forall t1 e t2, b_trail s = t1 ++ e :: t2 -> jst D t1 e;
  k_lock : forall e, In e (b_trail s) -> locks s (e_lit e) (e_why e);
  k_len : length (d_exp D) = length (b_cls s);
  k_rep : forall i c, cl s i = Some c -> wfc c /\ exists c0, nth_error (d_exp D) i = Some (Some c0) /\ sub (b_trail s) (clits c) c0;
  k_rep2 : forall i c0, nth_error (d_exp D) i = Some (Some c0) -> exists c, cl s i = Some c;
  k_good : forall c, In c G -> gc s c /\ NoDup (map fst c) /\ exists c0, In c0 (d_imp D) /\ sub (b_trail s) c c0;
  k_imp : forall c0, In c0 (d_imp D) -> (exists p, In p c0 /\ (tr (b_trail s) p 0 \/ In (neg p) c0)) \/
            (exists c, In c G /\ sub (b_trail s) c c0) \/ (b_conf s <> None /\ b_dl s = 0);
  k_gb : forall p q, In q (b_bin s p) -> exists c, In c G /\ forall x, In x c <-> x = neg p \/ x = q;
  k_gt : forall p x y, In (x, y) (b_tern s p) -> exists c, In c G /\ length c = 3 /\ forall z, In z c <-> z = neg p \/ z = x \/ z = y;
  k_conf : forall p w, b_conf s = Some (p, w) -> w = Ext \/ (exists c0, inDb D c0 /\ violated (b_trail s) c0) /\
            (w = Fact /\ b_dl s = 0 \/ tFalse (b_trail s) p /\ jw D (b_trail s) p w (b_dl s) /\ locks s p w);
  k_vc : forall c0 q, inDb D c0 -> In q c0 -> fst q <= n;
  k_log : forall e, In e (b_trail s) -> e_log e <= e_lev e /\ (e_log e = e_lev e \/ e_lev e <= b_root s);
  k_root : b_root s <= b_dl s }.

Definition wlok (wl : lit -> list nat) (s : st) : Prop :=
  forall q, NoDup (wl q) /\ forall i, In i (wl q) <-> exists c, cl s i = Some c /\ exists b, q = neg (head c b).

(** The watch invariant of a clause and its analogue for binary and ternary clauses, w.r.t.
    the processed assignments [P]. *)
Definition Wcl (t P : list ent) (c : cls) : Prop :=
  forall b e, In e P -> e_lit e = neg (head c b) -> tr t (head c (negb b)) (e_lev e).
Definition Ucl (t P : list ent) (c : list lit) : Prop :=
  forall a L, In a c -> (forall b, In b c -> b <> a -> exists e, In e P /\ e_lit e = neg b /\ e_lev e <= L) -> tr t a L.
Definition Proc (s : st) : list ent :=
  match b_conf s with None => firstn (b_front s) (b_trail s) | Some _ => filter (fun e => e_lev e <? b_dl s) (b_trail s) end.
Definition Dyn (s : st) (G : list (list lit)) (P : list ent) : Prop :=
  (forall i c, cl s i = Some c -> Wcl (b_trail s) P c) /\ (forall c, In c G -> Ucl (b_trail s) P c).

Lemma tr_app : forall t x p L, tr t p L -> tr (t ++ x) p L.
Proof. intros t x p L [e [A [B C]]]. exists e. sp; auto. apply in_or_app; auto. Qed.
Lemma tt_app : forall t x p, tTrue t p -> tTrue (t ++ x) p.
Proof. intros t x p [e [A B]]. exists e. split; auto. apply in_or_app; auto. Qed.
Lemma sub_app : forall t x c c0, sub t c c0 -> sub (t ++ x) c c0.
Proof. intros t x c c0 [A B]. split; auto. intros q Q. destruct (B q Q); auto. right. apply tr_app. auto. Qed.

Lemma nd_snoc : forall t p l w g, NoDup (map litOf t) -> ~ tTrue t p -> ~ tFalse t p -> NoDup (map litOf (t ++ [Ent p l w g])).
Proof.
  intros t p l w g N A B. rewrite map_app. cbn. apply Permutation_NoDup with (litOf (Ent p l w g) :: map litOf t).
  - apply Permutation_cons_append.
  - constructor; auto. intros C. apply in_map_iff in C as [e [E I]]. unfold litOf in E. cbn in E.
    destruct (same_var p (e_lit e) (eq_sym E)) as [X|X].
    + apply A. exists e. auto.
    + apply B. exists e. auto.
Qed.
Lemma snoc_split : forall (t t1 : list ent) e e1 t2, t ++ [e] = t1 ++ e1 :: t2 -> (t1 = t /\ e1 = e /\ t2 = []) \/ (exists t3, t = t1 ++ e1 :: t3 /\ t2 = t3 ++ [e]).
Proof.
  intros t t1 e e1 t2 H. destruct t2 as [|x t2] using rev_ind.
  - left. apply app_inj_tail in H as [A B]. auto.
  - right. clear IHt2. rewrite app_comm_cons, app_assoc in H. apply app_inj_tail in H as [A B]. subst. eauto.
Qed.
Lemma skipn_snoc : forall (A : Type) k (l : list A) x, k <= length l -> skipn k (l ++ [x]) = skipn k l ++ [x].
Proof. intros. rewrite skipn_app. replace (k - length l) with 0 by lia. reflexivity. Qed.
Lemma firstn_grow : forall (A : Type) k (l x : list A), k <= length l -> firstn k (l ++ x) = firstn k l.
Proof. intros. rewrite firstn_app. replace (k - length l) with 0 by lia. cbn. apply app_nil_r. Qed.

Definition same (s s' : st) : Prop :=
  b_front s' = b_front s /\ b_dl s' = b_dl s /\ b_bin s' = b_bin s /\ b_tern s' = b_tern s /\ b_root s' = b_root s.
Definition grow (s s' : st) : Prop := (exists x, b_trail s' = b_trail s ++ x) /\ same s s'.
Lemma grow_refl : forall s, grow s s.
Proof. intros. split; [exists []; now rewrite app_nil_r|]. unfold same. auto. Qed.
Lemma grow_trans : forall a b c, grow a b -> grow b c -> grow a c.
Proof.
  intros a b c [[x A] [A1 [A2 [A3 [A4 A5]]]]] [[y B] [B1 [B2 [B3 [B4 B5]]]]]. split; [exists (x ++ y); rewrite B, A; now rewrite app_assoc|].
  unfold same. sp; congruence.
Qed.

Lemma why_ext : forall w, w = Ext \/ w <> Ext.
Proof. destruct w; auto; right; discriminate. Qed.
Lemma jw_mono : forall D t p w g g', g <= g' -> jw D t p w g -> jw D t p w g'.
Proof.
  intros D t p w g g' H. assert (B : forall c0, byc t p g c0 -> byc t p g' c0).
  { intros c0 [A B]. split; auto. intros q Q N. destruct (B q Q N) as [e [E1 [E2 E3]]]. exists e. sp; auto. lia. }
  assert (C : forall c0 rs, cov t p g c0 rs -> cov t p g' c0 rs).
  { intros c0 rs [A C]. split; auto. intros a Q. destruct (A a Q) as [e [E1 [E2 E3]]]. exists e. sp; auto. lia. }
  destruct w; cbn; auto.
  - intros [c0 [X [Y Z]]]. exists c0. auto.
  - intros [c0 [X [Y Z]]]. exists c0. auto.
  - intros [c0 [X [Y Z]]]. exists c0. auto.
  - intros [c0 [X Y]]. exists c0. auto.
Qed.
Lemma jw_byc : forall D t p w g, jw D t p w g -> w <> Ext -> exists c0, inDb D c0 /\ byc t p g c0.
Proof.
  intros D t p w g H N. destruct w; cbn in H; try contradiction; try congruence.
  - destruct H as [c0 [X [Y Z]]]. exists c0. split; auto. now left.
  - destruct H as [c0 [X [Y Z]]]. exists c0. split; auto. now left.
  - destruct H as [c0 [X [Y Z]]]. exists c0. split; auto. now left.
  - destruct H as [c0 [X Y]]. exists c0. split; auto. right. eapply nth_error_In; eauto.
Qed.
Lemma forceG_spec : forall n s D G p w g, Core n s D G -> b_conf s = None -> fst p <= n -> jw D (b_trail s) p w g -> locks s p w ->
  g <= b_dl s -> g = b_dl s \/ b_dl s <= b_root s ->
  let s' := fst (forceG s p w g) in
  Core n s' D G /\ grow s s' /\ b_cls s' = b_cls s /\ b_wl s' = b_wl s /\
  (snd (forceG s p w g) = true -> b_conf s' = None /\ tTrue (b_trail s') p) /\
  (snd (forceG s p w g) = false -> b_conf s' <> None /\ b_trail s' = b_trail s).
Proof.
  intros n s D G p w g K NC V J LK GD GR. unfold forceG. destruct (isT s p) eqn:T; [|destruct (isF s p) eqn:F]; cbn [fst snd].
  - sp; auto; try congruence; [apply grow_refl|]. intros _. split; auto. now apply isT_iff.
  - sp; auto; try congruence; [|split; [exists []; cbn; now rewrite app_nil_r|cbn; unfold same; sp; auto]|intros _; split; cbn; congruence].
    destruct K. constructor; auto.
    + intros c0 H. destruct (k_imp0 c0 H) as [X|[X|[X _]]]; [left; exact X|right; left; exact X|congruence].
    + cbn. intros q w' E. inversion E; subst q w'.
      apply isF_iff in F. destruct (why_ext w) as [->|NE]; [now left|]. right. split; [|right; sp; auto; eapply jw_mono; eauto].
      destruct (jw_byc _ _ _ _ _ J NE) as [c0 [J1 [J2 J3]]]. exists c0. split; auto. intros x X. destruct (lit_eq_dec x p) as [-> |N]; auto.
      eapply tr_true. apply (J3 x X N).
  - pose proof (isT_no _ _ T) as T'. pose proof (isF_no _ _ F) as F'. set (e := Ent p (b_dl s) w g).
    sp; auto; try congruence; [|split; [exists [e]; reflexivity|unfold same; sp; auto]|intros _; split; auto; exists e; split; auto; apply in_or_app; right; now left].
    destruct K. constructor; cbn; auto.
    + apply nd_snoc; auto.
    + intros x X. apply in_app_or in X as [X|[X|[]]]; auto. subst x. cbn. lia.
    + intros t1 x t2 H e' E'. apply snoc_split in H as [[-> [-> ->]]|[t3 [H ->]]]; [cbn; auto|]. eauto.
    + apply sent_app; auto.
    + intros x X. apply in_app_or in X as [X|[X|[]]]; auto. subst x. exact V.
    + rewrite app_length. cbn. lia.
    + intros x X. rewrite skipn_snoc in X by auto. apply in_app_or in X as [X|[X|[]]]; auto. subst x. reflexivity.
    + intros t1 x t2 H. apply snoc_split in H as [[-> [-> ->]]|[t3 [H ->]]]; [|eauto]. right; right. exact J.
    + intros x X. apply in_app_or in X as [X|[X|[]]].
      * exact (k_lock0 x X).
      * subst x. exact LK.
    + intros i c C. destruct (k_rep0 i c C) as [A [c0 [B1 B2]]]. split; auto. exists c0. split; auto. apply sub_app; auto.
    + intros c C. destruct (k_good0 c C) as [A [B [c0 [C1 C2]]]]. sp; auto. exists c0. split; auto. apply sub_app; auto.
    + intros c0 C. destruct (k_imp0 c0 C) as [[q [A B]]|[[c [A B]]|A]]; auto.
      * left. exists q. split; auto. destruct B; auto. left. apply tr_app; auto.
      * right; left. exists c. split; auto. apply sub_app; auto.
    + intros q w' E. congruence.
    + intros x X. apply in_app_or in X as [X|[X|[]]]; auto. subst x. cbn. auto.
Qed.
Lemma force_spec : forall n s D G p w, Core n s D G -> b_conf s = None -> fst p <= n -> jw D (b_trail s) p w (b_dl s) -> locks s p w ->
  let s' := fst (force s p w) in
  Core n s' D G /\ grow s s' /\ b_cls s' = b_cls s /\ b_wl s' = b_wl s /\
  (snd (force s p w) = true -> b_conf s' = None /\ tTrue (b_trail s') p) /\
  (snd (force s p w) = false -> b_conf s' <> None /\ b_trail s' = b_trail s).
Proof. intros. apply forceG_spec; auto. Qed.

Lemma tTrue_lev : forall n s D G p, Core n s D G -> tTrue (b_trail s) p -> tr (b_trail s) p (b_dl s).
Proof. intros n s D G p K [e [A B]]. exists e. sp; auto. pose proof (k_lv _ _ _ _ K e A). pose proof (k_log _ _ _ _ K e A). lia. Qed.

Lemma zf_false : forall t q, zf t q -> tFalse t q.
Proof. intros t q H. exact (tr_true _ _ _ H). Qed.
Lemma byc_of : forall n s D G c c0 x, Core n s D G -> sub (b_trail s) c c0 -> In x c -> (forall z, In z c -> z <> x -> tFalse (b_trail s) z) -> byc (b_trail s) x (b_dl s) c0.
Proof.
  intros n s D G c c0 x K [A B] I H. split; auto. intros q Q N. destruct (B q Q) as [C|C]; [apply (tTrue_lev _ _ _ _ _ K), H; auto|].
  destruct C as [e [E1 [E2 E3]]]. exists e. sp; auto. lia.
Qed.
Lemma cov_of : forall n s D G c c0 x rs, Core n s D G -> sub (b_trail s) c c0 -> (forall z, In z c -> z = x \/ In (neg z) rs) -> (forall a, In a rs -> tTrue (b_trail s) a) -> cov (b_trail s) x (b_dl s) c0 rs.
Proof. intros n s D G c c0 x rs K [A B] H T. split; [intros a HA; apply (tTrue_lev _ _ _ _ _ K); auto|]. intros q Q. destruct (B q Q) as [C|C]; auto. destruct (H q C); auto. Qed.
Lemma locks_no : forall s p w, (forall i, w <> ByC i) -> locks s p w.
Proof. intros s p w H i c E. exfalso. exact (H i E). Qed.
Lemma locks_1 : forall s p a, locks s p (By1 a).
Proof. intros. apply locks_no. discriminate. Qed.
Lemma locks_2 : forall s p a b, locks s p (By2 a b).
Proof. intros. apply locks_no. discriminate. Qed.
Lemma grow_true : forall s s' p, grow s s' -> tTrue (b_trail s) p -> tTrue (b_trail s') p.
Proof. intros s s' p [[x E] _] H. rewrite E. apply tt_app; auto. Qed.

Definition step_ok (n : nat) (D : db) (G : list (list lit)) (s s' : st) (ok : bool) : Prop :=
  Core n s' D G /\ grow s s' /\ b_cls s' = b_cls s /\ b_wl s' = b_wl s /\
  (ok = true -> b_conf s' = None) /\ (ok = false -> b_conf s' <> None).

Lemma step_trans : forall n D G a b c ok, step_ok n D G a b true -> step_ok n D G b c ok -> step_ok n D G a c ok.
Proof.
  intros n D G a b c ok [A1 [A2 [A3 [A4 [A5 A6]]]]] [B1 [B2 [B3 [B4 [B5 B6]]]]].
  unfold step_ok. sp; auto; try congruence. eapply grow_trans; eauto.
Qed.
Lemma force_step : forall n s D G p w, Core n s D G -> b_conf s = None -> fst p <= n -> jw D (b_trail s) p w (b_dl s) -> locks s p w ->
  step_ok n D G s (fst (force s p w)) (snd (force s p w)) /\ (snd (force s p w) = true -> tTrue (b_trail (fst (force s p w))) p).
Proof.
  intros n s D G p w K NC V J LK. destruct (force_spec n s D G p w K NC V J LK) as [A [B [C [E [F H]]]]]. unfold step_ok.
  split; [sp; auto|]; intros X; [apply (F X)|apply (H X)|apply (F X)].
Qed.

Lemma bins_spec : forall n D G p l s, Core n s D G -> b_conf s = None -> tTrue (b_trail s) p ->
  (forall x, In x l -> In x (b_bin s p)) ->
  let s' := fst (bins s p l) in
  step_ok n D G s s' (snd (bins s p l)) /\ (snd (bins s p l) = true -> forall x, In x l -> tTrue (b_trail s') x).
Proof.
  induction l as [|x l IH]; intros s K NC T I; cbn [bins].
  - cbn. split; [|tauto]. unfold step_ok. sp; auto; try congruence; apply grow_refl.
  - destruct (isT s x) eqn:E.
    + destruct (IH s K NC T (fun y Y => I y (or_intror Y))) as [A B]. split; auto. intros H y [-> |Y]; auto.
      apply isT_iff in E. eapply grow_true; eauto. apply A.
    + destruct (k_gb _ _ _ _ K p x (I x (or_introl eq_refl))) as [c [C1 C2]].
      destruct (k_good _ _ _ _ K c C1) as [_ [_ [c0 [C3 C4]]]].
      assert (V : fst x <= n). { apply (k_vc _ _ _ _ K c0); [now left|]. apply C4. apply C2. auto. }
      assert (J : jw D (b_trail s) x (By1 p) (b_dl s)).
      { exists c0. split; auto. split.
        - apply (byc_of n s D G c); auto; [apply C2; auto|]. intros z Z N. apply C2 in Z as [-> |Z]; [|congruence].
          unfold tFalse. now rewrite neg_neg.
        - eapply (cov_of _ _ _ _ c); eauto.
          + intros z Z. apply C2 in Z as [-> |Z]; auto. right. rewrite neg_neg. now left.
          + intros a [<-|[]]. auto. }
      destruct (force_step n s D G x (By1 p) K NC V J (locks_1 _ _ _)) as [A B].
      destruct (force s x (By1 p)) as [s1 ok]. cbn [fst snd] in *. destruct ok; cbn [fst snd]; [|split; [exact A|discriminate]].
      destruct A as [A1 [A2 [A3 [A4 [A5 A6]]]]].
      assert (T1 : tTrue (b_trail s1) p) by (eapply grow_true; eauto).
      assert (I1 : forall y, In y l -> In y (b_bin s1 p)).
      { destruct A2 as [_ [_ [_ [BB _]]]]. rewrite BB. intros y Y. apply I. now right. }
      destruct (IH s1 A1 (A5 eq_refl) T1 I1) as [C D0]. split.
      * eapply step_trans; [|exact C]. unfold step_ok. sp; auto; congruence.
      * intros H y [-> |Y]; auto. eapply grow_true; [apply C|]. auto.
Qed.

Lemma terns_spec : forall n D G p l s, Core n s D G -> b_conf s = None -> tTrue (b_trail s) p ->
  (forall x, In x l -> In x (b_tern s p)) ->
  let s' := fst (terns s p l) in
  step_ok n D G s s' (snd (terns s p l)) /\
  (snd (terns s p l) = true -> forall x y, In (x, y) l -> (tFalse (b_trail s) x -> tTrue (b_trail s') y) /\ (tFalse (b_trail s) y -> tTrue (b_trail s') x)).
Proof.
  induction l as [|[x y] l IH]; intros s K NC T I; cbn [terns].
  - cbn. split; [|tauto]. unfold step_ok. sp; auto; try congruence; apply grow_refl.
  - destruct (negb (isT s x) && negb (isT s y) && (isF s x || isF s y)) eqn:E.
    + apply andb_true_iff in E as [E E3]. apply andb_true_iff in E as [E1 E2]. apply negb_true_iff in E1, E2.
      destruct (k_gt _ _ _ _ K p x y (I (x, y) (or_introl eq_refl))) as [c [C1 [_ C2]]].
      destruct (k_good _ _ _ _ K c C1) as [_ [_ [c0 [C3 C4]]]].
      assert (NP : tFalse (b_trail s) (neg p)) by (unfold tFalse; now rewrite neg_neg).
      assert (VX : fst x <= n). { apply (k_vc _ _ _ _ K c0); [now left|]. apply C4. apply C2. auto. }
      assert (VY : fst y <= n). { apply (k_vc _ _ _ _ K c0); [now left|]. apply C4. apply C2. auto. }
      set (fs := if isF s x then force s y (By2 p (neg x)) else force s x (By2 p (neg y))).
      assert (FS : step_ok n D G s (fst fs) (snd fs) /\ (snd fs = true -> (tFalse (b_trail s) x -> tTrue (b_trail (fst fs)) y) /\ (tFalse (b_trail s) y -> tTrue (b_trail (fst fs)) x))).
      { unfold fs. destruct (isF s x) eqn:FX.
        - assert (J : jw D (b_trail s) y (By2 p (neg x)) (b_dl s)).
          { exists c0. split; auto. split.
            - apply (byc_of n s D G c); auto; [apply C2; auto|]. intros z Z N. apply C2 in Z as [-> |[-> |Z]]; [auto|apply isF_iff; auto|congruence].
            - eapply (cov_of _ _ _ _ c); eauto.
              + intros z Z. apply C2 in Z as [-> |[-> |Z]]; auto; right; [rewrite neg_neg|]; cbn; auto.
              + intros a [<-|[<-|[]]]; auto. apply isF_iff; auto. }
          destruct (force_step n s D G y (By2 p (neg x)) K NC VY J (locks_2 _ _ _ _)) as [A B].
          split; auto. intros H. split; [intros _; auto|]. intros FY.
          exfalso. specialize (B H). destruct A as [A [GR _]]. eapply (tt_ff _ y (k_nd _ _ _ _ A)); eauto.
          destruct GR as [[z GR] _]. rewrite GR. apply tt_app. exact FY.
        - cbn in E3. assert (J : jw D (b_trail s) x (By2 p (neg y)) (b_dl s)).
          { exists c0. split; auto. split.
            - apply (byc_of n s D G c); auto; [apply C2; auto|]. intros z Z N. apply C2 in Z as [-> |[Z|Z]]; [auto|congruence|subst; apply isF_iff; auto].
            - eapply (cov_of _ _ _ _ c); eauto.
              + intros z Z. apply C2 in Z as [-> |[-> |Z]]; auto; right; [rewrite neg_neg|subst z]; cbn; auto.
              + intros a [<-|[<-|[]]]; auto. apply isF_iff; auto. }
          destruct (force_step n s D G x (By2 p (neg y)) K NC VX J (locks_2 _ _ _ _)) as [A B].
          split; auto. intros H. split; [intros F; apply isF_iff in F; congruence|]. auto. }
      clearbody fs. destruct fs as [s1 ok]. cbn [fst snd] in *. destruct FS as [A B]. destruct ok; cbn [fst snd]; [|split; [exact A|discriminate]].
      destruct (B eq_refl) as [B1 B2]. destruct A as [A1 [A2 [A3 [A4 [A5 A6]]]]].
      assert (T1 : tTrue (b_trail s1) p) by (eapply grow_true; eauto).
      assert (I1 : forall y, In y l -> In y (b_tern s1 p)).
      { destruct A2 as [_ [_ [_ [_ [BB _]]]]]. rewrite BB. intros z Z. apply I. now right. }
      destruct (IH s1 A1 (A5 eq_refl) T1 I1) as [C D0]. split.
      * eapply step_trans; [|exact C]. unfold step_ok. sp; auto; congruence.
      * intros H a b [Q|Q].
        -- inversion Q; subst a b. split; intros F; (eapply grow_true; [apply C|]); auto.
        -- destruct (D0 H a b Q) as [D1 D2]. split; intros F; [apply D1|apply D2]; unfold tFalse in *; eapply grow_true; eauto.
    + destruct (IH s K NC T (fun z Z => I z (or_intror Z))) as [A B]. split; auto. intros H a b [Q|Q]; [|apply B; auto]. inversion Q; subst a b.
      assert (MONO : forall q, isT s q = true -> tTrue (b_trail (fst (terns s p l))) q) by (intros q X; eapply grow_true; [apply A|apply isT_iff; auto]).
      split; intros F; apply isF_iff in F; rewrite F in E; rewrite ?orb_true_r, ?orb_true_l, ?andb_true_r in E; apply andb_false_iff in E as [E|E]; apply negb_false_iff in E; auto; exfalso.
      * exact (tt_ff _ x (k_nd _ _ _ _ K) (proj1 (isT_iff _ _) E) (proj1 (isF_iff _ _) F)).
      * exact (tt_ff _ y (k_nd _ _ _ _ K) (proj1 (isT_iff _ _) E) (proj1 (isF_iff _ _) F)).
Qed.

Lemma cl_put_same : forall s i c x, cl s i = Some c -> cl (set_cls s (put_at (b_cls s) i x)) i = x.
Proof.
  intros s i c x H. unfold cl in *. cbn. destruct (Nat.lt_ge_cases i (length (b_cls s))) as [L|L].
  - apply put_at_same; auto.
  - rewrite nth_overflow in H by auto. discriminate.
Qed.
Lemma cl_put_other : forall s i j x, i <> j -> cl (set_cls s (put_at (b_cls s) i x)) j = cl s j.
Proof. intros. unfold cl. cbn. apply put_at_other; auto. Qed.

Lemma core_set_wl : forall n s D G w, Core n s D G -> Core n (set_wl s w) D G.
Proof. intros n s D G w K. destruct K. constructor; auto. Qed.
Lemma core_set_cls : forall n s D G i c c', Core n s D G -> b_conf s = None -> cl s i = Some c -> wfc c' -> (forall q, In q (clits c') <-> In q (clits c)) ->
  (forall e, In e (b_trail s) -> e_why e <> ByC i) -> Core n (set_cls s (put_at (b_cls s) i (Some c'))) D G.
Proof.
  intros n s D G i c c' K NC C W E NL. pose proof (cl_put_same s i c (Some c') C) as SM.
  destruct K. constructor; auto.
  - intros e I j d X Y. destruct (Nat.eq_dec i j) as [<-|N]; [exfalso; exact (NL e I X)|]. rewrite cl_put_other in Y by auto. exact (k_lock0 e I j d X Y).
  - cbn. rewrite put_at_length. auto.
  - intros j d Y. destruct (Nat.eq_dec i j) as [<-|N].
    + rewrite SM in Y. inversion Y; subst d. split; auto. destruct (k_rep0 i c C) as [_ [c0 [A [B1 B2]]]]. exists c0. split; auto. split.
      * intros q Q. apply B1, E; auto.
      * intros q Q. destruct (B2 q Q); auto. left. now apply E.
    + rewrite cl_put_other in Y by auto. exact (k_rep0 j d Y).
  - intros j c0 Y. destruct (Nat.eq_dec i j) as [<-|N]; [eauto|]. rewrite cl_put_other by auto. eauto.
  - cbn. congruence.
Qed.

Lemma Wcl_mono : forall t x P P' c, Wcl t P c -> (forall e, In e P' -> In e P) -> Wcl (t ++ x) P' c.
Proof. intros t x P P' c H I b e E1 E2. apply tr_app. eauto. Qed.
Lemma Ucl_mono : forall t x P P' c, Ucl t P c -> (forall e, In e P' -> In e P) -> Ucl (t ++ x) P' c.
Proof.
  intros t x P P' c H I a L A B. apply tr_app. apply (H a L A). intros b X Y. destruct (B b X Y) as [e [E1 [E2 E3]]]. eauto.
Qed.

Record Loop (n : nat) (D : db) (G : list (list lit)) (P0 : list ent) (ep : ent) (s : st) (ks rest : list nat) : Prop := {
  l_core : Core n s D G;
  l_conf : b_conf s = None;
  l_ep : In ep (b_trail s) /\ e_lev ep = b_dl s;
  l_P0 : forall e, In e P0 -> In e (b_trail s);
  l_wl : wlok (upd (b_wl s) (e_lit ep) (ks ++ rest)) s;
  l_W0 : forall i c, cl s i = Some c -> Wcl (b_trail s) P0 c;
  l_W1 : forall i c, cl s i = Some c -> ~ In i rest -> Wcl (b_trail s) (P0 ++ [ep]) c }.

Lemma tFalse_p : forall n D G P0 ep s ks rest, Loop n D G P0 ep s ks rest -> tFalse (b_trail s) (neg (e_lit ep)).
Proof. intros. exists ep. split; [apply H|]. now rewrite neg_neg. Qed.

(** replacing the false watch *)
Lemma replace_spec : forall n D G P0 ep s ks i rest c c' w, Loop n D G P0 ep s ks (i :: rest) -> cl s i = Some c ->
  head c w = neg (e_lit ep) -> isT s (head c (negb w)) = false ->
  wfc c' -> (forall q, In q (clits c') <-> In q (clits c)) -> head c' (negb w) = head c (negb w) ->
  isF s (head c' w) = false -> head c' w <> head c (negb w) ->
  Loop n D G P0 ep (addWatch (set_cls s (put_at (b_cls s) i (Some c'))) (neg (head c' w)) i) ks rest /\
  grow s (addWatch (set_cls s (put_at (b_cls s) i (Some c'))) (neg (head c' w)) i).
Proof.
  intros n D G P0 ep s ks i rest c c' w LP C HW NT W' EQ HO NF ND.
  pose proof (l_core _ _ _ _ _ _ _ _ LP) as K. pose proof (tFalse_p _ _ _ _ _ _ _ _ LP) as TP.
  destruct (k_rep _ _ _ _ K i c C) as [WC _].
  set (p := e_lit ep) in *. set (x := head c' w) in *.
  assert (XP : x <> neg p). { intros E. rewrite E in NF. apply isF_no in NF. contradiction. }
  assert (NL : forall e, In e (b_trail s) -> e_why e <> ByC i).
  { intros e I E. destruct (k_lock _ _ _ _ K e I i c E C) as [b B]. destruct (bool_dec b w) as [-> |N].
    - rewrite HW in B. eapply (tt_ff _ (neg p) (k_nd _ _ _ _ K)); eauto. exists e. auto.
    - replace b with (negb w) in B by (destruct b, w; cbn; congruence). apply isT_no in NT. apply NT. exists e. auto. }
  set (s1 := set_cls s (put_at (b_cls s) i (Some c'))).
  assert (K1 : Core n s1 D G) by (apply (core_set_cls n s D G i c c'); auto; apply (l_conf _ _ _ _ _ _ _ _ LP)).
  assert (CI : cl s1 i = Some c') by (exact (cl_put_same s i c (Some c') C)).
  assert (CJ : forall j, i <> j -> cl s1 j = cl s j) by (intros; apply cl_put_other; auto).
  assert (HD' : forall b, head c' b = if eqb b w then x else head c (negb w)).
  { intros b. destruct (eqb b w) eqn:E; [apply eqb_prop in E; subst; auto|]. apply eqb_false_iff in E. replace b with (negb w) by (destruct b, w; cbn; congruence). auto. }
  assert (HD : forall b, head c b = if eqb b w then neg p else head c (negb w)).
  { intros b. destruct (eqb b w) eqn:E; [apply eqb_prop in E; subst; auto|]. apply eqb_false_iff in E. replace b with (negb w) by (destruct b, w; cbn; congruence). auto. }
  assert (OP : head c (negb w) <> neg p). { rewrite <- HW. apply not_eq_sym. apply head_neq; auto. }
  assert (WI : Wcl (b_trail s) (P0 ++ [ep]) c').
  { intros b e IE EE. rewrite HD' in EE. destruct (eqb b w) eqn:EB.
    - exfalso. apply isF_no in NF. apply NF. exists e. split; auto. apply in_app_or in IE as [IE|[IE|[]]]; [apply (l_P0 _ _ _ _ _ _ _ _ LP); auto|subst; apply (l_ep _ _ _ _ _ _ _ _ LP)].
    - exfalso. apply in_app_or in IE as [IE|[IE|[]]].
      + assert (Z := l_W0 _ _ _ _ _ _ _ _ LP i c C (negb w) e IE EE). rewrite negb_involutive, HW in Z.
        eapply (tt_ff _ (neg p) (k_nd _ _ _ _ K)); eauto. exact (tr_true _ _ _ Z).
      + subst e. apply OP. fold p in EE. rewrite EE. now rewrite neg_neg. }
  assert (KN : NoDup (ks ++ i :: rest)).
  { pose proof (proj1 (l_wl _ _ _ _ _ _ _ _ LP p)) as X. fold p in X. rewrite upd_same in X. exact X. }
  assert (NI : ~ In i rest) by (apply NoDup_remove_2 in KN; rewrite in_app_iff in KN; tauto).
  split.
  2:{ split; [exists []; cbn; now rewrite app_nil_r|unfold same; auto]. }
  constructor.
  - apply core_set_wl. exact K1.
  - exact (l_conf _ _ _ _ _ _ _ _ LP).
  - exact (l_ep _ _ _ _ _ _ _ _ LP).
  - exact (l_P0 _ _ _ _ _ _ _ _ LP).
  - cbn [addWatch set_wl b_wl]. fold p.
    assert (W0 := l_wl _ _ _ _ _ _ _ _ LP). fold p in W0. intros q.
    change (b_wl s1) with (b_wl s). change (cl (addWatch s1 (neg x) i)) with (cl s1).
    destruct (lit_eq_dec q p) as [-> |QP].
    + rewrite upd_same. split; [apply NoDup_remove_1 in KN; exact KN|]. intros j.
      assert (JJ : In j (ks ++ i :: rest) <-> exists d, cl s j = Some d /\ exists b, p = neg (head d b)).
      { pose proof (proj2 (W0 p) j) as X. rewrite upd_same in X. exact X. }
      destruct (Nat.eq_dec i j) as [<-|N].
      * split; [intros X; exfalso; apply NoDup_remove_2 in KN; contradiction|]. intros [d [D1 [b D2]]]. rewrite CI in D1. inversion D1; subst d.
        exfalso. rewrite HD' in D2. destruct (eqb b w); [apply XP; rewrite D2; now rewrite neg_neg|apply OP; rewrite D2; now rewrite neg_neg].
      * rewrite CJ by auto. rewrite <- JJ. rewrite !in_app_iff. cbn. intuition congruence.
    + rewrite upd_other by auto.
      assert (JJ : forall j, In j (b_wl s q) <-> exists d, cl s j = Some d /\ exists b, q = neg (head d b)).
      { intros j. pose proof (proj2 (W0 q) j) as X. rewrite upd_other in X by auto. exact X. }
      assert (NDq : NoDup (b_wl s q)). { pose proof (proj1 (W0 q)) as X. rewrite upd_other in X by auto. exact X. }
      destruct (lit_eq_dec q (neg x)) as [-> |QX].
      * rewrite upd_same.
        assert (IN : ~ In i (b_wl s (neg x))).
        { intros X. apply JJ in X as [d [D1 [b D2]]]. rewrite C in D1. inversion D1; subst d. apply neg_inj in D2. rewrite HD in D2. destruct (eqb b w); contradiction. }
        split.
        -- apply Permutation_NoDup with (i :: b_wl s (neg x)); [apply Permutation_cons_append|constructor; auto].
        -- intros j. rewrite in_app_iff. destruct (Nat.eq_dec i j) as [<-|N].
           ++ split; [|intros _; right; now left]. intros _. exists c'. split; auto. exists w. reflexivity.
           ++ rewrite CJ by auto. rewrite JJ. cbn. intuition congruence.
      * rewrite upd_other by auto. split; auto. intros j. destruct (Nat.eq_dec i j) as [<-|N].
        -- rewrite JJ. split.
           ++ intros [d [D1 [b D2]]]. rewrite C in D1. inversion D1; subst d. exists c'. split; auto. rewrite HD in D2.
              destruct (eqb b w); [exfalso; apply QP; rewrite D2; now rewrite neg_neg|]. exists (negb w). congruence.
           ++ intros [d [D1 [b D2]]]. rewrite CI in D1. inversion D1; subst d. exists c. split; auto. rewrite HD' in D2.
              destruct (eqb b w); [contradiction|]. exists (negb w). auto.
        -- rewrite CJ by auto. apply JJ.
  - intros j d. change (cl (addWatch s1 (neg x) i) j) with (cl s1 j). change (b_trail (addWatch s1 (neg x) i)) with (b_trail s).
    destruct (Nat.eq_dec i j) as [<-|N].
    + rewrite CI. intros Y. inversion Y; subst d. intros b e E1 E2. apply (WI b e); auto. apply in_or_app; auto.
    + rewrite CJ by auto. apply (l_W0 _ _ _ _ _ _ _ _ LP).
  - intros j d. change (cl (addWatch s1 (neg x) i) j) with (cl s1 j). change (b_trail (addWatch s1 (neg x) i)) with (b_trail s).
    destruct (Nat.eq_dec i j) as [<-|N].
    + rewrite CI. intros Y _. inversion Y; subst d. exact WI.
    + rewrite CJ by auto. intros Y X. apply (l_W1 _ _ _ _ _ _ _ _ LP j d Y). cbn. intuition congruence.
Qed.

(** keeping the watch *)
Lemma keep_W : forall n D G P0 ep s ks i rest c w, Loop n D G P0 ep s ks (i :: rest) -> cl s i = Some c ->
  head c w = neg (e_lit ep) -> tTrue (b_trail s) (head c (negb w)) -> Wcl (b_trail s) (P0 ++ [ep]) c.
Proof.
  intros n D G P0 ep s ks i rest c w LP C HW T b e IE EE. pose proof (l_core _ _ _ _ _ _ _ _ LP) as K.
  destruct (k_rep _ _ _ _ K i c C) as [WC _].
  apply in_app_or in IE as [IE|[IE|[]]].
  - exact (l_W0 _ _ _ _ _ _ _ _ LP i c C b e IE EE).
  - subst e. assert (b = w). { apply (head_dec c b w WC). rewrite HW, EE. now rewrite neg_neg. } subst b.
    rewrite (proj2 (l_ep _ _ _ _ _ _ _ _ LP)). apply (tTrue_lev n s D G); auto.
Qed.
Lemma keep_loop : forall n D G P0 ep s ks i rest, Loop n D G P0 ep s ks (i :: rest) ->
  (forall c, cl s i = Some c -> Wcl (b_trail s) (P0 ++ [ep]) c) -> Loop n D G P0 ep s (ks ++ [i]) rest.
Proof.
  intros n D G P0 ep s ks i rest LP H. destruct LP. constructor; auto.
  - rewrite <- app_assoc. exact l_wl0.
  - intros j c C N. destruct (Nat.eq_dec i j) as [<-|NE]; auto. apply (l_W3 j c C). cbn. intuition congruence.
Qed.
Lemma loop_grow : forall n D G P0 ep s s' ks rest, Loop n D G P0 ep s ks rest -> step_ok n D G s s' true -> Loop n D G P0 ep s' ks rest.
Proof.
  intros n D G P0 ep s s' ks rest LP [A1 [[[x A2] [A7 [A8 _]]] [A3 [A4 [A5 _]]]]]. destruct LP. constructor; auto.
  - rewrite A2, A8. split; [apply in_or_app; left|]; tauto.
  - intros e E. rewrite A2. apply in_or_app; auto.
  - rewrite A4. unfold wlok, cl in *. rewrite A3. auto.
  - unfold cl in *. rewrite A3, A2. intros i c C. apply (Wcl_mono _ x P0); eauto.
  - unfold cl in *. rewrite A3, A2. intros i c C N. apply (Wcl_mono _ x (P0 ++ [ep])); eauto.
Qed.

Lemma cl_prop_spec : forall n D G P0 ep s ks i rest c, Loop n D G P0 ep s ks (i :: rest) -> cl s i = Some c ->
  forall s1 ok keep, cl_prop s (e_lit ep) i c = (s1, ok, keep) ->
  Core n s1 D G /\ grow s s1 /\
  (ok = true -> Loop n D G P0 ep s1 (ks ++ (if keep then [i] else [])) rest) /\
  (ok = false -> keep = true /\ b_conf s1 <> None /\ b_trail s1 = b_trail s /\ b_cls s1 = b_cls s /\ b_wl s1 = b_wl s).
Proof.
  intros n D G P0 ep s ks i rest c LP C s1 ok keep E.
  pose proof (l_core _ _ _ _ _ _ _ _ LP) as K. pose proof (tFalse_p _ _ _ _ _ _ _ _ LP) as TP.
  destruct (k_rep _ _ _ _ K i c C) as [WC [c0 [C0 SB]]].
  set (p := e_lit ep) in *. unfold cl_prop in E. set (w := lit_eqb (h1 c) (neg p)) in *.
  assert (HW : head c w = neg p).
  { pose proof (proj2 (l_wl _ _ _ _ _ _ _ _ LP p) i) as X. fold p in X. rewrite upd_same in X.
    destruct (proj1 X) as [d [D1 [b D2]]]; [apply in_or_app; right; now left|]. rewrite C in D1. inversion D1; subst d.
    unfold w. destruct (lit_eqb (h1 c) (neg p)) eqn:EE; [apply lit_eqb_eq in EE; exact EE|]. apply lit_eqb_neq in EE.
    destruct b; cbn in *; [exfalso; apply EE|]; rewrite D2; now rewrite neg_neg. }
  clearbody w.
  assert (FF : isF s lit_false = true). { apply isF_iff. exact (tr_true _ _ _ (sent_tr _ (k_sent _ _ _ _ K))). }
  destruct (isT s (head c (negb w))) eqn:T.
  - inversion E; subst. sp; auto; try congruence; [apply grow_refl|]. intros _. apply keep_loop; auto.
    intros d X. rewrite C in X. inversion X; subst d. eapply keep_W; eauto. now apply isT_iff.
  - destruct (isF s (h2 c)) eqn:F2; cbn [negb] in E.
    + destruct (updateWatch s c w) as [c'|] eqn:U.
      * destruct (updateWatch_some s c w c' WC FF F2 U) as [U1 [U2 [U3 [U4 [U5 [U6 U7]]]]]].
        destruct (replace_spec n D G P0 ep s ks i rest c c' w LP C HW T U1 U2 U3 U4 U6) as [R1 R2].
        inversion E; subst. rewrite app_nil_r. sp; auto; try congruence. apply R1.
      * set (o := head c (negb w)) in *.
        assert (AF : forall q, In q (clits c) -> q <> o -> tFalse (b_trail s) q).
        { intros q Q N. destruct (updateWatch_none s c w WC F2 U q Q N) as [-> |X]; [rewrite HW; auto|now apply isF_iff]. }
        assert (J : jw D (b_trail s) o (ByC i) (b_dl s)).
        { exists c0. split; auto. apply (byc_of n s D G (clits c)); auto. apply (wf_h c WC). }
        assert (V : fst o <= n). { apply (k_vc _ _ _ _ K c0); [right; eapply nth_error_In; eauto|]. apply SB. apply (wf_h c WC). }
        assert (LK : locks s o (ByC i)). { intros j d X Y. inversion X; subst j. rewrite C in Y. inversion Y; subst d. exists (negb w). reflexivity. }
        destruct (force_step n s D G o (ByC i) K (l_conf _ _ _ _ _ _ _ _ LP) V J LK) as [FS1 FS2].
        destruct (force_spec n s D G o (ByC i) K (l_conf _ _ _ _ _ _ _ _ LP) V J LK) as [_ [_ [S3 [S4 [_ S6]]]]].
        destruct (force s o (ByC i)) as [s2 ok2]. cbn [fst snd] in *. inversion E; subst s2 ok2 keep. sp; auto; try (apply FS1).
        -- intros ->. assert (LP1 := loop_grow n D G P0 ep s s1 ks (i :: rest) LP FS1). apply keep_loop; auto.
           assert (C1 : cl s1 i = Some c) by (unfold cl in *; rewrite S3; auto).
           intros d X. rewrite C1 in X. inversion X; subst d. eapply keep_W; eauto.
        -- intros ->. destruct (S6 eq_refl). auto.
    + (* the cache literal becomes the new watch *)
      set (c' := set_h2 (set_head c w (h2 c)) (neg p)) in *.
      assert (H2F : h2 c <> lit_false) by congruence.
      destruct (wf_2 c WC) as [X|IH2]; [congruence|].
      assert (HX : head c' w = h2 c) by (unfold c'; destruct w; reflexivity).
      assert (HO : head c' (negb w) = head c (negb w)) by (unfold c'; destruct w; reflexivity).
      assert (SMC : smOk c').
      { pose proof (wf_sm c WC) as SM. unfold smOk in SM |- *. unfold c'.
        assert (N2 : neg p <> lit_false). { rewrite <- HW. intros Y. apply (wf_nz c WC (head c w) (wf_h c WC w)). rewrite Y. reflexivity. }
        destruct w; cbn; destruct (bd c); auto; split; try tauto; intros Y; exfalso; tauto. }
      assert (WF : wfc c' /\ (forall q, In q (clits c') <-> In q (clits c))).
      { assert (FIN : forall l1 l2, clits c = h0 c :: h1 c :: l1 ++ h2 c :: l2 -> clits c' = h0 c' :: h1 c' :: l1 ++ head c w :: l2 -> wfc c' /\ (forall q, In q (clits c') <-> In q (clits c))).
        { intros l1 l2 E1 E2. destruct (swap_wf c c' w (h2 c) l1 l2 WC E1 E2 HX HO) as [Q1 [Q2 _]].
          - right. unfold c'. cbn. rewrite <- HW. apply in_or_app. right. now left.
          - apply SMC.
          - split; auto. intros q. split; intros Q; [apply (Permutation_in _ (Permutation_sym Q2))|apply (Permutation_in _ Q2)]; auto. }
        destruct (bd c) as [a b|tl idx|ls] eqn:B.
        - assert (N1 : nf (h2 c) = true) by (apply nf_iff; auto).
          assert (N2 : nf (neg p) = true). { apply nf_iff. rewrite <- HW. intros Y. apply (wf_nz c WC (head c w) (wf_h c WC w)). rewrite Y. reflexivity. }
          apply (FIN [] (filter nf [a; b])).
          + unfold clits. rewrite B. cbn. rewrite N1. reflexivity.
          + unfold clits, c'. rewrite HW. destruct w; cbn; rewrite B; cbn; rewrite N2; reflexivity.
        - apply (FIN [] tl).
          + unfold clits. rewrite B. reflexivity.
          + unfold clits, c'. rewrite HW. destruct w; cbn; rewrite B; reflexivity.
        - assert (EL : clits c' = clits c) by (unfold clits, c'; destruct w; cbn; rewrite B; reflexivity).
          split; [|rewrite EL; tauto].
          assert (HH : forall b, head c' b = if eqb b w then h2 c else head c (negb w)).
          { intros b. destruct (eqb b w) eqn:EB; [apply eqb_prop in EB; subst; auto|]. apply eqb_false_iff in EB. replace b with (negb w) by (destruct b, w; cbn; congruence). auto. }
          assert (H2' : h2 c' = neg p) by (unfold c'; destruct w; reflexivity).
          constructor; rewrite ?EL.
          + apply WC.
          + apply WC.
          + intros b. rewrite HH. destruct (eqb b w); auto. apply (wf_h c WC).
          + pose proof (wf_2h c WC (negb w)) as Z. intros Y. assert (Y1 : head c' false = head c' true) by exact Y. rewrite !HH in Y1. destruct w; cbn [eqb negb] in *; congruence.
          + right. rewrite H2', <- HW. apply (wf_h c WC).
          + intros b. rewrite H2', HH, <- HW. destruct (eqb b w).
            * apply not_eq_sym, (wf_2h c WC).
            * apply head_neq; auto.
          + apply SMC. }
      destruct WF as [WF1 WF2].
      assert (NFX : isF s (head c' w) = false) by (rewrite HX; auto).
      assert (NDX : head c' w <> head c (negb w)) by (rewrite HX; apply (wf_2h c WC)).
      destruct (replace_spec n D G P0 ep s ks i rest c c' w LP C HW T WF1 WF2 HO NFX NDX) as [R1 R2].
      rewrite HX in R1, R2. inversion E; subst. rewrite app_nil_r. sp; auto; try congruence. apply R1.
Qed.

Lemma wloop_spec : forall n D G P0 ep rest s ks, Loop n D G P0 ep s ks rest ->
  forall s2 r ok, wloop s (e_lit ep) rest = (s2, r, ok) ->
  Core n s2 D G /\ grow s s2 /\ wlok (upd (b_wl s2) (e_lit ep) (ks ++ r)) s2 /\
  (forall i c, cl s2 i = Some c -> Wcl (b_trail s2) P0 c) /\
  (ok = true -> b_conf s2 = None /\ forall i c, cl s2 i = Some c -> Wcl (b_trail s2) (P0 ++ [ep]) c) /\
  (ok = false -> b_conf s2 <> None).
Proof.
  induction rest as [|i rest IH]; intros s ks LP s2 r ok E; cbn [wloop] in E.
  - inversion E; subst. destruct LP. sp; auto; try congruence; [apply grow_refl|].
    intros _. split; auto. intros i c C. apply (l_W3 i c C). intros [].
  - assert (IN : In i (ks ++ i :: rest)) by (apply in_or_app; right; now left).
    assert (exists c, cl s i = Some c) as [c C].
    { pose proof (proj2 (l_wl _ _ _ _ _ _ _ _ LP (e_lit ep)) i) as X. rewrite upd_same in X. apply X in IN as [c [C _]]. eauto. }
    unfold cl in C. rewrite C in E.
    destruct (cl_prop s (e_lit ep) i c) as [[s1 ok1] keep] eqn:P.
    destruct (cl_prop_spec n D G P0 ep s ks i rest c LP C s1 ok1 keep P) as [Q1 [Q2 [Q3 Q4]]].
    destruct ok1.
    + destruct (wloop s1 (e_lit ep) rest) as [[s3 r3] ok3] eqn:WL. inversion E; subst s3 r ok3. clear E.
      destruct (IH s1 _ (Q3 eq_refl) s2 r3 ok WL) as [Z1 [Z2 [Z3 [Z4 Z5]]]]. rewrite <- app_assoc in Z3. sp; auto; try tauto. eapply grow_trans; eauto.
    + inversion E; subst. destruct (Q4 eq_refl) as [-> [B1 [B2 [B3 B4]]]]. destruct LP. sp; auto; try congruence.
      * rewrite B4. unfold wlok, cl in *. rewrite B3. auto.
      * unfold cl in *. rewrite B3, B2. auto.
Qed.

Lemma U_done : forall s c P0 ep t0 t2 dl L0,
  gc s c -> NoDup (map fst c) -> Ucl t2 P0 c -> e_lev ep = dl -> L0 = dl ->
  (forall e, In e P0 -> In e t0) ->
  (forall x, tTrue t2 x -> tr t2 x dl) ->
  (forall x, In x (b_bin s (e_lit ep)) -> tTrue t2 x) ->
  (forall x y, In (x, y) (b_tern s (e_lit ep)) -> (tFalse t0 x -> tTrue t2 y) /\ (tFalse t0 y -> tTrue t2 x)) ->
  Ucl t2 (P0 ++ [ep]) c.
Proof.
  intros s c P0 ep t0 t2 dl L0 GC ND U EL _ IP LV HB HT a L A H.
  assert (TL : forall x, tTrue t2 x -> dl <= L -> tr t2 x L).
  { intros x X Y. destruct (LV x X) as [e [E1 [E2 E3]]]. exists e. sp; auto. lia. }
  assert (H3 : forall x b d, (In (x, d) (b_tern s (neg b)) \/ In (d, x) (b_tern s (neg b))) -> (In (x, b) (b_tern s (neg d)) \/ In (b, x) (b_tern s (neg d))) ->
    b <> d -> (exists e, In e (P0 ++ [ep]) /\ e_lit e = neg b /\ e_lev e <= L) -> (exists e, In e (P0 ++ [ep]) /\ e_lit e = neg d /\ e_lev e <= L) ->
    tr t2 x L \/ ((exists e, In e P0 /\ e_lit e = neg b /\ e_lev e <= L) /\ (exists e, In e P0 /\ e_lit e = neg d /\ e_lev e <= L))).
  { intros x b d G1 G2 N [e1 [E1 [E2 E3]]] [e2 [F1 [F2 F3]]].
    apply in_app_or in E1 as [E1|[E1|[]]]; apply in_app_or in F1 as [F1|[F1|[]]].
    - right. split; eauto.
    - left. subst e2. rewrite <- F2 in G2. apply TL; [|lia]. assert (FB : tFalse t0 b) by (exists e1; auto).
      destruct G2 as [G2|G2]; destruct (HT _ _ G2); auto.
    - left. subst e1. rewrite <- E2 in G1. apply TL; [|lia]. assert (FB : tFalse t0 d) by (exists e2; auto).
      destruct G1 as [G1|G1]; destruct (HT _ _ G1); auto.
    - exfalso. subst. rewrite E2 in F2. apply neg_inj in F2. contradiction. }
  destruct c as [|x [|y [|z [|? ?]]]]; try (cbn in GC; tauto).
  - cbn in GC. destruct GC as [G1 G2]. cbn in ND. inversion ND as [|? ? N1 _]; subst. cbn in N1.
    assert (XY : x <> y) by (intros ->; tauto).
    assert (CASE : forall u v, In u (b_bin s (neg v)) -> v <> u -> (forall b, In b [x; y] -> b <> u -> b = v) -> In v [x; y] -> In u [x; y] ->
      (forall b, In b [x; y] -> b <> u -> exists e, In e (P0 ++ [ep]) /\ e_lit e = neg b /\ e_lev e <= L) -> tr t2 u L).
    { intros u v G N E IV IU HH. destruct (HH v IV N) as [e [E1 [E2 E3]]]. apply in_app_or in E1 as [E1|[E1|[]]].
      - apply (U u L IU). intros b B1 B2. rewrite (E b B1 B2). eauto.
      - subst e. rewrite <- E2 in G. apply TL; auto. }
    destruct A as [<-|[<-|[]]].
    + apply (CASE x y); auto; cbn; try tauto. intros b [B|[B|[]]] N; congruence.
    + apply (CASE y x); auto; cbn; try tauto. intros b [B|[B|[]]] N; congruence.
  - cbn in GC. destruct GC as [G1 [G2 G3]]. cbn in ND. inversion ND as [|? ? N1 ND2]; subst. inversion ND2 as [|? ? N2 _]; subst. cbn in N1, N2.
    assert (XY : x <> y) by (intros ->; tauto). assert (XZ : x <> z) by (intros ->; tauto). assert (YZ : y <> z) by (intros ->; tauto).
    destruct A as [<-|[<-|[<-|[]]]].
    + destruct (H3 x y z ltac:(tauto) ltac:(tauto) YZ (H y ltac:(cbn; tauto) ltac:(congruence)) (H z ltac:(cbn; tauto) ltac:(congruence))) as [Q|[Q1 Q2]]; auto.
      apply (U x L ltac:(cbn; tauto)). intros b [B|[B|[B|[]]]] N; subst; auto; congruence.
    + destruct (H3 y x z ltac:(tauto) ltac:(tauto) XZ (H x ltac:(cbn; tauto) ltac:(congruence)) (H z ltac:(cbn; tauto) ltac:(congruence))) as [Q|[Q1 Q2]]; auto.
      apply (U y L ltac:(cbn; tauto)). intros b [B|[B|[B|[]]]] N; subst; auto; congruence.
    + destruct (H3 z x y ltac:(tauto) ltac:(tauto) XY (H x ltac:(cbn; tauto) ltac:(congruence)) (H y ltac:(cbn; tauto) ltac:(congruence))) as [Q|[Q1 Q2]]; auto.
      apply (U z L ltac:(cbn; tauto)). intros b [B|[B|[B|[]]]] N; subst; auto; congruence.
Qed.

Lemma in_skipn_le : forall (A : Type) (l : list A) i j x, i <= j -> In x (skipn j l) -> In x (skipn i l).
Proof.
  induction l as [|a l IH]; intros i j x H I; [rewrite skipn_nil in I; destruct I|].
  destruct i, j; cbn in *; try lia; auto.
  - right. replace l with (skipn 0 l) by reflexivity. apply (IH 0 j); auto. lia.
  - apply (IH i j); auto. lia.
Qed.
Lemma core_set_front : forall n s D G f, Core n s D G -> b_front s <= f <= length (b_trail s) -> Core n (set_front s f) D G.
Proof.
  intros n s D G f K H. destruct K. constructor; auto; cbn; [lia|]. intros e E. apply k_queue0. eapply in_skipn_le; [|exact E]. lia.
Qed.

Definition Inv (n : nat) (s : st) (D : db) : Prop := exists G, Core n s D G /\ wlok (b_wl s) s /\ Dyn s G (Proc s).

Lemma nth_error_split_firstn : forall (A : Type) (l : list A) k x, nth_error l k = Some x -> firstn (S k) l = firstn k l ++ [x].
Proof. induction l; destruct k; cbn; intros x H; try discriminate; [congruence|]. cbn. f_equal. apply (IHl k x H). Qed.

Lemma upd_wl_self : forall s p, wlok (b_wl s) s -> wlok (upd (b_wl s) p (b_wl s p)) s.
Proof. intros s p H q. destruct (lit_eq_dec q p) as [-> |N]; [rewrite upd_same; auto|rewrite upd_other by auto; auto]. Qed.

Lemma prop1_spec : forall n s D G e, Core n s D G -> wlok (b_wl s) s -> Dyn s G (firstn (b_front s) (b_trail s)) -> b_conf s = None ->
  nth_error (b_trail s) (b_front s) = Some e ->
  forall s' ok, prop1 s (e_lit e) = (s', ok) ->
  Core n s' D G /\ wlok (b_wl s') s' /\ b_front s' = S (b_front s) /\ b_dl s' = b_dl s /\ (exists x, b_trail s' = b_trail s ++ x) /\
  Dyn s' G (firstn (b_front s) (b_trail s)) /\
  (ok = true -> b_conf s' = None /\ Dyn s' G (firstn (S (b_front s)) (b_trail s'))) /\ (ok = false -> b_conf s' <> None).
Proof.
  intros n s D G e K WL [DW DU] NC NE s' ok E. unfold prop1 in E.
  assert (LT : b_front s < length (b_trail s)) by (apply nth_error_Some; congruence).
  set (P0 := firstn (b_front s) (b_trail s)) in *.
  set (s0 := set_front s (S (b_front s))) in *.
  assert (K0 : Core n s0 D G) by (apply core_set_front; auto; lia).
  assert (IE : In e (b_trail s)) by (eapply nth_error_In; eauto).
  assert (EL : e_lev e = b_dl s).
  { apply (k_queue _ _ _ _ K). destruct (nth_error_split _ _ NE) as [l1 [l2 [S1 S2]]]. rewrite S1, <- S2. rewrite skipn_app, skipn_all, Nat.sub_diag. now left. }
  assert (TP : tTrue (b_trail s0) (e_lit e)) by (exists e; auto).
  assert (IP0 : forall x, In x P0 -> In x (b_trail s)). { intros x X. unfold P0 in X. rewrite <- (firstn_skipn (b_front s) (b_trail s)). apply in_or_app; auto. }
  destruct (bins_spec n D G (e_lit e) (b_bin s0 (e_lit e)) s0 K0 NC TP (fun _ H => H)) as [B1 B2].
  destruct (bins s0 (e_lit e) (b_bin s0 (e_lit e))) as [s1 ok1]. cbn [fst snd] in *.
  destruct B1 as [K1 [GR1 [CS1 [WL1 [OK1 NO1]]]]].
  assert (GEN : forall sx, Core n sx D G -> grow s0 sx -> b_cls sx = b_cls s0 -> b_wl sx = b_wl s0 -> b_conf sx <> None ->
    Core n sx D G /\ wlok (b_wl sx) sx /\ b_front sx = S (b_front s) /\ b_dl sx = b_dl s /\ (exists x, b_trail sx = b_trail s ++ x) /\ Dyn sx G P0 /\
    (false = true -> b_conf sx = None /\ Dyn sx G (firstn (S (b_front s)) (b_trail sx))) /\ (false = false -> b_conf sx <> None)).
  { intros sx KX [[x GX] [FX [DX _]]] CX WX NX. change (b_trail s0) with (b_trail s) in GX. change (b_dl s0) with (b_dl s) in DX. change (b_front s0) with (S (b_front s)) in FX.
    sp; auto; try congruence; eauto.
    - rewrite WX. unfold wlok, cl in *. rewrite CX. exact WL.
    - split; rewrite GX.
      + unfold cl in *. rewrite CX. intros i c C. apply (Wcl_mono _ x P0); auto. apply (DW i c C).
      + intros c C. apply (Ucl_mono _ x P0); auto. }
  destruct ok1; cbn [negb] in E; [|inversion E; subst; apply GEN; auto].
  assert (T1 : tTrue (b_trail s1) (e_lit e)) by (eapply grow_true; eauto).
  destruct (terns_spec n D G (e_lit e) (b_tern s1 (e_lit e)) s1 K1 (OK1 eq_refl) T1 (fun _ H => H)) as [T2 T3].
  destruct (terns s1 (e_lit e) (b_tern s1 (e_lit e))) as [s2 ok2]. cbn [fst snd] in *.
  destruct T2 as [K2 [GR2 [CS2 [WL2 [OK2 NO2]]]]].
  assert (GR02 : grow s0 s2) by (eapply grow_trans; eauto).
  destruct ok2; cbn [negb] in E; [|inversion E; subst; apply GEN; auto; congruence].
  destruct (wloop s2 (e_lit e) (b_wl s2 (e_lit e))) as [[s3 r] ok3] eqn:WLP. inversion E; subst s' ok3. clear E.
  destruct GR02 as [[x2 GX2] [FX2 [DX2 [BX2 TX2]]]].
  change (b_trail s0) with (b_trail s) in GX2. change (b_dl s0) with (b_dl s) in DX2. change (b_front s0) with (S (b_front s)) in FX2.
  change (b_bin s0) with (b_bin s) in *. change (b_tern s0) with (b_tern s) in *.
  assert (LP : Loop n D G P0 e s2 [] (b_wl s2 (e_lit e))).
  { constructor; auto.
    - rewrite GX2, DX2. split; auto. apply in_or_app; auto.
    - intros x X. rewrite GX2. apply in_or_app; auto.
    - cbn [app]. apply upd_wl_self. rewrite WL2, WL1. unfold wlok, cl in *. rewrite CS2, CS1. exact WL.
    - intros i c C. rewrite GX2. apply (Wcl_mono _ x2 P0); auto. apply (DW i). unfold cl in *. rewrite CS2, CS1 in C. exact C.
    - intros i c C N b e' I1 I2.
      assert (C' : cl s i = Some c) by (unfold cl in *; rewrite CS2, CS1 in C; exact C).
      apply in_app_or in I1 as [I1|[I1|[]]].
      + rewrite GX2. apply tr_app. apply (DW i c C' b e' I1 I2).
      + exfalso. subst e'. apply N. rewrite WL2, WL1. apply (proj2 (WL (e_lit e)) i). exists c. split; auto. exists b. auto. }
  destruct (wloop_spec n D G P0 e _ s2 [] LP s3 r ok WLP) as [Q1 [Q2 [Q3 [Q4 [Q5 Q6]]]]]. cbn [app] in Q3.
  destruct Q2 as [[x3 GX3] [FX3 [DX3 [BX3 TX3]]]].
  assert (U2 : forall c, In c G -> Ucl (b_trail s2) P0 c). { intros c C. rewrite GX2. apply (Ucl_mono _ x2 P0); auto. }
  sp.
  - apply core_set_wl. auto.
  - intros q. apply (Q3 q).
  - cbn. congruence.
  - cbn. congruence.
  - cbn. rewrite GX3, GX2. rewrite <- app_assoc. eauto.
  - split; [exact Q4|]. intros c C. cbn. rewrite GX3. apply (Ucl_mono _ x3 P0); auto.
  - intros H. destruct (Q5 H) as [Q7 Q8]. split; [exact Q7|].
    assert (FE : firstn (S (b_front s)) (b_trail (set_wl s3 (upd (b_wl s3) (e_lit e) r))) = P0 ++ [e]).
    { cbn [b_trail set_wl]. rewrite GX3, GX2, <- app_assoc, firstn_grow by lia. apply nth_error_split_firstn. exact NE. }
    rewrite FE. split; [exact Q8|]. intros c C.
    change (b_trail (set_wl s3 (upd (b_wl s3) (e_lit e) r))) with (b_trail s3). rewrite GX3.
    apply (Ucl_mono _ x3 (P0 ++ [e])); auto.
    destruct (k_good _ _ _ _ K c C) as [G1 [G2 _]].
    apply (U_done s c P0 e (b_trail s1) (b_trail s2) (b_dl s) (b_dl s)); auto.
    + intros y Y. destruct GR1 as [[x1 GX1] _]. rewrite GX1. apply in_or_app. left. apply IP0. exact Y.
    + intros y Y. rewrite <- DX2. apply (tTrue_lev _ _ _ _ _ K2 Y).
    + intros y Y. apply (grow_true s1 s2); auto.
    + destruct GR1 as [_ [_ [_ [_ [TX1 _]]]]]. rewrite TX1 in T3. intros y z Y. apply (T3 eq_refl y z Y).
  - exact Q6.
Qed.
