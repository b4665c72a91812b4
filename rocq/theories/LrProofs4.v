(** The two-ended container: copying, all objects, executions. *)
From Coq Require Import List Arith NArith Bool Lia.
From Verif Require Import Base LrModel LrSpec LrProofs LrProofs2 LrProofs3.
Import ListNotations.

Section P.
Variable byte : Type.
Variable junk : byte.
Variables sL sR al i pad : nat.
Hypothesis Z : sizes sL sR al i pad.
Notation st := (st byte). Notation elem := (list byte).
Notation bs := (bs sL sR al). Notation ic := (ic sL sR al i pad).
Notation extra := (extra sL sR al i pad).
Notation owns := (owns byte sL sR al i pad). Notation frame := (frame byte). Notation good := (good byte sL sR al i pad). Notation P := (P byte sL sR al i pad).
Notation has := (has byte). Notation moves := (moves byte sL sR). Notation below := (below byte). Notation done := (done byte sL sR al i pad).
Notation apply := (apply byte junk sL sR al i pad). Notation spec := (spec byte sL sR).

Ltac gd G := pose proof (good_cap _ _ _ _ _ _ _ _ _ _ _ _ _ G); pose proof (p_left _ _ _ _ _ _ _ _ _ _ _ _ _ G); pose proof (p_right _ _ _ _ _ _ _ _ _ _ _ _ _ G); pose proof (p_cap _ _ _ _ _ _ _ _ _ _ _ _ _ G);
  pose proof (p_fit _ _ _ _ _ _ _ _ _ _ _ _ _ G); pose proof (p_lim _ _ _ _ _ _ _ _ _ _ _ _ _ G); pose proof (concat_len _ sL _ (p_L _ _ _ _ _ _ _ _ _ _ _ _ _ G));
  pose proof (concat_rev_len _ sR _ (p_R _ _ _ _ _ _ _ _ _ _ _ _ _ G)).

Lemma extra_owns s o : s_obj _ s o <> None -> length (s_inl _ s o) = ic -> exists m, owns s o (extra o) m false /\ length m = ic.
Proof.
  intros O L. unfold LrModel.extra. destruct (Nat.eqb_spec ic 0) as [E|E]; [exists []; cbn; auto|]. exists (s_inl _ s o). cbn. auto 10.
Qed.
Lemma extra_heap o b : extra o <> Heap b.
Proof. unfold LrModel.extra. destruct (Nat.eqb ic 0); discriminate. Qed.
Lemma ptr_eqb_spec p q : ptr_eqb p q = true <-> p = q.
Proof. destruct p, q; cbn; try (split; [discriminate|congruence]); try tauto; rewrite Nat.eqb_eq; split; congruence. Qed.

Lemma tryShrink_ok s o r l k : P s o r l k -> below s (r_buf r) -> s_obj _ s o <> None -> length (s_inl _ s o) = ic -> done s o r (tryShrink byte sL sR al i pad s o r) l k.
Proof.
  intros H B OB LI. pose proof H as (m & gap & G). unfold tryShrink. rewrite (good_raw _ _ _ _ _ _ _ _ _ _ _ _ _ G).
  destruct (Nat.leb_spec (length l * sL + length k * sR) ic) as [Le|Gt]; cbn [andb]; [|now apply done_refl].
  destruct (ptr_eqb (r_buf r) (extra o)) eqn:E; cbn [negb]; [now apply done_refl|].
  assert (NE : extra o <> r_buf r) by (intros X; rewrite (proj2 (ptr_eqb_spec _ _) (eq_sym X)) in E; discriminate).
  destruct (extra_owns s o OB LI) as (m2 & O2 & L2). destruct (moves_ok byte sL sR al i pad Z s o (extra o) m2 false o r l k m gap O2) as (s2 & gap' & M & O3 & LG & F2 & MM); auto.
  { intros b X. now apply extra_heap in X. } { lia. }
  rewrite (good_rs _ _ _ _ _ _ Z _ _ _ _ _ _ _ G). unfold LrProofs.moves in M. rewrite (good_rs _ _ _ _ _ _ Z _ _ _ _ _ _ _ G), L2 in M. rewrite sub32_le by lia. rewrite M. cbn [bind]. rewrite L2 in LG.
  destruct (release_ok byte sL sR al i pad s2 o r m) as (s3 & R & F3 & EI & M3).
  { pose proof (p_own _ _ _ _ _ _ _ _ _ _ _ _ _ G) as OW. revert OW. pose proof (MM (r_buf r) (fun X => NE (eq_sym X))) as ME. unfold LrProofs.owns. destruct (r_buf r) as [|x|b]; cbn; auto.
    - intros (-> & A1 & A2 & A3 & A4 & A5). rewrite (f_obj _ _ _ _ _ _ F2). repeat split; auto. cbn in ME. rewrite (f_obj _ _ _ _ _ _ F2) in ME. destruct (s_obj byte s o); [|congruence]. injection ME as ->. exact A1.
    - intros (A1 & ->). cbn in ME. rewrite ME. auto. }
  rewrite R. cbn [bind]. eexists _, _. split; [reflexivity|]. cbn [r_buf]. split; [|split].
  - exists (concat l ++ gap' ++ concat (rev k)), gap'. gd G. destruct G as [A1 A2 A3 A4 A5 A6 A7 A8 A9 A10]. pose proof (ic_le _ _ _ _ _ Z). constructor; cbn [r_buf r_cap r_left r_right r_free]; auto; try lia.
    + revert O3. unfold LrModel.extra. destruct (Nat.eqb ic 0); cbn; [auto|]. rewrite EI, (f_obj _ _ _ _ _ _ F3). auto.
    + rewrite !app_length. lia.
    + apply ic_bs.
  - destruct F2 as [A1 A2 A3 A4 A5 A6 A7 A8]. destruct F3 as [D1 D2 D3 D4 D5 D6 D7 D8]. constructor.
    + congruence.
    + intros q N. now rewrite D2, A2.
    + congruence.
    + lia.
    + intros b Lb N. rewrite D5, A5; auto; try lia. apply extra_heap.
    + intros b X. destruct (D6 b X) as [Y|(Y & Y')]; [discriminate|]. destruct (A6 b Y) as [W|(W & W')]; [now apply extra_heap in W|auto].
    + intros b X. now apply extra_heap in X.
    + auto.
  - intros b X. now apply extra_heap in X.
Qed.

Lemma copy_ok s o oq q l k : s_obj _ s o <> None -> length (s_inl _ s o) = ic -> o <> oq -> P s oq q l k -> below s (r_buf q) ->
  exists s' r', copy byte junk sL sR al i pad s o q = Ok (s', r') /\ P s' o r' l k /\ frame s o Null s' (r_buf r') /\ below s' (r_buf r').
Proof.
  intros OB LI NO (m & gap & G) B. unfold copy. rewrite (good_raw _ _ _ _ _ _ _ _ _ _ _ _ _ G). rewrite (good_rs _ _ _ _ _ _ Z _ _ _ _ _ _ _ G), (good_ls _ _ _ _ _ _ Z _ _ _ _ _ _ _ G).
  gd G. pose proof (ic_le _ _ _ _ _ Z) as IL. pose proof (bs_le _ _ _ _ _ Z) as BL. pose proof (bs_ge _ _ _ _ _ Z) as (BG & _). pose proof (sL_pos _ _ _ _ _ Z).
  destruct (Nat.leb_spec (length l * sL + length k * sR) ic) as [Le|Gt].
  - destruct (extra_owns s o OB LI) as (m2 & O2 & L2). rewrite sub32_le by lia.
    assert (X : exists s2 gap', moves s q (extra o) (length m2 - length k * sR) = Ok s2 /\ owns s2 o (extra o) (concat l ++ gap' ++ concat (rev k)) false /\
      length gap' = length m2 - length l * sL - length k * sR /\ frame s o (extra o) s2 (extra o)).
    { destruct (ptr_eqb (extra o) (r_buf q)) eqn:E.
      - apply ptr_eqb_spec in E. assert (EN : extra o = Null /\ ic = 0).
        { pose proof (p_own _ _ _ _ _ _ _ _ _ _ _ _ _ G) as OW. rewrite <- E in OW. revert OW. unfold LrModel.extra. destruct (Nat.eqb_spec ic 0); [auto|]. cbn. intros (X & _). congruence. }
        destruct EN as (EN & Z0). pose proof (sR_pos _ _ _ _ _ Z). assert (l = []) as -> by (destruct l; cbn in *; auto; lia). assert (k = []) as -> by (destruct k; cbn in *; auto; lia).
        exists s, m2. unfold LrProofs.moves. replace (empty q) with true; [|unfold empty; cbn in *; symmetry; apply andb_true_iff; rewrite !Nat.eqb_eq; lia].
        cbn. rewrite app_nil_r. split; [reflexivity|]. split; [exact O2|]. split; [lia|apply frame_refl].
      - destruct (moves_ok byte sL sR al i pad Z s o (extra o) m2 false oq q l k m gap O2) as (s2 & gap' & M & O3 & LG & F2 & MM); auto.
        { intros b X. now apply extra_heap in X. } { intros X. rewrite (proj2 (ptr_eqb_spec _ _) X) in E. discriminate. } { lia. } exists s2, gap'. auto. }
    destruct X as (s2 & gap' & M & O3 & LG & F2). unfold LrProofs.moves in M. rewrite L2, (good_rs _ _ _ _ _ _ Z _ _ _ _ _ _ _ G), (good_ls _ _ _ _ _ _ Z _ _ _ _ _ _ _ G) in M. rewrite M. cbn [bind].
    eexists _, _. split; [reflexivity|]. cbn [r_buf]. split; [|split].
    + exists (concat l ++ gap' ++ concat (rev k)), gap'. destruct G as [A1 A2 A3 A4 A5 A6 A7 A8 A9 A10]. constructor; cbn [r_buf r_cap r_left r_right r_free]; auto; try lia.
      * rewrite !app_length. lia.
      * apply ic_bs.
    + destruct F2 as [A1 A2 A3 A4 A5 A6 A7 A8]. constructor; auto.
      * intros b Lb _. apply A5; [exact Lb|apply extra_heap].
      * intros b X. destruct (A6 b X) as [Y|(Y & _)]; [now apply extra_heap in Y|right; split; [exact Y|discriminate]].
      * intros b X. now apply extra_heap in X.
    + intros b X. now apply extra_heap in X.
  - set (os := length l * sL + length k * sR) in *. rewrite (u32_id (os + (bs - 1))) by lia.
    assert (DV : exists d, (os + (bs - 1)) / bs = d /\ os <= d * bs /\ d * bs <= os + (bs - 1)).
    { eexists. split; [reflexivity|]. pose proof (Nat.div_mod (os + (bs - 1)) bs ltac:(lia)). pose proof (Nat.mod_upper_bound (os + (bs - 1)) bs ltac:(lia)). nia. }
    destruct DV as (d & -> & D1 & D2). rewrite (u32_id (d * bs)) by lia. cbn [alloc]. rewrite (u31_id (d * bs)) by lia. rewrite sub32_le by lia.
    set (s1 := St byte (s_obj byte s) (s_inl byte s) (upd (s_heap byte s) (s_next byte s) (Some (repeat junk (d * bs)))) (S (s_next byte s))). set (p := Heap (s_next byte s)).
    assert (NP : p <> r_buf q) by (intros X; symmetry in X; specialize (B _ X); lia).
    assert (G1 : good s1 oq q l k m gap).
    { destruct G as [A1 A2 A3 A4 A5 A6 A7 A8 A9 A10]. constructor; auto. revert A1 NP. unfold LrProofs.owns, s1, p. destruct (r_buf q) as [| |b]; cbn; auto. intros A1 N. now rewrite upd_neq by congruence. }
    assert (O1 : owns s1 o p (repeat junk (d * bs)) true) by (cbn; rewrite upd_eq; auto).
    assert (B1 : below s1 p) by (intros b X; injection X as <-; cbn; lia).
    destruct (moves_ok byte sL sR al i pad Z s1 o p (repeat junk (d * bs)) true oq q l k m gap O1 B1 NP G1) as (s2 & gap' & M & O2 & LG & F2 & MM).
    { rewrite repeat_length. unfold os in *. lia. }
    rewrite repeat_length in M, LG. unfold LrProofs.moves in M. rewrite (good_rs _ _ _ _ _ _ Z _ _ _ _ _ _ _ G), (good_ls _ _ _ _ _ _ Z _ _ _ _ _ _ _ G) in M. rewrite M. cbn [bind].
    eexists _, _. split; [reflexivity|]. cbn [r_buf]. unfold os in *. split; [|split].
    + exists (concat l ++ gap' ++ concat (rev k)), gap'. destruct G as [A1 A2 A3 A4 A5 A6 A7 A8 A9 A10]. constructor; cbn [r_buf r_cap r_left r_right r_free]; auto; try lia.
      * rewrite !app_length. lia.
      * eauto.
    + destruct F2 as [A1 A2 A3 A4 A5 A6 A7 A8]. constructor; unfold s1 in *; cbn in *; auto.
      * lia.
      * intros b Lb _. rewrite A5, upd_neq; auto; try lia. unfold p. intros X. injection X as X. lia.
      * intros b X. destruct (A6 b X) as [Y|(Y & Y')]; [now left|right; split; [|discriminate]]. rewrite upd_neq in Y by (unfold p in Y'; congruence). exact Y.
      * intros b X. injection X as <-. right. lia.
      * intros X b Hb. apply A8; [|lia]. intros b2 Hb2. rewrite upd_neq by lia. apply X. lia.
    + eapply frame_below; eauto.
Qed.

(** * All objects *)
Record Inv (s : st) (v : vecs byte) : Prop := {
  g_fr : forall b, s_next _ s <= b -> s_heap _ s b = None;
  g_obj : forall o, match s_obj _ s o, v o with Some r, Some (l, k) => P s o r l k | None, None => True | _, _ => False end;
  g_inj : forall o o' r r' b, s_obj _ s o = Some r -> s_obj _ s o' = Some r' -> r_buf r = Heap b -> r_buf r' = Heap b -> o = o';
  g_own : forall b, s_heap _ s b <> None -> exists o r, s_obj _ s o = Some r /\ r_buf r = Heap b;
  g_inl : forall o, s_obj _ s o <> None -> length (s_inl _ s o) = ic
}.
Lemma inv_P s v o l k : Inv s v -> v o = Some (l, k) -> exists r, s_obj _ s o = Some r /\ P s o r l k.
Proof. intros I V. pose proof (g_obj _ _ I o) as G. rewrite V in G. destruct (s_obj _ s o) as [r|]; [exists r; auto|contradiction]. Qed.
Lemma inv_none s v o : Inv s v -> v o = None -> s_obj _ s o = None.
Proof. intros I V. pose proof (g_obj _ _ I o) as G. rewrite V in G. destruct (s_obj _ s o) as [r|]; [contradiction|reflexivity]. Qed.
Lemma P_heap s o r l k b : P s o r l k -> r_buf r = Heap b -> s_heap _ s b <> None.
Proof. intros (m & gap & G) E. pose proof (p_own _ _ _ _ _ _ _ _ _ _ _ _ _ G) as O. rewrite E in O. cbn in O. destruct O. congruence. Qed.
Lemma inv_below s v o r : Inv s v -> s_obj _ s o = Some r -> below s (r_buf r).
Proof.
  intros I O b E. pose proof (g_obj _ _ I o) as G. rewrite O in G. destruct (v o) as [(l & k)|]; [|contradiction]. pose proof (P_heap _ _ _ _ _ _ G E) as H.
  destruct (Nat.lt_ge_cases b (s_next byte s)) as [L|L]; [exact L|]. now rewrite (g_fr _ _ I b L) in H.
Qed.
(** The buffer of another object is not touched. *)
Lemma P_frame s o p s' p' x oq q l k : frame s o p s' p' -> oq <> o -> (forall b, r_buf q = Heap b -> p <> Heap b) -> below s (r_buf q) -> P s oq q l k -> P (setObj _ s' o x) oq q l k.
Proof.
  intros F N D B (m & gap & G). exists m, gap. destruct G as [A1 A2 A3 A4 A5 A6 A7 A8 A9 A10]. constructor; auto. clear A2 A3 A4 A5. revert A1. unfold LrProofs.owns. destruct (r_buf q) as [|y|b]; cbn; auto.
  - rewrite upd_neq, (f_obj _ _ _ _ _ _ F) by exact N. intros (-> & A). rewrite (f_inl _ _ _ _ _ _ F) by exact N. auto.
  - rewrite (f_heap _ _ _ _ _ _ F); auto.
Qed.
Lemma P_set s o x r l k : x <> None -> P s o r l k -> P (setObj _ s o x) o r l k.
Proof.
  intros X (m & gap & G). exists m, gap. destruct G as [A1 A2 A3 A4 A5 A6 A7 A8 A9 A10]. constructor; auto. revert A1. unfold LrProofs.owns. destruct (r_buf r) as [|y|b]; cbn; auto.
  rewrite upd_eq. tauto.
Qed.

Lemma inv_step s v o r s' r' l k : Inv s v -> s_obj _ s o = Some r -> frame s o (r_buf r) s' (r_buf r') -> P s' o r' l k -> Inv (setObj _ s' o (Some r')) (setv _ v o (Some (l, k))).
Proof.
  intros I O F H. assert (D : forall oq q, oq <> o -> s_obj _ s oq = Some q -> forall b, r_buf q = Heap b -> r_buf r <> Heap b).
  { intros oq q N Q b E E'. apply N. eapply (g_inj _ _ I); eauto. }
  constructor; cbn.
  - apply (f_fr _ _ _ _ _ _ F). apply I.
  - intros x. unfold setv. rewrite (f_obj _ _ _ _ _ _ F). destruct (Nat.eqb_spec x o) as [->|N].
    + rewrite upd_eq. apply P_set; [discriminate|exact H].
    + rewrite upd_neq by exact N. pose proof (g_obj _ _ I x) as G. destruct (s_obj byte s x) as [q|] eqn:Q; destruct (v x) as [(l' & k')|]; auto.
      eapply P_frame; eauto. now apply (inv_below _ _ _ _ I Q).
  - intros x y rx ry b. rewrite (f_obj _ _ _ _ _ _ F). unfold upd.
    assert (X : forall y ry, y <> o -> s_obj byte s y = Some ry -> r_buf ry = Heap b -> r_buf r' = Heap b -> False).
    { intros y' ry' N Q E E'. destruct (f_new _ _ _ _ _ _ F b E') as [Y|Y]; [exact (D y' ry' N Q b E Y)|]. pose proof (inv_below _ _ _ _ I Q b E). lia. }
    destruct (Nat.eqb_spec x o) as [->|Nx]; destruct (Nat.eqb_spec y o) as [->|Ny]; auto.
    + intros Hx Hy Ex Ey. injection Hx as <-. exfalso. eauto.
    + intros Hx Hy Ex Ey. injection Hy as <-. exfalso. eauto.
    + apply (g_inj _ _ I).
  - intros b Hb. destruct (f_dom _ _ _ _ _ _ F b Hb) as [E|(E & NE)].
    + exists o, r'. rewrite upd_eq. auto.
    + destruct (g_own _ _ I b E) as (x & q & Q & EQ). exists x, q. rewrite (f_obj _ _ _ _ _ _ F), upd_neq; [auto|]. intros ->. rewrite O in Q. injection Q as <-. contradiction.
  - intros x. rewrite (f_obj _ _ _ _ _ _ F). unfold upd. destruct (Nat.eqb_spec x o) as [->|N].
    + intros _. rewrite (f_len _ _ _ _ _ _ F). apply (g_inl _ _ I). congruence.
    + intros Hx. rewrite (f_inl _ _ _ _ _ _ F) by exact N. now apply (g_inl _ _ I).
Qed.
Lemma inv_done s v o r x l k : Inv s v -> s_obj _ s o = Some r -> done s o r x l k -> exists s', put byte o x = Ok s' /\ Inv s' (setv _ v o (Some (l, k))).
Proof. intros I O (s' & r' & -> & H & F & B). eexists. split; [reflexivity|]. eapply inv_step; eauto. Qed.

Lemma P_fresh s o : s_obj _ s o <> None -> length (s_inl _ s o) = ic -> P s o (fresh sL sR al i pad o) [] [].
Proof.
  intros O L. destruct (extra_owns s o O L) as (m & Ow & Lm). exists m, m. pose proof (ic_le _ _ _ _ _ Z). constructor; cbn [fresh r_buf r_cap r_left r_right r_free]; auto; try (cbn; lia).
  - cbn. now rewrite app_nil_r.
  - apply ic_bs.
Qed.
Lemma birth_ok s v o : Inv s v -> v o = None -> exists s', birth byte junk sL sR al i pad s o = Ok s' /\ Inv s' (setv _ v o (Some ([], []))) /\ s_obj _ s' o <> None /\ (forall x, x <> o -> s_obj _ s' x = s_obj _ s x).
Proof.
  intros I V. unfold birth. pose proof (inv_none _ _ _ I V) as O. rewrite O. eexists. split; [reflexivity|]. split; [|split; [cbn; rewrite upd_eq; discriminate|intros x N; cbn; now apply upd_neq]].
  constructor; unfold setInl, setObj; cbn.
  - apply I.
  - intros x. unfold setv. destruct (Nat.eqb_spec x o) as [->|N].
    + rewrite upd_eq. apply P_fresh; cbn; rewrite upd_eq; [discriminate|apply repeat_length].
    + rewrite upd_neq by exact N. pose proof (g_obj _ _ I x) as G. destruct (s_obj byte s x) as [q|] eqn:Q; destruct (v x) as [(l' & k')|]; auto.
      destruct G as (m & gap & G). exists m, gap. destruct G as [A1 A2 A3 A4 A5 A6 A7 A8 A9 A10]. constructor; auto. clear A2 A3 A4 A5. revert A1. unfold LrProofs.owns. destruct (r_buf q) as [|y|b]; cbn; auto.
      rewrite !upd_neq by exact N. auto.
  - intros x y rx ry b. unfold upd. destruct (Nat.eqb_spec x o) as [->|Nx]; destruct (Nat.eqb_spec y o) as [->|Ny]; auto.
    + intros Hx Hy Ex Ey. injection Hx as <-. now apply extra_heap in Ex.
    + intros Hx Hy Ex Ey. injection Hy as <-. now apply extra_heap in Ey.
    + apply (g_inj _ _ I).
  - intros b Hb. destruct (g_own _ _ I b Hb) as (x & q & Q & EQ). exists x, q. rewrite upd_neq; [auto|]. congruence.
  - intros x. unfold upd. destruct (Nat.eqb_spec x o) as [->|N]; [intros _; apply repeat_length|apply (g_inl _ _ I)].
Qed.

Lemma setv_same (v : vecs byte) o x : forall y, setv _ (setv _ v o x) o x y = setv _ v o x y.
Proof. intros y. unfold setv. now destruct (Nat.eqb y o). Qed.
Lemma Inv_ext s v w : (forall o, v o = w o) -> Inv s v -> Inv s w.
Proof. intros E I. destruct I as [A1 A2 A3 A4 A5]. constructor; auto. intros o. rewrite <- E. apply A2. Qed.

Ltac onv H := unfold on in H; match type of H with context [match ?v ?o with _ => _ end] => destruct (v o) as [(l & k)|] eqn:V; [|discriminate] end.

Lemma frame_weak s o p s' p' : frame s o Null s' p' -> (forall b, p <> Heap b) -> frame s o p s' p'.
Proof.
  intros [A1 A2 A3 A4 A5 A6 A7 A8] N. constructor; auto.
  - intros b Lb _. apply A5; [exact Lb|discriminate].
  - intros b H. destruct (A6 b H) as [E|(E & _)]; [now left|right; auto].
  - intros b E. destruct (A7 b E) as [X|X]; [discriminate|auto].
Qed.

Lemma apply_ok s v x v' : Inv s v -> spec v x = Some v' -> exists s', apply s x = Ok s' /\ Inv s' v'.
Proof.
  intros I H. destruct x as [o|o x|o x|o|o|o n|o n|o n|o n|o n|o n|o b|o|o q|o q|o q|o]; cbn [LrSpec.spec LrModel.apply] in H |- *; unfold obj.
  - destruct (v o) eqn:V; [discriminate|]. injection H as <-. destruct (birth_ok s v o I V) as (s' & E & J & _). eauto.
  - onv H. destruct (Nat.eqb_spec (length x) sL) as [L|L]; [|discriminate]. destruct (fits byte sL sR (l ++ [x]) k) eqn:FT; [|discriminate]. injection H as <-. destruct (inv_P _ _ _ _ _ I V) as (r & O & H). rewrite O. cbn [bind].
    eapply inv_done; eauto. apply pushLeft_ok; auto; [now apply (inv_below _ _ _ _ I O)|apply I|]. unfold fits in FT. now apply N.leb_le in FT.
  - onv H. destruct (Nat.eqb_spec (length x) sR) as [L|L]; [|discriminate]. destruct (fits byte sL sR l (k ++ [x])) eqn:FT; [|discriminate]. injection H as <-. destruct (inv_P _ _ _ _ _ I V) as (r & O & H). rewrite O. cbn [bind].
    eapply inv_done; eauto. apply pushRight_ok; auto; [now apply (inv_below _ _ _ _ I O)|apply I|]. unfold fits in FT. now apply N.leb_le in FT.
  - onv H. destruct (inv_P _ _ _ _ _ I V) as (r & O & Pr). rewrite O. cbn [bind]. destruct l as [|x l]; [discriminate|]. injection H as <-. destruct (popLeft_ok _ _ _ _ _ _ Z _ _ _ _ _ Pr ltac:(discriminate)) as (r' & E & EB & Pr').
    rewrite E. cbn [bind]. eexists. split; [reflexivity|]. eapply inv_step; eauto. rewrite EB. apply frame_refl.
  - onv H. destruct (inv_P _ _ _ _ _ I V) as (r & O & Pr). rewrite O. cbn [bind]. destruct k as [|x k]; [discriminate|]. injection H as <-. destruct (popRight_ok _ _ _ _ _ _ Z _ _ _ _ _ Pr ltac:(discriminate)) as (r' & E & EB & Pr').
    rewrite E. cbn [bind]. eexists. split; [reflexivity|]. eapply inv_step; eauto. rewrite EB. apply frame_refl.
  - onv H. destruct (inv_P _ _ _ _ _ I V) as (r & O & Pr). rewrite O. cbn [bind]. destruct (Nat.leb_spec n (length l)) as [L|L]; [|discriminate]. injection H as <-. eapply inv_done; eauto. apply eraseLeft_ok; auto. now apply (inv_below _ _ _ _ I O).
  - onv H. destruct (inv_P _ _ _ _ _ I V) as (r & O & Pr). rewrite O. cbn [bind]. destruct (Nat.leb_spec n (length l)) as [L|L]; [|discriminate]. injection H as <-. eapply inv_done; eauto. apply eraseLeftU_ok; auto. now apply (inv_below _ _ _ _ I O).
  - onv H. destruct (inv_P _ _ _ _ _ I V) as (r & O & Pr). rewrite O. cbn [bind]. destruct (Nat.leb_spec n (length k)) as [L|L]; [|discriminate]. injection H as <-. eapply inv_done; eauto. apply eraseRight_ok; auto. now apply (inv_below _ _ _ _ I O).
  - onv H. destruct (inv_P _ _ _ _ _ I V) as (r & O & Pr). rewrite O. cbn [bind]. destruct (Nat.leb_spec n (length k)) as [L|L]; [|discriminate]. injection H as <-. eapply inv_done; eauto. apply eraseRightU_ok; auto. now apply (inv_below _ _ _ _ I O).
  - onv H. destruct (inv_P _ _ _ _ _ I V) as (r & O & Pr). rewrite O. cbn [bind]. destruct (Nat.leb_spec n (length l)) as [L|L]; [|discriminate]. injection H as <-. eexists. split; [reflexivity|]. eapply inv_step; eauto; [apply frame_refl|]. now apply shrinkLeft_ok.
  - onv H. destruct (inv_P _ _ _ _ _ I V) as (r & O & Pr). rewrite O. cbn [bind]. destruct (Nat.leb_spec n (length k)) as [L|L]; [|discriminate]. injection H as <-. eexists. split; [reflexivity|]. eapply inv_step; eauto; [apply frame_refl|]. now apply shrinkRight_ok.
  - onv H. destruct (inv_P _ _ _ _ _ I V) as (r & O & Pr). rewrite O. cbn [bind]. injection H as <-. eapply inv_done; eauto. eapply clear_ok; eauto. now apply (inv_below _ _ _ _ I O).
  - onv H. destruct (inv_P _ _ _ _ _ I V) as (r & O & Pr). rewrite O. cbn [bind]. injection H as <-. eapply inv_done; eauto. apply tryShrink_ok; auto; [now apply (inv_below _ _ _ _ I O)|congruence|apply (g_inl _ _ I); congruence].
  - destruct (v o) as [?|] eqn:V; [discriminate|]. destruct (v q) as [(l & k)|] eqn:W; [|discriminate]. injection H as <-. destruct (inv_P _ _ _ _ _ I W) as (r & O & Pr). rewrite O. cbn [bind].
    destruct (birth_ok s v o I V) as (s1 & E & J & OB & OE). rewrite E. cbn [bind]. assert (NO : o <> q) by congruence.
    assert (W1 : setv _ v o (Some ([], [])) q = Some (l, k)) by (unfold setv; destruct (Nat.eqb_spec q o); congruence).
    destruct (inv_P _ _ _ _ _ J W1) as (r1 & O1 & Pr1). rewrite OE in O1 by auto. assert (r1 = r) as -> by congruence.
    destruct (copy_ok s1 o q r l k OB (g_inl _ _ J o OB) NO Pr1) as (s2 & r2 & C & P2 & F2 & B2). { apply (inv_below _ _ q _ J). rewrite OE; auto. }
    rewrite C. unfold put. cbn [bind]. eexists. split; [reflexivity|]. destruct (inv_P s1 (setv _ v o (Some ([], []))) o [] [] J) as (r0 & O0 & P0). { unfold setv. now rewrite Nat.eqb_refl. }
    apply (Inv_ext _ (setv _ (setv _ v o (Some ([], []))) o (Some (l, k)))); [intros y; unfold setv; now destruct (Nat.eqb y o)|].
    eapply inv_step; eauto. apply frame_weak; [exact F2|]. intros b Eb.
    unfold birth in E. rewrite (inv_none _ _ _ I V) in E. injection E as <-. cbn in O0. rewrite upd_eq in O0. injection O0 as <-. now apply extra_heap in Eb.
  - destruct (v o) as [(l0 & k0)|] eqn:V; [|discriminate]. destruct (v q) as [(l & k)|] eqn:W; [|discriminate]. injection H as <-. destruct (inv_P _ _ _ _ _ I V) as (r & O & Pr). destruct (inv_P _ _ _ _ _ I W) as (t & T & Pt). rewrite O, T. cbn [bind].
    destruct (Nat.eqb_spec o q) as [->|NO].
    + exists s. split; [reflexivity|]. apply (Inv_ext _ v); [|exact I]. intros y. unfold setv. destruct (Nat.eqb_spec y q); congruence.
    + pose proof Pr as (m & gap & G). destruct (release_ok byte sL sR al i pad s o r m (p_own _ _ _ _ _ _ _ _ _ _ _ _ _ G)) as (s1 & R & F1 & EI & _). rewrite R. cbn [bind].
      assert (Pt1 : P s1 q t l k).
      { pose proof (P_frame s o (r_buf r) s1 Null (s_obj _ s1 o) q t l k F1 ltac:(auto)) as X. destruct X as (m1 & gap1 & X); auto.
        - intros b E E'. apply NO. eapply (g_inj _ _ I); eauto.
        - now apply (inv_below _ _ _ _ I T).
        - exists m1, gap1. destruct X as [A1 A2 A3 A4 A5 A6 A7 A8 A9 A10]. constructor; auto. clear A2 A3 A4 A5. revert A1. unfold LrProofs.owns. destruct (r_buf t); cbn; auto. unfold upd. destruct (Nat.eqb_spec q o) as [->|]; tauto. }
      destruct (copy_ok s1 o q t l k) as (s2 & r2 & C & P2 & F2 & B2); auto.
      { rewrite (f_obj _ _ _ _ _ _ F1). congruence. } { rewrite EI. apply (g_inl _ _ I). congruence. }
      { intros b E. pose proof (inv_below _ _ _ _ I T b E). pose proof (f_next _ _ _ _ _ _ F1). lia. }
      rewrite C. unfold put. cbn [bind]. eexists. split; [reflexivity|]. eapply inv_step; eauto. eapply frame_trans; eauto.
  - destruct (v o) as [(l0 & k0)|] eqn:V; [|discriminate]. destruct (v q) as [(l & k)|] eqn:W; [|discriminate]. destruct (Nat.eqb_spec o q) as [->|NO]; [discriminate|]. injection H as <-.
    destruct (inv_P _ _ _ _ _ I V) as (r & O & Pr). destruct (inv_P _ _ _ _ _ I W) as (t & T & Pt). rewrite O, T. cbn [bind].
    pose proof Pr as (m & gap & G). destruct (release_ok byte sL sR al i pad s o r m (p_own _ _ _ _ _ _ _ _ _ _ _ _ _ G)) as (s1 & R & F1 & EI & _). unfold clear at 1. rewrite R. cbn [bind].
    assert (Bt : below s1 (r_buf t)). { intros b E. pose proof (inv_below _ _ _ _ I T b E). pose proof (f_next _ _ _ _ _ _ F1). lia. }
    assert (Dt : forall b, r_buf t = Heap b -> r_buf r <> Heap b). { intros b E E'. apply NO. eapply (g_inj _ _ I); eauto. }
    assert (Pt1 : P s1 q t l k).
    { pose proof (P_frame s o (r_buf r) s1 Null (s_obj _ s1 o) q t l k F1 ltac:(auto)) as X. destruct X as (m1 & gap1 & X); auto.
      - now apply (inv_below _ _ _ _ I T).
      - exists m1, gap1. destruct X as [A1 A2 A3 A4 A5 A6 A7 A8 A9 A10]. constructor; auto. clear A2 A3 A4 A5. revert A1. unfold LrProofs.owns. destruct (r_buf t); cbn; auto. unfold upd. destruct (Nat.eqb_spec q o) as [->|]; tauto. }
    pose proof Pt1 as (mt & gt & Gt). rewrite (good_raw _ _ _ _ _ _ _ _ _ _ _ _ _ Gt). destruct (Nat.leb_spec (length l * sL + length k * sR) ic) as [Le|Gr].
    + destruct (copy_ok s1 o q t l k) as (s2 & r2 & C & P2 & F2 & B2); auto.
      { rewrite (f_obj _ _ _ _ _ _ F1). congruence. } { rewrite EI. apply (g_inl _ _ I). congruence. }
      rewrite C. unfold put at 1. cbn [bind]. pose proof (inv_step s v o r s2 r2 l k I O (frame_trans _ _ _ _ _ _ _ _ F1 F2) P2) as J.
      assert (W2 : setv _ v o (Some (l, k)) q = Some (l, k)) by (unfold setv; destruct (Nat.eqb_spec q o); congruence).
      destruct (inv_P _ _ _ _ _ J W2) as (t2 & T2 & Pt2).
      assert (t2 = t) as ->. { cbn in T2. rewrite upd_neq, (f_obj _ _ _ _ _ _ F2), (f_obj _ _ _ _ _ _ F1) in T2 by auto. congruence. }
      apply (inv_done _ _ q t _ [] [] J T2). eapply clear_ok; eauto. now apply (inv_below _ _ _ _ J T2).
    + eexists. split; [reflexivity|].
      assert (HT : exists b, r_buf t = Heap b). { gd Gt. pose proof (p_own _ _ _ _ _ _ _ _ _ _ _ _ _ Gt) as OW. destruct (r_buf t) as [|y|b]; cbn in OW; [destruct OW as (-> & _); cbn in *; lia|destruct OW as (_ & _ & _ & _ & _ & X); lia|eauto]. }
      destruct HT as (bt & Ebt).
      constructor; unfold setObj; cbn.
      * apply (f_fr _ _ _ _ _ _ F1). apply I.
      * intros x. unfold setv. destruct (Nat.eqb_spec x q) as [->|Nq].
        { rewrite upd_eq. apply P_fresh; cbn; [rewrite upd_eq; discriminate|]. rewrite EI. apply (g_inl _ _ I). congruence. }
        rewrite upd_neq by exact Nq. destruct (Nat.eqb_spec x o) as [->|No].
        { rewrite upd_eq. exists mt, gt. destruct Gt as [A1 A2 A3 A4 A5 A6 A7 A8 A9 A10]. constructor; auto. clear A2 A3 A4 A5. revert A1. unfold LrProofs.owns. rewrite Ebt. cbn. auto. }
        rewrite upd_neq, (f_obj _ _ _ _ _ _ F1) by exact No. pose proof (g_obj _ _ I x) as Gx. destruct (s_obj byte s x) as [y|] eqn:Y; destruct (v x) as [(l' & k')|]; auto.
        assert (X : P (setObj _ s1 o (Some t)) x y l' k'). { eapply P_frame; eauto; [|now apply (inv_below _ _ _ _ I Y)]. intros b E E'. apply No. eapply (g_inj _ _ I); eauto. }
        destruct X as (m1 & g1 & X). exists m1, g1. destruct X as [A1 A2 A3 A4 A5 A6 A7 A8 A9 A10]. constructor; auto. clear A2 A3 A4 A5. revert A1. unfold LrProofs.owns. destruct (r_buf y); cbn; auto. rewrite (upd_neq _ q) by exact Nq.
 rewrite (f_obj _ _ _ _ _ _ F1). tauto.
      * intros x y rx ry b. unfold upd. rewrite (f_obj _ _ _ _ _ _ F1).
        assert (X : forall y ry, y <> q -> s_obj byte s y = Some ry -> r_buf ry = Heap b -> r_buf t = Heap b -> False). { intros y' ry' N Q E E'. apply N. eapply (g_inj _ _ I); eauto. }
        destruct (Nat.eqb_spec x q) as [->|Nx]; [intros Hx _ Ex _; injection Hx as <-; now apply extra_heap in Ex|].
        destruct (Nat.eqb_spec y q) as [->|Ny]; [intros _ Hy _ Ey; injection Hy as <-; now apply extra_heap in Ey|].
        destruct (Nat.eqb_spec x o) as [->|Nxo]; destruct (Nat.eqb_spec y o) as [->|Nyo]; auto.
        { intros Hx Hy Ex Ey. injection Hx as <-. exfalso. eauto. }
        { intros Hx Hy Ex Ey. injection Hy as <-. exfalso. eauto. }
        apply (g_inj _ _ I).
      * intros b Hb. destruct (f_dom _ _ _ _ _ _ F1 b Hb) as [E|(E & NE)]; [discriminate|]. destruct (g_own _ _ I b E) as (x & y & Y & EY). destruct (Nat.eq_dec x q) as [->|Nx].
        { exists o, t. rewrite upd_neq, upd_eq by exact NO. split; [reflexivity|]. congruence. }
        exists x, y. rewrite !upd_neq, (f_obj _ _ _ _ _ _ F1); auto. intros ->. rewrite O in Y. injection Y as <-. contradiction.
      * intros x. unfold upd. rewrite (f_obj _ _ _ _ _ _ F1). rewrite EI. destruct (Nat.eqb_spec x q) as [->|Nx]; [intros _; apply (g_inl _ _ I); congruence|].
        destruct (Nat.eqb_spec x o) as [->|Nxo]; [intros _; apply (g_inl _ _ I); congruence|apply (g_inl _ _ I)].
  - destruct (v o) as [(l & k)|] eqn:V; [|discriminate]. injection H as <-. destruct (inv_P _ _ _ _ _ I V) as (r & O & Pr). rewrite O. cbn [bind].
    pose proof Pr as (m & gap & G). destruct (release_ok byte sL sR al i pad s o r m (p_own _ _ _ _ _ _ _ _ _ _ _ _ _ G)) as (s1 & R & F1 & EI & _). rewrite R. cbn [bind]. eexists. split; [reflexivity|].
    constructor; unfold setObj; cbn.
    + apply (f_fr _ _ _ _ _ _ F1). apply I.
    + intros x. unfold setv. rewrite (f_obj _ _ _ _ _ _ F1). destruct (Nat.eqb_spec x o) as [->|No]; [now rewrite upd_eq|]. rewrite upd_neq by exact No.
      pose proof (g_obj _ _ I x) as Gx. destruct (s_obj byte s x) as [y|] eqn:Y; destruct (v x) as [(l' & k')|]; auto.
      pose proof (P_frame s o (r_buf r) s1 Null None x y l' k' F1 No) as X. unfold setObj in X. rewrite (f_obj _ _ _ _ _ _ F1) in X. apply X; auto; [|now apply (inv_below _ _ _ _ I Y)]. intros b E E'. apply No. eapply (g_inj _ _ I); eauto.
    + intros x y rx ry b. unfold upd. rewrite (f_obj _ _ _ _ _ _ F1). destruct (Nat.eqb x o); [discriminate|]. destruct (Nat.eqb y o); [discriminate|]. apply (g_inj _ _ I).
    + intros b Hb. destruct (f_dom _ _ _ _ _ _ F1 b Hb) as [E|(E & NE)]; [discriminate|]. destruct (g_own _ _ I b E) as (x & y & Y & EY). exists x, y. rewrite upd_neq, (f_obj _ _ _ _ _ _ F1); auto. intros ->. rewrite O in Y. injection Y as <-. contradiction.
    + intros x. unfold upd. rewrite (f_obj _ _ _ _ _ _ F1), EI. destruct (Nat.eqb x o); [congruence|apply (g_inl _ _ I)].
Qed.

Lemma init_ok : Inv (init byte) (none byte).
Proof. constructor; cbn; auto; try discriminate; try congruence. Qed.
Lemma run_ok : forall ops s v v', Inv s v -> specs byte sL sR v ops = Some v' -> exists s', run byte junk sL sR al i pad s ops = Ok s' /\ Inv s' v'.
Proof.
  induction ops as [|x ops IH]; intros s v v' I H; cbn [specs run] in *.
  - injection H as <-. eauto.
  - destruct (spec v x) as [v1|] eqn:E; [|discriminate]. destruct (apply_ok _ _ _ _ I E) as (s1 & A & J). rewrite A. cbn [bind]. eauto.
Qed.

(** * Iteration *)
Lemma reads_left s p m : has s p m -> forall l off rest, Forall (fun x => length x = sL) l -> skipn (off * sL) m = concat l ++ rest -> off * sL + length l * sL <= length m ->
  reads byte s p sL (map (fun j => j * sL) (seq off (length l))) = Ok l.
Proof.
  intros H. induction l as [|x l IH]; intros off rest F E L; [reflexivity|]. cbn [length seq map reads] in *. inversion F as [|? ? Fx Fl]; subst.
  rewrite (read_ok byte s p m _ _ H) by lia. cbn [bind]. cbn [concat] in E. rewrite E, <- app_assoc, firstn_app_exact by (now symmetry).
  rewrite (IH (S off) rest Fl); [reflexivity| |cbn; lia]. cbn. rewrite Nat.add_comm. 
  assert (X : forall (z : list byte) a b, skipn (b + a) z = skipn a (skipn b z)). { clear. intros z a b. revert z. induction b; intros z; [reflexivity|]. destruct z; cbn; [now rewrite skipn_nil|apply IHb]. }
  rewrite X, E, <- app_assoc. apply skipn_app_exact. now symmetry.
Qed.
Lemma reads_right s p m c : has s p m -> length m = c -> forall k off pre post, Forall (fun x => length x = sR) k -> m = pre ++ concat (rev k) ++ post -> length post = off * sR ->
  reads byte s p sR (map (fun j => sub32 c (S j * sR)) (seq off (length k))) = Ok k.
Proof.
  intros H EC. induction k as [|x k IH]; intros off pre post F E L; [reflexivity|]. cbn [length seq map reads] in *. inversion F as [|? ? Fx Fl]; subst x0 l.
  cbn [rev] in E. rewrite concat_app in E. cbn [concat] in E. rewrite app_nil_r in E.
  assert (LM : length m = length pre + length (concat (rev k)) + sR + off * sR) by (rewrite E, !app_length; lia).
  rewrite sub32_le by (cbn; lia). rewrite (read_ok byte s p m _ _ H) by (cbn; lia). cbn [bind].
  assert (EX : firstn sR (skipn (c - S off * sR) m) = x).
  { rewrite E, <- !app_assoc, app_assoc. rewrite skipn_app_exact by (rewrite app_length; cbn; lia). apply firstn_app_exact. now symmetry. }
  rewrite EX. rewrite (IH (S off) pre (x ++ post) Fl); [reflexivity| |rewrite app_length; cbn; lia]. rewrite E, <- !app_assoc. reflexivity.
Qed.
Lemma lefts_ok s o r l k : P s o r l k -> lefts byte sL s r = Ok l.
Proof.
  intros (m & gap & G). unfold lefts. rewrite (good_ls _ _ _ _ _ _ Z _ _ _ _ _ _ _ G). gd G. pose proof G as [A1 A2 A3 A4 A5 A6 A7 A8 A9 A10].
  apply (reads_left s (r_buf r) m (owns_has _ _ _ _ _ _ _ _ _ _ _ A1) l 0 (gap ++ concat (rev k)) A6); [exact A2|lia].
Qed.
Lemma rights_ok s o r l k : P s o r l k -> rights byte sR s r = Ok k.
Proof.
  intros (m & gap & G). unfold rights. rewrite (good_rs _ _ _ _ _ _ Z _ _ _ _ _ _ _ G). gd G. pose proof G as [A1 A2 A3 A4 A5 A6 A7 A8 A9 A10].
  apply (reads_right s (r_buf r) m _ (owns_has _ _ _ _ _ _ _ _ _ _ _ A1) (eq_sym A3) k 0 (concat l ++ gap) [] A7); [rewrite A2, app_nil_r; now rewrite <- app_assoc|reflexivity].
Qed.
End P.
