From Coq Require Import List Bool Arith ZArith Lia Permutation.
From Verif Require Import Base ClModel ClSpec ClProofs BpModel BpSpec BpProofs BpProofs2 BpProofs3 BpProofs4 BpProofs5 CaModel CaSpec CaProofs7 SeModel SeSpec SeProofs SeProofs2.
Import ListNotations.

(** * Learning from a conflict *)
Lemma dl_bound : forall n s D G, Core n s D G -> Shape s -> b_dl s <= n.
Proof.
  intros n s D G K SH. pose proof (trail_bound n s D G K) as B. assert (X : length (seq 0 (S (b_dl s))) <= length (map e_lev (b_trail s))).
  { apply NoDup_incl_length; [apply seq_NoDup|]. intros i H. apply in_seq in H. destruct i as [|i].
    - destruct (k_sent _ _ _ _ K) as [e [E1 [E2 [E3 E4]]]]. apply in_map_iff. exists e. split; auto.
    - destruct (sh_all s SH (S i) ltac:(lia)) as [e [E1 [E2 E3]]]. apply in_map_iff. exists e. auto. }
  rewrite seq_length, map_length in X. lia.
Qed.
Lemma forceAt_free : forall s p l w, tFree (b_trail s) p -> b_dl s <= Nat.max l (b_root s) -> forceAt s p l w = (set_trail s (b_trail s ++ [Ent p (b_dl s) w l]), true).
Proof.
  intros s p l w [F1 F2] L. rewrite <- isT_iff in F1. rewrite <- isF_iff in F2. apply not_true_is_false in F1, F2. unfold forceAt, force. rewrite undo_ge by auto. rewrite F1. cbn [andb].
  assert (X : forall g, forceG s p w g = (set_trail s (b_trail s ++ [Ent p (b_dl s) w g]), true)) by (intros g; unfold forceG; rewrite F1, F2; reflexivity).
  destruct (Nat.eqb_spec l (b_dl s)) as [-> |NE]; apply X.
Qed.
Lemma createPrep_free : forall n s D G f u cs, Core n s D G -> (Z.of_nat (b_dl s) < varMax)%Z -> f_learnt f = true -> tFree (b_trail s) u ->
  watches_first (view s) (u :: cs) -> (forall q, In q cs -> tFalse (b_trail s) q /\ ~ on_top (view s) q) ->
  b_dl s <= Nat.max (match cs with q :: _ => lev s q | [] => 0 end) (b_root s) ->
  exists s' w g, createPrep s f (u :: cs) = (s', true) /\ b_trail s' = b_trail s ++ [Ent u (b_dl s) w g] /\ plain w /\ b_dl s' = b_dl s /\ b_root s' = b_root s /\ b_conf s' = b_conf s /\
    (length (b_cls s') = length (b_cls s) \/ length (b_cls s') = S (length (b_cls s))).
Proof.
  intros n s D G f u cs K DL FL FR WF CS LV. pose proof (view_wf n s D G K DL) as VW. assert (NU : ~ on_top (view s) u).
  { intros [A _]. apply A. pose proof (proj2 (val_free n s D G K u) FR) as X. unfold free_lit, pval in X. destruct (s_val (view s) (fst u)); auto; discriminate. }
  unfold createPrep. destruct cs as [|q rest].
  - assert (X : status_prep (view s) [u] (length [u]) <> 9%Z).
    { unfold status_prep. cbn [length Nat.ltb Nat.leb nth]. assert (Y : watchOrder (view s) u <> u32max).
      { intros Z. apply (wo_max (view s) VW u) in Z as [Z _]. apply (val_true n s D G K) in Z. apply (proj1 FR); auto. }
      rewrite (proj2 (Z.eqb_neq _ _) Y). destruct (varMax <? watchOrder (view s) u)%Z; [|destruct (watchOrder (view s) u <=? s_dl (view s))%Z; [destruct (watchOrder (view s) u =? 0)%Z|]]; destruct (_ && _); vm_compute; discriminate. }
    rewrite (proj2 (Z.eqb_neq _ _) X). cbn [length Nat.leb nth]. rewrite forceAt_free by auto. exists (set_trail s (b_trail s ++ [Ent u (b_dl s) Fact 0])), Fact, 0. cbn. sp; auto. split; discriminate.
  - destruct (CS q (or_introl eq_refl)) as [FQ NQ]. destruct (status_facts (view s) u q rest VW NU NQ WF) as [S1 [_ S3]].
    rewrite (proj2 (Z.eqb_neq _ _) S1). change (Nat.leb (length (u :: q :: rest)) 1) with false. cbv iota.
    destruct (Z.testbit _ 1 || Z.testbit _ 2) eqn:T.
    2:{ exfalso. destruct (S3 eq_refl) as [_ Y]. destruct (Y (proj2 (val_false n s D G K q) FQ)) as [Z _]. apply (val_true n s D G K) in Z. apply (proj1 FR); auto. }
    clear T S1 S3. set (imp := Nat.leb (length (u :: q :: rest)) 3 && negb (f_expl f)).
    assert (PK : pick f (u :: q :: rest) = u :: q :: rest) by (unfold pick; rewrite FL; reflexivity). rewrite PK.
    assert (C : (if imp then u :: q :: rest else u :: q :: rest) = u :: q :: rest) by (destruct imp; auto). rewrite !C. change (nth 0 (u :: q :: rest) lit_false) with u. change (nth 1 (u :: q :: rest) lit_false) with q.
    set (s1 := if imp then add_imp s _ else _). assert (F1 : b_trail s1 = b_trail s /\ b_dl s1 = b_dl s /\ b_root s1 = b_root s /\ b_conf s1 = b_conf s /\ (length (b_cls s1) = length (b_cls s) \/ length (b_cls s1) = S (length (b_cls s)))).
    { unfold s1. destruct imp.
      - unfold add_imp. destruct rest as [|x [|y rest]]; sp; auto.
      - unfold attach, addWatch. cbn. sp; auto. right. rewrite app_length. cbn. lia. }
    destruct F1 as [A1 [A2 [A3 [A4 A5]]]]. set (w := if imp then _ else _).
    assert (PL : plain w). { unfold w. destruct imp; [destruct rest as [|x [|y r]]|]; split; discriminate. }
    rewrite forceAt_free; [|rewrite A1; auto|rewrite A2, A3; auto]. eexists; exists w, (lev s q). split; [reflexivity|]. cbn. rewrite A1, A2. sp; auto.
Qed.

Section Learn.
Variables (n : nat) (s : st) (D : db) (G : list (list lit)).
Hypothesis (I : InvG n s D G) (SH : Shape s) (NV : (Z.of_nat n < varMax)%Z) (CF : b_conf s <> None) (RT : b_root s < b_dl s).
Let K : Core n s D G := proj1 I.
Let E := envOf s.

Record learnt (x : sv) (x' : sv) : Prop := {
  l_cc : exists cc D' G', InvG n (q_st x') D' G' /\ (forall a, GM D a -> sat_clause a cc = true) /\ Forall (good_var n) cc /\
    (D' = Db (d_imp D ++ [cc]) (d_exp D) /\ q_lrn x' = q_lrn x \/ D' = Db (d_imp D) (d_exp D ++ [Some cc]) /\ q_lrn x' = length (d_exp D) :: q_lrn x);
  l_shape : Shape (q_st x'); l_conf : b_conf (q_st x') = None; l_root : b_root (q_st x') = b_root s;
  l_dl : b_root s <= b_dl (q_st x') < b_dl s;
  l_trail : exists e, b_trail (q_st x') = kept (b_dl (q_st x')) (b_trail s) ++ [e] /\ e_lev e = b_dl (q_st x') /\ plain (e_why e) }.

Lemma resolve_spec : forall w k L, exists x', resolveConflict w k (Sv s L) = Ok (x', true) /\ learnt (Sv s L) x'.
Proof.
  intros w k L. unfold resolveConflict. cbn [q_st q_lrn]. rewrite (proj2 (Nat.ltb_lt _ _) RT).
  set (o := w_opt w k s). pose proof (bridge_conflict n s D G I SH o CF RT) as C.
  destruct (ca_ok (GM D) E o (conflictLits s) (flagsOf s) C) as [r [R [[u [cs [CC [[U1 U2] [LV [ND [FA SEC]]]]]]] [EN _]]]].
  unfold E in R. rewrite R. cbn [bind]. specialize (EN (fun _ => bridge_flips n s D G I SH)).
  set (s1 := undo s (r_level r)). set (m := Nat.max (r_level r) (b_root s)). unfold E in LV. rewrite dl_of in LV.
  assert (ML : m < b_dl s) by (unfold m; lia).
  assert (S1 : s1 = St (kept m (b_trail s)) (length (kept m (b_trail s))) m (b_bin s) (b_tern s) (b_cls s) (b_wl s) None (b_root s)).
  { unfold s1. rewrite undo_max. apply (undo_eq n s D G m K); unfold m; lia. }
  assert (I1 : InvG n s1 D G) by (apply undo_inv; exact I). assert (SH1 : Shape s1) by (apply (shape_undo n s D G); auto).
  assert (T1 : b_trail s1 = kept m (b_trail s)) by (rewrite S1; reflexivity). assert (D1 : b_dl s1 = m) by (rewrite S1; reflexivity). assert (R1 : b_root s1 = b_root s) by (rewrite S1; reflexivity).
  assert (C1 : b_conf s1 = None) by (rewrite S1; reflexivity). assert (K1 := proj1 I1). assert (KI : forall e, In e (b_trail s1) <-> In e (b_trail s) /\ e_lev e <= m).
  { intros e. rewrite T1. unfold kept. rewrite filter_In, Nat.leb_le. tauto. }
  (* the entries of the clause *)
  destruct (ent_of n s D G I (neg u) U1) as [eu [EU1 [EU2 _]]]. assert (EU3 : e_lev eu = b_dl s). { rewrite <- (lv_neg n s D G I eu u EU1 EU2). unfold E in U2. rewrite dl_of in U2. exact U2. }
  assert (FREE : tFree (b_trail s1) u).
  { split; intros [e [A B]]; apply KI in A as [A1 A2].
    - assert (e = eu). { apply (nd_ent (b_trail s)); auto; [apply (k_nd _ _ _ _ K)|]. unfold litOf. rewrite B, EU2. destruct u; reflexivity. } subst e. lia.
    - assert (e = eu). { apply (nd_ent (b_trail s)); auto; [apply (k_nd _ _ _ _ K)|]. unfold litOf. rewrite B, EU2. reflexivity. } subst e. lia. }
  assert (CSF : forall q, In q cs -> exists e, In e (b_trail s1) /\ e_lit e = neg q /\ 0 < e_lev e <= r_level r /\ lv E q = e_lev e).
  { intros q Q. destruct (FA q Q) as [i [[F1 F2] F3]]. destruct (ent_of n s D G I (neg q) F1) as [e [X1 [X2 _]]]. pose proof (lv_neg n s D G I e q X1 X2) as X3. fold E in X3.
    exists e. rewrite KI. sp; auto; unfold m; lia. }
  assert (LEV : forall q e, In e (b_trail s1) -> e_lit e = neg q -> lev s1 q = e_lev e).
  { intros q e A B. apply (lev_in n s1 D G K1); auto. unfold litOf. rewrite B. destruct q; reflexivity. }
  assert (DLZ : (Z.of_nat (b_dl s1) < varMax)%Z) by (pose proof (dl_bound n s D G K SH); lia).
  assert (NT : forall q, In q cs -> tFalse (b_trail s1) q /\ ~ on_top (view s1) q).
  { intros q Q. destruct (CSF q Q) as [e [X1 [X2 [X3 X4]]]]. split; [exists e; auto|]. intros [_ Z]. rewrite val_lvl, (LEV q e X1 X2) in Z. lia. }
  assert (WF : watches_first (view s1) (u :: cs)).
  { destruct cs as [|q rest]; [exact Logic.I|]. pose proof (proj2 (val_free n s1 D G K1 u) FREE) as XU. unfold free_lit in XU.
    assert (FQ : forall x, In x (q :: rest) -> pval (s_val (view s1)) x = Some false). { intros x X. apply (val_false n s1 D G K1). apply NT; auto. }
    split.
    - unfold better. rewrite XU, (FQ q (or_introl eq_refl)). auto.
    - intros x X. unfold better. rewrite (FQ q (or_introl eq_refl)), (FQ x (or_intror X)). rewrite !val_lvl.
      destruct (CSF x (or_intror X)) as [e [X1 [X2 [X3 X4]]]]. destruct (CSF q (or_introl eq_refl)) as [e' [Y1 [Y2 [Y3 Y4]]]].
      rewrite (LEV x e X1 X2), (LEV q e' Y1 Y2). destruct SEC as [[_ Z]|[w0 [cs' [Z1 [Z2 Z3]]]]]; [discriminate|]. injection Z1 as -> ->. lia. }
  assert (LQ : b_dl s1 <= Nat.max (match cs with q :: _ => lev s1 q | [] => 0 end) (b_root s1)).
  { rewrite D1, R1. unfold m. destruct cs as [|q rest].
    - destruct SEC as [[Z _]|[w0 [cs' [Z _]]]]; [|discriminate]. lia.
    - destruct SEC as [[_ Z]|[w0 [cs' [Z1 [Z2 Z3]]]]]; [discriminate|]. injection Z1 as <- <-. destruct (CSF q (or_introl eq_refl)) as [e' [Y1 [Y2 [Y3 Y4]]]]. rewrite (LEV q e' Y1 Y2). lia. }
  set (f := Flags true (w_expl w k s) (w_shared w k s) 0 0).
  destruct (createPrep_free n s1 D G f u cs K1 DLZ eq_refl FREE WF NT LQ) as [s2 [wy [g [P1 [P2 [P3 [P4 [P5 [P6 P7]]]]]]]]].
  rewrite CC, P1. eexists. split; [reflexivity|].
  assert (GV : Forall (good_var n) (u :: cs)).
  { apply Forall_forall. assert (X : forall q e, In e (b_trail s) -> e_lit e = neg q -> 0 < e_lev e -> good_var n q).
    { intros q e A B L0. pose proof (k_var _ _ _ _ K e A) as V. unfold litOf in V. rewrite B in V. split; [|destruct q; exact V].
      destruct (Nat.eq_dec (fst q) 0) as [Z|Z]; [|lia]. exfalso. destruct (k_sent _ _ _ _ K) as [e0 [E1 [E2 [E3 E4]]]].
      assert (e = e0). { apply (nd_ent (b_trail s)); auto; [apply (k_nd _ _ _ _ K)|]. unfold litOf. rewrite B, E2. destruct q; cbn in *; congruence. } subst e0. lia. }
    intros q [<-|Q]; [apply (X u eu); auto; lia|]. destruct (CSF q Q) as [e [X1 [X2 [X3 X4]]]]. apply KI in X1 as [X1 _]. apply (X q e); auto. lia. }
  assert (exists G', InvG n s2 (db_step s1 D (OCreate f false (u :: cs)) s2) G') as [G' IG].
  { pose proof (createPrep_inv n s1 D G f (u :: cs) (u :: cs) I1) as X. rewrite P1 in X. cbn [fst] in X. apply X.
    - sp; auto. right. exists u. split; [now left|]. intros e A B. exfalso. apply (proj2 FREE). exists e. auto.
    - right. sp; auto; [unfold distinct_vars; rewrite <- CC; exact ND|]. intros p [<-|P]; [split; [now left|]|split; [now right|apply NT; auto]].
      intros [A _]. apply A. pose proof (proj2 (val_free n s1 D G K1 u) FREE) as X'. unfold free_lit, pval in X'. destruct (s_val (view s1) (fst u)); auto; discriminate. }
  assert (SH2 : Shape s2).
  { apply (shape_grow s1 s2 [Ent u (b_dl s1) wy g]); auto; [intros e [<-|[]]; exact P3|]. intros p Z. rewrite P6, C1 in Z. discriminate. }
  constructor; cbn [q_st q_lrn]; auto; try congruence.
  - rewrite CC in EN. exists (u :: cs), (db_step s1 D (OCreate f false (u :: cs)) s2), G'. sp; auto. unfold db_step. pose proof (k_len _ _ _ _ K1) as KL.
    destruct P7 as [X|X]; rewrite X.
    + rewrite Nat.eqb_refl. left. auto.
    + rewrite (proj2 (Nat.eqb_neq _ _)) by lia. right. rewrite KL. auto.
  - rewrite P4, D1. unfold m. lia.
  - exists (Ent u (b_dl s1) wy g). rewrite P2, P4, D1, T1. sp; auto. 
Qed.
End Learn.
