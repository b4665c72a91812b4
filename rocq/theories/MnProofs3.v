From Coq Require Import List Bool Arith ZArith Lia Permutation Sorted.
From Verif Require Import Base MnModel MnSpec MnProofs MnProofs2.
Import ListNotations.
Open Scope Z_scope.

(** * Lexicographic comparison *)
Lemma lex_tri : forall n f g, lexGt n f g \/ lexGt n g f \/ (forall i, (i < n)%nat -> f i = g i).
Proof.
  induction n as [|n IH]; intros f g; [right; right; intros; lia|]. destruct (IH f g) as [[l [L [A B]]]|[[l [L [A B]]]|A]].
  - left. exists l. sp; auto.
  - right; left. exists l. sp; auto.
  - destruct (Z.lt_total (f n) (g n)) as [X|[X|X]]; [right; left; exists n; sp; auto; intros; symmetry; auto| |left; exists n; sp; auto].
    right; right. intros i L. destruct (Nat.eq_dec i n) as [->|]; auto. apply A; lia.
Qed.
Lemma lex_at : forall n f g l, (l < n)%nat -> (forall i, (i < l)%nat -> f i = g i) -> f l <> g l -> (lexGt n f g <-> g l < f l).
Proof.
  intros n f g l L A D. split.
  - intros [m [M [B C]]]. destruct (lt_eq_lt_dec m l) as [[X|X]|X]; [rewrite (A m X) in C; lia|subst; auto|]. exfalso. apply D. auto.
  - intros H. exists l. auto.
Qed.
Lemma lex_asym : forall n f g, lexGt n f g -> ~ lexGt n g f.
Proof.
  intros n f g [l [L [A B]]] [m [M [C D]]]. destruct (lt_eq_lt_dec m l) as [[X|X]|X]; [rewrite (A m X) in D; lia|subst; lia|]. rewrite (C l X) in B. lia.
Qed.
Lemma lex_trans : forall n f g h, lexGt n f g -> lexGt n g h -> lexGt n f h.
Proof.
  intros n f g h [l [L [A B]]] [m [M [C D]]]. destruct (lt_eq_lt_dec m l) as [[X|X]|X].
  - exists m. sp; auto; [intros i I; rewrite A by lia; auto|rewrite A by lia; auto].
  - subst. exists l. sp; auto; [intros i I; rewrite A by lia; auto|lia].
  - exists l. sp; auto; [intros i I; rewrite A by lia; apply C; lia|rewrite <- C by lia; auto].
Qed.
Lemma lex_ext : forall n f g f' g', (forall i, (i < n)%nat -> f i - g i = f' i - g' i) -> lexGt n f g -> lexGt n f' g'.
Proof. intros n f g f' g' E [l [L [A B]]]. exists l. sp; auto; [intros i I; specialize (A i I); specialize (E i ltac:(lia)); lia|specialize (E l L); lia]. Qed.
Lemma lex_le_trans : forall n f g h, ~ lexGt n g f -> ~ lexGt n h g -> ~ lexGt n h f.
Proof.
  intros n f g h A B C. destruct (lex_tri n f g) as [X|[X|X]]; [|auto|].
  - apply B. eapply lex_trans; eauto.
  - apply B. eapply lex_ext; [|exact C]. intros i I. cbn. rewrite X; auto.
Qed.

(** * Comparison of sparse vectors *)
Definition okv (n : nat) (v : sv) : Prop := StronglySorted svLt v /\ Forall (fun e => (fst e < n)%nat /\ snd e <> 0) v.
Lemma okv_tail : forall n e v, okv n (e :: v) -> okv n v.
Proof. intros n e v [A B]. inversion A; inversion B; subst. split; auto. Qed.
Lemma zero_low : forall v l i, StronglySorted svLt v -> (forall e, In e v -> (l <= fst e)%nat) -> (i < l)%nat -> vecWeight v i = 0.
Proof. induction v as [|[m w] v IH]; intros l i S A L; auto. cbn. assert (l <= m)%nat by (apply (A (m, w)); cbn; auto). destruct (Nat.eqb_spec m i); [lia|]. inversion S; subst. apply (IH l); auto. intros; apply A; cbn; auto. Qed.
Lemma zero_tail : forall l w v i, StronglySorted svLt ((l, w) :: v) -> (i <= l)%nat -> vecWeight v i = 0.
Proof. intros l w v i SS L. apply (zero_low v (S l)); [inversion SS; auto| |lia]. intros e E. pose proof (ss_head _ _ _ _ SS e E) as Q. exact Q. Qed.
Lemma zero_head : forall l w v i, StronglySorted svLt ((l, w) :: v) -> (i < l)%nat -> vecWeight ((l, w) :: v) i = 0.
Proof. intros l w v i S L. cbn. destruct (Nat.eqb_spec l i); [lia|]. eapply zero_tail; eauto. lia. Qed.
Lemma at_head : forall l w v, vecWeight ((l, w) :: v) l = w.
Proof. intros. cbn. rewrite Nat.eqb_refl. auto. Qed.
Lemma cmpVec_iff : forall n v w, okv n v -> okv n w -> v <> [] -> w <> [] -> (cmpVec v w = true <-> lexGt n (vecWeight v) (vecWeight w)).
Proof.
  intros n. induction v as [|[l x] v IH]; intros w OV OW NV NW; [congruence|]. destruct w as [|[m y] w]; [congruence|].
  destruct OV as [SV FV], OW as [SW FW]. inversion FV as [|? ? [L1 L2] FV']; subst. inversion FW as [|? ? [M1 M2] FW']; subst. cbn [fst snd] in *.
  assert (OV' : okv n v) by (split; [inversion SV; auto|auto]). assert (OW' : okv n w) by (split; [inversion SW; auto|auto]).
  cbn [cmpVec]. destruct (Nat.eqb_spec l m) as [->|N]; cbn [negb].
  - destruct (Z.eqb_spec x y) as [->|D]; cbn [negb].
    + assert (EXT : forall i, vecWeight ((m, y) :: v) i - vecWeight ((m, y) :: w) i = vecWeight v i - vecWeight w i).
      { intros i. cbn [vecWeight]. destruct (Nat.eqb_spec m i) as [->|]; auto. rewrite (zero_tail i y v i), (zero_tail i y w i); auto. lia. }
      assert (EQV : lexGt n (vecWeight ((m, y) :: v)) (vecWeight ((m, y) :: w)) <-> lexGt n (vecWeight v) (vecWeight w)) by (split; apply lex_ext; intros; rewrite EXT; auto).
      rewrite EQV. destruct v as [|[l2 x2] v], w as [|[m2 y2] w].
      * split; [discriminate|]. intros [k [_ [_ K]]]. cbn in K. lia.
      * destruct OW' as [S2 F2]. inversion F2 as [|? ? [G1 G2] _]; subst. cbn [fst snd] in *. rewrite (lex_at n _ _ m2); auto.
        -- rewrite at_head. cbn. apply Z.ltb_lt.
        -- intros i I. rewrite (zero_head m2 y2 w i) by auto. auto.
        -- rewrite at_head. cbn. auto.
      * destruct OV' as [S2 F2]. inversion F2 as [|? ? [G1 G2] _]; subst. cbn [fst snd] in *. rewrite (lex_at n _ _ l2); auto.
        -- rewrite at_head. cbn. apply Z.ltb_lt.
        -- intros i I. rewrite (zero_head l2 x2 v i) by auto. auto.
        -- rewrite at_head. cbn. auto.
      * apply IH; auto; discriminate.
    + rewrite (lex_at n _ _ m); auto.
      * rewrite !at_head. apply Z.ltb_lt.
      * intros i I. rewrite !zero_head; auto.
      * rewrite !at_head. auto.
  - destruct (Nat.ltb_spec l m) as [Q|Q].
    + rewrite (lex_at n _ _ l); auto.
      * rewrite at_head, (zero_head m y w l) by auto. apply Z.ltb_lt.
      * intros i I. rewrite !zero_head by (auto; lia). auto.
      * rewrite at_head, (zero_head m y w l) by auto. auto.
    + rewrite (lex_at n _ _ m); auto.
      * rewrite at_head, (zero_head l x v m) by (auto; lia). apply Z.ltb_lt.
      * intros i I. rewrite !zero_head by (auto; lia). auto.
      * rewrite at_head, (zero_head l x v m) by (auto; lia). auto.
Qed.
Lemma sv_ext : forall n v w, okv n v -> okv n w -> (forall i, (i < n)%nat -> vecWeight v i = vecWeight w i) -> v = w.
Proof.
  intros n. induction v as [|[l x] v IH]; intros w OV OW E.
  - destruct w as [|[m y] w]; auto. destruct OW as [_ F]. inversion F as [|? ? [A B] _]; subst. specialize (E m A). rewrite at_head in E. cbn in *. congruence.
  - destruct w as [|[m y] w].
    { destruct OV as [_ F]. inversion F as [|? ? [A B] _]; subst. specialize (E l A). rewrite at_head in E. cbn in *. congruence. }
    pose proof OV as [SV FV]. pose proof OW as [SW FW]. inversion FV as [|? ? [L1 L2] FV']; subst. inversion FW as [|? ? [M1 M2] FW']; subst. cbn [fst snd] in *.
    assert (l = m).
    { destruct (lt_eq_lt_dec l m) as [[X|X]|X]; auto; exfalso.
      - specialize (E l L1). rewrite at_head, (zero_head m y w l) in E by auto. auto.
      - specialize (E m M1). rewrite at_head, (zero_head l x v m) in E by auto. auto. }
    subst m. pose proof (E l L1) as X. rewrite !at_head in X. subst y. f_equal. apply IH; [eapply okv_tail; eauto|eapply okv_tail; eauto|]. intros i I. specialize (E i I). cbn in E. destruct (Nat.eqb_spec l i) as [->|]; auto. rewrite (zero_tail i x v i), (zero_tail i x w i); auto.
Qed.
Lemma vecOk_okv : forall n v, vecOk n v -> okv n v /\ v <> [].
Proof. intros n v [A [B C]]. split; [split; auto|destruct v; [destruct C|discriminate]]. revert B. apply Forall_impl. intros e [X [Y _]]. auto. Qed.

(** * createShared *)
Definition groups := list (sv * list lit).
Definition wsOf (gs : groups) : list lw := flat_map (fun g => enc (fst g)) gs.
Fixpoint lsOf (off : nat) (gs : groups) : list (lit * Z) :=
  match gs with [] => [] | (v, xs) :: gs => map (fun x => (x, Z.of_nat off)) xs ++ lsOf (off + length v) gs end.
Definition flat (gs : groups) : list (lit * sv) := flat_map (fun g => map (fun x => (x, fst g)) (snd g)) gs.
Lemma wsOf_app : forall g1 g2, wsOf (g1 ++ g2) = wsOf g1 ++ wsOf g2.
Proof. intros. unfold wsOf. apply flat_map_app. Qed.
Lemma flat_app : forall g1 g2, flat (g1 ++ g2) = flat g1 ++ flat g2.
Proof. intros. unfold flat. apply flat_map_app. Qed.
Lemma lsOf_app : forall g1 g2 off, lsOf off (g1 ++ g2) = lsOf off g1 ++ lsOf (off + length (wsOf g1)) g2.
Proof.
  induction g1 as [|[v xs] g1 IH]; intros g2 off; cbn [lsOf app wsOf flat_map]; [rewrite Nat.add_0_r; auto|]. rewrite IH, <- app_assoc. fold (wsOf g1). rewrite app_length. cbn [fst]. rewrite enc_length, Nat.add_assoc. auto.
Qed.
Definition gok (n : nat) (g : sv * list lit) : Prop := vecOk n (fst g) /\ snd g <> [].
Definition lastOk (weights : list lw) (gs : groups) (last : option mlit) (wIdx : Z) : Prop :=
  match last with
  | None => gs = []
  | Some y => exists gs0 xs, gs = gs0 ++ [(vec weights (m_w y), xs)] /\ wIdx = Z.of_nat (length (wsOf gs0))
  end.
Lemma share_spec : forall n weights l gs last wIdx,
  (forall y, In y l -> exists v, vecOk n v /\ good weights (m_w y) v) ->
  StronglySorted (MnProofs.le (cmpWeight (Some weights))) (match last with Some y => y :: l | None => l end) ->
  Forall (gok n) gs -> lastOk weights gs last wIdx ->
  exists gs', shareLoop (Some weights) l last wIdx (wsOf gs) (lsOf 0 gs) = (wsOf gs', lsOf 0 gs') /\ flat gs' = flat gs ++ map (withVec weights) l /\ Forall (gok n) gs'.
Proof.
  intros n weights. induction l as [|x l IH]; intros gs last wIdx GD SO GO LO; cbn [shareLoop].
  { exists gs. rewrite app_nil_r. auto. }
  destruct (GD x ltac:(cbn; auto)) as [vx [VX GX]]. pose proof (good_vec _ _ _ GX) as EX.
  assert (NEW : exists gs', shareLoop (Some weights) l (Some x) (Z.of_nat (length (wsOf gs))) (wsOf gs ++ vecOf weights (m_w x)) (lsOf 0 gs ++ [(m_lit x, Z.of_nat (length (wsOf gs)))]) = (wsOf gs', lsOf 0 gs') /\ flat gs' = flat gs ++ map (withVec weights) (x :: l) /\ Forall (gok n) gs').
  { destruct (IH (gs ++ [(vx, [m_lit x])]) (Some x) (Z.of_nat (length (wsOf gs)))) as [gs' [A [B C]]].
    - intros y Y. apply GD. cbn; auto.
    - destruct last; [inversion SO; subst; auto|auto].
    - rewrite Forall_app. split; auto. constructor; auto. split; auto. discriminate.
    - exists gs, [m_lit x]. rewrite EX. auto.
    - exists gs'. rewrite wsOf_app, lsOf_app in A. cbn [wsOf flat_map lsOf map app fst] in A. rewrite app_nil_r in A. rewrite (good_vecOf _ _ _ GX). cbn [Nat.add] in A. sp; auto.
      rewrite B, flat_app, <- app_assoc. cbn [flat flat_map map app snd fst]. unfold withVec at 2. rewrite EX. auto. }
  destruct last as [y|]; [|exact NEW]. destruct (cmpWeight (Some weights) y x) eqn:CW; [exact NEW|].
  destruct LO as [gs0 [xs [EG ->]]].
  assert (EV : vec weights (m_w y) = vx).
  { pose proof (ss_head _ _ _ _ SO x ltac:(cbn; auto)) as Q. unfold MnProofs.le in Q. cbn [cmpWeight] in Q, CW. rewrite EX in Q, CW.
    assert (GL : gok n (vec weights (m_w y), xs)) by (rewrite EG, Forall_app in GO; destruct GO as [_ GO]; inversion GO; auto). destruct GL as [GL _]. cbn [fst] in GL. destruct (vecOk_okv _ _ GL) as [O1 N1], (vecOk_okv _ _ VX) as [O2 N2].
    apply (sv_ext n); auto. destruct (lex_tri n (vecWeight (vec weights (m_w y))) (vecWeight vx)) as [T|[T|T]]; auto; exfalso.
    - apply (cmpVec_iff n) in T; auto. congruence.
    - apply (cmpVec_iff n) in T; auto. congruence. }
  destruct (IH (gs0 ++ [(vec weights (m_w y), xs ++ [m_lit x])]) (Some y) (Z.of_nat (length (wsOf gs0)))) as [gs' [A [B C]]].
  - intros z Z. apply GD. cbn; auto.
  - inversion SO as [|? ? S1 F1]; subst. inversion S1; inversion F1; subst. constructor; auto.
  - rewrite EG, Forall_app in GO. rewrite Forall_app. destruct GO as [G1 G2]. split; auto. inversion G2 as [|? ? [G3 G4] _]; subst. constructor; auto. split; auto. cbn. destruct xs; discriminate.
  - exists gs0, (xs ++ [m_lit x]). auto.
  - exists gs'. rewrite EG. rewrite wsOf_app, lsOf_app in A |- *. cbn [wsOf flat_map lsOf app fst] in A |- *. rewrite map_app, !app_nil_r in A. cbn [map] in A. rewrite !app_nil_r. rewrite <- app_assoc. sp; auto.
    rewrite B, !flat_app, <- !app_assoc. cbn [flat flat_map map app snd fst]. rewrite !app_nil_r, map_app, <- !app_assoc. cbn [map app]. unfold withVec at 2. rewrite EX, EV. auto.
Qed.
Lemma lsOf_corr : forall n gs base t, Forall (gok n) gs -> Forall2 (fun e xv => fst e = fst xv /\ good (base ++ wsOf gs ++ t) (snd e) (snd xv)) (lsOf (length base) gs) (flat gs).
Proof.
  intros n. induction gs as [|[v xs] gs IH]; intros base t GO; cbn [lsOf flat flat_map wsOf]; [constructor|]. inversion GO as [|? ? [G1 G2] G3]; subst. cbn [fst snd] in *. apply Forall2_app.
  - assert (GV : good (base ++ (enc v ++ wsOf gs) ++ t) (Z.of_nat (length base)) v). { split; [apply (vecOk_okv n); auto|]. exists base, (wsOf gs ++ t). rewrite <- !app_assoc. auto. }
    clear - GV. induction xs as [|x xs IH]; cbn [map]; constructor; auto.
  - specialize (IH (base ++ enc v) t G3). rewrite app_length, enc_length in IH. rewrite <- !app_assoc in IH. fold (wsOf gs). rewrite <- app_assoc. exact IH.
Qed.

(** * Lower bounds *)
Definition negAt (v : sv) (i : nat) : Z := fold_right (fun e r => (if Nat.eqb (fst e) i && (snd e <? 0) then snd e else 0) + r) 0 v.
Fixpoint vmin (l : list (lit * sv)) (i : nat) : Z := match l with [] => 0 | (_, v) :: l => Z.min 0 (vecWeight v i) + vmin l i end.
Lemma vmin_app : forall l1 l2 i, vmin (l1 ++ l2) i = vmin l1 i + vmin l2 i.
Proof. induction l1 as [|[x v] l1 IH]; intros; cbn [vmin app]; auto. rewrite IH. lia. Qed.
Lemma negAt_min : forall v i, StronglySorted svLt v -> negAt v i = Z.min 0 (vecWeight v i).
Proof.
  induction v as [|[l w] v IH]; intros i S; auto. cbn [negAt fold_right fst snd]. fold (negAt v i). rewrite IH by (inversion S; auto). cbn [vecWeight]. destruct (Nat.eqb_spec l i) as [->|]; cbn [andb]; [|lia].
  rewrite (zero_tail i w v i) by auto. destruct (Z.ltb_spec w 0); lia.
Qed.
Lemma skipTo_app : forall wPos pre l, (forall e, In e pre -> snd e <> wPos) -> skipTo wPos (pre ++ l) = skipTo wPos l.
Proof. induction pre as [|e pre IH]; intros l H; auto. cbn [skipTo app]. rewrite (proj2 (Z.eqb_neq _ _)) by (apply H; cbn; auto). apply IH. intros; apply H; cbn; auto. Qed.
Lemma skipTo_head : forall wPos x l, skipTo wPos ((x, wPos) :: l) = Ok ((x, wPos) :: l).
Proof. intros. cbn. rewrite Z.eqb_refl. auto. Qed.
Lemma runLen_app : forall wPos xs l, (match l with e :: _ => snd e <> wPos | [] => True end) -> runLen wPos (map (fun x : lit => (x, wPos)) xs ++ l) = Z.of_nat (length xs).
Proof.
  intros wPos. induction xs as [|x xs IH]; intros l H; cbn [map app runLen length snd].
  - destruct l as [|e l]; auto. cbn. rewrite (proj2 (Z.eqb_neq _ _)) by auto. auto.
  - rewrite Z.eqb_refl, IH by auto. lia.
Qed.
(** one vector *)
Lemma lower_vec : forall n u i wPos xs pre ws l lower, length lower = n -> Forall (fun e => (fst e < n)%nat) u -> u <> [] -> xs <> [] ->
  (forall e, In e pre -> snd e <> wPos) -> (match l with e :: _ => snd e <> wPos | [] => True end) ->
  exists lower' pre', lowerLoop (enc u ++ ws) i wPos true (pre ++ map (fun x : lit => (x, wPos)) xs ++ l) lower = lowerLoop ws (i + Z.of_nat (length u)) wPos false (pre' ++ map (fun x => (x, wPos)) xs ++ l) lower' /\
    length lower' = n /\ (pre' = pre \/ pre' = []) /\ forall j, nth j lower' 0 = nth j lower 0 + Z.of_nat (length xs) * negAt u j.
Proof.
  intros n. induction u as [|[l0 w0] u IH]; intros i wPos xs pre ws l lower LL F N NX HP HL; [congruence|]. inversion F as [|? ? F1 F2]; subst. cbn [fst] in F1.
  assert (STEP : exists lower' pre', lowerLoop (enc ((l0, w0) :: u) ++ ws) i wPos true (pre ++ map (fun x : lit => (x, wPos)) xs ++ l) lower = lowerLoop (enc u ++ ws) (i + 1) wPos (match u with [] => false | _ => true end) (pre' ++ map (fun x => (x, wPos)) xs ++ l) lower' /\
    length lower' = length lower /\ (pre' = pre \/ pre' = []) /\ forall j, nth j lower' 0 = nth j lower 0 + Z.of_nat (length xs) * (if Nat.eqb l0 j && (w0 <? 0) then w0 else 0)).
  { assert (Q : enc ((l0, w0) :: u) = LW l0 (match u with [] => false | _ => true end) w0 :: enc u) by (destruct u as [|[]]; reflexivity). rewrite Q. cbn [app lowerLoop negb lw_weight lw_next lw_level].
    destruct (Z.ltb_spec w0 0) as [W|W].
    - rewrite skipTo_app by auto. destruct xs as [|x xs]; [congruence|]. cbn [map app]. rewrite skipTo_head. cbn [bind]. pose proof (runLen_app wPos (x :: xs) l HL) as RL. cbn [map app] in RL. rewrite RL.
      destruct (addAt_spec lower l0 (Z.of_nat (length (x :: xs)) * w0) F1) as [lo [A [B C]]]. rewrite A. cbn [bind]. exists lo, []. sp; auto. intros j. rewrite C. rewrite andb_true_r. destruct (Nat.eqb l0 j); lia.
    - exists lower, pre. sp; auto. intros j. rewrite andb_false_r. lia. }
  destruct STEP as [lo [pre1 [S1 [S2 [S3 S4]]]]]. destruct u as [|e u].
  - exists lo, pre1. rewrite S1. cbn [enc app length]. sp; auto. intros j. rewrite S4. cbn. lia.
  - destruct (IH (i + 1) wPos xs pre1 ws l lo) as [lo' [pre2 [T1 [T2 [T3 T4]]]]]; auto; [discriminate|destruct S3; subst; auto; intros ? []|].
    exists lo', pre2. rewrite S1, T1. sp; auto; [f_equal; cbn [length]; lia|destruct S3, T3; subst; auto|]. intros j. rewrite T4, S4. cbn [negAt fold_right fst snd]. fold (negAt u j). lia.
Qed.
Lemma lower_groups : forall n gs off pre lower lv w, length lower = n -> Forall (gok n) gs -> (forall e, In e pre -> snd e < Z.of_nat off) ->
  exists lower', lowerLoop (wsOf gs ++ [LW lv false 0]) (Z.of_nat off) w false (pre ++ lsOf off gs ++ [(lit_true, Z.of_nat (off + length (wsOf gs)))]) lower = Ok lower' /\ length lower' = n /\
    forall j, nth j lower' 0 = nth j lower 0 + vmin (flat gs) j.
Proof.
  intros n. induction gs as [|[v xs] gs IH]; intros off pre lower lv w LL GO HP.
  { cbn. exists lower. sp; auto. intros; lia. }
  inversion GO as [|? ? [G1 G2] G3]; subst. cbn [fst snd] in *. cbn [wsOf flat_map lsOf fst]. fold (wsOf gs). rewrite <- !app_assoc. destruct G1 as [V1 [V2 V3]]. destruct v as [|[l0 w0] u]; [destruct V3|]. cbn [snd] in V3.
  set (tot := Z.of_nat (off + length (enc ((l0, w0) :: u) ++ wsOf gs))).
  assert (TOT : tot = Z.of_nat ((off + length ((l0, w0) :: u)) + length (wsOf gs))) by (unfold tot; rewrite app_length, enc_length; lia).
  set (after := lsOf (off + length ((l0, w0) :: u)) gs ++ [(lit_true, tot)]).
  assert (GE : forall gs o e, In e (lsOf o gs) -> Z.of_nat o <= snd e).
  { clear. induction gs as [|[v xs] gs IH]; intros o e E; [destruct E|]. cbn [lsOf] in E. apply in_app_or in E. destruct E as [E|E]; [apply in_map_iff in E; destruct E as [x [<- _]]; cbn; lia|]. apply IH in E. lia. }
  assert (HL : match after with e :: _ => snd e <> Z.of_nat off | [] => True end).
  { assert (Q : forall e, In e after -> snd e <> Z.of_nat off). { intros e E. unfold after in E. apply in_app_or in E. destruct E as [E|[<- |[]]]; [apply GE in E; cbn [length] in E; lia|]. cbn [snd]. rewrite TOT. cbn [length]. lia. }
    destruct after as [|e r]; auto. apply Q. cbn; auto. }
  assert (MIN : forall j, vmin (map (fun x : lit => (x, (l0, w0) :: u)) xs) j = Z.of_nat (length xs) * negAt u j).
  { intros j. assert (NU : Z.min 0 (vecWeight ((l0, w0) :: u) j) = negAt u j). { rewrite <- negAt_min by auto. cbn [negAt fold_right fst snd]. fold (negAt u j). rewrite (proj2 (Z.ltb_ge w0 0)) by lia. rewrite andb_false_r. lia. }
    clear - NU. induction xs as [|x xs IH]; cbn [map vmin length]; [lia|]. rewrite NU, IH. lia. }
  assert (Q : enc ((l0, w0) :: u) = LW l0 (match u with [] => false | _ => true end) w0 :: enc u) by (destruct u as [|[]]; reflexivity). rewrite Q. cbn [app lowerLoop negb lw_weight lw_next].
  rewrite (proj2 (Z.ltb_ge w0 0)) by lia.
  destruct u as [|e u].
  - destruct (IH (S off) (pre ++ map (fun x => (x, Z.of_nat off)) xs) lower lv (Z.of_nat off) eq_refl G3) as [lo [A [B C]]].
    { intros e E. apply in_app_or in E. destruct E as [E|E]; [specialize (HP e E); lia|]. apply in_map_iff in E. destruct E as [x [<- _]]. cbn [snd]. lia. }
    exists lo. rewrite <- A. sp; auto.
    + cbn [enc app]. rewrite <- app_assoc. fold after. unfold after. rewrite TOT. cbn [length]. replace (off + 1)%nat with (S off) by lia. replace (Z.of_nat off + 1) with (Z.of_nat (S off)) by lia. auto.
    + intros j. rewrite C. cbn [flat flat_map fst snd]. fold (flat gs). rewrite vmin_app, MIN. cbn. lia.
  - destruct (lower_vec (length lower) (e :: u) (Z.of_nat off + 1) (Z.of_nat off) xs pre (wsOf gs ++ [LW lv false 0]) after lower) as [lo [pre1 [A [B [C D]]]]]; auto; [|discriminate|intros x X; specialize (HP x X); lia|].
    { inversion V2; subst. match goal with H : Forall _ (e :: u) |- _ => revert H end. apply Forall_impl. intros x [X _]. auto. }
    destruct (IH (off + length ((l0, w0) :: e :: u))%nat (pre1 ++ map (fun x => (x, Z.of_nat off)) xs) lo lv (Z.of_nat off) B G3) as [lo' [A' [B' C']]].
    { intros x X. apply in_app_or in X. cbn [length]. destruct X as [X|X]; [destruct C; subst; [specialize (HP x X); lia|destruct X]|]. apply in_map_iff in X. destruct X as [y [<- _]]. cbn [snd]. lia. }
    exists lo'. sp; auto.
    + rewrite A, <- A', <- app_assoc. unfold after. rewrite TOT. f_equal. cbn [length]. lia.
    + intros j. rewrite C', D. cbn [flat flat_map fst snd]. fold (flat gs). rewrite vmin_app, MIN. lia.
Qed.
