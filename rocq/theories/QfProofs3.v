From Coq Require Import List Bool Arith ZArith Lia Permutation.
From Verif Require Import Base ClModel ClSpec ClProofs BpModel BpSpec BpProofs BpProofs2 BpProofs3 BpProofs4 BpProofs5 CaModel CaSpec SeModel SeSpec SeProofs SeProofs2 SeProofs3 SeProofs4 SeProofs5 EnModel EnProofs EnProofs2 QfModel QfSpec QfProofs QfProofs2.
Import ListNotations.

Section S.
Variable n : nat.
Hypothesis NV : (Z.of_nat n < varMax)%Z.
Variables (F : list clause) (A : list (lit * nat)) (r0 : nat) (cons : list lit).
Hypothesis (GA : goodA n A) (HA : forall p l, In (p, l) A -> l <= r0) (CB : forall p, In p cons -> fst p <= n).

Definition Base (x : sv) : Prop := SI n x F A /\ b_root (q_st x) = r0 /\ b_dl (q_st x) = r0 /\ b_conf (q_st x) = None.
Definition AQ (q : lit) : list (lit * nat) := A ++ [(neg q, S r0)].
Lemma good_aq : forall q, good_var n q -> goodA n (AQ q).
Proof. intros q GV p l P. apply in_app_or in P as [P|[P|[]]]; [eapply GA; eauto|]. injection P as <- _. exact GV. Qed.

Section M.
Variable a0 : asg.
Hypothesis (A0 : holds a0 lit_true = true) (M0 : isModel a0 F A).
Notation Inv := (Inv F A cons a0).

Lemma base_cons : forall x p, Base x -> isT (q_st x) p = true -> consequence F A p.
Proof.
  intros x p [B1 [B2 [B3 B4]]] T a H0 [M1 M2]. apply (low_true n x F A a r0 B1 GA); auto; [lia|intros; eauto|]. rewrite <- B3. eapply lev_dl; eauto.
Qed.
Lemma base_updateOpen : forall x f, Base x -> Inv (f_m f) (f_open f) -> let f' := updateOpen (q_st x) f in
  Inv (f_m f') (f_open f') /\ fixes (f_m f) (f_m f') /\ f_q f' = f_q f /\ (forall p, In p (f_open f') -> isFr (q_st x) p = true /\ isOpen (f_m f') p = true /\ In p (f_open f)) /\ length (f_open f') <= length (f_open f) /\
  ((exists q, In q (f_open f) /\ isOpen (f_m f) q = false) -> length (f_open f') < length (f_open f)).
Proof.
  intros x f BS I. cbv zeta. unfold updateOpen.
  pose proof (updOpen_ok F A cons a0 A0 M0 (q_st x) (fun p _ T => base_cons x p BS T) (fun p T => base_cons x (neg p) BS T) (length (f_open f)) (f_m f) [] (f_open f) (le_n _) I) as U.
  specialize (U ltac:(intros p [])). destruct (updOpen _ _ _ _ _) as [m l]. destruct U as [U1 [U2 [U3 [U4 U5]]]]. cbn [f_m f_open f_q]. sp; auto.
Qed.
(** The query is on the root level of its own. *)
Definition Ph1 (x : sv) (f : qf) : Prop :=
  Inv (f_m f) (f_open f) /\ In (f_q f) (f_open f) /\ isOpen (f_m f) (f_q f) = true /\ good_var n (f_q f) /\ SI n x F (AQ (f_q f)) /\ b_root (q_st x) = S r0 /\ bnd x.
Lemma pop_ph : forall x f, good_var n (f_q f) -> holds a0 (f_q f) = true -> SI n x F (AQ (f_q f)) -> b_root (q_st x) = S r0 ->
  isF (q_st x) (f_q f) = true /\ lev (q_st x) (f_q f) = S r0 /\ Base (popQuery x f).
Proof.
  intros x f GV H S0 R. assert (AO : AsOk (q_st x) (AQ (f_q f))) by (destruct S0 as [D [G [_ [_ [_ AO]]]]]; auto).
  assert (K : exists D G, Core n (q_st x) D G) by (destruct S0 as [D [G [[K _] _]]]; eauto). destruct K as [D [G K]].
  destruct (a_true _ _ AO (neg (f_q f)) (S r0)) as [_ [e [E1 [E2 E3]]]]; [apply in_or_app; right; now left|].
  assert (IF : isF (q_st x) (f_q f) = true) by (apply isT_iff; exists e; auto).
  assert (LE : lev (q_st x) (f_q f) = e_lev e) by (apply (lev_in n (q_st x) D G K); auto; unfold litOf; rewrite E2; reflexivity).
  assert (LV : lev (q_st x) (f_q f) = S r0).
  { destruct (Nat.le_gt_cases (lev (q_st x) (f_q f)) r0); [|lia]. exfalso.
    assert (X : holds a0 (neg (f_q f)) = true). { apply (low_true n x F (AQ (f_q f)) a0 r0 S0 (good_aq _ GV)); auto; [lia|apply M0|]. intros p l P L. apply in_app_or in P as [P|[P|[]]]; [eapply (proj2 M0); eauto|]. injection P as _ <-. lia. }
    rewrite holds_neg, H in X. discriminate. }
  sp; auto. unfold popQuery. rewrite IF. replace (lit_eqb (f_q f) lit_false) with false. 2: { symmetry. destruct (lit_eqb (f_q f) lit_false) eqn:Z; auto. apply lit_eqb_eq in Z. rewrite Z in GV. destruct GV as [GV _]. cbn in GV. lia. }
  cbn [negb andb]. rewrite LV, R. replace (S r0 - S r0 + 1) with 1 by lia. destruct (pop_si n x F (AQ (f_q f)) 1 S0) as [P _].
  assert (RT : b_root (q_st (popRoot x 1)) = r0) by (cbn [popRoot q_st]; rewrite pop_root, R; lia).
  unfold Base. sp; auto.
  - rewrite RT in P. unfold AQ in P. rewrite filter_app in P. cbn [filter snd] in P. rewrite (proj2 (Nat.leb_gt _ _) (Nat.lt_succ_diag_r r0)), app_nil_r in P. rewrite filter_all in P; auto.
    intros [p l] H1. apply Nat.leb_le. cbn. eauto.
  - rewrite (proj2 (pop_clean n x 1 F _ S0)). exact RT.
  - cbn [popRoot q_st]. unfold popRootLevel, undo. cbn [setRoot b_root b_dl]. rewrite R. pose proof (k_root _ _ _ _ K). destruct (Nat.ltb_spec (Nat.max (S r0 - Nat.min 1 (S r0)) (S r0 - Nat.min 1 (S r0))) (b_dl (q_st x))); [reflexivity|lia].
Qed.
Lemma base_pop0 : forall x, Base x -> Base (popRoot x 0).
Proof.
  intros x [B1 [B2 [B3 B4]]]. destruct (pop_si n x F A 0 B1) as [P _].
  assert (RT : b_root (q_st (popRoot x 0)) = r0) by (cbn [popRoot q_st]; rewrite pop_root, B2; lia).
  unfold Base. sp; auto.
  - rewrite RT, filter_all in P; auto. intros [p l] H1. apply Nat.leb_le. cbn. eauto.
  - rewrite (proj2 (pop_clean n x 0 F _ B1)). exact RT.
  - cbn [popRoot q_st]. unfold popRootLevel, undo. cbn [setRoot b_root b_dl]. rewrite B2, B3. destruct (Nat.ltb _ _); auto.
Qed.
Lemma no_conflict : forall x, SI n x F A -> b_conf (q_st x) <> None -> b_dl (q_st x) <= b_root (q_st x) -> False.
Proof. intros x H C L. exact (conflict_unsat n x F A H GA C L a0 M0). Qed.

(** What an answer says *)
Definition bounds (m : cells) : Prop := forall p, In p cons -> (consequence F A p -> inEst m p = true) /\ (inDef m p = true -> consequence F A p).
Lemma inv_bounds : forall m l, Inv m l -> bounds m.
Proof.
  intros m l [I _] p P. specialize (I p P). unfold says in I. rewrite est_iff. destruct (inDef m p); [split; [intros _; apply orb_true_r|auto]|]. destruct (isOpen m p); [split; [auto|discriminate]|].
  split; [|discriminate]. intros C. exfalso. eapply counter_not; eauto.
Qed.
Lemma inv_done : forall m, Inv m [] -> forall p, In p cons -> (inEst m p = true <-> consequence F A p).
Proof.
  intros m I p P. split; [|apply (inv_bounds m [] I); auto]. intros E. rewrite est_iff in E. pose proof (proj1 I p P) as S. unfold says in S. destruct (inDef m p); auto. destruct (isOpen m p); [destruct (proj1 S)|discriminate].
Qed.

Lemma prop_idle : forall k s, b_front s = length (b_trail s) -> propagate (S k) s = (s, Some true).
Proof. intros k s H. cbn [propagate]. rewrite H, (proj2 (nth_error_None _ _)); auto. Qed.
Lemma push_grows : forall x p, b_conf (q_st x) = None -> b_dl (q_st x) = b_root (q_st x) -> b_front (q_st x) = length (b_trail (q_st x)) -> isFr (q_st x) p = true ->
  forall x' ok, pushRoot n x p = Ok (x', ok) -> b_root (q_st x') = S (b_root (q_st x)).
Proof.
  intros x p NC DL FR IF x' ok E. unfold pushRoot in E. rewrite NC, DL, Nat.eqb_refl in E. rewrite prop_idle in E; auto.
  unfold isFr in IF. apply andb_true_iff in IF as [I1 I2]. apply negb_true_iff in I1, I2. rewrite I1, I2 in E. cbn [orb] in E.
  pose proof (propagate_ext (S (S n)) (pushRootLevel (assume (q_st x) p))) as EX. destruct (propagate (S (S n)) (pushRootLevel (assume (q_st x) p))) as [s3 [o|]] eqn:P; [|discriminate].
  injection E as <- <-. cbn [q_st fst] in *. destruct EX as [_ [_ [EX _]]]. rewrite EX. unfold pushRootLevel, assume. rewrite I1, I2 || idtac. cbn. lia.
Qed.

(** * One update *)
Lemma upd_ok : forall pre h x f r, selects h -> Base (popQuery x f) -> Inv (f_m f) (f_open f) -> isOpen (f_m f) (f_q f) = false -> doUpdate pre h n x f = Ok r ->
  match r with
  | Done => exists m', fixes (f_m f) m' /\ Inv m' []
  | Cont x' f' e => (ownLevels e -> Ph1 x' f' /\ fixes (f_m f) (f_m f') /\ length (f_open f') <= length (f_open f)) /\ (pre = true -> ownLevels e) /\ exists g, e = [EPush g]
  end.
Proof.
  intros pre h x f r SEL BS I NO E. unfold doUpdate in E. rewrite NO in E. cbn [negb orb] in E. pose proof BS as [B1 [B2 [B3 B4]]]. rewrite B4 in E. set (x1 := popQuery x f) in *.
  assert (ALL : exists x2, (if pre then match propagate (S (S n)) (q_st x1) with (s, Some ok) => Ok (Sv s (q_lrn x1), ok) | (_, None) => UB end else Ok (x1, true)) = Ok (x2, true) /\ Base x2 /\ (pre = true -> b_front (q_st x2) = length (b_trail (q_st x2)))).
  { destruct pre; [|exists x1; sp; auto; discriminate]. destruct x1 as [s1 L1] eqn:X1. cbn [q_st q_lrn] in *. destruct (prop_si n s1 L1 F A B1 B4) as [s2 [ok [P [S2 [D2 [R2 [_ [OK1 OK2]]]]]]]]. rewrite P.
    destruct ok; [|exfalso; apply (no_conflict (Sv s2 L1)); auto; cbn; lia]. exists (Sv s2 L1). destruct (OK1 eq_refl) as [Q1 Q2]. unfold Base. cbn. sp; auto; congruence. }
  destruct ALL as [x2 [E2 [BS2 FR]]]. rewrite E2 in E. cbn [bind] in E. clear E2. unfold select in E.
  destruct (base_updateOpen x2 f BS2 I) as [U1 [U2 [U3 [U4 [U5 _]]]]]. set (f1 := updateOpen (q_st x2) f) in *.
  destruct (f_open f1) as [|z zs] eqn:OP.
  - injection E as <-. exists (f_m f1). auto.
  - cbn [f_q] in E. set (q := h (q_st x2) (z :: zs)) in *. assert (QI : In q (z :: zs)) by (apply SEL; discriminate). destruct (U4 q QI) as [Q1 [Q2 Q3]].
    assert (GV : good_var n q). { split; [|apply CB; apply (proj2 I); auto]. destruct BS2 as [BS2 _]. apply (fr_var n x2 F A) in Q1; auto. lia. }
    destruct BS2 as [C1 [C2 [C3 C4]]].
    destruct (push_si n x2 F A (neg q) C1 ltac:(intros X; congruence) GV GA) as [x3 [ok [EP [S3 [B3' [RT PF]]]]]]. rewrite EP in E. cbn [bind] in E. injection E as <-. sp; [| |eauto].
    + intros OW. assert (GR : Nat.ltb (b_root (q_st x2)) (b_root (q_st x3)) = true) by (apply OW; now left). rewrite GR, orb_true_r in S3. apply Nat.ltb_lt in GR.
      assert (RR : b_root (q_st x3) = S r0) by lia. rewrite RR in S3. unfold Ph1. cbn [f_m f_open f_q]. sp; auto.
    + intros -> g [G|[]]. injection G as <-. apply Nat.ltb_lt.
      assert (NF : isFr (q_st x2) (neg q) = true). { unfold isFr, isF in *. rewrite neg_neg, andb_comm. exact Q1. }
      rewrite (push_grows x2 (neg q) C4 ltac:(congruence) (FR eq_refl) NF x3 ok EP). lia.
Qed.

(** * Runs after the first model *)
Definition last_from (r : option cells) (e : list event) : option cells := fold_left (fun r x => match x with EModel m | EUp m => Some m | EPush _ => r end) e r.
Lemma last_app : forall e e' r, last_from r (e ++ e') = last_from (last_from r e) e'.
Proof. intros. apply fold_left_app. Qed.
Definition reported (e : list event) (m : cells) : Prop := In (EModel m) e \/ In (EUp m) e.
Definition sameEst (m m' : cells) : Prop := forall p, inEst m p = inEst m' p.
Definition goal1 (k : nat) (len : nat) (m0 : cells) (e : list event) (a : answer) : Prop :=
  (forall m, reported e m -> bounds m) /\ (a = Complete -> exists m, last_from (Some m0) e = Some m /\ forall p, In p cons -> (inEst m p = true <-> consequence F A p)) /\ (a = NoRounds -> k <= len).

Lemma own_app : forall e e', ownLevels (e ++ e') -> ownLevels e /\ ownLevels e'.
Proof. intros e e' H. split; intros g G; apply H; apply in_or_app; auto. Qed.
Lemma cons_not_base : forall x q, Base x -> holds a0 q = true -> isF (q_st x) q = false.
Proof. intros x q BS H. destruct (isF (q_st x) q) eqn:E; auto. pose proof (base_cons x (neg q) BS E a0 A0 M0) as X. rewrite holds_neg, H in X. discriminate. Qed.

Section Run.
Variables (pre : bool) (rounds fuel : nat) (u : nat -> qround).
Hypothesis HU : forall k, picks n (u_w (u k)) /\ selects (u_h (u k)).

(** From a state in which the next query is to be selected *)
Lemma cont_ok : forall k, (forall x f e a m0, Ph1 x f -> sameEst m0 (f_m f) -> query k pre rounds fuel n u x f = Ok (e, a) -> (pre = true -> ownLevels e) /\ (ownLevels e -> goal1 k (length (f_open f)) m0 e a)) ->
  forall x f m0 e0 e a, Base (popQuery x f) -> Inv (f_m f) (f_open f) -> isOpen (f_m f) (f_q f) = false -> sameEst m0 (f_m f) ->
  (do r <- doUpdate pre (u_h (u k)) n x f;
   match r with Done => Ok (e0, Complete) | Cont x' f' e' => do '(e2, a) <- query k pre rounds fuel n u x' f'; Ok (e0 ++ e' ++ e2, a) end) = Ok (e, a) ->
  exists e1, e = e0 ++ e1 /\ (pre = true -> ownLevels e1) /\ (ownLevels e1 -> goal1 k (length (f_open f)) m0 e1 a).
Proof.
  intros k IH x f m0 e0 e a BS I NO SE E. destruct (doUpdate pre (u_h (u k)) n x f) as [r| |] eqn:EU; cbn [bind] in E; try discriminate.
  pose proof (upd_ok pre (u_h (u k)) x f r (proj2 (HU k)) BS I NO EU) as U. destruct r as [|x' f' e'].
  - injection E as <- <-. exists []. rewrite app_nil_r. split; auto. split; [intros _ g []|intros _]. destruct U as [m' [FX I']]. unfold goal1. sp; [intros m [[]|[]]| |discriminate]. intros _. exists m0. split; auto.
    intros p P. rewrite SE, <- (fixes_est (f_m f) m' FX p). apply inv_done; auto.
  - destruct U as [U1 [U2 [g ->]]]. destruct (query k pre rounds fuel n u x' f') as [[e2 a2]| |] eqn:EQ; cbn [bind] in E; try discriminate. injection E as <- <-.
    exists ([EPush g] ++ e2). split; auto.
    assert (SE' : fixes (f_m f) (f_m f') -> sameEst m0 (f_m f')). { intros FX p. rewrite SE. symmetry. apply fixes_est. auto. } split.
    + intros PR. specialize (U2 PR). destruct (U1 U2) as [P1 [FX LE]]. intros z Z. apply in_app_or in Z as [Z|Z]; [apply U2; auto|]. apply (proj1 (IH x' f' e2 a2 m0 P1 (SE' FX) EQ) PR). auto.
    + intros OW2. destruct (own_app [EPush g] e2 OW2) as [OW3 OW4]. destruct (U1 OW3) as [P1 [FX LE]].
      destruct (proj2 (IH x' f' e2 a2 m0 P1 (SE' FX) EQ) OW4) as [G1 [G2 G3]].
      unfold goal1. sp; [|rewrite last_app; cbn [last_from fold_left]; exact G2|intros X; specialize (G3 X); lia].
      intros m [[R|R]|[R|R]]; try discriminate; apply G1; [left|right]; auto.
Qed.

Lemma modelOf_vals : forall x A', SI n x F A' -> modelState n x -> forall p, fst p <= n -> isT (q_st x) p = holds (modelOf (q_st x)) p.
Proof.
  intros x A' S0 MS p P. destruct MS as [C1 [C2 C3]]. destruct (total_model n x F A' S0 C1 C2 C3) as [TOT _]. destruct (sent_true n x F A' S0) as [T1 [T2 _]].
  destruct p as [v b]. cbn in P. unfold holds, modelOf. cbn. destruct b; cbn; [|destruct (isT (q_st x) (v, false)); reflexivity]. destruct v as [|v]; [unfold lit_true, lit_false in *; rewrite T1, T2; reflexivity|].
  specialize (TOT (S v) ltac:(lia)). destruct (isT (q_st x) (S v, true)), (isT (q_st x) (S v, false)); auto; discriminate.
Qed.

Lemma run1 : forall k x f e a m0, Ph1 x f -> sameEst m0 (f_m f) -> query k pre rounds fuel n u x f = Ok (e, a) -> (pre = true -> ownLevels e) /\ (ownLevels e -> goal1 k (length (f_open f)) m0 e a).
Proof.
  induction k as [|k IH]; intros x f e a m0 [P1 [P2 [P3 [P4 [P5 [P6 P7]]]]]] SE E; cbn [query] in E.
  { injection E as <- <-. split; [intros _ g []|intros _]. unfold goal1. sp; [intros m [[]|[]]|discriminate|lia]. }
  set (q := f_q f) in *. assert (HQ : holds a0 q = true). { apply (says_in F A a0 A0 M0 (f_m f) (f_open f)); [apply (proj1 P1), (proj2 P1); auto|]. rewrite est_iff, P3. reflexivity. }
  destruct (HU k) as [PK SEL]. destruct (solve_ok n NV (u_w (u k)) F (AQ q) fuel PK rounds x P5) as [x1 [v [ES [S1 [R1 PO]]]]]. rewrite ES in E. cbn [bind] in E. apply post_bnd in PO as [PT PF].
  assert (R1' : b_root (q_st x1) = S r0) by congruence.
  destruct v; [| |injection E as <- <-; split; [intros _ g []|intros _]; unfold goal1; sp; [intros m [[]|[]]|discriminate|discriminate]..].
  - (* a model without the query *)
    pose proof (PT eq_refl) as MS. set (s := q_st x1) in *. set (a1 := modelOf s).
    destruct (pop_ph x1 f P4 HQ S1 R1') as [IF [LV _]]. fold q s in IF, LV.
    assert (M1 : isModel a1 F (AQ q)) by (destruct MS as [C1 [C2 C3]]; apply (total_model n x1 F (AQ q)); auto).
    assert (VAL : forall p, In p cons -> isT s p = holds a1 p) by (intros p P; apply (modelOf_vals x1 (AQ q)); auto).
    assert (T1 : holds a1 lit_true = true). { unfold a1, s. rewrite <- (modelOf_vals x1 (AQ q) S1 MS lit_true); [apply (sent_true n x1 F (AQ q)); auto|cbn; lia]. }
    assert (M1' : isModel a1 F A) by (split; [apply M1|]; intros p l P; apply (proj2 M1 p l); apply in_or_app; auto).
    assert (CQ : counter F A q). { exists a1. sp; auto. assert (X : holds a1 (neg q) = true) by (apply (proj2 M1 (neg q) (S r0)); apply in_or_app; right; now left). rewrite holds_neg in X. destruct (holds a1 q); auto. }
    assert (I1 : Inv (pop (f_m f) q) (f_open f)) by (apply (inv_pop F A cons a0 A0 M0 (f_m f) (f_open f)); auto).
    pose proof (updateUpper_ok F A cons a0 A0 M0 s (lev s q) a1 T1 M1' VAL) as UU.
    assert (HL : forall p, In p cons -> isT s p = true -> lev s p < lev s q -> consequence F A p).
    { intros p P T L b H0 [Y1 Y2]. rewrite LV in L. refine (low_true n x1 F (AQ q) b r0 S1 (good_aq _ P4) _ H0 Y1 _ p T _); [fold s; lia| |fold s; lia]. intros z l Z L2. apply in_app_or in Z as [Z|[Z|[]]]; [eapply Y2; eauto|]. injection Z as _ <-. lia. }
    specialize (UU HL (f_open f) (pop (f_m f) q) [] I1). unfold commitModel in E. fold q in E.
    assert (SN : sentinel q = false). { unfold sentinel. apply Nat.eqb_neq. destruct P4. lia. } rewrite SN in E. fold (updateUpper s (lev s q) (pop (f_m f) q) (f_open f)) in UU.
    destruct (updateUpper s (lev s q) (pop (f_m f) q) (f_open f)) as [m1 l1] eqn:UE. destruct UU as [V1 [V2 [V3 V4]]]. cbn [app] in V3, V4.
    assert (NO : isOpen (pop (f_m f) q) q = false). { destruct (isOpen (pop (f_m f) q) q) eqn:Z; auto. apply open_iff in Z. unfold pop in Z. rewrite set_same in Z. discriminate. }
    assert (LT : length l1 < length (f_open f)) by (apply V4; exists q; auto). cbn [f_m] in E.
    set (x2 := if u_rst (u k) then restart x1 else x1) in *.
    assert (X2 : SI n x2 F (AQ q) /\ b_root (q_st x2) = S r0). { unfold x2. destruct (u_rst (u k)); auto. destruct (restart_si n x1 F (AQ q) S1) as [Y1 [_ [Y2 _]]]. split; auto. rewrite Y2. exact R1'. }
    destruct X2 as [S2 R2]. destruct (pop_ph x2 (Qf m1 l1 q) P4 HQ S2 R2) as [_ [_ BS]].
    assert (NO1 : isOpen m1 q = false). { destruct (isOpen m1 q) eqn:Z; auto. apply V2 in Z. congruence. }
    destruct (cont_ok k IH x2 (Qf m1 l1 q) m1 [EModel m1] e a BS V1 NO1 ltac:(intros p; reflexivity) E) as [e1 [-> [OW1 GG]]]. cbn [f_open] in *. split; [intros PR g [X|X]; [discriminate|apply (OW1 PR); auto]|]. intros OW. destruct (GG (proj2 (own_app [EModel m1] e1 OW))) as [G1 [G2 G3]].
    unfold goal1. sp; [|cbn [app last_from fold_left]; exact G2|intros X; specialize (G3 X); lia].
    intros m [[R|R]|[R|R]]; try discriminate; [injection R as <-; eapply inv_bounds; eauto|apply G1; left; auto|apply G1; right; auto].
  - (* the query has no model *)
    destruct (PF eq_refl) as [CF DL]. destruct (pop_ph x1 f P4 HQ S1 R1') as [IF [LV BS]].
    assert (CQ : consequence F A q).
    { intros b H0 [Y1 Y2]. destruct (holds b q) eqn:Z; auto. exfalso. apply (conflict_unsat n x1 F (AQ q) S1 (good_aq _ P4) CF DL b). split; auto. intros p l P. apply in_app_or in P as [P|[P|[]]]; eauto. injection P as <- _. rewrite holds_neg. now apply negb_true_iff. }
    unfold commitUnsat in E. fold q in E. assert (SN : sentinel q = false). { unfold sentinel. apply Nat.eqb_neq. destruct P4. lia. } rewrite SN in E.
    destruct (b_conf (q_st x1)) as [cf|] eqn:CE; [|congruence]. cbn [negb andb] in E. pose proof (proj2 (proj2 (proj2 BS))) as NC. rewrite NC, P3 in E. cbn [bind] in E. rewrite NC in E.
    assert (I1 : Inv (fix_ (f_m f) q) (f_open f)) by (apply (inv_fix F A cons a0 A0 M0 (f_m f) (f_open f)); auto).
    destruct (base_updateOpen (popQuery x1 f) (Qf (fix_ (f_m f) q) (f_open f) q) BS I1) as [U1 [U2 [U3 [U4 [U5 U6]]]]]. cbn [f_m f_open f_q] in *.
    set (f2 := updateOpen (q_st (popQuery x1 f)) (Qf (fix_ (f_m f) q) (f_open f) q)) in *.
    assert (NO : isOpen (fix_ (f_m f) q) q = false). { destruct (isOpen (fix_ (f_m f) q) q) eqn:Z; auto. apply open_iff in Z. unfold fix_ in Z. rewrite set_same in Z. discriminate. }
    assert (LT : length (f_open f2) < length (f_open f)) by (apply U6; exists q; auto).
    assert (NO2 : isOpen (f_m f2) (f_q f2) = false). { rewrite U3. destruct (isOpen (f_m f2) q) eqn:Z; auto. apply (fixes_open _ _ _ U2) in Z. congruence. }
    set (x2 := popQuery x1 f) in *. destruct (settle n x2) as [[x3 ok]| |] eqn:ST; cbn [bind] in E; try discriminate.
    assert (B3 : Base x3 /\ ok = true).
    { unfold settle in ST. pose proof (base_pop0 x2 BS) as BP. destruct (popRoot x2 0) as [s2 L2]. cbn [q_st q_lrn] in ST. pose proof BP as [B1 [B2 [B4 B5]]]. cbn [q_st] in *. rewrite B5 in ST. destruct (prop_si n s2 L2 F A B1 B5) as [s3 [o [P [S2 [D2 [R2 [_ [OK1 OK2]]]]]]]]. rewrite P in ST. injection ST as <- <-.
      destruct o; [|exfalso; apply (no_conflict (Sv s3 L2)); auto; cbn; lia]. split; auto. destruct (OK1 eq_refl) as [Q1 Q2]. unfold Base. cbn. sp; auto; congruence. }
    destruct B3 as [B3 ->].
    assert (BS3 : Base (popQuery x3 f2)). { unfold popQuery. rewrite U3, (cons_not_base x3 q B3 HQ). cbn. apply base_pop0; auto. }
    destruct (cont_ok k IH x3 f2 (f_m f2) [EUp (f_m f2)] e a BS3 U1 NO2 ltac:(intros p; reflexivity) E) as [e1 [-> [OW1 GG]]]. split; [intros PR g [X|X]; [discriminate|apply (OW1 PR); auto]|]. intros OW. destruct (GG (proj2 (own_app [EUp (f_m f2)] e1 OW))) as [G1 [G2 G3]].
    unfold goal1. sp; [|cbn [app last_from fold_left]; exact G2|intros X; specialize (G3 X); lia].
    intros m [[R|R]|[R|R]]; try discriminate; [apply G1; left; auto|injection R as <-; eapply inv_bounds; eauto|apply G1; right; auto].
Qed.
End Run.
End M.

(** * Runs from the start *)
Section Run0.
Variables (pre : bool) (rounds fuel : nat) (u : nat -> qround).
Hypothesis HU : forall k, picks n (u_w (u k)) /\ selects (u_h (u k)).
Definition goal0 (k : nat) (e : list event) (a : answer) : Prop :=
  (forall m, reported e m -> bounds m) /\
  (a = Complete -> match report e with Some m => (exists b, isModel b F A) /\ forall p, In p cons -> (inEst m p = true <-> consequence F A p) | None => forall b, ~ isModel b F A end) /\
  (a = NoRounds -> k <= S (length cons)).
Lemma run0 : forall k x e a, SI n x F A -> b_root (q_st x) = r0 -> query k pre rounds fuel n u x (start cons) = Ok (e, a) -> (pre = true -> ownLevels e) /\ (ownLevels e -> goal0 k e a).
Proof.
  intros k x e a S0 R E. destruct k as [|k]; cbn [query] in E. { injection E as <- <-. split; [intros _ g []|intros _]. unfold goal0. sp; [intros m [[]|[]]|discriminate|lia]. }
  destruct (HU k) as [PK SEL]. destruct (solve_ok n NV (u_w (u k)) F A fuel PK rounds x S0) as [x1 [v [ES [S1 [R1 PO]]]]]. rewrite ES in E. cbn [bind] in E. apply post_bnd in PO as [PT PF].
  destruct v; [| |injection E as <- <-; split; [intros _ g []|intros _]; unfold goal0; sp; [intros m [[]|[]]|discriminate|discriminate]..].
  - pose proof (PT eq_refl) as MS. set (s := q_st x1) in *. set (a1 := modelOf s). destruct (sent_true n x1 F A S1) as [T1 [T2 T3]]. fold s in T1, T2, T3.
    assert (VAL : forall p, fst p <= n -> isT s p = holds a1 p) by (intros p P; apply (modelOf_vals x1 A); auto).
    assert (A1 : holds a1 lit_true = true) by (rewrite <- VAL; [auto|cbn; lia]).
    assert (M1 : isModel a1 F A) by (destruct MS as [C1 [C2 C3]]; apply (total_model n x1 F A); auto).
    assert (HL : forall p, In p cons -> isT s p = true -> lev s p = 0 -> consequence F A p).
    { intros p P T L b H0 [Y1 Y2]. refine (low_true n x1 F A b 0 S1 GA _ H0 Y1 _ p T _); [lia| |fold s; lia]. intros z l Z _. eapply Y2; eauto. }
    unfold commitModel, start in E. cbn [f_m f_open f_q] in E. change (sentinel lit_false) with true in E. cbn iota in E. set (m0 := fix_ (push (fun _ => Out) lit_false) (neg lit_false)) in E.
    assert (EM0 : forall p, inEst m0 p = true -> isT s p = true).
    { intros [v b]. unfold m0, inEst, fix_, push, setCell. cbn. destruct v as [|v]; [|discriminate]. cbn. destruct b; [discriminate|]. intros _. exact T1. }
    pose proof (initUpper_ok F A cons a1 A1 M1 s (fun p P => VAL p (CB p P)) HL cons m0 [] [] ltac:(intros p []) EM0 (fun p P => P) ltac:(intros p [])) as IU. fold (initUpper s m0 cons) in IU.
    destruct (initUpper s m0 cons) as [m1 l1] eqn:IE. destruct IU as [V1 [V2 [V3 V4]]]. cbn [app length Nat.add] in V1, V3.
    assert (I1 : Inv F A cons a1 m1 l1). { split; auto. intros p P. destruct (V2 p P) as [[]|Q]; auto. }
    assert (NO : isOpen m1 lit_false = false) by (apply V4; auto).
    set (x2 := if u_rst (u k) then restart x1 else x1) in *.
    assert (X2 : SI n x2 F A /\ b_root (q_st x2) = r0 /\ b_conf (q_st x2) = None).
    { unfold x2. destruct MS as [C1 _]. destruct (u_rst (u k)); [|sp; auto; fold s; congruence]. destruct (restart_si n x1 F A S1) as [Y1 [Y3 [Y2 _]]]. sp; auto. rewrite Y2. fold s. congruence. }
    destruct X2 as [S2 [R2 C2]].
    assert (BS : Base (popQuery x2 (Qf m1 l1 lit_false))).
    { unfold popQuery. cbn [f_q]. replace (isF (q_st x2) lit_false && negb (lit_eqb lit_false lit_false)) with false by (rewrite andb_comm; reflexivity).
      destruct (pop_si n x2 F A 0 S2) as [P _]. assert (RT : b_root (q_st (popRoot x2 0)) = r0) by (cbn [popRoot q_st]; rewrite pop_root, R2; lia). unfold Base. sp; auto.
      - rewrite RT, filter_all in P; auto. intros [p l] H1. apply Nat.leb_le. cbn. eauto.
      - rewrite (proj2 (pop_clean n x2 0 F _ S2)). exact RT.
      - cbn [popRoot q_st]. unfold popRootLevel, undo. cbn [setRoot b_root b_dl]. destruct (Nat.ltb _ _); auto. }
    destruct (cont_ok a1 A1 M1 pre rounds fuel u HU k (fun x f e a m0 => run1 a1 A1 M1 pre rounds fuel u HU k x f e a m0) x2 (Qf m1 l1 lit_false) m1 [EModel m1] e a BS I1 NO ltac:(intros p; reflexivity) E) as [e1 [-> [OW1 GG]]]. cbn [f_open] in *.
    split; [intros PR g [X|X]; [discriminate|apply (OW1 PR); auto]|]. intros OW. destruct (GG (proj2 (own_app [EModel m1] e1 OW))) as [G1 [G2 G3]].
    unfold goal0. sp; [| |intros X; specialize (G3 X); lia].
    + intros m [[X|X]|[X|X]]; try discriminate; [injection X as <-; eapply inv_bounds; eauto|apply G1; left; auto|apply G1; right; auto].
    + intros X. destruct (G2 X) as [m [L1 L2]]. change (report ([EModel m1] ++ e1)) with (last_from (Some m1) e1). rewrite L1. split; eauto.
  - destruct (PF eq_refl) as [CF DL]. unfold commitUnsat, start in E. cbn [f_q f_m f_open] in E. change (sentinel lit_false) with true in E. cbn [negb andb] in E.
    assert (PQ : popQuery x1 (Qf (push (fun _ => Out) lit_false) cons lit_false) = popRoot x1 0). { unfold popQuery. cbn [f_q]. replace (isF (q_st x1) lit_false && negb (lit_eqb lit_false lit_false)) with false by (rewrite andb_comm; reflexivity). reflexivity. }
    rewrite PQ in E. assert (CC : b_conf (q_st (popRoot x1 0)) <> None).
    { cbn [popRoot q_st]. unfold popRootLevel, undo. cbn [setRoot b_root b_dl]. destruct (Nat.ltb_spec (Nat.max (b_root (q_st x1) - Nat.min 0 (b_root (q_st x1))) (b_root (q_st x1) - Nat.min 0 (b_root (q_st x1)))) (b_dl (q_st x1))); [lia|exact CF]. }
    destruct (b_conf (q_st (popRoot x1 0))) as [cf|] eqn:CE; [|congruence]. rewrite CE in E. injection E as <- <-. split; [intros _ g []|intros _]. unfold goal0. sp; [intros m [[]|[]]| |discriminate].
    intros _. cbn. intros b. apply (conflict_unsat n x1 F A S1 GA CF DL).
Qed.
End Run0.
End S.
