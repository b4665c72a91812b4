(** Invariants of branch and bound: the solvers *)
From Coq Require Import List Bool Arith ZArith Lia.
From Verif Require Import Base BbModel BbSpec BbProofs BbProofs2.
Import ListNotations.
Open Scope Z_scope.

Section Inv.
Variables (n : nat) (M : cost -> Prop) (B0 low0 : cost).
Hypothesis PR : Problem n M B0 low0.
Notation adm := (adm n B0).
Notation better := (better n B0).
Notation Exh := (Exh n B0).
Notation SI := (SI n M B0 low0).
Notation Base := (Base n B0).
Notation Low := (Low n B0).
Notation OptOk := (OptOk n B0).
Notation O23 := (O23 n B0).
Notation Mid := (Mid n B0).
Notation Read := (Read n M B0).
Notation FinalR := (FinalR n).
Lemma n_pos : (0 < n)%nat. Proof. exact (pr_n _ _ _ _ PR). Qed.

(** ** Facts that hold for every solver *)
Lemma F1_aux : { f : Z -> Prop | forall z, f z <-> z < bMax }. Proof. exists (fun z => z < bMax). reflexivity. Qed.
Lemma F2_aux : { f : Z -> Prop | forall z, f z <-> z < bMax - 1 }. Proof. exists (fun z => z < bMax - 1). reflexivity. Qed.
Lemma Ub_aux : { f : Z -> Prop | forall z, f z <-> z <= 4611686018427387903 }. Proof. exists (fun z => z <= 4611686018427387903). reflexivity. Qed.
Definition F1 := proj1_sig F1_aux.
Definition F2 := proj1_sig F2_aux.
Definition Ub := proj1_sig Ub_aux.
Lemma F1_def : forall z, F1 z <-> z < bMax. Proof. exact (proj2_sig F1_aux). Qed.
Lemma F2_def : forall z, F2 z <-> z < bMax - 1. Proof. exact (proj2_sig F2_aux). Qed.
Lemma Ub_def : forall z, Ub z <-> z <= 4611686018427387903. Proof. exact (proj2_sig Ub_aux). Qed.
Lemma f2_f1 : forall z, F2 z -> F1 z. Proof. intros z. rewrite F1_def, F2_def. intros. lia. Qed.
Lemma ub_f2 : forall z y, Ub y -> z <= y -> F2 z. Proof. intros z y. rewrite Ub_def, F2_def. unfold bMax. intros. lia. Qed.
Lemma f1_no : ~ F1 bMax. Proof. rewrite F1_def. lia. Qed.
Lemma bMax_v : bMax = 9223372036854775807. Proof. reflexivity. Qed.
Local Opaque bMax.
Definition FinA (d : dm) : Prop := m_opt d = repeat bMax n \/ F1 (at_ (m_opt d) 0).
Definition FinB (d : dm) : Prop := m_opt d = repeat bMax n \/ F2 (at_ (m_opt d) 0).
(** Step sizes: no step is 0 (assuming that costs do not differ by 2^32 - 1 or more if step sizes can grow) *)
Definition Small : Prop := forall c i, M c -> (i < n)%nat -> at_ c i - at_ low0 i <= 4294967294.
Definition SzOk (t : stype) (z : Z) : Prop := match t with Lin | Hier => z = 1 | Inc => 1 <= z <= 4294967294 | Dec => 0 <= z end.
Definition TyOk (t : stype) : Prop := match t with Lin | Hier => True | _ => Small end.
Record GD (d : dm) : Prop := { gd_opt : length (m_opt d) = n; gd_low : length (m_low d) = n; gd_size_ok : SzOk (m_type d) (m_size d); gd_ty : TyOk (m_type d); gd_fin : FinA d }.
Lemma gd_sz : forall d, GD d -> 0 <= m_size d. Proof. intros d G. pose proof (gd_size_ok d G) as H. unfold SzOk in H. destruct (m_type d); lia. Qed.
Lemma finB_A : forall d, FinB d -> FinA d. Proof. intros d [H|H]; [left; exact H|right; apply f2_f1, H]. Qed.
Lemma act_max : forall d, m_opt d = repeat bMax n -> active d = false.
Proof. intros d H. unfold active. rewrite H, at_rep by apply n_pos. rewrite Z.eqb_refl. auto. Qed.
Lemma fin_act : forall d, FinA d -> active d = false -> m_opt d = repeat bMax n.
Proof. intros d [H|H] A; auto. unfold active in A. apply negb_false_iff, Z.eqb_eq in A. rewrite A in H. destruct (f1_no H). Qed.
Lemma step_sz : forall t, SzOk t (match t with Dec => 0 | _ => 1 end). Proof. intros []; unfold SzOk; lia. Qed.
Lemma step_type : forall k d, m_type (stepInit n k d) = m_type d /\ m_opt (stepInit n k d) = m_opt d.
Proof. intros k d. unfold stepInit. cbn [setSize m_type]. destruct (isLin (m_type d)); auto. destruct (Nat.eqb k n); auto. Qed.
Lemma step_lev : forall k d, m_lev (stepInit n k d) = if isLin (m_type d) then (n - 1)%nat else k.
Proof. intros k d. unfold stepInit. cbn [setSize m_type]. destruct (isLin (m_type d)); auto. destruct (Nat.eqb k n); auto. Qed.
Lemma step_size : forall k d, m_size (stepInit n k d) = match m_type d with Dec => 0 | _ => 1 end.
Proof. intros k d. unfold stepInit. cbn [setSize m_type]. destruct (isLin (m_type d)); auto. destruct (Nat.eqb k n); auto. Qed.
Lemma gd_step : forall d k, GD d -> GD (stepInit n k d).
Proof.
  intros d k G. destruct G. unfold stepInit. cbn [setSize m_type]. pose proof (step_sz (m_type d)) as Z.
  destruct (isLin (m_type d)); [constructor; auto|]. cbn [setLev]. destruct (Nat.eqb k n); constructor; cbn [setLow setLev setSize m_opt m_low m_size]; auto; rewrite put_len; auto.
Qed.
Lemma gd_low_put : forall d i x, GD d -> GD (setLow d (put (m_low d) i x)).
Proof. intros d i x G. destruct G. constructor; cbn [setLow m_opt m_low m_size]; auto. rewrite put_len; auto. Qed.
Lemma gd_size : forall d z, GD d -> SzOk (m_type d) z -> GD (setSize d z).
Proof. intros d z G Z. destruct G. constructor; cbn [setSize m_opt m_low m_size]; auto. Qed.
Lemma gd_opt_put : forall d i x, GD d -> ((0 < i)%nat -> F1 (at_ (m_opt d) 0)) -> (i = 0%nat -> F1 x) -> GD (setOpt d (put (m_opt d) i x)).
Proof.
  intros d i x G H1 H2. pose proof n_pos. destruct G. constructor; cbn [setOpt m_opt m_low m_size]; auto; [rewrite put_len; auto|]. right. cbn [setOpt m_opt].
  destruct i; [rewrite put_eq by lia; auto|rewrite put_neq by lia; apply H1; lia].
Qed.
Lemma u32_id : forall z, 0 <= z <= 4294967295 -> u32 z = z. Proof. intros z H. unfold u32. apply Z.mod_small. lia. Qed.
(** The next step is not 0. *)
Lemma next_sz : forall d x, SzOk (m_type d) (m_size d) -> isLin (m_type d) = false -> 1 <= x -> (m_type d = Hier \/ x <= 4294967294) ->
  1 <= nextStep d x /\ SzOk (m_type d) (nextStep d x) /\ (m_type d = Inc -> nextStep d x <= 2147483647).
Proof.
  intros d x Z LN X H. destruct (half_bounds x ltac:(lia)) as [H1 H2]. set (h := Z.lor (Z.shiftr x 1) (Z.land x 1)) in *. unfold nextStep. fold h. unfold SzOk in *.
  destruct (m_type d) eqn:T; try discriminate.
  - split; [|split]; try lia; discriminate.
  - destruct H as [H|H]; [discriminate|]. rewrite u32_id by lia. lia.
  - destruct H as [H|H]; [discriminate|]. destruct (m_size d =? 0); rewrite u32_id by lia; (split; [|split]); try lia; discriminate.
Qed.
Lemma gd_relax : forall f s d, GD d -> GD (relaxBound n f s d).
Proof.
  intros f s d G. unfold relaxBound. assert (G' : GD (if active d then setOpt d (repeat bMax n) else d)).
  { destruct (active d); auto. destruct G. constructor; cbn [setOpt m_opt m_low m_size]; auto; [apply repeat_length|left; auto]. }
  destruct (f || negb (optimize s)); auto. apply gd_step; auto.
Qed.
Lemma relax_opt : forall f s d, GD d -> m_opt (relaxBound n f s d) = repeat bMax n.
Proof.
  intros f s d G. unfold relaxBound. assert (E : m_opt (if active d then setOpt d (repeat bMax n) else d) = repeat bMax n).
  { destruct (active d) eqn:A; auto. apply fin_act; auto. apply (gd_fin d G). }
  destruct (f || negb (optimize s)); auto. unfold stepInit. cbn [setSize m_type]. destruct (isLin _); cbn [setLev m_opt]; auto. destruct (Nat.eqb 0 n); cbn [setLow m_opt]; auto.
Qed.
Lemma relax_same : forall s d, SI s -> m_low (relaxBound n false s d) = m_low d /\ m_type (relaxBound n false s d) = m_type d /\ m_size (relaxBound n false s d) = m_size d /\ m_lev (relaxBound n false s d) = m_lev d.
Proof. intros s d I. unfold relaxBound. rewrite (opt_chk _ _ _ _ s I). cbn [orb negb]. destruct (active d); auto. Qed.
Lemma relax_more : forall s d, SI s -> more n (relaxBound n false s d) = more n d.
Proof. intros s d I. destruct (relax_same s d I) as [_ [_ [E1 E2]]]. unfold more. rewrite E1, E2. auto. Qed.

(** One iteration, without any assumption on the constraint *)
Definition RetFin (i : nat) (r : pass) : Prop :=
  match r with Cont d _ => GD d /\ F2 (at_ (m_opt d) 0) | Ret true d => GD d /\ FinB d | Ret false d => GD d | Over => False end.
Lemma put0 : forall d i x, length (m_opt d) = n -> ((0 < i)%nat -> F2 (at_ (m_opt d) 0)) -> (i = 0%nat -> F2 x) -> F2 (at_ (put (m_opt d) i x) 0).
Proof. intros d i x LO F E. pose proof n_pos. destruct i; [rewrite put_eq by lia; apply E; auto|rewrite put_neq by lia; apply F; lia]. Qed.
Lemma gd_put2 : forall d i x, GD d -> ((0 < i)%nat -> F2 (at_ (m_opt d) 0)) -> (i = 0%nat -> F2 x) -> GD (setOpt d (put (m_opt d) i x)) /\ F2 (at_ (put (m_opt d) i x) 0).
Proof.
  intros d i x G F E. split; [|apply put0; auto; apply (gd_opt d G)]. apply gd_opt_put; auto; intros X; apply f2_f1; auto.
Qed.
Lemma m_ub : forall v i, M v -> (i < n)%nat -> Ub (at_ v i). Proof. intros v i MV I. apply Ub_def. apply (m_range _ _ _ _ PR v i MV I). Qed.
Lemma diff_ok : forall d v i L, GD d -> isLin (m_type d) = false -> M v -> (i < n)%nat -> at_ low0 i <= L -> m_type d = Hier \/ at_ v i - L <= 4294967294.
Proof. intros d v i L G LN MV I LL. pose proof (gd_ty d G) as T. unfold TyOk in T. destruct (m_type d); try discriminate; auto; right; pose proof (T v i MV I); lia. Qed.
Lemma visit_gd : forall d a i v L, GD d -> ((0 < i)%nat -> F2 (at_ (m_opt d) 0)) -> M v -> (i < n)%nat -> at_ low0 i <= L -> (i = 0%nat -> (i <= a)%nat) ->
  RetFin i (visit n a i (at_ v i) L d).
Proof.
  intros d a i v L G F MV IN LB IA. pose proof n_pos. assert (LO : length (m_opt d) = n) by apply (gd_opt d G).
  pose proof (m_ub v i MV IN) as UB. pose proof (low0_min _ _ _ _ PR i IN) as LMIN.
  pose proof (fun L' => diff_ok d v i L' G) as DF. set (U := at_ v i) in *.
  assert (F2U : forall z, z <= U -> F2 z) by (intros z Hz; apply (ub_f2 z U); auto).
  unfold visit. destruct (Nat.eqb i a) eqn:EI; cbn [negb].
  - destruct (isLin (m_type d)) eqn:LN.
    { unfold RetFin. cbn [setOpt m_opt]. pose proof (gd_sz d G). apply gd_put2; auto. intros _. apply F2U. lia. }
    set (L' := Z.max (at_ (m_low d) i) L). set (d1 := setLow d (put (m_low d) (m_lev d) L')). assert (G1 : GD d1) by (apply gd_low_put; auto).
    destruct (Z.ltb_spec U L') as [XU|UL]; [apply gd_step; auto|]. destruct (at_ (m_opt d) i <? L'); [exact G1|].
    destruct (Z.ltb_spec (at_ (m_opt d) i) U) as [BU|BU].
    { split; [exact G1|]. right. change (F2 (at_ (m_opt d) 0)). destruct i; [apply F2U; lia|apply F; lia]. }
    destruct (Z.eqb_spec U L') as [UE|UN].
    { unfold RetFin. destruct (gd_put2 d1 i U G1 F) as [X1 X2]; [intros _; apply F2U; lia|]. split; [apply gd_step, X1|].
      rewrite (proj2 (step_type (S a) (setOpt d1 (put (m_opt d1) i U)))). exact X2. }
    destruct (Z.ltb_spec bMax (U - L')) as [X|X].
    { exfalso. unfold L' in X. apply Ub_def in UB. rewrite bMax_v in X. lia. }
    destruct (next_sz d1 (U - L') (gd_size_ok d1 G1) LN ltac:(lia)) as [N1 [N2 _]]; [apply DF; auto; unfold L'; lia|].
    unfold RetFin. cbn [setOpt setSize m_opt m_size].
    apply (gd_put2 (setSize d1 (nextStep d1 (U - L')))); [apply gd_size; auto|exact F|]. intros _. apply F2U. lia.
  - assert (X : forall d' L', GD d' -> m_opt d' = m_opt d -> RetFin i (if Nat.ltb a i then Cont (setOpt d' (put (m_opt d') i bMax)) a else if L' <=? U then Cont (setOpt d' (put (m_opt d') i U)) a else Ret false (stepInit n n d'))).
    { intros d' L' G' E. destruct (Nat.ltb_spec a i).
      - unfold RetFin. cbn [setOpt m_opt]. apply gd_put2; auto; [rewrite E; exact F|]. intros ->. lia.
      - destruct (L' <=? U).
        + unfold RetFin. cbn [setOpt m_opt]. apply gd_put2; auto; [rewrite E; exact F|]. intros _. apply F2U; lia.
        + apply gd_step; auto. }
    destruct (isLin (m_type d)); [apply X; auto|]. destruct (Nat.ltb (m_lev d) i || (at_ (m_low d) i <? L)); apply X; auto. apply gd_low_put; auto.
Qed.
(** The bound is below the upper bound that was read: as long as the loop runs ... *)
Definition PInv (w : cost) (d : dm) (i : nat) : Prop := (eqp i (m_opt d) w /\ (i <= m_lev d)%nat) \/ lt i (m_opt d) w.
(** A step size that was doubled after a model is only kept as long as the bound is not below the upper bound. *)
Definition DB (s : shared) (d : dm) : Prop := m_type d = Inc -> m_size d <= 2147483647 \/ at_ (upper s) (m_lev d) <= at_ (m_opt d) (m_lev d).
Definition VisitG (s : shared) (w : cost) (t : stype) (i : nat) (r : pass) (p db : Prop) : Prop :=
  match r with
  | Cont d a => m_type d = t /\ a = m_lev d /\ (m_lev d <= n)%nat /\ (p -> PInv w d (S i)) /\ (db -> DB s d)
  | Ret true d => m_type d = t /\ (m_lev d <= n)%nat /\ (p -> lt n (m_opt d) w) /\ (db -> DB s d)
  | Ret false d => m_type d = t /\ (m_lev d <= n)%nat /\ (db -> DB s d)
  | Over => True
  end.
Lemma lt_put : forall k v x w, (k < length v)%nat -> lt k v w -> lt (S k) (put v k x) w.
Proof. intros k v x w KL [i [H1 [H2 H3]]]. exists i. sp; [lia| |rewrite put_neq by lia; auto]. intros j J. rewrite put_neq by lia. auto. Qed.
Lemma visit_g : forall s d i v L w, GD d -> M v -> (i < n)%nat -> at_ low0 i <= L -> (m_lev d <= n)%nat -> isLin (m_type d) = false ->
  VisitG s w (m_type d) i (visit n (m_lev d) i (at_ v i) L d) (PInv w d i /\ at_ v i = at_ w i) (DB s d).
Proof.
  intros s d i v L w G MV IN LB LN NL. assert (LO : length (m_opt d) = n) by apply (gd_opt d G). pose proof (fun L' => diff_ok d v i L' G NL MV IN) as DF.
  set (U := at_ v i) in *. unfold visit. rewrite NL. destruct (Nat.eqb_spec i (m_lev d)) as [EI|NI]; cbn [negb].
  - set (L' := Z.max (at_ (m_low d) i) L). set (d1 := setLow d (put (m_low d) (m_lev d) L')). assert (G1 : GD d1) by (apply gd_low_put; auto).
    destruct (Z.ltb_spec U L') as [XU|UL].
    { unfold VisitG. rewrite (proj1 (step_type n d1)), step_lev. change (m_type d1) with (m_type d). rewrite NL. sp; auto. intros _ T. left. rewrite step_size. change (m_type d1) with (m_type d).
      rewrite (proj1 (step_type n d1)) in T. change (m_type d1) with (m_type d) in T. rewrite T. lia. }
    destruct (at_ (m_opt d) i <? L'); [unfold VisitG; cbn [d1 setLow m_type m_lev]; sp; auto|].
    destruct (Z.ltb_spec (at_ (m_opt d) i) U) as [BU|BU].
    { unfold VisitG. cbn [d1 setLow m_type m_lev m_opt]. sp; auto. intros [[[P1 P2]|P1] P3].
      - apply (lt_mono (S i)); [|lia]. apply lt_S; auto. lia.
      - apply (lt_mono i); auto. lia. }
    destruct (Z.eqb_spec U L') as [UE|UN].
    { unfold VisitG. destruct (step_type (S (m_lev d)) (setOpt d1 (put (m_opt d1) i U))) as [E1 E2]. unfold PInv, DB. rewrite E1, E2, step_lev, step_size. cbn [setOpt d1 setLow m_type m_opt].
      rewrite NL. sp; auto; [lia| |intros _ T; rewrite T; lia].
      intros [[[P1 P2]|P1] P3].
      - left. split; [|lia]. apply eqp_S; [apply eqp_put_l; auto|]. rewrite put_eq by lia. auto.
      - right. apply lt_put; auto. lia. }
    destruct (Z.ltb_spec bMax (U - L')) as [X|X]; [exact Logic.I|].
    destruct (next_sz d1 (U - L') (gd_size_ok d1 G1) NL ltac:(lia)) as [N1 [N2 N3]]; [apply DF; auto; unfold L'; lia|].
    unfold VisitG, PInv, DB. cbn [setOpt setSize m_opt m_size m_type m_lev]. change (m_opt d1) with (m_opt d). change (m_lev d1) with (m_lev d). change (m_type d1) with (m_type d) in *. sp; auto.
    intros [[[P1 P2]|P1] P3]; right.
    + apply lt_S; [apply eqp_put_l; auto|]. rewrite put_eq by lia. lia.
    + apply lt_put; auto. lia.
  - assert (X : forall d' L', m_opt d' = m_opt d -> m_type d' = m_type d -> m_lev d' = m_lev d -> m_size d' = m_size d ->
      VisitG s w (m_type d) i (if Nat.ltb (m_lev d) i then Cont (setOpt d' (put (m_opt d') i bMax)) (m_lev d) else if L' <=? U then Cont (setOpt d' (put (m_opt d') i U)) (m_lev d) else Ret false (stepInit n n d')) (PInv w d i /\ U = at_ w i) (DB s d)).
    { intros d' L' E1 E2 E3 E4.
      assert (DBK : forall z, DB s d -> DB s (setOpt d' (put (m_opt d') i z))). { intros z D. unfold DB in *. cbn [setOpt m_type m_size m_lev m_opt]. rewrite E1, E2, E3, E4. rewrite put_neq by auto. exact D. }
      destruct (Nat.ltb_spec (m_lev d) i).
      - unfold VisitG, PInv. cbn [setOpt m_opt m_type m_lev]. rewrite E1, E2, E3. rewrite <- E1. sp; auto. rewrite E1. intros [[[P1 P2]|P1] P3]; [lia|]. right. apply lt_put; auto; lia.
      - destruct (L' <=? U).
        + unfold VisitG, PInv. cbn [setOpt m_opt m_type m_lev]. rewrite E1, E2, E3. rewrite <- E1. sp; auto. rewrite E1. intros [[[P1 P2]|P1] P3].
          * left. split; [|lia]. apply eqp_S; [apply eqp_put_l; auto|]. rewrite put_eq by lia. auto.
          * right. apply lt_put; auto; lia.
        + unfold VisitG, DB. rewrite (proj1 (step_type n d')), step_lev, step_size, E2, NL. sp; auto. intros _ T. rewrite T. lia. }
    destruct (Nat.ltb (m_lev d) i || (at_ (m_low d) i <? L)); apply X; auto.
Qed.

(** ** Facts about a solver in any state *)
Definition ReadG (s : shared) (x : thread) : Prop :=
  match t_pc x with
  | Reading a seq mp i k u =>
    a = true /\ isLin (m_type (t_dm x)) = false /\ (1 <= seq <= s_gen s)%nat /\ (i <= n)%nat /\
    k = m_lev (t_dm x) /\ ((0 < i)%nat -> F2 (at_ (m_opt (t_dm x)) 0)) /\
    (forall p, mp = Some p -> exists g, (seq <= g <= s_gen s)%nat /\ p = Nat.odd g) /\
    (mp = None -> u = None /\ i = 0%nat) /\ (u <> None -> (i < n)%nat) /\
    (forall U, u = Some U -> exists v, M v /\ U = at_ v i) /\
    (seq = s_gen s -> PInv (upper s) (t_dm x) i /\ (forall U, u = Some U -> U = at_ (upper s) i))
  | Returned true g => FinB (t_dm x) /\ (g <= s_gen s)%nat /\ (g = s_gen s -> if Nat.eqb g 0 then m_opt (t_dm x) = B0 else lt n (m_opt (t_dm x)) (upper s))
  | Search g => (g <= s_gen s)%nat /\ (g = s_gen s -> if Nat.eqb g 0 then m_opt (t_dm x) = B0 else lt n (m_opt (t_dm x)) (upper s))
  | Stopped => m_opt (t_dm x) = repeat bMax n
  | Crash => False
  | _ => True
  end.
Definition FinPc (p : pc) : Prop := match p with Returned false _ | Stopped | Done => True | _ => False end.
Record GI (s : shared) (x : thread) : Prop := {
  gi_P : forall c, t_path x c -> M c;
  gi_sh : t_share x = true -> forall c, M c -> t_path x c;
  gi_d : GD (t_dm x);
  gi_lev : (m_lev (t_dm x) <= n)%nat /\ (isLin (m_type (t_dm x)) = true -> m_lev (t_dm x) = (n - 1)%nat \/ (m_lev (t_dm x) = n /\ FinPc (t_pc x)));
  gi_g0 : s_gen s = 0%nat -> (isLin (m_type (t_dm x)) = false -> m_lev (t_dm x) = 0%nat \/ (m_lev (t_dm x) = n /\ FinPc (t_pc x))) /\
    (m_opt (t_dm x) = B0 \/ m_opt (t_dm x) = repeat bMax n \/ FinPc (t_pc x)) /\ (m_type (t_dm x) = Inc -> m_size (t_dm x) <= 2147483647);
  gi_pc : ReadG s x
}.
(** ** Solvers that can still find something *)
Definition Alive (s : shared) (x : thread) : Prop :=
  (Base s (t_path x) (t_dm x) /\ DB s (t_dm x)) /\
  match t_pc x with
  | Idle | Search _ | Returned true _ => OptOk s (t_dm x)
  | Returned false _ => OptOk s (t_dm x) /\ more n (t_dm x) = true
  | Stopped => more n (t_dm x) = true
  | Reading a seq mp i k u => Mid s (t_dm x) i /\ (forall p, mp = Some p -> eqp (m_lev (t_dm x)) (buf s p) (m_low (t_dm x))) /\
      (forall U, u = Some U -> exists v, Read s (t_dm x) v /\ U = at_ v i /\ (forall p, mp = Some p -> ~ lt n v (buf s p)))
  | Done | Crash => False
  end.
Definition Final (x : thread) : Prop :=
  match t_pc x with
  | Reading _ _ _ _ _ _ => m_lev (t_dm x) = n
  | Returned false _ | Stopped => more n (t_dm x) = false
  | Done => True
  | _ => False
  end.
Definition Dead (s : shared) (x : thread) : Prop := Exh s (t_path x) /\ (isLin (m_type (t_dm x)) = false -> t_share x = true -> Final x).
Definition LinAlive (s : shared) (x : thread) : Prop :=
  m_lev (t_dm x) = (n - 1)%nat /\ m_size (t_dm x) = 1 /\ (forall c, M c -> better s c -> ~ lt n (m_opt (t_dm x)) c) /\
  match t_pc x with Idle | Search _ | Returned true _ => True | _ => False end.
Definition TI (s : shared) (x : thread) : Prop :=
  GI s x /\ (Dead s x \/ (if isLin (m_type (t_dm x)) then LinAlive s x else Alive s x)).

Lemma buf_M : forall s seq p, SI s -> (1 <= seq)%nat -> (exists g, (seq <= g <= s_gen s)%nat /\ p = Nat.odd g) -> M (buf s p) /\ adm (buf s p) /\ ~ lt n (buf s p) (upper s).
Proof.
  intros s seq p I S1 [g [G ->]]. destruct (Bool.bool_dec (Nat.odd g) (Nat.odd (s_gen s))) as [E|E].
  - rewrite E. change (buf s (Nat.odd (s_gen s))) with (upper s). destruct (si_up _ _ _ _ s I ltac:(lia)) as [U1 U2]. sp; auto. apply lt_irrefl.
  - assert (NG : g <> s_gen s) by congruence. assert (EB : buf s (Nat.odd g) = prev s) by (unfold prev; f_equal; destruct (Nat.odd g), (Nat.odd (s_gen s)); cbn; congruence).
    rewrite EB. destruct (si_prevM _ _ _ _ s I ltac:(lia)) as [U1 U2]. sp; auto. apply (si_prev _ _ _ _ s I). lia.
Qed.

(** ** Other solvers change the shared data *)
Lemma read_g_so : forall s x c, SI s -> ReadG s x -> ReadG (setOptimum s c) x.
Proof.
  intros s x c I. unfold ReadG. destruct (t_pc x); auto.
  - rewrite (so_gen _ _ _ _ s c I). intros [A1 [A2 [A3 [A4 [A5 [A6 [A7 [A8 [A9 [A10 A11]]]]]]]]]]. sp; auto; try lia.
    intros q Q. destruct (A7 q Q) as [g [G1 G2]]. exists g. split; auto. lia.
  - destruct r; auto. rewrite (so_gen _ _ _ _ s c I). intros [A1 [A2 A3]]. sp; auto; try lia.
  - rewrite (so_gen _ _ _ _ s c I). intros [A1 A2]. split; [lia|]. intros; lia.
Qed.
Lemma base_ext : forall s s' P d, upper s' = upper s -> s_gen s' = s_gen s -> Base s P d -> Base s' P d.
Proof. intros s s' P d U G B. destruct B. constructor; auto; [rewrite U; auto|rewrite G; auto]. Qed.
Lemma read_ext : forall s s' d v, upper s' = upper s -> Read s d v -> Read s' d v.
Proof. intros s s' d v U R. destruct R. constructor; auto. rewrite U. auto. Qed.
Lemma ti_ext : forall s s' x, upper s' = upper s -> s_gen s' = s_gen s -> (forall p, buf s' p = buf s p) -> TI s x -> TI s' x.
Proof.
  intros s s' x U G BF [GI0 T].
  assert (BT : forall c, better s' c <-> better s c) by (intros c; unfold BbProofs2.better; rewrite U, G; reflexivity).
  assert (O : forall d, O23 s d -> O23 s' d) by (intros d [O1 [O2 [O3 O4]]]; unfold BbProofs2.O23; rewrite U, G; auto).
  assert (OK : forall d, OptOk s d -> OptOk s' d) by (intros d [H|H]; [left|right]; auto).
  split.
  - destruct GI0. constructor; auto; [rewrite G; auto|]. revert gi_pc0. unfold ReadG. rewrite G, U. auto.
  - destruct T as [[E F]|T]; [left; split; auto; intros c Pc B; apply (E c Pc), BT, B|]. right. destruct (isLin _).
    + destruct T as [T1 [T2 [T3 T4]]]. unfold LinAlive. sp; auto. intros c Mc B. apply T3; auto. apply BT; auto.
    + destruct T as [[T1 TD] T2]. split; [split; [apply (base_ext s); auto|unfold DB; rewrite U; exact TD]|]. destruct (t_pc x); auto; try (destruct r; auto; destruct T2; split; auto).
      destruct T2 as [T3 [T4 T5]]. sp; auto.
      * destruct T3 as [T3|T3]; [left|right]; auto.
      * intros q Q. rewrite BF. auto.
      * intros z Z. destruct (T5 z Z) as [v [V1 [V2 V3]]]. exists v. sp; auto; [apply (read_ext s); auto|]. intros q Q. rewrite BF. auto.
Qed.
Lemma ti_so : forall s x c, SI s -> M c -> adm c -> ~ lt n (upper s) c -> TI s x -> TI (setOptimum s c) x.
Proof.
  intros s x c I MC AC NL [GI0 T]. pose proof (so_gen _ _ _ _ s c I) as SG. pose proof (so_up _ _ _ _ s c I) as SU. pose proof (so_si _ _ _ _ s c I MC AC NL) as I'.
  split. { destruct GI0. constructor; auto; [rewrite SG; discriminate|]. apply read_g_so; auto. }
  assert (ES : Exh s (t_path x) -> Exh (setOptimum s c) (t_path x)) by (apply (exh_so n M B0 low0); auto).
  destruct T as [[E F]|T]; [left; split; auto|]. destruct (isLin (m_type (t_dm x))) eqn:LN.
  - right. destruct T as [T1 [T2 [T3 T4]]]. unfold LinAlive. sp; auto. intros c' Mc B. apply T3; auto. unfold BbProofs2.better in *. rewrite SG, SU in B. cbn [Nat.eqb] in B.
    destruct (Nat.eqb (s_gen s) 0); [intros X; apply AC; apply (lt_trans n B0 c' c); auto|apply (lt_nlt_trans n c' c (upper s)); auto].
  - destruct T as [[B TD] T2]. set (d := t_dm x) in *. pose proof (b_lev _ _ _ _ _ B) as KN. destruct (nlt_cut (m_lev d) n c (upper s) NL ltac:(lia)) as [L|E].
    + (* another solver found a model that is better than all models on the path *)
      assert (LL : lt (m_lev d) c (m_low d)) by (apply (lt_eq_r _ c (upper s)); auto; apply (b_eq _ _ _ _ _ B)).
      left. split.
      * intros c' Pc BT. unfold BbProofs2.better in BT. rewrite SG, SU in BT. cbn [Nat.eqb] in BT. assert (A' : adm c') by (intros X; apply AC; apply (lt_trans n B0 c' c); auto).
        apply (low_nlt n B0 (t_path x) d c' (b_lw _ _ _ _ _ B) Pc A'). destruct (lt_cut (m_lev d) n c' c BT ltac:(lia)) as [L1|E1].
        -- apply (lt_mono (m_lev d)); [|lia]. apply (lt_trans _ c' c); auto.
        -- apply (lt_mono (m_lev d)); [|lia]. apply (lt_eq_l _ c); auto. apply eqp_sym; auto.
      * intros _ SH. exfalso. apply (low_nlt n B0 (t_path x) d c (b_lw _ _ _ _ _ B) (gi_sh _ _ GI0 SH c MC) AC). apply (lt_mono (m_lev d)); [auto|lia].
    + right. assert (EC : eqp (m_lev d) c (m_low d)) by (apply (eqp_trans _ c (upper s)); auto; apply (b_eq _ _ _ _ _ B)).
      assert (CK : at_ c (m_lev d) <= at_ (upper s) (m_lev d)).
      { destruct (Z_le_gt_dec (at_ c (m_lev d)) (at_ (upper s) (m_lev d))); auto. exfalso. apply NL. apply (lt_mono (S (m_lev d))); [|lia]. apply lt_S; [apply eqp_sym; auto|lia]. }
      assert (B' : Base (setOptimum s c) (t_path x) d). { destruct B. constructor; auto; [rewrite SU; auto|rewrite SG; discriminate]. }
      assert (O : O23 s d -> O23 (setOptimum s c) d). { intros [O1 [O2 [O3 O4]]]. unfold BbProofs2.O23. rewrite SG, SU. sp; auto; [lia|discriminate]. }
      assert (OK : OptOk s d -> OptOk (setOptimum s c) d) by (intros [H|H]; [left|right]; auto).
      split; [split; [exact B'|]|]. { intros T. destruct (TD T) as [H|H]; [left; exact H|right; rewrite SU; apply (Z.le_trans _ _ _ CK H)]. } fold d in T2 |- *. destruct (t_pc x); auto; try (destruct r; auto; destruct T2; split; auto).
      destruct T2 as [T3 [T4 T5]]. sp; auto.
      * destruct T3 as [T3|T3]; [left|right]; auto.
      * intros q Q. rewrite (so_buf _ _ _ _ s c q I). destruct (Bool.eqb q (Nat.odd (s_gen s))); auto. apply (b_eq _ _ _ _ _ B).
      * intros z Z. destruct (T5 z Z) as [v [V1 [V2 V3]]]. exists v. assert (NV : ~ lt n v c) by (apply (nlt_trans n c (upper s)); auto; apply (rd_le _ _ _ _ _ _ V1)). sp; auto.
        -- destruct V1. constructor; auto. rewrite SU. auto.
        -- intros q Q. rewrite (so_buf _ _ _ _ s c q I). destruct (Bool.eqb_spec q (Nat.odd (s_gen s))) as [EQ|EQ]; auto. apply (rd_le _ _ _ _ _ _ V1).
Qed.
End Inv.
