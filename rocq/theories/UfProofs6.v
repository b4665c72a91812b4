(** Unfounded set check: findUfs returns unfounded sets, or there are none *)
From Coq Require Import List Bool Arith ZArith Lia.
From Verif Require Import Base UfModel UfRun UfSpec UfProofs UfProofs2 UfProofs3 UfProofs4 UfProofs5.
Import ListNotations.
Local Open Scope Z_scope.

Section Uf.
Variable g : graph.
Hypothesis W : gwf g.
Notation nA := (nAtoms g).
Notation nB := (length (g_bodies g)).
(** Subgoals that count without the atoms of [U] *)
Definition cOut (A : pasg) (U : list nat) (b i : nat) : bool :=
  match nth_error (goals g b) i with Some (l, _) => negb (isFalse A l) && match nth_error (preds g b) i with Some p => negb (inSet U p) | None => true end | None => false end.
Definition unf (A : pasg) (U : list nat) : Prop :=
  forall x b, In x U -> isFalse A (alit g x) = false -> In b (a_bodies (atomOf g x)) -> isFalse A (blit g b) = false ->
  sameScc g b x = true /\ (isExt g b = false -> exists p, In p (preds g b) /\ In p U) /\ (isExt g b = true -> sumP g b (cOut A U b) < bound g b).
Section Phase.
Variable As : list pasg.
Variable A : pasg.
Hypothesis SUB : forall B l, In B As -> isFalse B l = true -> isFalse A l = true.
Notation ff l := (isFalse A l).
Section FixH.
Variable H : nat -> Prop.
Variable c0 : nat.
Notation Qt := (Quiet g As A [] H none).
Notation AFr := (AFr g A).
Notation cmp := (cmp g A).
Record FI (ex : nat -> Prop) (done q inv sb : list nat) (k0 k : ck) : Prop := {
  i_q : Qt k;
  i_mem : forall y, In y (done ++ q) -> (y < nA)%nat /\ ff (alit g y) = false;
  i_nd : NoDup (done ++ q);
  i_scc : forall y, In y (done ++ q) -> a_scc (atomOf g y) = c0;
  i_uf : forall y, k_uf k y = true <-> In y q \/ In y inv;
  i_inv : forall y, In y inv -> In y done;
  i_val : forall y, In y done -> k_val k y = true \/ In y inv;
  i_cl : forall b p, In b sb -> In p (preds g b) -> k_val k p = false -> ff (alit g p) = false -> In p (done ++ q);
  i_cmp : forall b, In b sb -> isExt g b = true -> 0 < k_low k b -> cmp k b;
  i_sb : forall b, In b sb -> ff (blit g b) = false /\ (valid g k b -> forall y, In y (n_heads (bodyOf g b)) -> ff (alit g y) = false -> k_val k y = true);
  i_b : forall x b, In x done -> ~ ex x -> k_val k x = false -> In b (a_bodies (atomOf g x)) -> ff (blit g b) = false -> sameScc g b x = true /\ In b sb;
  i_fr : k_inv k = k_inv k0 /\ k_todo k = k_todo k0 /\ k_tf k = k_tf k0 /\ forall y, k_val k0 y = true -> k_val k y = true }.
Lemma cmp_same : forall k k' b, k_val k' = k_val k -> k_ws k' b = k_ws k b -> cmp k b -> cmp k' b.
Proof. intros k k' b E1 E2 C i l w NG F V. rewrite E2. apply (C i l w NG F). rewrite <- E1. auto. Qed.
Lemma qt_uf : forall k x v, Qt k -> Qt (setUf k x v).
Proof. intros k x v [F QE]. split; auto. apply (full_same g As A SUB [] H nB none _ k); try reflexivity; auto. apply incl_refl. Qed.
Lemma fi_push : forall ex done q inv sb k0 k p, FI ex done q inv sb k0 k -> k_val k p = false -> ff (alit g p) = false -> (p < nA)%nat -> a_scc (atomOf g p) = c0 ->
  exists q' k', pushUfs (q, k) p = (q', k') /\ FI ex done q' inv sb k0 k' /\ incl q q' /\ In p (done ++ q') /\ k_val k' = k_val k /\ k_low k' = k_low k /\ k_ws k' = k_ws k.
Proof.
  intros ex done q inv sb k0 k p F V FP LP SP. unfold pushUfs. destruct (k_uf k p) eqn:U.
  - exists q, k. sp; auto using incl_refl. apply (i_uf _ _ _ _ _ _ _ F) in U. apply in_or_app. destruct U as [U|U]; auto. left. apply (i_inv _ _ _ _ _ _ _ F). auto.
  - assert (NI : ~ In p (done ++ q)).
    { intros I. apply in_app_or in I. destruct I as [I|I].
      - destruct (i_val _ _ _ _ _ _ _ F p I) as [Y|Y]; [congruence|]. assert (k_uf k p = true) by (apply (i_uf _ _ _ _ _ _ _ F); auto). congruence.
      - assert (k_uf k p = true) by (apply (i_uf _ _ _ _ _ _ _ F); auto). congruence. }
    exists (q ++ [p]), (setUf k p true). assert (IN : forall y, In y (done ++ q) -> In y (done ++ q ++ [p])) by (intros y Y; rewrite app_assoc; apply in_or_app; auto).
    destruct F as [F1 F2 F3 FS F4 F5 F6 F7 F8 F9 F10 F11]. sp; auto.
    + constructor; auto.
      * apply qt_uf. auto.
      * intros y Y. rewrite app_assoc in Y. apply in_app_or in Y. destruct Y as [Y|[<-|[]]]; auto.
      * rewrite app_assoc. apply nodup_snoc; auto.
      * intros y Y. rewrite app_assoc in Y. apply in_app_or in Y. destruct Y as [Y|[<-|[]]]; auto.
      * intros y. cbn. unfold upd. destruct (Nat.eqb_spec y p) as [->|D].
        -- split; auto. intros _. left. apply in_or_app. right. left. auto.
        -- rewrite F4. split; intros [Y|Y]; auto; [left; apply in_or_app; auto|]. apply in_app_or in Y. destruct Y as [|[->|[]]]; auto. contradiction.
      * intros b p' IB IP VP FP'. apply IN. eapply F7; eauto.
    + intros y Y. apply in_or_app. auto.
    + apply in_or_app. right. apply in_or_app. right. left. auto.
Qed.
Lemma fi_unsourced : forall ex done inv sb k0 l q k, FI ex done q inv sb k0 k -> (forall p, In p l -> (p < nA)%nat /\ a_scc (atomOf g p) = c0) ->
  exists q' k', fold_left (fun s x => if negb (k_val (snd s) x) && negb (ff (alit g x)) then pushUfs s x else s) l (q, k) = (q', k') /\ FI ex done q' inv sb k0 k' /\ incl q q' /\
  (forall p, In p l -> k_val k p = false -> ff (alit g p) = false -> In p (done ++ q')) /\ k_val k' = k_val k /\ k_low k' = k_low k /\ k_ws k' = k_ws k.
Proof.
  intros ex done inv sb k0 l. induction l as [|p l IH]; intros q k F L; cbn [fold_left].
  - exists q, k. sp; auto using incl_refl; intros ? [].
  - cbn [snd]. destruct (k_val k p) eqn:V; cbn [negb andb].
    { destruct (IH q k F) as (q' & k' & I1 & I2 & I3 & I4 & I5 & I6 & I7); [intros; apply L; right; auto|]. exists q', k'. sp; auto. intros y [<-|Y] VY FY; auto. congruence. }
    destruct (ff (alit g p)) eqn:FP; cbn [negb].
    { destruct (IH q k F) as (q' & k' & I1 & I2 & I3 & I4 & I5 & I6 & I7); [intros; apply L; right; auto|]. exists q', k'. sp; auto. intros y [<-|Y] VY FY; auto. congruence. }
    destruct (fi_push _ _ _ _ _ _ _ p F V FP) as (q1 & k1 & P1 & P2 & P3 & P4 & P5 & P6 & P7); [apply L; left; auto|apply L; left; auto|]. rewrite P1.
    destruct (IH q1 k1 P2) as (q' & k' & I1 & I2 & I3 & I4 & I5 & I6 & I7); [intros; apply L; right; auto|]. exists q', k'. sp; auto; try congruence.
    + eapply incl_tran; eauto.
    + intros y [<-|Y] VY FY; [|apply I4; auto; congruence]. apply in_app_or in P4. apply in_or_app. destruct P4; auto.
Qed.
Lemma fi_only : forall ex done q inv sb k0 k k' b, FI ex done q inv sb k0 k -> Qt k' -> AFr k k' -> onlyB b k k' -> (In b sb -> k' = k) -> FI ex done q inv sb k0 k'.
Proof.
  intros ex done q inv sb k0 k k' b F QU FR (E1 & E2 & E3 & E4 & E5) EB. destruct (in_dec Nat.eq_dec b sb) as [I|I]; [rewrite EB; auto|]. destruct F as [F1 F2 F3 FS F4 F5 F6 F7 F8 F9 F10 F11].
  assert (D : forall c, In c sb -> c <> b) by congruence. constructor; auto; rewrite ?E1; auto.
  - rewrite (g_uf _ _ _ _ FR). auto.
  - intros c IC X LO. destruct (E5 c (D c IC)) as [L1 L2]. rewrite L1 in LO. apply (cmp_same k); auto.
  - intros c IC. destruct (F9 c IC) as [Y1 Y2]. split; auto. unfold valid in *. rewrite (proj1 (E5 c (D c IC))). auto.
  - rewrite (g_inv _ _ _ _ FR), (g_todo _ _ _ _ FR), (g_tf _ _ _ _ FR). auto.
Qed.
Lemma fi_sb_add : forall ex done q inv sb k0 k b, FI ex done q inv sb k0 k -> (forall p, In p (preds g b) -> k_val k p = false -> ff (alit g p) = false -> In p (done ++ q)) -> (isExt g b = true -> cmp k b) ->
  ff (blit g b) = false -> ~ valid g k b -> FI ex done q inv (b :: sb) k0 k.
Proof.
  intros ex done q inv sb k0 k b [F1 F2 F3 FS F4 F5 F6 F7 F8 F9 F10 F11] HP HC FB NV. constructor; auto.
  - intros c p [<-|I]; auto. eapply F7; eauto.
  - intros c [<-|I]; auto.
  - intros c [<-|I]; auto; try (split; auto; intros Y; contradiction).
  - intros x c Y1 Y2 Y3 Y4 Y5. destruct (F10 x c Y1 Y2 Y3 Y4 Y5). split; auto. right. auto.
Qed.
Lemma try_ok : forall x done inv k0 bs q k sb, FI (eq x) (done ++ [x]) q (inv ++ [x]) sb k0 k -> ~ In x inv -> k_val k x = false -> (forall b, In b bs -> In b (a_bodies (atomOf g x))) ->
  (forall b, In b (a_bodies (atomOf g x)) -> ff (blit g b) = false -> In b bs \/ (sameScc g b x = true /\ In b sb)) ->
  exists found q' k' sb', tryBodies g A x bs (q, k) = Ok (found, (q', k')) /\ incl q q' /\
  if found : bool then FI none (done ++ [x]) q' inv sb' k0 k' /\ k_val k' x = true else FI none (done ++ [x]) q' (inv ++ [x]) sb' k0 k' /\ k_val k' = k_val k.
Proof.
  intros x done inv k0 bs. induction bs as [|b bs IH]; intros q k sb F NI VX IB HB; cbn [tryBodies].
  - exists false, q, k, sb. sp; auto using incl_refl. destruct F as [F1 F2 F3 FS F4 F5 F6 F7 F8 F9 F10 F11]. constructor; auto. intros y c Y1 _ Y3 Y4 Y5. destruct (Nat.eq_dec y x) as [->|D]; [|apply (F10 y c); auto].
    destruct (HB c Y4 Y5) as [[]|]; auto.
  - assert (IX : In b (a_bodies (atomOf g x))) by (apply IB; left; auto). destruct (i_mem _ _ _ _ _ _ _ F x) as [LX FX]. { apply in_or_app. left. apply in_or_app. right. left. auto. }
    destruct (ff (blit g b)) eqn:FB.
    { apply (IH q k sb); auto. intros c C. apply IB. right. auto. intros c C1 C2. destruct (HB c C1 C2) as [[<-|]|]; auto. congruence. }
    cbn [snd fst]. destruct (if sameScc g b x then isValidSource g A b k else (true, k)) as [ok k1] eqn:VS.
    assert (R1 : FI (eq x) (done ++ [x]) q (inv ++ [x]) sb k0 k1 /\ k_val k1 = k_val k /\ (ok = true -> sameScc g b x = true -> valid g k1 b) /\ (ok = false -> sameScc g b x = true /\ ~ valid g k1 b /\ (isExt g b = true -> cmp k1 b))).
    { destruct (sameScc g b x) eqn:SS.
      - destruct (isValid_ok g W As A SUB H b k ok k1 (i_q _ _ _ _ _ _ _ F) VS) as (V1 & V2 & V3 & V4 & V5 & V6). sp.
        + eapply fi_only; eauto. intros I. apply V6. destruct (isExt g b) eqn:X; auto. right. destruct (valid_dec g k b) as [|NV]; auto. right. apply (i_cmp _ _ _ _ _ _ _ F); auto. unfold valid in NV. rewrite X in NV. lia.
        + apply V3.
        + intros Y _. apply V4. auto.
        + intros Y. sp; auto. intros Z0. apply V4 in Z0. congruence.
      - injection VS as <- <-. sp; auto. discriminate. discriminate. }
    destruct R1 as (F1 & E1 & OK1 & OK2). destruct ok.
    + (* found *)
      assert (QU : Qt (setUf k1 x false)) by (apply qt_uf; apply (i_q _ _ _ _ _ _ _ F1)).
      destruct (newSource_ok g W As A SUB H sb b x (setUf k1 x false) QU FB IX) as (k' & K1 & K2 & K3 & K4 & K5 & K6); auto.
      * cbn. congruence.
      * intros c C1 C2 C3. apply (cmp_same k1); auto. apply (i_cmp _ _ _ _ _ _ _ F1); auto.
      * rewrite K1. cbn [bind]. exists true, q, k', sb. sp; auto using incl_refl. destruct F1 as [G1 G2 G3 GS G4 G5 G6 G7 G8 G9 G10 G11]. pose proof (g_val _ _ _ _ K3) as VM. cbn in VM.
        assert (NQ : ~ In x q). { intros Y. apply NoDup_remove_2 with (l := done) (l' := q) (a := x); [rewrite <- app_assoc in G3; exact G3|]. apply in_or_app. auto. }
        assert (VD : forall y, k_val k' y = false -> k_val k1 y = false). { intros y Y. destruct (k_val k1 y) eqn:Z0; auto. apply VM in Z0. congruence. }
        constructor; auto.
        -- intros y. rewrite (g_uf _ _ _ _ K3). cbn. unfold upd. destruct (Nat.eqb_spec y x) as [->|D]; [split; [discriminate|intros [|]; contradiction]|]. rewrite G4, in_app_iff. cbn. split; intros [Y|Y]; auto. destruct Y as [|[|[]]]; auto; congruence.
        -- intros y Y. apply G5. apply in_or_app. auto.
        -- intros y Y. destruct (Nat.eq_dec y x) as [->|D]; auto. destruct (G6 y Y) as [|Z0]; auto. apply in_app_or in Z0. destruct Z0 as [|[|[]]]; auto; congruence.
        -- intros c p C1 C2 C3. apply G7 with (b := c); auto.
        -- intros c IC. destruct (G9 c IC) as [Y1 Y2]. split; auto. intros VC y HY FY. assert (LC : (c < nB)%nat) by (eapply head_range; eauto). destruct (K6 c Y1 VC LC) as [Z0|Z0]; auto.
        -- intros y c Y1 _ Y3 Y4 Y5. apply (G10 y c); auto. intros <-. congruence.
        -- rewrite (g_inv _ _ _ _ K3), (g_todo _ _ _ _ K3), (g_tf _ _ _ _ K3). destruct G11 as (Z1 & Z2 & Z3 & Z4). sp; auto.
    + (* not found *)
      destruct (OK2 eq_refl) as (SS & NV & CM). unfold addUnsourced. destruct (fi_unsourced _ _ _ _ _ (preds g b) q k1 F1) as (q2 & k2 & P1 & P2 & P3 & P4 & P5 & P6 & P7). { intros p IP. split; [apply (gw_prange _ W b p IP)|]. pose proof (gw_pscc _ W b p IP) as PS. unfold sameScc in SS, PS. apply Nat.eqb_eq in SS. apply Nat.eqb_eq in PS. rewrite <- PS, SS. apply (i_scc _ _ _ _ _ _ _ F). apply in_or_app. left. apply in_or_app. right. left. auto. }
      rewrite P1. assert (F2 : FI (eq x) (done ++ [x]) q2 (inv ++ [x]) (b :: sb) k0 k2).
      { apply fi_sb_add; auto. rewrite P5; auto. intros X. apply (cmp_same k1); auto. congruence. unfold valid in *. rewrite P6. auto. }
      destruct (IH q2 k2 (b :: sb) F2 NI) as (found & q' & k' & sb' & I1 & I3 & I2).
      * congruence.
      * intros c C. apply IB. right. auto.
      * intros c C1 C2. destruct (HB c C1 C2) as [[<-|]|[Y1 Y2]]; auto. right. split; auto. left. auto. right. split; auto. right. auto.
      * exists found, q', k', sb'. sp; auto. eapply incl_tran; eauto. destruct found; auto. destruct I2. split; auto. congruence.
Qed.
Lemma nodup_len : forall l : list nat, NoDup l -> (forall y, In y l -> (y < nA)%nat) -> (length l <= nA)%nat.
Proof. intros l ND L. rewrite <- (seq_length nA 0). apply NoDup_incl_length; auto. intros y Y. apply in_seq. specialize (L y Y). lia. Qed.
Lemma loop_ok : forall k0 fuel q k done inv nsrc sb, FI none done q inv sb k0 k -> (S nA <= length done + fuel)%nat -> length done = (nsrc + length inv)%nat -> (nsrc = O -> forall y, In y done -> k_val k y = false) ->
  exists k' done' inv' nsrc' sb', findLoop g A fuel (q, k) done inv nsrc = Ok (k', done', inv', nsrc') /\ FI none done' [] inv' sb' k0 k' /\ length done' = (nsrc' + length inv')%nat /\ (nsrc' = O -> forall y, In y done' -> k_val k' y = false) /\
  incl (done ++ q) done'.
Proof.
  intros k0 fuel. induction fuel as [|fuel IH]; intros q k done inv nsrc sb F LF LN NV.
  - exfalso. pose proof (nodup_len _ (i_nd _ _ _ _ _ _ _ F) (fun y Y => proj1 (i_mem _ _ _ _ _ _ _ F y Y))) as LD. rewrite app_length in LD. lia.
  - cbn [findLoop fst snd]. destruct q as [|x q].
    { exists k, done, inv, nsrc, sb. sp; auto. rewrite app_nil_r. apply incl_refl. }
    assert (EQ : done ++ x :: q = (done ++ [x]) ++ q) by (rewrite <- app_assoc; reflexivity).
    assert (NX : ~ In x (done ++ q)). { apply NoDup_remove_2. apply (i_nd _ _ _ _ _ _ _ F). }
    assert (NI : ~ In x inv). { intros Y. apply NX. apply in_or_app. left. apply (i_inv _ _ _ _ _ _ _ F). auto. }
    destruct (k_val k x) eqn:V.
    + destruct (IH q (setUf k x false) (done ++ [x]) inv (S nsrc) sb) as (k' & d' & i' & n' & s' & I1 & I2 & I3 & I4 & I5).
      * destruct F as [F1 F2 F3 FS F4 F5 F6 F7 F8 F9 F10 F11]. constructor; rewrite <- ?EQ; auto.
        -- apply qt_uf; auto.
        -- intros y. cbn. unfold upd. destruct (Nat.eqb_spec y x) as [->|D].
           ++ split; [discriminate|]. intros [Y|Y]; [|contradiction]. exfalso. apply NX. apply in_or_app. auto.
           ++ rewrite F4. cbn. split; intros [Y|Y]; auto. destruct Y; auto; congruence.
        -- intros y Y. apply in_or_app. auto.
        -- intros y Y. apply in_app_or in Y. destruct Y as [Y|[<-|[]]]; [exact (F6 y Y)|left; exact V].
        -- intros y c Y1 Y2 Y3 Y4 Y5. apply (F10 y c); auto. apply in_app_or in Y1. destruct Y1 as [|[<-|[]]]; auto. cbn in Y3. congruence.
      * rewrite app_length. cbn. lia.
      * rewrite app_length. cbn. lia.
      * discriminate.
      * exists k', d', i', n', s'. sp; auto. rewrite EQ. auto.
    + assert (F' : FI (eq x) (done ++ [x]) q (inv ++ [x]) sb k0 k).
      { destruct F as [F1 F2 F3 FS F4 F5 F6 F7 F8 F9 F10 F11]. constructor; rewrite <- ?EQ; auto.
        - intros y. rewrite F4, in_app_iff. cbn. split; intros [Y|Y]; auto; destruct Y as [Y|Y]; auto. destruct Y as [|[]]; auto.
        - intros y Y. apply in_app_or in Y. apply in_or_app. destruct Y as [Y|Y]; auto.
        - intros y Y. apply in_app_or in Y. destruct Y as [Y|Y]; [destruct (F6 y Y); auto|]; right; apply in_or_app; auto.
        - intros y c Y1 Y2 Y3 Y4 Y5. apply (F10 y c); auto. apply in_app_or in Y1. destruct Y1 as [|[<-|[]]]; auto. destruct Y2. auto. }
      destruct (try_ok x done inv k0 (a_bodies (atomOf g x)) q k sb F' NI V) as (found & q' & k' & sb' & T1 & TI & T2); auto.
      rewrite T1. cbn [bind snd]. destruct found.
      * destruct T2 as [T2 T3]. rewrite T3. destruct (IH q' k' (done ++ [x]) inv (S nsrc) sb' T2) as (k2 & d' & i' & n' & s' & I1 & I2 & I3 & I4 & I5); auto; try discriminate; try (rewrite app_length; cbn; lia).
        exists k2, d', i', n', s'. sp; auto. intros y Y. rewrite EQ in Y. apply I5. apply in_app_or in Y. apply in_or_app. destruct Y; auto.
      * destruct T2 as [T2 T3]. rewrite T3, V. destruct (IH q' k' (done ++ [x]) (inv ++ [x]) nsrc sb' T2) as (k2 & d' & i' & n' & s' & I1 & I2 & I3 & I4 & I5); auto; try (rewrite !app_length; cbn; lia).
        { intros Z0 y Y. rewrite T3. apply in_app_or in Y. destruct Y as [Y|[<-|[]]]; auto. }
        exists k2, d', i', n', s'. sp; auto. intros y Y. rewrite EQ in Y. apply I5. apply in_app_or in Y. apply in_or_app. destruct Y; auto.
Qed.
(** The result *)
Record FRes (x0 : nat) (k0 : ck) (U : list nat) (k : ck) : Prop := {
  r_qt : Qt k;
  r_ufs : forall y, k_uf k y = true <-> In y U;
  r_mem : forall y, In y U -> (y < nA)%nat /\ ff (alit g y) = false /\ k_val k y = false;
  r_x0 : In x0 U \/ k_val k x0 = true;
  r_unf : upClosed g A -> unf A U;
  r_scc : forall y, In y U -> a_scc (atomOf g y) = c0;
  r_keep : k_inv k = k_inv k0 /\ k_todo k = k_todo k0 /\ k_tf k = k_tf k0 /\ forall y, k_val k0 y = true -> k_val k y = true }.
Lemma res_unf : forall done inv sb k0 k U, FI none done [] inv sb k0 k -> (forall y, In y U <-> In y inv /\ k_val k y = false) -> upClosed g A -> unf A U.
Proof.
  intros done inv sb k0 k U F HU UP x b IX FX IB FB. destruct F as [F1 F2 F3 FS F4 F5 F6 F7 F8 F9 F10 F11]. rewrite app_nil_r in *. apply HU in IX. destruct IX as [IX VX].
  destruct (F10 x b (F5 x IX) (fun X => X) VX IB FB) as [SS SB]. split; auto.
  assert (NV : ~ valid g k b). { intros V. destruct (F9 b SB) as [_ Y]. rewrite (Y V x) in VX; auto; [discriminate|]. apply (gw_heads _ W). auto. }
  assert (LB : (b < nB)%nat) by (eapply (bodies_heads g W); eauto). destruct F1 as [(G & C & _ & LA) QE].
  assert (PU : forall p, In p (preds g b) -> ff (alit g p) = false -> k_val k p = false -> In p U).
  { intros p IP FP VP. apply HU. split; auto. destruct (F6 p) as [Y|Y]; auto; [|congruence]. apply (F7 b); auto. }
  split.
  - intros X. assert (CN : cnt g (fun p => k_val k p) b <> O). { intros Z0. apply NV. unfold valid. rewrite X. rewrite (c_low _ _ _ _ _ _ C) by auto. lia. }
    destruct (existsb (fun p => negb (k_val k p)) (preds g b)) eqn:EX.
    + apply existsb_exists in EX. destruct EX as (p & P1 & P2). exists p. split; auto. apply negb_true_iff in P2. apply PU; auto. destruct (ff (alit g p)) eqn:FP; auto. rewrite (UP b p X P1 FP) in FB. discriminate.
    + exfalso. apply CN. apply cnt_zero. intros p IP. destruct (k_val k p) eqn:V; auto. assert (Y : existsb (fun p => negb (k_val k p)) (preds g b) = true); [|congruence]. apply existsb_exists. exists p. rewrite V. auto.
  - intros X. assert (LO : 0 < k_low k b) by (unfold valid in NV; rewrite X in NV; lia). pose proof (c_elow _ _ _ _ _ _ C b LB X) as CE.
    assert (S1 : sumP g b (cOut A U b) <= sumP g b (k_ws k b)); [|lia]. apply sum_le; auto. intros i LI CO. unfold cOut in CO. destruct (nth_error (goals g b) i) as [(l, w)|] eqn:NG; [|discriminate].
    apply andb_true_iff in CO. destruct CO as [C1 C2]. apply negb_true_iff in C1. apply (F8 b SB X LO i l w NG C1). intros p NP. rewrite NP in C2. destruct (k_val k p) eqn:V; auto.
    assert (IU : In p U). { apply PU; auto; [eapply nth_error_In; eauto|]. destruct (goal_in g _ _ _ NP) as (w' & NG'). rewrite NG in NG'. injection NG' as <- _. auto. }
    apply mem_In in IU. rewrite IU in C2. discriminate.
Qed.
Lemma recheck_ok : forall l u k, let s := fold_left recheck l (u, k) in
  fst s = u ++ filter (fun y => negb (k_val k y)) l /\ k_val (snd s) = k_val k /\ (forall y, k_uf (snd s) y = if inSet l y then negb (k_val k y) else k_uf k y) /\
  (Qt k -> Qt (snd s)) /\ k_inv (snd s) = k_inv k /\ k_todo (snd s) = k_todo k /\ k_tf (snd s) = k_tf k.
Proof.
  induction l as [|x l IH]; intros u k; cbn [fold_left filter].
  - cbn. rewrite app_nil_r. sp; auto.
  - cbn [recheck]. specialize (IH (if negb (k_val k x) then u ++ [x] else u) (setUf k x (negb (k_val k x)))). cbn zeta in *. destruct IH as (I1 & I2 & I3 & I4 & I5 & I6 & I7). sp; auto.
    + rewrite I1. cbn. destruct (k_val k x); cbn; auto. rewrite <- app_assoc. reflexivity.
    + intros y. rewrite I3. cbn. unfold upd, inSet. cbn. destruct (Nat.eqb_spec y x) as [->|D]; cbn; [destruct (existsb (Nat.eqb x) l); auto|]. auto.
    + intros QU. apply I4. apply qt_uf. auto.
Qed.
Lemma findSource_ok : forall x k, a_scc (atomOf g x) = c0 -> Qt k -> (forall y, k_uf k y = false) -> k_val k x = false -> ff (alit g x) = false -> (x < nA)%nat -> exists U k', findSource g A x k = Ok (U, k') /\ FRes x k U k'.
Proof.
  intros x k SX QU UF V FX LX. unfold findSource. assert (PU : pushUfs ([], k) x = ([x], setUf k x true)) by (cbn; rewrite UF; reflexivity). rewrite PU.
  assert (F0 : FI none [] [x] [] [] k (setUf k x true)).
  { constructor; cbn; auto; try easy.
    - apply qt_uf; auto.
    - intros y [<-|[]]; auto.
    - constructor; auto. constructor.
    - intros y [<-|[]]; auto.
    - intros y. unfold upd. destruct (Nat.eqb_spec y x) as [->|D]; [tauto|]. rewrite UF. split; [discriminate|]. intros [[|[]]|[]]; congruence. }
  destruct (loop_ok k (S nA) _ _ _ _ O _ F0) as (k' & dn & inv & ns & sb & L1 & L2 & L3 & L4 & L5); auto; [easy|]. rewrite L1. cbn [bind]. pose proof L2 as F. destruct F as [F1 F2 F3 FS F4 F5 F6 F7 F8 F9 F10 F11]. rewrite app_nil_r in *.
  assert (XD : In x dn) by (apply L5; left; auto). cbn in F11.
  destruct (Nat.eqb_spec ns 0) as [NZ|NZ].
  - specialize (L4 NZ). exists dn, k'. split; auto. assert (DI : forall y, In y dn <-> In y inv). { intros y. split; auto. intros Y. destruct (F6 y Y); auto. rewrite L4 in H0 by auto. discriminate. }
    constructor; auto.
    + intros y. rewrite F4, DI. split; auto. intros [[]|]; auto.
    + intros y Y. destruct (F2 y Y). auto.
    + intros UP. eapply res_unf; eauto. intros y. rewrite DI. split; [|tauto]. intros Y. split; auto.
  - destruct (Nat.eqb_spec (length dn) ns) as [LE|LE].
    + assert (IE : inv = []). { destruct inv; auto. cbn in L3. lia. } subst inv. exists [], k'. split; auto. constructor; auto; try easy.
      * intros y. rewrite F4. tauto.
      * right. destruct (F6 x XD) as [|[]]; auto.
    + destruct (fold_left recheck inv ([], k')) as [U k2] eqn:RE. exists U, k2. split; auto. pose proof (recheck_ok inv [] k') as R. rewrite RE in R. cbn in R. destruct R as (R1 & R2 & R3 & R4 & R5 & R6 & R7).
      assert (HU : forall y, In y U <-> In y inv /\ k_val k' y = false). { intros y. rewrite R1. rewrite filter_In. rewrite negb_true_iff. tauto. }
      constructor; auto.
      * intros y. rewrite R3, HU. destruct (inSet inv y) eqn:M.
        -- apply mem_In in M. rewrite negb_true_iff. tauto.
        -- rewrite F4. assert (~ In y inv) by (intros Y; apply mem_In in Y; congruence). cbn [In]. tauto.
      * intros y Y. apply HU in Y. destruct Y as [Y1 Y2]. destruct (F2 y (F5 y Y1)). rewrite R2. auto.
      * rewrite R2. destruct (F6 x XD) as [|Y]; auto. destruct (k_val k' x) eqn:VX; auto. left. apply HU. auto.
      * intros UP. eapply res_unf; eauto.
      * intros y Y. apply FS. apply F5. apply HU. auto.
      * rewrite R2, R5, R6, R7. auto.
Qed.
End FixH.

(** Atoms with a valid source need no exemption *)
Lemma full_H : forall (H H' : nat -> Prop) k, Quiet g As A [] H none k -> (forall x, H x -> (x < nA)%nat -> ff (alit g x) = false -> H' x \/ In x (k_todo k) \/ k_val k x = true) -> Quiet g As A [] H' none k.
Proof.
  intros H H' k [(G & C & LB & LA) QE] HH. split; auto. exists G. sp; auto. constructor; try (destruct LA; assumption).
  intros x LX FX. destruct (l_x _ _ _ _ _ _ LA x LX FX) as [[T|T]|]; auto. destruct (HH x T LX FX) as [|[|V]]; auto. right.
  destruct (c_valid _ _ _ _ _ _ C x V) as (b & B1 & B2). exists b. split; auto. right. assert (FB : ff (blit g b) = false). { destruct (ff (blit g b)) eqn:FB; auto. destruct (l_b _ _ _ _ _ _ LA b x FB B1) as [[]|]. congruence. }
  split; auto. intros X SS. destruct (B2 SS) as [V2|[]]. unfold valid in V2. rewrite X in V2. destruct (c_src _ _ _ _ _ _ C _ _ B1) as [_ LBB].
  assert (GE : forall i, G b i = k_ws k b i) by (intros; eapply c_g; eauto). rewrite (sum_same g b _ _ GE). pose proof (c_elow _ _ _ _ _ _ C b LBB X). split; [lia|]. intros i. rewrite GE. apply (l_ws _ _ _ _ _ _ LA); auto.
Qed.
(** What findUfs returns *)
Definition FUfs (U : list nat) (k : ck) : Prop :=
  Quiet g As A [] (fun x => In x U) none k /\ tfOk g k /\ (forall y, k_uf k y = true <-> In y U) /\ (forall y, In y U -> (y < nA)%nat /\ ff (alit g y) = false) /\ (U = [] -> k_todo k = []) /\ (upClosed g A -> unf A U) /\ (forall y z, In y U -> In z U -> a_scc (atomOf g y) = a_scc (atomOf g z)).
Lemma todo_ok : forall n k, (length (k_todo k) <= n)%nat -> Quiet g As A [] none none k -> tfOk g k -> (forall y, k_uf k y = false) ->
  exists U k', todoLoop g A n k = Ok (U, k') /\ FUfs U k' /\ k_inv k' = k_inv k.
Proof.
  induction n as [|n IH]; intros k LN QU T UF; pose proof T as (TT & ND & LT); cbn [todoLoop]; destruct (k_todo k) as [|x t] eqn:TE; try (cbn in LN; lia).
  - exists [], k. sp; auto. unfold FUfs. sp; auto. { intros y. rewrite UF. split; [discriminate|intros []]. } intros y []. intros _ y b []. intros y z [].
  - exists [], k. sp; auto. unfold FUfs. sp; auto. { intros y. rewrite UF. split; [discriminate|intros []]. } intros y []. intros _ y b []. intros y z [].
  - inversion ND; subst. set (k1 := setTodo k (upd (k_tf k) x false) t).
    assert (Q1 : Quiet g As A [] (eq x) none k1).
    { destruct QU as [(G & C & LB & LA) QE]. split; auto. exists G. sp.
      - eapply core_same; [..|exact C]; reflexivity.
      - intros B IB. destruct (LB B IB). constructor; auto.
      - destruct LA as [LA1 LA2 LA3]. constructor; auto. intros y LY FY. destruct (LA3 y LY FY) as [[Y|[]]|]; auto. rewrite TE in Y. destruct Y as [<-|Y]; auto. }
    assert (T1 : tfOk g k1). { unfold tfOk. cbn. sp; auto; [|intros y Y; apply LT; right; auto]. intros y. unfold upd. destruct (Nat.eqb_spec y x) as [->|D]; [split; [discriminate|contradiction]|]. rewrite (TT y). cbn. split; [intros [|]; auto; congruence|auto]. }
    cbn in LN. destruct (negb (k_val k1 x) && negb (ff (alit g x))) eqn:CC.
    + apply andb_true_iff in CC. destruct CC as [CV CF]. apply negb_true_iff in CV. apply negb_true_iff in CF.
      destruct (findSource_ok (eq x) (a_scc (atomOf g x)) x k1 eq_refl Q1 UF CV CF) as (U & k2 & S1 & [R1 R2 R3 R4 R5 RS (R6 & R7 & R8 & R9)]); [apply LT; left; auto|]. rewrite S1. cbn [bind].
      destruct U as [|u U].
      * assert (Q2 : Quiet g As A [] none none k2). { eapply full_H; [eassumption|]. intros y <- _ _. destruct R4 as [[]|]; auto. }
        destruct (IH k2) as (U & k3 & I1 & I2 & I3); auto.
        -- rewrite R7. cbn. lia.
        -- unfold tfOk. rewrite R8, R7. apply T1.
        -- intros y. destruct (k_uf k2 y) eqn:Y; auto. apply R2 in Y. destruct Y.
        -- exists U, k3. sp; auto. rewrite I3, R6; reflexivity.
      * exists (u :: U), k2. sp; auto. unfold FUfs. sp; auto.
        -- eapply full_H; [eassumption|]. intros y <- _ _. destruct R4; auto.
        -- unfold tfOk. rewrite R8, R7. apply T1.
        -- intros y Y. destruct (R3 y Y) as (? & ? & ?). auto.
        -- discriminate.
        -- intros y z Y Z0. rewrite (RS y Y), (RS z Z0). auto.
    + assert (Q2 : Quiet g As A [] none none k1). { eapply full_H; [eassumption|]. intros y <- _ FX. destruct (k_val k1 x) eqn:Y; auto. cbn in CC. rewrite FX in CC. discriminate. }
      destruct (IH k1) as (U & k3 & I1 & I2 & I3); auto.
      * cbn. lia.
      * exists U, k3. sp; auto.
Qed.
End Phase.
End Uf.
