(** Proofs: the whole analysis, cores. *)
From Coq Require Import List Bool Arith Lia Permutation.
From Verif Require Import Base ClModel CaModel CaSpec CaProofs CaProofs2 CaProofs3 CaProofs4 CaProofs5.
Import ListNotations.

Lemma cntl_one : forall E x K, (forall q, In q K -> lv E q <= lv E x) -> cntl E (lv E x) (x :: K) = 1 -> forall q, In q K -> lv E q < lv E x.
Proof.
  intros E x K H. unfold cntl. cbn [filter]. rewrite Nat.eqb_refl. cbn [length]. intros L q Hq. specialize (H q Hq).
  destruct (Nat.eq_dec (lv E q) (lv E x)) as [E1|]; [|lia]. exfalso.
  assert (Z : In q (filter (fun y => Nat.eqb (lv E y) (lv E x)) K)) by (apply filter_In; rewrite E1, Nat.eqb_refl; auto).
  destruct (filter _ K); [easy|cbn in L; lia].
Qed.

Section A.
Variable G : asg -> Prop.
Variable E : env.
Hypothesis TO : trail_ok G E.
Variable f0 : fl.
Hypothesis FO : flags_ok E f0.

Lemma analyze_spec : forall o conf, conflict_ok G E conf -> v_root E < dl E -> (o_rev o <> 0 -> arcs_ok G E) ->
  exists p C D r, firstUip E conf f0 = firstUip E conf f0 /\ analyzeConflict E o conf f0 = Ok r /\ r_cc r = neg p :: map neg D /\
    (exists rt f, firstUip E conf f0 = Ok (p, rt, f, map neg C)) /\
    (forall q, In q C -> In q (v_trail E) /\ 0 < lv E q < dl E) /\ In p (v_trail E) /\ lv E p = dl E /\
    (forall v, f_seen (r_fl r) v = f_seen f0 v) /\ (forall l, f_mark (r_fl r) l = false) /\
    assertingAt E (r_cc r) (r_level r) /\ ((o_rep o = 1 \/ o_rep o = 3 -> noFlips E) -> forall a, G a -> sat_clause a (r_cc r) = true) /\
    (o_rep o = 0 -> r_lbd r = lbdOf E (r_cc r)) /\
    (o_rep o = 0 -> o_rev o = 0 -> forall x, In x D <-> In x C /\ ~ rem E C o x) /\
    lbdOf E (r_cc r) <= r_lbd r <= length (r_cc r) /\ tagOk o r (map neg D) /\ r_max r = maxv D (fst p).
Proof.
  intros o conf CO HR AO. pose proof (co_dl _ _ _ CO) as DL. unfold analyzeConflict.
  destruct (firstUip_spec G E f0 conf TO FO CO) as [p [rt [pop [f [C [U1 [U2 [U3 [U4 U5]]]]]]]]].
  rewrite U1. cbn [bind]. assert (Pt : In p (v_trail E)) by (rewrite U2, in_app_iff; cbn; auto).
  unfold simplifyCC.
  destruct (ccMinimize_spec G E TO f0 FO DL f C U4 o (neg p)) as [K [R [M1 [M2 [M3 [M4 M5]]]]]].
  rewrite M1. cbn [bind].
  assert (RK : refutes G (p :: K)) by (eapply min_refutes; eauto).
  pose proof (pre_min G E TO f0 FO DL p Pt U3 f C K R U4 RK M2) as P. set (f1 := clearAll (map neg R) f) in *.
  assert (INV : forall rep f2 K2, pre G E f0 p f2 K2 R -> (rep = o_rep o \/ rep = 0) -> exists r D,
    (do r <- finalize E o rep (p :: rt) (neg p :: map neg K2) f2;
     Ok (Out (r_cc r) (r_level r) (r_lbd r) (r_tagged r) (r_max r) (unmarkAll E (map neg R) (r_fl r)))) = Ok r /\
    r_cc r = neg p :: map neg D /\ (forall v, f_seen (r_fl r) v = f_seen f0 v) /\ (forall l, f_mark (r_fl r) l = false) /\
    assertingAt E (r_cc r) (r_level r) /\ ((o_rep o = 1 \/ o_rep o = 3 -> noFlips E) -> forall a, G a -> sat_clause a (r_cc r) = true) /\
    (o_rep o = 0 -> r_lbd r = lbdOf E (r_cc r)) /\ (o_rep o = 0 -> Permutation D K2) /\
    lbdOf E (r_cc r) <= r_lbd r <= length (r_cc r) /\ tagOk o r (map neg D) /\ r_max r = maxv D (fst p)).
  { intros rep f2 K2 P2 HREP.
    destruct (finalize_spec G E TO f0 FO DL o p Pt U3 rep f2 K2 R rt pop HR U2 P2) as [r [D [F1 [F2 [F3 [F4 [F5 [F6 [F7 [F8 [F9 F10]]]]]]]]]]].
    rewrite F1. cbn [bind]. eexists _, D. split; [reflexivity|]. cbn [r_cc r_level r_lbd r_tagged r_max r_fl].
    assert (R0 : o_rep o = 0 -> rep = 0) by (destruct HREP; congruence). sp; auto; try tauto.
    - intros v. rewrite unmarkAll_seen. apply F3.
    - intros l. rewrite unmarkAll_mark. destruct (f_mark (r_fl r) l) eqn:ML; auto. cbn. apply negb_false_iff. apply F4, in_map_iff in ML as [q [Q1 Q2]].
      apply existsb_exists. exists (neg q). split; [now apply in_map|]. change (lv E (neg q)) with (lv E q). apply Nat.eqb_eq. auto.
    - intros NF a Ga. rewrite F2. apply (refutes_sat G p); auto. apply F6. intros Z. apply NF. destruct HREP; subst; auto. destruct Z; discriminate.
    }
  assert (KC : forall x, In x K <-> In x C /\ ~ rem E C o x).
  { intros x. split.
    - intros Hx. split; [eapply Permutation_in; [exact M2|]; apply in_app_iff; auto|auto].
    - intros [H1 H2]. apply (Permutation_in _ (Permutation_sym M2)) in H1. apply in_app_iff in H1 as [H1|H1]; auto. elim H2; auto. }
  assert (CT : forall q, In q C -> In q (v_trail E) /\ 0 < lv E q < dl E).
  { intros q Hq. split; [apply (mk_tr _ _ _ _ _ U4); auto|now apply (mk_C _ _ _ _ _ U4)]. }
  assert (FIN : forall rep f2 K2, pre G E f0 p f2 K2 R -> (rep = o_rep o \/ rep = 0) -> (o_rev o = 0 -> K2 = K) ->
    exists p' C' D r, Ok (p, p :: rt, f, map neg C) = Ok (p, p :: rt, f, map neg C) /\
    (do r <- finalize E o rep (p :: rt) (neg p :: map neg K2) f2;
     Ok (Out (r_cc r) (r_level r) (r_lbd r) (r_tagged r) (r_max r) (unmarkAll E (map neg R) (r_fl r)))) = Ok r /\ r_cc r = neg p' :: map neg D /\
    (exists rt' f', Ok (p, p :: rt, f, map neg C) = Ok (p', rt', f', map neg C')) /\
    (forall q, In q C' -> In q (v_trail E) /\ 0 < lv E q < dl E) /\ In p' (v_trail E) /\ lv E p' = dl E /\
    (forall v, f_seen (r_fl r) v = f_seen f0 v) /\ (forall l, f_mark (r_fl r) l = false) /\
    assertingAt E (r_cc r) (r_level r) /\ ((o_rep o = 1 \/ o_rep o = 3 -> noFlips E) -> forall a, G a -> sat_clause a (r_cc r) = true) /\
    (o_rep o = 0 -> r_lbd r = lbdOf E (r_cc r)) /\
    (o_rep o = 0 -> o_rev o = 0 -> forall x, In x D <-> In x C' /\ ~ rem E C' o x) /\
    lbdOf E (r_cc r) <= r_lbd r <= length (r_cc r) /\ tagOk o r (map neg D) /\ r_max r = maxv D (fst p')).
  { intros rep f2 K2 P2 HREP H0. destruct (INV rep f2 K2 P2 HREP) as [r [D [I1 [I2 [I3 [I4 [I5 [I6 [I7 [I8 [I9 [I10 I11]]]]]]]]]]]].
    exists p, C, D, r. sp; auto; try exact (proj1 I9); try exact (proj2 I9).
    - exists (p :: rt), f. reflexivity.
    - intros Z1 Z2 x. rewrite <- KC, <- (H0 Z2). pose proof (I8 Z1) as PD. split; intros Hx; [exact (Permutation_in _ PD Hx)|exact (Permutation_in _ (Permutation_sym PD) Hx)]. }
  assert (REP : forall k, (if Nat.ltb k (Nat.max (o_compress o) (dl E + 1)) then 0 else o_rep o) = o_rep o \/ (if Nat.ltb k (Nat.max (o_compress o) (dl E + 1)) then 0 else o_rep o) = 0).
  { intros k. destruct (Nat.ltb _ _); auto. }
  set (onA := cntl E (lv E (nth 0 K lit_true)) K) in *.
  destruct (Nat.eqb onA 1 && Nat.ltb 0 (o_rev o)) eqn:RV; [|now apply FIN].
  apply andb_true_iff in RV as [RV1 RV2]. apply Nat.eqb_eq in RV1. apply Nat.ltb_lt in RV2.
  destruct K as [|x K]; [discriminate|]. unfold onA in RV1. cbn [nth] in RV1, M5.
  assert (JL : (if Nat.ltb 1 (length (neg p :: map neg (x :: K))) then lv E (nth 1 (neg p :: map neg (x :: K)) lit_false) else 0) = lv E x) by reflexivity.
  rewrite JL. change (nth 1 (neg p :: map neg (x :: K)) lit_false) with (neg x).
  set (maxN := match o_rev o with 1 => Some 1 | 2 => Some (length (neg p :: map neg (x :: K)) / 2) | _ => None end).
  destruct (revArc E (markSeen f1 (neg p)) (p :: rt) (neg x) (lv E x) maxN) as [r|] eqn:RA.
  - destruct (pre_rev G E TO f0 FO DL p Pt U3 f1 x K R rt pop maxN r U2 (AO ltac:(lia)) P) as [f' [K' [R1 R2]]]; auto.
    + intros q Hq. unfold seen, f1. rewrite clearAll_spec, (mk_seen _ _ _ _ _ U4). cbn [app]. apply andb_true_iff. split.
      * apply orb_true_iff. right. apply memv_in. exists q. split; auto. now apply KC.
      * apply negb_true_iff, memv_notin. rewrite map_fst_neg. intros Z. apply in_map_iff in Z as [y [Z1 Z2]].
        assert (ND : NoDup (map fst ((x :: K) ++ R))). { eapply nodup_map_perm; [apply Permutation_sym, M2|]. exact (mk_nd _ _ _ _ _ U4). }
        rewrite map_app in ND. clear - ND Z1 Z2 Hq. revert ND Hq. generalize (x :: K) as L. induction L as [|z L IH]; [easy|]. cbn. intros ND. inversion ND as [|w m N1 N2]; subst. intros [->|Hq]; [|auto].
        apply N1. apply in_app_iff. right. rewrite <- Z1. now apply in_map.
    + apply cntl_one; [|exact RV1]. intros q Hq. apply M5. cbn; auto.
    + rewrite R1. apply FIN; auto. lia.
  - assert (P3 : pre G E f0 p (clearSeen (markSeen f1 (neg p)) (neg p)) (x :: K) R).
    { assert (NP : ~ In (fst p) (map fst (x :: K))) by (pose proof (pr_nd _ _ _ _ _ _ _ P) as Z; cbn [map] in Z; inversion Z; auto).
      assert (N0 : f_seen f0 (fst p) = false) by (apply (pos_not0 E f0 FO DL p U3); auto; lia).
      destruct P as [P1 P2 P4 P5 P6 P7 P8 P9]. constructor; auto.
      - intros v. cbn [clearSeen markSeen f_seen]. rewrite !setf_spec. destruct (Nat.eqb v (fst (neg p))); [discriminate|auto].
      - intros v Hv. cbn [clearSeen markSeen f_seen]. rewrite !setf_spec. destruct (Nat.eqb v (fst (neg p))) eqn:EV; [|auto]. apply Nat.eqb_eq in EV. change (fst (neg p)) with (fst p) in EV. congruence. }
    apply FIN; auto.
Qed.

(** Cores *)
Notation seenIs := (CaProofs.seenIs f0).
Lemma core_loop : forall rt pop f S out, v_trail E = rev rt ++ pop -> seenIs f S -> NoDup (map fst S) -> (forall q, In q S -> In q rt /\ 0 < lv E q) ->
  (forall q, In q out -> isDec E q /\ ~ In q rt) -> NoDup out -> (noFlips E -> refutes G (out ++ S)) ->
  exists f' out', coreLoop E rt f (length S) out = Ok (f', out') /\ seenIs f' [] /\ f_mark f' = f_mark f /\
    (forall q, In q out' -> isDec E q) /\ NoDup out' /\ (noFlips E -> refutes G out').
Proof.
  induction rt as [|t rt IH]; intros pop f S out T SI ND HS HO NO RF.
  - destruct S as [|s S]; [|exfalso; apply (HS s); cbn; auto]. cbn. exists f, out. sp; auto; [intros q Hq; now apply HO|now rewrite app_nil_r in RF].
  - destruct S as [|s S].
    { cbn. exists f, out. sp; auto; [intros q Hq; now apply HO|now rewrite app_nil_r in RF]. }
    remember (s :: S) as SS eqn:ES.
    assert (LS : length SS = Datatypes.S (length S)) by (subst; auto). rewrite LS. cbn [coreLoop].
    rewrite rev_prefix in T. assert (Tt : In t (v_trail E)) by (rewrite T, in_app_iff; cbn; auto).
    assert (HTr : forall q, In q (t :: rt) -> In q (v_trail E)). { intros q [<-|Hq]; auto. rewrite T, in_app_iff. left. now apply in_rev in Hq. }
    assert (HSt : forall q, In q SS -> In q (v_trail E) /\ 0 < lv E q) by (intros q Hq; split; [apply HTr; now apply HS|now apply HS]).
    assert (TR : ~ In t rt).
    { intros Z. apply in_rev in Z. pose proof (to_nodup _ _ TO) as N. rewrite T, map_app in N. cbn in N. apply NoDup_remove_2 in N. apply N. apply in_app_iff. left. now apply in_map. }
    destruct (seen f t) eqn:St.
    2:{ rewrite <- LS. apply (IH (t :: pop)); auto.
        - intros q Hq. destruct (HS q Hq) as [[<-|Hr] Hl]; auto. exfalso.
          unfold seen in St. rewrite SI in St. apply orb_false_iff in St as [_ St]. apply memv_notin in St. apply St. now apply in_map.
        - intros q Hq. destruct (HO q Hq) as [A B]. split; auto. intros Z. apply B. cbn; auto. }
    assert (Lt : forall q, In q SS -> lv E q <= lv E t).
    { intros q Hq. destruct (HS q Hq) as [[<-|Hr] _]; auto. apply (to_sorted _ _ TO _ _ _ q T). now apply in_rev in Hr. }
    assert (Lt0 : 0 < lv E t). { pose proof (Lt s ltac:(subst; cbn; auto)). pose proof (proj2 (HS s ltac:(subst; cbn; auto))). lia. }
    rewrite (proj2 (Nat.eqb_neq (lv E t) 0)) by lia.
    assert (TS : In t SS). { destruct (seenIs_cases G E TO f0 FO f SS t SI HSt (or_intror Tt) St) as [[->|[_ Z]]|]; auto; [|lia].
      exfalso. unfold lv in Lt0. cbn [fst lit_true] in Lt0. rewrite (to_var0 _ _ TO) in Lt0. lia. }
    apply in_split in TS as [A [B EAB]].
    assert (LAB : length S = length (A ++ B)). { assert (length SS = Datatypes.S (length (A ++ B))) by (rewrite EAB, !app_length; cbn; lia). lia. }
    rewrite LAB. rewrite EAB in *. clear s S ES LS LAB EAB SS.
    assert (SI' : seenIs (clearSeen f t) (A ++ B)).
    { intros v. cbn [clearSeen f_seen]. rewrite setf_spec. pose proof ND as N. rewrite map_app in N. cbn in N. apply NoDup_remove_2 in N. rewrite <- map_app in N.
      destruct (Nat.eqb v (fst t)) eqn:Ev.
      - apply Nat.eqb_eq in Ev. subst v. symmetry. apply orb_false_iff. split; [|now apply memv_notin].
        destruct (f_seen f0 (fst t)) eqn:S; auto. apply (fo_seen _ _ FO t Tt) in S. lia.
      - rewrite SI. f_equal. rewrite !memv_app. cbn [memv existsb]. rewrite (Nat.eqb_sym (fst t) v), Ev. reflexivity. }
    assert (NDt : ~ In t (A ++ B)). { rewrite map_app in ND. cbn in ND. apply NoDup_remove_2 in ND. rewrite <- map_app in ND. intros Z. apply ND. now apply in_map. }
    assert (NDab : NoDup (map fst (A ++ B))). { rewrite map_app in *. cbn in ND. now apply NoDup_remove_1 in ND. }
    assert (HS' : forall q, In q (A ++ B) -> In q rt /\ 0 < lv E q). { intros q Hq. destruct (HS q) as [[<-|Z] Z2]; auto; [rewrite in_app_iff in *; cbn; tauto|contradiction]. }
    destruct (rs E t) as [r|] eqn:Rt.
    + destruct (markAll_spec r (clearSeen f t) (length (A ++ B))) as [new [M1 [M2 [M3 [M4 [M5 M6]]]]]].
      destruct (markAll r (clearSeen f t) (length (A ++ B))) as [f1 m1]. cbn [fst snd] in *.
      assert (RE : forall q, In q r -> q = lit_true \/ In q rt).
      { intros q Hq. pose proof (to_reason _ _ TO t r q Tt Rt Hq) as X. destruct (earlier_prefix G E TO _ _ _ _ T X) as [|Y]; auto. right. now apply in_rev. }
      assert (NW : forall q, In q new -> In q rt /\ In q (v_trail E) /\ 0 < lv E q /\ In q r).
      { intros q Hq. apply M5 in Hq as [Q1 Q2]. assert (QR : In q rt).
        { destruct (RE q Q1) as [->|]; auto. exfalso. unfold seen in Q2. rewrite SI' in Q2. cbn [fst lit_true] in Q2. rewrite (fo_seen0 _ _ FO) in Q2. discriminate. }
        sp; auto; [apply HTr; cbn; auto|].
        destruct (lv E q) eqn:L0; [|lia]. exfalso. unfold seen in Q2. rewrite SI' in Q2. apply orb_false_iff in Q2 as [Q2 _].
        assert (Z : seen f0 q = true) by (apply (fo_seen _ _ FO q); auto; apply HTr; cbn; auto). unfold seen in Z. congruence. }
      assert (m1 = length ((A ++ B) ++ new)) by (rewrite app_length; lia). subst m1. rewrite <- M2 || idtac.
      destruct (IH (t :: pop) f1 ((A ++ B) ++ new) out) as [f' [out' [W1 [W2 [W3 [W4 [W5 W6]]]]]]]; auto.
      * intros v. rewrite M3, SI'. rewrite (memv_app _ (A ++ B) new). now rewrite orb_assoc.
      * rewrite map_app. apply nodup_app2; auto. intros v V1 V2. apply in_map_iff in V2 as [q [V2 V3]]. destruct (M5 q V3) as [_ V4].
        unfold seen in V4. rewrite SI' in V4. apply orb_false_iff in V4 as [_ V4]. apply memv_notin in V4. apply V4. now rewrite V2.
      * intros q. rewrite in_app_iff. intros [Hq|Hq]; auto. apply NW in Hq. tauto.
      * intros q Hq. destruct (HO q Hq) as [Z1 Z2]. split; auto. intros Z. apply Z2. cbn; auto.
      * intros NF a Ga. assert (CS : (exists q, In q (out ++ A ++ B) /\ holds a q = false) \/ holds a t = false).
        { destruct (RF NF a Ga) as [q [Hq Hf]]. rewrite !in_app_iff in Hq. cbn in Hq.
          destruct Hq as [Hq|[Hq|[<-|Hq]]]; auto; left; exists q; (split; [rewrite !in_app_iff; auto|auto]). }
        destruct CS as [[q [Q1 Q2]]|Ft].
        -- exists q. split; auto. rewrite !in_app_iff in *. tauto.
        -- destruct (existsb (fun y => negb (holds a y)) r) eqn:EX.
           ++ apply existsb_exists in EX as [y [Y1 Y2]]. apply negb_true_iff in Y2. exists y. split; auto.
              destruct (M6 y) as [Z|Z]; auto.
              ** destruct (seenIs_cases G E TO f0 FO (clearSeen f t) (A ++ B) y SI') as [Z'|Z']; auto.
                 --- intros q Hq. split; [apply HTr; right; now apply HS'|now apply HS'].
                 --- destruct (RE y Y1); auto. right. apply HTr; cbn; auto.
                 --- rewrite (top_holds G E TO a y Ga Z') in Y2. discriminate.
                 --- rewrite !in_app_iff in *. tauto.
              ** apply memv_in in Z as [z [Z1 Z2]]. destruct (NW z Z1) as [Z3 [Z4 [Z5 Z6]]].
                 assert (YT : In y (v_trail E)). { destruct (RE y Y1) as [->|]; [|apply HTr; cbn; auto]. exfalso. apply (trail_lit_true G E TO z Z4); [lia|exact Z2]. }
                 assert (z = y) by (apply (nd_eq G E TO); auto). subst z. rewrite !in_app_iff. auto.
           ++ exfalso. rewrite (to_valid _ _ TO t r a Tt Rt Ga) in Ft; [discriminate|]. intros y Hy.
              destruct (holds a y) eqn:HX; auto. exfalso. enough (K : true = false) by discriminate. rewrite <- EX. symmetry. apply existsb_exists. exists y. rewrite HX. auto.
      * exists f', out'. sp; auto. { rewrite <- W1. f_equal. rewrite !app_length. reflexivity. } rewrite W3, M2. reflexivity.
    + destruct (lit_eqb t (decision E (lv E t))) eqn:ED.
      * apply lit_eqb_eq in ED. destruct (IH (t :: pop) (clearSeen f t) (A ++ B) (out ++ [t])) as [f' [out' [W1 [W2 [W3 [W4 [W5 W6]]]]]]]; auto.
        -- intros q Hq. apply in_app_iff in Hq as [Hq|[<-|[]]].
           ++ destruct (HO q Hq) as [Z1 Z2]. split; auto. intros Z. apply Z2. cbn; auto.
           ++ split; auto. exists (lv E t). split; auto. split; [lia|now apply (to_max _ _ TO)].
        -- apply NoDup_Add with (a := t) (l := out). { rewrite <- (app_nil_r out) at 1. apply Add_app. } split; auto. intros Z. apply HO in Z as [_ Z]. apply Z. cbn; auto.
        -- intros NF a Ga. destruct (RF NF a Ga) as [q [Hq Hf]]. exists q. split; auto. rewrite !in_app_iff in *. cbn in *. tauto.
        -- exists f', out'. sp; auto.
      * destruct (IH (t :: pop) (clearSeen f t) (A ++ B) out) as [f' [out' [W1 [W2 [W3 [W4 [W5 W6]]]]]]]; auto.
        -- intros q Hq. destruct (HO q Hq) as [Z1 Z2]. split; auto. intros Z. apply Z2. cbn; auto.
        -- intros NF. exfalso. rewrite <- (NF t Tt Rt Lt0) in ED. rewrite lit_eqb_refl in ED. discriminate.
        -- exists f', out'. sp; auto.
Qed.

Lemma core_spec : forall nolearn conf, (forall q, In q conf -> q = lit_true \/ In q (v_trail E)) ->
  (nolearn = false -> forall a, G a -> exists q, In q conf /\ holds a q = false) ->
  (nolearn = true -> noFlips E -> forall a, G a -> exists q, In q (map (decision E) (seq 1 (dl E))) /\ holds a q = false) ->
  exists f' core, resolveToCore E nolearn conf f0 = Ok (f', core) /\ (forall v, f_seen f' v = f_seen f0 v) /\ (forall l, f_mark f' l = false) /\
    (forall q, In q core -> isDec E q) /\ NoDup core /\ (noFlips E -> forall a, G a -> exists q, In q core /\ holds a q = false).
Proof.
  intros nolearn conf HT V1 V2. unfold resolveToCore.
  set (cc := if nolearn then conf ++ map (decision E) (seq 1 (dl E)) else conf).
  assert (CT : forall q, In q cc -> q = lit_true \/ In q (v_trail E)).
  { intros q Hq. unfold cc in Hq. destruct nolearn; auto. apply in_app_iff in Hq as [|Hq]; auto. apply in_map_iff in Hq as [i [<- Hi]]. apply in_seq in Hi.
    right. destruct (to_dec _ _ TO i ltac:(lia)) as [t1 [t2 [Z _]]]. rewrite Z, in_app_iff. cbn; auto. }
  assert (CV : noFlips E -> forall a, G a -> exists q, In q cc /\ holds a q = false).
  { intros NF a Ga. unfold cc. destruct nolearn; [|auto]. destruct (V2 eq_refl NF a Ga) as [q [A B]]. exists q. rewrite in_app_iff. auto. }
  destruct (markAll_spec cc f0 0) as [new [M1 [M2 [M3 [M4 [M5 M6]]]]]]. destruct (markAll cc f0 0) as [f1 m]. cbn [fst snd] in *. cbn [Nat.add] in M1. subst m.
  assert (NW : forall q, In q new -> In q (v_trail E) /\ 0 < lv E q /\ In q cc).
  { intros q Hq. apply M5 in Hq as [Q1 Q2]. destruct (CT q Q1) as [->|QT].
    - unfold seen in Q2. cbn [fst lit_true] in Q2. rewrite (fo_seen0 _ _ FO) in Q2. discriminate.
    - sp; auto. destruct (lv E q) eqn:L0; [|lia]. apply (fo_seen _ _ FO q QT) in L0. congruence. }
  destruct (core_loop (rev (v_trail E)) [] f1 new []) as [f' [out' [W1 [W2 [W3 [W4 [W5 W6]]]]]]]; auto.
  - now rewrite rev_involutive, app_nil_r.
  - intros q Hq. apply NW in Hq as [A [B _]]. split; auto. now apply in_rev in A.
  - easy.
  - constructor.
  - intros NF a Ga. destruct (CV NF a Ga) as [q [A B]]. exists q. split; auto. cbn [app]. destruct (M6 q A) as [Z|Z].
    + exfalso. assert (TQ : top E q) by (now apply (seen0_top E f0 FO q (CT q A))). rewrite (top_holds G E TO a q Ga TQ) in B. discriminate.
    + apply memv_in in Z as [z [Z1 Z2]]. destruct (NW z Z1) as [Z3 [Z4 Z5]]. destruct (CT q A) as [->|QT].
      * exfalso. now apply (trail_lit_true G E TO z Z3 Z4).
      * rewrite <- (nd_eq G E TO z q); auto.
  - exists f', out'. sp; auto.
    + intros v. rewrite W2. cbn. apply orb_false_r.
    + intros l. rewrite W3, M2. apply (fo_mark _ _ FO).
Qed.
End A.
