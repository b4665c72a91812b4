From Coq Require Import List Bool Arith ZArith Lia Permutation Sorted.
From Verif Require Import Base MnModel MnSpec MnProofs.
Import ListNotations.
Open Scope Z_scope.

(** * Encoded sparse vectors *)
Definition sv := list (nat * Z).
Fixpoint enc (v : sv) : list lw := match v with [] => [] | [(l, w)] => [LW l false w] | (l, w) :: v => LW l true w :: enc v end.
Lemma enc_cons : forall l w v, v <> [] -> enc ((l, w) :: v) = LW l true w :: enc v.
Proof. intros l w [|[l' w'] v] H; [congruence|reflexivity]. Qed.
Lemma enc_length : forall v, length (enc v) = length v.
Proof. induction v as [|[l w] v IH]; auto. destruct v as [|x v]; auto. rewrite enc_cons by discriminate. cbn [length] in *. auto. Qed.
Lemma vecFrom_enc : forall v rest, v <> [] -> vecFrom (enc v ++ rest) = v.
Proof.
  induction v as [|[l w] v IH]; intros rest H; [congruence|]. destruct v as [|x v]; [reflexivity|]. rewrite enc_cons by discriminate. cbn [app vecFrom lw_level lw_next lw_weight]. rewrite IH by discriminate. auto.
Qed.
Lemma vecOf_enc : forall v base rest, v <> [] -> vecOf (base ++ enc v ++ rest) (Z.of_nat (length base)) = enc v.
Proof.
  intros v base rest H. unfold vecOf. rewrite Nat2Z.id, skipn_app, skipn_all, Nat.sub_diag. cbn [app skipn]. revert H. induction v as [|[l w] v IH]; intros H; [congruence|]. destruct v as [|x v]; [reflexivity|].
  rewrite enc_cons by discriminate. cbn [app lw_next]. f_equal. apply IH. discriminate.
Qed.
Definition good (ws : list lw) (i : Z) (v : sv) : Prop := v <> [] /\ exists base rest, ws = base ++ enc v ++ rest /\ i = Z.of_nat (length base).
Lemma good_vec : forall ws i v, good ws i v -> vec ws i = v.
Proof. intros ws i v [N [base [rest [-> ->]]]]. unfold vec. rewrite Nat2Z.id, skipn_app, skipn_all, Nat.sub_diag. cbn [app skipn]. apply vecFrom_enc; auto. Qed.
Lemma good_vecOf : forall ws i v, good ws i v -> vecOf ws i = enc v.
Proof. intros ws i v [N [base [rest [-> ->]]]]. apply vecOf_enc; auto. Qed.
Lemma good_app : forall ws ws' i v, good ws i v -> good (ws ++ ws') i v.
Proof. intros ws ws' i v [N [base [rest [-> ->]]]]. split; auto. exists base, (rest ++ ws'). rewrite <- !app_assoc. auto. Qed.
Lemma setLast_enc : forall base v l w, v <> [] -> setLastNext (base ++ enc v) ++ [LW l false w] = base ++ enc (v ++ [(l, w)]).
Proof.
  intros base v l w. revert base. induction v as [|[l0 w0] v IH]; intros base H; [congruence|]. destruct v as [|x v].
  - cbn [enc app]. unfold setLastNext. rewrite rev_app_distr. cbn [rev app]. rewrite rev_involutive. cbn [lw_level lw_weight]. rewrite <- app_assoc. auto.
  - rewrite enc_cons by discriminate. change (base ++ LW l0 true w0 :: enc (x :: v)) with (base ++ [LW l0 true w0] ++ enc (x :: v)). rewrite app_assoc, IH by discriminate.
    cbn [app]. rewrite <- app_assoc. cbn [app]. destruct x. reflexivity.
Qed.

Lemma vecWeight_app : forall v l w i, (forall e, In e v -> fst e <> l) -> vecWeight (v ++ [(l, w)]) i = if Nat.eqb l i then w else vecWeight v i.
Proof.
  induction v as [|[l0 w0] v IH]; intros l w i H; cbn [app vecWeight]; [destruct (Nat.eqb l i); auto|]. rewrite IH by (intros e E; apply H; cbn; auto).
  destruct (Nat.eqb_spec l0 i) as [->|N]; auto. destruct (Nat.eqb_spec l i) as [->|M]; auto. exfalso. apply (H (i, w0)); cbn; auto.
Qed.
Lemma addAt_spec : forall l i z, (i < length l)%nat -> exists l', addAt l i z = Ok l' /\ length l' = length l /\ forall j, nth j l' 0 = nth j l 0 + if Nat.eqb i j then z else 0.
Proof.
  induction l as [|y l IH]; intros i z L; [cbn in L; lia|]. destruct i as [|i]; cbn [addAt].
  - exists (y + z :: l). sp; auto. intros [|j]; cbn; lia.
  - cbn in L. destruct (IH i z ltac:(lia)) as [l' [A [B C]]]. rewrite A. cbn [bind]. exists (y :: l'). cbn [length]. sp; auto. intros [|j]; cbn [nth Nat.eqb]; [lia|apply C].
Qed.

(** * mergeLevels *)
Definition keyLt (x y : mlit) : Prop := (fst (m_lit x) < fst (m_lit y))%nat \/ (fst (m_lit x) = fst (m_lit y) /\ m_prio x < m_prio y).
Definition conv (it k : mlit) : nat * Z := (Z.to_nat (m_prio k), if Bool.eqb (snd (m_lit k)) (snd (m_lit it)) then m_w k else - m_w k).
Definition okAt (n : nat) (k : mlit) : Prop := 0 <= m_prio k < Z.of_nat n /\ 0 < m_w k <= int_max.
Definition svLt (x y : nat * Z) : Prop := (fst x < fst y)%nat.
Definition vecOk (n : nat) (v : sv) : Prop :=
  StronglySorted svLt v /\ Forall (fun e => (fst e < n)%nat /\ snd e <> 0 /\ - int_max <= snd e <= int_max) v /\ match v with [] => False | e :: _ => 0 < snd e end.
Lemma ss_app2 : forall (A : Type) (R : A -> A -> Prop) l1 l2, StronglySorted R l1 -> StronglySorted R l2 -> (forall x y, In x l1 -> In y l2 -> R x y) -> StronglySorted R (l1 ++ l2).
Proof.
  induction l1 as [|x l1 IH]; intros l2 A1 A2 D; auto. cbn. inversion A1; subst. constructor; [apply IH; auto; intros; apply D; cbn; auto|]. rewrite Forall_app. split; auto. apply Forall_forall. intros y Y. apply D; cbn; auto.
Qed.
Lemma mergeVar_spec : forall it a l adjust base v, v <> [] -> Forall (okAt (length adjust)) l -> StronglySorted keyLt (it :: l) ->
  (forall e k, In e v -> In k l -> fst (m_lit k) = fst (m_lit it) -> (fst e < Z.to_nat (m_prio k))%nat) ->
  exists pre l' adjust', l = pre ++ l' /\ mergeVar it l adjust (base ++ enc v) = Ok (adjust', base ++ enc (v ++ map (conv it) pre), l') /\ length adjust' = length adjust /\
    (forall k, In k pre -> fst (m_lit k) = fst (m_lit it)) /\ (match l' with k :: _ => (fst (m_lit it) < fst (m_lit k))%nat | [] => True end) /\
    (forall i, (if holds a (m_lit it) then vecWeight (v ++ map (conv it) pre) i else 0) + nth i adjust' 0 = (if holds a (m_lit it) then vecWeight v i else 0) + nth i adjust 0 + stmtCost pre (Z.of_nat i) a) /\
    (StronglySorted svLt v -> StronglySorted svLt (v ++ map (conv it) pre)).
Proof.
  intros it a. induction l as [|k l IH]; intros adjust base v N OK SO LV.
  { exists [], [], adjust. cbn. rewrite app_nil_r. sp; auto; [intros k []|intros; lia]. }
  cbn [mergeVar]. inversion SO as [|? ? SO1 F]; subst. inversion F as [|? ? F1 F2]; subst. inversion OK as [|? ? OK1 OK2]; subst. inversion SO1 as [|? ? SO2 F3]; subst.
  destruct (Nat.eqb_spec (fst (m_lit k)) (fst (m_lit it))) as [V|V].
  2:{ exists [], (k :: l), adjust. cbn. rewrite app_nil_r. sp; auto; [intros z []|destruct F1 as [F1|F1]; [auto|lia]|intros; lia]. }
  destruct F1 as [F1|[_ F1]]; [lia|]. rewrite (proj2 (Z.ltb_lt _ _) F1). destruct OK1 as [OK0 OK1].
  assert (ND : forall e, In e v -> fst e <> Z.to_nat (m_prio k)) by (intros e E; specialize (LV e k E ltac:(cbn; auto) V); lia).
  assert (LV' : forall z e k0, In e (v ++ [(Z.to_nat (m_prio k), z)]) -> In k0 l -> fst (m_lit k0) = fst (m_lit it) -> (fst e < Z.to_nat (m_prio k0))%nat).
  { intros z e k0 E K W. apply in_app_or in E. destruct E as [E|[<- |[]]]; [apply LV; cbn; auto|]. rewrite Forall_forall in F3. specialize (F3 k0 K). unfold keyLt in F3. cbn. rewrite Forall_forall in OK2. destruct (OK2 k0 K). lia. }
  assert (SOI : StronglySorted keyLt (it :: l)) by (constructor; auto).
  assert (MS : forall z, StronglySorted svLt v -> StronglySorted svLt (v ++ [(Z.to_nat (m_prio k), z)])).
  { intros z S. apply ss_snoc; auto. apply Forall_forall. intros e E. apply (LV e k); cbn; auto. }
  assert (ASC : forall z pre, (v ++ [(Z.to_nat (m_prio k), z)]) ++ map (conv it) pre = v ++ (Z.to_nat (m_prio k), z) :: map (conv it) pre) by (intros; rewrite <- app_assoc; auto).
  destruct (Bool.eqb (snd (m_lit k)) (snd (m_lit it))) eqn:SG; cbn [negb].
  - assert (EQL : m_lit k = m_lit it) by (destruct (m_lit k), (m_lit it); cbn in *; apply eqb_prop in SG; subst; auto).
    rewrite setLast_enc by auto.
    destruct (IH adjust base (v ++ [(Z.to_nat (m_prio k), m_w k)])) as [pre [l' [adj' [E1 [E2 [E3 [E4 [E5 [E6 E7]]]]]]]]]; auto; [destruct v; discriminate|apply LV'|].
    exists (k :: pre), l', adj'. cbn [map]. unfold conv at 1 3 5. rewrite SG. rewrite ASC in E2, E7. sp; auto; [rewrite E1; auto|intros z [<- |Z]; auto|]. intros i. rewrite <- ASC, E6, vecWeight_app by auto. cbn [stmtCost]. rewrite EQL.
    destruct (Nat.eqb_spec (Z.to_nat (m_prio k)) i) as [Q|Q], (Z.eqb_spec (m_prio k) (Z.of_nat i)); try lia; cbn [andb]; destruct (holds a (m_lit it)); try lia.
    clear -ND Q. assert (W : vecWeight v i = 0); [|lia]. revert ND. rewrite Q. induction v as [|[l0 w0] v IH]; intros ND; auto. cbn. destruct (Nat.eqb_spec l0 i) as [->|]; [exfalso; apply (ND (i, w0)); cbn; auto|]. apply IH. intros; apply ND; cbn; auto.
  - assert (EQL : m_lit k = neg (m_lit it)) by (destruct (m_lit k), (m_lit it); cbn in *; unfold neg; cbn; subst; f_equal; destruct b, b0; cbn in *; congruence).
    destruct (addAt_spec adjust (Z.to_nat (m_prio k)) (m_w k) ltac:(lia)) as [adj1 [A1 [A2 A3]]]. rewrite A1. cbn [bind]. rewrite setLast_enc by auto.
    destruct (IH adj1 base (v ++ [(Z.to_nat (m_prio k), - m_w k)])) as [pre [l' [adj' [E1 [E2 [E3 [E4 [E5 [E6 E7]]]]]]]]]; auto; [destruct v; discriminate|rewrite A2; auto|apply LV'|].
    exists (k :: pre), l', adj'. cbn [map]. unfold conv at 1 3 5. rewrite SG. rewrite ASC in E2, E7. sp; auto; [rewrite E1; auto|lia|intros z [<- |Z]; auto|]. intros i. rewrite <- ASC, E6, vecWeight_app by auto. cbn [stmtCost]. rewrite EQL, holds_neg, A3.
    assert (W : Z.to_nat (m_prio k) = i -> vecWeight v i = 0).
    { clear -ND. intros Q. revert ND. rewrite Q. induction v as [|[l0 w0] v IH]; intros ND; auto. cbn. destruct (Nat.eqb_spec l0 i) as [->|]; [exfalso; apply (ND (i, w0)); cbn; auto|]. apply IH. intros; apply ND; cbn; auto. }
    destruct (Nat.eqb_spec (Z.to_nat (m_prio k)) i) as [Q|Q], (Z.eqb_spec (m_prio k) (Z.of_nat i)); try lia; cbn [andb]; destruct (holds a (m_lit it)); cbn [negb]; try lia; rewrite W by auto; lia.
Qed.

(** Sum of the weights on level [i] of true literals with weight vectors. *)
Fixpoint vsum (l : list (lit * sv)) (i : nat) (a : asg) : Z := match l with [] => 0 | (x, v) :: l => (if holds a x then vecWeight v i else 0) + vsum l i a end.
Lemma vsum_app : forall l1 l2 i a, vsum (l1 ++ l2) i a = vsum l1 i a + vsum l2 i a.
Proof. induction l1 as [|[x v] l1 IH]; intros; cbn [vsum app]; auto. rewrite IH. lia. Qed.
Lemma vsum_perm : forall l1 l2 i a, Permutation l1 l2 -> vsum l1 i a = vsum l2 i a.
Proof. intros l1 l2 i a H. induction H as [|[x v]|[x v] [y w]|]; cbn [vsum]; lia. Qed.
Definition withVec (ws : list lw) (y : mlit) : lit * sv := (m_lit y, vec ws (m_w y)).
Lemma ss_head : forall (A : Type) (R : A -> A -> Prop) x l, StronglySorted R (x :: l) -> forall y, In y l -> R x y.
Proof. intros A R x l H y Y. inversion H; subst. rewrite Forall_forall in *. auto. Qed.
Lemma merge_spec : forall a fuel l out adjust ws, (length l < fuel)%nat -> Forall (okAt (length adjust)) l -> StronglySorted keyLt l ->
  Forall (fun y => exists v, vecOk (length adjust) v /\ good ws (m_w y) v) out ->
  exists out' adjust' ws', mergeLoop fuel l out adjust ws = Ok (out', adjust', ws') /\ length adjust' = length adjust /\
    (exists new, out' = out ++ new /\ (forall y, In y new -> exists k, In k l /\ m_lit y = m_lit k) /\ StronglySorted varLt new) /\
    (forall i, vsum (map (withVec ws') out') i a + nth i adjust' 0 = vsum (map (withVec ws) out) i a + nth i adjust 0 + stmtCost l (Z.of_nat i) a) /\
    Forall (fun y => exists v, vecOk (length adjust) v /\ good ws' (m_w y) v) out'.
Proof.
  intros a. induction fuel as [|fuel IH]; intros l out adjust ws LEN OK SO GO; [lia|]. cbn [mergeLoop]. destruct l as [|it k].
  { exists out, adjust, ws. sp; auto; [exists []; rewrite app_nil_r; sp; auto; [intros y []|constructor]|intros; cbn; lia]. }
  inversion OK as [|? ? OK1 OK2]; subst. destruct OK1 as [P1 W1]. rewrite (proj2 (Z.ltb_lt _ _)) by lia.
  destruct (mergeVar_spec it a k adjust ws [(Z.to_nat (m_prio it), m_w it)]) as [pre [l' [adj1 [E1 [E2 [E3 [E4 [E5 [E6 E7]]]]]]]]]; auto; [discriminate| |].
  { intros e k0 [<- |[]] K V. cbn [fst]. pose proof (ss_head _ _ _ _ SO k0 K) as Q. unfold keyLt in Q. rewrite Forall_forall in OK2. destruct (OK2 k0 K). lia. }
  change (enc [(Z.to_nat (m_prio it), m_w it)]) with [LW (Z.to_nat (m_prio it)) false (m_w it)] in E2. rewrite E2. cbn [bind].
  set (v := [(Z.to_nat (m_prio it), m_w it)] ++ map (conv it) pre) in *. set (ws1 := ws ++ enc v) in *.
  assert (GV : good ws1 (Z.of_nat (length ws)) v). { split; [discriminate|]. exists ws, []. rewrite app_nil_r. auto. }
  assert (VO : vecOk (length adjust) v).
  { split; [apply E7; repeat constructor|]. split; [|cbn; lia]. unfold v. cbn [app]. constructor; [cbn; sp; lia|]. apply Forall_forall. intros e E. apply in_map_iff in E. destruct E as [z [<- Z]].
    rewrite Forall_forall in OK2. destruct (OK2 z) as [Z1 Z2]; [rewrite E1; apply in_or_app; auto|]. unfold conv. cbn [fst snd]. destruct (Bool.eqb _ _); sp; lia. }
  destruct (IH l' (out ++ [ML (m_lit it) (m_prio it) (Z.of_nat (length ws))]) adj1 ws1) as [out' [adj' [ws' [F1 [F2 [F3 [F4 F5]]]]]]].
  - cbn in LEN. rewrite E1, app_length in LEN. lia.
  - rewrite E3. rewrite E1 in OK2. rewrite Forall_app in OK2. tauto.
  - inversion SO; subst. eapply ss_app_l; eauto.
  - rewrite E3. rewrite Forall_app. split; [|repeat constructor; cbn [m_w]; exists v; auto]. revert GO. apply Forall_impl. intros y [v0 [Y1 Y2]]. exists v0. split; auto. apply good_app; auto.
  - exists out', adj', ws'. rewrite F1. rewrite E3 in *. sp; auto.
    + destruct F3 as [new [-> [N1 N2]]]. exists (ML (m_lit it) (m_prio it) (Z.of_nat (length ws)) :: new). rewrite <- app_assoc. sp; auto.
      * intros y [<- |Y]; [exists it; cbn; auto|]. destruct (N1 y Y) as [z [Z1 Z2]]. exists z. split; auto. right. rewrite E1. apply in_or_app; auto.
      * constructor; auto. apply Forall_forall. intros y Y. destruct (N1 y Y) as [z [Z1 Z2]]. unfold varLt. cbn [m_lit]. rewrite Z2. destruct l' as [|z0 l']; [destruct Z1|]. destruct Z1 as [<- |Z1]; auto.
        inversion SO as [|? ? SO1 _]; subst. apply ss_app_l in SO1. pose proof (ss_head _ _ _ _ SO1 z Z1) as Q. unfold keyLt in Q. lia.
    + intros i. rewrite F4, map_app, vsum_app. cbn [map vsum]. unfold withVec at 2. cbn [m_w m_lit vsum]. rewrite (good_vec _ _ _ GV).
      assert (EQ : map (withVec ws1) out = map (withVec ws) out). { apply map_ext_in. intros y Y. unfold withVec. rewrite Forall_forall in GO. destruct (GO y Y) as [v0 [_ Y2]]. rewrite (good_vec _ _ _ Y2). fold ws1. rewrite (good_vec ws1 _ v0); auto. apply good_app; auto. }
      rewrite EQ. specialize (E6 i). rewrite E1. cbn [stmtCost]. rewrite stmtCost_app.
      assert (WI : (if holds a (m_lit it) then vecWeight [(Z.to_nat (m_prio it), m_w it)] i else 0) = (if (m_prio it =? Z.of_nat i) && holds a (m_lit it) then m_w it else 0)).
      { cbn [vecWeight]. destruct (Nat.eqb_spec (Z.to_nat (m_prio it)) i), (Z.eqb_spec (m_prio it) (Z.of_nat i)); try lia; cbn [andb]; destruct (holds a (m_lit it)); auto. }
      lia.
Qed.

Lemma cmpLit_asym : forall x y, cmpLit x y = true -> cmpLit y x = false.
Proof.
  intros x y. unfold cmpLit, litLt. rewrite (Z.eqb_sym (m_prio y)), (Nat.eqb_sym (fst (m_lit y))). 
  destruct (Nat.eqb_spec (fst (m_lit x)) (fst (m_lit y))); cbn [negb andb]; [|rewrite !orb_false_r; intros E; apply Nat.ltb_lt in E; apply Nat.ltb_ge; lia].
  destruct (Z.eqb_spec (m_prio x) (m_prio y)); cbn [negb]; intros E; apply Z.ltb_lt in E; apply Z.ltb_ge; lia.
Qed.
Lemma cmpLit_iff : forall x y, cmpLit y x = false <-> (fst (m_lit x) < fst (m_lit y))%nat \/ (fst (m_lit x) = fst (m_lit y) /\ (m_prio x < m_prio y \/ (m_prio x = m_prio y /\ m_w y <= m_w x))).
Proof.
  intros x y. unfold cmpLit, litLt. destruct (Nat.eqb_spec (fst (m_lit y)) (fst (m_lit x))); cbn [negb andb]; [|rewrite orb_false_r, Nat.ltb_ge; lia].
  destruct (Z.eqb_spec (m_prio y) (m_prio x)); cbn [negb]; rewrite Z.ltb_ge; lia.
Qed.
Lemma sorted_keys : forall l, StronglySorted (MnProofs.le cmpLit) l -> NoDup (map (fun y => (fst (m_lit y), m_prio y)) l) -> StronglySorted keyLt l.
Proof.
  induction l as [|x l IH]; intros S N; constructor; inversion S; inversion N; subst; auto. apply Forall_forall. intros y Y.
  match goal with H : Forall _ _ |- _ => rewrite Forall_forall in H; specialize (H y Y); apply cmpLit_iff in H; rename H into Q end. unfold keyLt.
  destruct Q as [Q|[Q [R|[R _]]]]; auto. exfalso. match goal with H : ~ In _ _ |- _ => apply H end. apply in_map_iff. exists y. split; auto. congruence.
Qed.
Lemma mergeLevels_spec : forall s a lits adjust, lits_ok s (length adjust) lits ->
  exists ls adjust' ws, mergeLevels lits adjust = Ok (ls, adjust', ws) /\ length adjust' = length adjust /\
    (forall i, vsum (map (withVec ws) ls) i a + nth i adjust' 0 = nth i adjust 0 + stmtCost lits (Z.of_nat i) a) /\
    Forall (fun y => s (fst (m_lit y)) = None /\ exists v, vecOk (length adjust) v /\ good ws (m_w y) v) ls /\ NoDup (map (fun y => fst (m_lit y)) ls).
Proof.
  intros s a lits adjust [A B]. unfold mergeLevels. pose proof (sort_perm cmpLit lits) as PM.
  assert (SS : StronglySorted (MnProofs.le cmpLit) (stableSort cmpLit lits)).
  { apply (sort_sorted _ (fun _ => True)); [intros; apply cmpLit_asym; auto| |apply Forall_forall; auto]. intros x y z _ _ _. unfold MnProofs.le. rewrite !cmpLit_iff. lia. }
  assert (A' : Forall (fun y => 0 <= m_prio y < Z.of_nat (length adjust) /\ goodNew s (m_prio y) y) (stableSort cmpLit lits)).
  { apply Forall_forall. intros y Y. rewrite Forall_forall in A. apply A. apply (Permutation_in y (Permutation_sym PM)); auto. }
  destruct (merge_spec a (S (length lits)) (stableSort cmpLit lits) [] adjust []) as [ls [adj [ws [E1 [E2 [[new [-> [N1 N2]]] [E4 E5]]]]]]].
  - rewrite <- (Permutation_length PM). auto.
  - revert A'. apply Forall_impl. intros y [Y1 [Y2 [Y3 Y4]]]. split; auto.
  - apply sorted_keys; auto. apply (Permutation_NoDup (Permutation_map _ PM)). auto.
  - constructor.
  - exists new, adj, ws. cbn [app] in *. sp; auto.
    + intros i. rewrite E4. cbn [map vsum]. rewrite <- (stmtCost_perm _ _ (Z.of_nat i) a PM). lia.
    + apply Forall_forall. intros y Y. rewrite Forall_forall in E5. split; auto. destruct (N1 y Y) as [k [K1 K2]]. rewrite K2. rewrite Forall_forall in A'. destruct (A' k K1) as [_ [_ [_ Q]]]. auto.
    + clear -N2. induction new as [|y new IH]; cbn; constructor; inversion N2; subst; auto. intros X. apply in_map_iff in X. destruct X as [z [Z1 Z2]]. rewrite Forall_forall in H2. specialize (H2 z Z2). unfold varLt in H2. lia.
Qed.
