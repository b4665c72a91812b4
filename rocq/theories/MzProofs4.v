(** Implication sets, forcing literals, extensions of the assignment. *)
From Coq Require Import List Bool Arith ZArith Lia Permutation Sorted.
From Verif Require Import Base MnModel MnSpec MnProofs MnProofs2 MnProofs3 MnProofs4 MnProofs5 MnProofs6 MzModel MzProofs MzProofs2 MzProofs3.
Import ListNotations.
Open Scope Z_scope.

Section P.
Variable d : data.
Hypothesis DO : DOk d.
Notation n := (numRules d).
Notation len := (length (lits d)).

(** * Implication sets *)
Definition ImpOk (w : Z) (W : nat -> Z) (lim : nat) : Prop := forall lhs rhs lev, (lev <= lim)%nat -> eqUpTo lev lhs rhs ->
  (fst (impW d lhs w rhs lev) = true <-> lexGt n (fun j => nth j lhs 0 + W j) (fun j => nth j rhs 0)) /\ (snd (impW d lhs w rhs lev) <= lim)%nat /\ eqUpTo (snd (impW d lhs w rhs lev)) lhs rhs.
Lemma imp_at : forall i, (i < len)%nat -> ImpOk (wAt d i) (Wt d i) (levelAt d i).
Proof. intros i L lhs rhs lev A B. apply (d_imp d DO); auto. Qed.
Lemma imp_min : ImpOk (minW d) (fun _ => 0) (n - 1).
Proof.
  intros lhs rhs lev A B. pose proof (d_pos d DO). destruct (d_min d DO lhs rhs lev ltac:(lia) B) as [C [D E]]. sp; auto; [|lia]. rewrite C. split; apply lex_ext; intros; lia.
Qed.
Record Cis (e : env) (st : list (nat * bool)) (W : nat -> Z) (opt : list Z) (r : nat * nat) : Prop := {
  cs_len : (snd r <= length st)%nat;
  cs_lev : forall u, In u (map fst (bottom (snd r) st)) -> (lv d e u <= fst r)%nat;
  cs_gt : lexGt n (fun j => sumI d (map fst (bottom (snd r) st)) j + W j) (fun j => nth j opt 0);
  cs_min : forall k, (v_min e <= k)%nat -> lexGt n (fun j => sumI d (filter (fun i => Nat.leb (lv d e i) k) (map fst st)) j + W j) (fun j => nth j opt 0) -> (fst r <= k)%nat;
  cs_low : (v_min e <= fst r)%nat;
  cs_top : (fst r <= v_min e)%nat \/ exists u, In u (map fst (bottom (snd r) st)) /\ (fst r <= lv d e u)%nat }.
Lemma bottom_all : forall (A : Type) (st : list A), bottom (length st) st = st.
Proof. intros. unfold bottom. rewrite Nat.sub_diag. auto. Qed.
Lemma filter_all : forall (A : Type) (f : A -> bool) l, (forall x, In x l -> f x = true) -> filter f l = l.
Proof. induction l as [|x l IH]; intros H; auto. cbn. rewrite (H x) by (cbn; auto). f_equal. apply IH. intros. apply H. cbn; auto. Qed.
Lemma cis_spec : forall e b w W lim opt st temp lev ps us, ImpOk w W lim -> (lim < n)%nat -> UOk d e b st ps us -> NoDup (map fst st) -> (forall i, In i (map fst st) -> (i < len)%nat) ->
  length temp = n -> (forall j, nth j temp 0 = sumI d (map fst st) j) -> (lev <= lim)%nat -> eqUpTo lev temp opt -> lexGt n (fun j => sumI d (map fst st) j + W j) (fun j => nth j opt 0) ->
  Cis e st W opt (cisLoop d e st temp w opt lev).
Proof.
  intros e b w W lim opt st. induction st as [|[i nd] st IH]; intros temp lev ps us IM LM U ND RG LT TS LL EQ GT; cbn [cisLoop].
  - constructor; cbn [fst snd bottom topLev]; auto; try lia. intros u X. destruct X.
  - cbn [map fst] in *. inversion ND as [|? ? N1 N2]; subst. assert (IL : (i < len)%nat) by (apply RG; cbn; auto).
    destruct (d_sub d DO i temp lev IL LT) as [S1 [S2 [S3 S4]]]. destruct (subW d temp (wAt d i) lev) as [temp' lev'] eqn:SW. cbn [fst snd] in *. specialize (S4 ltac:(lia)).
    assert (TS' : forall j, nth j temp' 0 = sumI d (map fst st) j) by (intros j; rewrite S2, TS; cbn [sumI]; lia).
    assert (EQ' : eqUpTo lev' temp' opt) by (intros j J; rewrite S2, (EQ j) by lia; rewrite (d_low d DO i j IL) by lia; lia).
    destruct (IM temp' opt lev' ltac:(lia) EQ') as [I1 [I2 I3]]. destruct (impW d temp' w opt lev') as [bb lev''] eqn:IW. cbn [fst snd] in *.
    assert (UT : exists ps' us', UOk d e b st ps' us' /\ (topLev d e st <= lv d e i)%nat).
    { cbn [UOk] in U. destruct nd; [destruct ps as [|p ps]; [destruct U|]; destruct us as [|L us]; [destruct U|]; destruct U as [U1 [U2 [_ [_ U3]]]]; exists ps, us; split; auto; lia|destruct U as [U1 U2]; exists ps, us; split; auto; lia]. }
    destruct UT as [ps' [us' [U' TL]]].
    assert (GE : lexGt n (fun j => nth j temp' 0 + W j) (fun j => nth j opt 0) <-> lexGt n (fun j => sumI d (map fst st) j + W j) (fun j => nth j opt 0)).
    { split; apply lex_ext; intros j J; rewrite TS'; lia. }
    assert (LI : forall u, In u (i :: map fst st) -> (lv d e u <= lv d e i)%nat).
    { intros u [<- |X]; auto. pose proof (uok_top d e b st ps' us' u U' X). lia. }
    destruct bb; cbn [negb].
    + assert (GT' : lexGt n (fun j => sumI d (map fst st) j + W j) (fun j => nth j opt 0)) by (apply GE, I1; auto).
      specialize (IH temp' lev'' ps' us' IM LM U' N2 ltac:(intros; apply RG; cbn; auto) S1 TS' I2 I3 GT').
      set (r := cisLoop d e st temp' w opt lev'') in *.
      assert (BS : bottom (snd r) ((i, nd) :: st) = bottom (snd r) st) by (apply (bottom_suffix _ (snd r) [(i, nd)] st), (cs_len _ _ _ _ _ IH)).
      constructor; try rewrite BS.
      * pose proof (cs_len _ _ _ _ _ IH). cbn [length]. lia.
      * apply (cs_lev _ _ _ _ _ IH).
      * apply (cs_gt _ _ _ _ _ IH).
      * intros k K G. apply (cs_min _ _ _ _ _ IH k K). cbn [map fst filter] in G. destruct (Nat.leb_spec (lv d e i) k) as [Q|Q]; [|exact G].
        rewrite filter_all; auto. intros x X. apply Nat.leb_le. specialize (LI x ltac:(cbn; auto)). lia.
      * apply (cs_low _ _ _ _ _ IH).
      * apply (cs_top _ _ _ _ _ IH).
    + change (length ((i, nd) :: st)) with (length ((i, nd) :: st)) in *. assert (NG : ~ lexGt n (fun j => sumI d (map fst st) j + W j) (fun j => nth j opt 0)) by (intros X; apply GE, I1 in X; discriminate).
      constructor; cbn [fst snd]; try rewrite bottom_all; auto; try lia.
      * intros u X. specialize (LI u X). fold (lv d e i). lia.
      * intros k K G. destruct (Nat.le_gt_cases (lv d e i) k) as [Q|Q]; [unfold lv in Q; lia|]. exfalso. apply NG. cbn [map fst filter] in G. rewrite (proj2 (Nat.leb_gt _ _) Q) in G.
        eapply sub_gt; [exact DO| | | | |exact G]; auto.
        -- apply NoDup_filter; auto.
        -- intros x X. apply filter_In in X. apply X.
        -- intros x X. apply RG. cbn; auto.
      * destruct (Nat.le_gt_cases (lv d e i) (v_min e)) as [Q|Q]; [left; unfold lv in Q; lia|right]. exists i. split; [cbn; auto|]. unfold lv in *. lia.
Qed.
Lemma comp_spec : forall e b c w W lim, CI d e c (v_uw e) b -> ImpOk w W lim -> (lim < n)%nat -> (c_act c <= lim)%nat -> lexGt n (fun j => sumI d (idxs c) j + W j) (fun j => nth j (c_opt c) 0) ->
  Cis e (c_undo c) W (c_opt c) (computeImplicationSet d e c w).
Proof.
  intros e b c w W lim I IM LM AC GT. unfold computeImplicationSet. eapply cis_spec; [exact IM|exact LM|exact (i_uok _ _ _ _ _ I)|exact (i_nd _ _ _ _ _ I)| |exact (i_slen _ _ _ _ _ I)|exact (i_sum _ _ _ _ _ I)|exact AC|exact (i_eq _ _ _ _ _ I)|exact GT].
  intros i X. apply (i_in _ _ _ _ _ I i X).
Qed.
Lemma cis_ext : forall e st W W' opt r, (forall j, W j = W' j) -> Cis e st W opt r -> Cis e st W' opt r.
Proof.
  intros e st W W' opt r E C. constructor.
  - apply (cs_len _ _ _ _ _ C).
  - apply (cs_lev _ _ _ _ _ C).
  - eapply gt_ext; [|apply (cs_gt _ _ _ _ _ C)]. intros j _. cbn beta. rewrite E. auto.
  - intros k K G. apply (cs_min _ _ _ _ _ C k K). eapply gt_ext; [|exact G]. intros j _. cbn beta. rewrite E. auto.
  - apply (cs_low _ _ _ _ _ C).
  - apply (cs_top _ _ _ _ _ C).
Qed.

(** * Extending the assignment *)
Record Ext (e e' : env) : Prop := {
  x_dl : v_dl e' = v_dl e; x_uw : v_uw e' = v_uw e; x_min : v_min e' = v_min e; x_bt : v_bt e' = v_bt e;
  x_old : forall v m, v_asn e v = Some m -> exists m', v_asn e' v = Some m' /\ e_val m' = e_val m /\ e_lev m' = e_lev m /\ (e_eff m' <= e_eff m)%nat }.
Lemma ext_refl : forall e, Ext e e.
Proof. intros. constructor; auto. intros v m A. exists m. auto. Qed.
Lemma ext_false : forall e e' x k, Ext e e' -> falseAt e x k -> falseAt e' x k.
Proof. intros e e' x k X [m [A [B C]]]. destruct (x_old _ _ X _ _ A) as [m' [A' [B' [C' D']]]]. exists m'. sp; auto; [congruence|lia]. Qed.
Lemma ext_true : forall e e' x, Ext e e' -> valOf e x -> valOf e' x /\ levelOf e' (fst x) = levelOf e (fst x).
Proof. intros e e' x X V. destruct (val_ent _ _ V) as [m [A B]]. destruct (x_old _ _ X _ _ A) as [m' [A' [B' [C' D']]]]. split; [apply ent_val with m'; auto; congruence|]. unfold levelOf. rewrite A, A'. auto. Qed.
Lemma ext_lv : forall e e' i, Ext e e' -> valOf e (litAt d i) -> lv d e' i = lv d e i.
Proof. intros. apply (ext_true e e' (litAt d i)); auto. Qed.
Lemma ext_top : forall e e' st, Ext e e' -> (forall i, In i (map fst st) -> valOf e (litAt d i)) -> topLev d e' st = topLev d e st.
Proof. intros e e' [|[i nd] st] X V; auto. cbn [topLev]. apply ext_lv; auto. apply V. cbn; auto. Qed.
Lemma ext_uok : forall e e' b st ps us, Ext e e' -> (forall i, In i (map fst st) -> valOf e (litAt d i)) -> UOk d e b st ps us -> UOk d e' b st ps us.
Proof.
  intros e e' b st. induction st as [|[i nd] st IH]; intros ps us X V U; auto. cbn [UOk map fst] in *.
  assert (V' : forall u, In u (map fst st) -> valOf e (litAt d u)) by (intros u Y; apply V; cbn; auto).
  assert (LI : lv d e' i = lv d e i) by (apply ext_lv; auto; apply V; cbn; auto). pose proof (ext_top e e' st X V') as TE.
  destruct nd.
  - destruct ps as [|p ps]; [destruct U|]. destruct us as [|L us]; [destruct U|]. destruct U as [U1 [U2 [U3 [U4 U5]]]]. rewrite LI, TE. sp; auto.
    intros j J JL. destruct (U4 j J JL) as [Q|Q]; auto. right. rewrite TE. apply (ext_false e e'); auto.
  - destruct U as [U1 U2]. rewrite LI, TE. split; auto.
Qed.
Lemma ext_ci : forall e e' c uw b, Ext e e' -> CI d e c uw b -> CI d e' c uw b.
Proof.
  intros e e' c uw b X I. assert (V : forall i, In i (map fst (c_undo c)) -> valOf e (litAt d i)) by (intros i Y; apply (i_in _ _ _ _ _ I i Y)).
  constructor; [apply (i_nd _ _ _ _ _ I)|apply (i_seen _ _ _ _ _ I)| | |apply (i_olen _ _ _ _ _ I)|apply (i_slen _ _ _ _ _ I)|apply (i_sum _ _ _ _ _ I)|apply (i_act _ _ _ _ _ I)|apply (i_eq _ _ _ _ _ I)|apply (i_pos _ _ _ _ _ I)|].
  - intros i Y. split; [apply (i_in _ _ _ _ _ I i Y)|]. apply (ext_true e e'); [auto|apply V, Y].
  - apply (ext_uok e e'); auto. apply (i_uok _ _ _ _ _ I).
  - intros j J. destruct (i_posok _ _ _ _ _ I j J) as [Q|Q]; auto. right. rewrite (ext_top e e'); auto. apply (ext_false e e'); auto.
Qed.
Lemma ext_inv : forall e e' c b, Ext e e' -> Inv d e c b ->
  (forall v m', v_asn e' v = Some m' -> v_asn e v = Some m' \/ (e_lev m' <= v_dl e /\ e_eff m' <= e_lev m')%nat /\ forall stop B, e_why m' = Some (stop, B) -> Why d e c v m' stop B) -> Inv d e' c b.
Proof.
  intros e e' c b X I N. pose proof (n_ci _ _ _ _ I) as C. constructor.
  - rewrite (x_uw _ _ X). apply (ext_ci e e'); auto.
  - intros v m' A. rewrite (x_dl _ _ X). destruct (N v m' A) as [Q|[Q _]]; auto. apply (n_lev _ _ _ _ I v m' Q).
  - intros v m' stop B A W. assert (WH : Why d e c v m' stop B) by (destruct (N v m' A) as [Q|[_ Q]]; auto; apply (n_why _ _ _ _ I v m'); auto).
    destruct WH as [i [I1 [I2 [I3 [I4 [I5 I6]]]]]]. exists i. sp; auto. intros u U. rewrite (ext_lv e e'); auto. apply (i_in _ _ _ _ _ C u). unfold idxs. apply in_map_iff in U. destruct U as [z [Z1 Z2]]. apply in_map_iff. exists z. split; auto. eapply bottom_incl. exact Z2.
  - rewrite (x_dl _ _ X). apply (n_base _ _ _ _ I).
Qed.
Lemma ext_sk : forall e e' c b k, Ext e e' -> Inv d e c b -> forall j, Sk d e' c k j = Sk d e c k j.
Proof. intros e e' c b k X I j. unfold Sk. f_equal. apply filter_ext_in. intros i Y. rewrite (ext_lv e e'); auto. apply (i_in _ _ _ _ _ (n_ci _ _ _ _ I) i Y). Qed.
Lemma ext_tight : forall e e' c b k i, Ext e e' -> Inv d e c b -> TightI d e c k i -> TightI d e' c k i.
Proof.
  intros e e' c b k i X I T H1 H2. apply (ext_false e e'); auto. apply T.
  - intros Y. specialize (H1 Y). rewrite (ext_lv e e') in H1; auto. apply (i_in _ _ _ _ _ (n_ci _ _ _ _ I) i Y).
  - eapply gt_ext; [|exact H2]. intros j _. cbn beta. rewrite (ext_sk e e' c b); auto.
Qed.
Lemma ext_cis : forall e e' st W opt r, Ext e e' -> (forall i, In i (map fst st) -> valOf e (litAt d i)) -> Cis e st W opt r -> Cis e' st W opt r.
Proof.
  intros e e' st W opt r X V C. assert (LV : forall i, In i (map fst st) -> lv d e' i = lv d e i) by (intros; apply ext_lv; auto).
  constructor.
  - apply (cs_len _ _ _ _ _ C).
  - intros u U. rewrite LV; [apply (cs_lev _ _ _ _ _ C u U)|]. apply in_map_iff in U. destruct U as [z [Z1 Z2]]. apply in_map_iff. exists z. split; auto. eapply bottom_incl. exact Z2.
  - apply (cs_gt _ _ _ _ _ C).
  - intros k K G. apply (cs_min _ _ _ _ _ C k); [rewrite (x_min _ _ X) in K; auto|]. eapply gt_ext; [|exact G]. intros j _. cbn beta. f_equal. f_equal. apply filter_ext_in. intros i Y. rewrite LV; auto.
  - rewrite (x_min _ _ X). apply (cs_low _ _ _ _ _ C).
  - rewrite (x_min _ _ X). destruct (cs_top _ _ _ _ _ C) as [Q|[u [U Q]]]; auto. right. exists u. split; auto. rewrite LV; auto. apply in_map_iff in U. destruct U as [z [Z1 Z2]]. apply in_map_iff. exists z. split; auto. eapply bottom_incl. exact Z2.
Qed.
(** * force *)
Lemma force_spec : forall e c b i il stop e' ok, Inv d e c b -> (i < len)%nat -> (il <= v_dl e)%nat -> (stop <= length (c_undo c))%nat ->
  (forall u, In u (map fst (bottom stop (c_undo c))) -> (lv d e u <= il)%nat) -> lexGt n (fun j => sumI d (map fst (bottom stop (c_undo c))) j + Wt d i j) (fun j => nth j (c_opt c) 0) ->
  force e (neg (litAt d i)) il stop (c_opt c) = (ok, e') ->
  if ok then Ext e e' /\ Inv d e' c b /\ falseAt e' (litAt d i) il else e' = e /\ valOf e (litAt d i).
Proof.
  intros e c b i il stop e' ok I L IL SL LV GT F. unfold force in F. unfold neg in F. cbn [fst snd] in F. rewrite negb_involutive in F. set (x := litAt d i) in *.
  assert (WH : forall lev, (il <= lev)%nat -> Why d e c (fst x) (En (snd x) lev il (Some (stop, c_opt c))) stop (c_opt c)).
  { intros lev Q. exists i. sp; auto. }
  destruct (v_asn e (fst x)) as [m|] eqn:A.
  - destruct (Bool.eqb (e_val m) (snd x)) eqn:EV.
    + apply Bool.eqb_prop in EV. pose proof (n_lev _ _ _ _ I _ _ A) as LE. destruct (Nat.eqb_spec il (v_dl e)); cbn [orb] in F; [inversion F; subst; sp; auto; [apply ext_refl|exists m; sp; auto; lia]|].
      destruct (Nat.leb_spec (e_lev m) il); cbn [orb] in F; [inversion F; subst; sp; auto; [apply ext_refl|exists m; sp; auto; lia]|].
      destruct (Nat.leb_spec (e_eff m) il) as [Q|Q]; [inversion F; subst; sp; auto; [apply ext_refl|exists m; sp; auto; lia]|].
      inversion F; subst. clear F. rewrite EV in *. set (m' := En (snd x) (e_lev m) il (Some (stop, c_opt c))).
      assert (X : Ext e (Ev (upd (v_asn e) (fst x) (Some m')) (v_dl e) (v_uw e) (v_min e) (v_bt e))).
      { constructor; cbn [v_dl v_uw v_min v_bt v_asn]; auto. intros v m0 A0. unfold upd. destruct (Nat.eqb_spec v (fst x)) as [->|NE]; [|exists m0; auto]. assert (m0 = m) by congruence. subst m0. exists m'. cbn. sp; auto. lia. }
      sp; auto.
      * apply (ext_inv e); auto. intros v m0 A0. cbn [v_asn] in A0. unfold upd in A0. destruct (Nat.eqb_spec v (fst x)) as [->|NE]; auto. right. inversion A0; subst m0. cbn [e_lev e_eff e_why m']. split; [lia|]. intros s0 B0 E0. inversion E0; subst. apply WH. lia.
      * exists m'. unfold upd. cbn [v_asn]. rewrite Nat.eqb_refl. cbn. sp; auto.
    + inversion F; subst. split; auto. apply ent_val with m; auto. destruct (e_val m), (snd x); auto; discriminate.
  - inversion F; subst. clear F. set (m' := En (snd x) (v_dl e) il (Some (stop, c_opt c))).
    assert (X : Ext e (Ev (upd (v_asn e) (fst x) (Some m')) (v_dl e) (v_uw e) (v_min e) (v_bt e))).
    { constructor; cbn [v_dl v_uw v_min v_bt v_asn]; auto. intros v m0 A0. unfold upd. destruct (Nat.eqb_spec v (fst x)) as [->|NE]; [congruence|exists m0; auto]. }
    sp; auto.
    * apply (ext_inv e); auto. intros v m0 A0. cbn [v_asn] in A0. unfold upd in A0. destruct (Nat.eqb_spec v (fst x)) as [->|NE]; auto. right. inversion A0; subst m0. cbn [e_lev e_eff e_why m']. split; [lia|]. intros s0 B0 E0. inversion E0; subst. apply WH. lia.
    * exists m'. unfold upd. cbn [v_asn]. rewrite Nat.eqb_refl. cbn. sp; auto.
Qed.
End P.
