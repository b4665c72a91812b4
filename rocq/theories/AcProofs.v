(** C54: the forward search. *)
From Coq Require Import List Arith Bool Lia.
From Verif Require Import Base AcSpec AcModel.
Import ListNotations.

Lemma memN_in n l : memN n l = true <-> In n l.
Proof. unfold memN. rewrite existsb_exists. split; [intros (x & X & E); apply Nat.eqb_eq in E as ->; easy | intro H; exists n; split; [easy | apply Nat.eqb_refl]]. Qed.
Lemma memN_not n l : memN n l = false <-> ~ In n l.
Proof. rewrite <- memN_in. destruct (memN n l); split; easy. Qed.
Lemma memL_in n l : memL n l = true <-> In n l.
Proof. unfold memL. rewrite existsb_exists. split; [intros (x & X & E); apply lit_eqb_eq in E as ->; easy | intro H; exists n; split; [easy | apply lit_eqb_refl]]. Qed.
Lemma walk_app on x w y w' z : walk on x w y -> walk on y w' z -> walk on x (w ++ w') z.
Proof. induction 1 as [|a w y O W IH]; [easy|]. intro H. cbn. constructor; auto. Qed.
Lemma walk_impl (on on' : arc -> Prop) x w y : walk on x w y -> (forall a, In a w -> on a -> on' a) -> walk on' x w y.
Proof. induction 1 as [|a w y O W IH]; intro H; constructor; [apply H; [now left | easy] | apply IH; intros b B; apply H; now right]. Qed.
Lemma walk_on on x w y : walk on x w y -> forall a, In a w -> on a.
Proof. induction 1 as [|a w y O W IH]; [easy|]. intros b [<- | B]; auto. Qed.
Lemma walk_inv_app on x w w' z : walk on x (w ++ w') z -> exists y, walk on x w y /\ walk on y w' z.
Proof.
  revert x. induction w as [|a w IH]; intros x H; [exists x; split; [constructor | easy]|]. cbn in H. inversion H as [|? ? ? O W]; subst. destruct (IH _ W) as (y & Y1 & Y2). exists y. split; [now constructor | easy].
Qed.
Lemma true_pext s s' x : pext s' s -> isTrue s x = true -> isTrue s' x = true.
Proof. unfold pext, isTrue, pval. intros H. specialize (H (fst x)). destruct (s (fst x)) as [b|]; [|easy]. rewrite (H b eq_refl). easy. Qed.
Lemma false_pext s s' x : pext s' s -> isFalse s x = true -> isFalse s' x = true.
Proof. unfold pext, isFalse, pval. intros H. specialize (H (fst x)). destruct (s (fst x)) as [b|]; [|easy]. rewrite (H b eq_refl). easy. Qed.
Lemma not_both s x : isTrue s x = true -> isFalse s x = true -> False.
Proof. unfold isTrue, isFalse. destruct (pval s x) as [[]|]; easy. Qed.

Section G_.
Variable G : list arc.
(** Parents of visited nodes: [dir = true]: the arc leads from the parent to the node *)
Inductive PI (dir : bool) (s : pasg) (h : nat) : list nat -> par -> Prop :=
| PI0 pa : PI dir s h [h] pa
| PIS n v pa pa' a : PI dir s h v pa -> ~ In n v -> In (snd (pa' n)) v -> enabled G s a -> a_lit a = fst (pa' n) ->
    (if dir then a_tail a = snd (pa' n) /\ a_head a = n else a_head a = snd (pa' n) /\ a_tail a = n) ->
    (forall m, In m v -> pa' m = pa m) -> PI dir s h (n :: v) pa'.
Lemma PI_ext dir s s' h v pa : pext s' s -> PI dir s h v pa -> PI dir s' h v pa.
Proof. intros X. induction 1 as [|n v pa pa' a H IH N P [E1 E2] L D A]; [constructor | econstructor; eauto]. split; [easy | eapply true_pext; eauto]. Qed.
Lemma PI_agree dir s h v pa pa' : (forall m, In m v -> pa' m = pa m) -> PI dir s h v pa -> PI dir s h v pa'.
Proof.
  intros A H. destruct H as [|n v pa pa0 a H N P E L D A']; [constructor|]. assert (EQ := A n (or_introl eq_refl)). econstructor; [exact H | easy | rewrite EQ; easy | exact E | rewrite EQ; easy | rewrite EQ; easy|]. intros m M. rewrite A by (now right). auto.
Qed.
Lemma PI_nodup dir s h v pa : PI dir s h v pa -> NoDup v.
Proof. induction 1; constructor; auto. constructor. Qed.
Lemma PI_chain dir s h v pa : PI dir s h v pa -> forall n k, In n v -> length v <= S k -> exists w, chain k pa n h = Some (if dir then rev (map a_lit w) else map a_lit w) /\ walk (enabled G s) (if dir then h else n) w (if dir then n else h).
Proof.
  induction 1 as [pa|n v pa pa' a H IH N P E L D A]; intros m k M K.
  - destruct M as [<- | []]. exists []. split; [destruct k; cbn; rewrite Nat.eqb_refl; now destruct dir | destruct dir; constructor].
  - assert (AG : forall k m, In m v -> chain k pa' m h = chain k pa m h).
    { clear - H A. induction k as [|k IHk]; intros m M; cbn; [easy|]. destruct (m =? h) eqn:E; [easy|]. rewrite (A m M). rewrite IHk; [easy|]. clear - H M E.
      induction H as [pa|n v pa pa' a H IH N P EN L D A]; [destruct M as [<- | []]; now rewrite Nat.eqb_refl in E|]. destruct M as [<- | M]; [now right|]. right. rewrite (A m M). auto. }
    destruct M as [<- | M].
    + assert (HH : In h v) by (clear - H; induction H; [now left | now right]). assert (NH : n <> h) by (intros ->; easy). destruct k as [|k]; [cbn in K; destruct v; [easy | cbn in K; lia]|].
      destruct (IH (snd (pa' n)) k P) as (w & W1 & W2); [cbn in K; lia|]. cbn [chain]. destruct (n =? h) eqn:EQ; [now apply Nat.eqb_eq in EQ|]. rewrite AG, W1 by easy. destruct dir.
      * exists (w ++ [a]). split; [rewrite map_app, rev_app_distr; cbn; now rewrite L|]. destruct D as [D1 D2]. apply (walk_app _ _ _ (snd (pa' n))); [easy|]. rewrite <- D1, <- D2. constructor; [easy | constructor].
      * exists (a :: w). split; [cbn; now rewrite L|]. destruct D as [D1 D2]. rewrite <- D2. constructor; [easy | now rewrite D1].
    + destruct (IH m k M) as (w & W1 & W2); [cbn in K; lia|]. exists w. rewrite AG by easy. auto.
Qed.
Lemma PI_incl dir s h v pa : PI dir s h v pa -> incl v (h :: map (if dir then a_head else a_tail) G).
Proof. induction 1 as [|n v pa pa' a H IH N P [E _] L D A]; [intros x [<- | []]; now left|]. intros x [<- | X]; [|now apply IH]. right. destruct dir; destruct D as [_ <-]; now apply in_map. Qed.
Lemma PI_len dir s h v pa : PI dir s h v pa -> length v <= S (length G).
Proof. intro H. pose proof (NoDup_incl_length (PI_nodup _ _ _ _ _ H) (PI_incl _ _ _ _ _ H)) as L. cbn in L. now rewrite map_length in L. Qed.
Lemma PI_h dir s h v pa : PI dir s h v pa -> In h v.
Proof. induction 1; [now left | now right]. Qed.

Lemma chain_S k pa n stop : chain (S k) pa n stop = if n =? stop then Some [] else match chain k pa (snd (pa n)) stop with Some l => Some (fst (pa n) :: l) | None => None end.
Proof. reflexivity. Qed.
Section F.
Variables (s : pasg) (root : arc).
Let t := a_tail root.
Let h := a_head root.
Lemma scanF_spec node arcs : forall st v pa, PI true s h v pa -> In node v -> ~ In t v -> (forall a, In a arcs -> In a G /\ a_tail a = node) ->
  match scanF s t node arcs st v pa with
  | Found pa' => exists v1 pa1 a, PI true s h v1 pa1 /\ In node v1 /\ ~ In t v1 /\ enabled G s a /\ a_tail a = node /\ a_head a = t /\ pa' = setP pa1 t (a_lit a) node
  | Cont st' v' pa' => PI true s h v' pa' /\ ~ In t v' /\ incl v v' /\ (forall x, In x v' -> In x v \/ In x st') /\ incl st st' /\ (incl st v -> incl st' v') /\ length st' + length v = length st + length v' /\
      (forall a, In a arcs -> isTrue s (a_lit a) = true -> In (a_head a) v')
  end.
Proof.
  induction arcs as [|a arcs IH]; intros st v pa H N T AR; cbn [scanF].
  - split; [easy|]. split; [easy|]. split; [easy|]. split; [auto|]. split; [easy|]. split; [easy|]. split; [easy | easy].
  - destruct (AR a (or_introl eq_refl)) as [AG AT]. assert (AR' : forall a0, In a0 arcs -> In a0 G /\ a_tail a0 = node) by (intros; apply AR; now right).
    destruct (isTrue s (a_lit a)) eqn:E.
    + destruct (a_head a =? t) eqn:HT; [apply Nat.eqb_eq in HT; exists v, pa, a; repeat split; auto|]. apply Nat.eqb_neq in HT. destruct (memN (a_head a) v) eqn:MV.
      * apply memN_in in MV. specialize (IH st v pa H N T AR'). destruct (scanF s t node arcs st v pa) as [pa'|st' v' pa']; [easy|]. destruct IH as (I1 & I2 & I3 & I4 & I5 & I6 & I7 & I8). repeat (split; [easy|]). intros b [<- | B] TB; auto.
      * apply memN_not in MV. assert (H' : PI true s h (a_head a :: v) (setP pa (a_head a) (a_lit a) node)).
        { apply (PIS true s h (a_head a) v pa _ a); unfold setP; rewrite ?Nat.eqb_refl; auto; [split; auto|]. intros m M. destruct (m =? a_head a) eqn:EQ; [apply Nat.eqb_eq in EQ; congruence | easy]. }
        assert (T' : ~ In t (a_head a :: v)) by (intros [K | K]; easy). specialize (IH (a_head a :: st) (a_head a :: v) _ H' (or_intror N) T' AR').
        destruct (scanF s t node arcs _ _ _) as [pa'|st' v' pa']; [easy|]. destruct IH as (I1 & I2 & I3 & I4 & I5 & I6 & I7 & I8). split; [easy|]. split; [easy|]. split; [intros x X; apply I3; now right|].
        split; [intros x X; destruct (I4 x X) as [[<- | K] | K]; auto; right; apply I5; now left|]. split; [intros x X; apply I5; now right|]. split; [intro K; apply I6; intros x [<- | X]; [now left | right; auto]|]. split; [cbn in I7; lia|].
        intros b [<- | B] TB; [apply I3; now left | auto].
    + specialize (IH st v pa H N T AR'). destruct (scanF s t node arcs st v pa) as [pa'|st' v' pa']; [easy|]. destruct IH as (I1 & I2 & I3 & I4 & I5 & I6 & I7 & I8). repeat (split; [easy|]). intros b [<- | B] TB; [congruence | auto].
Qed.
Definition closedF (st v : list nat) : Prop := forall n, In n v -> ~ In n st -> forall a, enabled G s a -> a_tail a = n -> In (a_head a) v.
Lemma loopF_spec k : forall st v pa, PI true s h v pa -> ~ In t v -> incl st v -> closedF st v -> length st + S (length G) <= k + length v -> h <> t ->
  match loopF G k s root st v pa with
  | FConf why => exists a w, walk (enabled G s) h (a :: w) t /\ why = rev (map a_lit (a :: w))
  | FDone v' pa' => PI true s h v' pa' /\ forall x, (In x v' <-> exists w, walk (enabled G s) h w x) /\ ~ In t v'
  | FErr => False
  end.
Proof.
  induction k as [|k IH]; intros st v pa H T I C L NE; destruct st as [|node st]; cbn [loopF].
  1, 3: split; [easy|]; intro x; split; [|easy]; split; [intro X; destruct (PI_chain _ _ _ _ _ H x (length v) X) as (w & _ & W); [lia | now exists w]|];
    intros (w & W); pose proof (PI_h _ _ _ _ _ H) as HV; revert HV W; generalize h as y; induction w as [|a w IHw]; intros y HV W; inversion W; subst; [easy|]; eapply IHw; [|eassumption]; eapply C; eauto.
  - pose proof (PI_len _ _ _ _ _ H). cbn in L. lia.
  - assert (NV : In node v) by (apply I; now left). assert (AR : forall a, In a (fwd G node) -> In a G /\ a_tail a = node) by (intros a A; apply filter_In in A as [A1 A2]; apply Nat.eqb_eq in A2; auto).
    pose proof (scanF_spec node (fwd G node) st v pa H NV T AR) as S. change (a_tail root) with t. destruct (scanF s t node (fwd G node) st v pa) as [pa'|st' v' pa'] eqn:SC.
    + destruct S as (v1 & pa1 & a & P1 & N1 & T1 & EA & A1 & A2 & ->). assert (TH : t =? a_head root = false) by (apply Nat.eqb_neq; intro K; apply NE; unfold h; now rewrite K). unfold size. rewrite chain_S, TH. replace (snd (setP pa1 t (a_lit a) node t)) with node by (unfold setP; now rewrite Nat.eqb_refl). replace (fst (setP pa1 t (a_lit a) node t)) with (a_lit a) by (unfold setP; now rewrite Nat.eqb_refl).
      assert (P2 : PI true s h v1 (setP pa1 t (a_lit a) node)) by (apply (PI_agree true s h v1 pa1); [|easy]; intros m M; unfold setP; destruct (m =? t) eqn:E; [apply Nat.eqb_eq in E; rewrite E in M; contradiction | easy]).
      destruct (PI_chain true s h v1 _ P2 node (S (length G)) N1) as (w & W1 & W2); [pose proof (PI_len _ _ _ _ _ P1); lia|].
      change (a_head root) with h. rewrite W1.
      assert (WW : walk (enabled G s) h (w ++ [a]) t) by (apply (walk_app _ _ _ node); [easy|]; rewrite <- A1, <- A2; constructor; [easy | constructor]). assert (RR : a_lit a :: rev (map a_lit w) = rev (map a_lit (w ++ [a]))) by (rewrite map_app, rev_app_distr; reflexivity). rewrite RR. destruct w as [|b w]; [exists a, [] | exists b, (w ++ [a])]; split; easy.
    + destruct S as (S1 & S2 & S3 & S4 & S5 & S6 & S7 & S8). apply IH; auto.
      * apply S6. intros x X. apply I. now right.
      * intros n N NST a EA AT. destruct (S4 n N) as [K | K]; [|easy]. destruct (Nat.eq_dec n node) as [-> | ND]; [apply S8; [apply filter_In; split; [apply EA | now apply Nat.eqb_eq] | apply EA]|].
        apply S3. apply (C n K); [|easy | easy]. intros [E | E]; [now apply ND | apply NST, S5, E].
      * cbn in L. lia.
Qed.
Lemma forward_spec pa : h <> t -> match dfsForward G s root pa with
  | FConf why => exists a w, walk (enabled G s) h (a :: w) t /\ why = rev (map a_lit (a :: w))
  | FDone v' pa' => PI true s h v' pa' /\ forall x, (In x v' <-> exists w, walk (enabled G s) h w x) /\ ~ In t v'
  | FErr => False
  end.
Proof.
  intro NE. unfold dfsForward. fold h. apply loopF_spec; auto; [constructor | intros [K | []]; easy | easy | intros n N NS; now destruct NS | cbn; unfold size; lia].
Qed.
End F.
End G_.
