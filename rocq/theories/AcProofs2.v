(** C54: the backward search. *)
From Coq Require Import List Arith Bool Lia.
From Verif Require Import Base AcSpec AcModel AcProofs.
Import ListNotations.

Lemma pext_refl s : pext s s.
Proof. now intros v b. Qed.
Lemma pext_trans s1 s2 s3 : pext s2 s1 -> pext s3 s2 -> pext s3 s1.
Proof. intros A B v b E. now apply B, A. Qed.
Lemma set_ext s x : isTrue s x = false -> isFalse s x = false -> pext (set s (neg x)) s /\ isFalse (set s (neg x)) x = true.
Proof.
  unfold isTrue, isFalse, pval, set, pext. cbn [fst snd neg]. intros T F. split.
  - intros v b E. destruct (v =? fst x) eqn:V; [|easy]. apply Nat.eqb_eq in V as ->. rewrite E in *. cbn in *. destruct (xorb b (snd x)); easy.
  - rewrite Nat.eqb_refl. cbn. now destruct (snd x).
Qed.
Section G_.
Variables (G : list arc) (top : lit -> bool) (prop : pasg -> option pasg).
Hypothesis PR : forall s1 s2, prop s1 = Some s2 -> pext s2 s1.
Lemma addL_all l : forall w, (forall y, In y w -> In y (fold_left (addL top) l w)) /\ (forall y, In y l -> top y = true \/ In y (fold_left (addL top) l w)) /\ (forall y, In y (fold_left (addL top) l w) -> In y w \/ In y l).
Proof.
  induction l as [|x l IH]; intro w; cbn [fold_left]; [split; [easy|]; split; [easy | auto]|]. destruct (IH (addL top w x)) as (I1 & I2 & I3).
  assert (A : (forall y, In y w -> In y (addL top w x)) /\ (top x = true \/ In x (addL top w x)) /\ forall y, In y (addL top w x) -> In y w \/ y = x).
  { unfold addL. destruct (top x) eqn:T; cbn [orb]; [split; auto|]. destruct (memL x w) eqn:M; [apply memL_in in M; split; auto|]. split; [intros y Y; apply in_app_iff; now left|]. split; [right; apply in_app_iff; right; now left|]. intros y Y. apply in_app_iff in Y as [Y | [<- | []]]; auto. }
  destruct A as (A1 & A2 & A3). split; [auto|]. split.
  - intros y [<- | Y]; [destruct A2; auto | auto].
  - intros y Y. destruct (I3 y Y) as [K | K]; [destruct (A3 y K) as [K' | ->]; [auto | right; now left] | right; now right].
Qed.
Definition goodB (s : pasg) (e : entryB) : Prop := let '(x, why, sx) := e in pext sx s /\ isFalse sx x = false /\ (forall y, In y why -> isTrue sx y = true) /\ explains G top x why.
Lemma goodB_ext s s' e : pext s' s -> goodB s' e -> goodB s e.
Proof. destruct e as [[x why] sx]. intros X (A & B). split; [eapply pext_trans; eauto | easy]. Qed.
Definition failW (s : pasg) (log log' : list entryB) : Prop := exists nl x why sx, log' = log ++ nl ++ [(x, why, sx)] /\ Forall (goodB s) (nl ++ [(x, why, sx)]) /\ (isTrue sx x = true \/ prop (set sx (neg x)) = None).
Lemma failW_app s s' log nl log' : pext s' s -> Forall (goodB s) nl -> failW s' (log ++ nl) log' -> failW s log log'.
Proof.
  intros X F (n & x & why & sx & -> & FN & E). exists (nl ++ n), x, why, sx. split; [now rewrite <- !app_assoc|]. split; [|easy]. rewrite <- app_assoc. apply Forall_app. split; [easy|]. eapply Forall_impl; [|exact FN]. intro e. now apply goodB_ext.
Qed.
Lemma failW_one s log x why : goodB s (x, why, s) -> isTrue s x = true \/ prop (set s (neg x)) = None -> failW s log (log ++ [(x, why, s)]).
Proof. intros A B. exists [], x, why, s. split; [easy|]. split; [constructor; [easy | constructor] | easy]. Qed.
Definition queued (s s' : pasg) (nt : list arc) : Prop := (forall a, In a G -> isTrue s' (a_lit a) = true -> isTrue s (a_lit a) = true \/ In a nt) /\ (forall a, In a nt -> enabled G s' a).
Lemma queued_refl s : queued s s [].
Proof. split; [auto | easy]. Qed.
Lemma queued_trans s1 s2 s3 a b : pext s3 s2 -> queued s1 s2 a -> queued s2 s3 b -> queued s1 s3 (a ++ b).
Proof.
  intros X [A1 A2] [B1 B2]. split.
  - intros x I T. rewrite in_app_iff. destruct (B1 x I T) as [K | K]; [|auto]. destruct (A1 x I K); auto.
  - intros x I. apply in_app_iff in I as [I | I]; [|now apply B2]. destruct (A2 x I). split; [easy | eapply true_pext; eauto].
Qed.
Lemma newly_queued s s' : queued s s' (newly G s s').
Proof.
  unfold newly. split.
  - intros a I T. destruct (isTrue s (a_lit a)) eqn:E; [auto|]. right. apply filter_In. now rewrite T, E.
  - intros a I. apply filter_In in I as [I1 I2]. apply andb_true_iff in I2 as [I2 _]. now split.
Qed.

Section B.
Variables (root : arc) (fv : list nat).
Let t := a_tail root.
Let h := a_head root.
Hypothesis RG : In root G.
Definition IB (s : pasg) (v : list nat) (pa : par) : Prop := PI G true s h fv pa /\ PI G false s t v pa /\ (forall x, In x v -> ~ In x fv) /\ isTrue s (a_lit root) = true.
Lemma IB_ext s s' v pa : pext s' s -> IB s v pa -> IB s' v pa.
Proof. intros X (A & B & C & D). split; [eapply PI_ext; eauto|]. split; [eapply PI_ext; eauto|]. split; [easy | eapply true_pext; eauto]. Qed.
Lemma scanB_spec node arcs : forall s todo log st v pa, IB s v pa -> In node v -> (forall a, In a arcs -> In a G /\ a_head a = node) ->
  match scanB G top prop root fv node arcs (s, todo, log) st v pa with
  | BErr => False
  | BFail (s', todo', log') => failW s log log'
  | BCont (s', todo', log') st' v' pa' => IB s' v' pa' /\ pext s' s /\ (exists nt, todo' = todo ++ nt /\ queued s s' nt) /\ (exists nl, log' = log ++ nl /\ Forall (goodB s) nl) /\
      incl v v' /\ (forall x, In x v' -> In x v \/ In x st') /\ incl st st' /\ (incl st v -> incl st' v') /\ length st' + length v = length st + length v' /\
      (forall a, In a arcs -> (In (a_tail a) fv -> isFalse s' (a_lit a) = true) /\ (isTrue s (a_lit a) = true -> ~ In (a_tail a) fv -> In (a_tail a) v'))
  end.
Proof.
  induction arcs as [|a arcs IH]; intros s todo log st v pa H N AR; cbn [scanB].
  - split; [easy|]. split; [apply pext_refl|]. split; [exists []; split; [now rewrite app_nil_r | apply queued_refl]|]. split; [exists []; split; [now rewrite app_nil_r | constructor]|].
    split; [easy|]. split; [auto|]. split; [easy|]. split; [easy|]. split; [easy | easy].
  - destruct (AR a (or_introl eq_refl)) as [AG AH]. assert (AR' : forall a0, In a0 arcs -> In a0 G /\ a_head a0 = node) by (intros; apply AR; now right).
    assert (SKIP : ((In (a_tail a) fv -> isFalse s (a_lit a) = true) /\ (isTrue s (a_lit a) = true -> ~ In (a_tail a) fv -> In (a_tail a) v)) ->
      match scanB G top prop root fv node arcs (s, todo, log) st v pa with
      | BErr => False
      | BFail (s', todo', log') => failW s log log'
      | BCont (s', todo', log') st' v' pa' => IB s' v' pa' /\ pext s' s /\ (exists nt, todo' = todo ++ nt /\ queued s s' nt) /\ (exists nl, log' = log ++ nl /\ Forall (goodB s) nl) /\
          incl v v' /\ (forall x, In x v' -> In x v \/ In x st') /\ incl st st' /\ (incl st v -> incl st' v') /\ length st' + length v = length st + length v' /\
          (forall b, In b (a :: arcs) -> (In (a_tail b) fv -> isFalse s' (a_lit b) = true) /\ (isTrue s (a_lit b) = true -> ~ In (a_tail b) fv -> In (a_tail b) v'))
      end).
    { intros [K1 K2]. specialize (IH s todo log st v pa H N AR'). destruct (scanB G top prop root fv node arcs (s, todo, log) st v pa) as [w|[[s' todo'] log'] st' v' pa'|]; [easy | | easy].
      destruct IH as (I1 & I2 & I3 & I4 & I5 & I6 & I7 & I8 & I9 & I10). repeat (split; [easy|]). intros b [<- | B]; [|auto]. split; [intro F; eapply false_pext; eauto | intros T NF; auto]. }
    destruct H as (HF & HB & HD & HR). assert (H : IB s v pa) by (split; auto).
    destruct (isFalse s (a_lit a)) eqn:F; cbn [orb]; [apply SKIP; split; [easy | intro T; destruct (not_both s (a_lit a) T F)]|].
    destruct (memN (a_tail a) v) eqn:MV; [apply memN_in in MV; apply SKIP; split; [intro K; now apply HD in MV | easy]|]. apply memN_not in MV.
    destruct (memN (a_tail a) fv) eqn:MF.
    + apply memN_in in MF. change (a_head root) with h. change (a_tail root) with t.
      destruct (PI_chain G true s h fv pa HF (a_tail a) (size G) MF) as (w1 & C1 & W1); [pose proof (PI_len _ _ _ _ _ _ HF); unfold size; lia|].
      destruct (PI_chain G false s t v pa HB node (size G) N) as (w2 & C2 & W2); [pose proof (PI_len _ _ _ _ _ _ HB); unfold size; lia|]. rewrite C1, C2.
      set (why := fold_left (addL top) (map a_lit w2) (fold_left (addL top) (rev (map a_lit w1)) (addL top [] (a_lit root)))).
      assert (GE : goodB s (a_lit a, why, s)).
      { split; [apply pext_refl|]. split; [easy|]. destruct (addL_all (map a_lit w2) (fold_left (addL top) (rev (map a_lit w1)) (addL top [] (a_lit root)))) as (A1 & A2 & A3).
        destruct (addL_all (rev (map a_lit w1)) (addL top [] (a_lit root))) as (B1 & B2 & B3). destruct (addL_all [a_lit root] []) as (_ & D2 & D3). cbn [fold_left] in D2, D3.
        fold why in A1, A2, A3. split.
        - assert (EN : forall w x y, walk (enabled G s) x w y -> forall l, In l (map a_lit w) -> isTrue s l = true) by (intros w x y W l L; apply in_map_iff in L as (b & <- & L); apply (walk_on _ _ _ _ W b L)).
          intros y Y. destruct (A3 y Y) as [K | K]; [|exact (EN _ _ _ W2 y K)]. destruct (B3 y K) as [K' | K']; [|apply in_rev in K'; exact (EN _ _ _ W1 y K')]. destruct (D3 y K') as [[] | [<- | []]]. easy.
        - exists t, root, (w1 ++ a :: w2). assert (TOG : forall x w y, walk (enabled G s) x w y -> walk (fun b => In b G) x w y) by (intros x w y W; eapply walk_impl; [exact W | intros b _ [B _]; exact B]). split.
          + apply (WS (fun b => In b G) root); [easy|]. apply (walk_app _ _ _ (a_tail a)); [now apply TOG|]. constructor; [easy|]. rewrite AH. now apply TOG.
          + intros b [<- | B]; [destruct (D2 (a_lit root) (or_introl eq_refl)); auto|]. apply in_app_iff in B as [B | [<- | B]]; [|now left |].
            * right. destruct (B2 (a_lit b)) as [K | K]; [apply -> in_rev; now apply in_map | auto | auto].
            * right. destruct (A2 (a_lit b)) as [K | K]; [now apply in_map | auto | auto]. }
      destruct (isTrue s (a_lit a)) eqn:T; [apply failW_one; auto|].
      destruct (set_ext s (a_lit a) T F) as [SE SF]. destruct (prop (set s (neg (a_lit a)))) as [s2|] eqn:PP; [|apply failW_one; auto].
      apply PR in PP. assert (X2 : pext s2 s) by (eapply pext_trans; eauto). specialize (IH s2 (todo ++ newly G s s2) (log ++ [(a_lit a, why, s)]) st v pa (IB_ext s s2 v pa X2 H) N AR').
      assert (FG : forall nl, Forall (goodB s2) nl -> Forall (goodB s) ([(a_lit a, why, s)] ++ nl)) by (intros nl FL; constructor; [easy|]; eapply Forall_impl; [|exact FL]; intro e; now apply goodB_ext).
      destruct (scanB G top prop root fv node arcs _ st v pa) as [[[s' todo'] log']|[[s' todo'] log'] st' v' pa'|]; [| |easy].
      * eapply failW_app; [exact X2 | | exact IH]. constructor; [easy | constructor].
      * destruct IH as (I1 & I2 & (nt & -> & Q) & (nl & -> & FL) & I5 & I6 & I7 & I8 & I9 & I10). split; [easy|]. split; [eapply pext_trans; eauto|]. split; [exists (newly G s s2 ++ nt); split; [now rewrite app_assoc | eapply queued_trans; eauto; apply newly_queued]|].
        split; [exists ([(a_lit a, why, s)] ++ nl); split; [now rewrite app_assoc | now apply FG]|]. repeat (split; [easy|]). intros b [<- | B].
        -- split; [intros _; eapply false_pext; [|exact SF]; eapply pext_trans; eauto | congruence].
        -- destruct (I10 b B) as [K1 K2]. split; [easy|]. intros TB. apply K2. eapply true_pext; eauto.
    + apply memN_not in MF. destruct (isTrue s (a_lit a)) eqn:T; [|apply SKIP; split; [easy | congruence]].
      assert (H' : IB s (a_tail a :: v) (setP pa (a_tail a) (a_lit a) node)).
      { split; [|split; [|split; [|easy]]].
        - apply (PI_agree G true s h fv pa); [|easy]. intros m M. unfold setP. destruct (m =? a_tail a) eqn:E; [apply Nat.eqb_eq in E; rewrite E in M; contradiction | easy].
        - apply (PIS G false s t (a_tail a) v pa _ a); unfold setP; rewrite ?Nat.eqb_refl; auto; [split; auto|]. intros m M. destruct (m =? a_tail a) eqn:E; [apply Nat.eqb_eq in E; rewrite E in M; contradiction | easy].
        - intros x [<- | X]; auto. }
      specialize (IH s todo log (a_tail a :: st) (a_tail a :: v) _ H' (or_intror N) AR'). destruct (scanB G top prop root fv node arcs _ _ _ _) as [w|[[s' todo'] log'] st' v' pa'|]; [easy | | easy].
      destruct IH as (I1 & I2 & I3 & I4 & I5 & I6 & I7 & I8 & I9 & I10). split; [easy|]. split; [easy|]. split; [easy|]. split; [easy|]. split; [intros x X; apply I5; now right|].
      split; [intros x X; destruct (I6 x X) as [[<- | K] | K]; auto; right; apply I7; now left|]. split; [intros x X; apply I7; now right|]. split; [intro K; apply I8; intros x [<- | X]; [now left | right; auto]|]. split; [cbn in I9; lia|].
      intros b [<- | B]; [split; [easy | intros _ _; apply I5; now left] | auto].
Qed.

Variable s0 : pasg.
Definition closedB (s : pasg) (st v : list nat) : Prop := forall a, In a G -> In (a_head a) v -> ~ In (a_head a) st -> (In (a_tail a) fv -> isFalse s (a_lit a) = true) /\ (isTrue s0 (a_lit a) = true -> ~ In (a_tail a) fv -> In (a_tail a) v).
Lemma loopB_spec k : forall s todo log st v pa, pext s s0 -> IB s v pa -> incl st v -> closedB s st v -> length st + S (length G) <= k + length v ->
  match loopB G top prop k root fv (s, todo, log) st v pa with
  | OErr => False
  | OFail (s', todo', log') => failW s log log'
  | ODone (s', todo', log') pa' => pext s' s /\ (exists nt, todo' = todo ++ nt /\ queued s s' nt) /\ (exists nl, log' = log ++ nl /\ Forall (goodB s) nl) /\
     exists v', closedB s' [] v' /\ In t v' /\ (forall x, In x v' -> ~ In x fv)
  end.
Proof.
  induction k as [|k IH]; intros s todo log st v pa X H I C L; destruct st as [|node st]; cbn [loopB].
  1, 3: split; [apply pext_refl|]; split; [exists []; split; [now rewrite app_nil_r | apply queued_refl]|]; split; [exists []; split; [now rewrite app_nil_r | constructor]|];
    exists v; split; [easy|]; destruct H as (_ & HB & HD & _); split; [eapply PI_h; eauto | easy].
  - destruct H as (_ & HB & _). pose proof (PI_len _ _ _ _ _ _ HB). cbn in L. lia.
  - assert (NV : In node v) by (apply I; now left). assert (AR : forall a, In a (inv G node) -> In a G /\ a_head a = node) by (intros a A; apply filter_In in A as [A1 A2]; apply Nat.eqb_eq in A2; auto).
    pose proof (scanB_spec node (inv G node) s todo log st v pa H NV AR) as S. destruct (scanB G top prop root fv node (inv G node) (s, todo, log) st v pa) as [[[s' todo'] log']|[[s' todo'] log'] st' v' pa'|]; [easy | | easy].
    destruct S as (S1 & S2 & (nt & -> & Q) & (nl & -> & FL) & S5 & S6 & S7 & S8 & S9 & S10).
    assert (C' : closedB s' st' v').
    { intros a AG AV AS. destruct (S6 _ AV) as [K | K]; [|easy]. destruct (Nat.eq_dec (a_head a) node) as [E | NE].
      - destruct (S10 a) as [K1 K2]; [apply filter_In; split; [easy | now apply Nat.eqb_eq]|]. split; [easy|]. intro T. apply K2. eapply true_pext; eauto.
      - destruct (C a AG K) as [K1 K2]; [intros [E | E]; [now apply NE | apply AS, S7, E]|]. split; [intro F; eapply false_pext; [exact S2 | auto] | intros T NF; apply S5; auto]. }
    assert (L' : length st' + S (length G) <= k + length v') by (cbn in L; lia). assert (I' : incl st' v') by (apply S8; intros x Y; apply I; now right).
    specialize (IH s' (todo ++ nt) (log ++ nl) st' v' pa' (pext_trans _ _ _ X S2) S1 I' C' L').
    assert (FG : forall n, Forall (goodB s') n -> Forall (goodB s) (nl ++ n)) by (intros n FN; apply Forall_app; split; [easy|]; eapply Forall_impl; [|exact FN]; intro e; now apply goodB_ext).
    destruct (loopB G top prop k root fv _ st' v' pa') as [[[s2 todo2] log2]|[[s2 todo2] log2] pa2|]; [| |easy].
    + eapply failW_app; [exact S2 | exact FL | exact IH].
    + destruct IH as (J1 & (nt2 & -> & Q2) & (nl2 & -> & F2) & V). split; [eapply pext_trans; eauto|]. split; [exists (nt ++ nt2); split; [now rewrite app_assoc | eapply queued_trans; eauto]|]. split; [exists (nl ++ nl2); split; [now rewrite app_assoc | now apply FG] | easy].
Qed.
End B.

Lemma backward_spec root s todo log fv pa : enabled G s root -> PI G true s (a_head root) fv pa -> (forall x, (In x fv <-> exists w, walk (enabled G s) (a_head root) w x) /\ ~ In (a_tail root) fv) ->
  match dfsBackward G top prop root fv (s, todo, log) pa with
  | OErr => False
  | OFail (s', todo', log') => failW s log log'
  | ODone (s', todo', log') pa' => pext s' s /\ (exists nt, todo' = todo ++ nt /\ queued s s' nt) /\ (exists nl, log' = log ++ nl /\ Forall (goodB s) nl) /\
     forall a w1 w2, In a G -> walk (enabled G s) (a_head a) w1 (a_tail root) -> walk (enabled G s) (a_head root) w2 (a_tail a) -> isFalse s' (a_lit a) = true
  end.
Proof.
  intros [RG RT] HF FV. assert (NT : ~ In (a_tail root) fv) by apply (FV 0). unfold dfsBackward.
  pose proof (loopB_spec root fv RG s (size G) s todo log [a_tail root] [a_tail root] pa (pext_refl s)) as L.
  destruct (loopB G top prop (size G) root fv (s, todo, log) [a_tail root] [a_tail root] pa) as [[[s' todo'] log']|[[s' todo'] log'] pa'|] eqn:E.
  1, 3: apply L; [split; [easy|]; split; [constructor|]; split; [intros x [<- | []]; easy | easy] | easy | intros a _ [A | []] N; exfalso; apply N; now left | cbn; unfold size; lia].
  destruct L as (L1 & L2 & L3 & v' & V1 & V2 & V3); [split; [easy|]; split; [constructor|]; split; [intros x [<- | []]; easy | easy] | easy | intros a _ [A | []] N; exfalso; apply N; now left | cbn; unfold size; lia|].
  split; [easy|]. split; [easy|]. split; [easy|]. intros a w1 w2 AG W1 W2. apply (V1 a AG); [|easy | apply FV; now exists w2].
  assert (K : forall w x, walk (enabled G s) x w (a_tail root) -> In x v').
  { induction w as [|b w IH]; intros x W; inversion W as [|? ? ? O W']; subst; [easy|]. apply (V1 b); [apply O | now apply IH | easy | apply O|]. intro F. apply (proj1 (FV (a_tail b))) in F as (w3 & W3). apply NT. apply FV. exists (w3 ++ b :: w). eapply walk_app; eauto. }
  now apply (K w1).
Qed.
End G_.
