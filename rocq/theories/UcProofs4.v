(** Core-guided optimisation: K and adding a core. *)
From Coq Require Import List Bool Arith ZArith Lia.
Import ListNotations.
From Verif Require Import Base UcModel UcSpec UcProofs UcProofs2 UcProofs3.
Open Scope Z_scope.

Fixpoint chain (prev : option lit) (rs : list lit) : list con :=
  match rs with [] => [] | r :: rs => match prev with Some a => [Cls [neg a; r]] | None => [] end ++ chain (Some r) rs end.
Lemma kLits_spec w n : forall s prev, let (s', rs) := kLits s prev n w in
  rs = map pos (seq (nv s) n) /\ nv s' = (nv s + n)%nat /\ dat s' = dat s ++ map (fun r => LD r w true None) rs /\ cons s' = cons s ++ chain prev rs /\
  low s' = low s /\ top s' = top s /\ up s' = up s /\ disj s' = disj s /\ todo s' = todo s /\ shr s' = shr s.
Proof.
  induction n as [|n IH]; intros s prev; cbn [kLits].
  - cbn. rewrite !app_nil_r, Nat.add_0_r. auto 20.
  - set (s1 := newAssumption (newVar s) (pos (nv s)) w None). set (s2 := match prev with Some a => addCon s1 (Cls [neg a; pos (nv s)]) | None => s1 end). specialize (IH s2 (Some (pos (nv s)))). destruct (kLits s2 (Some (pos (nv s))) n w) as [s' rs]. destruct IH as (A & B & C & D & E & F & H & I & J & K).
    assert (X : nv s2 = S (nv s) /\ dat s2 = dat s ++ [LD (pos (nv s)) w true None] /\ cons s2 = cons s ++ match prev with Some a => [Cls [neg a; pos (nv s)]] | None => [] end /\ low s2 = low s /\ top s2 = top s /\ up s2 = up s /\ disj s2 = disj s /\ todo s2 = todo s /\ shr s2 = shr s).
    { unfold s2. destruct prev; cbn; rewrite ?app_nil_r; auto 20. }
    destruct X as (X1 & X2 & X3 & X4 & X5 & X6 & X7 & X8 & X9). rewrite X1 in A, B. rewrite X2 in C. rewrite X3 in D. split; [cbn [seq map]; now rewrite A|]. split; [lia|]. split; [rewrite C, <- app_assoc; reflexivity|]. split; [rewrite D, <- app_assoc; reflexivity|]. repeat split; congruence.
Qed.
Lemma chain_sat M prev rs : (forall c, In c (chain prev rs) -> satCon M c = true) -> match prev with Some a => holds M a = true | None => False end -> count M (map neg rs) = 0.
Proof.
  revert prev. induction rs as [|r rs IH]; intros prev H P; [reflexivity|]. destruct prev as [a|]; [|destruct P]. cbn [map]. rewrite count_cons, holds_neg.
  assert (X : satCon M (Cls [neg a; r]) = true) by (apply H; cbn; now left). cbn in X. rewrite holds_neg, P in X. cbn in X. rewrite orb_false_r in X. rewrite X. cbn [negb b2z]. rewrite (IH (Some r)); auto. intros c I. apply H. cbn. now right.
Qed.
Lemma chain_mono M a n : forall prev, (forall j, (a <= j)%nat -> (S j < a + n)%nat -> M j = true -> M (S j) = true) ->
  (match prev with Some p => holds M p = true -> (0 < n)%nat -> M a = true | None => True end) -> forall c, In c (chain prev (map pos (seq a n))) -> satCon M c = true.
Proof.
  revert a. induction n as [|n IH]; intros a prev H P c I; [destruct I|]. cbn [seq map chain] in I. apply in_app_or in I as [I|I].
  - destruct prev as [p|]; [|destruct I]. destruct I as [<-|[]]. cbn. rewrite holds_neg, holds_pos, orb_false_r. destruct (holds M p); auto. cbn. rewrite P; auto. lia.
  - apply (IH (S a) (Some (pos a))) in I; auto.
    + intros j J1 J2. apply H; lia.
    + rewrite holds_pos. intros E L. apply H; auto; lia.
Qed.
Lemma chain_below n prev rs c : litsBelow n rs -> match prev with Some a => (fst a < n)%nat | None => True end -> In c (chain prev rs) -> litsBelow n (conLits c) /\ noTag c.
Proof.
  revert prev. induction rs as [|r rs IH]; intros prev B P I; [destruct I|]. cbn [chain] in I. apply in_app_or in I as [I|I].
  - destruct prev as [a|]; [|destruct I]. destruct I as [<-|[]]. split; [|exact Logic.I]. intros p [<-|[<-|[]]]; [exact P|apply B; now left].
  - apply IH in I; auto; [intros p J; apply B; now right|apply B; now left].
Qed.
(** how many are false if they become true from the first on *)
Lemma count_thr M a V n : (forall j, (j < n)%nat -> M (a + j)%nat = (V <=? Z.of_nat j + 1)) -> count M (map neg (map pos (seq a n))) = Z.min (Z.of_nat n) (Z.max 0 (V - 1)).
Proof.
  induction n as [|n IH]; intros H; [cbn; lia|]. rewrite seq_S, !map_app, count_app, IH; [|intros j J; apply H; lia]. cbn [map]. rewrite count_cons, count_nil, holds_neg, holds_pos, H by lia. destruct (Z.leb_spec V (Z.of_nat n + 1)); cbn [negb b2z]; lia.
Qed.

Section Sim4.
Variables (G : asg -> Prop) (o : opts) (n0 : nat).
Hypothesis HG : over n0 G.
Notation sats := (sats G).
Notation sim := (sim G).

Lemma pot_rs M w rs : potOf M (map (fun r => LD r w true None) rs) = w * count M (map neg rs).
Proof. induction rs as [|r rs IH]; [cbn; lia|]. cbn [map]. rewrite potOf_cons, IH, count_cons, holds_neg. unfold dPot. cbn [d_w d_lit d_core corePot]. unfold viol. lia. Qed.

(** one group *)
Lemma sim_kGroup s cp grp (connect : bool) w : wf s -> (n0 <= nv s)%nat -> 0 < w -> (fst cp < nv s)%nat -> litsBelow (nv s) grp -> grp <> [] ->
  (connect = false -> forall M, sats M s -> 1 <= viol M cp + count M grp) ->
  let n := length grp in
  let c := pos (nv s) in
  let s1 := if connect then newVar s else s in
  let (s2, rs) := kLits s1 (if connect then Some c else None) n w in
  let t := tempOf s (Z.of_nat n + (if connect then 1 else 0)) (cp :: map neg grp) in
  let s3 := addCon s2 (Card (snd t ++ (if connect then [neg c] else []) ++ map neg rs) (fst t)) in
  sim (fun M => w * (viol M cp + count M grp - 1)) (fun M => if connect then w * (viol M c - 1) else 0) s s3 /\ keep [] s s3 /\
  (connect = true -> (fst c < nv s3)%nat /\ forall M, sats M s3 -> 1 <= viol M cp + count M grp -> viol M c = 1).
Proof.
  intros W N0 Hw LC BG NE PL n c s1. destruct (kLits s1 (if connect then Some c else None) n w) as [s2 rs] eqn:EK. intros t s3.
  pose proof (kLits_spec w n s1 (if connect then Some c else None)) as KS. rewrite EK in KS. destruct KS as (A & B & C & D & E & F & H & I & J & K).
  set (b := if connect then 1%nat else 0%nat).
  assert (X : nv s1 = (nv s + b)%nat /\ dat s1 = dat s /\ cons s1 = cons s /\ low s1 = low s /\ top s1 = top s /\ up s1 = up s /\ disj s1 = disj s /\ todo s1 = todo s /\ shr s1 = shr s).
  { unfold s1, b. destruct connect; cbn; rewrite ?Nat.add_0_r, ?Nat.add_1_r; auto 20. }
  destruct X as (X1 & X2 & X3 & X4 & X5 & X6 & X7 & X8 & X9).
  assert (NV3 : nv s3 = (nv s + b + n)%nat) by (change (nv s3) with (nv s2); lia).
  set (cd := Card (snd t ++ (if connect then [neg c] else []) ++ map neg rs) (fst t)) in *.
  assert (TC : forall M, (forall p, In p (top s) -> holds M p = true) -> count M (snd t) - fst t = (1 - viol M cp) + (Z.of_nat n - count M grp) - (Z.of_nat n + Z.of_nat b)).
  { intros M TT. pose proof (tadd_fold M (top s) (cp :: map neg grp) TT (Z.of_nat n + (if connect then 1 else 0), [])) as Q. fold (tempOf s (Z.of_nat n + (if connect then 1 else 0)) (cp :: map neg grp)) in Q. fold t in Q. rewrite Q. cbn [fst snd]. rewrite count_nil, count_cons, count_neg, viol_split. unfold n, b. destruct connect; lia. }
  assert (CR : forall M, count M (if connect then [neg c] else []) = if connect then viol M c else 0).
  { intros M. destruct connect; [|reflexivity]. rewrite count_cons, count_nil, holds_neg. unfold viol. lia. }
  assert (SC : forall M, (forall p, In p (top s) -> holds M p = true) -> (satCon M cd = true <-> (viol M cp + count M grp + Z.of_nat b - 1 <= (if connect then viol M c else 0) + count M (map neg rs)))).
  { intros M TT. unfold cd, satCon. rewrite !count_app, CR. specialize (TC M TT). rewrite Z.leb_le. lia. }
  assert (RB : litsBelow (nv s3) rs). { rewrite A. intros p Q. apply in_map_iff in Q as (v & <- & Q). apply in_seq in Q. cbn. lia. }
  assert (CB : match (if connect then Some c else None) with Some a => (fst a < nv s3)%nat | None => True end) by (unfold b in NV3; destruct connect; auto; cbn; lia).
  assert (TT : forall M, sats M s -> forall p, In p (top s) -> holds M p = true) by (intros M S p Q; now apply (top_holds G M s)).
  split; [|split].
  - apply sim_grow with (n0 := n0) (cs := chain (if connect then Some c else None) rs ++ [cd]) (ds := map (fun r => LD r w true None) rs); auto.
    + lia.
    + change (low s3) with (low s2). congruence.
    + change (cons s3) with (cons s2 ++ [cd]). rewrite D, X3, app_assoc. reflexivity.
    + change (dat s3) with (dat s2). congruence.
    + change (top s3) with (top s2). congruence.
    + intros x Q. apply in_app_or in Q as [Q|[<-|[]]]; [now apply (chain_below (nv s3)) in Q|]. cbn [cd conLits]. intros p Q. apply in_app_or in Q as [Q|Q]; [|apply in_app_or in Q as [Q|Q]].
      * apply temp_in in Q as [<-|Q]; [lia|]. apply in_map_iff in Q as (q & <- & Q). apply BG in Q. cbn. lia.
      * destruct connect; [|destruct Q]. destruct Q as [<-|[]]. exact CB.
      * apply in_map_iff in Q as (q & <- & Q). now apply RB in Q.
    + intros d Q. apply in_map_iff in Q as (r & <- & Q). split; [split; [now apply RB in Q|exact Logic.I]|split; [cbn; lia|split; [cbn; lia|exact Logic.I]]].
    + intros d Q Y. apply in_map_iff in Q as (r & <- & Q). discriminate Y.
    + replace (filter hasCore (map (fun r => LD r w true None) rs)) with (@nil ldat); [constructor|]. clear. induction rs; cbn; auto.
    + intros f w' ls b' Q. apply in_app_or in Q as [Q|[Q|[]]]; [apply (chain_below (nv s3)) in Q as (_ & []); auto|discriminate Q].
    + intros M S Q. rewrite pot_rs. assert (Y : satCon M cd = true) by (apply Q, in_or_app; right; now left). apply SC in Y; auto. destruct connect; cbn [b] in Y; unfold b in Y; nia.
    + intros M S. set (V := viol M cp + count M grp). set (M' := fun v => if (v <? nv s)%nat then M v else V <=? Z.of_nat (v - nv s) + (if connect then 0 else 1)). exists M'.
      assert (AG : agree (nv s) M M'). { intros v L. unfold M'. apply Nat.ltb_lt in L. now rewrite L. } split; auto.
      assert (VE : viol M' cp + count M' grp = V). { unfold viol. rewrite (holds_agree (nv s) M M' cp), (count_agree (nv s) M M' grp); auto. }
      assert (VR : 0 <= V <= Z.of_nat n + 1) by (pose proof (viol_range M cp); pose proof (count_range M grp); unfold V, n; lia).
      assert (CT : count M' (map neg rs) = Z.min (Z.of_nat n) (Z.max 0 (V - 1))).
      { rewrite A, X1. apply count_thr. intros j Lj. unfold M'. destruct (Nat.ltb_spec (nv s + b + j) (nv s)); [lia|]. f_equal. unfold b. destruct connect; lia. }
      assert (VC : connect = true -> viol M' c = b2z (0 <? V)). { intros ->. unfold viol, c. rewrite holds_pos. unfold M'. rewrite Nat.ltb_irrefl, Nat.sub_diag. cbn [Z.of_nat]. rewrite Z.add_0_r, Z.ltb_antisym. reflexivity. }
      assert (TT' : forall p, In p (top s) -> holds M' p = true). { apply TT. apply sats_agree with (n0 := n0) (M := M); auto. } split.
      * intros x Q. apply in_app_or in Q as [Q|[<-|[]]].
        { rewrite A, X1 in Q. revert x Q. apply chain_mono.
          - intros j J1 J2. unfold M'. destruct (Nat.ltb_spec j (nv s)); [lia|]. destruct (Nat.ltb_spec (Datatypes.S j) (nv s)); [lia|]. rewrite !Z.leb_le. lia.
          - destruct connect; auto. unfold c. rewrite holds_pos. unfold M', b. rewrite Nat.ltb_irrefl. destruct (Nat.ltb_spec (nv s + 1) (nv s)); [lia|]. rewrite !Z.leb_le. lia. }
        { apply SC; auto. rewrite VE, CT. unfold b. destruct connect; [rewrite VC by auto|]; try destruct (Z.ltb_spec 0 V); cbn [b2z]; lia. }
      * rewrite pot_rs, CT. fold V. destruct connect; [rewrite VC by auto; destruct (Z.ltb_spec 0 V); cbn [b2z]; rewrite ?Z.min_r by lia; nia|]. specialize (PL eq_refl M S). fold V in PL. nia.
  - apply keep_app with (ds := map (fun r => LD r w true None) rs); try (cbn; congruence). intros d Q. apply in_map_iff in Q as (r & <- & _). reflexivity.
  - intros EC. split; [rewrite EC in CB; exact CB|]. intros M S V1. assert (S0 : satCon M cd = true) by (apply (sats_cons G M s3 S); cbn [s3 addCon cons]; unfold s3; cbn [addCon cons]; apply in_or_app; right; now left).
    assert (TM : forall p, In p (top s) -> holds M p = true). { intros p Q. apply (w_top s W) in Q. assert (Y : satCon M (Cls [p]) = true); [apply (sats_cons G M s3 S); change (cons s3) with (cons s2 ++ [cd]); rewrite D, X3; apply in_or_app; left; apply in_or_app; now left|]. cbn in Y. now rewrite orb_false_r in Y. }
    apply SC in S0; auto. rewrite EC in *. cbn [b] in S0. unfold b in S0. unfold viol in *. destruct (holds M c) eqn:HC; cbn [negb b2z] in *; auto. exfalso.
    assert (Z0 : count M (map neg rs) = 0). { apply (chain_sat M (Some c)); auto. intros x Q. apply (sats_cons G M s3 S). change (cons s3) with (cons s2 ++ [cd]). rewrite D. apply in_or_app. left. apply in_or_app. now right. }
    rewrite EC in S0. lia.
Qed.

Lemma skip_len {T} n (l : list T) : length (skipn n l) = (length l - n)%nat. Proof. apply skipn_length. Qed.
Lemma sim_kLoop k w fuel : (1 <= k)%nat -> forall s cp rest, (length rest <= fuel)%nat -> rest <> [] -> wf s -> (n0 <= nv s)%nat -> 0 < w -> (fst cp < nv s)%nat -> litsBelow (nv s) rest ->
  (forall M, sats M s -> 1 <= viol M cp + count M rest) ->
  sim (fun M => w * (viol M cp + count M rest - 1)) (fun _ => 0) s (kLoop fuel k s cp rest w) /\ keep [] s (kLoop fuel k s cp rest w).
Proof.
  intros Hk. induction fuel as [|fuel IH]; intros s cp rest LF NE W N0 Hw LC BL P; [destruct rest; [congruence|cbn in LF; lia]|].
  cbn [kLoop]. set (connect := (k <? length rest)%nat). set (n := if connect then k else length rest).
  assert (LN : (1 <= n <= length rest)%nat). { unfold n, connect. destruct (Nat.ltb_spec k (length rest)); destruct rest; try congruence; cbn [length] in *; lia. }
  set (grp := firstn n rest). assert (LG : length grp = n) by (unfold grp; rewrite firstn_length; lia).
  assert (ES : rest = grp ++ skipn n rest) by (symmetry; apply firstn_skipn).
  assert (BG : litsBelow (nv s) grp) by (intros p I; apply BL; rewrite ES; apply in_or_app; auto).
  assert (BR : litsBelow (nv s) (skipn n rest)) by (intros p I; apply BL; rewrite ES; apply in_or_app; auto).
  assert (NG : grp <> []) by (intros E; rewrite E in LG; cbn in LG; lia).
  assert (SK : connect = false -> skipn n rest = []) by (intros E; unfold n; rewrite E; apply skipn_all).
  assert (SK' : connect = true -> skipn n rest <> []). { intros E E'. assert (L : length (skipn n rest) = 0%nat) by now rewrite E'. rewrite skipn_length in L. unfold n in L. rewrite E in L. unfold connect in E. apply Nat.ltb_lt in E. lia. }
  assert (PL : connect = false -> forall M, sats M s -> 1 <= viol M cp + count M grp). { intros E M S. specialize (P M S). rewrite ES, (SK E), app_nil_r in P. exact P. }
  pose proof (sim_kGroup s cp grp connect w W N0 Hw LC BG NG PL) as H. cbv zeta in H. rewrite LG in H.
  destruct (kLits (if connect then newVar s else s) (if connect then Some (pos (nv s)) else None) n w) as [s2 rs].
  set (s3 := addCon s2 _) in *. destruct H as (S1 & K1 & HC). set (c := pos (nv s)) in *. destruct connect eqn:EC.
  - specialize (SK' eq_refl). destruct (HC eq_refl) as (LC3 & VC). pose proof (sim_nv _ _ _ _ _ S1) as NV.
    destruct (IH s3 c (skipn n rest)) as (S2 & K2); auto.
    + rewrite skipn_length. lia.
    + now apply sim_wf in S1.
    + lia.
    + now apply below_le with (nv s).
    + intros M S. pose proof (sim_back _ _ _ _ _ M S1 S) as S0. specialize (P M S0). rewrite ES, count_app in P. pose proof (viol_range M c). pose proof (count_range M (skipn n rest)). destruct (Z.le_gt_cases 1 (viol M cp + count M grp)) as [L|L]; [rewrite (VC M S L)|]; lia.
    + destruct (skipn n rest) as [|x r] eqn:ER; [congruence|]. split; [|now apply keep_nil_trans with s3].
      apply sim_trans with (2 := S2). apply (sim_frame G _ _ (fun M => w * count M (x :: r))) in S1; [|apply local_mul, local_count; exact BR]. eapply sim_ext; [exact S1| |].
      * intros M _. cbv beta. rewrite ES, count_app. lia.
      * intros M _. cbv beta. lia.
  - rewrite (SK eq_refl). split; [|exact K1]. eapply sim_ext; [exact S1| |]; intros M _; cbv beta; auto. rewrite ES, (SK eq_refl), app_nil_r. reflexivity.
Qed.
Lemma groupSize_pos k x size : (1 <= size)%nat -> (1 <= x)%nat -> (1 <= groupSize k x size)%nat.
Proof.
  intros S X. unfold groupSize. assert (Q : forall y, (1 <= y)%nat -> (1 <= (size + (y - 1)) / y)%nat) by (intros y Y; apply Nat.div_le_lower_bound; lia).
  destruct k; apply Q; auto. apply Q. lia.
Qed.
Lemma sim_addK x k s ls w : (1 <= x)%nat -> wf s -> (n0 <= nv s)%nat -> 0 < w -> (2 <= length ls)%nat -> litsBelow (nv s) ls -> (forall M, sats M s -> 1 <= count M ls) ->
  sim (fun M => w * (count M ls - 1)) (fun _ => 0) s (addK o x k s ls w) /\ keep [] s (addK o x k s ls w).
Proof.
  intros X W N0 Hw LE BL P. unfold addK. destruct ls as [|l r]; [cbn in LE; lia|].
  assert (EC : forall M, viol M (neg l) + count M r = count M (l :: r)) by (intros M; now rewrite viol_neg, count_cons).
  destruct (sim_kLoop (groupSize k x (length (l :: r))) w (length r)) with (s := s) (cp := neg l) (rest := r) as (S1 & K1); auto.
  - apply groupSize_pos; auto. cbn. lia.
  - intros ->. cbn in LE. lia.
  - apply (BL l). now left.
  - intros p I. apply BL. now right.
  - intros M S. rewrite EC. auto.
  - set (s1 := kLoop _ _ _ _ _ _) in *. assert (S2 : sim (fun M => w * (count M (l :: r) - 1)) (fun _ => 0) s s1).
    { eapply sim_ext; [exact S1| |reflexivity]. intros M _. cbv beta. now rewrite EC. }
    destruct (succinct o); [auto|]. split; [|apply keep_same with s1; auto]. apply sim_trans with (1 := S2). apply sim_addCon; [exact Logic.I|now apply sim_wf in S2| |].
    + apply below_le with (nv s); auto. now apply sim_nv in S2.
    + intros M S. apply (sim_back _ _ _ _ _ M S2) in S. cbn [satCon]. rewrite satcl_count. apply Z.leb_le. auto.
Qed.

(** addCore *)
Lemma addCore_keep s ids : forall s1, keep ids s s1 -> (forall i, In i ids -> (i < length (dat s))%nat) -> forall s2, keep [] s1 s2 -> (forall i, In i ids -> getData s2 i = getData s1 i) /\ keep ids s s2.
Proof.
  intros s1 K1 H s2 K2. split.
  - intros i I. destruct K2 as (_ & _ & _ & _ & _ & K & _). apply K; auto. destruct K1 as (_ & _ & _ & _ & L & _). specialize (H i I). lia.
  - apply keep_trans with s1; auto. apply keep_incl with []; auto. intros i [].
Qed.
Lemma sim_addCore x s ids w : (1 <= x)%nat -> wf s -> (n0 <= nv s)%nat -> 0 < w -> NoDup ids -> ids <> [] ->
  (forall i, In i ids -> (i < length (dat s))%nat /\ w <= d_w (getData s i) /\ d_as (getData s i) || disj s = true) ->
  (forall M, sats M s -> exists i, In i ids /\ holds M (d_lit (getData s i)) = false) ->
  sim (fun _ => 0) (fun _ => w) s (addCore o x s ids w) /\ keep ids s (addCore o x s ids w) /\ (forall i, In i ids -> settled (getData (addCore o x s ids w) i)).
Proof.
  intros X W N0 Hw ND NE H P. unfold addCore. set (ls := map (fun i => neg (d_lit (getData s i))) ids). destruct (sim_coreLits G o n0 HG w ids s W N0 Hw ND H) as (S1 & K1 & ST). fold ls in S1. set (s1 := fold_left (coreLit o w) ids s) in *.
  assert (HI : forall i, In i ids -> (i < length (dat s))%nat) by (intros i I; now apply H).
  assert (P1 : forall M, sats M s1 -> 1 <= count M ls). { intros M S. apply (sim_back _ _ _ _ _ M S1) in S. destruct (P M S) as (i & I & E). apply count_pos. exists (neg (d_lit (getData s i))). split; [apply in_map_iff; eauto|]. now rewrite holds_neg, E. }
  assert (BL : litsBelow (nv s1) ls). { intros p I. apply in_map_iff in I as (i & <- & I). pose proof (sim_nv _ _ _ _ _ S1). destruct (w_dat s W (getData s i)) as ((L & _) & _); [apply getData_in; auto|]. cbn. lia. }
  pose proof (sim_nv _ _ _ _ _ S1) as NV. pose proof (sim_wf _ _ _ _ _ S1) as W1. assert (LL : length ls = length ids) by apply map_length.
  assert (FIN : forall s2, sim (fun M => w * (count M ls - 1)) (fun _ => 0) s1 s2 -> keep [] s1 s2 -> sim (fun _ => 0) (fun _ => w) s s2 /\ keep ids s s2 /\ (forall i, In i ids -> settled (getData s2 i))).
  { intros s2 S2 K2. destruct (addCore_keep s ids s1 K1 HI s2 K2) as (Q1 & Q2). split; [|split; auto; intros i I; rewrite Q1; auto].
    apply sim_trans with (1 := S1). apply (sim_frame G _ _ (fun _ => w)) in S2; [|apply local_const]. eapply sim_ext; [exact S2| |]; intros M _; cbv beta; lia. }
  assert (N1 : (n0 <= nv s1)%nat) by lia.
  destruct ls as [|p [|q r]] eqn:EL; [destruct ids; [congruence|discriminate LL]| |].
  - apply FIN; [|apply keep_fix]. eapply sim_ext; [apply sim_fixLit with (f := fun _ => 0); auto| |reflexivity].
    + apply BL. now left.
    + intros M S. specialize (P1 M S). rewrite count_cons, count_nil in P1. destruct (holds M p); [reflexivity|cbn in P1; lia].
    + intros M S. cbv beta. specialize (P1 M S). pose proof (count_range M [p]). cbn [length] in *. replace (count M [p] - 1) with 0; lia.
  - assert (L2 : (2 <= length (p :: q :: r))%nat) by (cbn; lia). destruct (alg o) as [| |k|].
    + destruct (sim_addOll G o n0 HG s1 (p :: q :: r) w) as (A & B); auto. discriminate.
    + destruct (sim_addK x (length (p :: q :: r)) s1 (p :: q :: r) w) as (A & B); auto.
    + destruct (sim_addK x k s1 (p :: q :: r) w) as (A & B); auto.
    + destruct (sim_addPmr G o n0 HG s1 (p :: q :: r) w) as (A & B); auto.
Qed.
End Sim4.
