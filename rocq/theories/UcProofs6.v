(** Core-guided optimisation: all steps, the start, and the end of a level. *)
From Coq Require Import List Bool Arith ZArith Lia.
Import ListNotations.
From Verif Require Import Base UcModel UcSpec UcProofs UcProofs2 UcProofs3 UcProofs4 UcProofs5.
Open Scope Z_scope.

Lemma pot_setData s i d' M : (i < length (dat s))%nat -> pot s M + dPot M d' = pot (setData s i d') M + dPot M (getData s i).
Proof.
  intros L. destruct (updNth_split (dat s) ld0 i d' L) as (a & b & E & E'). change (nth i (dat s) ld0) with (getData s i) in E. unfold pot. cbn [setData setDat dat]. rewrite E', E, !potOf_app, !potOf_cons. lia.
Qed.
Definition unas (s : ust) (i : nat) : ust := setData s i (LD (d_lit (getData s i)) (d_w (getData s i)) false (d_core (getData s i))).
Lemma getData_set s i j d : (i < length (dat s))%nat -> getData (setData s i d) j = if Nat.eqb i j then d else getData s j.
Proof. intros L. unfold getData. cbn [setData setDat dat]. destruct (Nat.eqb_spec i j) as [<-|N]; [now apply updNth_eq|now apply updNth_ne]. Qed.

Section Steps.
Variables (G : asg -> Prop) (o : opts) (n0 : nat).
Hypothesis HG : over n0 G.
Notation sats := (sats G).
Notation sim := (sim G).
Notation str := (str G n0).
Notation good := (good G n0).
Notation lsim := (lsim G).

Lemma str_same s s' : str s -> wf s' -> (nv s <= nv s')%nat -> dat s' = dat s -> todo s' = todo s -> disj s' = disj s -> (forall M, sats M s' -> sats M s) -> (forall ids, shr s' = Some ids -> isCore G s ids) -> str s'.
Proof.
  intros T W N E1 E2 E3 SB HS. assert (EG : forall i, getData s' i = getData s i) by (intros i; unfold getData; now rewrite E1). constructor; auto.
  - pose proof (t_nv _ _ s T). lia.
  - rewrite E2, E3. apply T.
  - rewrite E2. apply T.
  - rewrite E2. intros ids I. destruct (t_todo _ _ s T ids I) as (A & B & C). split; auto. split; [intros i J; rewrite EG, E1; auto|]. intros M S. destruct (C M (SB M S)) as (i & J & E). exists i. now rewrite EG.
  - intros ids E. destruct (HS ids E) as (A & B & C & D). split; auto. split; auto. split; [intros i I; rewrite EG, E1; auto|]. intros M S. destruct (D M (SB M S)) as (i & J & X). exists i. now rewrite EG.
  - intros i. rewrite EG, E1, E2. apply T.
Qed.
Lemma lo_same s s' : dat s' = dat s -> low s' = low s -> todo s' = todo s -> shr s' = shr s -> lo s' = lo s.
Proof.
  intros E1 E2 E3 E4. unfold lo, shrW. rewrite E2, E3, E4. assert (EG : forall i, getData s' i = getData s i) by (intros i; unfold getData; now rewrite E1). rewrite (sumW_ext s s') by (intros; now rewrite EG). destruct (shr s); auto. rewrite (minW_ext s s'); auto. intros; now rewrite EG.
Qed.
Lemma good_top s p : str s -> (forall M, sats M s -> holds M p = true) -> (fst p < nv s)%nat -> good s 0 (addTop s p).
Proof.
  intros T H L. pose proof (t_wf _ _ s T) as W. pose proof (sim_fixLit G (Opts true Oll false) (fun _ => 0) s p W L H) as S. change (fixLit (Opts true Oll false) s p) with (addTop s p) in S.
  assert (E : lo (addTop s p) = lo s) by now apply lo_same. split; [|split; [|split; [lia|split; cbn; lia]]].
  - apply str_same with s; auto; [now apply sim_wf in S|intros M; now apply sim_back with (1 := S)|]. apply (t_shr _ _ s T).
  - apply (sim_lsim G 0 0); [exact S|]. change (low (addTop s p)) with (low s). lia.
Qed.
Lemma core_zero s M d : wf s -> sats M s -> In d (dat s) -> holds M (d_lit d) = true -> dPot M d = 0.
Proof.
  intros W S I H. destruct (w_dat s W d I) as (_ & (_ & _ & C)). unfold dPot, viol. rewrite H. cbn [negb b2z]. destruct (d_core d) as [c|]; cbn [corePot]; [|lia]. destruct C as (_ & f & C). apply (sats_cons G M s S) in C. unfold satCon in C. rewrite holds_neg, H in C. cbn [negb] in C.
  destruct (Z.leb_spec (c_bound c) (count M (c_lits c))) as [L|L]; [destruct f; discriminate C|]. rewrite Z.max_l by lia. lia.
Qed.
(** the assumptions remembered and the core being trimmed cost at least as much as was added for them *)
Lemma pending_pot s M l : str s -> sats M s -> NoDup l -> (forall i, In i l -> (i < length (dat s))%nat /\ d_as (getData s i) = true) -> sumW s (todo s) + sumV s M l <= pot s M.
Proof.
  intros T S ND H. pose proof (t_wf _ _ s T) as W. assert (A : sumW s (todo s) <= sumV s M (concat (todo s))). { apply todo_sumV; auto. intros ids I. now apply (t_todo _ _ s T ids I). }
  assert (B : sumV s M (concat (todo s) ++ l) <= pot s M); [|rewrite sumV_app in B; lia]. apply sumV_pot; auto.
  - apply nodup_app'; auto; [apply T|]. intros i I J. destruct (str_in_todo _ _ s i T I) as (_ & X & _). destruct (H i J) as (_ & Y). congruence.
  - intros i I. apply in_app_or in I as [I|I]; [apply (str_in_todo _ _ s i T I)|now apply H].
Qed.
Lemma good_fix s i : str s -> shr s = None -> (i < length (dat s))%nat -> d_as (getData s i) = true -> up s - low s < d_w (getData s i) ->
  good s 0 (let d := getData s i in fixLit o (setData s i (LD (d_lit d) 0 false None)) (d_lit d)).
Proof.
  intros T HN L HA HU. pose proof (t_wf _ _ s T) as W. cbv zeta. set (d := getData s i) in *. set (d' := LD (d_lit d) 0 false None). set (s1 := setData s i d').
  assert (S1 : sim (fun _ => 0) (fun M => dPot M d) s s1).
  { apply sim_setData; auto; cbn; try lia; try discriminate; auto. }
  assert (W1 : wf s1) by now apply sim_wf in S1.
  assert (DL : (fst (d_lit d) < nv s)%nat) by (apply (w_dat s W); now apply getData_in).
  destruct (fix_same o s1 (d_lit d)) as (E1 & E2 & E3 & E4 & E5 & E6 & E7). set (s' := fixLit o s1 (d_lit d)) in *.
  assert (SS : forall M, sats M s' <-> sats M s /\ holds M (d_lit d) = true) by (intros M; apply (sats_fix G o M s1)).
  assert (EP : forall M, pot s M = pot s' M + dPot M d). { intros M. assert (X : dPot M d' = 0) by (unfold dPot, d'; cbn; lia). pose proof (pot_setData s i d' M L) as Y. unfold pot at 2. rewrite E2. fold (pot s1 M). fold d s1 in Y. lia. }
  assert (NT : ~ In i (concat (todo s))). { intros I. destruct (str_in_todo _ _ s i T I) as (_ & X & _). fold d in X. congruence. }
  assert (EG : forall j, getData s' j = if Nat.eqb i j then d' else getData s j). { intros j. unfold getData at 1. rewrite E2. fold (getData s1 j). now apply getData_set. }
  assert (EGN : forall j, i <> j -> getData s' j = getData s j). { intros j N. rewrite EG. apply Nat.eqb_neq in N. now rewrite N. }
  assert (TD : todo s' = todo s) by (rewrite E6; reflexivity).
  assert (LEN : length (dat s') = length (dat s)) by (rewrite E2; unfold s1; cbn [setData setDat dat]; apply updNth_len).
  assert (LO : lo s' = lo s). { unfold lo, shrW. rewrite E1, TD, E7. change (shr s1) with (shr s). rewrite HN. change (low s1) with (low s). rewrite (sumW_ext s s'); auto. intros j J. rewrite EGN; auto. intros <-. auto. }
  assert (HZ : forall M, sats M s -> holds M (d_lit d) = true -> dPot M d = 0) by (intros M S H; apply (core_zero s M d); auto; now apply getData_in).
  split; [|split; [|split; [lia|split; [rewrite E3; cbn; lia|rewrite E4; cbn; lia]]]].
  - constructor.
    + now apply wf_fixLit.
    + rewrite E3. apply T.
    + rewrite TD, E5. apply T.
    + rewrite TD. apply T.
    + rewrite TD. intros ids I. destruct (t_todo _ _ s T ids I) as (A & B & C). assert (EX : forall j, In j ids -> getData s' j = getData s j) by (intros j J; apply EGN; intros <-; apply NT, in_concat; eauto). split; auto. split.
      * intros j J. rewrite EX, LEN; auto.
      * intros M S. apply SS in S as (S & _). destruct (C M S) as (j & J & E). exists j. now rewrite EX.
    + rewrite E7. change (shr s1) with (shr s). rewrite HN. discriminate.
    + intros j J. rewrite LEN in J. rewrite TD, EG. destruct (Nat.eqb_spec i j); [left; right; auto|]. now apply T.
  - split.
    + intros M S. apply SS in S as (S & H). split; auto. rewrite LO, EP, HZ; auto. lia.
    + intros M S HU'. assert (H : holds M (d_lit d) = true).
      { destruct (holds M (d_lit d)) eqn:E; auto. exfalso. pose proof (pending_pot s M [i] T S) as P. change (sumV s M [i]) with (wv s M i + 0) in P. unfold wv, viol in P. fold d in P. rewrite E in P. cbn [negb b2z] in P.
        assert (Q : sumW s (todo s) + (d_w d * 1 + 0) <= pot s M). { apply P; [repeat constructor; auto|]. intros j [<-|[]]. auto. }
        unfold lo, shrW in HU'. rewrite HN in HU'. lia. }
      exists M. split; [apply agree_refl|]. split; [now apply SS|]. rewrite LO, EP, HZ; auto. lia.
Qed.
Lemma unas_fold ids : forall s, wf s -> (forall i, In i ids -> (i < length (dat s))%nat) -> let s' := fold_left unas ids s in
  wf s' /\ cons s' = cons s /\ top s' = top s /\ nv s' = nv s /\ low s' = low s /\ up s' = up s /\ disj s' = disj s /\ todo s' = todo s /\ shr s' = shr s /\ length (dat s') = length (dat s) /\
  (forall M, pot s' M = pot s M) /\ forall j, getData s' j = if in_dec Nat.eq_dec j ids then LD (d_lit (getData s j)) (d_w (getData s j)) false (d_core (getData s j)) else getData s j.
Proof.
  induction ids as [|i ids IH]; intros s W H; cbv zeta.
  - cbn [fold_left]. repeat (split; [auto|]). intros j. destruct (in_dec Nat.eq_dec j []) as [[]|]; auto.
  - cbn [fold_left]. assert (L : (i < length (dat s))%nat) by (apply H; now left).
    assert (W1 : wf (unas s i)). { assert (S : sim (fun _ => 0) (fun _ => 0) s (unas s i)); [|now apply sim_wf in S]. apply sim_setData; auto; cbn; auto; try discriminate; [|intros; unfold dPot; cbn; lia]. destruct (w_dat s W _ (getData_in s i L)) as (_ & (X & _)). exact X. }
    assert (LE : length (dat (unas s i)) = length (dat s)) by (unfold unas; cbn [setData setDat dat]; apply updNth_len).
    destruct (IH (unas s i) W1) as (A & B1 & B2 & B3 & B4 & B5 & B6 & B7 & B8 & B9 & B10 & B11). { intros j J. rewrite LE. apply H. now right. }
    split; auto. split; [rewrite B1; reflexivity|]. split; [rewrite B2; reflexivity|]. split; [rewrite B3; reflexivity|]. split; [rewrite B4; reflexivity|]. split; [rewrite B5; reflexivity|]. split; [rewrite B6; reflexivity|]. split; [rewrite B7; reflexivity|]. split; [rewrite B8; reflexivity|]. split; [lia|]. split.
    + intros M. rewrite B10. unfold unas. pose proof (pot_setData s i (LD (d_lit (getData s i)) (d_w (getData s i)) false (d_core (getData s i))) M L) as P. unfold dPot in P. cbn [d_lit d_w d_core] in P. lia.
    + intros j. rewrite B11. unfold unas. rewrite getData_set by auto. destruct (Nat.eqb_spec i j) as [<-|N].
      * cbn [d_lit d_w d_core]. destruct (in_dec Nat.eq_dec i ids), (in_dec Nat.eq_dec i (i :: ids)) as [X|X]; auto; exfalso; apply X; now left.
      * destruct (in_dec Nat.eq_dec j ids) as [X|X], (in_dec Nat.eq_dec j (i :: ids)) as [Y|Y]; auto; exfalso; [apply Y; now right|destruct Y; auto].
Qed.
Lemma good_disj s ids : str s -> shr s = None -> disj s = true -> isCore G s ids ->
  good s 0 (setTodo (setLow (fold_left unas ids s) (low s + minW s ids)) (todo s ++ [ids])).
Proof.
  intros T HN HD IC. pose proof (t_wf _ _ s T) as W. destruct (isCore_wf G s ids W IC) as (NE & ND & HI & V).
  destruct (unas_fold ids s W) as (A & B1 & B2 & B3 & B4 & B5 & B6 & B7 & B8 & B9 & B10 & B11); [intros i I; now apply HI|]. set (s1 := fold_left unas ids s) in *. set (s2 := setTodo _ _).
  assert (DJ : forall i, In i ids -> ~ In i (concat (todo s))). { intros i I J. destruct (str_in_todo _ _ s i T J) as (_ & X & _). destruct (HI i I) as (_ & Y & _). congruence. }
  assert (EW : forall j, d_w (getData s2 j) = d_w (getData s j) /\ d_lit (getData s2 j) = d_lit (getData s j)). { intros j. change (getData s2 j) with (getData s1 j). rewrite B11. destruct (in_dec Nat.eq_dec j ids); auto. }
  assert (SS : forall M, sats M s2 <-> sats M s) by (intros M; unfold UcModel.sats; cbn [s2 setTodo setLow cons]; unfold s2; cbn [setTodo setLow cons]; now rewrite B1).
  assert (LO : lo s2 = lo s). { unfold lo, shrW. unfold s2 at 1 3 4. cbn [setTodo setLow low todo shr]. rewrite B8, HN, sumW_app. change (sumW s2 [ids]) with (minW s2 ids + 0). rewrite (minW_ext s s2), (sumW_ext s s2) by (intros; apply EW). lia. }
  split; [|split; [|split; [lia|split; [change (nv s2) with (nv s1); lia|change (up s2) with (up s1); lia]]]].
  - constructor.
    + destruct A; constructor; auto.
    + change (nv s2) with (nv s1). rewrite B3. apply T.
    + intros _. change (disj s2) with (disj s1). now rewrite B6.
    + unfold s2. cbn [setTodo todo]. rewrite concat_app. cbn [concat]. rewrite app_nil_r. apply nodup_app'; auto; [apply T|]. intros i I J. now apply (DJ i).
    + unfold s2 at 1. cbn [setTodo todo]. intros x I. change (dat s2) with (dat s1). rewrite B9.
      assert (VV : violates G s x -> violates G s2 x). { intros Q M S. apply SS in S. destruct (Q M S) as (i & J & E). exists i. split; auto. now rewrite (proj2 (EW i)). }
      apply in_app_or in I as [I|[<-|[]]].
      * destruct (t_todo _ _ s T x I) as (X & Y & Z). split; auto. split; auto. intros i J. destruct (Y i J) as (Y1 & Y2 & Y3). split; auto. rewrite (proj1 (EW i)). split; auto. change (getData s2 i) with (getData s1 i). rewrite B11. destruct (in_dec Nat.eq_dec i ids); auto.
      * split; auto. split; auto. intros i J. destruct (HI i J) as (Y1 & Y2 & Y3). split; auto. rewrite (proj1 (EW i)). split; auto. change (getData s2 i) with (getData s1 i). rewrite B11. destruct (in_dec Nat.eq_dec i ids); auto. contradiction.
    + change (shr s2) with (shr s1). rewrite B8, HN. discriminate.
    + intros i L. change (dat s2) with (dat s1) in L. rewrite B9 in L. unfold s2 at 2. cbn [setTodo todo]. rewrite concat_app. cbn [concat]. rewrite app_nil_r. change (getData s2 i) with (getData s1 i). rewrite B11. destruct (in_dec Nat.eq_dec i ids) as [I|I]; [right; apply in_or_app; auto|]. destruct (t_set _ _ s T i L) as [X|X]; auto. right. apply in_or_app; auto.
  - assert (EP : forall M, pot s2 M = pot s M) by (intros M; apply B10). split.
    + intros M S. apply SS in S. split; auto. rewrite EP. lia.
    + intros M S _. exists M. split; [apply agree_refl|]. split; [now apply SS|]. rewrite EP. lia.
Qed.
Lemma str_wf_same s s' : str s -> cons s' = cons s -> dat s' = dat s -> top s' = top s -> nv s' = nv s -> wf s'.
Proof. intros T E1 E2 E3 E4. destruct (t_wf _ _ s T). constructor; rewrite ?E1, ?E2, ?E3, ?E4; auto. Qed.
Lemma good_other s s' : str s -> cons s' = cons s -> dat s' = dat s -> top s' = top s -> nv s' = nv s -> todo s' = todo s -> (todo s = [] \/ disj s' = disj s) -> (forall ids, shr s' = Some ids -> isCore G s ids) -> up s' <= up s ->
  low s' - shrW s' = low s - shrW s -> good s 0 s'.
Proof.
  intros T E1 E2 E3 E4 E5 E6 HS HU HL. assert (EG : forall i, getData s' i = getData s i) by (intros i; unfold getData; now rewrite E2).
  assert (LO : lo s' = lo s). { unfold lo. rewrite E5, (sumW_ext s s') by (intros; now rewrite EG). lia. }
  assert (SB : forall M, sats M s' -> sats M s) by (intros M; unfold UcModel.sats; now rewrite E1).
  split; [|split; [now apply lsim_same|split; [lia|split; [lia|auto]]]]. destruct E6 as [E6|E6].
  - assert (T' : str (setDisj s (disj s'))). { pose proof T as T0. destruct T0. constructor; auto; try (now apply str_wf_same with s); cbn; rewrite E6; congruence. }
    apply str_same with (setDisj s (disj s')); auto; [now apply str_wf_same with s|rewrite E4; cbn; lia].
  - apply str_same with s; auto; [now apply str_wf_same with s|lia].
Qed.
Lemma good_shr s z r : str s -> (forall ids, r = Some ids -> isCore G s ids) -> z - match r with None => 0 | Some ids => minW s ids end = low s - shrW s -> good s 0 (setShr (setLow s z) r).
Proof. intros T H E. apply good_other; try exact T; try reflexivity; [now right|exact H|exact E]. Qed.
Theorem step_good cost s k s' : str s -> ustep G o cost s k s' -> good s k s'.
Proof.
  intros T H. destruct H as [s p H L|s i HN L HA HU|s ids x HN X IC|s ids HN HD IC|s x HN X|s HN HT|s ids HN HD IC|s ids ids' HN IC|s ids x HN X|s ids HN|s M HM HU].
  - now apply good_top.
  - now apply good_fix.
  - now apply good_core.
  - now apply good_disj.
  - now apply good_commit.
  - apply good_other; auto; try reflexivity; cbn; try lia. apply T.
  - apply good_shr; auto; [intros x E; now injection E as <-|]. unfold shrW. rewrite HN. lia.
  - apply good_shr; auto; [intros x E; now injection E as <-|]. unfold shrW. rewrite HN. lia.
  - now apply good_trimAdd.
  - apply good_shr; auto; [discriminate|]. unfold shrW. rewrite HN. lia.
  - apply good_other; auto; try reflexivity; cbn; try lia. apply T.
Qed.

Definition inv (cost : asg -> Z) (s : ust) : Prop :=
  str s /\ (forall M, sats M s -> cost M <= lo s + pot s M) /\
  (forall M, G M -> cost M <= up s -> exists M', agree n0 M M' /\ sats M' s /\ lo s + pot s M' <= cost M).
Lemma inv_steps cost s k s' : inv cost s -> usteps G o cost s k s' -> inv cost s' /\ lo s + Z.of_nat k <= lo s'.
Proof.
  intros I H. induction H as [s|s s1 s2 m k H IH ST]; [split; auto; lia|]. destruct (IH I) as ((T & I1 & I2) & L). destruct (step_good cost s1 k s2 T ST) as (T2 & (A & B) & L2 & NV & U). split; [|lia]. split; auto. split.
  - intros M S. destruct (A M S) as (S1 & X). specialize (I1 M S1). lia.
  - intros M HM HU. destruct (I2 M HM) as (M1 & AG & S1 & X); [lia|]. destruct (B M1 S1) as (M2 & AG2 & S2 & Y); [lia|]. exists M2. split; [|split; auto; lia]. apply agree_trans with (nv s1) M1; auto. apply (t_nv _ _ s1 T).
Qed.

(** The start of a level *)
Definition val_ok (val : lit -> bool) : Prop := forall p M, val p = true -> G M -> holds M p = true.
Lemma init_fold val n u b obj : val_ok val -> (n0 <= n)%nat -> (forall p w, In (p, w) obj -> (fst p < n)%nat) -> let s := initObj val obj u n b in
  cons s = [] /\ top s = [] /\ nv s = n /\ todo s = [] /\ shr s = None /\ up s = u /\ (forall d, In d (dat s) -> d_core d = None /\ d_as d = true /\ 0 < d_w d /\ (fst (d_lit d) < n)%nat) /\
  forall M, G M -> costOf obj M = low s + pot s M.
Proof.
  intros HV N B. unfold initObj. set (f := fun (s : ust) (x : lit * Z) => _).
  assert (Q : forall l s, (forall p w, In (p, w) l -> (fst p < n)%nat) -> cons s = [] -> top s = [] -> nv s = n -> todo s = [] -> shr s = None -> up s = u ->
    (forall d, In d (dat s) -> d_core d = None /\ d_as d = true /\ 0 < d_w d /\ (fst (d_lit d) < n)%nat) -> let s' := fold_left f l s in
    cons s' = [] /\ top s' = [] /\ nv s' = n /\ todo s' = [] /\ shr s' = None /\ up s' = u /\ (forall d, In d (dat s') -> d_core d = None /\ d_as d = true /\ 0 < d_w d /\ (fst (d_lit d) < n)%nat) /\
    forall M, G M -> costOf l M + low s + pot s M = low s' + pot s' M).
  { induction l as [|[p w] l IH]; intros s BL H1 H2 H3 H4 H5 H6 H7; cbv zeta.
    - cbn [fold_left]. repeat (split; [auto|]). intros M HM. cbn [costOf fold_right]. lia.
    - cbn [fold_left].
      assert (STEP : cons (f s (p, w)) = [] /\ top (f s (p, w)) = [] /\ nv (f s (p, w)) = n /\ todo (f s (p, w)) = [] /\ shr (f s (p, w)) = None /\ up (f s (p, w)) = u /\ (forall d, In d (dat (f s (p, w))) -> d_core d = None /\ d_as d = true /\ 0 < d_w d /\ (fst (d_lit d) < n)%nat) /\
        forall M, G M -> (if holds M p then w else 0) + low s + pot s M = low (f s (p, w)) + pot (f s (p, w)) M).
      { unfold f. destruct (Z.eqb_spec w 0) as [->|NZ].
        - repeat (split; [auto|]). intros M _. destruct (holds M p); lia.
        - set (s1 := if w <? 0 then setLow s (low s + w) else s). set (p' := if w <? 0 then neg p else p).
          assert (X : cons s1 = [] /\ top s1 = [] /\ nv s1 = n /\ todo s1 = [] /\ shr s1 = None /\ up s1 = u /\ dat s1 = dat s) by (unfold s1; destruct (w <? 0); cbn; auto 10).
          destruct X as (X1 & X2 & X3 & X4 & X5 & X6 & X7).
          assert (LP : (fst p' < n)%nat). { specialize (BL p w (or_introl eq_refl)). unfold p'. destruct (w <? 0); auto. }
          assert (EL : forall M, (if holds M p then w else 0) + low s = low s1 + Z.abs w * b2z (holds M p')).
          { intros M. unfold s1, p'. destruct (Z.ltb_spec w 0); cbn [low setLow]; rewrite ?holds_neg; destruct (holds M p); cbn [negb b2z]; lia. }
          assert (EP : forall M, pot s1 M = pot s M) by (intros M; unfold pot; now rewrite X7).
          destruct (val p') eqn:V1; [|destruct (val (neg p')) eqn:V2].
          + cbn [setLow cons top nv todo shr up dat]. rewrite X7. repeat (split; [auto|]). intros M HM. change (pot (setLow s1 (low s1 + Z.abs w)) M) with (pot s1 M). change (low (setLow s1 (low s1 + Z.abs w))) with (low s1 + Z.abs w). rewrite EP. specialize (EL M). rewrite (HV _ M V1 HM) in EL. cbn [b2z] in EL. lia.
          + rewrite X7. repeat (split; [auto|]). intros M HM. rewrite EP. specialize (EL M). pose proof (HV _ M V2 HM) as E. rewrite holds_neg in E. apply negb_true_iff in E. rewrite E in EL. cbn [b2z] in EL. lia.
          + cbn [newAssumption setDat cons top nv todo shr up dat]. rewrite X7. do 6 (split; [auto|]). split.
            * intros d I. apply in_app_or in I as [I|[<-|[]]]; auto. cbn. repeat split; auto; lia.
            * intros M HM. unfold pot at 2. cbn [newAssumption setDat dat low]. rewrite X7, potOf_app. change (potOf M [LD (neg p') (Z.abs w) true None]) with (dPot M (LD (neg p') (Z.abs w) true None) + 0). unfold dPot. cbn [d_w d_lit d_core corePot]. rewrite viol_neg. fold (pot s M). specialize (EL M). lia. }
      destruct STEP as (S1 & S2 & S3 & S4 & S5 & S6 & S7 & S8). destruct (IH (f s (p, w))) as (A1 & A2 & A3 & A4 & A5 & A6 & A7 & A8); auto; [intros q z I; apply (BL q z); now right|].
      repeat (split; [auto|]). intros M HM. specialize (A8 M HM). specialize (S8 M HM). change (costOf ((p, w) :: l) M) with ((if holds M p then w else 0) + costOf l M). lia. }
  cbv zeta. destruct (Q obj (US [] [] n [] 0 u b [] None)) as (A1 & A2 & A3 & A4 & A5 & A6 & A7 & A8); auto; [intros d []|]. repeat (split; [auto|]). intros M HM. specialize (A8 M HM). cbn [low] in A8. change (pot (US [] [] n [] 0 u b [] None) M) with 0 in A8. lia.
Qed.
Lemma init_inv val n u b obj : val_ok val -> (n0 <= n)%nat -> (forall p w, In (p, w) obj -> (fst p < n)%nat) -> inv (costOf obj) (initObj val obj u n b) /\ lo (initObj val obj u n b) = low (initObj val obj u n b).
Proof.
  intros HV N B. destruct (init_fold val n u b obj HV N B) as (A1 & A2 & A3 & A4 & A5 & A6 & A7 & A8). set (s := initObj val obj u n b) in *.
  assert (SS : forall M, sats M s <-> G M) by (intros M; unfold UcModel.sats; rewrite A1; split; [intros [X _]; auto|intros X; split; auto; intros c []]).
  assert (LO : lo s = low s) by (unfold lo, shrW; rewrite A4, A5; cbn; lia). split; auto. split; [|split].
  - constructor.
    + constructor.
      * rewrite A1. intros c [].
      * intros d I. destruct (A7 d I) as (X & Y & Z & U). split; [split; [lia|now rewrite X]|]. split; [lia|]. split; [auto|]. now rewrite X.
      * rewrite A2. intros p [].
      * replace (filter hasCore (dat s)) with (@nil ldat); [constructor|]. assert (Q : forall d, In d (dat s) -> hasCore d = false) by (intros d I; unfold hasCore; now rewrite (proj1 (A7 d I))). clear -Q. induction (dat s) as [|d l IH]; auto. cbn. rewrite (Q d) by now left. apply IH. intros e I. apply Q. now right.
      * rewrite A1. intros d c f ls b' _ _ [].
    + lia.
    + rewrite A4. congruence.
    + rewrite A4. constructor.
    + rewrite A4. intros ids [].
    + rewrite A5. discriminate.
    + intros i L. left. left. now apply (A7 (getData s i)), getData_in.
  - intros M S. apply SS in S. rewrite A8, LO; auto. lia.
  - intros M HM _. exists M. split; [apply agree_refl|]. split; [now apply SS|]. rewrite A8, LO; auto. lia.
Qed.

(** What the invariant gives *)
Lemma inv_lower cost s M : inv cost s -> G M -> cost M <= up s -> low s <= cost M.
Proof.
  intros (T & _ & I2) HM HU. destruct (I2 M HM HU) as (M' & _ & S & L). unfold lo, shrW in L. destruct (shr s) as [ids|] eqn:E.
  - pose proof (t_shr _ _ s T ids E) as IC. destruct IC as (A & B & C & D). pose proof (pending_pot s M' ids T S B C) as P. pose proof (core_sumV s M' ids (t_wf _ _ s T) (D M' S)). lia.
  - pose proof (pending_pot s M' [] T S (NoDup_nil _)) as P. assert (Q : sumW s (todo s) + sumV s M' [] <= pot s M') by (apply P; intros i []). change (sumV s M' []) with 0 in Q. lia.
Qed.
Lemma pot_zero s M : str s -> todo s = [] -> sats M s -> (forall d, In d (dat s) -> d_as d = true -> holds M (d_lit d) = true) -> pot s M = 0.
Proof.
  intros T HT S H. unfold pot. assert (Q : forall d, In d (dat s) -> dPot M d = 0).
  { intros d I. destruct (In_nth (dat s) d ld0 I) as (i & L & E). destruct (t_set _ _ s T i L) as [X|X]; [|rewrite HT in X; destruct X]. unfold getData in X. rewrite E in X. destruct X as [X|(X & Y)].
    - apply (core_zero s M d); auto. apply T.
    - unfold dPot. rewrite X, Y. cbn. lia. }
  clear -Q. induction (dat s) as [|d l IH]; auto. rewrite potOf_cons, (Q d), IH; auto; [intros; apply Q; now right|now left].
Qed.
Lemma inv_optimal cost s M : inv cost s -> todo s = [] -> shr s = None -> sats M s -> (forall d, In d (active s) -> holds M (d_lit d) = true) -> cost M <= low s.
Proof.
  intros (T & I1 & _) HT HS S H. specialize (I1 M S). rewrite (pot_zero s M) in I1; auto; [|intros d I E; apply H, filter_In; auto]. unfold lo, shrW in I1. rewrite HT, HS in I1. cbn in I1. lia.
Qed.
(** fixLevel *)
Lemma fixLevel_fold M : forall l s, (forall d, In d l -> d_as d = true -> (fst (d_lit d) < nv s)%nat) -> wf s -> let s' := fold_left (fun s d => if d_as d then fixLit o s (d_lit d) else s) l s in
  nv s' = nv s /\ wf s' /\ (sats M s' <-> sats M s /\ forall d, In d l -> d_as d = true -> holds M (d_lit d) = true).
Proof.
  induction l as [|d l IH]; intros s B W; cbv zeta; cbn [fold_left]; [split; auto; split; auto; split; [intros S; split; auto; intros d []|tauto]|].
  set (s1 := if d_as d then fixLit o s (d_lit d) else s). assert (E : nv s1 = nv s /\ wf s1 /\ (sats M s1 <-> sats M s /\ (d_as d = true -> holds M (d_lit d) = true))).
  { unfold s1. destruct (d_as d) eqn:E; [|split; auto; split; auto; split; [intros S; split; auto; discriminate|tauto]]. destruct (fix_same o s (d_lit d)) as (_ & _ & X & _). split; auto. assert (L : (fst (d_lit d) < nv s)%nat) by (apply B; auto; now left). split; [now apply wf_fixLit|]. rewrite (sats_fix G o M s). tauto. }
  destruct E as (E1 & W1 & E2). destruct (IH s1) as (A & W2 & C); auto; [intros e I X; rewrite E1; apply B; auto; now right|]. split; [congruence|]. split; auto. rewrite C, E2. split.
  - intros ((X & Y) & Z). split; auto. intros e [<-|I]; auto.
  - intros (X & Y). split; [split; auto; apply Y; now left|]. intros e I. apply Y. now right.
Qed.
Lemma fixLevel_sats s : wf s -> nv (fixLevel o s) = nv s /\ wf (fixLevel o s) /\ forall M, sats M (fixLevel o s) <-> sats M s /\ forall d, In d (active s) -> holds M (d_lit d) = true.
Proof.
  intros W. assert (B : forall d, In d (dat s) -> d_as d = true -> (fst (d_lit d) < nv s)%nat) by (intros d I _; apply (w_dat s W); auto). unfold fixLevel. split; [apply (fixLevel_fold (fun _ => true) (dat s) s B W)|]. split; [apply (fixLevel_fold (fun _ => true) (dat s) s B W)|]. intros M. destruct (fixLevel_fold M (dat s) s B W) as (_ & _ & H). rewrite H. unfold active. split; intros (X & Y); split; auto; intros d I.
  - apply filter_In in I as (I & E). auto.
  - intros E. apply Y, filter_In. auto.
Qed.
Lemma inv_fix cost s : inv cost s -> todo s = [] -> shr s = None -> up s <= low s ->
  (forall M, sats M (fixLevel o s) -> G M /\ cost M <= low s) /\ (forall M, G M -> cost M <= up s -> exists M', agree n0 M M' /\ sats M' (fixLevel o s)).
Proof.
  intros I HT HS HU. pose proof I as (T & _ & I2). destruct (fixLevel_sats s (t_wf _ _ s T)) as (_ & _ & F). split.
  - intros M S. apply F in S as (S & H). split; [apply S|]. now apply inv_optimal.
  - intros M HM HC. destruct (I2 M HM HC) as (M' & A & S & L). exists M'. split; auto. apply F. split; auto. intros d J. apply filter_In in J as (J & E). destruct (holds M' (d_lit d)) eqn:X; auto. exfalso.
    destruct (In_nth (dat s) d ld0 J) as (i & Li & Ei). pose proof (pending_pot s M' [i] T S) as P. rewrite HT in P. change (sumV s M' [i]) with (wv s M' i + 0) in P. unfold wv, viol, getData in P. rewrite Ei, X in P. cbn [negb b2z sumW fold_right] in P.
    assert (Q : 0 + (d_w d * 1 + 0) <= pot s M'). { apply P; [repeat constructor; auto|]. intros j [<-|[]]. rewrite Ei. auto. }
    destruct (w_dat s (t_wf _ _ s T) d J) as (_ & (_ & W & _)). specialize (W E). unfold lo, shrW in L. rewrite HT, HS in L. cbn [sumW fold_right] in L. lia.
Qed.
End Steps.
