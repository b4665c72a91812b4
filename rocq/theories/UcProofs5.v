(** Core-guided optimisation: what every step keeps. *)
From Coq Require Import List Bool Arith ZArith Lia.
Import ListNotations.
From Verif Require Import Base UcModel UcSpec UcProofs UcProofs2 UcProofs3 UcProofs4.
Open Scope Z_scope.

Lemma minW_fold (f : nat -> Z) r : forall m, fold_left (fun m j => Z.min m (f j)) r m <= m /\ (forall j, In j r -> fold_left (fun m j => Z.min m (f j)) r m <= f j) /\
  (fold_left (fun m j => Z.min m (f j)) r m = m \/ exists j, In j r /\ fold_left (fun m j => Z.min m (f j)) r m = f j).
Proof.
  induction r as [|i r IH]; intros m; cbn [fold_left]; [split; [lia|split; [intros j []|auto]]|]. destruct (IH (Z.min m (f i))) as (A & B & C). split; [lia|]. split.
  - intros j [<-|J]; [lia|auto].
  - destruct C as [C|(j & J & C)]; [|right; exists j; split; [now right|auto]]. rewrite C. destruct (Z.min_spec m (f i)) as [[_ ->]|[_ ->]]; [auto|right; exists i; split; [now left|auto]].
Qed.
Lemma minW_le s ids i : In i ids -> minW s ids <= d_w (getData s i).
Proof. destruct ids as [|j r]; [intros []|]. unfold minW. destruct (minW_fold (fun j => d_w (getData s j)) r (d_w (getData s j))) as (A & B & _). intros [<-|I]; auto. Qed.
Lemma minW_pos s ids : ids <> [] -> (forall i, In i ids -> 0 < d_w (getData s i)) -> 0 < minW s ids.
Proof.
  destruct ids as [|j r]; [congruence|]. intros _ H. unfold minW. destruct (minW_fold (fun j => d_w (getData s j)) r (d_w (getData s j))) as (_ & _ & [C|(i & I & C)]); rewrite C; apply H; [now left|now right].
Qed.
Lemma minW_ext s s' ids : (forall i, In i ids -> d_w (getData s' i) = d_w (getData s i)) -> minW s' ids = minW s ids.
Proof.
  destruct ids as [|j r]; intros H; [reflexivity|]. unfold minW. rewrite (H j) by now left. assert (H' : forall i, In i r -> d_w (getData s' i) = d_w (getData s i)) by (intros; apply H; now right). clear H. revert H'. generalize (d_w (getData s j)). induction r as [|i r IH]; intros z H; [reflexivity|]. cbn [fold_left]. rewrite (H i) by now left. apply IH. intros; apply H; now right.
Qed.
Lemma nodup_app_l {T} (l l' : list T) : NoDup (l ++ l') -> NoDup l.
Proof. induction l as [|x l IH]; intros H; [constructor|]. cbn in H. apply NoDup_cons_iff in H as (A & B). constructor; auto. intros I. apply A, in_or_app. auto. Qed.
Lemma nodup_app_r {T} (l l' : list T) : NoDup (l ++ l') -> NoDup l'.
Proof. induction l as [|x l IH]; intros H; auto. cbn in H. apply NoDup_cons_iff in H as (A & B). auto. Qed.
Definition sumW (s : ust) (t : list (list nat)) : Z := fold_right (fun ids z => minW s ids + z) 0 t.
Lemma sumW_app s t t' : sumW s (t ++ t') = sumW s t + sumW s t'.
Proof. induction t as [|x t IH]; [reflexivity|]. cbn [app]. change (sumW s (x :: t ++ t')) with (minW s x + sumW s (t ++ t')). change (sumW s (x :: t)) with (minW s x + sumW s t). rewrite IH. lia. Qed.
Lemma sumW_ext s s' t : (forall i, In i (concat t) -> d_w (getData s' i) = d_w (getData s i)) -> sumW s' t = sumW s t.
Proof.
  induction t as [|x t IH]; intros H; [reflexivity|]. change (sumW s' (x :: t)) with (minW s' x + sumW s' t). change (sumW s (x :: t)) with (minW s x + sumW s t). rewrite IH, (minW_ext s s'); auto; intros i I; apply H; cbn; apply in_or_app; auto.
Qed.
Definition shrW (s : ust) : Z := match shr s with None => 0 | Some ids => minW s ids end.
(** what the constraints of the state account for *)
Definition lo (s : ust) : Z := low s - sumW s (todo s) - shrW s.

(** costs of violated assumptions *)
Definition wv (s : ust) (M : asg) (i : nat) : Z := d_w (getData s i) * viol M (d_lit (getData s i)).
Definition sumV (s : ust) (M : asg) (l : list nat) : Z := fold_right (fun i z => wv s M i + z) 0 l.
Lemma sumV_app s M l l' : sumV s M (l ++ l') = sumV s M l + sumV s M l'.
Proof. induction l as [|x l IH]; [reflexivity|]. cbn [app]. change (sumV s M (x :: l ++ l')) with (wv s M x + sumV s M (l ++ l')). change (sumV s M (x :: l)) with (wv s M x + sumV s M l). rewrite IH. lia. Qed.
Lemma sumV_seq cs M l : (forall d, In d l -> dOk cs d) -> forall s, dat s = l -> sumV s M (seq 0 (length l)) <= potOf M l.
Proof.
  intros H. assert (Q : forall k, (k <= length l)%nat -> forall s, dat s = l -> sumV s M (seq 0 k) <= potOf M (firstn k l)).
  { induction k as [|k IH]; intros L s E; [cbn; lia|]. rewrite seq_S, sumV_app. cbn [plus]. specialize (IH ltac:(lia) s E).
    assert (X : firstn (S k) l = firstn k l ++ [nth k l ld0]). { clear -L. revert k L. induction l as [|x l IH]; intros k L; [cbn in L; lia|]. destruct k; [reflexivity|]. cbn [firstn nth app]. f_equal. apply IH. cbn in L. lia. }
    rewrite X, potOf_app, potOf_cons. change (sumV s M [k]) with (wv s M k + 0). change (potOf M []) with 0. unfold wv, getData. rewrite E. assert (LK : (k < length l)%nat) by lia. destruct (H (nth k l ld0) (nth_In l ld0 LK)) as (_ & _ & C). unfold dPot. assert (0 <= corePot M (d_core (nth k l ld0))); [|lia]. destruct (d_core (nth k l ld0)); cbn; [|lia]. destruct C as (C & _). apply Z.mul_nonneg_nonneg; lia. }
  intros s E. specialize (Q (length l) (le_n _) s E). now rewrite firstn_all in Q.
Qed.
Lemma wv_nonneg s M i : wf s -> 0 <= wv s M i.
Proof.
  intros W. unfold wv. pose proof (viol_range M (d_lit (getData s i))). apply Z.mul_nonneg_nonneg; [|lia]. destruct (Nat.lt_ge_cases i (length (dat s))) as [L|L]; [apply (w_dat s W (getData s i)), getData_in; auto|]. unfold getData. rewrite nth_overflow by lia. cbn. lia.
Qed.
Lemma sumV_nonneg s M l : wf s -> 0 <= sumV s M l.
Proof. intros W. induction l as [|i l IH]; [cbn; lia|]. change (sumV s M (i :: l)) with (wv s M i + sumV s M l). pose proof (wv_nonneg s M i W). lia. Qed.
Lemma sumV_incl s M l l' : wf s -> NoDup l -> incl l l' -> sumV s M l <= sumV s M l'.
Proof.
  intros W ND. revert l'. induction ND as [|i l NI ND IH]; intros l' H; [now apply sumV_nonneg|]. destruct (in_split i l') as (a & b & E); [apply H; now left|]. assert (IN : incl l (a ++ b)). { intros j J. assert (K : In j l') by (apply H; now right). rewrite E in K. apply in_app_or in K as [K|[->|K]]; [apply in_or_app; auto|contradiction|apply in_or_app; auto]. }
  specialize (IH _ IN). rewrite E. rewrite sumV_app in *. change (sumV s M (i :: b)) with (wv s M i + sumV s M b). change (sumV s M (i :: l)) with (wv s M i + sumV s M l). lia.
Qed.
Lemma sumV_pot s M l : wf s -> NoDup l -> (forall i, In i l -> (i < length (dat s))%nat) -> sumV s M l <= pot s M.
Proof.
  intros W ND H. apply Z.le_trans with (sumV s M (seq 0 (length (dat s)))).
  - apply sumV_incl; auto. intros i I. apply in_seq. specialize (H i I). lia.
  - apply sumV_seq with (cons s); auto. intros d I. now apply (w_dat s W).
Qed.
Lemma core_sumV s M ids : wf s -> (exists i, In i ids /\ holds M (d_lit (getData s i)) = false) -> minW s ids <= sumV s M ids.
Proof.
  intros W (i & I & E). apply Z.le_trans with (sumV s M [i]).
  - change (sumV s M [i]) with (wv s M i + 0). unfold wv, viol. rewrite E. cbn [negb b2z]. pose proof (minW_le s ids i I). lia.
  - destruct (in_split i ids I) as (a & b & ->). rewrite sumV_app. change (sumV s M (i :: b)) with (wv s M i + sumV s M b). change (sumV s M [i]) with (wv s M i + 0). pose proof (sumV_nonneg s M a W). pose proof (sumV_nonneg s M b W). lia.
Qed.
Lemma todo_sumV s M t : wf s -> (forall ids, In ids t -> exists i, In i ids /\ holds M (d_lit (getData s i)) = false) -> sumW s t <= sumV s M (concat t).
Proof.
  intros W. induction t as [|x t IH]; intros H; [cbn; lia|]. cbn [concat]. rewrite sumV_app. change (sumW s (x :: t)) with (minW s x + sumW s t). pose proof (core_sumV s M x W (H x (or_introl eq_refl))). specialize (IH (fun ids I => H ids (or_intror I))). lia.
Qed.

Section Inv.
Variables (G : asg -> Prop) (o : opts) (n0 : nat).
Hypothesis HG : over n0 G.
Notation sats := (sats G).
Notation sim := (sim G).
Definition violates (s : ust) (ids : list nat) : Prop := forall M, sats M s -> exists i, In i ids /\ holds M (d_lit (getData s i)) = false.
Record str (s : ust) : Prop := {
  t_wf : wf s; t_nv : (n0 <= nv s)%nat;
  t_disj : todo s <> [] -> disj s = true;
  t_nd : NoDup (concat (todo s));
  t_todo : forall ids, In ids (todo s) -> ids <> [] /\ (forall i, In i ids -> (i < length (dat s))%nat /\ d_as (getData s i) = false /\ 0 < d_w (getData s i)) /\ violates s ids;
  t_shr : forall ids, shr s = Some ids -> isCore G s ids;
  t_set : forall i, (i < length (dat s))%nat -> settled (getData s i) \/ In i (concat (todo s))
}.
Definition lsim (s s' : ust) : Prop :=
  (forall M, sats M s' -> sats M s /\ lo s + pot s M <= lo s' + pot s' M) /\
  (forall M, sats M s -> lo s + pot s M <= up s -> exists M', agree (nv s) M M' /\ sats M' s' /\ lo s' + pot s' M' <= lo s + pot s M).
Lemma sim_lsim a b s s' : sim (fun _ => a) (fun _ => b) s s' -> lo s' - low s' + a = lo s - low s + b -> lsim s s'.
Proof.
  intros (_ & _ & _ & A & B) E. split.
  - intros M S. destruct (A M S) as (X & Y). split; auto. lia.
  - intros M S _. destruct (B M S) as (M' & X & Y & Z). exists M'. split; auto. split; auto. lia.
Qed.
Lemma lsim_same s s' : cons s' = cons s -> dat s' = dat s -> lo s' = lo s -> lsim s s'.
Proof.
  intros E1 E2 E3. assert (SS : forall M, sats M s' <-> sats M s) by (intros M; unfold UcModel.sats; now rewrite E1). unfold lsim, pot. rewrite E2, E3. split.
  - intros M S. apply SS in S. split; auto. lia.
  - intros M S _. exists M. split; [apply agree_refl|]. split; [now apply SS|lia].
Qed.
Lemma isCore_wf s ids : wf s -> isCore G s ids -> ids <> [] /\ NoDup ids /\ (forall i, In i ids -> (i < length (dat s))%nat /\ d_as (getData s i) = true /\ 0 < d_w (getData s i)) /\ violates s ids.
Proof.
  intros W (A & B & C & D). split; auto. split; auto. split; auto. intros i I. destruct (C i I) as (X & Y). split; auto. split; auto. destruct (w_dat s W (getData s i) (getData_in s i X)) as (_ & (_ & Z & _)). auto.
Qed.
Lemma str_in_todo s i : str s -> In i (concat (todo s)) -> (i < length (dat s))%nat /\ d_as (getData s i) = false /\ 0 < d_w (getData s i).
Proof. intros T I. apply in_concat in I as (ids & J & I). now apply (t_todo s T ids J). Qed.

(** structure is kept when a core that is not remembered is added *)
Lemma str_keep ids s s1 f g : str s -> sim f g s s1 -> keep ids s s1 -> (forall i, In i ids -> (i < length (dat s))%nat) -> (forall i, In i ids -> ~ In i (concat (todo s))) -> (forall i, In i ids -> settled (getData s1 i)) -> shr s = None -> str s1.
Proof.
  intros T S (K1 & K2 & K3 & K4 & K5 & K6 & K7) HL HD HS HN. pose proof (sim_nv _ _ _ _ _ S) as NV.
  assert (EG : forall i, In i (concat (todo s)) -> getData s1 i = getData s i). { intros i I. destruct (str_in_todo s i T I) as (L & _). apply K6; auto. intros J. now apply (HD i). }
  constructor.
  - now apply sim_wf in S.
  - pose proof (t_nv s T). lia.
  - rewrite K3, K2. apply (t_disj s T).
  - rewrite K3. apply (t_nd s T).
  - rewrite K3. intros x J. destruct (t_todo s T x J) as (A & B & C). assert (EX : forall i, In i x -> getData s1 i = getData s i) by (intros i I; apply EG; apply in_concat; eauto). split; auto. split.
    + intros i I. rewrite EX; auto. destruct (B i I) as (B1 & B2). split; [lia|auto].
    + intros M SM. apply (sim_back _ _ _ _ _ M S) in SM. destruct (C M SM) as (i & I & E). exists i. split; auto. now rewrite EX.
  - rewrite K4, HN. discriminate.
  - intros i L. rewrite K3. destruct (Nat.lt_ge_cases i (length (dat s))) as [L'|L'].
    + destruct (in_dec Nat.eq_dec i ids) as [I|I]; [left; auto|]. rewrite K6; auto. apply (t_set s T); auto.
    + left. left. apply K7. lia.
Qed.
Lemma lo_keep ids s s1 : str s -> keep ids s s1 -> (forall i, In i ids -> ~ In i (concat (todo s))) -> sumW s1 (todo s1) = sumW s (todo s).
Proof.
  intros T (K1 & K2 & K3 & K4 & K5 & K6 & K7) HD. rewrite K3. apply sumW_ext. intros i I. destruct (str_in_todo s i T I) as (L & _). rewrite K6; auto. intros J. now apply (HD i).
Qed.
Definition good (s : ust) (k : nat) (s' : ust) : Prop := str s' /\ lsim s s' /\ lo s + Z.of_nat k <= lo s' /\ (nv s <= nv s')%nat /\ up s' <= up s.

Lemma good_core s ids x : str s -> shr s = None -> (0 < x)%nat -> isCore G s ids -> good s 1 (addCore o x (setLow s (low s + minW s ids)) ids (minW s ids)).
Proof.
  intros T HN X IC. pose proof (t_wf s T) as W. destruct (isCore_wf s ids W IC) as (NE & ND & HI & V). set (w := minW s ids). assert (Hw : 0 < w) by (apply minW_pos; auto; intros i I; now apply HI).
  set (s0 := setLow s (low s + w)). assert (S0 : sim (fun _ => 0) (fun _ => - w) s s0) by (apply sim_setLow; auto; [lia|intros; lia]).
  assert (DJ : forall i, In i ids -> ~ In i (concat (todo s))). { intros i I J. destruct (str_in_todo s i T J) as (_ & A & _). destruct (HI i I) as (_ & B & _). congruence. }
  destruct (sim_addCore G o n0 HG x s0 ids w) as (S1 & K1 & ST); auto; [now apply sim_wf in S0|apply (t_nv s T)| |].
  { intros i I. destruct (HI i I) as (A & B & C). split; auto. change (getData s0 i) with (getData s i). split; [now apply minW_le|]. now rewrite B. }
  set (s1 := addCore o x s0 ids w) in *. assert (K : keep ids s s1) by exact K1. apply (sim_frame G _ _ (fun _ => - w)) in S1; [|apply local_const].
  assert (S2 : sim (fun _ => 0) (fun _ => 0) s s1). { apply sim_trans with (1 := S0). eapply sim_ext; [exact S1| |]; intros; cbv beta; lia. }
  assert (T1 : str s1) by (apply str_keep with ids s (fun _ => 0) (fun _ => 0); auto; intros i I; now apply HI).
  assert (EL : lo s1 - low s1 = lo s - low s). { unfold lo. rewrite (lo_keep ids s s1); auto. unfold shrW. assert (E : shr s1 = None) by (destruct K as (_ & _ & _ & -> & _); auto). rewrite E, HN. lia. }
  split; [auto|]. split; [apply sim_lsim with (1 := S2); lia|]. split; [|split; [now apply sim_nv in S2|destruct K as (-> & _); lia]].
  destruct S1 as (_ & L & _). cbn [s0 setLow low] in L. unfold s0 in L. cbn [setLow low] in L. lia.
Qed.
Lemma good_trimAdd s ids x : str s -> shr s = Some ids -> (0 < x)%nat -> good s 1 (addCore o x (setShr s None) ids (minW s ids)).
Proof.
  intros T HN X. pose proof (t_wf s T) as W. pose proof (t_shr s T ids HN) as IC. destruct (isCore_wf s ids W IC) as (NE & ND & HI & V). set (w := minW s ids). assert (Hw : 0 < w) by (apply minW_pos; auto; intros i I; now apply HI).
  set (s0 := setShr s None). assert (W0 : wf s0) by (destruct W; constructor; auto).
  assert (T0 : str s0) by (destruct T; constructor; auto; discriminate).
  assert (DJ : forall i, In i ids -> ~ In i (concat (todo s))). { intros i I J. destruct (str_in_todo s i T J) as (_ & A & _). destruct (HI i I) as (_ & B & _). congruence. }
  destruct (sim_addCore G o n0 HG x s0 ids w) as (S1 & K1 & ST); auto; [apply (t_nv s T)| |].
  { intros i I. destruct (HI i I) as (A & B & C). split; auto. change (getData s0 i) with (getData s i). split; [now apply minW_le|]. now rewrite B. }
  set (s1 := addCore o x s0 ids w) in *.
  assert (T1 : str s1) by (apply str_keep with ids s0 (fun _ => 0) (fun _ => w); auto; intros i I; now apply HI).
  assert (EL : lo s1 - low s1 = lo s - low s + w). { unfold lo. rewrite (lo_keep ids s0 s1); auto. unfold shrW. assert (E : shr s1 = None) by (destruct K1 as (_ & _ & _ & -> & _); auto). rewrite E, HN. change (sumW s0 (todo s0)) with (sumW s (todo s)). fold w. lia. }
  split; [auto|]. split; [|split; [|split; [now apply sim_nv in S1|destruct K1 as (-> & _); cbn; lia]]].
  - apply (sim_lsim 0 w); [exact S1|lia].
  - destruct S1 as (_ & L & _). cbn [s0 setShr low] in L. unfold s0 in L. cbn [setShr low] in L. lia.
Qed.
(** preprocessing is done *)
Lemma commit_fold x t : (forall i, (0 < x i)%nat) -> forall s m, wf s -> (n0 <= nv s)%nat -> (t <> [] -> disj s = true) -> NoDup (concat t) ->
  (forall ids, In ids t -> ids <> [] /\ (forall i, In i ids -> (i < length (dat s))%nat /\ 0 < d_w (getData s i)) /\ violates s ids) ->
  let s' := fst (fold_left (fun (a : ust * nat) ids => (addCore o (x (snd a)) (fst a) ids (minW (fst a) ids), S (snd a))) t (s, m)) in
  sim (fun _ => 0) (fun _ => sumW s t) s s' /\ keep (concat t) s s' /\ (forall i, In i (concat t) -> settled (getData s' i)) /\ Z.of_nat (length t) <= sumW s t.
Proof.
  intros X. induction t as [|ids t IH]; intros s m W N0 D ND H; cbv zeta.
  - cbn. split; [apply sim_refl; auto|]. split; [apply keep_refl|]. split; [intros i []|lia].
  - cbn [fold_left fst snd]. destruct (H ids (or_introl eq_refl)) as (NE & HI & V). set (w := minW s ids). assert (Hw : 0 < w) by (apply minW_pos; auto; intros i I; now apply HI).
    cbn [concat] in ND. assert (ND1 : NoDup ids) by now apply nodup_app_l in ND. assert (ND2 : NoDup (concat t)) by now apply nodup_app_r in ND.
    assert (DJ : forall i, In i ids -> ~ In i (concat t)). { clear -ND. induction ids as [|j ids IH]; intros i []; cbn in ND; apply NoDup_cons_iff in ND as (N & ND); [subst j; intros J; apply N; apply in_or_app; auto|auto]. }
    destruct (sim_addCore G o n0 HG (x m) s ids w) as (S1 & K1 & ST); auto; [apply X| |].
    { intros i I. destruct (HI i I) as (A & C). split; auto. split; [now apply minW_le|]. rewrite D by discriminate. apply orb_true_r. }
    set (s1 := addCore o (x m) s ids w) in *. pose proof (sim_nv _ _ _ _ _ S1) as NV.
    assert (K1' : keep ids s s1) by exact K1. destruct K1 as (E1 & E2 & E3 & E4 & E5 & E6 & E7).
    assert (LT : forall i, In i (concat t) -> (i < length (dat s))%nat). { intros i I. apply in_concat in I as (y & Y & I). now apply (H y (or_intror Y)). }
    assert (EG : forall i, In i (concat t) -> getData s1 i = getData s i). { intros i I. apply E6; auto. intros J. now apply (DJ i). }
    destruct (IH s1 (S m)) as (S2 & K2 & ST2 & L2); auto; [now apply sim_wf in S1|lia| | |].
    { intros _. rewrite E2. apply D. discriminate. }
    { intros y Y. destruct (H y (or_intror Y)) as (A & B & C). assert (EX : forall i, In i y -> getData s1 i = getData s i) by (intros i I; apply EG, in_concat; eauto). split; auto. split.
      - intros i I. rewrite EX; auto. destruct (B i I). split; [lia|auto].
      - intros M SM. apply (sim_back _ _ _ _ _ M S1) in SM. destruct (C M SM) as (i & I & E). exists i. split; auto. now rewrite EX. }
    set (s2 := fst _) in *. assert (EW : sumW s1 t = sumW s t) by (apply sumW_ext; intros i I; now rewrite EG). rewrite EW in *.
    change (sumW s (ids :: t)) with (w + sumW s t). split; [|split; [|split]].
    + apply sim_trans with (1 := S1). apply (sim_frame G _ _ (fun _ => w)) in S2; [|apply local_const]. eapply sim_ext; [exact S2| |]; intros; cbv beta; lia.
    + cbn [concat]. apply keep_trans with s1.
      * intros i I. apply in_app_or in I as [I|I]; auto. now apply HI.
      * apply keep_incl with ids; auto. intros i I. apply in_or_app; auto.
      * apply keep_incl with (concat t); auto. intros i I. apply in_or_app; auto.
    + cbn [concat]. intros i I. apply in_app_or in I as [I|I]; auto. destruct (in_dec Nat.eq_dec i (concat t)) as [J|J]; auto. destruct K2 as (_ & _ & _ & _ & _ & K & _). rewrite K; auto. destruct (HI i I). lia.
    + cbn [length]. lia.
Qed.
Lemma good_commit s x : str s -> shr s = None -> (forall i, (0 < x i)%nat) -> good s (length (todo s)) (commit o x s).
Proof.
  intros T HN X. unfold commit. destruct (commit_fold x (todo s) X s 0%nat) as (S1 & K1 & ST & L1); try apply T.
  { intros ids I. destruct (t_todo s T ids I) as (A & B & C). split; auto. split; auto. intros i J. destruct (B i J) as (B1 & _ & B2). auto. }
  set (s1 := fst _) in *. set (s2 := setDisj (setTodo s1 []) false). destruct K1 as (E1 & E2 & E3 & E4 & E5 & E6 & E7).
  assert (EL : lo s2 = low s1). { unfold lo, shrW. cbn [s2 setDisj setTodo low todo shr]. unfold s2. cbn [setDisj setTodo low todo shr sumW fold_right]. rewrite E4, HN. cbn. lia. }
  assert (EL0 : lo s = low s - sumW s (todo s)) by (unfold lo, shrW; rewrite HN; lia).
  pose proof (sim_nv _ _ _ _ _ S1) as NV. split; [|split; [|split; [|split; [exact NV|cbn; lia]]]].
  - constructor.
    + apply sim_wf in S1. destruct S1; constructor; auto.
    + cbn. pose proof (t_nv s T). lia.
    + cbn. congruence.
    + constructor.
    + intros ids [].
    + cbn. rewrite E4, HN. discriminate.
    + intros i L. left. change (getData s2 i) with (getData s1 i). cbn in L. destruct (Nat.lt_ge_cases i (length (dat s))) as [L'|L']; [|left; apply E7; lia].
      destruct (t_set s T i L') as [A|A]; [|auto]. destruct (in_dec Nat.eq_dec i (concat (todo s))) as [J|J]; [auto|]. now rewrite E6.
  - apply (sim_lsim 0 (sumW s (todo s))).
    + destruct S1 as (A & B & C & D & E). split; [exact A|]. split; [exact B|]. split; [destruct C; constructor; auto|]. split; [exact D|exact E].
    + change (low s2) with (low s1). lia.
  - rewrite EL, EL0. destruct S1 as (_ & B & _). lia.
Qed.
End Inv.
