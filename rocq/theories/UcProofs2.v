(** Core-guided optimisation: relaxation of cores and the literals of a core. *)
From Coq Require Import List Bool Arith ZArith Lia.
Import ListNotations.
From Verif Require Import Base UcModel UcSpec UcProofs.
Open Scope Z_scope.

Lemma below_le n n' l : (n <= n')%nat -> litsBelow n l -> litsBelow n' l.
Proof. intros L H p I. apply H in I. lia. Qed.
Lemma dBelow_le n n' d : (n <= n')%nat -> dBelow n d -> dBelow n' d.
Proof. intros L [A B]. split; [lia|]. destruct (d_core d); auto. now apply below_le with n. Qed.
Lemma dPot_agree n M M' d : agree n M M' -> dBelow n d -> dPot M' d = dPot M d.
Proof. intros A [B C]. unfold dPot, viol, corePot. rewrite (holds_agree n M M'); auto. destruct (d_core d); auto. now rewrite (count_agree n M M'). Qed.
Lemma potOf_agree n M M' l : agree n M M' -> (forall d, In d l -> dBelow n d) -> potOf M' l = potOf M l.
Proof. intros A B. induction l as [|d l IH]; auto. rewrite !potOf_cons, IH, (dPot_agree n M M'); auto; [apply B; now left|intros; apply B; now right]. Qed.
Lemma dOk_incl cs cs' d : (forall c, In c cs -> In c cs') -> dOk cs d -> dOk cs' d.
Proof. intros H (A & B & C). split; auto. split; auto. destruct (d_core d); auto. destruct C as (C & f & D). split; auto. exists f. auto. Qed.
Lemma dPot_nonneg cs M d : dOk cs d -> 0 <= dPot M d.
Proof.
  intros (A & _ & C). unfold dPot. pose proof (viol_range M (d_lit d)). assert (0 <= d_w d * viol M (d_lit d)) by (apply Z.mul_nonneg_nonneg; lia). assert (0 <= corePot M (d_core d)); [|lia].
  destruct (d_core d) as [c|]; cbn; [|lia]. destruct C as (C & _). apply Z.mul_nonneg_nonneg; lia.
Qed.
Lemma potOf_nonneg cs M l : (forall d, In d l -> dOk cs d) -> 0 <= potOf M l.
Proof. intros H. induction l as [|d l IH]; [cbn; lia|]. rewrite potOf_cons. pose proof (dPot_nonneg cs M d (H d (or_introl eq_refl))). assert (0 <= potOf M l) by (apply IH; intros; apply H; now right). lia. Qed.
Definition local (n : nat) (h : asg -> Z) : Prop := forall M M', agree n M M' -> h M' = h M.
Lemma local_const n z : local n (fun _ => z). Proof. intros M M' _. reflexivity. Qed.
Lemma local_count n l : litsBelow n l -> local n (fun M => count M l).
Proof. intros B M M' A. now apply count_agree with n. Qed.
Lemma local_add n f g : local n f -> local n g -> local n (fun M => f M + g M).
Proof. intros A B M M' E. now rewrite (A M M' E), (B M M' E). Qed.
Lemma local_mul n z g : local n g -> local n (fun M => z * g M).
Proof. intros B M M' E. now rewrite (B M M' E). Qed.
Lemma local_viol n p : (fst p < n)%nat -> local n (fun M => viol M p).
Proof. intros B M M' A. unfold viol. now rewrite (holds_agree n M M'). Qed.
Lemma local_le n n' f : (n <= n')%nat -> local n f -> local n' f.
Proof. intros L H M M' A. apply H. intros v V. apply A. lia. Qed.

Lemma nodup_app' {T} (l l' : list T) : NoDup l -> NoDup l' -> (forall x, In x l -> In x l' -> False) -> NoDup (l ++ l').
Proof.
  intros A B C. induction A as [|x l H A IH]; auto. cbn. constructor.
  - intros I. apply in_app_or in I as [I|I]; auto. apply (C x); auto. now left.
  - apply IH. intros y I. apply C. now right.
Qed.
Lemma updNth_app {T} (l l' : list T) : forall i x, (i < length l)%nat -> updNth (l ++ l') i x = updNth l i x ++ l'.
Proof. induction l as [|y l IH]; intros i x L; [cbn in L; lia|]. destruct i; cbn; auto. f_equal. apply IH. cbn in L. lia. Qed.
Lemma updNth_len {T} (l : list T) : forall i x, length (updNth l i x) = length l.
Proof. induction l as [|y l IH]; intros [|i] x; cbn; auto. Qed.
Lemma updNth_eq {T} (l : list T) d : forall i x, (i < length l)%nat -> nth i (updNth l i x) d = x.
Proof. induction l as [|y l IH]; intros [|i] x L; cbn in *; try lia; auto. apply IH. lia. Qed.
Lemma updNth_ne {T} (l : list T) d : forall i j x, i <> j -> nth j (updNth l i x) d = nth j l d.
Proof. induction l as [|y l IH]; intros [|i] [|j] x L; cbn in *; try lia; auto. Qed.
Lemma updNth_split {T} (l : list T) d : forall i x, (i < length l)%nat -> exists a b, l = a ++ nth i l d :: b /\ updNth l i x = a ++ x :: b.
Proof.
  induction l as [|y l IH]; intros [|i] x L; cbn in L; try lia.
  - exists [], l. auto.
  - destruct (IH i x) as (a & b & E & E'); [lia|]. exists (y :: a), b. cbn [nth updNth]. split; [cbn; now f_equal|cbn; now rewrite E'].
Qed.

Section Sim2.
Variables (G : asg -> Prop) (o : opts) (n0 : nat).
Hypothesis HG : over n0 G.
Notation sats := (sats G).
Notation sim := (sim G).

Lemma sats_agree M M' s : wf s -> (n0 <= nv s)%nat -> agree (nv s) M M' -> sats M s -> sats M' s.
Proof.
  intros W L A [H H']. split.
  - apply HG with M; auto. intros v V. apply A. lia.
  - intros c I. rewrite (satCon_agree (nv s) M M' c); auto. now apply (w_con s W).
Qed.
Lemma sim_frame f g h s s' : local (nv s) h -> sim f g s s' -> sim (fun M => f M + h M) (fun M => g M + h M) s s'.
Proof.
  intros L (A1 & A0 & A2 & A3 & A4). split; [auto|]. split; [auto|]. split; [auto|]. split.
  - intros M S. destruct (A3 M S) as (X & Y). split; auto. lia.
  - intros M S. destruct (A4 M S) as (M' & X & Y & Z). exists M'. split; auto. split; auto. rewrite (L M M' X). lia.
Qed.
Lemma sim_wf f g s s' : sim f g s s' -> wf s'. Proof. intros (_ & _ & H & _). exact H. Qed.
Lemma sim_nv f g s s' : sim f g s s' -> (nv s <= nv s')%nat. Proof. intros (H & _). exact H. Qed.
Lemma sim_back f g s s' M : sim f g s s' -> sats M s' -> sats M s. Proof. intros (_ & _ & _ & H & _) S. now apply H. Qed.

(** A state with more variables, constraints and assumptions *)
Lemma sim_grow f g s s' cs ds : wf s -> (n0 <= nv s)%nat -> (nv s <= nv s')%nat -> low s' = low s -> cons s' = cons s ++ cs -> dat s' = dat s ++ ds -> top s' = top s ->
  (forall c, In c cs -> litsBelow (nv s') (conLits c)) ->
  (forall d, In d ds -> dBelow (nv s') d /\ dOk (cons s') d) ->
  (forall d, In d ds -> hasCore d = true -> (nv s <= fst (d_lit d))%nat) -> NoDup (map d_lit (filter hasCore ds)) ->
  (forall f w ls b, In (Tag f w ls b) cs -> (nv s <= fst w)%nat /\ forall d c, In d ds -> d_core d = Some c -> w = neg (d_lit d) -> ls = c_lits c /\ b = c_bound c) ->
  (forall M, sats M s -> (forall c, In c cs -> satCon M c = true) -> f M <= potOf M ds + g M) ->
  (forall M, sats M s -> exists M', agree (nv s) M M' /\ (forall c, In c cs -> satCon M' c = true) /\ potOf M' ds + g M' <= f M) ->
  sim f g s s'.
Proof.
  intros W N0 NV EL EC ED ET B1 B2 B3 B4 B5 HA HB.
  assert (SS : forall M, sats M s' <-> sats M s /\ forall c, In c cs -> satCon M c = true).
  { intros M. unfold UcModel.sats. rewrite EC. split.
    - intros [X Y]. split; [split; auto|]; intros c I; apply Y, in_or_app; auto.
    - intros [[X Y] Z]. split; auto. intros c I. apply in_app_or in I as [I|I]; auto. }
  split; [auto|]. split; [lia|]. split; [|split].
  - constructor.
    + intros c I. rewrite EC in I. apply in_app_or in I as [I|I]; auto. apply below_le with (nv s); auto. now apply (w_con s W).
    + intros d I. rewrite ED in I. apply in_app_or in I as [I|I]; auto. destruct (w_dat s W d I) as (X & Y). split; [now apply dBelow_le with (nv s)|]. apply dOk_incl with (cons s); auto. intros c J. rewrite EC. apply in_or_app. now left.
    + intros p I. rewrite ET in I. rewrite EC. apply in_or_app. left. now apply (w_top s W).
    + rewrite ED, filter_app, map_app. apply nodup_app'; auto; [apply (w_tag s W)|]. intros p I J. apply in_map_iff in I as (d & <- & I). apply filter_In in I as (I & _). apply in_map_iff in J as (e & E & J). apply filter_In in J as (J & HC).
      pose proof (B3 e J HC). destruct (w_dat s W d I) as ((X & _) & _). rewrite <- E in X. lia.
    + intros d c f' ls b I E J. rewrite ED in I. rewrite EC in J. apply in_app_or in I as [I|I]; apply in_app_or in J as [J|J].
      * now apply (w_uni s W d c f').
      * destruct (w_dat s W d I) as ((X & _) & _). apply B5 in J as (Y & _). cbn in Y. lia.
      * apply (w_con s W) in J. specialize (J (neg (d_lit d)) (or_introl eq_refl)). assert (HC : hasCore d = true) by (unfold hasCore; now rewrite E). apply B3 in HC; auto. cbn in J. lia.
      * apply B5 in J as (_ & Y). now apply (Y d c).
  - intros M S. apply SS in S as (S & C). split; auto. unfold pot. rewrite EL, ED, potOf_app. specialize (HA M S C). lia.
  - intros M S. destruct (HB M S) as (M' & A & C & L). exists M'. split; auto. split; [apply SS; split; auto; now apply sats_agree with M|]. unfold pot. rewrite EL, ED, potOf_app. rewrite (potOf_agree (nv s) M M' (dat s)); auto; [lia|]. intros d I. now apply (w_dat s W).
Qed.

Lemma sim_setLow f g s z : wf s -> low s <= z -> (forall M, sats M s -> f M = g M + (z - low s)) -> sim f g s (setLow s z).
Proof.
  intros W L H. split; [cbn; lia|]. split; [cbn; lia|]. split; [destruct W; constructor; auto|]. split.
  - intros M S. split; [exact S|]. change (pot (setLow s z) M) with (pot s M). change (low (setLow s z)) with z. rewrite H; [lia|exact S].
  - intros M S. exists M. split; [apply agree_refl|]. split; [exact S|]. change (pot (setLow s z) M) with (pot s M). change (low (setLow s z)) with z. rewrite H; [lia|exact S].
Qed.
Lemma getData_in s i : (i < length (dat s))%nat -> In (getData s i) (dat s).
Proof. intros L. now apply nth_In. Qed.
Lemma sim_setData g s i d' : wf s -> (i < length (dat s))%nat -> d_lit d' = d_lit (getData s i) -> (d_core d' = d_core (getData s i) \/ d_core d' = None) ->
  0 <= d_w d' -> (d_as d' = true -> 0 < d_w d') -> (forall M, sats M s -> dPot M (getData s i) = dPot M d' + g M) -> sim (fun _ => 0) g s (setData s i d').
Proof.
  intros W L EL EC H1 H2 HP. destruct (updNth_split (dat s) ld0 i d' L) as (a & b & E & E'). change (nth i (dat s) ld0) with (getData s i) in E.
  assert (PP : forall M, sats M s -> pot s M = pot (setData s i d') M + g M).
  { intros M S. unfold pot. cbn [setData setDat dat]. rewrite E', E, !potOf_app, !potOf_cons. rewrite HP; auto. lia. }
  split; [cbn; lia|]. split; [cbn; lia|]. split.
  - destruct W as [A B C D U]. destruct (B _ (getData_in s i L)) as ((X1 & X2) & (X3 & X4 & X5)). constructor; auto.
    + cbn [setData setDat dat cons nv]. rewrite E'. intros d I. apply in_app_or in I as [I|[<-|I]]; [apply B; rewrite E; apply in_or_app; auto| |apply B; rewrite E; apply in_or_app; right; right; auto].
      split; [split; [now rewrite EL|]|split; auto; split; auto; rewrite EL]; destruct EC as [->| ->]; auto.
    + cbn [setData setDat dat]. rewrite E'. rewrite E in D. rewrite filter_app, map_app in *. cbn [filter] in *. unfold hasCore in *. destruct EC as [->| ->].
      * destruct (d_core (getData s i)); cbn [map] in *; now rewrite ?EL.
      * destruct (d_core (getData s i)); cbn [map] in *; auto. now apply NoDup_remove_1 in D.
    + cbn [setData setDat dat cons]. rewrite E'. intros d c f ls b1 I X J. apply in_app_or in I as [I|[<-|I]]; [apply (U d c f); auto; rewrite E; apply in_or_app; auto| |apply (U d c f); auto; rewrite E; apply in_or_app; right; right; auto].
      rewrite EL in J. apply (U (getData s i) c f); auto; [now apply getData_in|]. destruct EC as [EC|EC]; congruence.
  - split.
    + intros M S. assert (S' : sats M s) by exact S. split; auto. rewrite (PP M S'). change (low (setData s i d')) with (low s). lia.
    + intros M S. exists M. split; [apply agree_refl|]. split; [exact S|]. rewrite (PP M S). change (low (setData s i d')) with (low s). lia.
Qed.

(** addOllCon *)
Lemma max_mul w z : 0 <= w -> w * Z.max 0 z = Z.max 0 (w * z).
Proof. intros. destruct (Z.max_spec 0 z) as [[A ->]|[A ->]]; [rewrite Z.max_r; auto; apply Z.mul_nonneg_nonneg; lia|]. rewrite Z.mul_0_r, Z.max_l; auto. apply Z.mul_nonneg_nonpos; lia. Qed.
Lemma sim_ollTag s ls B w : wf s -> (n0 <= nv s)%nat -> 0 < w -> litsBelow (nv s) ls -> 1 <= B <= Z.of_nat (length ls) ->
  sim (fun M => w * Z.max 0 (count M ls - (B - 1))) (fun _ => 0) s
    (addCon (newAssumption (newVar s) (pos (nv s)) w (if B =? Z.of_nat (length ls) then None else Some (Core B w ls))) (Tag (negb (succinct o)) (neg (pos (nv s))) ls B)).
Proof.
  intros W N0 Hw BL HB. set (c := if B =? Z.of_nat (length ls) then None else Some (Core B w ls)). set (tg := Tag (negb (succinct o)) (neg (pos (nv s))) ls B).
  assert (CP : forall M, corePot M c = w * Z.max 0 (count M ls - B)).
  { intros M. unfold c. destruct (Z.eqb_spec B (Z.of_nat (length ls))) as [E|E]; cbn; auto. pose proof (count_range M ls). rewrite Z.max_l; lia. }
  apply sim_grow with (cs := [tg]) (ds := [LD (pos (nv s)) w true c]); auto; try reflexivity.
  - cbn. lia.
  - intros x [<-|[]]. cbn. intros p [<-|I]; [cbn; lia|]. apply BL in I. lia.
  - intros d [<-|[]]. split; [split; [cbn; lia|]|split; [cbn; lia|split; [cbn; lia|]]]; cbn [d_core]; unfold c; destruct (B =? Z.of_nat (length ls)); auto.
    + intros p I. cbn in I. apply BL in I. cbn. lia.
    + cbn [c_weight c_lits c_bound d_lit]. split; auto. exists (negb (succinct o)). cbn [addCon cons]. apply in_or_app. right. now left.
  - intros d [<-|[]] _. cbn. lia.
  - cbn [filter]. destruct (hasCore _); cbn [map]; constructor; [intros []|constructor].
  - intros f w' ls' b' [E|[]]. injection E as <- <- <- <-. split; [cbn; lia|]. intros d c' [<-|[]] E _. cbn [d_core] in E. unfold c in E. destruct (B =? _); [discriminate|]. injection E as <-. auto.
  - intros M S C. specialize (C tg (or_introl eq_refl)). unfold potOf, dPot. cbn [fold_right d_w d_lit d_core]. rewrite CP. unfold tg, satCon in C. rewrite holds_neg in C. unfold viol.
    assert (X : B <= count M ls -> holds M (pos (nv s)) = false).
    { intros X. apply Z.leb_le in X. rewrite X in C. destruct (holds M (pos (nv s))), (succinct o); cbn in C; congruence. }
    pose proof (b2z_range (negb (holds M (pos (nv s))))) as R. destruct (Z.le_gt_cases B (count M ls)) as [Y|Y].
    + rewrite (X Y). cbn [negb b2z]. rewrite !Z.max_r by lia. nia.
    + rewrite (Z.max_l 0 (count M ls - (B - 1))), (Z.max_l 0 (count M ls - B)) by lia. nia.
  - intros M S. exists (updM M (nv s) (count M ls <? B)). assert (A : agree (nv s) M (updM M (nv s) (count M ls <? B))) by (apply updM_agree; lia). split; auto. pose proof (count_agree _ _ _ ls A BL) as EC. split.
    + intros x [<-|[]]. unfold tg, satCon. rewrite EC, holds_neg, holds_upd, (Z.ltb_antisym B (count M ls)). destruct (B <=? count M ls), (succinct o); reflexivity.
    + unfold potOf, dPot. cbn [fold_right d_w d_lit d_core]. rewrite CP, EC. unfold viol. rewrite holds_upd. destruct (Z.ltb_spec (count M ls) B); cbn [negb b2z].
      * rewrite !Z.max_l by lia. lia.
      * rewrite !Z.max_r by lia. nia.
Qed.
Lemma sim_ollCon s t w : wf s -> (n0 <= nv s)%nat -> 0 < w -> litsBelow (nv s) (snd t) ->
  sim (fun M => w * Z.max 0 (count M (snd t) - (fst t - 1))) (fun _ => 0) s (addOllCon o s t w).
Proof.
  intros W N0 Hw BL. destruct t as [b ls]. cbn [fst snd] in *. unfold addOllCon.
  assert (H : forall s1 B, wf s1 -> nv s1 = nv s -> 1 <= B -> sim (fun M => w * Z.max 0 (count M ls - (B - 1))) (fun _ => 0) s1
    (if Z.of_nat (length ls) <? B then s1 else addCon (newAssumption (newVar s1) (pos (nv s1)) w (if B =? Z.of_nat (length ls) then None else Some (Core B w ls))) (Tag (negb (succinct o)) (neg (pos (nv s1))) ls B))).
  { intros s1 B W1 E HB. destruct (Z.ltb_spec (Z.of_nat (length ls)) B) as [L|L].
    - apply sim_refl; auto. intros M _. pose proof (count_range M ls). rewrite Z.max_l; lia.
    - apply sim_ollTag; auto; rewrite ?E; auto; lia. }
  destruct (Z.leb_spec b 0) as [L|L].
  - apply sim_trans with (g := fun M => w * Z.max 0 (count M ls - (1 - 1))) (s1 := setLow s (low s + (1 - b) * w)).
    + apply sim_setLow; auto; [nia|]. intros M _. pose proof (count_range M ls). rewrite !Z.max_r by lia. nia.
    + apply H; auto; [destruct W; constructor; auto|lia].
  - apply H; auto. lia.
Qed.

(** closeCore *)
Definition keep (ids : list nat) (s s' : ust) : Prop :=
  up s' = up s /\ disj s' = disj s /\ todo s' = todo s /\ shr s' = shr s /\ (length (dat s) <= length (dat s'))%nat /\
  (forall j, (j < length (dat s))%nat -> ~ In j ids -> getData s' j = getData s j) /\
  (forall j, (length (dat s) <= j < length (dat s'))%nat -> d_as (getData s' j) = true).
Lemma keep_refl ids s : keep ids s s.
Proof. repeat (split; [auto|]). intros j J. lia. Qed.
Lemma keep_incl ids ids' s s' : (forall i, In i ids -> In i ids') -> keep ids s s' -> keep ids' s s'.
Proof. intros H (A & B & C & D & E & F & K). repeat (split; [auto|]). auto. Qed.
Lemma keep_trans ids s s1 s2 : (forall i, In i ids -> (i < length (dat s))%nat) -> keep ids s s1 -> keep ids s1 s2 -> keep ids s s2.
Proof.
  intros H (A1 & A2 & A3 & A4 & A5 & A6 & A7) (B1 & B2 & B3 & B4 & B5 & B6 & B7). split; [congruence|]. split; [congruence|]. split; [congruence|]. split; [congruence|]. split; [lia|]. split.
  - intros j J N. rewrite B6; auto. lia.
  - intros j J. destruct (Nat.lt_ge_cases j (length (dat s1))) as [L|L]; [|apply B7; lia]. rewrite B6; auto; [apply A7; lia|]. intros I. apply H in I. lia.
Qed.
Lemma keep_dat ids s s' : dat s' = dat s -> up s' = up s -> disj s' = disj s -> todo s' = todo s -> shr s' = shr s -> keep ids s s'.
Proof. intros E E1 E2 E3 E4. split; [auto|]. split; [auto|]. split; [auto|]. split; [auto|]. rewrite E. split; auto. split; [intros j J _; unfold getData; now rewrite E|intros j J; lia]. Qed.
Lemma keep_same ids s s1 s2 : keep ids s s1 -> dat s2 = dat s1 -> up s2 = up s1 -> disj s2 = disj s1 -> todo s2 = todo s1 -> shr s2 = shr s1 -> keep ids s s2.
Proof.
  intros (A1 & A2 & A3 & A4 & A5 & A6 & A7) E E1 E2 E3 E4. split; [congruence|]. split; [congruence|]. split; [congruence|]. split; [congruence|]. rewrite E. split; auto. unfold getData in *. rewrite E. auto.
Qed.
Lemma keep_app ids s s' ds : dat s' = dat s ++ ds -> (forall d, In d ds -> d_as d = true) -> up s' = up s -> disj s' = disj s -> todo s' = todo s -> shr s' = shr s -> keep ids s s'.
Proof.
  intros E H E1 E2 E3 E4. split; [auto|]. split; [auto|]. split; [auto|]. split; [auto|]. rewrite E, app_length. split; [lia|]. split.
  - intros j J _. unfold getData. rewrite E. now apply app_nth1.
  - intros j J. unfold getData. rewrite E, app_nth2 by lia. apply H, nth_In. lia.
Qed.
Lemma keep_setData s i d : keep [i] s (setData s i d).
Proof.
  split; [auto|]. split; [auto|]. split; [auto|]. split; [auto|]. cbn [setData setDat dat]. rewrite updNth_len. split; auto. split.
  - intros j J N. unfold getData. cbn [setData setDat dat]. apply updNth_ne. intros ->. apply N. now left.
  - intros j J. lia.
Qed.
Lemma keep_fix ids s p : keep ids s (fixLit o s p).
Proof. destruct (fix_same o s p) as (A & B & C & D & E & F & K). now apply keep_dat. Qed.
Lemma keep_ollCon ids s t w : keep ids s (addOllCon o s t w).
Proof.
  unfold addOllCon. destruct t as [b ls]. destruct (b <=? 0); cbv zeta; destruct (_ <? _); try (now apply keep_dat); eapply keep_app; try reflexivity; intros d [<-|[]]; reflexivity.
Qed.

Lemma sats_del M s w : sats M s -> sats M (delTag s w).
Proof. intros [A B]. split; auto. intros c I. apply B. cbn in I. now apply filter_In in I. Qed.
Lemma wf_del s w : wf s -> (forall d, In d (dat s) -> hasCore d = true -> neg (d_lit d) <> w) -> wf (delTag s w).
Proof.
  intros [A B C D U] H. constructor; cbn [delTag cons dat top nv]; auto.
  - intros c I. apply filter_In in I as [I _]. auto.
  - intros d I. destruct (B d I) as (X & Y & Z & Q). split; auto. split; auto. split; auto. destruct (d_core d) as [c|] eqn:E; auto. destruct Q as (U1 & f & U2). split; auto. exists f. apply filter_In. split; auto.
    apply negb_true_iff. destruct (lit_eqb w (neg (d_lit d))) eqn:E'; auto. apply lit_eqb_eq in E'. exfalso. apply (H d I); auto. unfold hasCore. now rewrite E.
  - intros p I. apply filter_In. split; auto.
  - intros d c f ls b I E J. apply filter_In in J as [J _]. eauto.
Qed.
Lemma sim_closeCore s i c (sat : bool) : wf s -> (n0 <= nv s)%nat -> (i < length (dat s))%nat -> d_core (getData s i) = Some c -> d_w (getData s i) = 0 -> d_as (getData s i) = false ->
  (sat = true -> forall M, G M -> (forall p, In p (top s) -> holds M p = true) -> c_bound c <= count M (c_lits c)) ->
  sim (fun _ => 0) (fun M => c_weight c * Z.max 0 (count M (c_lits c) - c_bound c)) s (closeCore o s i sat).
Proof.
  intros W N0 L EC EW EA HS. set (d := getData s i). unfold closeCore. fold d. set (s1 := setData s i (LD (d_lit d) (d_w d) (d_as d) None)).
  assert (H1 : sim (fun _ => 0) (fun M => c_weight c * Z.max 0 (count M (c_lits c) - c_bound c)) s s1).
  { apply sim_setData; auto; cbn [d_lit d_w d_as d_core]; fold d; try (unfold d; rewrite ?EW, ?EA; auto; lia); try (unfold d; rewrite EA; discriminate).
    intros M _. unfold dPot. cbn [d_lit d_w d_core]. unfold d. rewrite EC. cbn [corePot]. lia. }
  destruct sat; [|exact H1]. specialize (HS eq_refl). apply sim_trans with (1 := H1). pose proof (sim_wf _ _ _ _ H1) as W1.
  destruct (w_dat s W _ (getData_in s i L)) as ((X1 & X2) & (X3 & X4 & X5)). rewrite EC in X5. destruct X5 as (X5 & f & X6). fold d in X1, X6.
  assert (SB : forall M, sats M (fixLit o (delTag s1 (neg (d_lit d))) (neg (d_lit d))) -> sats M s1).
  { intros M S. apply sats_fix in S as (S & HN). destruct S as [S1 S2]. split; auto. intros x I.
    assert (TT : forall p, In p (top s) -> holds M p = true).
    { intros p J. apply (w_top s W) in J. assert (Z : satCon M (Cls [p]) = true); [apply S2; cbn [delTag cons]; apply filter_In; split; auto|]. cbn in Z. now rewrite orb_false_r in Z. }
    destruct (match x with Tag _ w' _ _ => lit_eqb (neg (d_lit d)) w' | _ => false end) eqn:E.
    - destruct x as [y|y z|f' w' ls b]; try discriminate. apply lit_eqb_eq in E. subst w'.
      destruct (w_uni s W d c f' ls b (getData_in s i L) EC I) as (-> & ->). unfold satCon. rewrite HN. specialize (HS M S1 TT). apply Z.leb_le in HS. rewrite HS. now destruct f'.
    - apply S2. cbn [delTag cons]. apply filter_In. split; auto. destruct x; auto. now rewrite E. }
  assert (WD : wf (delTag s1 (neg (d_lit d)))).
  { apply wf_del; auto. intros d' I HC E. destruct (updNth_split (dat s) ld0 i (LD (d_lit d) (d_w d) (d_as d) None) L) as (a & b & E1 & E2). change (nth i (dat s) ld0) with d in E1. cbn [s1 setData setDat dat] in I. unfold s1 in I. cbn [setData setDat dat] in I. rewrite E2 in I.
    assert (E3 : d_lit d' = d_lit d) by (rewrite <- (neg_neg (d_lit d')), E; apply neg_neg).
    assert (HD : hasCore d = true) by (unfold hasCore, d; now rewrite EC).
    pose proof (w_tag s W) as ND. rewrite E1, filter_app, map_app in ND. cbn [filter] in ND. rewrite HD in ND. cbn [map] in ND. apply NoDup_remove_2 in ND. apply ND. rewrite <- E3. apply in_or_app.
    apply in_app_or in I as [I|[<-|I]]; [left|discriminate HC|right]; apply in_map, filter_In; auto. }
  destruct (fix_same o (delTag s1 (neg (d_lit d))) (neg (d_lit d))) as (E1 & E2 & E3 & _).
  assert (EP : forall M, pot (fixLit o (delTag s1 (neg (d_lit d))) (neg (d_lit d))) M = pot s1 M) by (intros M; unfold pot; now rewrite E2).
  split; [rewrite E3; cbn; lia|]. split; [rewrite E1; cbn; lia|]. split; [apply wf_fixLit; auto; exact X1|]. split.
  - intros M S. split; [auto|]. rewrite EP, E1. change (low (delTag s1 (neg (d_lit d)))) with (low s1). lia.
  - intros M S. exists M. split; [apply agree_refl|]. split; [|rewrite EP, E1; change (low (delTag s1 (neg (d_lit d)))) with (low s1); lia].
    apply sats_fix. split; [now apply sats_del|]. assert (SS : sats M s) by exact S. assert (HC : c_bound c <= count M (c_lits c)) by (apply HS; [apply S|]; intros p J; now apply (top_holds G M s)).
    apply (sats_cons G M s SS) in X6. unfold satCon in X6. apply Z.leb_le in HC. rewrite HC in X6. destruct f; [now apply eqb_prop in X6|]. now rewrite orb_false_r in X6.
Qed.
Lemma keep_closeCore s i b : keep [i] s (closeCore o s i b).
Proof.
  unfold closeCore. set (s1 := setData s i _). assert (K : keep [i] s s1) by apply keep_setData. destruct b; [|exact K].
  destruct (fix_same o (delTag s1 (neg (d_lit (getData s i)))) (neg (d_lit (getData s i)))) as (A & B & C & D & E & F & H). apply keep_same with s1; auto.
Qed.
(** relaxation *)
Definition settled (d : ldat) : Prop := d_as d = true \/ (d_w d = 0 /\ d_core d = None).
Lemma sim_relax s i : wf s -> (n0 <= nv s)%nat -> (i < length (dat s))%nat -> d_w (getData s i) = 0 -> d_as (getData s i) = false ->
  sim (fun _ => 0) (fun _ => 0) s (relax o s i) /\ keep [i] s (relax o s i) /\ settled (getData (relax o s i) i) /\ d_lit (getData (relax o s i) i) = d_lit (getData s i).
Proof.
  intros W N0 L EW EA. unfold relax. destruct (d_core (getData s i)) as [c|] eqn:EC.
  2:{ split; [apply sim_refl; auto|]. split; [apply keep_refl|]. split; [right; auto|auto]. }
  set (t := tempOf s (c_bound c + 1) (c_lits c)). set (s1 := closeCore o s i (fst t <=? 1)).
  destruct (w_dat s W _ (getData_in s i L)) as ((X1 & X2) & (X3 & X4 & X5)). rewrite EC in X2, X5. destruct X5 as (X5 & f & X6).
  assert (H1 : sim (fun _ => 0) (fun M => c_weight c * Z.max 0 (count M (c_lits c) - c_bound c)) s s1).
  { apply sim_closeCore; auto. intros E M GM TT. apply Z.leb_le in E. pose proof (tadd_fold M (top s) (c_lits c) TT (c_bound c + 1, [])) as H. fold (tempOf s (c_bound c + 1) (c_lits c)) in H. fold t in H. cbn [fst snd] in H. rewrite count_nil in H. pose proof (count_range M (snd t)). lia. }
  assert (K1 : keep [i] s s1) by apply keep_closeCore.
  assert (K2 : keep [i] s1 (addOllCon o s1 t (c_weight c))) by apply keep_ollCon.
  assert (LI : forall j, In j [i] -> (j < length (dat s))%nat) by (intros j [<-|[]]; auto).
  split; [|split; [now apply keep_trans with s1|]].
  - apply sim_trans with (1 := H1). pose proof (sim_nv _ _ _ _ H1) as NV. eapply sim_ext; [apply sim_ollCon; auto; [now apply sim_wf in H1|lia|]| |].
    + intros p I. apply temp_in, X2 in I. lia.
    + intros M S. cbv beta. apply (sim_back _ _ _ _ M H1) in S. pose proof (temp_count G M s (c_bound c + 1) (c_lits c) W S) as H. fold t in H. do 2 f_equal. lia.
    + reflexivity.
  - assert (LS : (i < length (dat s1))%nat) by (destruct K1 as (_ & _ & _ & _ & K & _); lia).
    assert (E : getData (addOllCon o s1 t (c_weight c)) i = getData s1 i) by (destruct (keep_ollCon [] s1 t (c_weight c)) as (_ & _ & _ & _ & _ & K & _); apply K; auto).
    rewrite E. assert (E' : getData s1 i = LD (d_lit (getData s i)) (d_w (getData s i)) (d_as (getData s i)) None).
    { unfold s1, closeCore. destruct (fst t <=? 1).
      - unfold getData at 1. destruct (fix_same o (delTag (setData s i (LD (d_lit (getData s i)) (d_w (getData s i)) (d_as (getData s i)) None)) (neg (d_lit (getData s i)))) (neg (d_lit (getData s i)))) as (_ & -> & _). cbn [delTag setData setDat dat]. now apply updNth_eq.
      - unfold getData at 1. cbn [setData setDat dat]. now apply updNth_eq. }
    rewrite E'. split; [right; auto|reflexivity].
Qed.
(** A literal of a core *)
Lemma sim_coreLit w s i : wf s -> (n0 <= nv s)%nat -> (i < length (dat s))%nat -> 0 < w <= d_w (getData s i) -> d_as (getData s i) || disj s = true ->
  sim (fun _ => 0) (fun M => w * viol M (d_lit (getData s i))) s (coreLit o w s i) /\ keep [i] s (coreLit o w s i) /\ settled (getData (coreLit o w s i) i) /\ d_lit (getData (coreLit o w s i) i) = d_lit (getData s i).
Proof.
  intros W N0 L Hw HA. unfold coreLit. set (d := getData s i) in *. destruct (Z.leb_spec (d_w d - w) 0) as [Z|Z].
  - set (s1 := setData s i (LD (d_lit d) 0 false (d_core d))).
    assert (E1 : getData s1 i = LD (d_lit d) 0 false (d_core d)) by (unfold getData, s1; cbn [setData setDat dat]; now apply updNth_eq).
    assert (L1 : (i < length (dat s1))%nat) by (unfold s1; cbn [setData setDat dat]; now rewrite updNth_len).
    assert (H1 : sim (fun _ => 0) (fun M => w * viol M (d_lit d)) s s1).
    { apply sim_setData; auto; cbn [d_lit d_w d_as d_core]; try lia; try (now left); try discriminate. intros M _. fold d. unfold dPot. cbn [d_lit d_w d_as d_core]. assert (w = d_w d) by lia. subst w. lia. }
    destruct (sim_relax s1 i) as (H2 & K2 & ST & EL); rewrite ?E1; auto; [now apply sim_wf in H1|].
    split; [|split; [apply keep_trans with s1; auto; [intros j [<-|[]]; auto|apply keep_setData]|split; auto; rewrite EL, E1; reflexivity]].
    apply sim_trans with (1 := H1). apply (sim_frame _ _ (fun M => w * viol M (d_lit d))) in H2.
    + eapply sim_ext; [exact H2| |]; intros; cbv beta; lia.
    + apply local_mul, local_viol. apply (w_dat s W). now apply getData_in.
  - split; [|split; [apply keep_setData|]].
    + apply sim_setData; auto; cbn [d_lit d_w d_as d_core]; try lia; try (now left). intros M _. fold d. unfold dPot. cbn [d_lit d_w d_as d_core]. lia.
    + unfold getData. cbn [setData setDat dat]. rewrite updNth_eq by auto. split; [now left|reflexivity].
Qed.
End Sim2.
