(** C49: core-guided optimisation stops only with the optimum. *)
From Coq Require Import List Bool Arith ZArith Lia.
Import ListNotations.
From Verif Require Import Base UcModel UcSpec UcProofs UcProofs2 UcProofs3 UcProofs4 UcProofs5 UcProofs6.
Open Scope Z_scope.

(** Reachable on a level: from the start of the level, whatever cores and models the search finds *)
Definition reached (G : asg -> Prop) (o : opts) (n : nat) (obj : list (lit * Z)) (k : nat) (s : ust) : Prop :=
  over n G /\ objBelow n obj /\ exists val u b, implied G val /\ usteps G o (costOf obj) (initObj val obj u n b) k s.
Lemma reached_inv G o n obj k s : reached G o n obj k s -> over n G /\ inv G n (costOf obj) s.
Proof.
  intros (HG & B & val & u & b & V & H). split; auto. destruct (init_inv G n val n u b obj V (le_n _) B) as (I & _). now apply (inv_steps G o n HG (costOf obj) _ k s I) in H.
Qed.

(** The lower bound is never above the cost of a model that the bound admits *)
Theorem c49_lower_bound_sound G o n obj k s M : reached G o n obj k s -> G M -> costOf obj M <= up s -> low s <= costOf obj M.
Proof. intros R HM HU. apply reached_inv in R as (_ & I). now apply (inv_lower G n (costOf obj) s M). Qed.
Print Assumptions c49_lower_bound_sound.

(** A model that satisfies all assumptions, with no core waiting, costs the lower bound and is optimal *)
Theorem c49_model_is_optimal G o n obj k s M : reached G o n obj k s -> todo s = [] -> shr s = None -> sats G M s -> (forall d, In d (active s) -> holds M (d_lit d) = true) ->
  costOf obj M <= up s -> optimal G (costOf obj) M /\ costOf obj M = low s.
Proof.
  intros R HT HS S H HU. pose proof R as R'. apply reached_inv in R as (_ & I). pose proof (inv_optimal G n (costOf obj) s M I HT HS S H) as L. assert (HM : G M) by apply S.
  pose proof (inv_lower G n (costOf obj) s M I HM HU). split; [|lia]. split; auto. intros M' HM'. destruct (Z.le_gt_cases (costOf obj M') (up s)) as [L'|L']; [|lia]. pose proof (inv_lower G n (costOf obj) s M' I HM' L'). lia.
Qed.
Print Assumptions c49_model_is_optimal.

(** When the bounds meet, the best model so far is optimal *)
Theorem c49_bounds_meet G o n obj k s M : reached G o n obj k s -> G M -> costOf obj M = up s -> up s <= low s -> optimal G (costOf obj) M.
Proof.
  intros R HM E L. apply reached_inv in R as (_ & I). split; auto. intros M' HM'. destruct (Z.le_gt_cases (costOf obj M') (up s)) as [L'|L']; [|lia]. pose proof (inv_lower G n (costOf obj) s M' I HM' L'). lia.
Qed.
Print Assumptions c49_bounds_meet.

(** When nothing satisfies the constraints any more, no model is within the bound *)
Theorem c49_nothing_left G o n obj k s M : reached G o n obj k s -> (forall M', ~ sats G M' s) -> G M -> up s < costOf obj M.
Proof.
  intros R HN HM. apply reached_inv in R as (_ & (_ & _ & I2)). destruct (Z.le_gt_cases (costOf obj M) (up s)) as [L|L]; auto. destruct (I2 M HM L) as (M' & _ & S & _). destruct (HN M' S).
Qed.
Print Assumptions c49_nothing_left.

(** There are at most as many cores as the cost of a model is above the first lower bound *)
Theorem c49_few_cores G o n obj val u b k s M : over n G -> objBelow n obj -> implied G val -> usteps G o (costOf obj) (initObj val obj u n b) k s ->
  G M -> costOf obj M <= up s -> Z.of_nat k <= costOf obj M - low (initObj val obj u n b).
Proof.
  intros HG B V H HM HU. destruct (init_inv G n val n u b obj V (le_n _) B) as (I & E). destruct (inv_steps G o n HG (costOf obj) _ k s I H) as ((T & I1 & I2) & L). destruct (I2 M HM HU) as (M' & _ & S & X). pose proof (potOf_nonneg (cons s) M' (dat s)) as P. assert (0 <= pot s M') by (apply P; intros d J; now apply (w_dat s (t_wf _ _ s T))). lia.
Qed.
Print Assumptions c49_few_cores.

(** Fixing a finished level leaves exactly its optimal models *)
Theorem c49_level_fixed G o n obj k s M : reached G o n obj k s -> todo s = [] -> shr s = None -> low s = up s -> (exists M0, G M0 /\ costOf obj M0 <= up s) ->
  (optimal G (costOf obj) M <-> exists M', agree n M M' /\ sats G M' (fixLevel o s)).
Proof.
  intros R HT HS E (M0 & HM0 & HC0). destruct R as (HG & B & R). assert (R' : reached G o n obj k s) by (split; auto). apply reached_inv in R' as (_ & I).
  destruct (inv_fix G o n (costOf obj) s I HT HS) as (F1 & F2); [lia|]. assert (CA : forall M M', agree n M M' -> costOf obj M' = costOf obj M).
  { clear -B. intros M M' A. induction obj as [|[p w] l IH]; auto. cbn. rewrite (holds_agree n M M' p A); [|apply (B p w); now left]. f_equal. apply IH. intros q z J. apply (B q z). now right. }
  split.
  - intros (HM & HO). apply F2; auto. specialize (HO M0 HM0). lia.
  - intros (M' & A & S). destruct (F1 M' S) as (HM' & L). split; [apply HG with M'; auto; now apply agree_sym|]. intros M2 HM2. rewrite <- (CA M M' A). destruct (Z.le_gt_cases (costOf obj M2) (up s)) as [L'|L']; [|lia]. pose proof (inv_lower G n (costOf obj) s M2 I HM2 L'). lia.
Qed.
Print Assumptions c49_level_fixed.

Lemma cost_agree n obj M M' : objBelow n obj -> agree n M M' -> costOf obj M' = costOf obj M.
Proof.
  intros B A. induction obj as [|[p w] l IH]; auto. cbn. rewrite (holds_agree n M M' p A); [|apply (B p w); now left]. f_equal. apply IH. intros q z J. apply (B q z). now right.
Qed.
Lemma lexLe_agree n objs M M' M2 : (forall f, In f objs -> objBelow n f) -> agree n M M' -> (lexLe objs M' M2 <-> lexLe objs M M2).
Proof.
  intros B A. induction objs as [|f r IH]; cbn [lexLe]; [tauto|]. rewrite (cost_agree n f M M'); auto; [|apply B; now left]. rewrite IH; [tauto|intros g J; apply B; now right].
Qed.
Lemma lexLe_agree_r n objs M M' M2 : (forall f, In f objs -> objBelow n f) -> agree n M M' -> (lexLe objs M2 M' <-> lexLe objs M2 M).
Proof.
  intros B A. induction objs as [|f r IH]; cbn [lexLe]; [tauto|]. rewrite (cost_agree n f M M'); auto; [|apply B; now left]. rewrite IH; [tauto|intros g J; apply B; now right].
Qed.
(** Level after level: what is left in the end are exactly the lexicographically optimal models *)
Theorem c49_lexicographic o G n objs G' n' : lexRun o G n objs G' n' -> over n G -> (forall f, In f objs -> objBelow n f) -> (exists M, G' M) ->
  (n <= n')%nat /\ over n' G' /\ forall M, lexOptimal G objs M <-> exists M', agree n M M' /\ G' M'.
Proof.
  intros R. induction R as [G n|G n f r val u b k s G' n' V H HT HS E R IH]; intros HG B NE.
  - split; [lia|]. split; auto. intros M. split.
    + intros (HM & _). exists M. split; [apply agree_refl|auto].
    + intros (M' & A & HM'). split; [apply HG with M'; auto; now apply agree_sym|]. intros; exact Logic.I.
  - assert (Bf : objBelow n f) by (apply B; now left). destruct (init_inv G n val n u b f V (le_n _) Bf) as (I0 & _). destruct (inv_steps G o n HG (costOf f) _ k s I0 H) as (I & _). pose proof (t_wf _ _ s (proj1 I)) as W. pose proof (t_nv _ _ s (proj1 I)) as N.
    destruct (fixLevel_sats G o s W) as (FN & FW & _). destruct (inv_fix G o n (costOf f) s I HT HS) as (F1 & F2); [lia|].
    assert (HG1 : over (nv s) (fun M => sats G M (fixLevel o s))). { intros M M' A S. apply sats_agree with (n0 := n) (M := M); auto; rewrite FN; auto. }
    destruct IH as (N' & HG' & IH); auto. { intros g J p w Q. specialize (B g (or_intror J) p w Q). lia. }
    split; [lia|]. split; auto. destruct NE as (Mx & NE).
    assert (NE1 : exists M1, sats G M1 (fixLevel o s)). { destruct (proj2 (IH Mx)) as (Q & _); [exists Mx; split; [apply agree_refl|auto]|]. eauto. }
    destruct NE1 as (M1 & S1). destruct (F1 M1 S1) as (HM1 & L1). pose proof (inv_lower G n (costOf f) s M1 I HM1) as L1'.
    assert (LB : forall M, G M -> low s <= costOf f M). { intros M HM. destruct (Z.le_gt_cases (costOf f M) (up s)); [now apply (inv_lower G n (costOf f) s M)|lia]. }
    assert (Br : forall g, In g r -> objBelow n g) by (intros g J; apply B; now right).
    intros M. split.
    + intros (HM & HO). assert (CM : costOf f M = low s). { specialize (HO M1 HM1). cbn [lexLe] in HO. specialize (LB M HM). lia. }
      destruct (F2 M HM) as (M2 & A2 & S2); [lia|]. destruct (proj1 (IH M2)) as (M3 & A3 & G3).
      { split; auto. intros M4 S4. destruct (F1 M4 S4) as (HM4 & L4). specialize (LB M4 HM4). apply (lexLe_agree n r M M2); auto. specialize (HO M4 HM4). cbn [lexLe] in HO. destruct HO as [HO|(_ & HO)]; [lia|auto]. }
      exists M3. split; auto. apply agree_trans with (nv s) M2; auto.
    + intros (M' & A & HM'). destruct (proj2 (IH M')) as (S' & HO'); [exists M'; split; [apply agree_refl|auto]|]. destruct (F1 M' S') as (HGM' & L').
      assert (HM : G M) by (apply HG with M'; auto; now apply agree_sym). split; auto. intros M2 HM2. cbn [lexLe]. rewrite <- (cost_agree n f M M' Bf A). pose proof (LB M' HGM'). pose proof (LB M2 HM2).
      destruct (Z.eq_dec (costOf f M') (costOf f M2)) as [EQ|NQ]; [right; split; auto|left; lia].
      destruct (F2 M2 HM2) as (M3 & A3 & S3); [lia|]. specialize (HO' M3 S3). apply (lexLe_agree n r M M') in HO'; auto. now apply (lexLe_agree_r n r M2 M3) in HO'.
Qed.
Print Assumptions c49_lexicographic.

(** Levels that are passed over at the start, with the costs of a model as bounds: exactly the models that are optimal on them remain *)
Lemma lex_first (G G1 : asg -> Prop) f r z M : (forall M, G M -> z <= costOf f M) -> (exists M, G M /\ costOf f M = z) -> (forall M, G1 M <-> G M /\ costOf f M = z) -> (lexOptimal G (f :: r) M <-> lexOptimal G1 r M).
Proof.
  intros LB (M0 & HM0 & E0) E. split.
  - intros (HM & HO). assert (CM : costOf f M = z) by (specialize (HO M0 HM0); cbn [lexLe] in HO; specialize (LB M HM); lia). split; [now apply E|]. intros M' HM'. apply E in HM' as (HM' & C'). specialize (HO M' HM'). cbn [lexLe] in HO. destruct HO as [HO|(_ & HO)]; [lia|auto].
  - intros (HM & HO). apply E in HM as (HM & CM). split; auto. intros M' HM'. cbn [lexLe]. specialize (LB M' HM'). destruct (Z.eq_dec (costOf f M') z) as [Q|Q]; [right; split; [lia|]; apply HO, E; auto|left; lia].
Qed.
Lemma pot_pos M l : (forall d, In d l -> d_core d = None /\ 0 < d_w d) -> 0 <= potOf M l /\ (potOf M l = 0 <-> forall d, In d l -> holds M (d_lit d) = true).
Proof.
  induction l as [|d l IH]; intros H; [split; [cbn; lia|split; [intros _ d []|reflexivity]]|]. destruct (H d (or_introl eq_refl)) as (C & W). destruct IH as (P & IH); [intros e J; apply H; now right|]. rewrite potOf_cons. unfold dPot. rewrite C. cbn [corePot].
  assert (V : d_w d * viol M (d_lit d) = if holds M (d_lit d) then 0 else d_w d) by (unfold viol; destruct (holds M (d_lit d)); cbn; lia). rewrite V. destruct (holds M (d_lit d)) eqn:E.
  - split; [lia|]. split; [intros Z e [<-|J]; auto; apply IH; auto; lia|]. intros Q. assert (potOf M l = 0) by (apply IH; intros e J; apply Q; now right). lia.
  - split; [lia|]. split; [lia|]. intros Q. specialize (Q d (or_introl eq_refl)). congruence.
Qed.
Theorem c49_levels_passed n cn Mb : forall lv (G : asg -> Prop) val next fixed0 s0, over n G -> implied G val -> (forall f u, In (f, u) lv -> objBelow n f /\ u = costOf f Mb) -> G Mb ->
  let '(fx, s, nx) := initLoop n cn val lv true next fixed0 s0 in
  exists pre post F, lv = pre ++ post /\ fx = fixed0 ++ F /\ (forall M, lexOptimal G (map fst pre) M <-> G M /\ forall p, In p F -> holds M p = true) /\
  match post with
  | [] => lv <> [] -> nx = cn
  | (f, u) :: _ => nx = false /\ exists val', implied (fun M => G M /\ forall p, In p F -> holds M p = true) val' /\ s = initObj val' f u n false /\ dat s <> []
  end.
Proof.
  induction lv as [|[f u] r IH]; intros G val next fixed0 s0 HG V B HM.
  - cbn [initLoop]. exists [], [], []. split; auto. split; [now rewrite app_nil_r|]. split; [|congruence]. intros M. unfold lexOptimal. cbn. split; intros (A & _); (split; [exact A|]); [intros p []|auto].
  - cbn [initLoop]. destruct (B f u (or_introl eq_refl)) as (Bf & Eu). destruct (init_fold G n val n u false f V (le_n _) Bf) as (A1 & A2 & A3 & A4 & A5 & A6 & A7 & A8). set (s := initObj val f u n false) in *.
    assert (PP : forall M, 0 <= pot s M /\ (pot s M = 0 <-> forall d, In d (dat s) -> holds M (d_lit d) = true)) by (intros M; apply pot_pos; intros d I; destruct (A7 d I) as (X & _ & Y & _); auto).
    pose proof (A8 Mb HM) as CB. destruct (PP Mb) as (P0 & P1). rewrite A6. destruct (Z.ltb_spec u (low s)) as [Q|Q]; [lia|]. destruct (Z.ltb_spec (low s) u) as [Q'|Q'].
    + assert (NE : dat s <> []). { intros E. assert (pot s Mb = 0) by (apply P1; rewrite E; intros d []). lia. }
      destruct (Nat.eqb_spec (length (dat s)) 0) as [L|L]; [apply length_zero_iff_nil in L; congruence|]. cbn [negb]. exists [], ((f, u) :: r), []. split; auto. split; [now rewrite app_nil_r|]. split.
      * intros M. unfold lexOptimal. cbn. split; intros (A & _); (split; [exact A|]); [intros p []|auto].
      * split; auto. exists val. split; auto. intros p M E (X & _). now apply V.
    + set (ls := map d_lit (dat s)). set (G1 := fun M => G M /\ forall p, In p ls -> holds M p = true).
      assert (EL : forall M, (forall p, In p ls -> holds M p = true) <-> pot s M = 0). { intros M. rewrite (proj2 (PP M)). split; [intros H d I; apply H, in_map; auto|]. intros H p I. apply in_map_iff in I as (d & <- & I). auto. }
      assert (E1 : forall M, G1 M <-> G M /\ costOf f M = low s). { intros M. unfold G1. rewrite EL. split; intros (X & Y); split; auto; specialize (A8 M X); lia. }
      assert (HM1 : G1 Mb) by (apply E1; split; auto; lia).
      assert (V1 : implied G1 (fun p => val p || mem p ls)). { intros p M E (X & Y). apply orb_true_iff in E as [E|E]; [now apply V|]. apply Y. now apply mem_in. }
      assert (HG1 : over n G1). { intros M M' A (X & Y). split; [now apply HG with M|]. intros p I. rewrite (holds_agree n M M' p A); auto. apply in_map_iff in I as (d & <- & I). now apply (A7 d I). }
      assert (LF : forall pre M, lexOptimal G (f :: pre) M <-> lexOptimal G1 pre M). { intros pre M. apply lex_first with (low s); auto; [|exists Mb; split; auto; lia]. intros M' HM'. specialize (A8 M' HM'). pose proof (proj1 (PP M')). lia. }
      destruct r as [|x r'].
      * cbn [initLoop]. exists [(f, u)], [], ls. rewrite orb_false_r. split; auto. split; auto. split; auto. intros M. cbn [map fst]. rewrite LF. unfold lexOptimal. cbn [lexLe]. unfold G1. tauto.
      * rewrite orb_true_r. specialize (IH G1 (fun p => val p || mem p ls) true (fixed0 ++ ls) (setDat s []) HG1 V1 (fun g z J => B g z (or_intror J)) HM1).
        destruct (initLoop n cn (fun p => val p || mem p ls) (x :: r') true true (fixed0 ++ ls) (setDat s [])) as [[fx s'] nx]. destruct IH as (pre & post & F & I1 & I2 & I3 & I4).
        exists ((f, u) :: pre), post, (ls ++ F). split; [cbn; now rewrite I1|]. split; [now rewrite I2, app_assoc|]. split.
        { intros M. cbn [map fst]. rewrite LF, I3. unfold G1. split; [intros ((X & Y) & Z); split; auto; intros p J; apply in_app_or in J as [J|J]; auto|intros (X & Y); split; [split; auto|]; intros p J; apply Y, in_or_app; auto]. }
        destruct post as [|[g z] q]; [intros _; apply I4; discriminate|]. destruct I4 as (I4 & val' & I5 & I6). split; auto. exists val'. split; auto. intros p M E (X & Y). apply (I5 p M E). split; [split; auto; intros y J; apply Y, in_or_app; auto|]. intros y J. apply Y, in_or_app. auto.
Qed.
Print Assumptions c49_levels_passed.

(** Not so with bounds of the user: [x] must be true and costs 1 on the second level; the first level costs 0. With bounds (5, 0) the
    costs (0, 1) are better, but the second level starts with bound 0 although the first is already below its bound, and the
    first core exceeds it: the search ends without a model *)
Theorem c49_user_bounds_refuted : exists G n lv M s k s', over n G /\ (forall f u, In (f, u) lv -> objBelow n f) /\ G M /\ lexBelow lv M /\
  initLoop n true (fun _ => false) lv true false [] (US [] [] n [] 0 0 false [] None) = ([], s, false) /\
  usteps G (Opts true Oll false) (costOf (fst (last lv ([], 0)))) s k s' /\ up s' = up s /\ up s' < low s'.
Proof.
  set (G := fun M : asg => M 0%nat = true). set (x := pos 0). set (o := Opts true Oll false). set (s := initObj (fun _ => false) [(x, 1)] 0 1 false).
  exists G, 1%nat, [([], 5); ([(x, 1)], 0)], (fun _ => true), s, (0 + 1)%nat, (addCore o 1 (setLow s (low s + minW s [0%nat])) [0%nat] (minW s [0%nat])).
  split; [intros M M' A H; unfold G in *; rewrite <- (A 0%nat); auto|]. split.
  - intros f u [E|[E|[]]] p w I; injection E as <- <-; [destruct I|]. destruct I as [I|[]]. injection I as <- <-. cbn. lia.
  - split; [reflexivity|]. split; [left; cbn; lia|]. split; [reflexivity|]. split; [|split; [reflexivity|vm_compute; reflexivity]].
    eapply UTrans; [apply URefl|]. apply UCore; [reflexivity|lia|]. split; [discriminate|]. split; [repeat constructor; intros []|]. split; [intros i [<-|[]]; split; [cbn; lia|reflexivity]|].
    intros M (H & _). exists 0%nat. split; [now left|]. unfold G in H. unfold holds. cbn. now rewrite H.
Qed.
Print Assumptions c49_user_bounds_refuted.

(** The lower bound is raised by a product of two 32-bit numbers that can be larger than such a number, although all weights of the
    program are in range *)
Theorem c49_raise_overflow_refuted : exists G n obj k s i c, reached G (Opts true Oll false) n obj k s /\ (forall p w, In (p, w) obj -> 0 < w < 2 ^ 31) /\ isCore G s [i] /\ d_core (getData s i) = Some c /\
  fst (tempOf s (c_bound c + 1) (c_lits c)) <= 0 /\ 2 ^ 31 <= raise (fst (tempOf s (c_bound c + 1) (c_lits c))) (c_weight c).
Proof.
  set (G := fun M : asg => M 0%nat = true /\ M 1%nat = true /\ M 2%nat = true /\ M 3%nat = true). set (o := Opts true Oll false). set (w := 1073741824).
  set (obj := [(pos 0, w); (pos 1, w); (pos 2, w); (pos 3, w)]). set (s0 := initObj (fun _ => false) obj (4 * w) 4 false). set (ids := [0; 1; 2; 3]%nat).
  set (s1 := addCore o 1 (setLow s0 (low s0 + minW s0 ids)) ids (minW s0 ids)). set (s2 := addTop (addTop (addTop (addTop s1 (pos 0)) (pos 1)) (pos 2)) (pos 3)).
  assert (HT : forall s v, (v < 4)%nat -> forall M, sats G M s -> holds M (pos v) = true). { intros s v L M ((A & B & C & D) & _). rewrite holds_pos. destruct v as [|[|[|[|]]]]; auto; lia. }
  exists G, 4%nat, obj, (0 + 1 + 0 + 0 + 0 + 0)%nat, s2, 4%nat, (Core 2 w [pos 0; pos 1; pos 2; pos 3]). split; [|split; [|split; [|split; [vm_compute; reflexivity|split; [vm_compute; discriminate|vm_compute; discriminate]]]]].
  - split; [intros M M' A (H0 & H1 & H2 & H3); unfold G; rewrite <- (A 0%nat), <- (A 1%nat), <- (A 2%nat), <- (A 3%nat) by lia; auto|]. split; [intros p z I; cbn in I; destruct I as [I|[I|[I|[I|[]]]]]; injection I as <- <-; cbn; lia|].
    exists (fun _ => false), (4 * w), false. split; [discriminate|]. fold s0.
    eapply UTrans; [eapply UTrans; [eapply UTrans; [eapply UTrans; [eapply UTrans; [apply URefl|]|]|]|]|].
    + apply (UCore G o (costOf obj) s0 ids 1); [reflexivity|lia|]. split; [discriminate|]. split; [repeat constructor; cbn; intuition discriminate|]. split.
      * intros i I. destruct I as [I|[I|[I|[I|[]]]]]; subst i; split; try reflexivity; vm_compute; repeat constructor.
      * intros M ((A & _) & _). exists 0%nat. split; [now left|]. change (d_lit (getData s0 0)) with (neg (pos 0)). now rewrite holds_neg, holds_pos, A.
    + apply (UTop G o (costOf obj) s1 (pos 0)); [intros M S; eapply (HT _ 0%nat); [|exact S]; repeat constructor|vm_compute; repeat constructor].
    + apply UTop; [intros M S; eapply (HT _ 1%nat); [|exact S]; repeat constructor|vm_compute; repeat constructor].
    + apply UTop; [intros M S; eapply (HT _ 2%nat); [|exact S]; repeat constructor|vm_compute; repeat constructor].
    + apply UTop; [intros M S; eapply (HT _ 3%nat); [|exact S]; repeat constructor|vm_compute; repeat constructor].
  - intros p z I. cbn in I. destruct I as [I|[I|[I|[I|[]]]]]; injection I as <- <-; unfold w; lia.
  - split; [discriminate|]. split; [repeat constructor; intros []|]. split; [intros i [<-|[]]; split; [vm_compute; repeat constructor|reflexivity]|].
    intros M S. exists 4%nat. split; [now left|]. pose proof S as (_ & C). change (d_lit (getData s2 4)) with (pos 4).
    assert (X : satCon M (Tag false (neg (pos 4)) [pos 0; pos 1; pos 2; pos 3] 2) = true) by (apply C; vm_compute; now left).
    unfold satCon in X. rewrite !count_cons, count_nil, !(HT s2 _) in X; auto; try lia. rewrite holds_neg in X. destruct (holds M (pos 4)); [discriminate X|reflexivity].
Qed.
Print Assumptions c49_raise_overflow_refuted.

(** A run: [x0] or [x1] must hold; they cost 2 and 3. One core, then the optimal model satisfies all assumptions *)
Example c49_nonvacuous : let G := fun M : asg => M 0%nat || M 1%nat = true in let obj := [(pos 0, 2); (pos 1, 3)] in let M := fun v => Nat.eqb v 0 || Nat.eqb v 2 in
  exists s, reached G (Opts false Oll false) 2 obj 1 s /\ todo s = [] /\ shr s = None /\ sats G M s /\ (forall d, In d (active s) -> holds M (d_lit d) = true) /\ costOf obj M <= up s /\ low s = 2 /\ length (active s) = 2%nat.
Proof.
  intros G obj M. set (o := Opts false Oll false). set (s0 := initObj (fun _ => false) obj 10 2 false). set (ids := [0; 1]%nat). set (s1 := addCore o 1 (setLow s0 (low s0 + minW s0 ids)) ids (minW s0 ids)). exists s1.
  split; [|split; [reflexivity|split; [reflexivity|split; [|split; [|split; [vm_compute; discriminate|split; reflexivity]]]]]].
  - split; [intros A B E H; unfold G in *; now rewrite <- (E 0%nat), <- (E 1%nat) by lia|]. split; [intros p z I; cbn in I; destruct I as [I|[I|[]]]; injection I as <- <-; cbn; lia|]. exists (fun _ => false), 10, false. split; [discriminate|]. fold s0.
    apply (UTrans G o (costOf obj) s0 s0 s1 0 1); [apply URefl|]. apply UCore; [reflexivity|lia|]. split; [discriminate|]. split; [repeat constructor; cbn; intuition discriminate|]. split.
    + intros i I. destruct I as [I|[I|[]]]; subst i; split; try reflexivity; cbn; lia.
    + intros N (H & _). unfold G in H. apply orb_true_iff in H as [H|H]; [exists 0%nat|exists 1%nat]; (split; [cbn; auto|]); cbn; unfold holds; cbn; now rewrite H.
  - split; [reflexivity|]. intros c I. vm_compute in I. repeat destruct I as [<-|I]; try destruct I; reflexivity.
  - intros d I. vm_compute in I. repeat destruct I as [<-|I]; try destruct I; reflexivity.
Qed.
(** Two levels: the run above, then [x1] with cost 1 on the second level, where nothing is left to do *)
Example c49_lex_nonvacuous : let G := fun M : asg => M 0%nat || M 1%nat = true in let objs := [[(pos 0, 2); (pos 1, 3)]; [(pos 1, 1)]] in
  exists G' n', lexRun (Opts false Oll false) G 2 objs G' n' /\ (forall f, In f objs -> objBelow 2 f) /\ G' (fun v => Nat.eqb v 0 || Nat.eqb v 2) /\ ~ G' (fun _ => true).
Proof.
  intros G objs. set (obj := [(pos 0, 2); (pos 1, 3)]). set (o := Opts false Oll false). set (s0 := initObj (fun _ => false) obj 10 2 false). set (ids := [0; 1]%nat). set (s1 := addCore o 1 (setLow s0 (low s0 + minW s0 ids)) ids (minW s0 ids)).
  set (M := fun v => Nat.eqb v 0). set (s2 := setUp s1 (costOf obj M)). set (G1 := fun M => sats G M (fixLevel o s2)). set (t0 := initObj (fun _ => false) [(pos 1, 1)] 0 (nv s2) false). set (G2 := fun M => sats G1 M (fixLevel o t0)). exists G2, (nv t0).
  assert (R1 : usteps G o (costOf obj) s0 (0 + 1 + 0) s2).
  { eapply UTrans; [eapply UTrans; [apply URefl|]|].
    - apply (UCore G o (costOf obj) s0 ids 1); [reflexivity|lia|]. split; [discriminate|]. split; [repeat constructor; cbn; intuition discriminate|]. split.
      + intros i I. destruct I as [I|[I|[]]]; subst i; split; try reflexivity; cbn; lia.
      + intros N (H & _). unfold G in H. apply orb_true_iff in H as [H|H]; [exists 0%nat|exists 1%nat]; (split; [cbn; auto|]); cbn; unfold holds; cbn; now rewrite H.
    - apply (UModel G o (costOf obj) s1 M); [reflexivity|vm_compute; discriminate]. }
  split; [|split; [|split]].
  - apply (LLevel o G 2 obj [[(pos 1, 1)]] (fun _ => false) 10 false (0 + 1 + 0) s2 G2 (nv t0)); auto; try reflexivity; [discriminate|].
    apply (LLevel o G1 (nv s2) [(pos 1, 1)] [] (fun _ => false) 0 false 0 t0 G2 (nv t0)); try reflexivity; [discriminate|apply URefl|apply LDone].
  - intros f I. destruct I as [<-|[<-|[]]]; intros p w J; cbn in J; repeat destruct J as [J|J]; try contradiction; injection J as <- <-; cbn; lia.
  - split; [split; [reflexivity|]|]; intros c I; vm_compute in I; repeat destruct I as [<-|I]; try destruct I; reflexivity.
  - intros ((_ & H) & _). specialize (H (Cls [neg (pos 1)])). assert (X : satCon (fun _ => true) (Cls [neg (pos 1)]) = true) by (apply H; vm_compute; auto). discriminate X.
Qed.
