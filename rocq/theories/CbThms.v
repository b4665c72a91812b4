(** C25 (default algorithm): when all solvers are done the last report is exactly the set of brave or cautious consequences; every report before is a
    bound on it; literals not marked as estimates are final; every further model changes the answer. *)
From Coq Require Import List Bool Arith Lia.
From Verif Require Import Base ClModel ClProofs CbModel CbSpec CbProofs.
Import ListNotations.
Local Ltac sp := repeat match goal with |- _ /\ _ => split end.

(** Exactness.  For every problem (any set of models in which the step literal is true), every list of different literals, every number of solvers and
    every interleaving: when no solver has work left, there is a report iff the problem has a model, and the last one contains exactly the consequences. *)
Theorem c25_exact : forall (models : asg -> Prop) t step (lits : list lit) k g, (forall a, models a -> holds a step = true) -> NoDup lits ->
  run models t step (startOf t lits k) g -> exhausted g ->
  match g_out g with
  | Some m => (exists a, models a) /\ forall p, In p lits -> (inAnswer m p = true <-> conseq models t p)
  | None => forall a, ~ models a
  end.
Proof.
  intros models t step lits k g ST ND R EX. pose proof (inv_run models t step lits ND k g R) as I. destruct (g_out g) as [m|] eqn:O.
  - assert (EM : exists a, models a). { clear - R O. induction R as [|g g' R IH S]; [discriminate|]. destruct S; cbn [g_out] in O; eauto. }
    split; [exact EM|]. intros p P. pose proof (i_out _ _ _ _ _ I) as L. unfold last_ok in L. rewrite O in L. destruct L as [_ L]. unfold inAnswer.
    assert (NN : forall a, models a -> ~ news t (g_cons g) a). { intros a MA N. destruct (i_cov _ _ _ _ _ I a MA (or_introl N)) as [s [S1 [S2 _]]]. rewrite (EX s S1) in S2. discriminate. }
    destruct (flag_cases models t step lits g p I P) as [F|F]; destruct (L _ _ F) as [V _]; rewrite V.
    + pose proof (conseq_want models t p (i_flag _ _ _ _ _ I p F)) as C. destruct t; cbn [want]; (split; intros; first [discriminate|contradiction|assumption|reflexivity]).
    + assert (H : forall a, models a -> holds a p = negb (want t)). { intros a MA. destruct (bool_dec (holds a p) (want t)) as [E|E]; [|destruct (holds a p), (want t); auto; congruence]. exfalso. apply (NN a MA). exists p. auto. }
      pose proof (conseq_not models t p H) as C. destruct t; cbn [want negb]; (split; intros; first [discriminate|contradiction|assumption|reflexivity]).
  - intros a MA. destruct (i_cov _ _ _ _ _ I a MA (or_intror O)) as [s [S1 [S2 _]]]. rewrite (EX s S1) in S2. discriminate.
Qed.
Print Assumptions c25_exact.

(** Bounds.  Every report, at any time: brave answers contain only consequences, cautious answers contain all of them; and a literal that is not
    marked as an estimate has its final value. *)
Theorem c25_bounds : forall (models : asg -> Prop) t step (lits : list lit) k g m, (forall a, models a -> holds a step = true) -> NoDup lits ->
  run models t step (startOf t lits k) g -> g_out g = Some m ->
  forall p, In p lits ->
    match t with
    | Brave => inAnswer m p = true -> conseq models t p
    | Cautious => conseq models t p -> inAnswer m p = true
    end /\ (isEstimate m p = false -> (inAnswer m p = true <-> conseq models t p)).
Proof.
  intros models t step lits k g m ST ND R O p P. pose proof (inv_run models t step lits ND k g R) as I. pose proof (i_out _ _ _ _ _ I) as L. unfold last_ok in L. rewrite O in L. destruct L as [_ L].
  unfold inAnswer, isEstimate. destruct (flag_cases models t step lits g p I P) as [F|F]; destruct (L _ _ F) as [V W]; rewrite V.
  - pose proof (conseq_want models t p (i_flag _ _ _ _ _ I p F)) as C. destruct t; cbn [want]; split; intros; try (split; intros; first [discriminate|contradiction|assumption|reflexivity]); first [discriminate|contradiction|assumption|reflexivity].
  - split; [destruct t; cbn [want negb]; auto; discriminate|]. intros E. destruct (W E) as [X|X]; [exfalso; destruct (want t); discriminate|].
    pose proof (conseq_not models t p X) as C. destruct t; cbn [want negb]; (split; intros; first [discriminate|contradiction|assumption|reflexivity]).
Qed.
Print Assumptions c25_bounds.

Lemma count_step : forall t a l, length (filter (fun x => eqb (snd x) (want t)) l) <= length (filter (fun x => eqb (snd x) (want t)) (map (newFlag t a) l)) /\
  (forall p, In (p, negb (want t)) l -> holds a p = want t -> length (filter (fun x => eqb (snd x) (want t)) l) < length (filter (fun x => eqb (snd x) (want t)) (map (newFlag t a) l))).
Proof.
  intros t a. induction l as [|[q fl] l [IH1 IH2]]; [split; [auto|intros p []]|]. cbn [map filter]. unfold newFlag at 1. cbn [fst snd].
  assert (E1 : eqb (want t) (want t) = true) by (destruct (want t); reflexivity). split.
  - unfold newFlag at 1. cbn [fst snd]. destruct (eqb fl (want t)) eqn:E; cbn [orb]; [rewrite E1; cbn [length]; lia|]. destruct (eqb (holds a q) (want t)); [rewrite E1; cbn [length]; lia|rewrite E; lia].
  - intros p P H. unfold newFlag at 1. cbn [fst snd]. destruct P as [P|P].
    + injection P as -> ->. replace (eqb (negb (want t)) (want t)) with false by (destruct (want t); reflexivity). cbn [orb]. rewrite H, E1. rewrite E1. cbn [length]. lia.
    + specialize (IH2 p P H). destruct (eqb fl (want t)) eqn:E; cbn [orb]; [rewrite E1; cbn [length]; lia|]. destruct (eqb (holds a q) (want t)); [rewrite E1; cbn [length]; lia|rewrite E; lia].
Qed.

(** Progress.  Once there has been a model, a solver that has fetched the latest constraint can only find models that add a literal to the brave
    answer or remove one from the cautious answer.  So with [n] literals at most [n + 1] models are reported by a single solver. *)
Theorem c25_progress : forall (models : asg -> Prop) t step (lits : list lit) k g i s a dl root l' c m, (forall a, models a -> holds a step = true) -> NoDup lits ->
  run models t step (startOf t lits k) g -> fst (g_cur g) <> 0 ->
  nth_error (g_sol g) i = Some s -> current g s -> models a -> (forall c, In c (s_act s) -> sat_clause a c = true) ->
  addCurrent t step root a dl (g_cons g) = (l', c, m) ->
  flagged (match t with Brave => true | Cautious => false end) g < flagged (match t with Brave => true | Cautious => false end) (G l' (S (fst (g_cur g)), c) (Some m) (g_sol g) (c :: g_pub g)).
Proof.
  intros models t step lits k g i s a dl root l' c m ST ND R NZ N CU MA ACT E. pose proof (inv_run models t step lits ND k g R) as I. rewrite addCurrent_eq in E. injection E as <- <- <-.
  destruct (i_cur _ _ _ _ _ I NZ) as [_ Q]. destruct CU as [CU|CU]; [congruence|]. specialize (ACT _ CU). apply existsb_exists in ACT as [q [Q1 Q2]].
  destruct (Q q Q1) as [-> |[p [P1 ->]]]; [exfalso; rewrite h_neg, (ST a MA) in Q2; discriminate|]. apply con_holds in Q2.
  unfold flagged. cbn [g_cons]. exact (proj2 (count_step t a (g_cons g)) p P1 Q2).
Qed.
Print Assumptions c25_progress.

(** A run of two solvers, for both kinds: the models over 1, 2, 3 in which 1 is true or 2 is true but not both, and 3 is true; the step literal is 4. *)
Definition xModels (a : asg) : Prop := xorb (a 1) (a 2) = true /\ a 3 = true /\ a 4 = true.
Definition xA (v : nat) : bool := match v with 1 | 3 | 4 => true | _ => false end.
Definition xB (v : nat) : bool := match v with 2 | 3 | 4 => true | _ => false end.
Definition xDl (v : nat) : nat := match v with 1 | 2 => 2 | 3 => 0 | _ => 1 end.
Definition xLits : list lit := [(1, false); (2, false); (3, false)].
(** solver 0 splits off the part without 1; both find a model before fetching anything; both update and find their parts exhausted *)
Lemma xRun : forall t, exists g, run xModels t (4, false) (startOf t xLits 1) g /\ exhausted g /\ fst (g_cur g) = 2.
Proof.
  intros t. set (P := fun a : asg => a 1 = true). set (Q := fun a : asg => a 1 = false). unfold startOf. cbn [repeat].
  set (l1 := map (newFlag t xA) (initCons t xLits)). set (c1 := neg (4, false) :: flat_map (conOf t xA xDl) (initCons t xLits)).
  set (m1 := bits t xA 0 xDl (fun _ => (false, false)) (initCons t xLits)).
  set (l2 := map (newFlag t xB) l1). set (c2 := neg (4, false) :: flat_map (conOf t xB xDl) l1). set (m2 := bits t xB 0 xDl (fun _ => (false, false)) l1).
  exists (G l2 (2, c2) (Some m2) [Sol false P [c2] 2; Sol false Q [c2] 2] [c2; c1]).
  split; [|split; [intros s [<- |[<- |[]]]; reflexivity|reflexivity]].
  assert (LV : forall a v b pub, xModels a -> xDl v <= 0 -> xModels b -> (forall c, In c pub -> sat_clause b c = true) -> b v = a v).
  { intros a v b pub [_ [A _]] L [_ [B _]] _. destruct v as [|[|[|[|v]]]]; cbn in L; try lia. now rewrite A, B. }
  assert (LA : xModels xA) by (split; [reflexivity|split; reflexivity]). assert (LB : xModels xB) by (split; [reflexivity|split; reflexivity]).
  assert (C2 : forall a, xModels a -> ~ sat_clause a c2 = true).
  { intros a [A1 [A2 A3]]. unfold c2, l1. destruct t; cbn [flat_map conOf newFlag map initCons xLits fst snd holds xA xB want eqb orb app]; unfold sat_clause, holds, neg; cbn; rewrite ?A2, A3; cbn; discriminate. }
  eapply r_step; [eapply r_step; [eapply r_step; [eapply r_step; [eapply r_step; [eapply r_step; [eapply r_step; [apply r_refl|]|]|]|]|]|]|].
  - eapply (t_split xModels t (4, false) _ 0 1 _ _ P Q); [discriminate|reflexivity|reflexivity|reflexivity|reflexivity|]. intros a _. unfold P, Q. destruct (a 1); auto.
  - eapply (t_model xModels t (4, false) _ 0 _ xA xDl 0 l1 c1 m1); [reflexivity|reflexivity|reflexivity|exact LA|intros c []|intros v b; apply LV, LA|apply addCurrent_eq].
  - eapply (t_model xModels t (4, false) _ 1 _ xB xDl 0 l2 c2 m2); [reflexivity|reflexivity|reflexivity|exact LB|intros c []|intros v b; apply LV, LB|apply addCurrent_eq].
  - eapply (t_update xModels t (4, false) _ 0 _ []); [reflexivity|discriminate|intros x []].
  - eapply (t_update xModels t (4, false) _ 1 _ []); [reflexivity|discriminate|intros x []].
  - eapply (t_unsat xModels t (4, false) _ 0); [reflexivity|reflexivity|]. intros a _ M H. apply (C2 a M). apply H. now left.
  - apply (t_unsat xModels t (4, false) (G l2 (2, c2) (Some m2) [Sol false P [c2] 2; Sol true Q [c2] 2] [c2; c1]) 1 (Sol true Q [c2] 2)); [reflexivity|reflexivity|]. intros a _ M H. apply (C2 a M). apply H. now left.
Qed.
Example c25_default_nonvacuous :
  (forall a, xModels a -> holds a (4, false) = true) /\ NoDup xLits /\
  (exists g m, run xModels Brave (4, false) (startOf Brave xLits 1) g /\ exhausted g /\ g_out g = Some m /\ map (inAnswer m) xLits = [true; true; true]) /\
  (exists g m, run xModels Cautious (4, false) (startOf Cautious xLits 1) g /\ exhausted g /\ g_out g = Some m /\ map (inAnswer m) xLits = [false; false; true]).
Proof.
  assert (ST : forall a, xModels a -> holds a (4, false) = true) by (intros a [_ [_ A]]; unfold holds; cbn; now rewrite A).
  assert (ND : NoDup xLits) by (repeat constructor; cbn; intuition discriminate).
  assert (LA : xModels xA) by (split; [reflexivity|split; reflexivity]). assert (LB : xModels xB) by (split; [reflexivity|split; reflexivity]).
  sp; auto.
  - destruct (xRun Brave) as [g [R [EX _]]]. pose proof (c25_exact _ _ _ _ _ _ ST ND R EX) as X. destruct (g_out g) as [m|] eqn:O; [|exfalso; exact (X xA LA)]. exists g, m. sp; auto.
    destruct X as [_ X]. unfold xLits at 1. cbn [map]. repeat f_equal; apply X; try (cbn; tauto); [exists xA|exists xB|exists xA]; auto.
  - destruct (xRun Cautious) as [g [R [EX _]]]. pose proof (c25_exact _ _ _ _ _ _ ST ND R EX) as X. destruct (g_out g) as [m|] eqn:O; [|exfalso; exact (X xA LA)]. exists g, m. sp; auto.
    destruct X as [_ X]. unfold xLits at 1. cbn [map].
    assert (X1 : inAnswer m (1, false) = false). { apply not_true_is_false. intros H. apply X in H; [|cbn; tauto]. specialize (H xB LB). discriminate. }
    assert (X2 : inAnswer m (2, false) = false). { apply not_true_is_false. intros H. apply X in H; [|cbn; tauto]. specialize (H xA LA). discriminate. }
    assert (X3 : inAnswer m (3, false) = true). { apply X; [cbn; tauto|]. intros a [_ [A _]]. unfold holds. cbn. now rewrite A. }
    now rewrite X1, X2, X3.
Qed.
Print Assumptions c25_default_nonvacuous.
