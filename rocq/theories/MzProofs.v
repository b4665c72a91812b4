(** Arithmetic facts about a built minimize constraint. *)
From Coq Require Import List Bool Arith ZArith Lia Permutation Sorted.
From Verif Require Import Base MnModel MnSpec MnProofs MnProofs2 MnProofs3 MnProofs4 MnProofs5 MnProofs6 MzModel.
Import ListNotations.
Open Scope Z_scope.

Lemma updN_len : forall l i z, length (updN l i z) = length l.
Proof. induction l as [|y l IH]; intros [|i] z; cbn; auto. Qed.
Lemma updN_nth : forall l i z j, (i < length l)%nat -> nth j (updN l i z) 0 = nth j l 0 + (if Nat.eqb i j then z else 0).
Proof.
  induction l as [|y l IH]; intros [|i] z [|j] L; cbn [updN nth length] in *; try lia; cbn [Nat.eqb]; try lia; auto.
  apply IH. lia.
Qed.
Lemma addVec_nth : forall v lhs, StronglySorted svLt v -> (forall e, In e v -> (fst e < length lhs)%nat) -> length (addVec lhs v) = length lhs /\ forall j, nth j (addVec lhs v) 0 = nth j lhs 0 + vecWeight v j.
Proof.
  induction v as [|[l w] v IH]; intros lhs SO LV; cbn [addVec]; [split; auto; intros; cbn; lia|]. inversion SO as [|? ? SS FF]; subst.
  destruct (IH (updN lhs l w) SS) as [A B]; [intros e E; rewrite updN_len; apply LV; cbn; auto|]. rewrite updN_len in A. split; auto. intros j. rewrite B, updN_nth by (apply (LV (l, w)); cbn; auto). cbn [vecWeight].
  destruct (Nat.eqb_spec l j) as [->|]; [rewrite (zero_tail j w v j SO) by auto|]; lia.
Qed.
Lemma subVec_nth : forall v lhs, StronglySorted svLt v -> (forall e, In e v -> (fst e < length lhs)%nat) -> length (subVec lhs v) = length lhs /\ forall j, nth j (subVec lhs v) 0 = nth j lhs 0 - vecWeight v j.
Proof.
  induction v as [|[l w] v IH]; intros lhs SO LV; cbn [subVec]; [split; auto; intros; cbn; lia|]. inversion SO as [|? ? SS FF]; subst.
  destruct (IH (updN lhs l (- w)) SS) as [A B]; [intros e E; rewrite updN_len; apply LV; cbn; auto|]. rewrite updN_len in A. split; auto. intros j. rewrite B, updN_nth by (apply (LV (l, w)); cbn; auto). cbn [vecWeight].
  destruct (Nat.eqb_spec l j) as [->|]; [rewrite (zero_tail j w v j SO) by auto|]; lia.
Qed.
Lemma raise_spec : forall fuel lev l0 lhs rhs, (lev <= l0)%nat -> (l0 - lev <= fuel)%nat -> (forall j, (j < lev)%nat -> nth j lhs 0 = nth j rhs 0) ->
  let r := raise fuel lev l0 lhs rhs in (lev <= r <= l0)%nat /\ forall j, (j < r)%nat -> nth j lhs 0 = nth j rhs 0.
Proof.
  induction fuel as [|fuel IH]; intros lev l0 lhs rhs L F E; cbn [raise]; cbn zeta; [split; auto; lia|]. destruct (Nat.eqb_spec lev l0) as [->|N]; cbn [negb andb]; [split; auto; lia|]. destruct (Z.eqb_spec (nth lev lhs 0) (nth lev rhs 0)) as [Q|Q]; [|split; auto; lia].
  destruct (IH (S lev) l0 lhs rhs ltac:(lia) ltac:(lia)) as [A B]; [|split; auto; lia]. intros j J. destruct (Nat.eq_dec j lev) as [->|]; auto. apply E. lia.
Qed.
Lemma impLoop_spec : forall k i v lhs rhs n, (i + k = n)%nat -> StronglySorted svLt v -> ((forall e, In e v -> (i <= fst e)%nat) \/ exists e, v = [e] /\ (fst e < i)%nat) ->
  (impLoop k i v lhs rhs = true <-> exists l, (i <= l < n)%nat /\ (forall j, (i <= j < l)%nat -> nth j lhs 0 + vecWeight v j = nth j rhs 0) /\ nth l rhs 0 < nth l lhs 0 + vecWeight v l).
Proof.
  induction k as [|k IH]; intros i v lhs rhs n L SO FR; cbn [impLoop].
  { split; [discriminate|]. intros [l [X _]]. lia. }
  assert (G : forall v', StronglySorted svLt v' -> ((forall e, In e v' -> (S i <= fst e)%nat) \/ exists e, v' = [e] /\ (fst e < S i)%nat) -> (forall j, (S i <= j)%nat -> vecWeight v' j = vecWeight v j) ->
    ((if nth i lhs 0 + vecWeight v i =? nth i rhs 0 then impLoop k (S i) v' lhs rhs else nth i rhs 0 <? nth i lhs 0 + vecWeight v i) = true <->
     exists l, (i <= l < n)%nat /\ (forall j, (i <= j < l)%nat -> nth j lhs 0 + vecWeight v j = nth j rhs 0) /\ nth l rhs 0 < nth l lhs 0 + vecWeight v l)).
  { intros v' SO' FR' EQ. destruct (Z.eqb_spec (nth i lhs 0 + vecWeight v i) (nth i rhs 0)) as [Q|Q].
    - rewrite (IH (S i) v' lhs rhs n ltac:(lia) SO' FR'). split; intros [l [X [Y Z]]].
      + exists l. sp; [lia|lia| |rewrite <- (EQ l) by lia; auto]. intros j J. destruct (Nat.eq_dec j i) as [->|]; auto. rewrite <- (EQ j) by lia. apply Y. lia.
      + assert (l <> i) by (intros ->; lia). exists l. sp; [lia|lia| |rewrite (EQ l) by lia; auto]. intros j J. rewrite (EQ j) by lia. apply Y. lia.
    - rewrite Z.ltb_lt. split.
      + intros H. exists i. sp; [lia|lia|intros; lia|auto].
      + intros [l [X [Y Z]]]. destruct (Nat.eq_dec l i) as [->|]; auto. destruct Q. apply Y. lia. }
  destruct v as [|[l w] r].
  - specialize (G [] SO). cbn [vecWeight] in G. rewrite Z.add_0_r in G. apply G; auto. left. intros e [].
  - destruct (Nat.eqb_spec i l) as [<-|N].
    + rewrite <- (at_head i w r) at 1. assert (W : nth i lhs 0 + w = nth i lhs 0 + vecWeight ((i, w) :: r) i) by (rewrite at_head; auto). rewrite W. inversion SO as [|? ? SS FF]; subst. apply G.
      * destruct r; auto.
      * destruct r as [|e r]; [right; exists (i, w); split; auto; cbn; lia|]. left. intros x X. rewrite Forall_forall in FF. apply FF in X. unfold svLt in X. cbn in X. lia.
      * intros j J. destruct r as [|e r]; auto. cbn [vecWeight]. rewrite (proj2 (Nat.eqb_neq i j)) by lia. auto.
    + assert (Z0 : vecWeight ((l, w) :: r) i = 0).
      { destruct FR as [FR|[e [FR1 FR2]]]; [|injection FR1 as <- ->; cbn [fst vecWeight] in *; rewrite (proj2 (Nat.eqb_neq l i)) by lia; auto]. specialize (FR (l, w) ltac:(cbn; auto)). cbn in FR. apply (zero_head l w r i); auto. lia. }
      pose proof (G ((l, w) :: r)) as G'. rewrite Z0, Z.add_0_r in G'. apply G'; auto.
      destruct FR as [FR|[e [FR1 FR2]]]; [|right; exists e; split; auto]. left. intros e E. assert (FL := FR (l, w) ltac:(cbn; auto)). cbn in FL. destruct E as [<- |E]; [cbn; lia|]. inversion SO as [|? ? SS FF]; subst. rewrite Forall_forall in FF. apply FF in E. unfold svLt in E. cbn in E. lia.
Qed.
Lemma impVec_spec : forall n lhs v rhs lev, StronglySorted svLt v -> v <> [] -> (forall e, In e v -> (fst e < n)%nat) -> (lev <= firstLev v)%nat -> (forall j, (j < lev)%nat -> nth j lhs 0 = nth j rhs 0) ->
  (fst (impVec n lhs v rhs lev) = true <-> lexGt n (fun j => nth j lhs 0 + vecWeight v j) (fun j => nth j rhs 0)) /\
  (snd (impVec n lhs v rhs lev) <= firstLev v)%nat /\ forall j, (j < snd (impVec n lhs v rhs lev))%nat -> nth j lhs 0 = nth j rhs 0.
Proof.
  intros n lhs v rhs lev SO NE LV LL PE. unfold impVec. cbn [fst snd]. destruct (raise_spec (firstLev v) lev (firstLev v) lhs rhs LL ltac:(lia) PE) as [A B]. cbn zeta in *. set (r := raise _ _ _ _ _) in *. sp; [|lia|auto].
  destruct v as [|[l w] v]; [congruence|]. cbn [firstLev] in *. assert (LN : (l < n)%nat) by (apply (LV (l, w)); cbn; auto).
  rewrite (impLoop_spec (n - r) r ((l, w) :: v) lhs rhs n ltac:(lia) SO).
  - split.
    + intros [i [X [Y Z]]]. exists i. sp; [lia| |auto]. intros j J. destruct (Nat.lt_ge_cases j r) as [Q|Q]; [|apply Y; lia]. rewrite (B j Q). rewrite (zero_head l w v j) by (auto; lia). lia.
    + intros [i [X [Y Z]]]. exists i. assert (r <= i)%nat. { destruct (Nat.lt_ge_cases i r) as [Q|Q]; auto. rewrite (B i Q) in Z. rewrite (zero_head l w v i) in Z by (auto; lia). lia. } sp; [lia|lia| |auto]. intros j J. apply Y. lia.
  - left. intros e [<- |E]; [cbn; lia|]. inversion SO as [|? ? SS FF]; subst. rewrite Forall_forall in FF. apply FF in E. unfold svLt in E. cbn in E. lia.
Qed.

(** What the proofs about propagation use *)
Definition Wt (d : data) (i j : nat) : Z := weight d (nth i (lits d) (lit_true, 0)) j.
Definition eqUpTo (k : nat) (l r : list Z) : Prop := forall j, (j < k)%nat -> nth j l 0 = nth j r 0.
Record DOk (d : data) : Prop := {
  d_pos : (0 < numRules d)%nat;
  d_len : Z.of_nat (length (lits d)) <= 4294967296;
  d_nd : NoDup (map (fun x => fst (fst x)) (lits d));
  d_add : forall i lhs, (i < length (lits d))%nat -> length lhs = numRules d -> length (addW d lhs (wAt d i)) = numRules d /\ forall j, nth j (addW d lhs (wAt d i)) 0 = nth j lhs 0 + Wt d i j;
  d_sub : forall i lhs a, (i < length (lits d))%nat -> length lhs = numRules d -> length (fst (subW d lhs (wAt d i) a)) = numRules d /\ (forall j, nth j (fst (subW d lhs (wAt d i) a)) 0 = nth j lhs 0 - Wt d i j) /\
    (snd (subW d lhs (wAt d i) a) <= a)%nat /\ ((a < numRules d)%nat -> snd (subW d lhs (wAt d i) a) <= levelAt d i)%nat;
  d_imp : forall i lhs rhs lev, (i < length (lits d))%nat -> (lev <= levelAt d i)%nat -> eqUpTo lev lhs rhs ->
    (fst (impW d lhs (wAt d i) rhs lev) = true <-> lexGt (numRules d) (fun j => nth j lhs 0 + Wt d i j) (fun j => nth j rhs 0)) /\
    (snd (impW d lhs (wAt d i) rhs lev) <= levelAt d i)%nat /\ eqUpTo (snd (impW d lhs (wAt d i) rhs lev)) lhs rhs;
  d_min : forall lhs rhs lev, (lev < numRules d)%nat -> eqUpTo lev lhs rhs ->
    (fst (impW d lhs (minW d) rhs lev) = true <-> lexGt (numRules d) (fun j => nth j lhs 0) (fun j => nth j rhs 0)) /\
    (snd (impW d lhs (minW d) rhs lev) < numRules d)%nat /\ eqUpTo (snd (impW d lhs (minW d) rhs lev)) lhs rhs;
  d_lev : forall i, (i <= length (lits d))%nat -> (levelAt d i < numRules d)%nat;
  d_low : forall i j, (i < length (lits d))%nat -> (j < levelAt d i)%nat -> Wt d i j = 0;
  d_high : forall i, (i < length (lits d))%nat -> 0 < Wt d i (levelAt d i);
  d_sort : forall i j, (i <= j < length (lits d))%nat -> ~ lexGt (numRules d) (Wt d j) (Wt d i);
  d_max : forall i j, (i < length (lits d))%nat -> Wt d i j <= int_max;
  d_wnn : forall i, (i < length (lits d))%nat -> 0 <= wAt d i;
  d_same : forall i j, wAt d i = wAt d j -> forall k, Wt d i k = Wt d j k }.
Lemma vec_bound : forall ws i, Forall (fun w => lw_level w < i)%nat ws -> (0 < i)%nat -> forall z, (firstLev (vec ws z) < i)%nat.
Proof.
  intros ws i F P z. unfold vec. rewrite <- (firstn_skipn (Z.to_nat z) ws) in F. apply Forall_app in F. destruct F as [_ F]. destruct (skipn (Z.to_nat z) ws) as [|w r]; cbn; auto. inversion F; auto.
Qed.
Lemma litsOf_nth : forall l i, (i < length (litsOf l))%nat -> forall x, nth i l x = nth i (litsOf l) x.
Proof. induction l as [|y l IH]; intros i L x; [cbn in L; lia|]. cbn [litsOf] in *. destruct (Nat.eqb (fst (fst y)) 0); [cbn in L; lia|]. destruct i; auto. cbn in *. apply IH. lia. Qed.
Lemma ss_nth : forall (A : Type) (R : A -> A -> Prop) l x i j, StronglySorted R l -> (i < j < length l)%nat -> R (nth i l x) (nth j l x).
Proof.
  induction l as [|y l IH]; intros x i j SO L; [cbn in L; lia|]. inversion SO as [|? ? SS FF]; subst. cbn [length] in L. destruct j; [lia|]. destruct i; cbn [nth]; [rewrite Forall_forall in FF; apply FF, nth_In; lia|apply IH; auto; lia].
Qed.
Lemma dok : forall s lits0 d, topOk s -> (exists a, extends a s) -> build s lits0 = Ok (Some d) -> Z.of_nat (length (d_lits d)) <= 4294967296 -> DOk d.
Proof.
  intros s lits0 d T E B LE. destruct (build_spec s lits0 d T E B) as [vl [BU _]]. pose proof (b_pos _ _ _ BU) as NP.
  assert (IN : forall i, (i < length (lits d))%nat -> exists v, vecOk (numRules d) v /\ (forall j, Wt d i j = vecWeight v j) /\ levelAt d i = firstLev v /\ 0 <= wAt d i /\ 0 < Wt d i (firstLev v) /\
    ((d_weights d = [] /\ numRules d = 1%nat /\ v = [(0%nat, wAt d i)]) \/ (d_weights d <> [] /\ numRules d <> 1%nat /\ vec (d_weights d) (wAt d i) = v))).
  { intros i L. assert (I : In (nth i (lits d) (lit_true, 0)) (litsOf (d_lits d))) by (apply nth_In; auto). destruct (b_shape _ _ _ BU) as [[N [DW DL]]|[N [ws [DW DL]]]].
    - destruct (built_in _ _ _ _ BU I) as [_ [v [V1 V2]]]. exists v. sp; auto.
      + unfold levelAt. rewrite N. cbn. destruct V1 as [_ [V1 V3]]. destruct v as [|[l w] v]; [destruct V3|]. inversion V1 as [|? ? [W1 _] _]; subst. cbn in *. lia.
      + pose proof (V2 0%nat) as Q. unfold weight in Q. rewrite N in Q. cbn in Q. unfold wAt. rewrite Q. destruct V1 as [_ [V1 V3]]. destruct v as [|[l w] v]; [destruct V3|]. inversion V1 as [|? ? [W1 _] _]; subst. cbn [fst snd] in *. assert (l = 0%nat) by lia. subst. cbn. lia.
      + unfold Wt. rewrite V2. destruct V1 as [_ [V1 V3]]. destruct v as [|[l w] v]; [destruct V3|]. cbn [firstLev]. rewrite at_head. auto.
      + left. sp; auto. pose proof (V2 0%nat) as Q. unfold weight in Q. rewrite N in Q. cbn in Q. unfold wAt. rewrite Q. destruct V1 as [SV [V1 V3]]. destruct v as [|[l w] v]; [destruct V3|]. inversion V1 as [|? ? [W1 _] VF]; subst. cbn [fst snd] in *. assert (l = 0%nat) by lia. subst. rewrite at_head.
        destruct v as [|[l2 w2] v]; auto. inversion VF as [|? ? [X1 _] _]; subst. inversion SV as [|? ? _ FF]; subst. inversion FF as [|? ? X2 _]; subst. unfold svLt in X2. cbn in *. lia.
    - destruct (b_end _ _ _ BU _ I ltac:(lia)) as [v [V1 V2]]. assert (VW : vec (d_weights d) (wAt d i) = v) by (apply good_vec; auto).
      assert (W1 : forall j, Wt d i j = vecWeight v j). { intros j. unfold Wt, weight. rewrite (proj2 (Nat.eqb_neq _ _)) by lia. fold (wAt d i). rewrite VW. auto. }
      exists v. sp; auto.
      + unfold levelAt. rewrite (proj2 (Nat.eqb_neq _ _)) by lia. rewrite litsOf_nth by auto. fold (lits d). fold (wAt d i). rewrite VW. auto.
      + destruct V2 as [_ [base [rest [_ V2]]]]. unfold wAt. change (snd (nth i (lits d) (lit_true, 0))) with (snd (nth i (litsOf (d_lits d)) (lit_true, 0))) in *. lia.
      + rewrite W1. destruct V1 as [_ [V1 V3]]. destruct v as [|[l w] v]; [destruct V3|]. cbn [firstLev]. rewrite at_head. auto.
      + right. sp; auto; [rewrite DW; destruct ws; discriminate|lia]. }
  assert (LOW : forall i j, (i < length (lits d))%nat -> (j < levelAt d i)%nat -> Wt d i j = 0).
  { intros i j L J. destruct (IN i L) as [v [[V1 _] [V2 [V3 _]]]]. rewrite V2. rewrite V3 in J. destruct v as [|[l w] v]; auto. apply (zero_head l w v j); auto. }
  constructor; auto.
  - unfold lits. pose proof (litsOf_len (d_lits d)). lia.
  - unfold lits. rewrite (rep_vars _ _ (b_rep _ _ _ BU)). apply (b_nd _ _ _ BU).
  - intros i lhs L LN. destruct (IN i L) as [v [V1 [V2 [V3 [V4 [V5 [[D1 [D2 D3]]|[D1 [D2 D3]]]]]]]]]; unfold addW.
    + rewrite D1. rewrite updN_len. split; auto. intros j. rewrite updN_nth by lia. rewrite V2, D3. cbn [vecWeight]. auto.
    + destruct (d_weights d) as [|w0 ws] eqn:DW; [congruence|]. rewrite D3. destruct V1 as [A [C _]]. destruct (addVec_nth v lhs A) as [X Y]; [intros e I; rewrite Forall_forall in C; rewrite LN; apply C; auto|]. split; [lia|]. intros j. rewrite Y, V2. auto.
  - intros i lhs a L LN. destruct (IN i L) as [v [V1 [V2 [V3 [V4 [V5 [[D1 [D2 D3]]|[D1 [D2 D3]]]]]]]]]; unfold subW.
    + rewrite D1. cbn [fst snd]. rewrite updN_len. sp; auto. intros j. rewrite updN_nth by lia. rewrite V2, D3. cbn [vecWeight]. destruct (Nat.eqb 0 j); lia.
      intros. lia.
    + destruct (d_weights d) as [|w0 ws] eqn:DW; [congruence|]. rewrite D3. destruct V1 as [A [C _]]. destruct (subVec_nth v lhs A) as [X Y]; [intros e I; rewrite Forall_forall in C; rewrite LN; apply C; auto|]. cbn [fst snd]. sp; [lia| | |].
      * intros j. rewrite Y, V2. auto.
      * destruct (Nat.ltb_spec (firstLev v) a); lia.
      * intros _. destruct (Nat.ltb_spec (firstLev v) a); lia.
  - intros i lhs rhs lev L LL PE. destruct (IN i L) as [v [V1 [V2 [V3 [V4 [V5 [[D1 [D2 D3]]|[D1 [D2 D3]]]]]]]]]; unfold impW.
    + rewrite D1. cbn [fst snd]. sp; auto. rewrite Z.ltb_lt. rewrite D2. split.
      * intros H. exists 0%nat. sp; [lia|intros; lia|]. rewrite V2, D3. cbn. auto.
      * intros [l [X [_ Z]]]. assert (l = 0%nat) by lia. subst l. rewrite V2, D3 in Z. cbn in Z. auto.
    + destruct (d_weights d) as [|w0 ws] eqn:DW; [congruence|]. rewrite D3, V3 in *. destruct V1 as [A [C P]]. destruct (impVec_spec (numRules d) lhs v rhs lev A) as [X [Y Z]]; auto; [destruct v; [destruct P|discriminate]|intros e I; rewrite Forall_forall in C; apply C; auto|]. sp; auto.
      rewrite X. split; apply lex_ext; intros j J; cbn beta; rewrite V2; lia.
  - intros lhs rhs lev L PE. unfold impW, minW. destruct (b_shape _ _ _ BU) as [[N [DW _]]|[N [ws [DW _]]]].
    + rewrite DW. cbn [fst snd]. sp; auto. rewrite Z.ltb_lt, N. split.
      * intros H. exists 0%nat. sp; [lia|intros; lia|lia].
      * intros [l [X [_ Z]]]. assert (l = 0%nat) by lia. subst l. lia.
    + assert (VE : vec (d_weights d) (Z.of_nat (length (d_weights d) - 1)) = [((numRules d - 1)%nat, 0)]).
      { rewrite DW. unfold vec. rewrite app_length. cbn [length]. rewrite Nat2Z.id, Nat.add_sub, skipn_app, skipn_all, Nat.sub_diag. reflexivity. }
      destruct (d_weights d) as [|w0 ws0] eqn:DW0; [destruct ws; discriminate|]. rewrite VE.
      destruct (impVec_spec (numRules d) lhs [((numRules d - 1)%nat, 0)] rhs lev) as [X [Y Z]]; auto; [repeat constructor|discriminate|intros e [<- |[]]; cbn; lia|cbn; lia|]. cbn [firstLev] in Y. sp; auto; [|lia].
      rewrite X. split; apply lex_ext; intros j J; cbn [vecWeight]; destruct (Nat.eqb _ _); lia.
  - intros i L. destruct (Nat.eq_dec i (length (lits d))) as [->|NE].
    + unfold levelAt. destruct (b_shape _ _ _ BU) as [[N [DW DL]]|[N [ws [DW DL]]]]; [rewrite N; cbn; lia|]. rewrite (proj2 (Nat.eqb_neq _ _)) by lia. rewrite DL. unfold lits. rewrite app_nth2, Nat.sub_diag by lia. cbn [nth snd].
      rewrite DW. unfold vec. rewrite Nat2Z.id, skipn_app, skipn_all, Nat.sub_diag. cbn. lia.
    + destruct (IN i ltac:(lia)) as [v [[_ [V1 P]] [_ [V3 _]]]]. rewrite V3. destruct v as [|[l w] v]; [destruct P|]. inversion V1 as [|? ? [W1 _] _]; subst. auto.
  - intros i L. destruct (IN i L) as [v [_ [_ [V3 [_ [V5 _]]]]]]. rewrite V3. auto.
  - intros i j L. destruct (Nat.eq_dec i j) as [->|NE]; [intros [l [_ [_ Q]]]; lia|]. pose proof (rep_sorted _ _ _ BU) as SO. apply (ss_nth _ _ _ (lit_true, 0) i j) in SO; [auto|]. fold (lits d). lia.
  - intros i j L. destruct (IN i L) as [v [V1 [V2 _]]]. rewrite V2. apply (vecOk_le _ _ j) in V1. lia.
  - intros i L. destruct (IN i L) as [v H]. tauto.
  - intros i j EQ k. unfold Wt, weight. fold (wAt d i) (wAt d j). rewrite EQ. auto.
Qed.
