(** C55: the arrays of the graph. *)
From Coq Require Import List Arith Bool Lia Permutation Sorting.Sorted.
From Verif Require Import Base AcSpec EgModel.
Import ListNotations.

Definition has (k : arc -> nat) (n : nat) (l : list arc) : list arc := filter (fun a => k a =? n) l.
Lemma has_nil k n l : has k n l = [] <-> forall a, In a l -> k a <> n.
Proof.
  unfold has. split.
  - intros E a A K. assert (I : In a (filter (fun a => k a =? n) l)) by (apply filter_In; split; [easy | now apply Nat.eqb_eq]). rewrite E in I. easy.
  - intro H. induction l as [|a l IH]; [easy|]. cbn. destruct (k a =? n) eqn:E; [apply Nat.eqb_eq in E; destruct (H a (or_introl eq_refl) E)|]. apply IH. intros b B. apply H. now right.
Qed.
Lemma has_app k n a b : has k n (a ++ b) = has k n a ++ has k n b.
Proof. apply filter_app. Qed.
Lemma has_perm k n a b : Permutation a b -> Permutation (has k n a) (has k n b).
Proof.
  unfold has. induction 1 as [|x a b P IH|x y a|a b c P1 I1 P2 I2]; cbn; [easy| | |].
  - destruct (k x =? n); [now apply Permutation_cons | easy].
  - destruct (k x =? n), (k y =? n); try easy. apply perm_swap.
  - eapply Permutation_trans; eauto.
Qed.
Definition asc (k : arc -> nat) (l : list arc) : Prop := StronglySorted (fun a b => k a <= k b) l.
Lemma sorts_asc k k' l l' : sorts k k' l l' -> asc k l'.
Proof.
  intros [_ S]. induction S as [|a m S IH F]; [constructor|]. constructor; [exact IH|]. eapply Forall_impl; [|exact F]. intros b E. unfold cmpArc in E. apply orb_false_iff in E as [E _]. now apply Nat.ltb_ge in E.
Qed.
Lemma offs_spec k chk l : forall i prev f, asc k l -> (forall p, prev = Some p -> Forall (fun a => p <= k a) l) ->
  (chk = true -> forall a, In a l -> prev <> Some (k a) -> f (k a) = None) ->
  exists f', offs k chk i prev l f = Some f' /\ forall n, ((prev = Some n \/ has k n l = []) -> f' n = f n) /\
    (prev <> Some n -> has k n l <> [] -> exists pre suf, l = pre ++ suf /\ f' n = Some (i + length pre) /\ has k n pre = [] /\ exists a r, suf = a :: r /\ k a = n).
Proof.
  induction l as [|a l IH]; intros i prev f AS PV CH; cbn [offs].
  - exists f. split; [easy|]. intro n. split; [easy | intros _ H; now destruct H].
  - inversion AS as [|? ? AS' FA]; subst. destruct (isPrev prev (k a)) eqn:E.
    + destruct prev as [p|]; [|easy]. cbn in E. apply Nat.eqb_eq in E.
      destruct (IH (S i) (Some p) f AS') as (f' & O & F); [intros q [= <-]; specialize (PV p eq_refl); now inversion PV | intros C b B; apply (CH C b); now right|].
      exists f'. split; [exact O|]. intro n. destruct (F n) as [F1 F2]. unfold has. cbn [filter]. fold (has k n l). split.
      * intros [N | N]; [auto|]. destruct (k a =? n) eqn:K; [easy | auto].
      * intros N H. destruct (k a =? n) eqn:K; [apply Nat.eqb_eq in K; congruence|]. destruct (F2 N H) as (pre & suf & -> & V & HP & R). exists (a :: pre), suf. split; [easy|]. split; [rewrite V; f_equal; cbn; lia|]. split; [|easy]. unfold has. cbn [filter]. rewrite K. exact HP.
    + assert (NP : prev <> Some (k a)) by (intros ->; cbn in E; now rewrite Nat.eqb_refl in E).
      assert (G : chk && isSome (f (k a)) = false) by (destruct chk; [rewrite (CH eq_refl a (or_introl eq_refl) NP); easy | easy]). rewrite G.
      destruct (IH (S i) (Some (k a)) (fun n => if n =? k a then Some i else f n) AS') as (f' & O & F); [intros q [= <-]; exact FA | |].
      { intros C b B N. destruct (k b =? k a) eqn:Q; [apply Nat.eqb_eq in Q; congruence|]. apply (CH C b); [now right|]. intros ->. specialize (PV (k b) eq_refl). inversion PV as [|? ? P1 P2]; subst. rewrite Forall_forall in FA. specialize (FA b B). apply Nat.eqb_neq in Q. lia. }
      exists f'. split; [exact O|]. intro n. destruct (F n) as [F1 F2]. unfold has. cbn [filter]. fold (has k n l). destruct (Nat.eq_dec (k a) n) as [KN | KN].
      * subst n. rewrite Nat.eqb_refl in *. split; [intros [N | N]; easy|]. intros _ _. exists [], (a :: l). split; [easy|]. split; [rewrite F1 by (now left); cbn [length]; now rewrite Nat.add_0_r|]. split; [easy|]. now exists a, l.
      * rewrite (proj2 (Nat.eqb_neq _ _) KN) in *. assert (KN' : (n =? k a) = false) by (apply Nat.eqb_neq; auto). rewrite KN' in F1. split.
        -- intros [N | N]; [|auto]. subst prev. apply F1. right. apply has_nil. intros b B. specialize (PV n eq_refl). inversion PV as [|? ? P1 P2]; subst. rewrite Forall_forall in FA. specialize (FA b B). lia.
        -- intros N H. destruct F2 as (pre & suf & -> & V & HP & R); [congruence | exact H|]. exists (a :: pre), suf. split; [easy|]. split; [rewrite V; f_equal; cbn; lia|]. split; [|easy]. unfold has. cbn [filter]. rewrite (proj2 (Nat.eqb_neq _ _) KN). exact HP.
Qed.
Lemma asc_app k a b : asc k (a ++ b) -> asc k b.
Proof. induction a as [|x a IH]; [easy|]. intro A. inversion A; subst. auto. Qed.
Lemma has_above k n l : (forall a, In a l -> n < k a) -> has k n l = [].
Proof. intro H. apply has_nil. intros a A. specialize (H a A). lia. Qed.
Lemma runF_S a b r : runF (a :: b :: r) = a :: (if a_tail a =? a_tail b then runF (b :: r) else []).
Proof. reflexivity. Qed.
Lemma runF_spec l : forall a more, asc a_tail (a :: l) -> has a_tail (a_tail a) more = [] -> runF ((a :: l) ++ more) = has a_tail (a_tail a) (a :: l).
Proof.
  induction l as [|b l IH]; intros a more AS M.
  - cbn [app runF has filter]. unfold has. cbn [filter]. rewrite Nat.eqb_refl. destruct more as [|c more]; [easy|]. rewrite has_nil in M. destruct (a_tail a =? a_tail c) eqn:E; [|easy]. apply Nat.eqb_eq in E. destruct (M c (or_introl eq_refl)). easy.
  - inversion AS as [|? ? AS' FA]; subst. cbn [app]. rewrite runF_S. change (runF (b :: l ++ more)) with (runF ((b :: l) ++ more)). unfold has. cbn [filter]. rewrite Nat.eqb_refl. destruct (a_tail a =? a_tail b) eqn:E.
    + apply Nat.eqb_eq in E. rewrite E in *. rewrite Nat.eqb_refl. rewrite (IH b more AS' M). unfold has. cbn [filter]. now rewrite Nat.eqb_refl.
    + rewrite Nat.eqb_sym, E. fold (has a_tail (a_tail a) l). rewrite has_above; [easy|]. intros c C. inversion AS' as [|? ? _ FB]; subst. inversion FA as [|? ? L _]; subst. rewrite Forall_forall in FB. specialize (FB c C). apply Nat.eqb_neq in E. lia.
Qed.
Definition lt_ (a : arc) : lit * nat := (a_lit a, a_tail a).
Lemma runI_spec l : forall a more, asc a_head (a :: l) -> runI (entries (a :: l) ++ more) = Some (map lt_ (has a_head (a_head a) (a :: l))).
Proof.
  induction l as [|b l IH]; intros a more AS.
  - cbn. unfold has. cbn [filter]. now rewrite Nat.eqb_refl.
  - inversion AS as [|? ? AS' FA]; subst. change (entries (a :: b :: l)) with ((a_lit a, a_tail a, a_head b =? a_head a) :: entries (b :: l)). cbn [app runI]. unfold has. cbn [filter]. rewrite Nat.eqb_refl. destruct (a_head b =? a_head a) eqn:E.
    + apply Nat.eqb_eq in E. rewrite (IH b more AS'). unfold has. cbn [filter]. rewrite <- E, Nat.eqb_refl. reflexivity.
    + fold (has a_head (a_head a) l). rewrite has_above; [easy|]. intros c C. inversion AS' as [|? ? _ FB]; subst. inversion FA as [|? ? L _]; subst. rewrite Forall_forall in FB. specialize (FB c C). apply Nat.eqb_neq in E. lia.
Qed.
Lemma entries_len l : length (entries l) = length l.
Proof. induction l as [|a l IH]; [easy|]. cbn. now rewrite IH. Qed.
Lemma entries_skip pre suf : skipn (length pre) (entries (pre ++ suf)) = entries suf.
Proof. induction pre as [|a pre IH]; [easy|]. exact IH. Qed.

Definition RepF (C : list arc) (f : nat -> option nat) : Prop := forall n, match f n with
  | None => has a_tail n C = []
  | Some i => i < length C /\ forall more, has a_tail n more = [] -> runF (skipn i C ++ more) = has a_tail n C end.
Definition RepI (C : list arc) (v : list inve) (f : nat -> option nat) : Prop := forall n, match f n with
  | None => has a_head n C = []
  | Some i => i < length v /\ exists x, (forall more, runI (skipn i v ++ more) = Some x) /\ Permutation x (map lt_ (has a_head n C)) end.
Lemma skipn_app_l {A} i (a b : list A) : i < length a -> skipn i (a ++ b) = skipn i a ++ b.
Proof. intro L. rewrite skipn_app. now replace (i - length a) with 0 by lia. Qed.
(** old arcs [C] with correct offsets for nodes that have no new arcs, new arcs [l] *)
Lemma RepF_ext C l f : (forall n, has a_tail n l = [] -> match f n with None => has a_tail n C = [] | Some i => i < length C /\ forall more, has a_tail n more = [] -> runF (skipn i C ++ more) = has a_tail n C end) ->
  (forall n, has a_tail n l <> [] -> has a_tail n C = []) -> asc a_tail l -> forall chk, (chk = true -> forall a, In a l -> f (a_tail a) = None) ->
  exists f', offs a_tail chk (length C) None l f = Some f' /\ RepF (C ++ l) f'.
Proof.
  intros R D AS chk CH. destruct (offs_spec a_tail chk l (length C) None f AS) as (f' & O & F); [easy | intros X a A _; now apply CH|]. exists f'. split; [exact O|]. intro n. destruct (F n) as [F1 F2]. destruct (has a_tail n l) as [|c r] eqn:H.
  - rewrite F1 by now right. specialize (R n H). rewrite has_app, H, app_nil_r. destruct (f n) as [i|]; [|exact R]. destruct R as [L R]. split; [rewrite app_length; lia|]. intros more M. rewrite skipn_app_l, <- app_assoc by easy. apply R. rewrite has_app, H. exact M.
  - destruct F2 as (pre & suf & -> & V & HP & a & q & -> & K); [easy | easy|]. rewrite V. split; [rewrite !app_length; cbn; lia|]. intros more M. rewrite skipn_app, skipn_all2 by lia. cbn [app].
    replace (length C + length pre - length C) with (length pre) by lia. rewrite skipn_app, skipn_all, Nat.sub_diag. cbn [app skipn]. apply asc_app in AS. subst n. rewrite app_comm_cons. rewrite runF_spec by easy. rewrite !has_app, HP, (D (a_tail a)) by (rewrite H; easy). easy.
Qed.
Lemma RepI_ext C v l f C' : (forall n, has a_head n l = [] -> match f n with None => has a_head n C = [] | Some i => i < length v /\ exists x, (forall more, runI (skipn i v ++ more) = Some x) /\ Permutation x (map lt_ (has a_head n C)) end) ->
  (forall n, has a_head n l <> [] -> has a_head n C = []) -> asc a_head l -> Permutation (C ++ l) C' -> forall chk, (chk = true -> forall a, In a l -> f (a_head a) = None) ->
  exists f', offs a_head chk (length v) None l f = Some f' /\ RepI C' (v ++ entries l) f'.
Proof.
  intros R D AS PM chk CH. destruct (offs_spec a_head chk l (length v) None f AS) as (f' & O & F); [easy | intros X a A _; now apply CH|]. exists f'. split; [exact O|]. intro n. destruct (F n) as [F1 F2]. assert (PH := has_perm a_head n _ _ PM). rewrite has_app in PH. destruct (has a_head n l) as [|c r] eqn:H.
  - rewrite app_nil_r in PH. rewrite F1 by now right. specialize (R n H). destruct (f n) as [i|]; [|rewrite R in PH; now apply Permutation_nil]. destruct R as (L & x & R & P). split; [rewrite app_length; lia|]. exists x. split; [intro more; rewrite skipn_app_l, <- app_assoc by easy; apply R|]. eapply Permutation_trans; [exact P|]. now apply Permutation_map.
  - destruct F2 as (pre & suf & -> & V & HP & a & q & -> & K); [easy | easy|]. rewrite V. split; [rewrite app_length, entries_len, app_length; cbn; lia|]. apply asc_app in AS. subst n. exists (map lt_ (has a_head (a_head a) (a :: q))). split.
    + intro more. rewrite skipn_app, skipn_all2 by lia. cbn [app]. replace (length v + length pre - length v) with (length pre) by lia. rewrite entries_skip. now apply runI_spec.
    + apply Permutation_map. rewrite (D (a_head a)) in PH by (rewrite H; easy). cbn [app] in PH. rewrite <- H, has_app, HP in PH. exact PH.
Qed.
