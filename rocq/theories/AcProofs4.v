(** C54: watches of arcs, tags. *)
From Coq Require Import List Arith Bool Lia.
From Verif Require Import Base AcSpec AcModel AcProofs AcProofs2.
Import ListNotations.

Lemma lit_eqb_iff p q : lit_eqb p q = true <-> p = q.
Proof. destruct p as [v b], q as [v' b']. unfold lit_eqb. cbn. rewrite andb_true_iff, Nat.eqb_eq, eqb_true_iff. split; [intros [-> ->]; easy | now intros [= -> ->]]. Qed.
Lemma updW_same W p l : updW W p l p = l.
Proof. unfold updW. now rewrite (proj2 (lit_eqb_iff p p) eq_refl). Qed.
Lemma updW_other W p l q : q <> p -> updW W p l q = W q.
Proof. unfold updW. intro N. destruct (lit_eqb q p) eqn:E; [apply lit_eqb_iff in E; easy | easy]. Qed.
Definition seenA (s : pasg) (W : lit -> list nat) (todo : list arc) (i : nat) (a : arc) : Prop :=
  if a_head a =? a_tail a then isFalse s (a_lit a) = true else isFalse s (a_lit a) = true \/ In i (W (a_lit a)) \/ (isTrue s (a_lit a) = true /\ In a todo).
Lemma val_dec s p : s (fst p) <> None -> isTrue s p = false -> isFalse s p = true.
Proof. unfold isTrue, isFalse, pval. destruct (s (fst p)) as [b|]; [|easy]. cbn. destruct b, (snd p); easy. Qed.
Lemma attach0 arcs : forall i s W todo s' W' todo', attachLoop i arcs 0 (s, W, todo) = Some (s', W', todo') ->
  pext s' s /\ (forall p j, In j (W p) -> In j (W' p)) /\ incl todo todo' /\ (forall k a, nth_error arcs k = Some a -> seenA s' W' todo' (i + k) a) /\
  (forall p j, In j (W' p) -> In j (W p) \/ exists k a, j = i + k /\ nth_error arcs k = Some a /\ a_lit a = p) /\ (forall a, In a todo' -> In a todo \/ In a arcs /\ a_head a <> a_tail a /\ isTrue s' (a_lit a) = true).
Proof.
  induction arcs as [|a arcs IH]; intros i s W todo s' W' todo'; cbn [attachLoop].
  - intros [= <- <- <-]. split; [apply pext_refl|]. split; [easy|]. split; [easy|]. split; [intros [|k] b E; easy|]. split; auto.
  - assert (LIFT : forall s1 W1 todo1, attachLoop (S i) arcs 0 (s1, W1, todo1) = Some (s', W', todo') -> pext s1 s -> (forall p j, In j (W p) -> In j (W1 p)) -> incl todo todo1 -> seenA s1 W1 todo1 i a ->
       (forall p j, In j (W1 p) -> In j (W p) \/ j = i /\ a_lit a = p) -> (forall b, In b todo1 -> In b todo \/ b = a /\ a_head a <> a_tail a /\ isTrue s1 (a_lit a) = true) ->
       pext s' s /\ (forall p j, In j (W p) -> In j (W' p)) /\ incl todo todo' /\ (forall k b, nth_error (a :: arcs) k = Some b -> seenA s' W' todo' (i + k) b) /\
       (forall p j, In j (W' p) -> In j (W p) \/ exists k b, j = i + k /\ nth_error (a :: arcs) k = Some b /\ a_lit b = p) /\ (forall b, In b todo' -> In b todo \/ In b (a :: arcs) /\ a_head b <> a_tail b /\ isTrue s' (a_lit b) = true)).
    { intros s1 W1 todo1 E X1 X2 X3 X4 X5 X6. apply IH in E as (I1 & I2 & I3 & I4 & I5 & I6). split; [eapply pext_trans; eauto|]. split; [auto|]. split; [eapply incl_tran; eauto|]. split; [|split].
      - intros [|k] b E; cbn in E; [injection E as <- | rewrite Nat.add_succ_r; now apply I4]. rewrite Nat.add_0_r. revert X4. unfold seenA. destruct (a_head a =? a_tail a); [intro F; eapply false_pext; eauto|].
        intros [F | [F | [T F]]]; [left; eapply false_pext; eauto | right; left; auto | right; right; split; [eapply true_pext; eauto | auto]].
      - intros p j J. destruct (I5 p j J) as [K | (k & b & -> & E & L)]; [destruct (X5 p j K) as [K' | [-> <-]]; [now left | right; exists 0, a; rewrite Nat.add_0_r; easy] | right; exists (S k), b; split; [lia | easy]].
      - intros b B. destruct (I6 b B) as [K | (K1 & K2 & K3)]; [destruct (X6 b K) as [K' | (-> & K1 & K2)]; [now left | right; split; [now left|]; split; [easy | eapply true_pext; eauto]] | right; split; [now right | easy]]. }
    unfold seenA in LIFT at 1. destruct (a_head a =? a_tail a) eqn:HT; cbn [negb].
    + destruct (isFalse s (a_lit a)) eqn:F; [intro E; eapply LIFT; eauto; [apply pext_refl | easy]|]. destruct (isTrue s (a_lit a)) eqn:T; [easy|]. intro E. destruct (set_ext s (a_lit a) T F). eapply LIFT; eauto. easy.
    + apply Nat.eqb_neq in HT. destruct (s (fst (a_lit a))) as [b|] eqn:V.
      * intro E. eapply LIFT; eauto; [apply pext_refl| | |].
        -- destruct (isTrue s (a_lit a)); [intros x X; apply in_app_iff; now left | easy].
        -- destruct (isTrue s (a_lit a)) eqn:T; [right; right; split; [easy | apply in_app_iff; right; now left] | left; apply val_dec; [congruence | easy]].
        -- intros x X. destruct (isTrue s (a_lit a)) eqn:T; [apply in_app_iff in X as [X | [<- | []]]; auto | auto].
      * intro E. assert (E' : attachLoop (S i) arcs 0 (s, updW W (a_lit a) (W (a_lit a) ++ [i]), todo) = Some (s', W', todo')) by (destruct (W (a_lit a)); exact E). clear E.
        eapply LIFT; eauto; [apply pext_refl | | easy | |].
        -- intros p j J. destruct (lit_eqb p (a_lit a)) eqn:Q; [apply lit_eqb_iff in Q as ->; rewrite updW_same; apply in_app_iff; now left | rewrite updW_other; [easy|]; intros ->; rewrite (proj2 (lit_eqb_iff _ _) eq_refl) in Q; easy].
        -- right. left. rewrite updW_same. apply in_app_iff. right. now left.
        -- intros p j J. destruct (lit_eqb p (a_lit a)) eqn:Q; [apply lit_eqb_iff in Q as ->; rewrite updW_same in J; apply in_app_iff in J as [J | [<- | []]]; auto|]. left. rewrite updW_other in J; [easy|]. intros ->. rewrite (proj2 (lit_eqb_iff _ _) eq_refl) in Q. easy.
Qed.
(** re-attach when no two arcs share a literal *)
Lemma attachU arcs : forall i u s W todo s' W' todo', NoDup (map a_lit arcs) -> attachLoop i arcs u (s, W, todo) = Some (s', W', todo') ->
  pext s' s /\ incl todo todo' /\ (forall p, ~ In p (map a_lit arcs) -> W' p = W p) /\ (forall k a, nth_error arcs k = Some a -> seenA s' W' todo' (i + k) a).
Proof.
  induction arcs as [|a arcs IH]; intros i u s W todo s' W' todo' ND; cbn [attachLoop].
  - intros [= <- <- <-]. split; [apply pext_refl|]. split; [easy|]. split; [easy|]. intros [|k] b E; easy.
  - inversion ND as [|? ? NI ND']; subst.
    assert (LIFT : forall u1 s1 W1 todo1, attachLoop (S i) arcs u1 (s1, W1, todo1) = Some (s', W', todo') -> pext s1 s -> incl todo todo1 -> (forall p, p <> a_lit a -> W1 p = W p) -> seenA s1 W1 todo1 i a ->
       pext s' s /\ incl todo todo' /\ (forall p, ~ In p (map a_lit (a :: arcs)) -> W' p = W p) /\ (forall k b, nth_error (a :: arcs) k = Some b -> seenA s' W' todo' (i + k) b)).
    { intros u1 s1 W1 todo1 E X1 X2 X3 X4. apply IH in E as (I1 & I2 & I3 & I4); [|easy]. split; [eapply pext_trans; eauto|]. split; [eapply incl_tran; eauto|]. split.
      - intros p N. cbn in N. rewrite I3, X3; tauto || (intros ->; tauto).
      - intros [|k] b E; cbn in E; [injection E as <- | rewrite Nat.add_succ_r; now apply I4]. rewrite Nat.add_0_r. revert X4. unfold seenA. rewrite (I3 (a_lit a) NI). destruct (a_head a =? a_tail a); [intro F; eapply false_pext; eauto|].
        intros [F | [F | [T F]]]; [left; eapply false_pext; eauto | now right; left | right; right; split; [eapply true_pext; eauto | auto]]. }
    unfold seenA in LIFT at 1. destruct (a_head a =? a_tail a) eqn:HT; cbn [negb].
    + destruct (isFalse s (a_lit a)) eqn:F; [intro E; eapply LIFT; eauto; [apply pext_refl | easy]|]. destruct (isTrue s (a_lit a)) eqn:T; [easy|]. intro E. destruct (set_ext s (a_lit a) T F). eapply LIFT; eauto. easy.
    + destruct (s (fst (a_lit a))) as [b|] eqn:V.
      * intro E. eapply LIFT; eauto; [apply pext_refl| |].
        -- destruct (isTrue s (a_lit a)); [intros x X; apply in_app_iff; now left | easy].
        -- destruct (isTrue s (a_lit a)) eqn:T; [right; right; split; [easy | apply in_app_iff; right; now left] | left; apply val_dec; [congruence | easy]].
      * intro E. assert (E' : exists u1 l, In i l /\ attachLoop (S i) arcs u1 (s, updW W (a_lit a) l, todo) = Some (s', W', todo')).
        { destruct u as [|u]; [exists 0, (W (a_lit a) ++ [i]); split; [apply in_app_iff; right; now left | exact E]|]. destruct (W (a_lit a)) as [|j l]; [exists (S u), [i]; split; [now left | exact E] | exists u, (i :: l); split; [now left | exact E]]. }
        destruct E' as (u1 & l & L & E'). eapply LIFT; eauto; [apply pext_refl | easy | intros p N; now apply updW_other |]. right. left. now rewrite updW_same.
Qed.
Lemma startSearch_spec M tags cnt : 2 < M -> cnt < M -> (forall v, tags v <= cnt) ->
  let (tags', tag) := startSearch M tags cnt in 0 < tag /\ tag < M /\ (forall v, tags' v < tag) /\ (forall v, tags' v = tag - 1 <-> tags v = cnt).
Proof.
  intros M2 CM T. unfold startSearch. destruct (S cnt mod M =? 0) eqn:E.
  - split; [lia|]. split; [lia|]. split; [intro v; destruct (tags v =? cnt); lia|]. intro v. destruct (tags v =? cnt) eqn:Q; [apply Nat.eqb_eq in Q; rewrite Q; easy | apply Nat.eqb_neq in Q; split; [easy | intro; contradiction]].
  - apply Nat.eqb_neq in E. assert (S cnt < M) by (destruct (Nat.eq_dec (S cnt) M) as [Q | Q]; [rewrite Q, Nat.mod_same in E by lia; easy | lia]). rewrite Nat.mod_small by easy.
    split; [lia|]. split; [lia|]. split; [intro v; specialize (T v); lia | intro v; lia].
Qed.
