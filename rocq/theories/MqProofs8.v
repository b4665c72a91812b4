(** The broadcast queue: reachable states, destruction, progress. *)
From Coq Require Import List Arith Bool Lia Permutation.
From Verif Require Import Base MqModel MqSpec MqProofs MqProofs2 MqProofs3 MqProofs4 MqProofs5 MqProofs6 MqProofs7.
Import ListNotations.

Section P.
Variable A : Type.
Notation item := (item A). Notation pc := (pc A). Notation st := (st A). Notation ev := (ev A). Notation gh := (gh A).
Notation len g := (length (g_ord g)). Notation TR := (TR A). Notation rc := (rc A). Notation dcnt := (dcnt A). Notation pend := (pend A). Notation lag := (lag A).
Notation inCon := (inCon A). Notation ids := (ids A).

Ltac un := unfold goto, setNext, setRefs, setData, setTail, setTop, setBrk, setCid, setCnt; cbn [s_next s_refs s_data s_tail s_top s_brk s_cid s_pc s_cnt].
Ltac gn := cbn [g_ord g_pos g_tp g_stk g_rel].

(** * The start *)
Fixpoint down (c : nat) : list nat := match c with 0 => [] | S c => (2 + c) :: down c end.
Lemma down_in c a : In a (down c) <-> 2 <= a < 2 + c.
Proof. induction c; cbn; [lia|]. rewrite IHc. lia. Qed.
Lemma down_nd c : NoDup (down c).
Proof. induction c; cbn; constructor; [|exact IHc]. rewrite down_in. lia. Qed.
Definition g0 (c : nat) : gh := Gh [] (fun _ => 0) 0 (down c) 0.

Lemma down_chain (f : nat -> nat) c : (forall a, 2 <= a < 2 + c -> f a = if 3 <=? a then a - 1 else 0) -> chainS f (if Nat.eqb c 0 then 0 else 1 + c) (down c).
Proof.
  induction c as [|c IH]; intros H; [reflexivity|]. cbn [down chainS]. split; [cbn; lia|]. rewrite H by lia.
  replace (if 3 <=? 2 + c then 2 + c - 1 else 0) with (if Nat.eqb c 0 then 0 else 1 + c); [apply IH; intros a Ha; apply H; lia|].
  destruct c; cbn; lia.
Qed.

Lemma inv_init m c : Inv m (init c : st) (g0 c).
Proof.
  constructor; unfold init, g0; cbn [s_next s_refs s_data s_tail s_top s_brk s_cid s_pc s_cnt]; gn.
  - auto.
  - lia.
  - unfold live; gn. cbn. apply down_nd.
  - intros a. unfold live; gn. cbn. rewrite down_in. lia.
  - discriminate.
  - discriminate.
  - intros a H. left. unfold live; gn. cbn. apply down_in. lia.
  - intros p Hp _. cbn in Hp. replace p with 0 by lia. reflexivity.
  - intros i a x H. destruct i; discriminate.
  - reflexivity.
  - cbn. lia.
  - auto.
  - reflexivity.
  - lia.
  - destruct m; [auto|right]. exists 0. cbn. lia.
  - apply down_chain. intros a Ha. replace (a <? 2 + c) with true by (symmetry; apply Nat.ltb_lt; lia). now rewrite andb_true_r.
  - auto.
  - auto.
  - intros u. exact Logic.I.
  - discriminate.
  - discriminate.
Qed.
Lemma tr_init m c : TR m [] (init c : st) (g0 c).
Proof.
  constructor; cbn; try tauto; try discriminate.
  - exists 0. split; [right; split; [intros u; reflexivity|reflexivity]|reflexivity].
  - constructor.
  - intros id v (t & []).
  - intros id (t & []).
  - intros t [|? ?] tr2 E; discriminate.
  - intros id v [|? ?] tr2 E; discriminate.
Qed.

(** * Calls *)
Lemma call_ok m tr (s : st) g t v k : Inv m s g -> TR m tr s g -> t < m -> s_pc s t = Idle ->
  (relaxed (Pop0 k (s_cnt s, v)) = true -> forall u, u <> t -> publishing (s_pc s u) = false) -> (forall u, u <> t -> relaxed (s_pc s u) = false) ->
  Inv m (goto t (Pop0 k (s_cnt s, v)) (setCnt (S (s_cnt s)) s)) g /\ TR m (tr ++ [Call t (s_cnt s) v]) (goto t (Pop0 k (s_cnt s, v)) (setCnt (S (s_cnt s)) s)) g.
Proof.
  intros I T L Q M1 M2. split.
  - apply (keep A m s _ g t I L); un; rewrite ?upd_eq, ?Q; auto; try reflexivity; try discriminate.
    + intros u N. now apply upd_neq.
    + unfold pcOk; un. now rewrite upd_eq.
  - apply (tr_call A m tr s _ g t v T); un; rewrite ?upd_eq, ?Q; auto.
    + intros u N. now apply upd_neq.
    + intros u. unfold MqProofs6.rc; un. rewrite (obs_upd A _ inCon); [reflexivity|]. now rewrite Q.
    + intros n. apply dcnt_same; [|reflexivity]. intros u. un. apply (obs_upd A _ c345). now rewrite Q.
Qed.

Definition Full m tr (s : st) : Prop := exists g, Inv m s g /\ TR m tr s g.

Lemma step_full m tr (s : st) e s' : Full m tr s -> step m s e s' -> Full m (tr ++ e) s'.
Proof.
  intros (g & I & T) H. inversion H; subst.
  - exists g. apply call_ok; auto; [discriminate|]. intros u _. destruct (le_lt_dec m u) as [G|G]; [|auto]. destruct (i_m I u G) as (-> & _). reflexivity.
  - exists g. assert (P : forall u, publishing (s_pc s u) = false) by (intros u; destruct (le_lt_dec m u) as [G|G]; [destruct (i_m I u G) as (-> & _); reflexivity|auto]).
    apply call_ok; auto. intros u _. specialize (P u). destruct (s_pc s u) as [| [] | [] | [] | [] | [] | [] | | | | | | | | | | | | | | | | | | |]; try discriminate; reflexivity.
  - exists g. split.
    + apply (keep A m s _ g t I); un; rewrite ?upd_eq, ?H1; auto; try reflexivity; try discriminate.
      * intros u N. now apply upd_neq.
      * unfold pcOk; un. now rewrite upd_eq.
    + assert (IC : forall u, inCon (upd (s_pc s) t Con0 u) = inCon (s_pc s u)) by (intros u; apply (obs_upd A _ inCon); now rewrite H1).
      apply (tr_event A m tr s _ g _ (Ask t) T); try reflexivity; try discriminate.
      * intros u. rewrite received_plain by reflexivity. unfold MqProofs6.rc; un. rewrite IC. apply (t_got _ _ _ _ _ T).
      * rewrite deleted_plain by reflexivity. destruct (t_del _ _ _ _ _ T) as (k & D & E'). exists k. split; [|exact E']. revert D. apply dcnt_same; [|reflexivity]. intros u. un.
        apply (obs_upd A _ c345). now rewrite H1.
      * intros u x. un. unfold upd. destruct (Nat.eqb_spec u t); [discriminate|auto].
  - destruct (run_good A m tr s g t I T H0 H1) as (s1 & e1 & E & g' & G). rewrite H2 in E. injection E as <- <-. exists g'. exact G.
Qed.
Lemma exec_full m c tr (s : st) : exec m c tr s -> Full m tr s.
Proof.
  induction 1.
  - exists (g0 c). split; [apply inv_init|apply tr_init].
  - eapply step_full; eauto.
Qed.

Lemma ids_len (l : list (nat * item)) : length (ids l) = length l.
Proof. apply map_length. Qed.

Lemma full_broadcast m tr (s : st) g : Inv m s g -> TR m tr s g -> broadcast m tr (ids (g_ord g)).
Proof.
  intros I T. constructor.
  - apply T.
  - intros id H. apply in_map_iff in H. destruct H as ((a & (i & v)) & <- & H). exists v. exact (t_item _ _ _ _ _ T _ _ _ H).
  - intros id R. apply (t_ret _ _ _ _ _ T) in R. rewrite <- (firstn_skipn (g_tp g)). apply in_or_app. now left.
  - apply T.
  - intros t. rewrite (t_got _ _ _ _ _ T). eexists. symmetry. apply firstn_skipn.
  - apply T.
  - apply T.
  - destruct (t_del _ _ _ _ _ T) as (n & _ & ->). eexists. symmetry. apply firstn_skipn.
  - apply T.
Qed.

(** * Destruction *)
Lemma destroy_items m (s : st) g : Inv m s g -> forall n p fuel, p + n = len g -> g_rel g <= p -> n < fuel ->
  destroyItems fuel s (nodeAt (g_ord g) (S p)) = Ok (map snd (skipn p (g_ord g)), map fst (skipn p (g_ord g))).
Proof.
  intros I. induction n as [|n IH]; intros p [|fuel] E R F; try lia; cbn [destroyItems].
  - rewrite nodeAt_over by lia. cbn. now rewrite skipn_all2 by lia.
  - destruct (nth_error (g_ord g) p) as [(a & x)|] eqn:N; [|apply nth_error_None in N; lia].
    pose proof (live_ge I _ (live_in g _ _ _ N R)) as G. rewrite (nodeAt_nth _ _ _ _ N). destruct (Nat.eqb_spec a 0); [lia|]. rewrite (node_ok A s a G).
    destruct (i_refs I _ _ _ N R) as (_ & D). rewrite D. 
    assert (X : s_next s a = nodeAt (g_ord g) (S (S p))) by (rewrite <- (nodeAt_nth _ _ _ _ N); apply (i_chain I); lia).
    rewrite X, (IH (S p) fuel) by lia. cbn.
    assert (S' : skipn p (g_ord g) = (a, x) :: skipn (S p) (g_ord g)).
    { clear - N. revert p N. induction (g_ord g) as [|y l IHl]; intros [|p] N; try discriminate; cbn; [injection N as ->; reflexivity|exact (IHl p N)]. }
    rewrite S'. reflexivity.
Qed.
Lemma destroy_free m (s : st) g : Inv m s g -> forall l x fuel, chainS (s_next s) x l -> (forall a, In a l -> 2 <= a < s_brk s) -> length l < fuel -> destroyFree fuel s x = Ok l.
Proof.
  intros I. induction l as [|a r IH]; intros x [|fuel] C H F; cbn in *; try lia.
  - now subst x.
  - destruct C as (-> & C). specialize (H a (or_introl eq_refl)) as Ha. destruct (Nat.eqb_spec a 0); [lia|]. rewrite (ptr_ok A m s g a I) by lia. rewrite (IH _ fuel C); [reflexivity|auto|lia].
Qed.

Lemma destroy_ok m tr (s : st) g : Inv m s g -> TR m tr s g -> (forall t, t < m -> s_pc s t = Idle) ->
  exists is fr, destroy (s_brk s) s = Ok (is, fr) /\ deleted tr ++ map fst is = ids (g_ord g) /\ Permutation fr (seq 2 (s_brk s - 2)).
Proof.
  intros I T Q. assert (Q' : forall u, s_pc s u = Idle) by (intros u; destruct (le_lt_dec m u) as [G|G]; [apply (i_m I u G)|auto]).
  assert (RL : g_rel g <= len g) by (destruct (rel_le I); lia).
  assert (Pm : Permutation (live g ++ g_stk g) (seq 2 (s_brk s - 2))).
  { apply NoDup_Permutation; [exact (i_nd I)|apply seq_NoDup|]. intros a. rewrite in_seq. pose proof (i_brk I). split.
    - intros H'. apply (i_rng I) in H'. lia.
    - intros H'. destruct (i_all I a) as [X|(u & X)]; [lia|exact X|]. rewrite Q' in X. discriminate. }
  assert (Lg : length (live g) + length (g_stk g) < s_brk s).
  { apply Permutation_length in Pm. rewrite app_length, seq_length in Pm. pose proof (i_brk I). lia. }
  assert (Ll : length (live g) = len g - g_rel g) by (unfold live; now rewrite map_length, skipn_length).
  assert (En : s_next s 1 = nodeAt (g_ord g) (S (g_rel g))).
  { destruct (i_head I) as [X|[X|(u & X)]]; [|exact X|rewrite Q' in X; discriminate]. rewrite X. apply (i_chain I 0); lia. }
  exists (map snd (skipn (g_rel g) (g_ord g))), (live g ++ g_stk g). split; [|split; [|exact Pm]].
  - unfold destroy. rewrite En, (destroy_items m s g I (len g - g_rel g) (g_rel g)) by lia. cbn. 
    rewrite (destroy_free m s g I (g_stk g)); [reflexivity|exact (i_stk I)|exact (stk_ge I)|lia].
  - destruct (t_del _ _ _ _ _ T) as (n & [((u & X) & _)|(_ & ->)] & ->); [rewrite Q' in X; discriminate|].
    unfold MqProofs6.ids. rewrite firstn_map, map_map, <- map_app. f_equal. apply firstn_skipn.
Qed.

(** * Progress of a thread running alone *)
Definition noLag (s : st) : bool := Nat.eqb (s_next s (s_tail s)) 0.
Definition pub0 (s : st) : nat := if noLag s then 5 else 10.
Definition meas (s : st) (t : nat) : nat :=
  match s_pc s t with
  | Idle => 0
  | Pop0 _ _ => 17
  | Pop1 _ _ n => if Nat.eqb (s_top s) n then 16 else 19
  | Pop2 _ _ n _ => if Nat.eqb (s_top s) n then 15 else 18
  | Ini0 _ _ _ => 13 | Ini1 _ _ _ => 12 | Ini2 _ _ _ => 11
  | Pub0 _ _ => pub0 s
  | Pub1 _ _ a => if Nat.eqb a (s_tail s) then (if noLag s then 4 else 9) else 13
  | Pub2 _ _ a an => if Nat.eqb a (s_tail s) && negb (Nat.eqb an 0) then 8 else if Nat.eqb (s_next s a) 0 then 3 else 12
  | Pub3 _ _ a _ => if Nat.eqb (s_tail s) a then 7 else 12
  | Pub4 _ _ a => if Nat.eqb (s_next s a) 0 then 2 else S (pub0 s)
  | Pub5 _ _ _ => 1
  | Rel0 _ _ => 3 | Rel1 _ _ _ => 2 | Rel2 _ _ => 1
  | Con0 => 10 | Con1 => 9 | Con2 _ => 8 | Con3 _ => 7 | Con4 _ _ => 6 | Con5 _ => 5
  | Psh0 _ => 4
  | Psh1 _ a => if Nat.eqb (s_top s) a then 3 else 6
  | Psh2 _ a => if Nat.eqb (s_top s) a then 2 else 5
  | Rd => 1
  end.

Ltac ms := unfold meas, pub0, noLag; un; rewrite ?upd_eq; cbn.
Lemma meas_step m (s : st) g t s' e : Inv m s g -> t < m -> run1 m t s = Ok (s', e) -> s_pc s t <> Idle -> meas s' t < meas s t.
Proof.
  intros I L R N. pose proof (i_pc I t) as PC. unfold run1 in R. unfold pcOk in PC. unfold meas at 2.
  destruct (s_pc s t) eqn:Q; try congruence.
  - destruct (Nat.eqb_spec (s_top s) 0); injection R as <- <-; ms.
    + destruct k; cbn; unfold pub0, noLag; cbn; try match goal with |- context [if ?b then _ else _] => destruct b end; lia.
    + rewrite Nat.eqb_refl. lia.
  - destruct (ptr s n); [|discriminate]. injection R as <- <-. ms. destruct (Nat.eqb (s_top s) n); lia.
  - destruct (Nat.eqb (s_top s) n); injection R as <- <-; ms; lia.
  - destruct (ptr s n); [|discriminate]. injection R as <- <-. ms. lia.
  - destruct (node s n); [|discriminate]. injection R as <- <-. ms. lia.
  - destruct (node s n); [|discriminate]. destruct (s_data s n); [discriminate|]. injection R as <- <-. ms. destruct k; cbn; unfold pub0, noLag; cbn; try match goal with |- context [if ?b then _ else _] => destruct b end; lia.
  - injection R as <- <-. ms. rewrite Nat.eqb_refl. destruct (Nat.eqb _ 0); lia.
  - destruct (ptr s at_); [|discriminate]. injection R as <- <-. ms. destruct (Nat.eqb_spec at_ (s_tail s)) as [E|E]; cbn; [rewrite E|].
    + destruct (Nat.eqb_spec (s_next s (s_tail s)) 0) as [Z|Z]; cbn; lia.
    + destruct (Nat.eqb (s_next s at_) 0); lia.
  - destruct (Nat.eqb_spec at_ (s_tail s)) as [E|E]; cbn in R |- *.
    + destruct (Nat.eqb_spec an 0) as [Z|Z]; cbn in R |- *; injection R as <- <-; ms.
      * destruct (Nat.eqb (s_next s at_) 0); [lia|]. destruct (Nat.eqb (s_next s (s_tail s)) 0); lia.
      * rewrite E, Nat.eqb_refl. lia.
    + injection R as <- <-; ms. destruct (Nat.eqb (s_next s at_) 0); [lia|]. destruct (Nat.eqb (s_next s (s_tail s)) 0); lia.
  - destruct PC as (F & j & J & H1 & H2). destruct (Nat.eqb_spec (s_tail s) at_) as [E|E]; injection R as <- <-; ms.
    + pose proof (at_lpos I t at_ j L J) as LP. pose proof (i_tp I) as TP.
      assert (Ej : g_tp g = j). { apply (lpos_inj I); [exact (tail_lpos I t L)|exact LP|]. rewrite <- (i_tail I), E. apply J. }
      assert (X : s_next s an = 0). { rewrite H2, (i_chain I (S j)) by (destruct LP; lia). apply nodeAt_over. lia. }
      rewrite X. cbn. destruct (Nat.eqb (s_next s at_) 0); lia.
    + destruct (Nat.eqb (s_next s at_) 0); [lia|]. destruct (Nat.eqb (s_next s (s_tail s)) 0); lia.
  - destruct (ptr s at_); [|discriminate]. destruct (Nat.eqb (s_next s at_) 0); injection R as <- <-; ms; destruct (Nat.eqb (s_next s (s_tail s)) 0); lia.
  - injection R as <- <-. ms. lia.
  - injection R as <- <-. ms. lia.
  - destruct (ptr s at_); [|discriminate]. injection R as <- <-. ms. lia.
  - injection R as <- <-. ms. lia.
  - destruct (Nat.eqb _ _); injection R as <- <-; ms; lia.
  - destruct (ptr s _); [|discriminate]. destruct (Nat.eqb _ 0); [discriminate|]. injection R as <- <-. ms. lia.
  - destruct (Nat.eqb n 1); [injection R as <- <-; ms; lia|]. destruct (node s n); [|discriminate]. destruct (s_refs s n); [discriminate|]. injection R as <- <-. ms.
    destruct (Nat.eqb n0 0); cbn; lia.
  - destruct (ptr s n); [|discriminate]. injection R as <- <-. ms. lia.
  - injection R as <- <-. ms. lia.
  - destruct (node s n); [|discriminate]. destruct (s_data s n); [|discriminate]. injection R as <- <-. ms. lia.
  - injection R as <- <-. ms. rewrite Nat.eqb_refl. lia.
  - destruct (ptr s n); [|discriminate]. injection R as <- <-. ms. destruct (Nat.eqb (s_top s) a); lia.
  - destruct (Nat.eqb (s_top s) a); injection R as <- <-; ms; lia.
  - destruct (node s _); [|discriminate]. destruct (s_data s _); [|discriminate]. injection R as <- <-. ms. lia.
Qed.
Lemma meas_max (s : st) t : meas s t <= 19.
Proof. unfold meas, pub0. destruct (s_pc s t); try lia; repeat match goal with |- context [if ?b then _ else _] => destruct b end; lia. Qed.

Lemma alone_ok m t : t < m -> forall k tr (s : st), Full m tr s -> meas s t <= k -> exists s', alone m t k s = Ok s' /\ s_pc s' t = Idle.
Proof.
  intros L. induction k as [|k IH]; intros tr s F M.
  - cbn. destruct (s_pc s t) eqn:Q; [exists s; auto|..]; exfalso; revert M; unfold meas, pub0; rewrite Q;
      repeat match goal with |- context [if ?b then _ else _] => destruct b end; lia.
  - destruct (s_pc s t) eqn:Q; [exists s; cbn; rewrite Q; auto|..];
    destruct F as (g & I & T); assert (N : s_pc s t <> Idle) by congruence; destruct (run_good A m tr s g t I T L N) as (s1 & e1 & E & g' & G);
    pose proof (meas_step m s g t s1 e1 I L E N) as D; cbn [alone]; rewrite Q, E; apply (IH (tr ++ e1) s1); try (exists g'; exact G); lia.
Qed.

End P.
