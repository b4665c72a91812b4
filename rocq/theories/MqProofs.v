(** Invariants of the broadcast queue. *)
From Coq Require Import List Arith Bool Lia.
From Verif Require Import Base MqModel.
Import ListNotations.

Section P.
Variable A : Type.
Notation item := (item A). Notation pc := (pc A). Notation st := (st A). Notation ev := (ev A).

(** Ghost state: all linked nodes with their items in order of linking, for each thread the number of items taken, the position of the tail, the free nodes and
    the number of nodes released. Position 0 is the head node, position p+1 the node with index p. *)
Record gh := Gh { g_ord : list (nat * item); g_pos : nat -> nat; g_tp : nat; g_stk : list nat; g_rel : nat }.

Definition nodeAt (l : list (nat * item)) (p : nat) : nat :=
  match p with 0 => 1 | S k => match nth_error l k with Some (a, _) => a | None => 0 end end.

Definition lf (p : pc) (q : nat) : nat := match p with Con2 _ => q - 2 | _ => q - 1 end.
Definition pubOwn (p : pc) : option nat :=
  match p with
  | Ini0 _ _ n | Ini1 _ _ n | Ini2 _ _ n | Pub0 _ n | Pub1 _ n _ | Pub2 _ n _ _ | Pub3 _ n _ _ | Pub4 _ n _ | Rel0 _ n | Rel1 _ n _ => Some n
  | _ => None
  end.
Definition relOwn (p : pc) : option nat :=
  match p with Con3 n | Con4 n _ | Con5 n | Psh0 n | Psh1 n _ | Psh2 n _ => Some n | _ => None end.
Definition own (p : pc) : option nat := match pubOwn p with Some n => Some n | None => relOwn p end.
Definition c345 (p : pc) : bool := match p with Con3 _ | Con4 _ _ | Con5 _ => true | _ => false end.
Definition c34 (p : pc) : bool := match p with Con3 _ | Con4 _ _ => true | _ => false end.
Definition count (m : nat) (f : nat -> bool) : nat := length (filter f (seq 0 m)).

Fixpoint chainS (nx : nat -> nat) (x : nat) (l : list nat) : Prop := match l with [] => x = 0 | a :: r => x = a /\ chainS nx (nx a) r end.

Definition live (g : gh) : list nat := map fst (skipn (g_rel g) (g_ord g)).
Notation len g := (length (g_ord g)).

Definition safe (s : st) (g : gh) (t n : nat) : Prop :=
  (exists u, pubOwn (s_pc s u) = Some n) \/ (exists i x, lf (s_pc s t) (g_pos g t) <= i /\ nth_error (g_ord g) i = Some (n, x)).
Definition fresh (m : nat) (s : st) (n : nat) (i : item) : Prop := s_next s n = 0 /\ s_refs s n = m /\ s_data s n = Some i.
Definition atOk (g : gh) (t a j : nat) : Prop := g_pos g t <= j /\ j <= g_tp g /\ a = nodeAt (g_ord g) j.
Definition lastOf (g : gh) : option item := option_map snd (nth_error (g_ord g) (g_rel g - 1)).

Definition pcOk (m : nat) (s : st) (g : gh) (t : nat) : Prop :=
  match s_pc s t with
  | Idle | Pop0 _ _ | Con0 => True
  | Pop1 _ _ n => 2 <= n < s_brk s /\ (In n (g_stk g) \/ safe s g t n)
  | Pop2 _ _ n nx => 2 <= n < s_brk s /\ ((In n (g_stk g) /\ s_next s n = nx) \/ safe s g t n)
  | Ini0 _ _ n => s_data s n = None
  | Ini1 _ _ n => s_data s n = None /\ s_next s n = 0
  | Ini2 _ _ n => s_data s n = None /\ s_next s n = 0 /\ s_refs s n = m
  | Pub0 i n => fresh m s n i
  | Pub1 i n a => fresh m s n i /\ exists j, atOk g t a j
  | Pub2 i n a an => fresh m s n i /\ exists j, atOk g t a j /\ (an = 0 \/ (j < len g /\ an = nodeAt (g_ord g) (S j)))
  | Pub3 i n a an => fresh m s n i /\ exists j, atOk g t a j /\ j < len g /\ an = nodeAt (g_ord g) (S j)
  | Pub4 i n a => fresh m s n i /\ exists j, atOk g t a j
  | Pub5 i n a => exists j, atOk g t a j /\ nth_error (g_ord g) j = Some (n, i)
  | Rel0 i n => fresh m s n i
  | Rel1 i n a => fresh m s n i /\ a = nodeAt (g_ord g) (g_tp g)
  | Rel2 i n => nth_error (g_ord g) (g_tp g) = Some (n, i) /\ len g = S (g_tp g)
  | Con1 => g_pos g t < g_tp g
  | Con2 n => 1 <= g_pos g t /\ n = nodeAt (g_ord g) (g_pos g t - 1)
  | Con3 n => g_rel g = g_pos g t - 1 /\ 1 <= g_rel g /\ n = nodeAt (g_ord g) (g_rel g) /\ s_data s n = lastOf g /\
              s_next s n = nodeAt (g_ord g) (S (g_rel g)) /\ s_next s 1 = nodeAt (g_ord g) (g_rel g)
  | Con4 n nx => g_rel g = g_pos g t - 1 /\ 1 <= g_rel g /\ n = nodeAt (g_ord g) (g_rel g) /\ s_data s n = lastOf g /\
              nx = nodeAt (g_ord g) (S (g_rel g)) /\ s_next s 1 = nodeAt (g_ord g) (g_rel g)
  | Con5 n => g_rel g = g_pos g t - 1 /\ 1 <= g_rel g /\ n = nodeAt (g_ord g) (g_rel g) /\ s_data s n = lastOf g /\
              s_next s 1 = nodeAt (g_ord g) (S (g_rel g))
  | Psh0 n | Psh1 n _ => 1 <= g_pos g t /\ s_data s n = None
  | Psh2 n a => 1 <= g_pos g t /\ s_data s n = None /\ s_next s n = a
  | Rd => 1 <= g_pos g t
  end.

Record Inv (m : nat) (s : st) (g : gh) : Prop := {
  i_m : forall u, m <= u -> s_pc s u = Idle /\ g_pos g u = 0;
  i_brk : 2 <= s_brk s;
  i_nd : NoDup (live g ++ g_stk g);
  i_rng : forall a, In a (live g ++ g_stk g) -> 2 <= a < s_brk s;
  i_own : forall u a, own (s_pc s u) = Some a -> 2 <= a < s_brk s /\ ~ In a (live g ++ g_stk g);
  i_own2 : forall u w a, own (s_pc s u) = Some a -> own (s_pc s w) = Some a -> u = w;
  i_all : forall a, 2 <= a < s_brk s -> In a (live g ++ g_stk g) \/ exists u, own (s_pc s u) = Some a;
  i_chain : forall p, p <= len g -> g_rel g < p \/ g_rel g = 0 -> s_next s (nodeAt (g_ord g) p) = nodeAt (g_ord g) (S p);
  i_refs : forall i a x, nth_error (g_ord g) i = Some (a, x) -> g_rel g <= i ->
             s_refs s a = count m (fun u => lf (s_pc s u) (g_pos g u) <=? i) /\ s_data s a = Some x;
  i_tail : s_tail s = nodeAt (g_ord g) (g_tp g);
  i_tp : g_tp g <= len g <= S (g_tp g);
  i_pos : forall u, g_pos g u <= g_tp g;
  i_cid : forall u, s_cid s u = nodeAt (g_ord g) (g_pos g u);
  i_rl : forall u, u < m -> g_rel g <= lf (s_pc s u) (g_pos g u);
  i_min : (m = 0 /\ g_rel g = 0) \/ exists u, u < m /\ lf (s_pc s u) (g_pos g u) <= g_rel g;
  i_stk : chainS (s_next s) (s_top s) (g_stk g);
  i_sdata : forall a, In a (g_stk g) -> s_data s a = None;
  i_head : g_rel g = 0 \/ s_next s 1 = nodeAt (g_ord g) (S (g_rel g)) \/ exists u, c34 (s_pc s u) = true;
  i_pc : forall u, pcOk m s g u;
  i_mx : forall u w, relaxed (s_pc s u) = true -> publishing (s_pc s w) = true -> u = w;
  i_lag : len g = S (g_tp g) -> exists u, (exists i n a, s_pc s u = Pub5 i n a /\ a = nodeAt (g_ord g) (g_tp g)) \/ (exists i n, s_pc s u = Rel2 i n)
}.

Arguments i_m {m s g}.
Arguments i_brk {m s g}.
Arguments i_nd {m s g}.
Arguments i_rng {m s g}.
Arguments i_own {m s g}.
Arguments i_own2 {m s g}.
Arguments i_all {m s g}.
Arguments i_chain {m s g}.
Arguments i_refs {m s g}.
Arguments i_tail {m s g}.
Arguments i_tp {m s g}.
Arguments i_pos {m s g}.
Arguments i_cid {m s g}.
Arguments i_rl {m s g}.
Arguments i_min {m s g}.
Arguments i_stk {m s g}.
Arguments i_sdata {m s g}.
Arguments i_head {m s g}.
Arguments i_pc {m s g}.
Arguments i_mx {m s g}.
Arguments i_lag {m s g}.

(** * Basic lemmas *)
Lemma upd_eq B (f : nat -> B) k v : upd f k v k = v.
Proof. unfold upd. now rewrite Nat.eqb_refl. Qed.
Lemma upd_neq B (f : nat -> B) k v x : x <> k -> upd f k v x = f x.
Proof. intros H. unfold upd. now apply Nat.eqb_neq in H; rewrite H. Qed.

Lemma nodeAt_app l e p : p <= length l -> nodeAt (l ++ e) p = nodeAt l p.
Proof. destruct p; cbn; [reflexivity|]. intros H. rewrite nth_error_app1 by lia. reflexivity. Qed.
Lemma nodeAt_over l p : length l < p -> nodeAt l p = 0.
Proof. destruct p; cbn; [lia|]. intros H. destruct (nth_error l p) eqn:E; [|reflexivity]. assert (p < length l) by (apply nth_error_Some; congruence). lia. Qed.
Lemma nodeAt_nth l i a x : nth_error l i = Some (a, x) -> nodeAt l (S i) = a.
Proof. cbn. intros ->. reflexivity. Qed.
Lemma nth_lt B (l : list B) i x : nth_error l i = Some x -> i < length l.
Proof. intros H. apply nth_error_Some. congruence. Qed.
Lemma nth_skipn B (l : list B) k i : nth_error (skipn k l) i = nth_error l (k + i).
Proof. revert l; induction k; intros l; cbn; [reflexivity|]. destruct l; cbn; [now destruct i|apply IHk]. Qed.

Lemma live_in g i a x : nth_error (g_ord g) i = Some (a, x) -> g_rel g <= i -> In a (live g).
Proof.
  intros H L. unfold live. apply in_map_iff. exists (a, x). split; [reflexivity|]. apply (nth_error_In _ (i - g_rel g)). rewrite nth_skipn.
  now replace (g_rel g + (i - g_rel g)) with i by lia.
Qed.
Lemma live_inv g a : In a (live g) -> exists i x, nth_error (g_ord g) i = Some (a, x) /\ g_rel g <= i.
Proof.
  unfold live. intros H. apply in_map_iff in H. destruct H as ((b & x) & E & H). cbn in E. subst b. apply In_nth_error in H. destruct H as (k & H).
  rewrite nth_skipn in H. exists (g_rel g + k), x. split; [exact H|lia].
Qed.
Lemma live_inj g i j a x y : NoDup (live g) -> nth_error (g_ord g) i = Some (a, x) -> nth_error (g_ord g) j = Some (a, y) -> g_rel g <= i -> g_rel g <= j -> i = j.
Proof.
  intros N Hi Hj Li Lj. unfold live in N. rewrite NoDup_nth_error in N. 
  assert (X : i - g_rel g = j - g_rel g); [|lia]. apply N.
  - rewrite map_length, skipn_length. apply nth_lt in Hi. lia.
  - rewrite !nth_error_map, !nth_skipn. replace (g_rel g + (i - g_rel g)) with i by lia. replace (g_rel g + (j - g_rel g)) with j by lia. now rewrite Hi, Hj.
Qed.


Lemma nodup_l B (a b : list B) : NoDup (a ++ b) -> NoDup a.
Proof. induction a; cbn; intros H; [constructor|]. inversion H; subst. constructor; [|auto]. intros X. apply H2. apply in_or_app. now left. Qed.
Lemma nodup_r B (a b : list B) : NoDup (a ++ b) -> NoDup b.
Proof. induction a; cbn; intros H; [exact H|]. inversion H; subst. auto. Qed.
Lemma nodup_d B (a b : list B) x : NoDup (a ++ b) -> In x a -> In x b -> False.
Proof. induction a; cbn; [tauto|]. intros H [->|X] Y; inversion H; subst; eauto. apply H2. apply in_or_app. now right. Qed.

Definition lpos (g : gh) (p : nat) : Prop := p <= len g /\ (g_rel g < p \/ g_rel g = 0).

Section I.
Variables (m : nat) (s : st) (g : gh).
Hypothesis I : Inv m s g.

Lemma nd_live : NoDup (live g).
Proof. exact (nodup_l _ _ _ (i_nd I)). Qed.
Lemma live_stk a : In a (live g) -> In a (g_stk g) -> False.
Proof. exact (nodup_d _ _ _ _ (i_nd I)). Qed.
Lemma rel_le : g_rel g = 0 \/ g_rel g < len g.
Proof.
  destruct (i_min I) as [|(u & L & H)]; [lia|]. pose proof (i_rl I u L). pose proof (i_pos I u). pose proof (i_tp I).
  assert (lf (s_pc s u) (g_pos g u) <= g_pos g u - 1) by (unfold lf; destruct (s_pc s u); lia). lia.
Qed.
Lemma live_ge a : In a (live g) -> 2 <= a < s_brk s.
Proof. intros H. apply (i_rng I). apply in_or_app. now left. Qed.
Lemma stk_ge a : In a (g_stk g) -> 2 <= a < s_brk s.
Proof. intros H. apply (i_rng I). apply in_or_app. now right. Qed.
Lemma lpos_ge p : lpos g p -> 1 <= nodeAt (g_ord g) p < s_brk s.
Proof.
  intros (L & R). destruct p as [|p]; [cbn; pose proof (i_brk I); lia|]. cbn. destruct (nth_error (g_ord g) p) as [(a & x)|] eqn:E.
  - pose proof (live_ge a (live_in g p a x E ltac:(lia))). lia.
  - apply nth_error_None in E. lia.
Qed.
Lemma lpos_node p : lpos g p -> 0 < p -> In (nodeAt (g_ord g) p) (live g).
Proof.
  intros (L & R) P. destruct p as [|p]; [lia|]. cbn. destruct (nth_error (g_ord g) p) as [(a & x)|] eqn:E.
  - exact (live_in g p a x E ltac:(lia)).
  - apply nth_error_None in E. lia.
Qed.
Lemma lpos_inj p q : lpos g p -> lpos g q -> nodeAt (g_ord g) p = nodeAt (g_ord g) q -> p = q.
Proof.
  intros Lp Lq E. destruct p as [|p], q as [|q]; [reflexivity| | |].
  - pose proof (live_ge _ (lpos_node _ Lq ltac:(lia))). cbn in E. cbn in H. lia.
  - pose proof (live_ge _ (lpos_node _ Lp ltac:(lia))). cbn in E. cbn in H. lia.
  - destruct Lp as (Lp & Rp), Lq as (Lq & Rq). cbn in E. destruct (nth_error (g_ord g) p) as [(a & x)|] eqn:Ep; [|apply nth_error_None in Ep; lia].
    destruct (nth_error (g_ord g) q) as [(b & y)|] eqn:Eq; [|apply nth_error_None in Eq; lia]. subst b.
    rewrite (live_inj g p q a x y nd_live Ep Eq); lia.
Qed.
(** A thread holds all positions from its own one on. *)
Lemma hold u p : u < m -> g_pos g u <= p -> p <= len g -> lpos g p.
Proof.
  intros L P Q. split; [exact Q|]. pose proof (i_rl I u L). destruct (Nat.eq_dec (g_rel g) 0); [now right|left].
  assert (lf (s_pc s u) (g_pos g u) <= g_pos g u - 1) by (unfold lf; destruct (s_pc s u); lia). lia.
Qed.
Lemma tail_lpos u : u < m -> lpos g (g_tp g).
Proof. intros L. apply (hold u); [exact L|apply (i_pos I)|apply (i_tp I)]. Qed.
Lemma at_lpos u a j : u < m -> atOk g u a j -> lpos g j.
Proof. intros L (P & Q & E). pose proof (i_tp I). apply (hold u); [exact L|exact P|lia]. Qed.
End I.
Arguments nd_live {m s g}.
Arguments live_stk {m s g}.
Arguments rel_le {m s g}.
Arguments live_ge {m s g}.
Arguments stk_ge {m s g}.
Arguments lpos_ge {m s g}.
Arguments lpos_node {g}.
Arguments lpos_inj {m s g}.
Arguments hold {m s g}.
Arguments tail_lpos {m s g}.
Arguments at_lpos {m s g}.
End P.
Arguments i_all {A m s g}.
Arguments i_brk {A m s g}.
Arguments i_chain {A m s g}.
Arguments i_cid {A m s g}.
Arguments i_head {A m s g}.
Arguments i_lag {A m s g}.
Arguments i_m {A m s g}.
Arguments i_min {A m s g}.
Arguments i_mx {A m s g}.
Arguments i_nd {A m s g}.
Arguments i_own {A m s g}.
Arguments i_own2 {A m s g}.
Arguments i_pc {A m s g}.
Arguments i_pos {A m s g}.
Arguments i_refs {A m s g}.
Arguments i_rl {A m s g}.
Arguments i_rng {A m s g}.
Arguments i_sdata {A m s g}.
Arguments i_stk {A m s g}.
Arguments i_tail {A m s g}.
Arguments i_tp {A m s g}.
Arguments nd_live {A m s g}.
Arguments live_stk {A m s g}.
Arguments rel_le {A m s g}.
Arguments live_ge {A m s g}.
Arguments stk_ge {A m s g}.
Arguments lpos_ge {A m s g}.
Arguments lpos_inj {A m s g}.
Arguments hold {A m s g}.
Arguments tail_lpos {A m s g}.
Arguments at_lpos {A m s g}.
Arguments lpos_node {A g}.
Arguments Gh {A}.
Arguments g_ord {A}.
Arguments g_pos {A}.
Arguments g_tp {A}.
Arguments g_stk {A}.
Arguments g_rel {A}.
Arguments nodeAt {A}.
Arguments lf {A}.
Arguments pubOwn {A}.
Arguments relOwn {A}.
Arguments own {A}.
Arguments c345 {A}.
Arguments c34 {A}.
Arguments live {A}.
Arguments safe {A}.
Arguments fresh {A}.
Arguments atOk {A}.
Arguments lastOf {A}.
Arguments pcOk {A}.
Arguments Inv {A}.
Arguments lpos {A}.
Arguments nodeAt_app {A}.
Arguments nodeAt_over {A}.
Arguments nodeAt_nth {A}.
Arguments live_in {A}.
Arguments live_inv {A}.
Arguments live_inj {A}.
