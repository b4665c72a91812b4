(** Invariants of the broadcast queue, continued: steps that change the shared structures. *)
From Coq Require Import List Arith Bool Lia.
From Verif Require Import Base MqModel MqProofs MqProofs2.
Import ListNotations.

Section P.
Variable A : Type.
Notation item := (item A). Notation pc := (pc A). Notation st := (st A). Notation ev := (ev A). Notation gh := (gh A).
Notation len g := (length (g_ord g)).

Ltac un := unfold goto, setNext, setRefs, setData, setTail, setTop, setBrk, setCid, setCnt; cbn [s_next s_refs s_data s_tail s_top s_brk s_cid s_pc s_cnt].
Ltac unh H := unfold goto, setNext, setRefs, setData, setTail, setTop, setBrk, setCid, setCnt in H; cbn [s_next s_refs s_data s_tail s_top s_brk s_cid s_pc s_cnt] in H.

Lemma upd_same B (f : nat -> B) k v x : (x = k -> f x = v) -> upd f k v x = f x.
Proof. intros H. unfold upd. destruct (Nat.eqb_spec x k); [symmetry; auto|reflexivity]. Qed.

(** The control state of t changes from p to p'; conclusions about an observation f of the control states of all threads. *)
Lemma upd_obs B (f : pc -> B) (h : nat -> pc) t p' u : f p' = f (h t) -> f (upd h t p' u) = f (h u).
Proof. intros E. unfold upd. destruct (Nat.eqb_spec u t); [now subst|reflexivity]. Qed.

(** Allocation of a new node. *)
Lemma inv_alloc m (s : st) g t k i : Inv m s g -> t < m -> s_pc s t = Pop0 k i ->
  Inv m (goto t (enter k i (s_brk s)) (setData (s_brk s) (Some i) (setRefs (s_brk s) m (setNext (s_brk s) 0 (setBrk (S (s_brk s)) s))))) g.
Proof.
  intros I L Q. set (n := s_brk s). pose proof (i_brk I) as B.
  assert (Own : own (enter k i n) = Some n) by (destruct k; reflexivity).
  assert (POwn : pubOwn (enter k i n) = Some n) by (destruct k; reflexivity).
  assert (Lf : forall q, lf (enter k i n) q = q - 1) by (intros q; destruct k; reflexivity).
  assert (Mn : forall a, a < n -> upd (s_next s) n 0 a = s_next s a /\ upd (s_refs s) n m a = s_refs s a /\ upd (s_data s) n (Some i) a = s_data s a).
  { intros a H. rewrite !upd_neq by lia. auto. }
  assert (Lfu : forall u, lf (upd (s_pc s) t (enter k i n) u) (g_pos g u) = lf (s_pc s u) (g_pos g u)).
  { intros u. unfold upd. destruct (Nat.eqb_spec u t); [subst; rewrite Q, Lf; reflexivity|reflexivity]. }
  assert (Ou : forall u a, own (upd (s_pc s) t (enter k i n) u) = Some a -> (u = t /\ a = n) \/ (u <> t /\ own (s_pc s u) = Some a)).
  { intros u a. unfold upd. destruct (Nat.eqb_spec u t); [subst; rewrite Own; intros E; injection E; auto|auto]. }
  constructor; un.
  - intros u H. rewrite upd_neq by lia. exact (i_m I u H).
  - lia.
  - exact (i_nd I).
  - intros a H. apply (i_rng I) in H. fold n in H. lia.
  - intros u a O. destruct (Ou u a O) as [(-> & ->)|(N & O')].
    + split; [lia|]. intros H. apply (i_rng I) in H. fold n in H. lia.
    + destruct (i_own I u a O'). fold n in H. split; [lia|assumption].
  - intros u w a O1 O2. destruct (Ou _ _ O1) as [(-> & ->)|(N1 & O1')], (Ou _ _ O2) as [(-> & E)|(N2 & O2')]; auto.
    + apply (i_own I) in O2'. fold n in O2'. lia.
    + subst a. apply (i_own I) in O1'. fold n in O1'. lia.
    + exact (i_own2 I _ _ _ O1' O2').
  - intros a H. destruct (Nat.eq_dec a n) as [->|N].
    + right. exists t. now rewrite upd_eq.
    + destruct (i_all I a) as [X|(u & X)]; [fold n; lia|auto|right]. exists u. rewrite upd_neq; [exact X|]. intros ->. rewrite Q in X. discriminate.
  - intros p X Y. assert (LP : lpos g p) by now split. pose proof (lpos_ge I p LP) as H. fold n in H. rewrite upd_neq by lia. exact (i_chain I p X Y).
  - intros j a x X Y. destruct (i_refs I j a x X Y) as (R1 & R2). pose proof (live_ge I a (live_in g j a x X Y)) as H. fold n in H. rewrite !upd_neq by lia.
    split; [|exact R2]. rewrite R1. apply count_ext. intros u _. now rewrite Lfu.
  - exact (i_tail I).
  - exact (i_tp I).
  - exact (i_pos I).
  - exact (i_cid I).
  - intros u H. rewrite Lfu. exact (i_rl I u H).
  - destruct (i_min I) as [X|(u & X & Y)]; [auto|right]. exists u. now rewrite Lfu.
  - apply (chainS_ext (s_next s)); [|exact (i_stk I)]. intros a H. pose proof (stk_ge I a H) as G. fold n in G. now rewrite upd_neq by lia.
  - intros a H. pose proof (stk_ge I a H) as G. fold n in G. rewrite upd_neq by lia. exact (i_sdata I a H).
  - destruct (i_head I) as [X|[X|(u & X)]]; [auto| |right; right].
    + right; left. rewrite upd_neq by lia. exact X.
    + exists u. rewrite upd_neq; [exact X|]. intros ->. rewrite Q in X. discriminate.
  - intros u. destruct (Nat.eq_dec u t) as [->|N].
    + unfold pcOk, fresh. cbn. rewrite upd_eq. destruct k; cbn; unfold fresh; cbn; rewrite !upd_eq; auto.
    + apply (pcOk_evo A m s g _ g u []); un; auto.
      * exact (i_pc I u).
      * now rewrite upd_neq.
      * now rewrite app_nil_r.
      * apply (i_tp I).
      * apply (i_pos I).
      * intros a O. apply (i_own I) in O. apply Mn. apply O.
      * intros a H. left. split; [exact H|]. pose proof (stk_ge I a H) as G. fold n in G. now rewrite upd_neq by lia.
      * intros w a H. left. exists w. cbn. rewrite upd_neq; [exact H|]. intros ->. rewrite Q in H. discriminate.
      * intros _. split; [reflexivity|]. rewrite upd_neq by lia. reflexivity.
  - intros u w. pose proof (i_mx I u w) as M. unfold upd. 
    assert (R : relaxed (enter k i n) = relaxed (s_pc s t)) by (rewrite Q; destruct k; reflexivity).
    assert (P : publishing (enter k i n) = publishing (s_pc s t)) by (rewrite Q; destruct k; reflexivity).
    destruct (Nat.eqb_spec u t), (Nat.eqb_spec w t); subst; rewrite ?R, ?P; exact M.
  - intros X. destruct (i_lag I X) as (u & Y). exists u. rewrite upd_neq; [exact Y|]. intros ->. rewrite Q in Y. destruct Y as [(? & ? & ? & ? & _)|(? & ? & ?)]; discriminate.
Qed.

(** A node is taken from the stack. *)
Lemma inv_pop m (s : st) g t k i n nx : Inv m s g -> t < m -> s_pc s t = Pop2 k i n nx -> s_top s = n ->
  exists g', Inv m (goto t (Ini0 k i n) (setTop nx s)) g' /\ g_ord g' = g_ord g /\ g_pos g' = g_pos g /\ g_tp g' = g_tp g /\ g_rel g' = g_rel g.
Proof.
  intros I L Q T. pose proof (i_pc I t) as PC. unfold pcOk in PC. rewrite Q in PC. destruct PC as (V & PC).
  pose proof (i_stk I) as C. destruct (g_stk g) as [|n' r] eqn:S; cbn in C; [rewrite T in C; lia|]. destruct C as (E & C). rewrite T in E. subst n'.
  assert (NL : ~ In n (live g)) by (intros H; apply (live_stk I n H); rewrite S; now left).
  assert (NR : ~ In n r) by (pose proof (nodup_r _ _ _ (i_nd I)) as X; rewrite S in X; now inversion X).
  assert (Enx : s_next s n = nx).
  { destruct PC as [(_ & X)|[(u & X)|(j & x & X & Y)]]; [exact X| |].
    - assert (O : own (s_pc s u) = Some n) by (unfold own; now rewrite X). apply (i_own I) in O. destruct O as (_ & O). exfalso. apply O. rewrite S. apply in_or_app. right. now left.
    - exfalso. apply NL. apply (live_in g j n x Y). pose proof (i_rl I t L). lia. }
  exists (Gh (g_ord g) (g_pos g) (g_tp g) r (g_rel g)). split; [|cbn; auto].
  assert (Lv : live (Gh (g_ord g) (g_pos g) (g_tp g) r (g_rel g)) = live g) by reflexivity.
  assert (Lfu : forall u, lf (upd (s_pc s) t (Ini0 k i n) u) (g_pos g u) = lf (s_pc s u) (g_pos g u)).
  { intros u. unfold upd. destruct (Nat.eqb_spec u t); [subst; rewrite Q; reflexivity|reflexivity]. }
  assert (Ou : forall u a, own (upd (s_pc s) t (Ini0 k i n) u) = Some a -> (u = t /\ a = n) \/ (u <> t /\ own (s_pc s u) = Some a)).
  { intros u a. unfold upd. destruct (Nat.eqb_spec u t); [subst; unfold own; cbn; intros E; injection E; auto|auto]. }
  assert (Sub : forall a, In a (live g ++ r) -> In a (live g ++ g_stk g) /\ a <> n).
  { intros a H. rewrite S. apply in_app_or in H. split; [apply in_or_app; cbn; tauto|]. intros ->. tauto. }
  constructor; un; rewrite ?Lv; cbn [g_ord g_pos g_tp g_stk g_rel].
  - intros u H. rewrite upd_neq by lia. exact (i_m I u H).
  - exact (i_brk I).
  - pose proof (i_nd I) as N. rewrite S in N. apply NoDup_remove_1 in N. exact N.
  - intros a H. apply (i_rng I). now apply Sub.
  - intros u a O. destruct (Ou u a O) as [(-> & ->)|(N & O')].
    + split; [exact V|]. intros H. now apply Sub in H.
    + destruct (i_own I u a O') as (X & Y). split; [exact X|]. intros H. apply Y. now apply Sub.
  - intros u w a O1 O2. destruct (Ou _ _ O1) as [(-> & ->)|(N1 & O1')], (Ou _ _ O2) as [(-> & E)|(N2 & O2')]; auto.
    + apply (i_own I) in O2'. exfalso. apply O2'. rewrite S. apply in_or_app. right. now left.
    + subst a. apply (i_own I) in O1'. exfalso. apply O1'. rewrite S. apply in_or_app. right. now left.
    + exact (i_own2 I _ _ _ O1' O2').
  - intros a H. destruct (Nat.eq_dec a n) as [->|N].
    + right. exists t. now rewrite upd_eq.
    + destruct (i_all I a H) as [X|(u & X)].
      * left. rewrite S in X. apply in_app_or in X. apply in_or_app. destruct X as [X|[X|X]]; [auto|congruence|auto].
      * right. exists u. rewrite upd_neq; [exact X|]. intros ->. rewrite Q in X. discriminate.
  - exact (i_chain I).
  - intros j a x X Y. destruct (i_refs I j a x X Y) as (R1 & R2). split; [|exact R2]. rewrite R1. apply count_ext. intros u _. now rewrite Lfu.
  - exact (i_tail I).
  - exact (i_tp I).
  - exact (i_pos I).
  - exact (i_cid I).
  - intros u H. rewrite Lfu. exact (i_rl I u H).
  - destruct (i_min I) as [X|(u & X & Y)]; [auto|right]. exists u. now rewrite Lfu.
  - rewrite <- Enx. exact C.
  - intros a H. apply (i_sdata I). rewrite S. now right.
  - destruct (i_head I) as [X|[X|(u & X)]]; [auto|auto|right; right]. exists u. rewrite upd_neq; [exact X|]. intros ->. rewrite Q in X. discriminate.
  - intros u. destruct (Nat.eq_dec u t) as [->|N].
    + unfold pcOk. cbn. rewrite upd_eq. apply (i_sdata I). rewrite S. now left.
    + apply (pcOk_evo A m s g _ _ u []); un; cbn [g_ord g_pos g_tp g_stk g_rel]; auto.
      * exact (i_pc I u).
      * now rewrite upd_neq.
      * now rewrite app_nil_r.
      * apply (i_tp I).
      * apply (i_pos I).
      * intros a H. rewrite S in H. destruct H as [<-|H]; [right|auto]. left. exists t. cbn. now rewrite upd_eq.
      * intros w a H. left. exists w. cbn. rewrite upd_neq; [exact H|]. intros ->. rewrite Q in H. discriminate.
  - intros u w. pose proof (i_mx I u w) as M. unfold upd. 
    assert (R : relaxed (Ini0 k i n) = relaxed (s_pc s t)) by (rewrite Q; destruct k; reflexivity).
    assert (P : publishing (Ini0 k i n) = publishing (s_pc s t)) by (rewrite Q; destruct k; reflexivity).
    destruct (Nat.eqb_spec u t), (Nat.eqb_spec w t); subst; rewrite ?R, ?P; exact M.
  - intros X. destruct (i_lag I X) as (u & Y). exists u. rewrite upd_neq; [exact Y|]. intros ->. rewrite Q in Y. destruct Y as [(? & ? & ? & ? & _)|(? & ? & ?)]; discriminate.
Qed.

(** A node is put back on the stack. *)
Lemma inv_push m (s : st) g t n a : Inv m s g -> t < m -> s_pc s t = Psh2 n a -> s_top s = a ->
  exists g', Inv m (goto t Rd (setTop n s)) g' /\ g_ord g' = g_ord g /\ g_pos g' = g_pos g /\ g_tp g' = g_tp g /\ g_rel g' = g_rel g.
Proof.
  intros I L Q T. pose proof (i_pc I t) as PC. unfold pcOk in PC. rewrite Q in PC. destruct PC as (V & PC & Enx).
  assert (O : own (s_pc s t) = Some n) by (rewrite Q; reflexivity). destruct (i_own I _ _ O) as (Rn & Nn).
  exists (Gh (g_ord g) (g_pos g) (g_tp g) (n :: g_stk g) (g_rel g)). split; [|cbn; auto].
  assert (Lv : live (Gh (g_ord g) (g_pos g) (g_tp g) (n :: g_stk g) (g_rel g)) = live g) by reflexivity.
  assert (Lfu : forall u, lf (upd (s_pc s) t Rd u) (g_pos g u) = lf (s_pc s u) (g_pos g u)).
  { intros u. unfold upd. destruct (Nat.eqb_spec u t); [subst; rewrite Q; reflexivity|reflexivity]. }
  assert (Ou : forall u b, own (upd (s_pc s) t Rd u) = Some b -> u <> t /\ own (s_pc s u) = Some b).
  { intros u b. unfold upd. destruct (Nat.eqb_spec u t); [subst; discriminate|auto]. }
  assert (Sub : forall b, In b (live g ++ n :: g_stk g) <-> In b (live g ++ g_stk g) \/ b = n).
  { intros b. rewrite !in_app_iff. cbn. intuition. }
  constructor; un; rewrite ?Lv; cbn [g_ord g_pos g_tp g_stk g_rel].
  - intros u H. rewrite upd_neq by lia. exact (i_m I u H).
  - exact (i_brk I).
  - apply (NoDup_Add (Add_app n (live g) (g_stk g))). split; [exact (i_nd I)|exact Nn].
  - intros b H. apply Sub in H. destruct H as [H| ->]; [exact (i_rng I _ H)|exact Rn].
  - intros u b O1. destruct (Ou _ _ O1) as (N & O2). destruct (i_own I u b O2) as (X & Y). split; [exact X|]. intros H. apply Sub in H. destruct H as [H| ->]; [tauto|].
    apply N. exact (i_own2 I _ _ _ O2 O).
  - intros u w b O1 O2. apply Ou in O1, O2. exact (i_own2 I _ _ _ (proj2 O1) (proj2 O2)).
  - intros b H. destruct (i_all I b H) as [X|(u & X)]; [left; apply Sub; auto|]. destruct (Nat.eq_dec u t) as [->|N].
    + left. apply Sub. right. congruence.
    + right. exists u. now rewrite upd_neq.
  - exact (i_chain I).
  - intros j b x X Y. destruct (i_refs I j b x X Y) as (R1 & R2). split; [|exact R2]. rewrite R1. apply count_ext. intros u _. now rewrite Lfu.
  - exact (i_tail I).
  - exact (i_tp I).
  - exact (i_pos I).
  - exact (i_cid I).
  - intros u H. rewrite Lfu. exact (i_rl I u H).
  - destruct (i_min I) as [X|(u & X & Y)]; [auto|right]. exists u. now rewrite Lfu.
  - cbn. split; [reflexivity|]. rewrite Enx, <- T. exact (i_stk I).
  - intros b [<-|H]; [exact PC|exact (i_sdata I b H)].
  - destruct (i_head I) as [X|[X|(u & X)]]; [auto|auto|right; right]. exists u. rewrite upd_neq; [exact X|]. intros ->. rewrite Q in X. discriminate.
  - intros u. destruct (Nat.eq_dec u t) as [->|N].
    + unfold pcOk. cbn. rewrite upd_eq. exact V.
    + apply (pcOk_evo A m s g _ _ u []); un; cbn [g_ord g_pos g_tp g_stk g_rel]; auto.
      * exact (i_pc I u).
      * now rewrite upd_neq.
      * now rewrite app_nil_r.
      * apply (i_tp I).
      * apply (i_pos I).
      * intros b H. left. split; [now right|reflexivity].
      * intros w b H. left. exists w. cbn. rewrite upd_neq; [exact H|]. intros ->. rewrite Q in H. discriminate.
  - intros u w. pose proof (i_mx I u w) as M. unfold upd. destruct (Nat.eqb_spec u t), (Nat.eqb_spec w t); subst; rewrite ?Q in M; auto; discriminate.
  - intros X. destruct (i_lag I X) as (u & Y). exists u. rewrite upd_neq; [exact Y|]. intros ->. rewrite Q in Y. destruct Y as [(? & ? & ? & ? & _)|(? & ? & ?)]; discriminate.
Qed.

End P.
