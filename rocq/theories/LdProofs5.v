(** C51: what was received is what was sent; references. *)
From Coq Require Import List Arith Bool Lia.
From Verif Require Import Base LdSpec LdModel LdProofs LdProofs2 LdProofs3 LdProofs4.
Import ListNotations.

Lemma published_app a b u : published (a ++ b) u = published a u ++ published b u.
Proof. induction a as [|e a IH]; cbn; [reflexivity|]. destruct e; auto. destruct (t =? u); cbn; now rewrite IH. Qed.
Lemma received_app a b u : received (a ++ b) u = received a u ++ received b u.
Proof. induction a as [|e a IH]; cbn; [reflexivity|]. destruct e; auto. destruct (t =? u); cbn; now rewrite IH. Qed.
Lemma deleted_app a b : deleted (a ++ b) = deleted a ++ deleted b.
Proof. induction a as [|e a IH]; cbn; [reflexivity|]. destruct e; auto. cbn. now rewrite IH. Qed.
Lemma blocks_app a b : blocks (a ++ b) = blocks a ++ blocks b.
Proof. induction a as [|e a IH]; cbn; [reflexivity|]. destruct e; auto. cbn. now rewrite IH. Qed.
Lemma item_dec (x y : item) : {x = y} + {x <> y}. Proof. repeat decide equality. Qed.
Definition eqi (x y : item) : bool := if item_dec x y then true else false.
Lemma eqi_true x y : eqi x y = true <-> x = y. Proof. unfold eqi. destruct (item_dec x y); split; congruence. Qed.
Lemma eqi_refl x : eqi x x = true. Proof. now apply eqi_true. Qed.
Lemma eqi_false x y : x <> y -> eqi x y = false. Proof. unfold eqi. destruct (item_dec x y); congruence. Qed.

(** Did [t] give [x] back? Is a thread at [p] publishing [x]? *)
Definition relb (tr : list ev) (t : nat) (x : item) : bool := existsb (fun e => match e with Rel u y => (u =? t) && eqi y x | _ => false end) tr.
Definition curb (p : pc) (x : item) : bool := match pubOf p with Some b => eqi (p_it b) x | None => false end.
Lemma relb_in tr t x : relb tr t x = true <-> In (Rel t x) tr.
Proof.
  unfold relb. rewrite existsb_exists. split.
  - intros (e & I & E). destruct e; try discriminate. apply andb_true_iff in E. destruct E as [E1 E2]. apply Nat.eqb_eq in E1. apply eqi_true in E2. congruence.
  - intros I. exists (Rel t x). split; [exact I|]. now rewrite Nat.eqb_refl, eqi_refl.
Qed.
Lemma relb_app a b t x : relb (a ++ b) t x = relb a t x || relb b t x. Proof. apply existsb_app. Qed.

Definition sumTo (k : nat) (f : nat -> nat) : nat := list_sum (map f (seq 0 k)).
Lemma sum_S k f : sumTo (S k) f = sumTo k f + f k.
Proof. unfold sumTo. rewrite seq_S, map_app. cbn. unfold list_sum. rewrite fold_right_app. cbn. fold (list_sum (map f (seq 0 k))).
  generalize (map f (seq 0 k)). intros l. induction l as [|a l IH]; cbn; [lia|]. unfold list_sum in IH. lia. Qed.
Lemma sum_ext k f f' : (forall i, i < k -> f' i = f i) -> sumTo k f' = sumTo k f.
Proof. induction k as [|k IH]; intros E; [reflexivity|]. rewrite !sum_S, E, IH by (auto; lia). reflexivity. Qed.
Lemma sum_one k f f' t : t < k -> f t = 1 -> f' t = 0 -> (forall i, i < k -> i <> t -> f' i = f i) -> sumTo k f = S (sumTo k f').
Proof.
  induction k as [|k IH]; intros T F F' E; [lia|]. rewrite !sum_S. destruct (Nat.eq_dec t k) as [->|NE].
  - rewrite F, F', (sum_ext k f f') by (intros; apply E; lia). lia.
  - rewrite (E k), (IH ltac:(lia) F F' (fun i I => E i ltac:(lia))) by lia. lia.
Qed.
Lemma sum_zero k f : sumTo k f = 0 <-> forall i, i < k -> f i = 0.
Proof.
  induction k as [|k IH]; [split; [intros; lia|reflexivity]|]. rewrite sum_S. split.
  - intros E i I. destruct (Nat.eq_dec i k) as [->|NE]; [lia|]. apply IH; lia.
  - intros E. rewrite (E k) by lia. rewrite (proj2 IH) by (intros; apply E; lia). reflexivity.
Qed.

Section P.
Variables (m : nat) (peers : nat -> nat -> bool).
Hypothesis M2 : 2 <= m.
Notation Inv := (Inv m peers).
Notation todoG := (todoG peers).
Definition share (tr : list ev) (s : st) (x : item) (i : nat) : nat :=
  if i =? it_from x then (if it_keep x && negb (relb tr i x) then 1 else 0)
  else if goesTo peers i x then (if relb tr i x then 0 else 1) else (if curb (s_pc s (it_from x)) x then 1 else 0).
Definition pubd (tr : list ev) (x : item) : Prop := exists u, u < m /\ In x (published tr u).
Record Sem (tr : list ev) (s : st) (g : gh) : Prop := {
  z_seq : forall i u, i < m -> u < m -> filter (goesTo peers i) (published tr u) = filter (from u) (received tr i ++ trans s g i) ++ todoG (s_pc s u) i;
  z_from : forall i x, i < m -> In x (received tr i ++ trans s g i) -> it_from x < m;
  z_pub : forall u x, u < m -> In x (published tr u) -> it_from x = u /\ it_id x < s_num s;
  z_nd : forall u, u < m -> NoDup (published tr u);
  z_inj : forall x y, pubd tr x -> pubd tr y -> it_id x = it_id y -> x = y;
  z_cur : forall u b, u < m -> pubOf (s_pc s u) = Some b -> In (p_it b) (published tr u);
  z_blk : forall a, In a (blocks tr) <-> In a (gB g) \/ exists u, u < m /\ heldB (s_pc s u) = Some a;
  z_bnd : NoDup (blocks tr) }.
Record Ref (tr : list ev) (s : st) : Prop := {
  r_refs : forall x, pubd tr x -> s_refs s (it_id x) = sumTo m (share tr s x);
  r_hold : forall t x, t < m -> In x (s_hold s t) -> (In x (received tr t) \/ it_keep x = true /\ In x (published tr t)) /\ curb (s_pc s t) x = false /\ relb tr t x = false;
  r_hnd : forall t, t < m -> NoDup (s_hold s t);
  r_rel : forall t x, In (Rel t x) tr -> t < m /\ (In x (received tr t) \/ In x (published tr t)) /\ curb (s_pc s t) x = false;
  r_del : forall x, In x (deleted tr) <-> pubd tr x /\ s_refs s (it_id x) = 0;
  r_dnd : NoDup (deleted tr) }.

Lemma sem_recv tr s g i x : Sem tr s g -> i < m -> In x (received tr i ++ trans s g i) -> pubd tr x /\ goesTo peers i x = true.
Proof.
  intros H I X. pose proof (z_from _ _ _ H i x I X) as F. pose proof (z_seq _ _ _ H i _ I F) as E.
  assert (In x (filter (goesTo peers i) (published tr (it_from x)))) as K.
  { rewrite E. apply in_app_iff. left. apply filter_In. split; [exact X|]. unfold from. apply Nat.eqb_refl. }
  apply filter_In in K. destruct K as [K1 K2]. split; [exists (it_from x); auto|exact K2].
Qed.
Lemma filter_twice {A} (f : A -> bool) (l : list A) : (forall x, NoDup (filter f l) -> f x = true -> In x l -> forall a b c, l = a ++ x :: b ++ x :: c -> False).
Proof.
  intros x N F _ a b c ->. rewrite filter_app in N. cbn in N. rewrite F in N. apply NoDup_remove_2 in N. apply N. apply in_app_iff. right. rewrite filter_app. apply in_app_iff. right. cbn. rewrite F. now left.
Qed.
Lemma not_twice {A} (dec : forall x y : A, {x = y} + {x <> y}) (l : list A) : (forall x a b c, l = a ++ x :: b ++ x :: c -> False) -> NoDup l.
Proof.
  induction l as [|y l IH]; intros H; constructor.
  - intros I. apply in_split in I. destruct I as (b & c & ->). now apply (H y [] b c).
  - apply IH. intros x a b c ->. now apply (H x (y :: a) b c).
Qed.
Lemma sem_nodup tr s g i : Sem tr s g -> i < m -> NoDup (received tr i ++ trans s g i).
Proof.
  intros H I. apply (not_twice item_dec). intros x a b c E.
  assert (In x (received tr i ++ trans s g i)) as X by (rewrite E; apply in_app_iff; right; now left).
  pose proof (z_from _ _ _ H i x I X) as F. pose proof (z_seq _ _ _ H i _ I F) as Q.
  assert (NoDup (filter (from (it_from x)) (received tr i ++ trans s g i))) as N.
  { pose proof (NoDup_filter (goesTo peers i) (z_nd _ _ _ H _ F)) as K. rewrite Q in K. clear - K.
    induction (filter (from (it_from x)) (received tr i ++ trans s g i)) as [|y l IH]; [constructor|]. cbn in K. inversion_clear K as [|? ? K1 K2]. constructor; [|auto]. intros Y. apply K1, in_app_iff. now left. }
  eapply filter_twice; [exact N| |exact X|exact E]. unfold from. apply Nat.eqb_refl.
Qed.

Lemma pubd_app a b x : pubd a x -> pubd (a ++ b) x. Proof. intros (u & U & K). exists u. split; [exact U|]. rewrite published_app. apply in_app_iff. now left. Qed.
(** Events of steps of threads *)
Lemma run_ev s t s' e : run1 m peers t s = Ok (s', e) -> (forall u, published e u = []) /\ (forall u x, relb e u x = false) /\
  (forall u, received e u = [] \/ u = t) /\ s_num s' = s_num s.
Proof.
  unfold run1. intros E.
  assert (forall b, (forall u, published (b ++ [Ret t (match s_pc s t with Dec b => p_it b | _ => It 0 0 true true end)]) u = published b u)) as PA by (intros b u; rewrite published_app; cbn; apply app_nil_r).
  destruct (s_pc s t) eqn:EP; unfold at_, fin in E;
    repeat match type of E with context [if ?c then _ else _] => destruct c eqn:? | context [match ?c with Some _ => _ | None => _ end] => destruct c eqn:? end;
    try discriminate; try (injection E as <- <-; repeat split; auto; fail);
    try (unfold release in E; destruct (_ <? _); [discriminate|]; cbn in E; destruct (_ =? 0); injection E as <- <-; repeat split; auto; fail).
  all: try (injection E as <- <-; repeat split; auto; intros u; cbn; destruct (Nat.eqb_spec t u); auto; fail).
Qed.
End P.
