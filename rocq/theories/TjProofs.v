(** Correctness of the component search *)
From Coq Require Import List Bool Arith Lia Relations Sorted.
Import ListNotations.
From Verif Require Import Base TjModel TjSpec.

Lemma upd_same {A} (f : nat -> A) v x : upd f v x v = x.
Proof. unfold upd. now rewrite Nat.eqb_refl. Qed.
Lemma upd_other {A} (f : nat -> A) v x w : w <> v -> upd f v x w = f w.
Proof. intros H. unfold upd. apply Nat.eqb_neq in H. now rewrite H. Qed.

Lemma sorted_app (num : nat -> nat) T v S0 : StronglySorted (fun a b => num b < num a) (T ++ v :: S0) ->
  StronglySorted (fun a b => num b < num a) S0 /\ (forall w, In w T -> num v < num w) /\ (forall w, In w S0 -> num w < num v) /\ (forall w x, In w T -> In x S0 -> num x < num w).
Proof.
  induction T as [|t T IH]; cbn [app]; intros H; inversion H as [|? ? A B]; subst; rewrite Forall_forall in B.
  - split; [auto|]. split; [intros w []|]. split; [auto|intros w x []].
  - destruct (IH A) as (C1 & C2 & C3 & C4). split; [auto|]. split; [|split; [auto|]].
    + intros w [<-|I]; [apply B, in_app_iff; right; now left|auto].
    + intros w x [<-|I] J; [apply B, in_app_iff; right; now right|auto].
Qed.
Lemma sorted_nodup (num : nat -> nat) l : StronglySorted (fun a b : nat => num b < num a) l -> NoDup l.
Proof. induction 1 as [|a l A IH B]; constructor; auto. rewrite Forall_forall in B. intros I. specialize (B a I). lia. Qed.

Section P.
Context (noNode n start : nat) (succ : nat -> list nat).
Notation reach := (reach succ).
Lemma reach_refl a : reach a a. Proof. apply rt_refl. Qed.
Lemma reach_trans a b c : reach a b -> reach b c -> reach a c. Proof. apply rt_trans. Qed.
Lemma reach_edge a b : In b (succ a) -> reach a b. Proof. intros H. now apply rt_step. Qed.
Lemma reach_closed (D : nat -> Prop) : (forall d u, D d -> In u (succ d) -> D u) -> forall a b, reach a b -> D a -> D b.
Proof. intros H a b R. induction R as [a b E| |a b c _ IH1 _ IH2]; intros X; [now apply (H a)|auto|auto]. Qed.

(** nodes not seen *)
Definition unseen (s : ts) : nat := length (filter (fun v => negb (t_seen s v)) (seq 0 n)).
Definition done (s : ts) (v : nat) : Prop := t_seen s v = true /\ ~ In v (t_nodes s).
Record W (s : ts) (num : nat -> nat) (G : list nat) : Prop := Wf
  { w_seen : forall v, In v (t_nodes s) -> t_seen s v = true;
    w_sorted : StronglySorted (fun a b => num b < num a) (t_nodes s);
    w_cnt : forall v, In v (t_nodes s) -> num v < t_count s;
    w_room : t_count s + unseen s <= n;
    w_range : forall v, t_seen s v = true -> v < n;
    w_gray : forall g, In g G -> In g (t_nodes s) /\ t_id s g = num g;
    w_black : forall b, In b (t_nodes s) -> ~ In b G -> exists u, In u (t_nodes s) /\ t_id s b = num u /\ num u < num b /\ reach b u;
    w_path : forall g y, In g G -> In y (t_nodes s) -> num g <= num y -> reach g y;
    w_bsucc : forall b u, In b (t_nodes s) -> ~ In b G -> In u (succ b) -> t_seen s u = true /\ (In u (t_nodes s) -> t_id s b <= num u);
    w_done : forall d, done s d -> t_id s d = noNode /\ forall u, In u (succ d) -> done s u;
    w_res : forall a b, done s a -> done s b -> a <> b -> (mutual succ a b <-> exists c, t_scc s a = Some c /\ t_scc s b = Some c);
    w_ids : start <= t_sccs s /\ forall d c, done s d -> t_scc s d = Some c -> start <= c < t_sccs s;
    w_non : forall d c, done s d -> t_scc s d = Some c -> exists b, b <> d /\ done s b /\ t_scc s b = Some c;
    w_used : forall c, start <= c < t_sccs s -> exists d, done s d /\ t_scc s d = Some c;
    w_rank : exists rank rk, (forall d, done s d -> rank d < rk) /\ (forall a b c, done s a -> done s b -> t_scc s a = Some c -> t_scc s b = Some c -> rank a = rank b)
      /\ (forall a b c e, done s a -> done s b -> t_scc s a = Some c -> t_scc s b = Some e -> rank a <= rank b -> c <= e)
      /\ forall d u, done s d -> In u (succ d) -> rank u < rank d \/ u = d \/ exists c, t_scc s d = Some c /\ t_scc s u = Some c }.

Lemma id_num s num G u : W s num G -> In u (t_nodes s) -> t_id s u <= num u.
Proof.
  intros H I. destruct (in_dec Nat.eq_dec u G) as [J|J].
  - destruct (w_gray _ _ _ H u J) as [_ E]. lia.
  - destruct (w_black _ _ _ H u I J) as (x & _ & E & L & _). lia.
Qed.

(** ** scanning successors *)
Lemma scan_ok s : forall l i mn mn' r, scan s l i mn = (mn', r) ->
  mn' <= mn /\ exists pre post, l = pre ++ post /\ (forall u, In u pre -> t_seen s u = true /\ mn' <= t_id s u) /\ (mn' = mn \/ exists u, In u pre /\ mn' = t_id s u /\ mn' < mn)
    /\ match r with None => post = [] | Some (u, j) => j = i + length pre /\ (exists q, post = u :: q) /\ t_seen s u = false end.
Proof.
  induction l as [|u l IH]; intros i mn mn' r E; cbn [scan] in E.
  - injection E as <- <-. split; [lia|]. exists [], []. split; [auto|]. split; [intros u []|]. auto.
  - destruct (t_seen s u) eqn:Es.
    + apply IH in E as (A & pre & post & B & C & D & F). set (m := if t_id s u <? mn then t_id s u else mn) in *.
      assert (M1 : m <= mn /\ m <= t_id s u) by (subst m; destruct (t_id s u <? mn) eqn:X; [apply Nat.ltb_lt in X|apply Nat.ltb_ge in X]; lia).
      split; [lia|]. exists (u :: pre), post. split; [cbn; now f_equal|]. split; [|split].
      * intros x [<-|I]; [split; [auto|lia]|auto].
      * destruct D as [D|(x & D1 & D2 & D3)]; [|right; exists x; split; [now right|]; split; [auto|lia]]. subst m. destruct (t_id s u <? mn) eqn:X; [|now left]. apply Nat.ltb_lt in X. right. exists u. split; [now left|]. split; lia.
      * destruct r as [[x j]|]; [|auto]. destruct F as (F1 & F2 & F3). split; [cbn; lia|auto].
    + injection E as <- <-. split; [lia|]. exists [], (u :: l). split; [auto|]. split; [intros x []|]. split; [now left|]. split; [cbn; lia|]. eauto.
Qed.

(** ** steps *)
Inductive steps : ts -> ts -> Prop := steps_refl s : steps s s | steps_one s1 s2 s3 : step noNode succ s1 = Ok s2 -> steps s2 s3 -> steps s1 s3.
Lemma steps_trans s1 s2 s3 : steps s1 s2 -> steps s2 s3 -> steps s1 s3.
Proof. induction 1 as [|? ? ? A B IH]; [auto|]. intros H. now apply steps_one with s2; [|apply IH]. Qed.

(** the stack behind the call is not touched *)
Record keep (s s' : ts) (num num' : nat -> nat) (S0 : list nat) : Prop := Keep_
  { k_id : forall w, In w S0 -> t_id s' w = t_id s w;
    k_seen : forall w, t_seen s w = true -> t_seen s' w = true /\ num' w = num w;
    k_done : forall d, done s d -> done s' d /\ t_scc s' d = t_scc s d;
    k_un : unseen s' <= unseen s }.
Lemma keep_refl s num S0 : keep s s num num S0.
Proof. split; auto. Qed.

Definition setCalls (s : ts) (cs : list call) : ts := Ts (t_id s) (t_seen s) cs (t_nodes s) (t_count s) (t_sccs s) (t_scc s).
Lemma W_calls s cs num G : W s num G -> W (setCalls s cs) num G.
Proof. intros [a b c d e f g h i j k l o p m]. now split. Qed.

(** entering a new node *)
Definition entered (s : ts) (v : nat) (cs : list call) : ts := Ts (upd (t_id s) v (t_count s)) (upd (t_seen s) v true) ((v, t_count s, 0) :: cs) (v :: t_nodes s) (S (t_count s)) (t_sccs s) (t_scc s).
Lemma step_entered s v cs : t_calls s = (v, 0, 0) :: cs -> t_seen s v = false -> step noNode succ s = step noNode succ (entered s v cs).
Proof. intros E H. unfold step. rewrite E. cbn [entered t_calls]. unfold enter. rewrite H. cbn [entered t_seen]. rewrite upd_same. reflexivity. Qed.
Lemma unseen_less (f g : nat -> bool) l v : (forall w, f w = true -> g w = true) -> In v l -> g v = true -> f v = false -> length (filter f l) < length (filter g l).
Proof.
  intros H. induction l as [|x l IH]; intros I Gv Fv; [destruct I|]. cbn [filter]. assert (Le : forall l, length (filter f l) <= length (filter g l)).
  { clear - H. induction l as [|y l IH]; cbn; [lia|]. specialize (H y). destruct (f y), (g y); cbn; try lia; specialize (H eq_refl); discriminate. }
  destruct I as [->|I].
  - rewrite Gv, Fv. cbn. specialize (Le l). lia.
  - specialize (IH I Gv Fv). specialize (H x). destruct (f x), (g x); cbn; try lia; specialize (H eq_refl); discriminate.
Qed.
Lemma enter_unseen s v cs : v < n -> t_seen s v = false -> unseen (entered s v cs) < unseen s.
Proof.
  intros L H. unfold unseen. cbn [entered t_seen]. apply unseen_less with v.
  - intros w. unfold upd. destruct (w =? v); [discriminate|auto].
  - apply in_seq. lia.
  - now rewrite H.
  - now rewrite upd_same.
Qed.
Lemma enter_done s v cs d : t_seen s v = false -> done (entered s v cs) d <-> done s d.
Proof.
  intros H. unfold done. cbn [entered t_seen t_nodes]. unfold upd. destruct (d =? v) eqn:E.
  - apply Nat.eqb_eq in E. subst d. split; [intros [_ X]; destruct X; now left|]. intros [X _]. congruence.
  - apply Nat.eqb_neq in E. split; intros [A B]; (split; [auto|]); intros X; apply B; [now right|]. destruct X as [X|X]; [congruence|auto].
Qed.
Lemma W_enter s num G v cs : W s num G -> v < n -> t_seen s v = false -> (forall g, In g G -> reach g v) -> W (entered s v cs) (upd num v (t_count s)) (v :: G).
Proof.
  intros [a b c d e f g h i j k l o p m] L Hv Hg.
  assert (Nv : ~ In v (t_nodes s)) by (intros X; apply a in X; congruence).
  assert (Un : forall {A} (fn : nat -> A) x w, In w (t_nodes s) -> upd fn v x w = fn w) by (intros A fn x w I; apply upd_other; intros ->; auto).
  split; cbn [entered t_id t_seen t_nodes t_count t_sccs t_scc].
  - intros w [<-|I]; [now rewrite upd_same|]. rewrite Un; auto.
  - constructor.
    + clear - b Un. assert (H : forall l, incl l (t_nodes s) -> StronglySorted (fun a b => num b < num a) l -> StronglySorted (fun a b => upd num v (t_count s) b < upd num v (t_count s) a) l).
      { induction l as [|x l IH]; intros I S; [constructor|]. inversion S as [|? ? A B]; subst. constructor; [apply IH; [intros y J; apply I; now right|auto]|]. rewrite Forall_forall in *. intros y J. rewrite !Un; [auto| |]; apply I; [now left|now right]. }
      apply H; [apply incl_refl|auto].
    + rewrite Forall_forall. intros w I. rewrite upd_same, Un; auto.
  - intros w [<-|I]; [rewrite upd_same; lia|]. rewrite Un by auto. specialize (c w I). lia.
  - pose proof (enter_unseen s v cs L Hv) as X. lia.
  - intros w. unfold upd. destruct (w =? v) eqn:E; [apply Nat.eqb_eq in E; subst; auto|auto].
  - intros x [<-|I]; [split; [now left|]; now rewrite !upd_same|]. destruct (f x I) as [f1 f2]. split; [now right|]. rewrite !Un; auto.
  - intros y [<-|I] J; [destruct J; now left|]. destruct (g y I) as (u & g1 & g2 & g3 & g4); [intros X; apply J; now right|]. exists u. split; [now right|]. rewrite !Un; auto.
  - intros x y [<-|I] [<-|J].
    + intros _. apply reach_refl.
    + rewrite upd_same, Un by auto. specialize (c y J). lia.
    + intros _. auto.
    + destruct (f x I) as [f1 _]. rewrite !Un; auto.
  - intros y u [<-|I] J Iu; [destruct J; now left|]. destruct (i y u I) as [i1 i2]; [intros X; apply J; now right|auto|]. assert (u <> v) by congruence. rewrite (upd_other _ _ _ u) by auto. split; [auto|]. intros [X|X]; [congruence|]. rewrite !Un; auto.
  - intros x Hx. apply enter_done in Hx; [|auto]. destruct (j x Hx) as [j1 j2]. rewrite upd_other by (intros ->; destruct Hx; congruence). split; [auto|]. intros u Iu. apply enter_done; [auto|]. now apply j2.
  - intros x y Hx Hy. apply enter_done in Hx; [|auto]. apply enter_done in Hy; [|auto]. now apply k.
  - destruct l as [l1 l2]. split; [auto|]. intros x q Hx. apply enter_done in Hx; [|auto]. now apply l2.
  - intros x q Hx E. apply enter_done in Hx; [|auto]. destruct (o x q Hx E) as (y & o1 & o2 & o3). exists y. split; [auto|]. split; [apply enter_done; auto|auto].
  - intros q Lq. destruct (p q Lq) as (y & p1 & p2). exists y. split; [apply enter_done; auto|auto].
  - destruct m as (rank & rk & m1 & m2 & m4 & m3). exists rank, rk. split; [|split; [|split]].
    + intros x Hx. apply enter_done in Hx; auto.
    + intros x y q Hx Hy. apply enter_done in Hx; [|auto]. apply enter_done in Hy; [|auto]. now apply m2.
    + intros x y q q' Hx Hy. apply enter_done in Hx; [|auto]. apply enter_done in Hy; [|auto]. now apply m4.
    + intros x u Hx. apply enter_done in Hx; [|auto]. now apply m3.
Qed.

(** popping a component *)
Lemma popTo_ok c v : forall T S0 id scc, ~ In v T -> exists id' scc', popTo noNode v (T ++ v :: S0) id scc c = Some (S0, id', scc')
  /\ (forall w, id' w = if in_dec Nat.eq_dec w (T ++ [v]) then noNode else id w) /\ (forall w, scc' w = if in_dec Nat.eq_dec w (T ++ [v]) then Some c else scc w).
Proof.
  induction T as [|t T IH]; intros S0 id scc Nv; cbn [app popTo].
  - rewrite Nat.eqb_refl. eexists _, _. split; [reflexivity|]. split; intros w; unfold upd; (destruct (in_dec Nat.eq_dec w [v]) as [I|I]; [destruct I as [->|[]]; now rewrite Nat.eqb_refl|]);
      (destruct (w =? v) eqn:E; [apply Nat.eqb_eq in E; subst; destruct I; now left|auto]).
  - assert (Et : t =? v = false) by (apply Nat.eqb_neq; intros ->; apply Nv; now left). rewrite Et. destruct (IH S0 (upd id t noNode) (upd scc t (Some c))) as (id' & scc' & A & B & C); [intros X; apply Nv; now right|].
    exists id', scc'. split; [auto|]. split; intros w; [rewrite B|rewrite C]; unfold upd; destruct (in_dec Nat.eq_dec w (T ++ [v])) as [I|I], (in_dec Nat.eq_dec w (t :: T ++ [v])) as [J|J]; auto; try (destruct J; now right);
      (destruct (w =? t) eqn:E; [apply Nat.eqb_eq in E; subst|apply Nat.eqb_neq in E]); auto; try (destruct J; now left); destruct J as [J|J]; [congruence|contradiction|congruence|contradiction].
Qed.
End P.
