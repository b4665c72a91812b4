(** The broadcast queue: observable events. *)
From Coq Require Import List Arith Bool Lia.
From Verif Require Import Base MqModel MqSpec MqProofs MqProofs2 MqProofs3 MqProofs4 MqProofs5.
Import ListNotations.

Section P.
Variable A : Type.
Notation item := (item A). Notation pc := (pc A). Notation st := (st A). Notation ev := (ev A). Notation gh := (gh A).
Notation len g := (length (g_ord g)).

Ltac un := unfold goto, setNext, setRefs, setData, setTail, setTop, setBrk, setCid, setCnt; cbn [s_next s_refs s_data s_tail s_top s_brk s_cid s_pc s_cnt].
Ltac gn := cbn [g_ord g_pos g_tp g_stk g_rel].

Definition ids (l : list (nat * item)) : list nat := map (fun x => fst (snd x)) l.
Definition inCon (p : pc) : bool := match p with Con2 _ | Con3 _ | Con4 _ _ | Con5 _ | Psh0 _ | Psh1 _ _ | Psh2 _ _ | Rd => true | _ => false end.
Definition pend (p : pc) : option item :=
  match p with
  | Pop0 _ i | Pop1 _ i _ | Pop2 _ i _ _ | Ini0 _ i _ | Ini1 _ i _ | Ini2 _ i _ | Pub0 i _ | Pub1 i _ _ | Pub2 i _ _ _ | Pub3 i _ _ _ | Pub4 i _ _ | Pub5 i _ _
  | Rel0 i _ | Rel1 i _ _ | Rel2 i _ => Some i
  | _ => None
  end.
Definition rc (s : st) (g : gh) (t : nat) : nat := if inCon (s_pc s t) then g_pos g t - 1 else g_pos g t.
Definition dcnt (s : st) (g : gh) (n : nat) : Prop :=
  ((exists u, c345 (s_pc s u) = true) /\ n = g_rel g - 1) \/ ((forall u, c345 (s_pc s u) = false) /\ n = g_rel g).

Record TR (m : nat) (tr : list ev) (s : st) (g : gh) : Prop := {
  t_got : forall t, received tr t = firstn (rc s g t) (ids (g_ord g));
  t_item : forall a id v, In (a, (id, v)) (g_ord g) -> called tr id v;
  t_val : forall t id v, In (Got t id v) tr -> called tr id v;
  t_del : exists n, dcnt s g n /\ deleted tr = firstn n (ids (g_ord g));
  t_nd : NoDup (ids (g_ord g));
  t_pend : forall u id v, pend (s_pc s u) = Some (id, v) -> called tr id v /\ (lag A (s_pc s u) = true \/ ~ In id (ids (g_ord g)));
  t_pend2 : forall u w id v x, pend (s_pc s u) = Some (id, v) -> pend (s_pc s w) = Some (id, x) -> u = w;
  t_cnt : forall id v, called tr id v -> id < s_cnt s;
  t_ret : forall id, returned tr id -> In id (firstn (g_tp g) (ids (g_ord g)));
  t_time : forall i j t u v, ahead tr (Ret t i) (Call u j v) -> In j (ids (g_ord g)) -> ahead (ids (g_ord g)) i j;
  t_empty : forall t tr1 tr2, tr = tr1 ++ Empty t :: tr2 -> forall id, returned tr1 id -> In id (received tr1 t);
  t_alive : forall id v tr1 tr2, tr = tr1 ++ Del id v :: tr2 -> forall t, t < m -> In id (received tr1 t)
}.

(** * Traces *)
Lemma received_app (a b : list ev) t : received (a ++ b) t = received a t ++ received b t.
Proof. unfold received. apply flat_map_app. Qed.
Lemma deleted_app (a b : list ev) : deleted (a ++ b) = deleted a ++ deleted b.
Proof. unfold deleted. apply flat_map_app. Qed.
Lemma snoc_split B (l a : list B) x y b : l ++ [x] = a ++ y :: b -> (exists b', b = b' ++ [x] /\ l = a ++ y :: b') \/ (b = [] /\ a = l /\ x = y).
Proof.
  intros H. destruct b as [|z b0] using rev_ind.
  - right. apply app_inj_tail in H. destruct H. auto.
  - clear IHb0. left. exists b0. rewrite app_comm_cons, app_assoc in H. apply app_inj_tail in H. destruct H as (-> & ->). auto.
Qed.
Lemma ahead_snoc B (l : list B) z x y : ahead (l ++ [z]) x y -> ahead l x y \/ (y = z /\ In x l).
Proof.
  intros (l1 & l2 & l3 & E). rewrite app_comm_cons, app_assoc in E. apply snoc_split in E. destruct E as [(b & -> & ->)|(-> & E & ->)].
  - left. exists l1, l2, b. now rewrite <- app_assoc.
  - right. split; [reflexivity|]. rewrite <- E. apply in_or_app. right. now left.
Qed.
Lemma ahead_app B (l e : list B) x y : ahead l x y -> ahead (l ++ e) x y.
Proof. intros (l1 & l2 & l3 & ->). exists l1, l2, (l3 ++ e). now rewrite <- app_assoc, <- app_comm_cons, <- app_assoc. Qed.
Lemma called_snoc (tr : list ev) e id v : called tr id v -> called (tr ++ [e]) id v.
Proof. intros (t & H). exists t. apply in_or_app. now left. Qed.

(** Silent steps. *)
Lemma tr_silent m tr (s s' : st) (g g' : gh) : TR m tr s g -> g_ord g' = g_ord g -> g_tp g <= g_tp g' -> (forall u, rc s' g' u = rc s g u) ->
  (forall n, dcnt s g n -> dcnt s' g' n) -> (forall u, pend (s_pc s' u) = pend (s_pc s u)) -> (forall u, lag A (s_pc s' u) = lag A (s_pc s u)) -> s_cnt s' = s_cnt s -> TR m tr s' g'.
Proof.
  intros T Eo Et Er Ed Ep El Ec. constructor; rewrite ?Eo; try apply T.
  - intros t. rewrite Er. apply T.
  - destruct (t_del _ _ _ _ T) as (n & D & E). exists n. auto.
  - intros u id v. rewrite Ep, El. apply T.
  - intros u w id v x. rewrite !Ep. apply T.
  - rewrite Ec. apply T.
  - intros id R. apply (t_ret _ _ _ _ T) in R. revert R. replace (g_tp g') with (g_tp g + (g_tp g' - g_tp g)) by lia. generalize (ids (g_ord g)). generalize (g_tp g' - g_tp g). generalize (g_tp g).
    induction n; cbn; intros d l; [tauto|]. destruct l; [tauto|]. cbn. intros [->|H]; [now left|right; eauto].
Qed.

(** The item is linked. *)
Lemma tr_link m tr (s s' : st) (g g' : gh) t n id v : TR m tr s g -> g_ord g' = g_ord g ++ [(n, (id, v))] -> g_tp g' = g_tp g -> (forall u, rc s' g' u = rc s g u) ->
  (forall u, rc s g u <= len g) -> g_rel g <= len g -> (forall k, dcnt s g k -> dcnt s' g' k) ->
  (forall u, pend (s_pc s' u) = pend (s_pc s u)) -> pend (s_pc s t) = Some (id, v) -> lag A (s_pc s t) = false -> lag A (s_pc s' t) = true ->
  (forall u, u <> t -> s_pc s' u = s_pc s u) -> s_cnt s' = s_cnt s -> TR m tr s' g'.
Proof.
  intros T Eo Et Er Lr Lg Ed Ep Pt L1 L2 Eu Ec.
  assert (Ei : ids (g_ord g') = ids (g_ord g) ++ [id]) by (rewrite Eo; unfold ids; rewrite map_app; reflexivity).
  assert (Ll : length (ids (g_ord g)) = len g) by (unfold ids; apply map_length).
  assert (Fn : forall k, k <= len g -> firstn k (ids (g_ord g')) = firstn k (ids (g_ord g))).
  { intros k H. rewrite Ei, firstn_app, Ll. replace (k - len g) with 0 by lia. cbn. apply app_nil_r. }
  destruct (t_pend _ _ _ _ T _ _ _ Pt) as (Cl & [X|Nw]); [congruence|].
  constructor.
  - intros u. rewrite Er, Fn by apply Lr. apply T.
  - intros a i x H. rewrite Eo in H. apply in_app_or in H. destruct H as [H|[H|[]]]; [exact (t_item _ _ _ _ T _ _ _ H)|]. injection H as <- <- <-. exact Cl.
  - apply T.
  - destruct (t_del _ _ _ _ T) as (k & D & E). exists k. split; [auto|]. rewrite Fn; [exact E|]. destruct D as [(_ & ->)|(_ & ->)]; lia.
  - rewrite Ei. apply NoDup_Add with (a := id) (l := ids (g_ord g)); [rewrite <- (app_nil_r (ids (g_ord g))) at 1; apply Add_app|]. split; [apply T|exact Nw].
  - intros u i x. rewrite Ep. intros P. destruct (t_pend _ _ _ _ T _ _ _ P) as (C & H). split; [exact C|]. destruct (Nat.eq_dec u t) as [->|N]; [left; exact L2|].
    rewrite Eu by exact N. destruct H as [H|H]; [now left|right]. rewrite Ei. intros X. apply in_app_or in X. destruct X as [X|[X|[]]]; [tauto|]. subst i.
    apply N. exact (t_pend2 _ _ _ _ T _ _ _ _ _ P Pt).
  - intros u w i x y. rewrite !Ep. apply T.
  - rewrite Ec. apply T.
  - intros i R. apply (t_ret _ _ _ _ T) in R. rewrite Et, Ei, firstn_app. apply in_or_app. now left.
  - intros i j a u x H Hj. rewrite Ei in *. apply in_app_or in Hj. destruct Hj as [Hj|[<-|[]]]; [apply ahead_app; exact (t_time _ _ _ _ T _ _ _ _ _ H Hj)|].
    assert (R : returned tr i). { destruct H as (l1 & l2 & l3 & ->). exists a. apply in_or_app. right. now left. }
    apply (t_ret _ _ _ _ T) in R. assert (Hi : In i (ids (g_ord g))) by (rewrite <- (firstn_skipn (g_tp g)); apply in_or_app; now left).
    apply in_split in Hi. destruct Hi as (l1 & l2 & ->). exists l1, l2, []. now rewrite <- app_assoc.
  - apply T.
  - apply T.
Qed.

(** Events appended to the trace that are neither Got nor Del. *)
Definition plain (e : ev) : bool := match e with Got _ _ _ | Del _ _ => false | _ => true end.
Lemma received_plain (tr : list ev) e t : plain e = true -> received (tr ++ [e]) t = received tr t.
Proof. intros P. rewrite received_app. destruct e; try discriminate; cbn; apply app_nil_r. Qed.
Lemma deleted_plain (tr : list ev) e : plain e = true -> deleted (tr ++ [e]) = deleted tr.
Proof. intros P. rewrite deleted_app. destruct e; try discriminate; cbn; apply app_nil_r. Qed.

(** Calls. *)
Lemma tr_call m tr (s s' : st) (g : gh) t v : TR m tr s g -> pend (s_pc s t) = None -> (forall u, u <> t -> s_pc s' u = s_pc s u) ->
  pend (s_pc s' t) = Some (s_cnt s, v) -> (forall u, rc s' g u = rc s g u) -> (forall n, dcnt s g n -> dcnt s' g n) -> s_cnt s' = S (s_cnt s) -> TR m (tr ++ [Call t (s_cnt s) v]) s' g.
Proof.
  intros T Pn Eu Pt Er Ed Ec.
  assert (Cl : forall id x, called (tr ++ [Call t (s_cnt s) v]) id x -> called tr id x \/ (id = s_cnt s /\ x = v)).
  { intros id x (u & H). apply in_app_or in H. destruct H as [H|[H|[]]]; [left; now exists u|right]. injection H; auto. }
  assert (Io : forall j, In j (ids (g_ord g)) -> j < s_cnt s).
  { intros j H. apply in_map_iff in H. destruct H as ((a & (i & x)) & <- & H). exact (t_cnt _ _ _ _ T _ _ (t_item _ _ _ _ T _ _ _ H)). }
  constructor.
  - intros u. rewrite received_plain by reflexivity. rewrite Er. apply T.
  - intros a id x H. apply called_snoc. exact (t_item _ _ _ _ T _ _ _ H).
  - intros u id x H. apply in_app_or in H. destruct H as [H|[H|[]]]; [|discriminate]. apply called_snoc. exact (t_val _ _ _ _ T _ _ _ H).
  - rewrite deleted_plain by reflexivity. destruct (t_del _ _ _ _ T) as (n & D & E). exists n. auto.
  - apply T.
  - intros u id x P. destruct (Nat.eq_dec u t) as [->|N].
    + rewrite Pt in P. injection P as <- <-. split; [exists t; apply in_or_app; right; now left|]. right. intros H. apply Io in H. lia.
    + rewrite Eu in P |- * by exact N. destruct (t_pend _ _ _ _ T _ _ _ P) as (C & H). split; [now apply called_snoc|exact H].
  - intros u w id x y P1 P2. destruct (Nat.eq_dec u t) as [->|Nu], (Nat.eq_dec w t) as [->|Nw]; [reflexivity| | |].
    + rewrite Pt in P1. injection P1 as <- _. rewrite Eu in P2 by exact Nw. apply (t_pend _ _ _ _ T) in P2. destruct P2 as (C & _). apply (t_cnt _ _ _ _ T) in C. lia.
    + rewrite Pt in P2. injection P2 as <- _. rewrite Eu in P1 by exact Nu. apply (t_pend _ _ _ _ T) in P1. destruct P1 as (C & _). apply (t_cnt _ _ _ _ T) in C. lia.
    + rewrite Eu in P1, P2 by assumption. exact (t_pend2 _ _ _ _ T _ _ _ _ _ P1 P2).
  - intros id x C. rewrite Ec. apply Cl in C. destruct C as [C|(-> & _)]; [apply (t_cnt _ _ _ _ T) in C|]; lia.
  - intros id (u & H). apply in_app_or in H. destruct H as [H|[H|[]]]; [|discriminate]. apply (t_ret _ _ _ _ T). now exists u.
  - intros i j a u x H Hj. apply ahead_snoc in H. destruct H as [H|(H & _)]; [exact (t_time _ _ _ _ T _ _ _ _ _ H Hj)|]. injection H as -> -> ->. apply Io in Hj. lia.
  - intros u tr1 tr2 E. apply snoc_split in E. destruct E as [(b & -> & E)|(_ & _ & E)]; [|discriminate]. exact (t_empty _ _ _ _ T _ _ _ E).
  - intros id x tr1 tr2 E. apply snoc_split in E. destruct E as [(b & -> & E)|(_ & _ & E)]; [|discriminate]. exact (t_alive _ _ _ _ T _ _ _ _ E).
Qed.

(** Other events. *)
Lemma tr_event m tr (s s' : st) (g g' : gh) e : TR m tr s g -> g_ord g' = g_ord g -> g_tp g <= g_tp g' -> s_cnt s' = s_cnt s ->
  (forall t id v, e <> Call t id v) ->
  (forall u, received (tr ++ [e]) u = firstn (rc s' g' u) (ids (g_ord g))) ->
  (exists n, dcnt s' g' n /\ deleted (tr ++ [e]) = firstn n (ids (g_ord g))) ->
  (forall u i, pend (s_pc s' u) = Some i -> pend (s_pc s u) = Some i /\ (lag A (s_pc s u) = true -> lag A (s_pc s' u) = true)) ->
  (forall t id v, e = Got t id v -> called tr id v) ->
  (forall t id, e = Ret t id -> In id (firstn (g_tp g') (ids (g_ord g)))) ->
  (forall t, e = Empty t -> forall id, returned tr id -> In id (received tr t)) ->
  (forall id v, e = Del id v -> forall t, t < m -> In id (received tr t)) ->
  TR m (tr ++ [e]) s' g'.
Proof.
  intros T Eo Et Ec Nc Hr Hd Hp Hg Hret He Hdel.
  assert (Cl : forall id x, called (tr ++ [e]) id x -> called tr id x).
  { intros id x (u & H). apply in_app_or in H. destruct H as [H|[H|[]]]; [now exists u|]. exfalso. exact (Nc _ _ _ H). }
  constructor; rewrite ?Eo.
  - exact Hr.
  - intros a id x H. apply called_snoc. exact (t_item _ _ _ _ T _ _ _ H).
  - intros u id x H. apply called_snoc. apply in_app_or in H. destruct H as [H|[H|[]]]; [exact (t_val _ _ _ _ T _ _ _ H)|exact (Hg _ _ _ H)].
  - exact Hd.
  - apply T.
  - intros u id x P. apply Hp in P. destruct P as (P & Lg). destruct (t_pend _ _ _ _ T _ _ _ P) as (C & H). split; [now apply called_snoc|]. destruct H; auto.
  - intros u w id x y P1 P2. apply Hp in P1, P2. destruct P1 as (P1 & _), P2 as (P2 & _). exact (t_pend2 _ _ _ _ T _ _ _ _ _ P1 P2).
  - intros id x C. rewrite Ec. exact (t_cnt _ _ _ _ T _ _ (Cl _ _ C)).
  - intros id (u & H). apply in_app_or in H. destruct H as [H|[H|[]]]; [|exact (Hret _ _ H)]. assert (R : returned tr id) by now exists u. apply (t_ret _ _ _ _ T) in R.
    revert R. replace (g_tp g') with (g_tp g + (g_tp g' - g_tp g)) by lia. generalize (ids (g_ord g)). generalize (g_tp g' - g_tp g). generalize (g_tp g).
    induction n; cbn; intros d l; [tauto|]. destruct l; [tauto|]. cbn. intros [->|X]; [now left|right; eauto].
  - intros i j a u x H Hj. apply ahead_snoc in H. destruct H as [H|(H & _)]; [exact (t_time _ _ _ _ T _ _ _ _ _ H Hj)|]. exfalso. exact (Nc _ _ _ (eq_sym H)).
  - intros u tr1 tr2 E. apply snoc_split in E. destruct E as [(b & -> & E)|(_ & -> & E)]; [exact (t_empty _ _ _ _ T _ _ _ E)|exact (He _ E)].
  - intros id x tr1 tr2 E. apply snoc_split in E. destruct E as [(b & -> & E)|(_ & -> & E)]; [exact (t_alive _ _ _ _ T _ _ _ _ E)|exact (Hdel _ _ E)].
Qed.

End P.
