(** Correctness of the component search: one call *)
From Coq Require Import List Bool Arith Lia Relations Sorted.
Import ListNotations.
From Verif Require Import Base TjModel TjSpec TjProofs.

Section P.
Context (noNode n start : nat) (succ : nat -> list nat).
Notation reach := (reach succ).
Notation W := (W noNode n start succ).
Notation unseen := (unseen n).
Notation keep := (keep n).
Notation steps := (steps noNode succ).
Notation step := (step noNode succ).

(** the node becomes black *)
Definition blacken (s : ts) (v mn : nat) (cs : list call) : ts := Ts (upd (t_id s) v mn) (t_seen s) cs (t_nodes s) (t_count s) (t_sccs s) (t_scc s).
Lemma W_black s num G v mn cs : W s num (v :: G) -> ~ In v G ->
  (exists u, In u (t_nodes s) /\ mn = num u /\ num u < num v /\ reach v u) ->
  (forall u, In u (succ v) -> t_seen s u = true /\ (In u (t_nodes s) -> mn <= num u)) -> W (blacken s v mn cs) num G.
Proof.
  intros H Ng Hm Hs. pose proof (w_gray _ _ _ _ _ _ _ H v (or_introl eq_refl)) as [Iv Ev]. destruct H as [a b c d e f g h i j k l o p m].
  split; cbn [blacken t_id t_seen t_nodes t_count t_sccs t_scc]; auto.
  - intros x I. rewrite upd_other by (intros ->; auto). apply f. now right.
  - intros x I J. destruct (Nat.eq_dec x v) as [->|Ne]; [now rewrite upd_same|]. rewrite upd_other by auto. apply g; [auto|]. intros [X|X]; [congruence|auto].
  - intros x y I. apply h. now right.
  - intros x u I J Iu. destruct (Nat.eq_dec x v) as [->|Ne]; [rewrite upd_same; now apply Hs|]. rewrite upd_other by auto. apply i; auto. intros [X|X]; [congruence|auto].
  - intros x Hx. destruct (j x Hx) as [j1 j2]. split; [|exact j2]. rewrite upd_other; [auto|]. intros ->. now destruct Hx.
Qed.

(** the component is popped *)
Lemma W_pop s s' num G v T S0 : W s num (v :: G) -> t_nodes s = T ++ v :: S0 -> (forall g, In g G -> In g S0) ->
  (forall w, In w T -> num v <= t_id s w) -> (forall u, In u (succ v) -> t_seen s u = true /\ (In u (t_nodes s) -> num v <= num u)) ->
  t_seen s' = t_seen s -> t_nodes s' = S0 -> t_count s' = t_count s -> t_sccs s <= t_sccs s' ->
  (forall w, t_id s' w = if in_dec Nat.eq_dec w (T ++ [v]) then noNode else t_id s w) ->
  (forall w, ~ In w (T ++ [v]) -> t_scc s' w = t_scc s w) ->
  (T = [] /\ t_scc s' v = None /\ t_sccs s' = t_sccs s \/ T <> [] /\ t_sccs s' = S (t_sccs s) /\ forall w, In w (T ++ [v]) -> t_scc s' w = Some (t_sccs s)) ->
  W s' num G /\ forall d, done s d -> done s' d /\ t_scc s' d = t_scc s d.
Proof.
  intros H En HG HT Hv Es En' Ec Ess Eid Escc Enew.
  pose proof (w_sorted _ _ _ _ _ _ _ H) as So. rewrite En in So. destruct (sorted_app _ _ _ _ So) as (S1 & S2 & S3 & S4).
  pose proof (sorted_nodup _ _ So) as ND.
  set (C := T ++ [v]) in *.
  assert (NC : t_nodes s = C ++ S0) by (rewrite En; unfold C; now rewrite <- app_assoc).
  assert (CS : forall w, In w C -> ~ In w S0).
  { intros w I J. unfold C in I. apply in_app_iff in I as [I|[<-|[]]]; [specialize (S4 w w I J)|specialize (S3 v J)]; lia. }
  assert (CN : forall w, In w C -> In w (t_nodes s)) by (intros w I; rewrite NC; apply in_app_iff; now left).
  assert (SN : forall w, In w S0 -> In w (t_nodes s)) by (intros w I; rewrite NC; apply in_app_iff; now right).
  assert (NN : forall w, In w (t_nodes s) -> In w C \/ In w S0) by (intros w I; rewrite NC in I; now apply in_app_iff).
  assert (Cv : forall w, In w C -> num v <= num w) by (intros w I; unfold C in I; apply in_app_iff in I as [I|[<-|[]]]; [specialize (S2 w I)|]; lia).
  assert (Hi : forall u, In u (t_nodes s) -> num v <= num u -> In u C).
  { intros u I L. destruct (NN u I) as [J|J]; [auto|]. specialize (S3 u J). lia. }
  assert (TG : forall w, In w T -> ~ In w (v :: G)).
  { intros w I [<-|J]; [specialize (S2 v I); lia|]. apply HG in J. specialize (S4 w w I J). lia. }
  assert (D : forall d, done s' d <-> done s d \/ In d C).
  { intros d. unfold done. rewrite Es, En'. split.
    - intros [A B]. destruct (in_dec Nat.eq_dec d C) as [I|I]; [now right|]. left. split; [auto|]. intros X. destruct (NN d X); auto.
    - intros [[A B]|I]; [split; [auto|]; intros X; apply B; auto|]. split; [now apply (w_seen _ _ _ _ _ _ _ H), CN|auto]. }
  assert (ND' : forall d, done s d -> ~ In d C) by (intros d [_ B] I; apply B; auto).
  assert (Hv' : In v C) by (unfold C; apply in_app_iff; right; now left).
  (* all members reach each other *)
  assert (RV : forall w, In w C -> reach v w) by (intros w I; apply (w_path _ _ _ _ _ _ _ H); auto; now left).
  assert (VR : forall k w, num w < k -> In w C -> reach w v).
  { induction k as [|k IH]; intros w L I; [lia|]. unfold C in I. apply in_app_iff in I as [I|[<-|[]]]; [|apply reach_refl].
    destruct (w_black _ _ _ _ _ _ _ H w) as (u & B1 & B2 & B3 & B4); [apply CN; unfold C; apply in_app_iff; now left|now apply TG|].
    apply reach_trans with u; [auto|]. apply IH; [lia|]. apply Hi; [auto|]. rewrite <- B2. now apply HT. }
  assert (SC : forall w u, In w C -> In u (succ w) -> done s' u).
  { intros w u I Iu. apply D. assert (X : t_seen s u = true /\ (In u (t_nodes s) -> num v <= num u)).
    { unfold C in I. apply in_app_iff in I as [I|[<-|[]]]; [|now apply Hv]. destruct (w_bsucc _ _ _ _ _ _ _ H w u) as [X Y]; [apply CN; unfold C; apply in_app_iff; now left|now apply TG|auto|]. split; [auto|]. intros J. specialize (Y J). specialize (HT w I). lia. }
    destruct X as [X Y]. destruct (in_dec Nat.eq_dec u (t_nodes s)) as [J|J]; [right; auto|left; now split]. }
  assert (Old : forall a b, done s a -> reach a b -> done s b).
  { intros a b Ha R. apply (reach_closed succ (done s)) with a; auto. intros d u Hd. now apply (w_done _ _ _ _ _ _ _ H d Hd). }
  destruct (w_ids _ _ _ _ _ _ _ H) as [l1 l2].
  assert (New : forall a c, In a C -> t_scc s' a = Some c -> c = t_sccs s /\ t_sccs s' = S (t_sccs s)).
  { intros a c I E. destruct Enew as [(X & Y & Y')|(X & Y & Z)]; [|rewrite (Z a I) in E; injection E as <-; auto]. unfold C in I. rewrite X in I. destruct I as [<-|[]]. congruence. }
  split; [|intros d Hd; split; [apply D; now left|now apply Escc, ND']].
  split; rewrite ?En', ?Es, ?Ec.
  - intros w I. apply (w_seen _ _ _ _ _ _ _ H). auto.
  - exact S1.
  - intros w I. apply (w_cnt _ _ _ _ _ _ _ H). auto.
  - assert (X : unseen s' = unseen s) by (unfold unseen; now rewrite Es). rewrite X. apply (w_room _ _ _ _ _ _ _ H).
  - apply (w_range _ _ _ _ _ _ _ H).
  - intros g I. split; [auto|]. rewrite Eid. destruct (in_dec Nat.eq_dec g C) as [J|J]; [destruct (CS g J); auto|]. apply (w_gray _ _ _ _ _ _ _ H). now right.
  - intros b I J. destruct (w_black _ _ _ _ _ _ _ H b) as (u & B1 & B2 & B3 & B4); [auto|intros [<-|X]; [now apply (CS v)|auto]|]. exists u. split; [|split; [|auto]].
    + destruct (NN u B1) as [X|X]; [|auto]. specialize (Cv u X). specialize (S3 b I). lia.
    + rewrite Eid. destruct (in_dec Nat.eq_dec b C) as [X|X]; [destruct (CS b X); auto|auto].
  - intros g y I J. apply (w_path _ _ _ _ _ _ _ H); [now right|auto].
  - intros b u I J Iu. destruct (w_bsucc _ _ _ _ _ _ _ H b u) as [X Y]; [auto|intros [<-|X]; [now apply (CS v)|auto]|auto|]. split; [auto|]. intros K. rewrite Eid. destruct (in_dec Nat.eq_dec b C) as [Z|Z]; [destruct (CS b Z); auto|auto].
  - intros d Hd. apply D in Hd. destruct Hd as [Hd|Hd].
    + destruct (w_done _ _ _ _ _ _ _ H d Hd) as [A B]. split; [rewrite Eid; destruct (in_dec Nat.eq_dec d C); auto|]. intros u Iu. apply D. left. auto.
    + split; [rewrite Eid; destruct (in_dec Nat.eq_dec d C); tauto|]. intros u Iu. now apply (SC d).
  - intros a b Ha Hb Ne. apply D in Ha. apply D in Hb. destruct Ha as [Ha|Ha], Hb as [Hb|Hb].
    + rewrite !Escc by auto. now apply (w_res _ _ _ _ _ _ _ H).
    + split; [intros [X _]; exfalso; apply (ND' b); [now apply (Old a)|auto]|]. intros (c & X & Y). rewrite Escc in X by auto. specialize (l2 a c Ha X). destruct (New b c Hb Y). lia.
    + split; [intros [_ X]; exfalso; apply (ND' a); [now apply (Old b)|auto]|]. intros (c & X & Y). rewrite Escc in Y by auto. specialize (l2 b c Hb Y). destruct (New a c Ha X). lia.
    + split.
      * intros _. destruct Enew as [(X & Y & Y')|(X & Y & Z)]; [|exists (t_sccs s); auto]. unfold C in Ha, Hb. rewrite X in Ha, Hb. destruct Ha as [<-|[]], Hb as [<-|[]]. congruence.
      * intros _. split; apply reach_trans with v; auto; [apply VR with (S (num a))|apply VR with (S (num b))]; auto.
  - split; [lia|]. intros d c Hd E. apply D in Hd as [Hd|Hd]; [rewrite Escc in E by auto; specialize (l2 d c Hd E); lia|]. destruct (New d c Hd E). lia.
  - intros d c Hd E. apply D in Hd as [Hd|Hd].
    + rewrite Escc in E by auto. destruct (w_non _ _ _ _ _ _ _ H d c Hd E) as (y & O1 & O2 & O3). exists y. split; [auto|]. split; [apply D; now left|]. now rewrite Escc by auto.
    + destruct Enew as [(X & Y & Y')|(X & Y & Z)]; [exfalso; unfold C in Hd; rewrite X in Hd; destruct Hd as [<-|[]]; congruence|]. rewrite (Z d Hd) in E. injection E as <-.
      destruct (Nat.eq_dec d v) as [->|Ne]; [|exists v; split; [auto|]; split; [apply D; now right|auto]].
      destruct T as [|t T]; [congruence|]. exists t. assert (It : In t C) by (unfold C; now left). split; [specialize (S2 t (or_introl eq_refl)); intros ->; lia|]. split; [apply D; now right|auto].
  - intros c Lc. destruct (Nat.lt_ge_cases c (t_sccs s)) as [Lt|Ge].
    + destruct (w_used _ _ _ _ _ _ _ H c) as (d & U1 & U2); [lia|]. exists d. split; [apply D; now left|]. now rewrite Escc by auto.
    + destruct Enew as [(X & Y & Y')|(X & Y & Z)]; [lia|]. exists v. split; [apply D; now right|]. rewrite Z by auto. f_equal. lia.
  - destruct (w_rank _ _ _ _ _ _ _ H) as (rank & rk & m1 & m2 & m4 & m3). exists (fun x => if in_dec Nat.eq_dec x C then rk else rank x), (S rk).
    assert (Ro : forall d, done s d -> (if in_dec Nat.eq_dec d C then rk else rank d) = rank d) by (intros d Hd; destruct (in_dec Nat.eq_dec d C) as [I|I]; [destruct (ND' d Hd I)|auto]).
    assert (Rn : forall d, In d C -> (if in_dec Nat.eq_dec d C then rk else rank d) = rk) by (intros d Hd; destruct (in_dec Nat.eq_dec d C); tauto).
    split; [|split; [|split]].
    + intros d Hd. apply D in Hd as [Hd|Hd]; [rewrite Ro by auto; specialize (m1 d Hd); lia|rewrite Rn by auto; lia].
    + intros a b c Ha Hb Ea Eb. apply D in Ha. apply D in Hb. destruct Ha as [Ha|Ha], Hb as [Hb|Hb].
      * rewrite !Ro by auto. rewrite Escc in Ea, Eb by auto. eauto.
      * exfalso. rewrite Escc in Ea by auto. specialize (l2 a c Ha Ea). destruct (New b c Hb Eb). lia.
      * exfalso. rewrite Escc in Eb by auto. specialize (l2 b c Hb Eb). destruct (New a c Ha Ea). lia.
      * now rewrite !Rn.
    + intros a b c e Ha Hb Ea Eb. apply D in Ha. apply D in Hb. destruct Ha as [Ha|Ha], Hb as [Hb|Hb].
      * rewrite !Ro by auto. rewrite Escc in Ea, Eb by auto. eauto.
      * intros _. rewrite Escc in Ea by auto. specialize (l2 a c Ha Ea). destruct (New b e Hb Eb). lia.
      * rewrite Rn, Ro by auto. specialize (m1 b Hb). lia.
      * intros _. destruct (New a c Ha Ea), (New b e Hb Eb). lia.
    + intros d u Hd Iu. apply D in Hd as [Hd|Hd].
      * pose proof (proj2 (w_done _ _ _ _ _ _ _ H d Hd) u Iu) as Hu. rewrite (Ro d), (Ro u), (Escc d), (Escc u) by auto. auto.
      * pose proof (SC d u Hd Iu) as Hu. apply D in Hu as [Hu|Hu]; [left; rewrite (Rn d), (Ro u) by auto; auto|]. right. destruct Enew as [(X & Y & Y')|(X & Y & Z)]; [|right; exists (t_sccs s); auto].
        left. unfold C in Hd, Hu. rewrite X in Hd, Hu. destruct Hd as [<-|[]], Hu as [<-|[]]. auto.
Qed.
End P.
