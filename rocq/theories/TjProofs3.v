(** Correctness of the component search: the whole search *)
From Coq Require Import List Bool Arith Lia Relations Sorted.
Import ListNotations.
From Verif Require Import Base TjModel TjSpec TjProofs TjProofs2.

Lemma filt_len (f : nat -> bool) l : length (filter f l) <= length l.
Proof. induction l as [|x l IH]; cbn; [auto|]. destruct (f x); cbn; lia. Qed.

Section P.
Context (noNode n start : nat) (succ : nat -> list nat).
Context (Hn : n <= noNode) (Hsucc : forall v u, v < n -> In u (succ v) -> u < n).
Notation reach := (reach succ).
Notation W := (W noNode n start succ).
Notation unseen := (unseen n).
Notation keep := (keep n).
Notation steps := (steps noNode succ).
Notation step := (step noNode succ).

(** what is known in the middle of the loop of a node *)
Record frame (s : ts) (num : nat -> nat) (G : list nat) (v mn i : nat) (T S0 : list nat) : Prop := Frame
  { f_W : W s num (v :: G);
    f_nodes : t_nodes s = T ++ v :: S0;
    f_G : forall g, In g G -> In g S0;
    f_T : forall w, In w T -> mn <= t_id s w \/ exists u, nth_error (succ v) i = Some u /\ t_seen s u = true /\ t_id s u <= t_id s w;
    f_pre : forall u, In u (firstn i (succ v)) -> t_seen s u = true /\ (In u (t_nodes s) -> mn <= num u);
    f_min : exists u, In u (t_nodes s) /\ mn = num u /\ num u <= num v /\ reach v u;
    f_i : i <= length (succ v) }.

(** what a finished call leaves behind *)
Definition outcome (s s' : ts) (num num' : nat -> nat) (G : list nat) (v : nat) (S0 : list nat) : Prop :=
  W s' num' G /\ keep s s' num num' S0 /\ t_seen s' v = true
  /\ (t_nodes s' = S0 \/ exists T', t_nodes s' = T' ++ v :: S0 /\ forall w, In w T' -> t_id s' v <= t_id s' w).

Lemma scanned s num G v mn i T S0 mn' r : frame s num G v mn i T S0 -> scan s (skipn i (succ v)) i mn = (mn', r) ->
  (forall w, In w T -> mn' <= t_id s w \/ exists u, r = Some (u, i) /\ mn' = mn /\ t_seen s u = true)
  /\ (exists u, In u (t_nodes s) /\ mn' = num u /\ num u <= num v /\ reach v u)
  /\ match r with
     | None => forall u, In u (succ v) -> t_seen s u = true /\ (In u (t_nodes s) -> mn' <= num u)
     | Some (u, j) => j <= length (succ v) /\ nth_error (succ v) j = Some u /\ t_seen s u = false /\ forall u, In u (firstn j (succ v)) -> t_seen s u = true /\ (In u (t_nodes s) -> mn' <= num u)
     end.
Proof.
  intros F E. destruct F as [fW fn fG fT fp fm fi]. destruct (scan_ok _ _ _ _ _ _ E) as (A & pre & post & B & C & D & R).
  assert (Sp : succ v = firstn i (succ v) ++ pre ++ post) by (rewrite <- B; symmetry; apply firstn_skipn).
  assert (Ip : forall u, In u pre -> In u (succ v)) by (intros u I; rewrite Sp; rewrite !in_app_iff; tauto).
  assert (P : forall u, In u (firstn i (succ v) ++ pre) -> t_seen s u = true /\ (In u (t_nodes s) -> mn' <= num u)).
  { intros u I. apply in_app_iff in I as [I|I]; [destruct (fp u I) as [X Y]; split; [auto|]; intros J; specialize (Y J); lia|]. destruct (C u I) as [X Y]. split; [auto|]. intros J. pose proof (id_num _ _ _ _ _ _ _ u fW J). lia. }
  assert (Iv : In v (t_nodes s)) by (rewrite fn; apply in_app_iff; right; now left).
  split; [|split].
  - intros w I. left. destruct (fT w I) as [X|(u & X & Y & Z)]; [lia|].
    assert (J : In u pre); [|destruct (C u J); lia].
    rewrite Sp, nth_error_app2 in X by (rewrite firstn_length; lia). rewrite firstn_length in X. replace (i - Nat.min i (length (succ v))) with 0 in X by lia.
    destruct pre as [|x pre]; [|cbn in X; injection X as ->; now left]. cbn [app] in X. destruct r as [[y j]|]; [|subst post; discriminate]. destruct R as (_ & (q & ->) & R). cbn in X. congruence.
  - destruct fm as (x & M1 & M2 & M3 & M4). destruct D as [->|(u & D1 & D2 & D3)]; [eauto|]. destruct (C u D1) as [Su _].
    destruct (in_dec Nat.eq_dec u (t_nodes s)) as [J|J].
    + assert (Ru : reach v u) by now apply reach_edge, Ip. destruct (in_dec Nat.eq_dec u (v :: G)) as [K|K].
      * destruct (w_gray _ _ _ _ _ _ _ fW u K) as [_ Eu]. exists u. split; [auto|]. split; [lia|]. split; [lia|auto].
      * destruct (w_black _ _ _ _ _ _ _ fW u J K) as (y & B1 & B2 & B3 & B4). exists y. split; [auto|]. split; [lia|]. split; [lia|]. now apply reach_trans with u.
    + exfalso. destruct (w_done _ _ _ _ _ _ _ fW u) as [X _]; [now split|]. pose proof (w_cnt _ _ _ _ _ _ _ fW v Iv). pose proof (w_room _ _ _ _ _ _ _ fW). lia.
  - destruct r as [[u j]|].
    + destruct R as (R1 & (q & ->) & R3). assert (Lj : length (firstn i (succ v) ++ pre) = j) by (rewrite app_length, firstn_length; lia).
      assert (Sj : succ v = (firstn i (succ v) ++ pre) ++ u :: q) by (rewrite <- app_assoc; exact Sp).
      assert (X : forall (p l : list nat), firstn (length p) (p ++ l) = p) by (induction p as [|y p IH]; intros l; cbn; [auto|now rewrite IH]).
      remember (firstn i (succ v) ++ pre) as pp eqn:Epp. clear Epp. rewrite Sj, <- Lj.
      split; [rewrite app_length; lia|]. split; [rewrite nth_error_app2 by lia; rewrite Nat.sub_diag; reflexivity|]. split; [auto|]. now rewrite X.
    + subst post. intros u I. apply P. rewrite app_nil_r in Sp. now rewrite <- Sp.
Qed.

Lemma scan_calls s cs : forall l i mn, scan (setCalls s cs) l i mn = scan s l i mn.
Proof. induction l as [|u l IH]; intros i mn; cbn [scan]; [auto|]. cbn [setCalls t_seen t_id]. destruct (t_seen s u); auto. Qed.
Lemma frame_ok : forall k s num G v mn i R T S0, unseen s < k -> t_calls s = (v, mn, i) :: R -> t_seen s v = true -> frame s num G v mn i T S0 ->
  exists s' num', steps s s' /\ t_calls s' = R /\ outcome s s' num num' G v S0.
Proof.
  induction k as [|k IH]; intros s num G v mn i R T S0 Hk Ec Sv F; [lia|].
  destruct (scan s (skipn i (succ v)) i mn) as [mn' r] eqn:E. pose proof (scanned _ _ _ _ _ _ _ _ _ _ F E) as (A & B & C).
  destruct F as [fW fn fG fT fp fm fi].
  assert (Iv : In v (t_nodes s)) by (rewrite fn; apply in_app_iff; right; now left).
  assert (Vn : v < n) by (apply (w_range _ _ _ _ _ _ _ fW); auto).
  pose proof (w_sorted _ _ _ _ _ _ _ fW) as So. rewrite fn in So. destruct (sorted_app _ _ _ _ So) as (S1 & S2 & S3 & S4).
  assert (NvS : ~ In v S0) by (intros X; specialize (S3 v X); lia).
  assert (NvT : ~ In v T) by (intros X; specialize (S2 v X); lia).
  assert (Es : forall s0, s0 = setCalls s R -> scan s0 (skipn i (succ v)) i mn = (mn', r)).
  { intros s0 ->. rewrite <- E. apply scan_calls. }
  destruct r as [[u j]|].
  - (* a new node *)
    destruct C as (C1 & C2 & C3 & C4). set (s1 := setCalls s ((u, 0, 0) :: (v, mn', j) :: R)).
    assert (St : step s = Ok s1). { unfold TjModel.step. rewrite Ec. unfold enter. rewrite Sv. fold (setCalls s R). rewrite (Es _ eq_refl). reflexivity. }
    assert (Iu : In u (succ v)) by now apply nth_error_In in C2.
    assert (Un : u < n) by now apply (Hsucc v).
    set (cs := (v, mn', j) :: R). set (s2 := entered s1 u cs). set (num2 := upd num u (t_count s)).
    assert (Rv : forall g, In g (v :: G) -> reach g u).
    { intros g Ig. apply reach_trans with v; [|now apply reach_edge]. destruct Ig as [<-|Ig]; [apply reach_refl|]. apply (w_path _ _ _ _ _ _ _ fW); [now right|auto|]. specialize (S3 g (fG g Ig)). lia. }
    assert (W2 : W s2 num2 (u :: v :: G)) by (apply (W_enter noNode n start succ s1 num (v :: G) u cs); auto; now apply W_calls).
    assert (U2 : unseen s2 < unseen s) by (apply (enter_unseen n s1 u cs); auto).
    destruct (IH s2 num2 (v :: G) u (t_count s) 0 cs [] (t_nodes s)) as (s3 & num3 & P1 & P2 & P3 & P4 & P5 & P6); [lia|reflexivity|unfold s2; cbn; apply upd_same| |].
    { split; auto.
      - intros g [<-|I]; [auto|]. rewrite fn. apply in_app_iff. right. right. auto.
      - intros w [].
      - intros x [].
      - exists u. split; [now left|]. unfold num2. rewrite upd_same. split; [auto|]. split; [auto|apply reach_refl].
      - lia. }
    assert (Nu : ~ In u (t_nodes s)) by (intros X; apply (w_seen _ _ _ _ _ _ _ fW) in X; congruence).
    (* what was there before *)
    assert (Kid : forall w, In w (t_nodes s) -> t_id s3 w = t_id s w).
    { intros w I. rewrite (k_id _ _ _ _ _ _ P4 w I). unfold s2. cbn [entered t_id s1 setCalls]. apply upd_other. intros ->. auto. }
    assert (Kse : forall w, t_seen s w = true -> t_seen s3 w = true /\ num3 w = num w).
    { intros w I. assert (w <> u) by congruence. destruct (k_seen _ _ _ _ _ _ P4 w) as [X Y]; [unfold s2; cbn; rewrite upd_other; auto|]. split; [auto|]. rewrite Y. unfold num2. now apply upd_other. }
    assert (Kdo : forall d, done s d -> done s3 d /\ t_scc s3 d = t_scc s d).
    { intros d I. apply (k_done _ _ _ _ _ _ P4 d). unfold s2. apply enter_done; [auto|exact I]. }
    assert (Kun : unseen s3 < unseen s) by (pose proof (k_un _ _ _ _ _ _ P4); lia).
    assert (Ksub : forall w, In w (t_nodes s) -> In w (t_nodes s3)) by (intros w I; destruct P6 as [->|(T' & -> & _)]; [auto|]; apply in_app_iff; right; now right).
    assert (Kback : forall w, t_seen s w = true -> In w (t_nodes s3) -> In w (t_nodes s)).
    { intros w Sw I. destruct (in_dec Nat.eq_dec w (t_nodes s)) as [J|J]; [auto|]. destruct (Kdo w) as [[_ X] _]; [now split|contradiction]. }
    assert (T3 : exists T3, t_nodes s3 = T3 ++ v :: S0 /\ forall w, In w T3 -> In w T \/ t_id s3 u <= t_id s3 w).
    { destruct P6 as [->|(T' & -> & X)]; [exists T; rewrite fn; split; auto|]. exists (T' ++ u :: T). rewrite fn, <- app_assoc. split; [auto|]. intros w I. apply in_app_iff in I as [I|[<-|I]]; auto. }
    destruct T3 as (T3 & T31 & T32).
    destruct (IH s3 num3 G v mn' j R T3 S0) as (s4 & num4 & Q1 & Q2 & Q3 & Q4 & Q5 & Q6); [lia|auto|now apply Kse| |].
    { split; auto.
      - intros w I. destruct (T32 w I) as [J|J].
        + left. rewrite Kid by (rewrite fn; apply in_app_iff; now left). destruct (A w J) as [X|(x & X & _ & Y)]; [auto|]. injection X as <- _. congruence.
        + right. exists u. auto.
      - intros x I. destruct (C4 x I) as [X Y]. destruct (Kse x X) as [Z1 Z2]. split; [auto|]. intros J. rewrite Z2. auto.
      - destruct B as (x & B1 & B2 & B3 & B4). exists x. split; [auto|]. rewrite (proj2 (Kse x (w_seen _ _ _ _ _ _ _ fW x B1))), (proj2 (Kse v Sv)). auto. }
    exists s4, num4. split; [|split; [auto|]].
    + apply steps_one with s1; [auto|]. apply steps_trans with s3; [|auto].
      (* from the state after entering *)
      inversion P1 as [x Hx|x y z Hx Hy Hx' Hz]; subst.
      * exfalso. unfold s2, cs in P2. cbn in P2. apply (f_equal (@length _)) in P2. cbn in P2. lia.
      * apply steps_one with y; [|auto]. rewrite <- Hx. apply step_entered; [reflexivity|auto].
    + split; [auto|]. split; [|split; [auto|auto]]. split.
      * intros w I. rewrite (k_id _ _ _ _ _ _ Q4 w I). apply Kid. rewrite fn. apply in_app_iff. right. now right.
      * intros w I. destruct (Kse w I) as [X Y]. destruct (k_seen _ _ _ _ _ _ Q4 w X) as [X' Y']. split; [auto|congruence].
      * intros d I. destruct (Kdo d I) as [X Y]. destruct (k_done _ _ _ _ _ _ Q4 d X) as [X' Y']. split; [auto|congruence].
      * pose proof (k_un _ _ _ _ _ _ Q4). lia.
  - (* all successors seen *)
    assert (A' : forall w, In w T -> mn' <= t_id s w) by (intros w I; destruct (A w I) as [X|(x & X & _)]; [auto|discriminate]).
    assert (NvG : ~ In v G) by (intros X; apply NvS; auto).
    destruct (w_gray _ _ _ _ _ _ _ fW v (or_introl eq_refl)) as [_ Ev].
    destruct B as (x & B1 & B2 & B3 & B4).
    destruct (mn' <? t_id s v) eqn:El.
    + apply Nat.ltb_lt in El. exists (blacken s v mn' R), num. split; [|split; [auto|]].
      * apply steps_one with (blacken s v mn' R); [|constructor]. unfold TjModel.step. rewrite Ec. unfold enter. rewrite Sv. fold (setCalls s R). rewrite (Es _ eq_refl). cbn [setCalls t_id]. apply Nat.ltb_lt in El. rewrite El. reflexivity.
      * split; [|split; [|split; [auto|]]].
        -- apply W_black; auto. exists x. split; [auto|]. split; [auto|]. split; [lia|auto].
        -- split; auto. intros w I. cbn. apply upd_other. intros ->. auto.
        -- right. exists T. split; [auto|]. intros w I. cbn. rewrite upd_same, upd_other by (intros ->; auto). auto.
    + apply Nat.ltb_ge in El.
      assert (Mv : mn' = num v) by lia. rewrite Mv in *.
      assert (Fin : exists s', step s = Ok s' /\ t_calls s' = R /\ t_seen s' = t_seen s /\ t_nodes s' = S0 /\ t_count s' = t_count s /\ t_sccs s <= t_sccs s'
        /\ (forall w, t_id s' w = if in_dec Nat.eq_dec w (T ++ [v]) then noNode else t_id s w)
        /\ (forall w, ~ In w (T ++ [v]) -> t_scc s' w = t_scc s w)
        /\ (T = [] /\ t_scc s' v = None /\ t_sccs s' = t_sccs s \/ T <> [] /\ t_sccs s' = S (t_sccs s) /\ forall w, In w (T ++ [v]) -> t_scc s' w = Some (t_sccs s))).
      { unfold TjModel.step. rewrite Ec. unfold enter. rewrite Sv. fold (setCalls s R). rewrite (Es _ eq_refl). cbn [setCalls t_id t_nodes t_seen t_count t_sccs t_scc].
        assert (X : num v <? t_id s v = false) by (apply Nat.ltb_ge; lia). rewrite X. rewrite fn. destruct T as [|t T].
        - cbn [app]. rewrite Nat.eqb_refl. eexists. split; [reflexivity|]. cbn [t_calls t_seen t_nodes t_count t_sccs t_id t_scc]. do 5 (split; [auto|]). split; [|split].
          + intros w. unfold upd. destruct (in_dec Nat.eq_dec w [v]) as [I|I].
            * destruct I as [<-|[]]. now rewrite Nat.eqb_refl.
            * destruct (w =? v) eqn:Ew; [|auto]. apply Nat.eqb_eq in Ew. subst. destruct I. now left.
          + intros w I. apply upd_other. intros ->. apply I. now left.
          + left. split; [auto|]. split; [apply upd_same|auto].
        - cbn [app]. assert (Y : t =? v = false) by (apply Nat.eqb_neq; intros ->; apply NvT; now left). rewrite Y.
          destruct (popTo_ok noNode (t_sccs s) v (t :: T) S0 (t_id s) (t_scc s) NvT) as (id' & scc' & Z1 & Z2 & Z3). cbn [app] in Z1. rewrite Z1. eexists. split; [reflexivity|]. cbn [t_calls t_seen t_nodes t_count t_sccs t_id t_scc]. do 5 (split; [auto|]). split; [|split].
          + exact Z2.
          + intros w I. rewrite Z3. destruct (in_dec Nat.eq_dec w ((t :: T) ++ [v])); tauto.
          + right. split; [discriminate|]. split; [auto|]. intros w I. rewrite Z3. destruct (in_dec Nat.eq_dec w ((t :: T) ++ [v])); tauto. }
      destruct Fin as (s' & Z1 & Z2 & Z3 & Z4 & Z5 & Z6 & Z7 & Z8 & Z9).
      destruct (W_pop noNode n start succ s s' num G v T S0) as [WW DD]; auto.
      exists s', num. split; [apply steps_one with s'; [auto|constructor]|]. split; [auto|]. split; [auto|]. split; [|split; [congruence|now left]]. split; auto.
      * intros w I. rewrite Z7. destruct (in_dec Nat.eq_dec w (T ++ [v])) as [J|J]; [|auto]. exfalso. apply in_app_iff in J as [J|[<-|[]]]; [specialize (S4 w w J I); lia|auto].
      * intros w I. split; [congruence|auto].
      * unfold unseen. rewrite Z3. auto.
Qed.

(** ** roots *)
Lemma loop_steps s s' : steps s s' -> t_calls s' = [] -> exists fuel, forall f, fuel <= f -> loop noNode succ f s = Ok s'.
Proof.
  induction 1 as [s|s1 s2 s3 A B IH]; intros E.
  - exists 0. intros f _. destruct f; cbn; now rewrite E.
  - destruct (IH E) as (fuel & H). exists (S fuel). intros f L. destruct f as [|f]; [lia|]. cbn. unfold TjModel.step in A. destruct (t_calls s1) eqn:X; [discriminate|]. fold (TjModel.step noNode succ s1) in A.
    assert (A' : step s1 = Ok s2) by (unfold TjModel.step; rewrite X; exact A). rewrite A'. cbn. apply H. lia.
Qed.
Definition between (s : ts) : Prop := t_calls s = [] /\ t_nodes s = [] /\ exists num, W s num [].
Lemma W_reset s num cs : W s num [] -> t_nodes s = [] -> W (Ts (t_id s) (t_seen s) cs [] 0 (t_sccs s) (t_scc s)) num [].
Proof.
  intros [a b c d e f g h i j k l o p m] E. assert (D : forall x, done (Ts (t_id s) (t_seen s) cs [] 0 (t_sccs s) (t_scc s)) x <-> done s x) by (intros x; unfold done; cbn; now rewrite E).
  split; cbn [t_id t_seen t_nodes t_count t_sccs t_scc].
  - intros v [].
  - constructor.
  - intros v [].
  - unfold unseen in *. cbn [t_seen]. lia.
  - auto.
  - intros x [].
  - intros x [].
  - intros x y [].
  - intros x y [].
  - intros x Hx. apply D in Hx. destruct (j x Hx) as [j1 j2]. split; [auto|]. intros u Iu. apply D. auto.
  - intros x y Hx Hy. apply D in Hx. apply D in Hy. auto.
  - destruct l as [l1 l2]. split; [auto|]. intros x q Hx. apply D in Hx. eauto.
  - intros x q Hx Eq. apply D in Hx. destruct (o x q Hx Eq) as (y & o1 & o2 & o3). exists y. split; [auto|]. split; [now apply D|auto].
  - intros q Lq. destruct (p q Lq) as (y & p1 & p2). exists y. split; [now apply D|auto].
  - destruct m as (rank & rk & m1 & m2 & m4 & m3). exists rank, rk. split; [|split; [|split]].
    + intros x Hx. apply D in Hx. auto.
    + intros x y q Hx Hy. apply D in Hx. apply D in Hy. eauto.
    + intros x y q q' Hx Hy. apply D in Hx. apply D in Hy. eauto.
    + intros x u Hx. apply D in Hx. auto.
Qed.
Lemma visit_ok s v : between s -> v < n -> exists s' fuel, (forall f, fuel <= f -> visitDfs noNode succ f s v = Ok s') /\ between s' /\ t_seen s' v = true /\ forall w, t_seen s w = true -> t_seen s' w = true.
Proof.
  intros (E1 & E2 & num & H) L. unfold visitDfs. destruct (t_seen s v) eqn:Sv.
  - exists s, 0. split; [auto|]. split; [|auto]. repeat split; eauto.
  - set (s1 := Ts (t_id s) (t_seen s) [(v, 0, 0)] [] 0 (t_sccs s) (t_scc s)).
    assert (W1 : W s1 num []) by now apply W_reset. set (s2 := entered s1 v []). set (num2 := upd num v 0).
    assert (W2 : W s2 num2 [v]) by (apply (W_enter noNode n start succ s1 num [] v []); auto; intros g []).
    destruct (frame_ok (S (unseen s2)) s2 num2 [] v 0 0 [] [] []) as (s3 & num3 & P1 & P2 & P3 & P4 & P5 & P6); [lia|reflexivity|unfold s2; cbn; apply upd_same| |].
    { split; auto.
      - intros w [].
      - intros w [].
      - exists v. split; [now left|]. unfold num2. rewrite upd_same. split; [auto|]. split; [auto|apply reach_refl].
      - lia. }
    assert (N3 : t_nodes s3 = []).
    { destruct P6 as [X|(T' & X & _)]; [auto|]. exfalso. pose proof (w_sorted _ _ _ _ _ _ _ P3) as So. rewrite X in So. destruct (sorted_app _ _ _ _ So) as (_ & S2 & _).
      destruct (w_black _ _ _ _ _ _ _ P3 v) as (u & B1 & _ & B3 & _); [rewrite X; apply in_app_iff; right; now left|auto|]. rewrite X in B1. apply in_app_iff in B1 as [B1|[<-|[]]]; [specialize (S2 u B1)|]; lia. }
    destruct (loop_steps s1 s3) as (fuel & Fu); [|auto|].
    { inversion P1 as [x Hx|x y z Hx Hy Hx' Hz]; subst.
      - exfalso. unfold s2 in P2. cbn in P2. discriminate.
      - apply steps_one with y; [|auto]. rewrite <- Hx. apply step_entered; [reflexivity|auto]. }
    exists s3, fuel. split; [auto|]. split; [split; [auto|]; split; [auto|eauto]|]. split; [auto|]. intros w Sw. apply (k_seen _ _ _ _ _ _ P4 w). unfold s2, s1. cbn. unfold upd. destruct (w =? v); auto.
Qed.
Lemma visitAll_ok : forall vs s, between s -> (forall v, In v vs -> v < n) ->
  exists s' fuel, (forall f, fuel <= f -> visitAll noNode succ f s vs = Ok s') /\ between s' /\ (forall v, In v vs -> t_seen s' v = true) /\ forall w, t_seen s w = true -> t_seen s' w = true.
Proof.
  induction vs as [|v vs IH]; intros s H L; [exists s, 0; cbn; repeat split; auto; try apply H; intros v []|].
  destruct (visit_ok s v H) as (s1 & f1 & A1 & A2 & A3 & A4); [apply L; now left|]. destruct (IH s1 A2) as (s2 & f2 & B1 & B2 & B3 & B4); [intros x I; apply L; now right|].
  exists s2, (Nat.max f1 f2). split; [intros f Lf; cbn; rewrite A1 by lia; cbn; apply B1; lia|]. split; [auto|]. split; [intros x [<-|I]; auto|auto].
Qed.
Lemma checker_ok id0 scc0 : exists s fuel, (forall f, fuel <= f -> sccChecker noNode succ f id0 scc0 start n = Ok s) /\ (exists num, W s num []) /\ t_nodes s = [] /\ forall v, v < n -> t_seen s v = true.
Proof.
  destruct (visitAll_ok (seq 0 n) (Ts id0 (fun _ => false) [] [] 0 start scc0)) as (s & f & A & (B1 & B2 & B3) & C & _).
  - split; [auto|]. split; [auto|]. exists (fun _ => 0). assert (D : forall x, ~ done (Ts id0 (fun _ => false) [] [] 0 start scc0) x) by (intros x [X _]; discriminate).
    split; cbn [t_id t_seen t_nodes t_count t_sccs t_scc].
    + intros x [].
    + constructor.
    + intros x [].
    + unfold unseen. pose proof (filt_len (fun v => negb (t_seen (Ts id0 (fun _ => false) [] [] 0 start scc0) v)) (seq 0 n)). rewrite seq_length in *. lia.
    + discriminate.
    + intros x [].
    + intros x [].
    + intros x y [].
    + intros x y [].
    + intros x Hx. destruct (D x Hx).
    + intros x y Hx. destruct (D x Hx).
    + split; [auto|]. intros x q X. destruct (D x X).
    + intros x q X. destruct (D x X).
    + intros q X. lia.
    + exists (fun _ => 0), 0. split; [intros x X; destruct (D x X)|]. split; [intros x y q X; destruct (D x X)|split; [intros x y q q' X; destruct (D x X)|intros x u X; destruct (D x X)]].
  - intros v I. apply in_seq in I. lia.
  - exists s, f. split; [auto|]. split; [auto|]. split; [auto|]. intros v L. apply C, in_seq. lia.
Qed.
End P.
