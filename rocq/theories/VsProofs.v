From Coq Require Import List Bool Arith ZArith Lia.
Import ListNotations.
From Verif Require Import Base LpSpec LpProofs SrModel DsSpec DsProofs CpModel CpSpec CpProofs CpProofs2 DgModel DgProofs VsModel VsSpec.

Lemma upd_eq {T} (f : nat -> T) x y : upd f x y x = y.
Proof. unfold upd. now rewrite Nat.eqb_refl. Qed.
Lemma upd_ne {T} (f : nat -> T) x y z : z <> x -> upd f x y z = f z.
Proof. intros N. unfold upd. destruct (z =? x) eqn:E; [apply Nat.eqb_eq in E; congruence|reflexivity]. Qed.

(** ** how much of a body the upper closure supports *)
Definition posSum (up : nat -> bool) (b : body) : Z := fold_right (fun (x : lit * Z) s => if negb (snd (fst x)) && up (fst (fst x)) then snd x + s else s)%Z 0%Z (goalsW b).
Definition wOf (a : nat) (b : body) : Z := match find (fun x => lit_eqb (fst x) (pos a)) (goalsW b) with Some (_, w) => w | None => 0%Z end.
Lemma find_none_sum up a : forall l : list (lit * Z), ~ In (pos a) (map fst l) ->
  fold_right (fun (x : lit * Z) s => if negb (snd (fst x)) && upd up a true (fst (fst x)) then snd x + s else s)%Z 0%Z l =
  fold_right (fun (x : lit * Z) s => if negb (snd (fst x)) && up (fst (fst x)) then snd x + s else s)%Z 0%Z l.
Proof.
  induction l as [|[[p s] w] l IH]; intros N; [reflexivity|]. cbn [fold_right fst snd]. cbn in N. rewrite IH by tauto.
  destruct s; [reflexivity|]. cbn [negb andb]. rewrite upd_ne; [reflexivity|]. intros ->. apply N. now left.
Qed.
Lemma posSum_add up a b : NoDup (map fst (goalsW b)) -> up a = false -> posSum (upd up a true) b = (posSum up b + wOf a b)%Z.
Proof.
  unfold posSum, wOf. intros N U. induction (goalsW b) as [|[[p s] w] l IH]; [reflexivity|]. cbn [map fst] in N. inversion N as [|? ? N1 N2]; subst. cbn [fold_right find fst snd].
  destruct (lit_eqb (p, s) (pos a)) eqn:E.
  - apply lit_eqb_eq in E. injection E as -> ->. cbn [negb andb]. rewrite upd_eq, U. rewrite find_none_sum by auto. lia.
  - rewrite IH by auto. destruct s; [reflexivity|]. cbn [negb andb]. rewrite upd_ne; [destruct (up p); lia|]. intros ->. unfold pos in E. rewrite lit_eqb_refl in E. discriminate.
Qed.
Lemma posSum_none b : posSum (fun _ => false) b = 0%Z.
Proof. unfold posSum. induction (goalsW b) as [|[[p s] w] l IH]; [reflexivity|]. cbn [fold_right fst snd]. rewrite andb_false_r. exact IH. Qed.
Lemma wOf_pos a b : (forall x, In x (goalsW b) -> (0 <= snd x)%Z) -> (0 <= wOf a b)%Z.
Proof. intros H. unfold wOf. destruct (find _ (goalsW b)) as [[l w]|] eqn:E; [|lia]. apply find_some in E as [E _]. apply (H _ E). Qed.

(** a body that is true is supported *)
Lemma true_supported N M up b : (forall a, N a = true -> up a = true) -> posB b -> bodyT N M b = true -> (unsupp0 b <= posSum up b)%Z.
Proof.
  intros HN Hp Hb. destruct b as [ls|bound ls]; unfold posSum; cbn [goalsW unsupp0].
  - cbn in Hb. rewrite forallb_forall in Hb. induction ls as [|[p s] ls IH]; [cbn; lia|]. specialize (IH Hp (fun x I => Hb x (or_intror I))). cbn [map filter fold_right fst snd].
    destruct s; cbn [negb andb]; [exact IH|]. specialize (Hb (p, false) (or_introl eq_refl)). unfold litT in Hb. cbn in Hb. rewrite (HN p Hb). cbn [length]. lia.
  - cbn in Hb. apply Z.leb_le in Hb. cbn in Hp.
    assert (K : forall l bd, (forall x, In x l -> (0 <= snd x)%Z) -> (fold_right (fun (x : lit * Z) s => if snd (fst x) then s - snd x else s) bd l <=
      bd - sumT N M l + fold_right (fun (x : lit * Z) s => if negb (snd (fst x)) && up (fst (fst x)) then snd x + s else s) 0 l)%Z).
    { induction l as [|[[p s] w] l IH]; intros bd Hw; [cbn; lia|]. specialize (IH bd (fun x I => Hw x (or_intror I))). pose proof (Hw _ (or_introl eq_refl)) as W. cbn [snd] in W. cbn [fold_right sumT fst snd]. fold (sumT N M l).
      destruct s; cbn [negb andb]; unfold litT; cbn [fst snd].
      - destruct (M p); cbn [negb]; lia.
      - destruct (N p) eqn:E; [rewrite (HN p E); lia|]. destruct (up p); lia. }
    specialize (K ls bound Hp). lia.
Qed.

Section Prog.
Variables (pr : prep) (init : list nat).
Hypothesis HI : simpleInput pr init.
Notation tb := (theBody pr).
Notation n := (nBodies pr).

Lemma tb_in i : i < n -> In (tb i) (p_bodies pr).
Proof. intros L. unfold theBody. apply nth_In. exact L. Qed.
Lemma body_ex b : In b (p_bodies pr) -> exists i, i < n /\ tb i = b.
Proof. intros I. apply In_nth with (d := Pb (Norm []) VFree litFalse [] []) in I as (i & L & E). exists i. auto. Qed.
Lemma goals_pos b : In b (p_bodies pr) -> forall x, In x (goalsW (b_body b)) -> (0 <= snd x)%Z.
Proof.
  intros I x J. destruct (b_body b) as [ls|bound ls] eqn:E; cbn [goalsW] in J.
  - apply in_map_iff in J as (l & <- & _). cbn. lia.
  - destruct (si_agg _ _ HI b bound ls I E) as [H _]. specialize (H x J). lia.
Qed.
Lemma body_pos b : In b (p_bodies pr) -> posB (b_body b).
Proof.
  intros I. pose proof (goals_pos b I) as H. destruct (b_body b) as [ls|bound ls]; cbn; [exact Logic.I|]. exact H.
Qed.

(** ** control: closure and queue *)
Record ctl (s : vst) (up : nat -> bool) (done : list nat) : Prop := {
  k_nd : NoDup (done ++ v_q s);
  k_rng : forall i, In i (done ++ v_q s) -> i < n;
  k_in : forall i, i < n -> (v_un s i <= 0)%Z -> In i (done ++ v_q s);
  k_un : forall i, i < n -> In i (done ++ v_q s) \/ (v_un s i = unsupp0 (b_body (tb i)) - posSum up (b_body (tb i)))%Z;
  k_neg : forall i, In i (done ++ v_q s) -> (v_un s i <= 0)%Z
}.
Lemma ctl_ext s s' up done : v_q s' = v_q s -> v_un s' = v_un s -> ctl s up done -> ctl s' up done.
Proof. intros E1 E2 []. constructor; rewrite ?E1, ?E2; auto. Qed.

(** one body *)
Definition ctlP (s : vst) (up : nat -> bool) (a : nat) (js done : list nat) : Prop :=
  NoDup (done ++ v_q s) /\ (forall i, In i (done ++ v_q s) -> i < n) /\ (forall i, i < n -> (v_un s i <= 0)%Z -> In i (done ++ v_q s))
  /\ (forall i, i < n -> In i (done ++ v_q s) \/ (v_un s i = unsupp0 (b_body (tb i)) - posSum up (b_body (tb i)) - (if existsb (Nat.eqb i) js then 0 else wOf a (b_body (tb i))))%Z)
  /\ (forall i, In i (done ++ v_q s) -> (v_un s i <= 0)%Z).
Lemma propBody_ctl up a j js done s : j < n -> ~ In j js -> ctlP s up a (j :: js) done -> ctlP (propBody pr a s j) up a js done.
Proof.
  intros Lj Nj (H1 & H2 & H3 & H4 & H5).
  assert (X : forall i, i <> j -> existsb (Nat.eqb i) (j :: js) = existsb (Nat.eqb i) js).
  { intros i Ne. cbn. destruct (i =? j) eqn:E; [apply Nat.eqb_eq in E; congruence|reflexivity]. }
  assert (Xj : existsb (Nat.eqb j) (j :: js) = true) by (cbn; now rewrite Nat.eqb_refl).
  assert (Xn : existsb (Nat.eqb j) js = false). { destruct (existsb (Nat.eqb j) js) eqn:E; [|reflexivity]. apply existsb_exists in E as (y & I & E). apply Nat.eqb_eq in E. subst y. contradiction. }
  unfold propBody. destruct (find _ _) as [[l w]|] eqn:F.
  - assert (Wj : wOf a (b_body (tb j)) = w) by (unfold wOf; now rewrite F).
    destruct (v_un s j <=? 0)%Z eqn:U.
    + apply Z.leb_le in U. repeat (split; [auto|]); [|auto]. intros i Li. destruct (Nat.eq_dec i j) as [->|Ne]; [left; auto|]. rewrite <- (X i Ne). auto.
    + apply Z.leb_gt in U. assert (Nq : ~ In j (done ++ v_q s)) by (intros I; specialize (H5 j I); lia). destruct (H4 j Lj) as [Q|Q]; [contradiction|]. rewrite Xj in Q. unfold ctlP. cbn [v_q v_un].
      destruct (v_un s j - w <=? 0)%Z eqn:V.
      * apply Z.leb_le in V. rewrite app_assoc. split; [|split; [|split; [|split]]].
        -- apply NoDup_rev in H1. rewrite <- (rev_involutive ((done ++ v_q s) ++ [j])). apply NoDup_rev. rewrite rev_app_distr. cbn. constructor; [|auto]. now rewrite <- in_rev.
        -- intros i I. apply in_app_or in I as [I|[<-|[]]]; auto.
        -- intros i Li Ui. apply in_or_app. destruct (Nat.eq_dec i j) as [->|Ne]; [right; now left|]. rewrite upd_ne in Ui by auto. left; auto.
        -- intros i Li. destruct (Nat.eq_dec i j) as [->|Ne]; [left; apply in_or_app; right; now left|]. rewrite upd_ne by auto. rewrite <- (X i Ne). destruct (H4 i Li) as [K|K]; [left; apply in_or_app; auto|auto].
        -- intros i I. destruct (Nat.eq_dec i j) as [->|Ne]; [now rewrite upd_eq|]. rewrite upd_ne by auto. apply in_app_or in I as [I|[<-|[]]]; [auto|congruence].
      * apply Z.leb_gt in V. split; [auto|]. split; [auto|]. split; [|split].
        -- intros i Li Ui. destruct (Nat.eq_dec i j) as [->|Ne]; [rewrite upd_eq in Ui; lia|]. rewrite upd_ne in Ui by auto. auto.
        -- intros i Li. destruct (Nat.eq_dec i j) as [->|Ne]; [right; rewrite upd_eq, Xn, Wj; lia|]. rewrite upd_ne by auto. rewrite <- (X i Ne). auto.
        -- intros i I. destruct (Nat.eq_dec i j) as [->|Ne]; [contradiction|]. rewrite upd_ne by auto. auto.
  - assert (Wj : wOf a (b_body (tb j)) = 0%Z) by (unfold wOf; now rewrite F). repeat (split; [auto|]); [|auto]. intros i Li. destruct (Nat.eq_dec i j) as [->|Ne]; [|rewrite <- (X i Ne); auto]. destruct (H4 j Lj) as [Q|Q]; [auto|right]. rewrite Xj in Q. rewrite Xn, Wj. exact Q.
Qed.
Lemma propAll_ctl up a done : forall js s, (forall j, In j js -> j < n) -> NoDup js -> ctlP s up a js done -> ctlP (fold_left (propBody pr a) js s) up a [] done.
Proof.
  induction js as [|j js IH]; intros s Hj N H; [exact H|]. cbn [fold_left]. inversion N as [|? ? N1 N2]; subst. apply IH; auto; [intros k K; apply Hj; now right|]. apply propBody_ctl; auto. apply Hj. now left.
Qed.
Lemma propagate_ctl s up a done : up a = false -> ctl s up done -> ctl (fold_left (propBody pr a) (seq 0 n) s) (upd up a true) done.
Proof.
  intros U [K1 K2 K3 K4 K5]. assert (H : ctlP s up a (seq 0 n) done).
  { repeat (split; [auto|]); [|auto]. intros i Li. destruct (K4 i Li) as [K|K]; [auto|right]. rewrite K.
    assert (E : existsb (Nat.eqb i) (seq 0 n) = true) by (apply existsb_exists; exists i; split; [apply in_seq; lia|apply Nat.eqb_refl]). rewrite E. lia. }
  apply propAll_ctl in H as (H1 & H2 & H3 & H4 & H5); [|intros j J; apply in_seq in J; lia|apply seq_NoDup]. constructor; auto.
  intros i Li. destruct (H4 i Li) as [K|K]; [auto|right]. cbn in K. rewrite posSum_add; [lia| |auto]. apply (si_goals _ _ HI), tb_in, Li.
Qed.
(** the other parts of the state are not touched *)
Lemma propAll_lits a : forall js s, let s' := fold_left (propBody pr a) js s in
  v_a s' = v_a s /\ v_b s' = v_b s /\ v_up s' = v_up s /\ v_nx s' = v_nx s /\ v_ty s' = v_ty s /\ v_ign s' = v_ign s /\ v_unit s' = v_unit s.
Proof.
  induction js as [|j js IH]; intros s; cbn [fold_left]; [cbn; auto 10|]. specialize (IH (propBody pr a s j)). cbn in *.
  assert (E : let s' := propBody pr a s j in v_a s' = v_a s /\ v_b s' = v_b s /\ v_up s' = v_up s /\ v_nx s' = v_nx s /\ v_ty s' = v_ty s /\ v_ign s' = v_ign s /\ v_unit s' = v_unit s).
  { unfold propBody. destruct (find _ _) as [[l w]|]; [|cbn; auto 10]. destruct (v_un s j <=? 0)%Z; cbn; auto 10. }
  cbn in E. destruct E as (E1 & E2 & E3 & E4 & E5 & E6 & E7). rewrite <- E1, <- E2, <- E3, <- E4, <- E5, <- E6, <- E7. exact IH.
Qed.
End Prog.
