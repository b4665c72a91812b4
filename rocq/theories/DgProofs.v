From Coq Require Import List Bool Arith ZArith Lia.
Import ListNotations.
From Verif Require Import Base LpSpec LpProofs SrModel DsSpec DsProofs CpModel CpSpec CpProofs CpProofs2 UfModel UfSpec DgModel DgSpec.

(** ** lists *)
Lemma mem_in x l : mem x l = true <-> In x l.
Proof. unfold mem. rewrite existsb_exists. split; [intros (y & I & E); apply Nat.eqb_eq in E; now subst|]. intros I. exists x. split; [auto|apply Nat.eqb_refl]. Qed.
Lemma idx_lt x : forall l, In x l -> idx x l < length l.
Proof. induction l as [|y l IH]; [intros []|]. intros I. cbn. destruct (x =? y) eqn:E; [lia|]. destruct I as [->|I]; [rewrite Nat.eqb_refl in E; discriminate|]. specialize (IH I). lia. Qed.
Lemma idx_nth x d : forall l, In x l -> nth (idx x l) l d = x.
Proof. induction l as [|y l IH]; [intros []|]. intros I. cbn. destruct (x =? y) eqn:E; [apply Nat.eqb_eq in E; auto|]. destruct I as [->|I]; [rewrite Nat.eqb_refl in E; discriminate|auto]. Qed.
Lemma idx_inj x y l : In x l -> In y l -> idx x l = idx y l -> x = y.
Proof. intros Ix Iy E. rewrite <- (idx_nth x 0 l Ix), <- (idx_nth y 0 l Iy). now rewrite E. Qed.
Lemma nth_idx d : forall l k, NoDup l -> k < length l -> idx (nth k l d) l = k.
Proof.
  induction l as [|y l IH]; intros k N L; [cbn in L; lia|]. inversion N as [|? ? N1 N2]; subst. destruct k as [|k]; cbn; [now rewrite Nat.eqb_refl|].
  cbn in L. destruct (nth k l d =? y) eqn:E; [apply Nat.eqb_eq in E; subst y; exfalso; apply N1, nth_In; lia|]. f_equal. apply IH; [auto|lia].
Qed.
Lemma nth_error_idx : forall l k x, NoDup l -> (nth_error l k = Some x <-> In x l /\ idx x l = k).
Proof.
  intros l k x N. split.
  - intros E. assert (L : k < length l) by (apply nth_error_Some; congruence). split; [eapply nth_error_In; eauto|]. rewrite <- (nth_error_nth l k x E). apply nth_idx; auto.
  - intros [I <-]. rewrite <- (idx_nth x x l I) at 2. apply nth_error_nth', idx_lt, I.
Qed.
Lemma addAll_in : forall l o i, In i (addAll o l) <-> In i o \/ In i l.
Proof.
  induction l as [|x l IH]; intros o i; [cbn; tauto|]. unfold addAll in *. cbn [fold_left]. rewrite IH. unfold addB. destruct (mem x o) eqn:E.
  - apply mem_in in E. cbn. split; [tauto|]. intros [H|[<-|H]]; tauto.
  - rewrite in_app_iff. cbn. tauto.
Qed.
Lemma addAll_nodup : forall l o, NoDup o -> NoDup (addAll o l).
Proof.
  induction l as [|x l IH]; intros o N; [auto|]. unfold addAll in *. cbn [fold_left]. apply IH. unfold addB. destruct (mem x o) eqn:E; [auto|].
  apply NoDup_rev in N. rewrite <- (rev_involutive (o ++ [x])). apply NoDup_rev. rewrite rev_app_distr. cbn. constructor; [|auto]. rewrite <- in_rev, <- mem_in. congruence.
Qed.
Lemma distinct_in : forall l s i, In i (distinct l s) <-> In i l /\ ~ In i s.
Proof.
  induction l as [|x l IH]; intros s i; [cbn; tauto|]. cbn. destruct (mem x s) eqn:E.
  - apply mem_in in E. rewrite IH. split; [tauto|]. intros [[<-|I] N]; tauto.
  - assert (Nx : ~ In x s) by (rewrite <- mem_in; congruence). cbn. rewrite IH. cbn. split.
    + intros [<-|[I N]]; tauto.
    + intros [[<-|I] N]; [now left|]. destruct (Nat.eq_dec x i) as [<-|Ne]; [now left|right; tauto].
Qed.
Lemma filter_nodup {T} (f : T -> bool) : forall l, NoDup l -> NoDup (filter f l).
Proof. induction l as [|x l IH]; intros N; [constructor|]. inversion N; subst. cbn. destruct (f x); [constructor; [rewrite filter_In; tauto|auto]|auto]. Qed.
Lemma map_nodup {T S} (f : T -> S) : forall l, (forall x y, In x l -> In y l -> f x = f y -> x = y) -> NoDup l -> NoDup (map f l).
Proof.
  induction l as [|x l IH]; intros Hi N; [constructor|]. inversion N; subst. cbn. constructor.
  - intros I. apply in_map_iff in I as (y & E & I). assert (y = x) by (apply Hi; [now right|now left|auto]). now subst.
  - apply IH; auto. intros a b Ia Ib. apply Hi; now right.
Qed.
Lemma bodyOrder_in pr sc fls : forall gas o i, In i (fold_left (fun o a => addAll (addAll o (supBodies pr fls a)) (depBodies pr sc fls a)) gas o) <->
  In i o \/ exists a, In a gas /\ (In i (supBodies pr fls a) \/ In i (depBodies pr sc fls a)).
Proof.
  induction gas as [|a gas IH]; intros o i; cbn [fold_left]; [split; [tauto|intros [H|(a & [] & _)]; auto]|]. rewrite IH, !addAll_in. split.
  - intros [[[H|H]|H]|(b & I & H)]; [now left|right; exists a; split; [now left|auto]|right; exists a; split; [now left|auto]|right; exists b; split; [now right|auto]].
  - intros [H|(b & [<-|I] & H)]; [tauto|tauto|right; eauto].
Qed.
Lemma bodyOrder_nodup pr sc fls : forall gas o, NoDup o -> NoDup (fold_left (fun o a => addAll (addAll o (supBodies pr fls a)) (depBodies pr sc fls a)) gas o).
Proof. induction gas as [|a gas IH]; intros o N; cbn [fold_left]; [auto|]. apply IH. now do 2 apply addAll_nodup. Qed.

(** ** goals *)
Lemma posGoals_in b p w : In (p, w) (posGoals b) <-> In ((p, false), w) (goalsW b).
Proof.
  unfold posGoals. rewrite in_map_iff. split.
  - intros ([[q s] w'] & E & I). apply filter_In in I as [I S]. cbn in *. injection E as -> ->. destruct s; [discriminate|auto].
  - intros I. exists ((p, false), w). split; [reflexivity|]. apply filter_In. auto.
Qed.
Lemma posGoals_atoms b p : In p (map fst (posGoals b)) <-> In p (posAtoms b).
Proof.
  rewrite in_map_iff. split.
  - intros ([q w] & E & I). cbn in E. subst q. apply posGoals_in in I. destruct b as [ls|bd ls]; cbn in *.
    + apply in_map_iff in I as (l & E & I). injection E as -> _. apply in_map_iff. exists (p, false). split; [reflexivity|]. apply filter_In. auto.
    + apply in_map_iff. exists (p, false). split; [reflexivity|]. apply filter_In. split; [|reflexivity]. apply in_map_iff. exists ((p, false), w). auto.
  - intros I. destruct b as [ls|bd ls]; cbn in I.
    + apply in_map_iff in I as ([q s] & E & I). cbn in E. subst q. apply filter_In in I as [I S]. cbn in S. destruct s; [discriminate|]. exists (p, 1%Z). split; [reflexivity|]. apply posGoals_in. cbn. apply in_map_iff. exists (p, false). auto.
    + apply in_map_iff in I as ([q s] & E & I). cbn in E. subst q. apply filter_In in I as [I S]. cbn in S. destruct s; [discriminate|]. apply in_map_iff in I as ([l w] & E & I). cbn in E. subst l. exists (p, w). split; [reflexivity|]. now apply posGoals_in.
Qed.
Lemma posGoals_nodup b : NoDup (map fst (goalsW b)) -> NoDup (map fst (posGoals b)).
Proof.
  intros N. unfold posGoals. rewrite map_map. cbn.
  assert (H : forall l : list (lit * Z), NoDup (map fst l) -> NoDup (map (fun x : lit * Z => fst (fst x)) (filter (fun x : lit * Z => negb (snd (fst x))) l))).
  { induction l as [|[[p s] w] l IH]; intros Nl; [constructor|]. cbn in Nl. inversion Nl as [|? ? N1 N2]; subst. cbn. destruct s; cbn; [auto|]. constructor; [|auto].
    intros I. apply in_map_iff in I as ([[q s] w'] & E & I). apply filter_In in I as [I S]. cbn in *. subst q. destruct s; [discriminate|]. apply N1. apply in_map_iff. exists ((p, false), w'). auto. }
  auto.
Qed.

(** ** foundedness by component, with atoms left out *)
Lemma comp_foundedI P ign sc M (rank : nat -> nat) : posP P -> (forall a b, sc a = sc b -> sc a <> None -> rank a = rank b) ->
  (forall r h b, In r P -> In h (r_head r) -> In b (posAtoms (r_body r)) -> bodyT M M (r_body r) = true -> M h = true -> M b = true -> ign h = false -> ign b = false ->
     rank b < rank h \/ (sc b = sc h /\ sc h <> None)) -> (forall a, ign a = true -> exists r, In r P /\ r_head r = [a] /\ r_body r = Norm []) ->
  supported true P M -> compFounded P sc M -> foundedModel P M.
Proof.
  intros Hp R1 R2 Hf S C U HU E.
  destruct (existsb (fun a => U a && ign a) (flat_map r_head P)) eqn:Ex.
  - apply existsb_exists in Ex as (a & _ & Ha). apply andb_true_iff in Ha as [Ha Hi]. destruct (Hf a Hi) as (r & I & Eh & Eb). exists r. rewrite Eh, Eb. split; [auto|]. split; [exists a; split; [now left|auto]|]. split; [reflexivity|]. intros _ h [<-|[]] _. exact Ha.
  - assert (Hi : forall a, U a = true -> ign a = false).
    { intros a Ha. destruct (ign a) eqn:Ea; [|reflexivity]. rewrite <- Ex. symmetry. apply existsb_exists. destruct (S a (HU a Ha)) as (r & I & K & _). exists a. split; [apply in_flat_map; eauto|now rewrite Ha, Ea]. }
    destruct (min_rank rank P M true U S HU E) as (u & Hu & Hmin). destruct (sc u) as [k|] eqn:Ek.
    + set (U' := fun x => U x && match sc x with Some j => j =? k | None => false end).
      assert (HU' : forall x, U' x = true <-> U x = true /\ sc x = Some k).
      { intros x. unfold U'. rewrite andb_true_iff. destruct (sc x) as [j|]; [rewrite Nat.eqb_eq; split; intros [X Y]; split; congruence|split; intros [X Y]; discriminate]. }
      destruct (C k U') as (r & I & (h & Kh & Uh) & Hb & K).
      * intros a H. apply HU' in H. split; [apply HU|]; apply H.
      * exists u. now apply HU'.
      * apply HU' in Uh as [Uh Sh]. exists r. split; [auto|]. split; [eauto|]. split; [|intros Ec h' Kh' Mh'; apply HU'; auto].
        apply litT_posAtoms with (without M U'); auto. intros b Kb Hw. unfold without in *. apply andb_true_iff in Hw as [Hm Hn]. rewrite Hm. simpl. destruct (U b) eqn:Ub; [|reflexivity]. exfalso.
        assert (Hb' : bodyT M M (r_body r) = true) by (apply bodyT_mono with (without M U'); auto using without_sub).
        destruct (R2 r h b I Kh Kb) as [L|[X _]]; auto.
        -- assert (rank h = rank u) by (apply R1; congruence). specialize (Hmin b Ub). lia.
        -- assert (Y : U' b = true) by (apply HU'; split; congruence). rewrite Y in Hn. discriminate.
    + destruct (S u (HU u Hu)) as (r & I & Kh & Hb & K). exists r. split; [auto|]. split; [eauto|]. split; [|intros Ec h' Kh' Mh'; rewrite (K eq_refl Ec h' Kh' Mh'); auto].
      apply litT_posAtoms with M; auto. intros b Kb Hw. unfold without. rewrite Hw. simpl. destruct (U b) eqn:Ub; [|reflexivity]. exfalso.
      destruct (R2 r u b I Kh Kb) as [L|[_ X]]; auto. specialize (Hmin b Ub). lia.
Qed.
