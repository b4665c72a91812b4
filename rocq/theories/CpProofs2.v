From Coq Require Import List Bool Arith ZArith Lia.
Import ListNotations.
From Verif Require Import Base LpSpec LpProofs SrModel DsSpec DsProofs CpModel CpSpec CpProofs.

Lemma without_sub M U : sub (without M U) M.
Proof. intros a H. unfold without in H. apply andb_true_iff in H. apply H. Qed.

Lemma founded_supported P M s : posP P -> foundedModel P M -> supported s P M.
Proof.
  intros Hp F a Ha. destruct (F (fun x => x =? a)) as (r & I & (h & Kh & Eh) & Hb & K).
  - intros x E. apply Nat.eqb_eq in E. now subst x.
  - exists a. apply Nat.eqb_refl.
  - apply Nat.eqb_eq in Eh. subst h. exists r. split; [auto|]. split; [auto|]. split; [apply bodyT_mono with (without M (fun x => x =? a)); auto using without_sub|].
    intros _ C h' Kh' Mh'. apply Nat.eqb_eq. auto.
Qed.

(** the smallest rank in a list *)
Lemma min_list (rank : nat -> nat) : forall l : list nat, l <> [] -> exists u, In u l /\ forall x, In x l -> rank u <= rank x.
Proof.
  induction l as [|a l IH]; [congruence|]. intros _. destruct l as [|b l].
  - exists a. split; [now left|]. intros x [<-|[]]. lia.
  - destruct IH as (u & I & H); [discriminate|]. destruct (le_lt_dec (rank a) (rank u)) as [L|L].
    + exists a. split; [now left|]. intros x [<-|J]; [lia|]. specialize (H x J). lia.
    + exists u. split; [now right|]. intros x [<-|J]; [lia|auto].
Qed.
Lemma min_rank (rank : nat -> nat) P M s U : supported s P M -> (forall a, U a = true -> M a = true) -> (exists a, U a = true) ->
  exists u, U u = true /\ forall x, U x = true -> rank u <= rank x.
Proof.
  intros S HU (a & Ha). set (l := filter U (flat_map r_head P)).
  assert (Hl : forall x, In x l <-> U x = true).
  { intros x. unfold l. rewrite filter_In. split; [tauto|]. intros H. split; [|auto]. destruct (S x (HU x H)) as (r & I & K & _). apply in_flat_map. eauto. }
  destruct (min_list rank l) as (u & I & H).
  - intros E. apply Hl in Ha. rewrite E in Ha. destruct Ha.
  - exists u. split; [now apply Hl|]. intros x Hx. apply H. now apply Hl.
Qed.

Definition compFounded (P : prog) (sc : nat -> option nat) (M : asg) : Prop :=
  forall k U, (forall a, U a = true -> M a = true /\ sc a = Some k) -> (exists a, U a = true) -> derivable P M U.

Lemma comp_founded P sc M : posP P -> components P sc -> (foundedModel P M <-> supported true P M /\ compFounded P sc M).
Proof.
  intros Hp (rank & R1 & R2). split.
  - intros F. split; [now apply founded_supported|]. intros k U HU E. apply F; [intros a H; now apply HU|auto].
  - intros [S C] U HU E. destruct (min_rank rank P M true U S HU E) as (u & Hu & Hmin). destruct (sc u) as [k|] eqn:Ek.
    + set (U' := fun x => U x && match sc x with Some j => j =? k | None => false end).
      assert (HU' : forall x, U' x = true <-> U x = true /\ sc x = Some k).
      { intros x. unfold U'. rewrite andb_true_iff. destruct (sc x) as [j|]; [rewrite Nat.eqb_eq; split; intros [X Y]; split; congruence|split; intros [X Y]; discriminate]. }
      destruct (C k U') as (r & I & (h & Kh & Uh) & Hb & K).
      * intros a H. apply HU' in H. split; [apply HU|]; apply H.
      * exists u. now apply HU'.
      * apply HU' in Uh as [Uh Sh]. exists r. split; [auto|]. split; [eauto|]. split; [|intros Ec h' Kh' Mh'; apply HU'; auto].
        apply litT_posAtoms with (without M U'); auto. intros b Kb Hw. unfold without in *. apply andb_true_iff in Hw as [Hm Hn]. rewrite Hm. simpl. destruct (U b) eqn:Ub; [|reflexivity]. exfalso.
        destruct (R2 r h b I Kh Kb) as [L|[X _]].
        -- assert (rank h = rank u) by (apply R1; congruence). specialize (Hmin b Ub). lia.
        -- assert (Y : U' b = true) by (apply HU'; split; congruence). rewrite Y in Hn. discriminate.
    + destruct (S u (HU u Hu)) as (r & I & Kh & Hb & K). exists r. split; [auto|]. split; [eauto|]. split; [|intros Ec h' Kh' Mh'; rewrite (K eq_refl Ec h' Kh' Mh'); auto].
      apply litT_posAtoms with M; auto. intros b Kb Hw. unfold without. rewrite Hw. simpl. destruct (U b) eqn:Ub; [|reflexivity]. exfalso.
      destruct (R2 r u b I Kh Kb) as [L|[_ X]]; [|congruence]. specialize (Hmin b Ub). lia.
Qed.
