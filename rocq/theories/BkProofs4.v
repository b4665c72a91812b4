(** All steps keep the invariant. *)
From Coq Require Import List Bool Arith ZArith Lia.
Import ListNotations.
From Verif Require Import Base ClModel EnModel EnSpec BkModel BkSpec BkProofs BkProofs2 BkProofs3.

Section Inv4.
Variables (n : nat) (F : list clause) (proj : option (nat -> bool)) (step : lit) (As : list lit).
Notation cov := (covers n (modeB proj)).
Notation U := (U n F proj As).
Notation J := (J n F proj step As).
Notation sep := (sep n proj step).
Notation sepAll := (sepAll n proj step).
Notation Dead := (Dead n F proj As).
Notation Inv := (Inv n F proj step As).

Lemma inv_sep s : Inv s -> cfl s = false -> sepAll s.
Proof. intros [_ [H|[H _]]] E; auto. congruence. Qed.
Lemma inv_sep2 s : Inv s -> root s < dl s -> sepAll s.
Proof. intros [_ [H|[_ H]]] E; auto. lia. Qed.
Lemma backtrack_step s o : Inv s -> cfl s = true -> root s < dl s -> exists s', backtrack F (S (dl s)) o s = Ok s' /\ Inv s' /\ rep s' = rep s.
Proof.
  intros HI HC L. apply backtrack_ok with (As := As) (proj := proj) (step := step) (n := n); [apply HI| |right; now apply inv_sep2|lia].
  intros M. apply (j_cfl _ _ _ _ _ s (proj1 HI) HC).
Qed.
Definition Gd (s : bst) : Prop := Inv s /\ (forall m, In m (rep s) -> isModelB F As m) /\ ForallOrdPairs (fun x y => ~ cov x y) (rep s).
Lemma fop_snoc {T} (R : T -> T -> Prop) l y : ForallOrdPairs R l -> (forall x, In x l -> R x y) -> ForallOrdPairs R (l ++ [y]).
Proof.
  induction 1 as [|x l A B IH]; cbn; intros H; [repeat constructor|]. constructor; [|apply IH; auto].
  apply Forall_forall. intros z I. apply in_app_or in I as [I|[<-|[]]]; [|auto]. now apply (proj1 (Forall_forall _ _) A).
Qed.
Lemma start_Gd s : startB F step As s -> Gd s.
Proof.
  intros [E1 [E2 [E3 E4]] [E5 E6] S1 S2 S3 S4 S5 S6].
  assert (D : dl s = length As) by (unfold dl; congruence).
  assert (UM : forall M, U s M -> isModelB F As M) by (intros M [X _]; auto).
  split; [split|split; [rewrite E6; contradiction|rewrite E6; constructor]].
  - constructor.
    + lia.
    + rewrite E1, E2. apply firstn_all.
    + intros [[p k] b] I. cbn. rewrite D. now apply S1 in I.
    + exact S2.
    + exact S3.
    + apply tr_in in S4. rewrite D, <- E2 in S4. exact S4.
    + lia.
    + intros M c HU I. destruct (UM M HU) as (X & Y & _). now apply S5.
    + rewrite E5. contradiction.
    + intros M k HU L H p I. apply in_lits in I as [I|(j & b & I & Lj)]; [now apply H|]. apply S1 in I as (_ & I). apply I. destruct (UM M HU) as (X & Y & Z). split; [auto|split; [auto|]].
      intros q Iq. apply Z. now apply in_firstn in Iq.
    + rewrite E4. split; [lia|split; [lia|auto]].
    + congruence.
    + rewrite E6. contradiction.
    + intros C M HU _. apply (S6 C M). auto.
  - left. intros m I. rewrite E6 in I. contradiction.
Qed.

Lemma setPn_Inv s a x c b : J s -> sepAll s -> pn s = a ++ (x, c) :: b -> tr s x = true -> J (setPn s (a ++ b)) /\ sepAll (setPn s (a ++ b)).
Proof.
  intros HJ HS E T.
  assert (SE : forall k m, sep s k m -> sep (setPn s (a ++ b)) k m).
  { intros k m [X|(y & j & I & Lj & Dj & Ej)]; [now left|right]. exists y, j. split; [|auto]. cbn. rewrite E in I. apply in_app_or in I as [I|[I|I]]; [apply in_or_app; now left| |apply in_or_app; now right].
    injection I as -> _. exfalso. apply (j_cons _ _ _ _ _ s HJ y T). rewrite <- Ej. apply dec_tr. apply in_firstn with j. apply decAt_in. lia. }
  split; [|intros m I; apply SE; now apply HS].
  pose proof HJ as [C1 C2 C3 C4 C5 C6 C7 C8 C9 C10 C11 C12 C13 C14]. constructor; auto.
  - intros y d I. apply (C9 y d). rewrite E. cbn in I. apply in_app_or in I as [I|I]; apply in_or_app; [now left|right; now right].
  - intros m k I Lk. destruct (C13 m k I Lk) as [X|X]; [left; auto|now right].
Qed.
Lemma setLrn_J s l : J s -> (forall M c, U s M -> In c l -> sat_clause M c = true) -> J (setLrn s l).
Proof. intros HJ H. pose proof HJ as [C1 C2 C3 C4 C5 C6 C7 C8 C9 C10 C11 C12 C13 C14]. constructor; auto. Qed.

Lemma step_Gd s s' : Gd s -> bstep n F proj step s s' -> Gd s' /\ (exists x, rep s' = rep s ++ x).
Proof.
  intros (HI & HR & HO) H. assert (HJ : J s) by apply HI.
  assert (Same : forall t, Inv t -> rep t = rep s -> Gd t /\ exists x, rep t = rep s ++ x).
  { intros t It E. split; [split; [auto|rewrite E; auto]|exists []; now rewrite app_nil_r]. }
  destruct H as [s p C R T Fp|s p C Hu|s a x c b E T|s c k C L NE Hc Lk|s o s' C L E|s k C|s a c b E|s o x sp rst s' C T HM E].
  - destruct (assume_J n F proj step As s p HJ C R T Fp) as (X & Y & _). apply Same; [split; [auto|left; apply Y; now apply inv_sep]|rewrite assume_free; auto].
  - apply Same; [|destruct (force_same s p false) as (_ & _ & _ & _ & _ & _ & X); exact X]. split; [apply force_J; auto; intros M; now apply (unit_sound n F proj step As)|left; apply force_sepAll; now apply inv_sep].
  - destruct HI as [_ [HS|[X Y]]].
    + destruct (setPn_Inv s a x c b HJ HS E T) as [X Y]. apply Same; [split; [auto|now left]|reflexivity].
    + apply Same; [|reflexivity]. split; [|right; auto].
      pose proof HJ as [C1 C2 C3 C4 C5 C6 C7 C8 C9 C10 C11 C12 C13 C14]. constructor; auto.
      * intros y d I. apply (C9 y d). rewrite E. cbn in I. apply in_app_or in I as [I|I]; apply in_or_app; [now left|right; now right].
      * intros m k I Lk. exfalso. change (root s < k <= flip s) in Lk. lia.
  - destruct (undo_fields s k) as (_ & _ & _ & _ & _ & X). apply Same; [|exact X]. split.
    + apply setLrn_J; [now apply undo_J|]. intros M d HU I. assert (HU' : U s M) by (split; [apply HU|rewrite <- X; apply HU]).
      destruct I as [<-|I]; [|now apply (j_lrn _ _ _ _ _ s HJ)]. apply Hc. now apply (base_sat n F proj step As).
    + left. apply (undo_sepAll n proj step). now apply inv_sep2.
  - destruct (backtrack_step s o HI C L) as (t & X & Y & Z). rewrite E in X. injection X as ->. now apply Same.
  - destruct (undo_fields s k) as (_ & _ & _ & _ & _ & X). apply Same; [|exact X]. split; [now apply undo_J|left; apply undo_sepAll; now apply inv_sep].
  - apply Same; [|reflexivity]. split; [|exact (proj2 HI)]. apply setLrn_J; auto. intros M d HU I. apply (j_lrn _ _ _ _ _ s HJ); auto. rewrite E. apply in_app_or in I as [I|I]; apply in_or_app; [now left|right; now right].
  - pose proof (inv_sep s HI C) as HS. destruct (update_ok n F proj step As s HJ HS C T HM o x sp rst) as (t & X & Y & Z). unfold sc in X. rewrite E in X. injection X as ->. rewrite Z. split; [|eauto]. split; [auto|]. rewrite Z. split.
    + intros m I. apply in_app_or in I as [I|[<-|[]]]; auto. now apply (model_model n F proj step As).
    + apply fop_snoc; auto. intros y I. now apply (model_new n F proj step As).
Qed.
Lemma steps_Gd s s' : Gd s -> bsteps n F proj step s s' -> Gd s'.
Proof. intros H S. induction S as [|s s1 s2 S IH K]; auto. apply (step_Gd s1); auto. Qed.
Lemma done_all s M : Gd s -> cfl s = true -> dl s = root s -> isModelB F As M -> exists m, In m (rep s) /\ cov m M.
Proof.
  intros (HI & _ & _) C D HM. assert (HJ : J s) by apply HI.
  assert (DC : forall m, cov m M \/ ~ cov m M).
  { intros m. assert (X : (forall v, In v (seq 1 n) -> P' proj v = true -> m v = M v) \/ ~ (forall v, In v (seq 1 n) -> P' proj v = true -> m v = M v)).
    { induction (seq 1 n) as [|v l IH]; [left; contradiction|]. destruct IH as [IH|IH]; [|right; intros Z; apply IH; intros w I; apply Z; now right].
      destruct (P' proj v) eqn:E; [|left; intros w [<-|I]; [congruence|auto]]. destruct (bool_dec (m v) (M v)) as [B|B]; [left; intros w [<-|I]; auto|right; intros Z; apply B; apply Z; [now left|auto]]. }
    destruct X as [X|X]; [left|right]; rewrite cov_iff; [intros v V; apply X; apply in_seq; lia|]. intros Z. apply X. intros v I. apply Z. apply in_seq in I. lia. }
  assert (DD : (exists m, In m (rep s) /\ cov m M) \/ forall m, In m (rep s) -> ~ cov m M).
  { induction (rep s) as [|m l IH]; [right; contradiction|]. destruct (DC m) as [X|X]; [left; exists m; split; [now left|auto]|]. destruct IH as [(y & I & Y)|IH]; [left; exists y; split; [now right|auto]|right; intros y [<-|I]; auto]. }
  destruct DD as [X|X]; auto. exfalso. apply (j_cfl _ _ _ _ _ s HJ C M); [split; auto|]. intros p I. apply HM. rewrite <- (j_as _ _ _ _ _ s HJ), <- D. unfold dl. now rewrite firstn_all.
Qed.
End Inv4.
