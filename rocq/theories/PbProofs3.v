(** Proofs about PBBuilder, third part: sharing of products and extension of assignments to auxiliary variables. *)
From Coq Require Import List Bool Arith ZArith Lia.
From Verif Require Import Base WcModel WcSpec WcProofs WcThms SbModel SbSpec SbProofs SbProofs2 PbModel PbSpec PbProofs PbProofs2.
Import ListNotations.

Section Pb.
Variable prop : list created -> list lit -> list lit * bool.
Hypothesis SP : soundProp prop.

Lemma steps_lookup : forall ops x evs y, W x -> psteps prop x ops = Ok (evs, y) -> forall k q, lookup (p_idx x) k = Some q -> lookup (p_idx y) k = Some q.
Proof.
  induction ops as [|o ops IH]; intros x evs y WX E k q L; cbn in E; [now injection E as <- <-|].
  destruct (pstep prop x o) as [[l z]| |] eqn:S; [|discriminate..]. cbn [bind] in E. destruct (psteps prop z ops) as [[evs' y']| |] eqn:S2; [|discriminate..]. cbn [bind] in E. injection E as <- <-.
  destruct (step_W prop SP x o l z WX S) as [W1 [_ [_ [_ [P1 _]]]]]. eapply IH; eauto.
Qed.
Lemma prod_shared : forall x l1 r1 y z l2 r2 w, W x -> W z -> p_ok x = true -> p_ok z = true -> addProduct prop x l1 = Ok (r1, y) -> addProduct prop z l2 = Ok (r2, w) ->
  (forall k q, lookup (p_idx y) k = Some q -> lookup (p_idx z) k = Some q) -> sameLits l1 l2 -> (forall q, In q l1 -> topOf (p_tr x) (fst q) = topOf (p_tr z) (fst q)) -> r1 = r2.
Proof.
  intros x l1 r1 y z l2 r2 w WX WZ OX OZ E1 E2 P SL TT. unfold addProduct in E1, E2. rewrite OX in E1. rewrite OZ in E2. cbn [negb] in E1, E2.
  destruct (psub_total (topOf (p_tr x)) l1 (top0 _)) as [s1 Q1]. destruct (psub_total (topOf (p_tr z)) l2 (top0 _)) as [s2 Q2]. pose proof (psub_det _ _ _ _ _ _ (top0 _) (top0 _) SL TT Q1 Q2) as <-. rewrite Q1 in E1. rewrite Q2 in E2. cbn [bind] in E1, E2.
  destruct s1 as [l|k]; [congruence|]. assert (LK : lookup (p_idx y) k = Some r1).
  { destruct (lookup (p_idx x) k) as [l|] eqn:L; [injection E1 as <- <-; auto|]. destruct (getAux x) as [[v x1]| |] eqn:GA; [|discriminate..]. cbn [bind] in E1. injection E1 as <- <-.
    destruct (padd_db prop (remember x1 k (v, false)) (productClauses (v, false) k)) as [_ [P2 _]]. rewrite P2. unfold lookup. cbn [remember p_idx find fst]. now rewrite (proj2 (lits_eqb_eq k k) eq_refl). }
  apply P in LK. rewrite LK in E2. congruence.
Qed.

(** The constraints only speak about variables below the next auxiliary variable *)
Definition local (x : pb) : Prop := forall a b : asg, (forall v, v < p_aux x -> a v = b v) -> satDb a (p_db x) -> satDb b (p_db x).
Lemma holds_local : forall (a b : asg) l, a (fst l) = b (fst l) -> holds a l = holds b l. Proof. intros a b l E. unfold holds. now rewrite E. Qed.
Lemma forallb_local : forall (a b : asg) l, (forall v, In v (map fst l) -> a v = b v) -> forallb (holds a) l = forallb (holds b) l.
Proof. induction l as [|x l IH]; intros E; cbn; auto. rewrite IH, (holds_local a b x); auto; [apply E; now left|intros v V; apply E; now right]. Qed.
Lemma wsum_local : forall (a b : asg) l, (forall v, In v (map (fun e : wlit => fst (fst e)) l) -> a v = b v) -> wsum a l = wsum b l.
Proof. induction l as [|[x w] l IH]; intros E; cbn [wsum]; auto. rewrite IH, (holds_local a b x); auto; [apply E; now left|intros v V; apply E; now right]. Qed.
Lemma con_local : forall (a b : asg) l bd eq, (forall v, In v (map (fun e : wlit => fst (fst e)) l) -> a v = b v) -> conHolds a l bd eq = conHolds b l bd eq.
Proof. intros. unfold conHolds. rewrite (wsum_local a b l); auto. Qed.
Lemma ev_local : forall (a b : asg) e, (forall v, In v (opVars (fst e)) -> a v = b v) -> a (fst (snd e)) = b (fst (snd e)) -> evOk a e -> evOk b e.
Proof.
  intros a b [o l] E1 E2 H. unfold evOk in *. cbn [fst snd] in *. destruct o as [lits|lits bd eq cw|lits]; cbn [opVars] in E1; auto.
  - rewrite <- (holds_local a b l E2), <- (forallb_local a b lits E1). exact H.
  - rewrite <- (holds_local a b l E2), <- (con_local a b lits bd eq E1). exact H.
Qed.
Lemma ev_dec : forall (a : asg) e, evOk a e \/ ~ evOk a e.
Proof. intros a [o l]. unfold evOk. cbn. destruct o as [lits|lits bd eq cw|lits]; auto; [destruct (bool_dec (holds a l) (forallb (holds a) lits)); auto|]. destruct (0 <? cw)%Z; [destruct (bool_dec (holds a l) (conHolds a lits bd eq)); auto|destruct (bool_dec (conHolds a lits bd eq) true); auto]. Qed.
(** the value that makes a call's literal right *)
Definition evVal (a : asg) (o : pop) : bool := match o with PProd l => forallb (holds a) l | PCon l b eq _ => conHolds a l b eq | PObj _ => true end.
Definition setv (a : asg) (v : nat) (b : bool) : asg := fun u => if Nat.eqb u v then b else a u.
Lemma set_ok : forall (a : asg) o v, ~ In v (opVars o) -> isHard (o, (v, false)) = false -> evOk (setv a v (evVal a o)) (o, (v, false)).
Proof.
  intros a o v N H. assert (E : forall u, In u (opVars o) -> a u = setv a v (evVal a o) u). { intros u U. unfold setv. destruct (Nat.eqb_spec u v); auto. subst. contradiction. }
  assert (V : holds (setv a v (evVal a o)) (v, false) = evVal a o) by (unfold holds, setv; cbn; rewrite Nat.eqb_refl; apply xorb_false_r).
  unfold evOk. cbn [fst snd]. rewrite V. destruct o as [lits|lits bd eq cw|lits]; cbn [evVal opVars] in *; auto.
  - symmetry. symmetry. now apply forallb_local.
  - unfold isHard in H. cbn in H. rewrite negb_false_iff in H. rewrite H. now apply con_local.
Qed.
Lemma extend_all : forall ops n x evs y known (a : asg), W x -> Forall plain ops -> psteps prop x ops = Ok (evs, y) -> local x -> n < p_aux x -> (forall v, In v known -> v < p_aux x) -> scoped known n evs -> satDb a (p_db x) ->
  exists b : asg, (forall v, v < p_aux x -> a v = b v) /\
    ((satDb b (p_db y) /\ local y) \/ exists pre e post, evs = pre ++ e :: post /\ isHard e = true /\ (forall d, In d pre -> evOk b d) /\ ~ evOk b e).
Proof.
  induction ops as [|o ops IH]; intros n x evs y known a WX PL E LX NX KN SC A; cbn in E; [injection E as <- <-; exists a; split; auto|].
  destruct (pstep prop x o) as [[l z]| |] eqn:S; [|discriminate..]. cbn [bind] in E. destruct (psteps prop z ops) as [[evs' y']| |] eqn:S2; [|discriminate..]. cbn [bind] in E. injection E as <- <-. inversion PL as [|? ? P1 P2]; subst.
  destruct (step_W prop SP x o l z WX S) as [W1 [AX _]]. destruct (step_exact prop SP x o l z WX P1 S) as [E1 [_ [E3 [E4 E5]]]]. cbn [scoped fst snd] in SC. destruct SC as [SC1 SC2].
  assert (OX : p_ok x = true). { destruct (p_ok x) eqn:Q; auto. destruct (w_ok x WX Q a A). }
  assert (OV : forall v, In v (opVars o) -> v < p_aux x). { intros v V. destruct (SC1 v V) as [Q|Q]; [lia|auto]. }
  assert (LV : fst l < p_aux z). { destruct (E3 OX) as [Q|Q]; auto. apply OV in Q. lia. }
  assert (LZ : local z). { intros b c Q B. apply E1 in B as [B1 B2]. apply E1. split; [refine (LX b c _ B1); intros; apply Q; lia|]. apply (ev_local b c); cbn [fst snd]; auto; intros v V; apply Q; apply OV in V; lia. }
  assert (KZ : forall v, In v (fst l :: known) -> v < p_aux z). { intros v [<- |V]; auto. apply KN in V. lia. }
  assert (MK : (exists b : asg, (forall v, v < p_aux x -> a v = b v) /\ satDb b (p_db z)) \/ (isHard (o, l) = true /\ ~ evOk a (o, l))).
  { destruct (isHard (o, l)) eqn:H.
    - destruct (ev_dec a (o, l)) as [Q|Q]; [left; exists a; split; auto; apply E1; auto|right; auto].
    - left. destruct E4 as [[-> [Q1 Q2]]|Q]; [|exists a; split; auto; eapply E5; eauto]. exists (setv a (p_aux x) (evVal a o)).
      assert (Q : forall v, v < p_aux x -> a v = setv a (p_aux x) (evVal a o) v). { intros v V. unfold setv. destruct (Nat.eqb_spec v (p_aux x)); auto. lia. }
      split; auto. apply E1. split; [eapply LX; eauto|]. apply set_ok; auto. intros V. apply OV in V. lia. }
  destruct MK as [[b [B1 B2]]|[H N]].
  - destruct (IH n z evs' y' (fst l :: known) b W1 P2 S2 LZ ltac:(lia) KZ SC2 B2) as [c [C1 C2]]. exists c. split; [intros v V; rewrite B1, C1; auto; lia|]. destruct C2 as [C2|[pre [e [post [D1 [D2 [D3 D4]]]]]]]; auto.
    right. exists ((o, l) :: pre), e, post. sp; auto; [cbn; congruence|]. intros d [<- |D]; auto. apply (ev_local b c); cbn [fst snd]; [intros v V; apply C1; apply OV in V; lia|now apply C1|]. now apply E1 in B2.
  - exists a. split; auto. right. exists [], (o, l), evs'. sp; auto. intros d [].
Qed.
Lemma pinit_local : forall n m, local (pinit n m).
Proof. intros n m a b E A. cbn [pinit p_db] in *. apply satDb_clause in A. apply satDb_clause. cbn in *. unfold holds in *. cbn in *. rewrite <- E; auto; lia. Qed.
End Pb.
