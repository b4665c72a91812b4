(** Unfounded set checker: exactness (C39) and soundness of its nogoods (C40), for all graphs, assignments and histories *)
From Coq Require Import List Bool Arith ZArith Lia Permutation.
From Verif Require Import Base UfModel UfRun UfSpec UfProofs UfProofs2 UfProofs6 UfProofs7 UfProofs10.
Import ListNotations.

(** *** C39: when the checker reports nothing more, no unfounded set is left *)
Theorem c39_no_unfounded_set_left : forall g distinct A0 s0 s, gwf g -> start g A0 = Ok s0 -> steps g distinct s0 s -> s_ph s = Fix -> founded g (notFalse (s_cur s)).
Proof.
  intros g ds A0 s0 s W ST SS FX. destruct (start_inv g W A0) as (s1 & E & IN & _). rewrite ST in E. injection E as <-. pose proof (steps_inv g W A0 ds s0 s IN SS) as (_ & PH & _). rewrite FX in PH. destruct PH as (R & TD & IV & _). eapply rest_founded; eauto.
Qed.
Print Assumptions c39_no_unfounded_set_left.
(** In particular, the atoms true in a total assignment are founded *)
Theorem c39_total_assignment_founded : forall g distinct A0 s0 s M, gwf g -> start g A0 = Ok s0 -> steps g distinct s0 s -> s_ph s = Fix -> (forall v, s_cur s v = Some (M v)) -> founded g (holds M).
Proof.
  intros g ds A0 s0 s M W ST SS FX TO. pose proof (c39_no_unfounded_set_left g ds A0 s0 s W ST SS FX) as FO.
  assert (E : forall l, notFalse (s_cur s) l = holds M l). { intros [v sg]. unfold notFalse, isFalse, pval, holds. cbn. rewrite TO. cbn. destruct (M v), sg; auto. }
  assert (EO : forall U ps, sumOut g (notFalse (s_cur s)) U ps = sumOut g (holds M) U ps). { intros U ps. induction ps as [|[p w] ps IH]; cbn; auto. rewrite E, IH. auto. }
  assert (EL : forall ps, sumLits (notFalse (s_cur s)) ps = sumLits (holds M) ps). { intros ps. induction ps as [|[p w] ps IH]; cbn; auto. rewrite E, IH. auto. }
  intros U NE HU. destruct (FO U NE) as (x & b & X1 & X2 & X3 & X4). { intros x IX. rewrite E. auto. } exists x, b. split; auto. split; auto. split; [rewrite <- E; auto|]. intros SC. specialize (X4 SC). destruct (n_bound (bodyOf g b)); auto. rewrite <- EO, <- EL. auto.
Qed.
Print Assumptions c39_total_assignment_founded.
(** A check always terminates with one of two results: no unfounded set exists, or a nonempty set of atoms that are not false and have no external support *)
Theorem c39_check_exact : forall g distinct A0 s0 s, gwf g -> start g A0 = Ok s0 -> steps g distinct s0 s -> s_ph s = Open -> upClosed g (s_cur s) ->
  (exists k, findUfs g (s_cur s) (s_k s) = Ok ([], k) /\ founded g (notFalse (s_cur s))) \/
  (exists U k, findUfs g (s_cur s) (s_k s) = Ok (U, k) /\ U <> [] /\ forall x, In x U -> x < nAtoms g /\ isFalse (s_cur s) (alit g x) = false /\ forall b, In b (a_bodies (atomOf g x)) -> ~ external g (notFalse (s_cur s)) U b x).
Proof.
  intros g ds A0 s0 s W ST SS OP UP. destruct (start_inv g W A0) as (s1 & E & IN & _). rewrite ST in E. injection E as <-. pose proof (steps_inv g W A0 ds s0 s IN SS) as (CH & PH & _). rewrite OP in PH. destruct PH as (R & UF).
  destruct (findUfs_ok g W (s_lev s) (s_cur s) (s_k s) (chain_cur _ _ CH) R UF) as (U & k & F1 & F2 & F3 & F4 & F5 & F6 & F7 & F8). destruct U as [|x U].
  - left. exists k. split; auto. eapply rest_founded; eauto.
  - right. exists (x :: U), k. split; auto. split; [discriminate|]. intros y IY. destruct (F5 y IY) as [L1 L2]. split; auto. split; auto. intros b IB. eapply unf_external; eauto.
Qed.
Print Assumptions c39_check_exact.
(** Initialisation always succeeds *)
Theorem c39_start_succeeds : forall g A0, gwf g -> exists s, start g A0 = Ok s /\ s_cur s = A0.
Proof. intros g A0 W. destruct (start_inv g W A0) as (s & E & _ & C). eauto. Qed.
Print Assumptions c39_start_succeeds.

(** *** C40: nogoods and forced literals exclude no total assignment whose true atoms are founded *)
Theorem c40_nogoods_sound : forall g distinct A0 s0 s M c, gwf g -> start g A0 = Ok s0 -> steps g distinct s0 s -> extends M A0 -> bodiesOk g M -> founded g (holds M) -> In c (s_ng s) -> sat_clause M c = true.
Proof.
  intros g ds A0 s0 s M c W ST SS EX BO FO IC. destruct (start_inv g W A0) as (s1 & E & IN & _). rewrite ST in E. injection E as <-. pose proof (steps_inv g W A0 ds s0 s IN SS) as (_ & _ & NG). apply (NG c IC M). unfold good. auto.
Qed.
Print Assumptions c40_nogoods_sound.
(** Each nogood is unit or violated when it is found: all its literals but the first are false; the first becomes true, or was already false and a conflict is reported *)
Theorem c40_nogoods_assert : forall g distinct A0 s0 s t c, gwf g -> start g A0 = Ok s0 -> steps g distinct s0 s -> step g distinct s t -> s_ng t = c :: s_ng s ->
  exists l r, c = l :: r /\ (forall p, In p r -> isFalse (s_cur s) p = true) /\ ((pval (s_cur s) l = None /\ isTrue (s_cur t) l = true) \/ (isFalse (s_cur s) l = true /\ s_ph t = Conf)).
Proof.
  intros g ds A0 s0 s t c W ST SS STEP NG. destruct (start_inv g W A0) as (s1 & E & IN & _). rewrite ST in E. injection E as <-. pose proof (steps_inv g W A0 ds s0 s IN SS) as (_ & PH & _).
  assert (NL : forall l : list (list lit), l <> c :: l) by (intros l Q; apply (f_equal (@length _)) in Q; cbn in Q; lia).
  assert (NT : forall A l, isTrue A l = true -> isFalse A (neg l) = true). { intros A [v sg]. unfold isTrue, isFalse, pval, neg. cbn. destruct (A v) as [b|]; cbn; [|discriminate]. destruct b, sg; auto. }
  assert (AT : forall A k l A' k', assigned g A k l A' k' -> pval A l = None /\ isTrue A' l = true). { intros A k [v sg] A' k' AS. destruct AS as [evs AN PE]. cbn in AN. unfold isTrue, pval, assign. cbn. rewrite AN, Nat.eqb_refl. destruct sg; auto. }
  destruct STEP; cbn [s_ng s_cur s_ph s_lev s_k] in *; try (elim (NL _ NG)); injection NG as <-.
  - exists (neg (alit g x)), []. split; [reflexivity|]. split; [intros p []|]. right. split; auto.
  - exists (neg (alit g x)), []. split; [reflexivity|]. split; [intros p []|]. left. eapply AT; eauto.
  - eexists _, _. split; [reflexivity|]. split; [eapply reasonFor_sound; eauto|]. left. eapply AT; eauto.
  - exists (neg (alit g x)), (computeReason g A k (x :: u)). split; [reflexivity|]. split; [intros p IP; exact (reason_false g A k (x :: u) p IP)|]. right. split; auto.
Qed.
Print Assumptions c40_nogoods_assert.

(** *** Example: a0 :- a1.  a1 :- a0.  a0 :- e.  a1 :- 2 { a0, x, y }.  Literals: atoms 1, 2; bodies 3, 4, 5, 6; x = 7, y = 8 *)
Definition exGraph : graph := Graph
  [ANode (1, false) 0 false [0; 2] [1] [(3, 0)]; ANode (2, false) 0 false [1; 3] [0] []]
  [BNode (3, false) 0 [0] None [(1, 1%Z)] []; BNode (4, false) 0 [1] None [(0, 1%Z)] []; BNode (5, false) 1 [0] None [] [];
   BNode (6, false) 0 [1] (Some 2%Z) [(0, 1%Z)] [((7, false), 1%Z); ((8, false), 1%Z)]].
Example ex_wf : gwf exGraph.
Proof.
  constructor.
  - intros [|[|[|[|b]]]] [|[|x]]; cbn; try (destruct b); try (destruct x); cbn; lia.
  - intros [|[|[|[|b]]]] x; cbn; try (destruct b); cbn; lia.
  - intros [|[|[|[|b]]]] h1 x h2; cbn; try (destruct b); cbn; intros E SS y Y; destruct h1 as [|? [|? ?]]; try discriminate; try (destruct Y; fail); destruct b; discriminate.
  - intros [|[|[|[|b]]]] [|[|x]]; cbn; try (destruct b); try (destruct x); cbn; intuition (try discriminate; try lia).
  - intros [|[|[|[|b]]]] i [|[|x]]; cbn; try (destruct b); try (destruct x); destruct i as [|[|i]]; cbn; try (destruct i); cbn; intuition (try discriminate; try congruence).
  - intros [|[|x]]; cbn; try (destruct x); repeat constructor; cbn; intuition lia.
  - intros [|[|x]]; cbn; try (destruct x); repeat constructor; cbn; intuition lia.
  - intros [|[|[|[|b]]]]; cbn; try (destruct b); repeat constructor; cbn; intuition lia.
  - intros [|[|[|[|b]]]] p; cbn; try (destruct b); cbn; unfold nAtoms; cbn; lia.
  - intros [|[|[|[|b]]]] p; cbn; try (destruct b); cbn; intuition (subst; auto).
  - intros [|[|[|[|b]]]] e; cbn; try (destruct b); cbn; intuition (subst; cbn; lia).
Qed.
Definition exStart : st := match start exGraph (fun _ => None) with Ok s => s | _ => St [] (fun _ => None) (empty) Conf [] end.
(** The steps used in the example *)
Definition exAssign (p : phase -> phase) (n : list (list lit)) (s : st) (l : lit) : st := St (s_lev s) (assign (s_cur s) l) (setInv (s_k s) (k_inv (s_k s) ++ events exGraph (s_k s) l)) (p (s_ph s)) (n ++ s_ng s).
Definition exCheck (s : st) : st :=
  match findUfs exGraph (s_cur s) (s_k s) with Ok ([], k) => St (s_lev s) (s_cur s) k Fix (s_ng s) | Ok (U, k) => St (s_lev s) (s_cur s) k (Falsify U None) (s_ng s) | _ => s end.
Definition exReason (s : st) : list lit := match s_ph s with Falsify u r => reasonFor exGraph false (s_cur s) (s_k s) u r | _ => [] end.
Definition exAssert (s : st) : st :=
  match s_ph s with Falsify (x :: u) _ => exAssign (fun _ => Falsify (x :: u) (Some (exReason s))) [neg (alit exGraph x) :: exReason s] s (neg (alit exGraph x)) | _ => s end.
Definition exPop (s : st) : st := match s_ph s with Falsify (x :: u) r => St (s_lev s) (s_cur s) (setUf (s_k s) x false) (Falsify u r) (s_ng s) | _ => s end.
Definition exPhase (s : st) (p : phase) : st := St (s_lev s) (s_cur s) (s_k s) p (s_ng s).
Lemma ex_assign : forall s l, s_ph s <> Conf -> s_cur s (fst l) = None -> step exGraph false s (exAssign afterAssign [] s l).
Proof. intros [L A k p n] l NC N. apply step_assign with (l := l); auto. apply assigned_i; auto. Qed.
Lemma ex_check : forall s, s_ph s = Open -> upClosed exGraph (s_cur s) -> (match findUfs exGraph (s_cur s) (s_k s) with Ok _ => true | _ => false end) = true -> step exGraph false s (exCheck s).
Proof. intros [L A k p n] E UP OK. cbn in *. subst p. unfold exCheck. cbn. destruct (findUfs exGraph A k) as [[[|x u] k']| |] eqn:F; try discriminate; [apply step_check_none|apply step_check_ufs]; auto. Qed.
Lemma ex_assert : forall s, (match s_ph s with Falsify (x :: _) _ => match s_cur s (fst (alit exGraph x)) with None => true | _ => false end | _ => false end) = true -> upClosed exGraph (s_cur s) -> step exGraph false s (exAssert s).
Proof.
  intros [L A k p n] OK UP. cbn in *. destruct p as [| |[|x u] r| |]; try discriminate. unfold exAssert, exAssign, exReason. cbn [s_ph s_cur s_lev s_k s_ng app]. apply step_assert; auto. apply assigned_i; auto. destruct (alit exGraph x). cbn in *. destruct (A n0); congruence.
Qed.
Lemma ex_pop : forall s, (match s_ph s with Falsify (x :: _) _ => isFalse (s_cur s) (alit exGraph x) | _ => false end) = true -> upClosed exGraph (s_cur s) -> step exGraph false s (exPop s).
Proof. intros [L A k p n] OK UP. cbn in *. destruct p as [| |[|x u] r| |]; try discriminate. apply step_pop; auto. Qed.
Definition e1 := exPhase exStart Open.
Definition e2 := exAssign afterAssign [] e1 (5, true).
Definition e3 := exAssign afterAssign [] e2 (7, true).
Definition e4 := exCheck e3.
Definition e5 := exAssert e4.
Definition e6 := exAssign afterAssign [] e5 (4, true).
Definition e7 := exAssign afterAssign [] (exPop e6) (6, true).
Definition e8 := exAssert e7.
Definition e9 := exAssign afterAssign [] e8 (3, true).
Definition e10 := exPop e9.
Definition e11 := exCheck (exPhase e10 Open).
Ltac ex_up := intros [|[|[|[|b]]]] p; try (destruct b; intros ? []); intros X I; try discriminate X; cbn in I; repeat (destruct I as [<-|I]); try (destruct I); vm_compute; auto.
(** e and x become false; the checker finds the unfounded set, makes both atoms false and reports that nothing is left *)
Example c39_nonvacuous : gwf exGraph /\ start exGraph (fun _ => None) = Ok exStart /\ steps exGraph false exStart e11 /\ s_ph e11 = Fix /\ s_cur e11 1 = Some false /\ s_cur e11 2 = Some false /\ s_ng e11 = [[(2, true); (5, false); (7, false)]; [(1, true); (5, false); (7, false)]] /\
  (exists u, s_ph e4 = Falsify u None /\ length u = 2).
Proof.
  split; [exact ex_wf|]. split; [unfold exStart; destruct (c39_start_succeeds exGraph (fun _ => None) ex_wf) as (s & E & _); rewrite E; reflexivity|]. split; [|vm_compute; repeat (split; auto); eexists; split; reflexivity].
  assert (S1 : steps exGraph false exStart e1). { eapply steps_cons; [apply steps_nil|]. assert (E : exStart = exPhase exStart (Forcing [])) by (vm_compute; reflexivity). rewrite E at 1. apply step_init_done. }
  assert (S2 : steps exGraph false exStart e2). { eapply steps_cons; [exact S1|]. apply ex_assign; [vm_compute; discriminate|reflexivity]. }
  assert (S3 : steps exGraph false exStart e3). { eapply steps_cons; [exact S2|]. apply ex_assign; [vm_compute; discriminate|reflexivity]. }
  assert (S4 : steps exGraph false exStart e4). { eapply steps_cons; [exact S3|]. apply ex_check; [reflexivity|ex_up|vm_compute; reflexivity]. }
  assert (S5 : steps exGraph false exStart e5). { eapply steps_cons; [exact S4|]. apply ex_assert; [vm_compute; reflexivity|ex_up]. }
  assert (S6 : steps exGraph false exStart e6). { eapply steps_cons; [exact S5|]. apply ex_assign; [vm_compute; discriminate|vm_compute; reflexivity]. }
  assert (S6' : steps exGraph false exStart (exPop e6)). { eapply steps_cons; [exact S6|]. apply ex_pop; [vm_compute; reflexivity|ex_up]. }
  assert (S7 : steps exGraph false exStart e7). { eapply steps_cons; [exact S6'|]. apply ex_assign; [vm_compute; discriminate|vm_compute; reflexivity]. }
  assert (S8 : steps exGraph false exStart e8). { eapply steps_cons; [exact S7|]. apply ex_assert; [vm_compute; reflexivity|ex_up]. }
  assert (S9 : steps exGraph false exStart e9). { eapply steps_cons; [exact S8|]. apply ex_assign; [vm_compute; discriminate|vm_compute; reflexivity]. }
  assert (S10 : steps exGraph false exStart e10). { eapply steps_cons; [exact S9|]. apply ex_pop; [vm_compute; reflexivity|ex_up]. }
  assert (S10' : steps exGraph false exStart (exPhase e10 Open)). { eapply steps_cons; [exact S10|]. assert (E : exists r, s_ph e10 = Falsify [] r) by (vm_compute; eexists; reflexivity). destruct E as (r & E). assert (E' : e10 = exPhase e10 (Falsify [] r)) by (rewrite <- E; destruct e10; reflexivity). rewrite E' at 1. apply step_again. }
  eapply steps_cons; [exact S10'|]. apply ex_check; [reflexivity|ex_up|vm_compute; reflexivity].
Qed.
(** A total assignment as in [c40_nogoods_sound]: everything but x and y true *)
Example c40_nonvacuous : let M := fun v => Nat.leb v 6 in extends M (fun _ => None) /\ bodiesOk exGraph M /\ founded exGraph (holds M).
Proof.
  cbn zeta. split; [intros v b D; discriminate D|]. split.
  - intros [|[|[|[|b]]]] p w NB I _; cbn in *; try discriminate; repeat (destruct I as [I|I]; [injection I as <- <-; reflexivity|]); try (destruct I). destruct b; destruct I.
  - intros U NE HU. destruct (in_dec Nat.eq_dec 0 U) as [I|I].
    + exists 0, 2. split; auto. split; [cbn; auto|]. split; [reflexivity|]. cbn. discriminate.
    + destruct U as [|x U]; [contradiction|]. destruct (HU x (or_introl eq_refl)) as [LX _]. unfold nAtoms in LX. cbn in LX. assert (x = 1). { destruct x as [|[|x]]; auto; [|lia]. elim I. left. auto. } subst x. exists 1, 1. split; [left; auto|]. split; [cbn; auto|]. split; [reflexivity|]. cbn. intros _ p w [E|[]]. injection E as <- <-. auto.
Qed.
