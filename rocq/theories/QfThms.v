(** C25: cautious consequences by queries. *)
From Coq Require Import List Bool Arith ZArith Lia.
From Verif Require Import Base ClModel BpModel BpSpec BpProofs CaModel SeModel SeSpec SeProofs4 SeProofs5 SeThms QfModel QfSpec QfProofs QfProofs2 QfProofs3.
Import ListNotations.

(** Computing consequences never runs into undefined behaviour, whatever the heuristics, limits and strategies do. *)
Theorem c38_no_error : forall n x F A (cons : list lit) k pre rounds fuel u, (Z.of_nat n < varMax)%Z -> sess n x F A -> (forall p, In p cons -> fst p <= n) -> (forall k, picks n (u_w (u k)) /\ selects (u_h (u k))) ->
  exists e a, query k pre rounds fuel n u x (start cons) = Ok (e, a).
Proof.
  intros n x F A cons k pre rounds fuel u NV H CB HU. destruct (sess_ok n NV x F A H) as [S [B GA]]. apply (query_total n NV F pre rounds fuel u HU). unfold Weak. repeat split; eauto.
Qed.
Print Assumptions c38_no_error.

(** If each query is assumed on a root level of its own, then: each report contains all consequences, and the literals marked definite are
    consequences; once the computation is complete, the last report contains exactly the consequences, and there is no report exactly if there is no model. *)
Theorem c38_exact_partial : forall n x F A (cons : list lit) k pre rounds fuel u e a, (Z.of_nat n < varMax)%Z -> sess n x F A -> (forall p, In p cons -> fst p <= n) -> (forall k, picks n (u_w (u k)) /\ selects (u_h (u k))) ->
  query k pre rounds fuel n u x (start cons) = Ok (e, a) -> ownLevels e ->
  (forall m, In (EModel m) e \/ In (EUp m) e -> forall p, In p cons -> (consequence F A p -> inEst m p = true) /\ (inDef m p = true -> consequence F A p)) /\
  (a = Complete -> match report e with Some m => (exists b, isModel b F A) /\ forall p, In p cons -> (inEst m p = true <-> consequence F A p) | None => forall b, ~ isModel b F A end).
Proof.
  intros n x F A cons k pre rounds fuel u e a NV H CB HU E OW. destruct (sess_ok n NV x F A H) as [S [B GA]].
  assert (HA : forall p l, In (p, l) A -> l <= b_root (q_st x)) by (intros p l P; eapply c20_assumptions_hold; eauto).
  destruct (proj2 (run0 n NV F A (b_root (q_st x)) cons GA HA CB pre rounds fuel u HU k x e a S eq_refl E) OW) as [G1 [G2 _]]. split; auto.
Qed.
Print Assumptions c38_exact_partial.

(** A computation without limits is complete after at most one round for each literal and two more. *)
Theorem c38_terminates_partial : forall n x F A (cons : list lit) k pre rounds fuel u e a, (Z.of_nat n < varMax)%Z -> sess n x F A -> (forall p, In p cons -> fst p <= n) -> (forall k, picks n (u_w (u k)) /\ selects (u_h (u k))) ->
  (forall k, unlimited (u_w (u k))) -> bound n <= fuel -> 0 < rounds -> length cons + 2 <= k ->
  query k pre rounds fuel n u x (start cons) = Ok (e, a) -> ownLevels e -> a = Complete.
Proof.
  intros n x F A cons k pre rounds fuel u e a NV H CB HU UL BF RD LK E OW. destruct (sess_ok n NV x F A H) as [S [B GA]].
  assert (HA : forall p l, In (p, l) A -> l <= b_root (q_st x)) by (intros p l P; eapply c20_assumptions_hold; eauto).
  destruct (proj2 (run0 n NV F A (b_root (q_st x)) cons GA HA CB pre rounds fuel u HU k x e a S eq_refl E) OW) as [_ [_ G3]].
  destruct a; auto; [|specialize (G3 eq_refl); lia]. exfalso. unfold bound in BF.
  apply (query_unlimited n NV F pre rounds fuel u HU UL BF RD k x (start cons) e Stopped); auto. unfold Weak. repeat split; eauto.
Qed.
Print Assumptions c38_terminates_partial.

(** If literals that wait for propagation were propagated before a query is selected, then each query would be assumed on a level of its own. *)
Theorem c38_propagated : forall n x F A (cons : list lit) k rounds fuel u e a, (Z.of_nat n < varMax)%Z -> sess n x F A -> (forall p, In p cons -> fst p <= n) -> (forall k, picks n (u_w (u k)) /\ selects (u_h (u k))) ->
  query k true rounds fuel n u x (start cons) = Ok (e, a) -> ownLevels e.
Proof.
  intros n x F A cons k rounds fuel u e a NV H CB HU E. destruct (sess_ok n NV x F A H) as [S [B GA]].
  assert (HA : forall p l, In (p, l) A -> l <= b_root (q_st x)) by (intros p l P; eapply c20_assumptions_hold; eauto).
  exact (proj1 (run0 n NV F A (b_root (q_st x)) cons GA HA CB true rounds fuel u HU k x e a S eq_refl E) eq_refl).
Qed.
Print Assumptions c38_propagated.

(** The code does not propagate before it selects: after a model was found, the query's level is taken back, which re-assigns literals learnt meanwhile
    without propagating them.  A query that is implied by such a literal is selected, its complement is refused (pushRoot returns false without a conflict),
    update's result is ignored, and the next model, in which the query is true, removes it from the estimate.  Here 2 is a consequence, but the
    computation ends with a report without it. *)
Definition prefW (l : list lit) : oracle := Oracle (fun k _ => Opt 0 true 0 0 0 lit_true) (fun _ _ => true) (fun _ _ => false)
  (fun _ s => match find (fun p => freeVar s (fst p)) (l ++ map P (seq 1 5)) with Some p => p | None => lit_true end)
  (fun _ _ => false) (fun _ _ => false) (fun _ _ => []).
Lemma prefW_picks : forall l, forallb (fun p => Nat.ltb 0 (fst p) && Nat.leb (fst p) 5) l = true -> picks 5 (prefW l).
Proof.
  intros l L k s H. apply existsb_exists in H as [v [V1 V2]]. unfold prefW. cbn [w_pick].
  match goal with |- context [find ?f ?l] => destruct (find f l) as [u|] eqn:E end.
  2: { exfalso. pose proof (find_none _ _ E (P v)) as X. unfold freeVar, P in X. cbn [fst] in X. rewrite V2 in X. discriminate X. apply in_or_app. right. change (In (P v) (map P (seq 1 5))). apply in_map. auto. }
  apply find_some in E as [E1 E2]. assert (GV : 0 < fst u <= 5).
  { apply in_app_or in E1 as [E1|E1]; [rewrite forallb_forall in L; specialize (L u E1); apply andb_true_iff in L as [X Y]; apply Nat.ltb_lt in X; apply Nat.leb_le in Y; lia|]. apply in_map_iff in E1 as [y [<- Y]]. apply in_seq in Y. cbn. lia. }
  unfold freeVar in E2. apply andb_true_iff in E2 as [E2 E3]. apply negb_true_iff in E2, E3. destruct u as [u b]. cbn [fst] in *. split; [exact GV|]. unfold isF, neg. cbn [fst snd]. destruct b; auto.
Qed.
Definition firstOf (s : st) (l : list lit) : lit := hd lit_true l.
Lemma firstOf_selects : selects firstOf.
Proof. intros s l H. destruct l; [congruence|now left]. Qed.
Definition cqF : list clause := [[P 3; P 4; P 5]; [P 3; P 4; M 5]; [P 3; M 4; P 5]; [P 3; M 4; M 5]; [M 3; P 2]].
Definition cqX : sv := fold_left stepAdd cqF (Sv init []).
Definition cqU (k : nat) : qround := QRound (prefW (if Nat.eqb k 8 then [M 3; M 4; M 5; P 1; P 2] else [P 3; P 1; P 2; P 4; P 5])) firstOf false.
Lemma cqX_sess : sess 5 cqX cqF [].
Proof. apply (add_many 5 cqF (Sv init []) [] []); [apply s_init|vm_compute; reflexivity|vm_compute; reflexivity]. Qed.
Lemma cqU_ok : forall k, picks 5 (u_w (cqU k)) /\ selects (u_h (cqU k)).
Proof. intros k. split; [|apply firstOf_selects]. cbn [cqU u_w]. apply prefW_picks. destruct (Nat.eqb k 8); reflexivity. Qed.
Lemma cq_conseq : consequence cqF [] (P 2).
Proof. intros a _ [H _]. unfold sat_cnf, cqF, sat_clause, holds, P, M in *. cbn in *. destruct (a 2), (a 3), (a 4), (a 5); cbn in *; auto; discriminate. Qed.
Lemma cq_not : ~ consequence cqF [] (P 1).
Proof. intros H. specialize (H (fun v => negb (Nat.eqb v 1)) eq_refl). cbn in H. assert (X : isModel (fun v => negb (Nat.eqb v 1)) cqF []) by (split; [reflexivity|intros p l []]). specialize (H X). discriminate. Qed.
Definition seen (cons : list lit) (r : res (list event * answer)) : list (list bool * list bool) * option answer :=
  match r with Ok (e, a) => (flat_map (fun x => match x with EModel m | EUp m => [(map (inEst m) cons, map (inDef m) cons)] | EPush _ => [] end) e, Some a) | _ => ([], None) end.
Theorem c38_pending_refuted : sess 5 cqX cqF [] /\ (forall k, picks 5 (u_w (cqU k)) /\ selects (u_h (cqU k))) /\ consequence cqF [] (P 2) /\
  exists e m, query 10 false 3 100 5 cqU cqX (start [P 1; P 2]) = Ok (e, Complete) /\ report e = Some m /\ inEst m (P 2) = false.
Proof.
  split; [exact cqX_sess|]. split; [exact cqU_ok|]. split; [exact cq_conseq|].
  assert (X : match query 10 false 3 100 5 cqU cqX (start [P 1; P 2]) with Ok (e, Complete) => match report e with Some m => negb (inEst m (P 2)) | None => false end | _ => false end = true) by (vm_compute; reflexivity).
  destruct (query 10 false 3 100 5 cqU cqX (start [P 1; P 2])) as [[e [| |]]| |]; try discriminate. destruct (report e) as [m|] eqn:R; [|discriminate]. exists e, m. apply negb_true_iff in X. auto.
Qed.
Print Assumptions c38_pending_refuted.
(** With propagation, the same run ends with the right answer. *)
Example c38_repaired_nonvacuous : seen [P 1; P 2] (query 10 true 3 100 5 cqU cqX (start [P 1; P 2])) = ([([true; true], [false; false]); ([false; true], [false; false])], Some Complete).
Proof. vm_compute. reflexivity. Qed.

(** A run of the code in which all queries have their own levels: three literals, one consequence (4) found by a query that fails,
    under the assumption that 5 is false. *)
Definition crF : list clause := [[P 1; P 2]; [M 1; P 4; P 5]; [M 2; P 3; P 4]; [M 3; P 4; M 2]; [P 5; M 3; P 1]].
Definition cr1 : sv := fold_left stepAdd crF (Sv init []).
Definition crX : sv := pushed cr1 (M 5).
Lemma cr1_sess : sess 5 cr1 crF [].
Proof. apply (add_many 5 crF (Sv init []) [] []); [apply s_init|vm_compute; reflexivity|vm_compute; reflexivity]. Qed.
Lemma crX_sess : sess 5 crX crF [(M 5, 1)].
Proof.
  assert (X : b_root (q_st (pushed cr1 (M 5))) = 1) by (vm_compute; reflexivity).
  assert (Y : isOk (pushRoot 5 cr1 (M 5)) = true) by (vm_compute; reflexivity). assert (Z : good_var 5 (M 5)) by (split; cbn; lia).
  pose proof (push_sess cr1 crF [] (M 5) cr1_sess Z Y) as H. rewrite X in H. exact H.
Qed.
Definition crU (k : nat) : qround := QRound (prefW [P 2; P 1; P 3]) firstOf (Nat.even k).
Example c38_nonvacuous : (Z.of_nat 5 < varMax)%Z /\ sess 5 crX crF [(M 5, 1)] /\ (forall k, picks 5 (u_w (crU k)) /\ selects (u_h (crU k)) /\ unlimited (u_w (crU k))) /\
  exists e, query 10 false 3 100 5 crU crX (start [P 1; P 4; P 3]) = Ok (e, Complete) /\ ownLevels e /\ length e = 5 /\
  exists m, report e = Some m /\ map (inEst m) [P 1; P 4; P 3] = [false; true; false] /\ map (inDef m) [P 1; P 4; P 3] = [false; true; false].
Proof.
  split; [reflexivity|]. split; [exact crX_sess|]. split. { intros k. split; [apply prefW_picks; reflexivity|]. split; [apply firstOf_selects|intros j s; reflexivity]. }
  assert (X : match query 10 false 3 100 5 crU crX (start [P 1; P 4; P 3]) with Ok (e, Complete) => forallb (fun x => match x with EPush g => g | _ => true end) e && Nat.eqb (length e) 5 &&
    match report e with Some m => forallb (fun x => x) (map (fun '(x, y) => eqb x y) (combine (map (inEst m) [P 1; P 4; P 3] ++ map (inDef m) [P 1; P 4; P 3]) [false; true; false; false; true; false])) | None => false end | _ => false end = true) by (vm_compute; reflexivity).
  destruct (query 10 false 3 100 5 crU crX (start [P 1; P 4; P 3])) as [[e [| |]]| |]; try discriminate. apply andb_true_iff in X as [X X3]. apply andb_true_iff in X as [X1 X2]. exists e. split; auto.
  split. { intros g G. rewrite forallb_forall in X1. apply (X1 _ G). } split; [now apply Nat.eqb_eq|].
  destruct (report e) as [m|]; [|discriminate]. exists m. split; auto. cbn [map app combine forallb] in X3. apply andb_true_iff in X3 as [Y1 X3]; apply andb_true_iff in X3 as [Y2 X3]; apply andb_true_iff in X3 as [Y3 X3]; apply andb_true_iff in X3 as [Y4 X3]; apply andb_true_iff in X3 as [Y5 X3]; apply andb_true_iff in X3 as [Y6 _].
  apply eqb_prop in Y1, Y2, Y3, Y4, Y5, Y6. cbn [map]. rewrite Y1, Y2, Y3, Y4, Y5, Y6. auto.
Qed.
