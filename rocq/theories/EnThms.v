(** Enumeration with solution recording.  C26: every model is reported exactly once, up to what the mode distinguishes. *)
From Coq Require Import List Bool Arith ZArith Lia.
From Verif Require Import Base ClModel BpModel BpSpec CaModel SeModel SeSpec SeProofs4 SeProofs5 SeThms EnModel EnSpec EnProofs EnProofs2.
Import ListNotations.
Ltac sp := repeat match goal with |- _ /\ _ => split end.

Section T.
Variables (n : nat) (x : sv) (F : list clause) (A : list (lit * nat)) (md : mode) (r : nat -> round).
Hypothesis (NV : (Z.of_nat n < varMax)%Z) (SE : sess n x F A) (MO : mode_ok n md A) (PK : forall i, picks n (r_w (r i))).

Lemma enum_sess : forall k rounds fuel, exists ms v, enum k rounds fuel n md r x = Ok (ms, v) /\
  (forall m, In m ms -> isModel m F A) /\ ordered n md ms /\ (v = VFalse -> forall a, isModel a F A -> exists m, In m ms /\ covers n md m a) /\
  match v with VTrue => False | VFalse => length ms < k | VFree => length ms = k \/ rounds = 0 \/ exists i j s, w_limit (r_w (r i)) j s = true | VFuel => fuel < bound n end.
Proof.
  intros k rounds fuel. destruct (sess_ok n NV x F A SE) as [S [_ GA]].
  destruct (enum_ok n NV md A MO GA k rounds fuel r PK x F (or_introl S)) as [ms [v [E [P1 [P2 [P3 P4]]]]]]. exists ms, v. sp; auto; [apply P1|].
  intros V a [A1 A2]. assert (GF : forall c, In c F -> Forall (good_var n) c) by (destruct S as [D [G [_ [_ [DO _]]]]]; apply (o_gvF _ _ _ _ DO)).
  destruct (P3 V (at0 a) eq_refl) as [m [M1 M2]].
  { split; [rewrite (at0_cnf n); auto|]. intros p l H. rewrite (at0_lit n); eauto. }
  exists m. split; auto. assert (E0 : forall v, 1 <= v -> at0 a v = a v) by (intros u U; unfold at0; destruct u; [lia|reflexivity]).
  destruct md as [|proj dom step].
  - intros u U. rewrite <- E0 by lia. apply M2. auto.
  - intros u U P. specialize (M2 u U P). destruct (dom u); unfold holds in *; cbn [fst snd] in *; rewrite E0 in M2 by lia; auto.
Qed.
End T.

(** Nothing undefined happens, whatever the decisions, restarts and deletions of learnt clauses, and however often the run is limited. *)
Theorem c26_no_error : forall n x F A md r k rounds fuel, (Z.of_nat n < varMax)%Z -> sess n x F A -> mode_ok n md A -> (forall i, picks n (r_w (r i))) ->
  exists ms v, enum k rounds fuel n md r x = Ok (ms, v) /\ length ms <= k.
Proof.
  intros n x F A md r k rounds fuel NV SE MO PK. destruct (enum_sess n x F A md r NV SE MO PK k rounds fuel) as [ms [v [E _]]]. exists ms, v. split; auto.
  clear -E. revert x ms v E. induction k as [|k IH]; cbn [enum]; intros x ms v E; [injection E as <- _; auto|].
  destruct (solve _ _ _ _ x) as [[x1 u]| |]; try discriminate. cbn [bind] in E. destruct u; try (injection E as <- _; cbn; lia).
  destruct (update _ _ _ _ _ _ _) as [[x2 b]| |]; try discriminate. cbn [bind] in E. destruct (enum k _ _ _ _ _ x2) as [[ms' v']| |] eqn:E2; try discriminate. cbn [bind] in E. injection E as <- <-. specialize (IH x2 ms' v' E2). cbn. lia.
Qed.
Print Assumptions c26_no_error.

(** Every reported assignment is a model that satisfies the assumptions. *)
Theorem c26_models : forall n x F A md r k rounds fuel ms v m, (Z.of_nat n < varMax)%Z -> sess n x F A -> mode_ok n md A -> (forall i, picks n (r_w (r i))) ->
  enum k rounds fuel n md r x = Ok (ms, v) -> In m ms -> isModel m F A.
Proof.
  intros n x F A md r k rounds fuel ms v m NV SE MO PK E IN. destruct (enum_sess n x F A md r NV SE MO PK k rounds fuel) as [ms' [v' [E' [P _]]]]. rewrite E in E'. injection E' as <- <-. auto.
Qed.
Print Assumptions c26_models.

(** No model is reported twice; with projection, no two reported models agree on the projected variables; with domain recording, no
    reported model is subsumed by an earlier one. *)
Theorem c26_once : forall n x F A md r k rounds fuel ms v i j m m', (Z.of_nat n < varMax)%Z -> sess n x F A -> mode_ok n md A -> (forall i, picks n (r_w (r i))) ->
  enum k rounds fuel n md r x = Ok (ms, v) -> i < j -> nth_error ms i = Some m -> nth_error ms j = Some m' -> ~ covers n md m m'.
Proof.
  intros n x F A md r k rounds fuel ms v i j m m' NV SE MO PK E L M M'. destruct (enum_sess n x F A md r NV SE MO PK k rounds fuel) as [ms' [v' [E' [_ [P _]]]]]. rewrite E in E'. injection E' as <- <-.
  destruct (nth_error_split ms i M) as [l1 [l2 [X Y]]]. apply (P l1 m l2 m' X). rewrite X, nth_error_app2 in M' by lia. replace (j - length l1) with (S (j - length l1 - 1)) in M' by lia. cbn in M'. eapply nth_error_In; eauto.
Qed.
Print Assumptions c26_once.

(** If the enumeration says that there are no more models, then every model has been reported, up to projection. *)
Theorem c26_complete : forall n x F A md r k rounds fuel ms a, (Z.of_nat n < varMax)%Z -> sess n x F A -> mode_ok n md A -> (forall i, picks n (r_w (r i))) ->
  enum k rounds fuel n md r x = Ok (ms, VFalse) -> isModel a F A -> exists m, In m ms /\ covers n md m a.
Proof.
  intros n x F A md r k rounds fuel ms a NV SE MO PK E M. destruct (enum_sess n x F A md r NV SE MO PK k rounds fuel) as [ms' [v' [E' [_ [_ [P _]]]]]]. rewrite E in E'. injection E' as <- <-. auto.
Qed.
Print Assumptions c26_complete.

(** Without limits the enumeration ends, after at most 2^w models for w variables to distinguish them, and reports all models. *)
Theorem c26_enumerates : forall n x F A md r k rounds fuel, (Z.of_nat n < varMax)%Z -> sess n x F A -> mode_ok n md A -> (forall i, picks n (r_w (r i))) ->
  (forall i, unlimited (r_w (r i))) -> bound n <= fuel -> 0 < rounds -> Nat.pow 2 (width n md) < k ->
  exists ms, enum k rounds fuel n md r x = Ok (ms, VFalse) /\ length ms <= Nat.pow 2 (width n md) /\
    (forall m, In m ms -> isModel m F A) /\ (forall a, isModel a F A -> exists m, In m ms /\ covers n md m a) /\
    (forall i j m m', i < j -> nth_error ms i = Some m -> nth_error ms j = Some m' -> ~ covers n md m m').
Proof.
  intros n x F A md r k rounds fuel NV SE MO PK UL BF RD KB. destruct (enum_sess n x F A md r NV SE MO PK k rounds fuel) as [ms [v [E [P1 [P2 [P3 P4]]]]]].
  destruct (sess_ok n NV x F A SE) as [S [_ GA]]. pose proof (ordered_len n md A MO ms P2) as L. destruct v; try contradiction.
  - exists ms. sp; auto. intros i j m m' LT M M'. eapply c26_once; eauto.
  - exfalso. destruct P4 as [P4|[P4|[i [j [s P4]]]]]; [lia|lia|rewrite UL in P4; discriminate].
  - lia.
Qed.
Print Assumptions c26_enumerates.

(** Without projection, the reported assignments are exactly the models, each once. *)
Theorem c26_exact : forall n x F A r k rounds fuel, (Z.of_nat n < varMax)%Z -> sess n x F A -> (forall i, picks n (r_w (r i))) ->
  (forall i, unlimited (r_w (r i))) -> bound n <= fuel -> 0 < rounds -> Nat.pow 2 n < k ->
  exists ms, enum k rounds fuel n Decisions r x = Ok (ms, VFalse) /\ NoDup (map (fun m => map m (seq 1 n)) ms) /\
    forall a, (isModel a F A <-> exists m, In m ms /\ map m (seq 1 n) = map a (seq 1 n)).
Proof.
  intros n x F A r k rounds fuel NV SE PK UL BF RD KB. destruct (c26_enumerates n x F A Decisions r k rounds fuel) as [ms [E [_ [P1 [P2 P3]]]]]; auto; [exact Logic.I|]. exists ms. split; auto.
  assert (EQ : forall m m', covers n Decisions m m' <-> map m (seq 1 n) = map m' (seq 1 n)).
  { intros m m'. split; [intros C; apply map_ext_in; intros v V; apply in_seq in V; apply C; lia|]. intros H v V.
    assert (X : forall l, map m l = map m' l -> In v l -> m v = m' v). { induction l as [|y l IH]; cbn; [easy|]. intros Z [<-|Z']; injection Z as Z1 Z2; auto. }
    apply (X _ H). apply in_seq. lia. }
  split.
  - apply NoDup_nth_error. intros i j Hi Hij. rewrite map_length in Hi. destruct (nth_error ms i) as [m|] eqn:M; [|exfalso; apply nth_error_None in M; exact (Nat.lt_irrefl _ (Nat.lt_le_trans _ _ _ Hi M))].
    rewrite (map_nth_error _ _ _ M) in Hij. destruct (nth_error ms j) as [m'|] eqn:M'; [|rewrite (proj2 (nth_error_None _ _)) in Hij; [discriminate|rewrite map_length; now apply nth_error_None]].
    rewrite (map_nth_error _ _ _ M') in Hij. injection Hij as Hij. destruct (Nat.lt_trichotomy i j) as [L|[L|L]]; auto; exfalso; [apply (P3 i j m m' L M M')|apply (P3 j i m' m L M' M)]; apply EQ; auto.
  - intros a. split.
    + intros H. destruct (P2 a H) as [m [M1 M2]]. exists m. split; auto. apply EQ; auto.
    + intros [m [M1 M2]]. destruct (P1 m M1) as [S1 S2]. apply EQ in M2. destruct (sess_ok n NV x F A SE) as [[D [G [_ [_ [DO _]]]]] [_ GA]].
      assert (HL : forall p, good_var n p -> holds a p = holds m p). { intros p GV. unfold holds. rewrite (M2 (fst p)); auto. }
      split; [|intros p l H; rewrite HL; eauto]. unfold sat_cnf in *. rewrite forallb_forall in *. intros c C. specialize (S1 c C). unfold sat_clause in *. apply existsb_exists in S1 as [q [Q1 Q2]].
      apply existsb_exists. exists q. split; auto. rewrite HL; auto. pose proof (o_gvF _ _ _ _ DO c C) as GV. rewrite Forall_forall in GV. auto.
Qed.
Print Assumptions c26_exact.

(** * Examples *)
Definition exR (rst : bool) : nat -> round := fun i => Round (exW false) (Nat.even i) false rst.
Definition show (n : nat) (e : res (list asg * verdict)) : option (list (list bool) * verdict) := match e with Ok (ms, v) => Some (map (fun m => map m (seq 1 n)) ms, v) | _ => None end.
Definition exF2 : list clause := [[P 1; P 2]; [M 1; M 2; P 3]; [M 3; M 4]; [P 5]].
Definition ex6 : sv := fold_left stepAdd exF2 (Sv init []).
Lemma ex6_sess : sess 5 ex6 exF2 [].
Proof. apply (add_many 5 exF2 (Sv init []) [] [] (s_init 5)); vm_compute; auto. Qed.
(** The hypotheses hold for a run with seven models, with projection to two variables, with a domain preference, under an assumption. *)
Example c26_nonvacuous : (Z.of_nat 5 < varMax)%Z /\ sess 5 ex6 exF2 [] /\ (forall i, picks 5 (r_w (exR true i))) /\ (forall i, unlimited (r_w (exR true i))).
Proof. sp; [reflexivity|apply ex6_sess|intros i; apply exW_picks|intros i k s; reflexivity]. Qed.
Example c26_run_nonvacuous : show 5 (enum 40 1 1000 5 Decisions (exR false) ex6) =
  Some ([[false; true; false; false; true]; [false; true; false; true; true]; [false; true; true; false; true]; [true; false; false; false; true];
         [true; false; false; true; true]; [true; false; true; false; true]; [true; true; true; false; true]], VFalse).
Proof. vm_compute. reflexivity. Qed.
Example c26_project_nonvacuous : show 5 (enum 40 1 1000 5 (Project (fun v => Nat.leb v 2) (fun _ => None) None) (exR true) ex6) =
  Some ([[false; true; false; false; true]; [true; false; false; false; true]; [true; true; true; false; true]], VFalse).
Proof. vm_compute. reflexivity. Qed.
Example c26_domain_nonvacuous : show 5 (enum 40 1 1000 5 (Project (fun v => Nat.leb v 2) (fun _ => Some true) None) (exR true) ex6) =
  Some ([[false; true; false; false; true]; [true; false; false; false; true]], VFalse).
Proof. vm_compute. reflexivity. Qed.
(** With an assumption that serves as step literal, on the root level *)
Definition ex7 : sv := pushed ex6 (M 4).
Example c26_step_nonvacuous : sess 5 ex7 exF2 [(M 4, b_root (q_st ex7))] /\ mode_ok 5 (Project (fun v => Nat.leb v 3) (fun _ => None) (Some (M 4))) [(M 4, b_root (q_st ex7))] /\
  show 5 (enum 40 1 1000 5 (Project (fun v => Nat.leb v 3) (fun _ => None) (Some (M 4))) (exR false) ex7) =
  Some ([[false; true; false; false; true]; [false; true; true; false; true]; [true; false; false; false; true]; [true; false; true; false; true]; [true; true; true; false; true]], VFalse).
Proof.
  split; [|split; [split; [reflexivity|eexists; left; reflexivity]|vm_compute; reflexivity]].
  apply (push_sess ex6 exF2 [] (M 4) ex6_sess); [cbv; lia|vm_compute; reflexivity].
Qed.
