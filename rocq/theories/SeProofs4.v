From Coq Require Import List Bool Arith ZArith Lia Permutation.
From Verif Require Import Base ClModel ClSpec ClProofs BpModel BpSpec BpProofs BpProofs2 BpProofs3 BpProofs4 BpProofs5 CaModel CaSpec CaProofs7 SeModel SeSpec SeProofs SeProofs2 SeProofs3.
Import ListNotations.

(** * Invariants of sessions *)
Record DbOk (n : nat) (F : list clause) (D : db) (L : list nat) : Prop := {
  o_mod : forall a, holds a lit_true = true -> sat_cnf a F = true -> forall c, inDb D c -> sat_clause a c = true;
  o_in : forall c, In c F -> In c (d_imp D) \/ exists i, nth_error (d_exp D) i = Some (Some c) /\ ~ In i L;
  o_lt : forall i, In i L -> i < length (d_exp D);
  o_gvF : forall c, In c F -> Forall (good_var n) c;
  o_gv : forall c, inDb D c -> Forall (good_var n) c }.
Record AsOk (s : st) (A : list (lit * nat)) : Prop := {
  a_true : forall p l, In (p, l) A -> l <= b_root s /\ exists e, In e (b_trail s) /\ e_lit e = p /\ e_lev e <= l;
  a_dec : forall e, In e (b_trail s) -> e_why e = Dec -> e_lev e <= b_root s -> In (e_lit e, e_lev e) A }.
Definition SI (n : nat) (x : sv) (F : list clause) (A : list (lit * nat)) : Prop :=
  exists D G, InvG n (q_st x) D G /\ Shape (q_st x) /\ DbOk n F D (q_lrn x) /\ AsOk (q_st x) A.

Lemma as_grow : forall s s' A x, AsOk s A -> b_trail s' = b_trail s ++ x -> (forall e, In e x -> e_why e = Dec -> b_root s < e_lev e) -> b_root s' = b_root s -> AsOk s' A.
Proof.
  intros s s' A x [A1 A2] T P R. constructor.
  - intros p l H. rewrite R. destruct (A1 p l H) as [B [e [E1 E2]]]. split; auto. exists e. split; auto. rewrite T. apply in_or_app. auto.
  - intros e. rewrite T, R. intros H W Le. apply in_app_or in H as [H|H]; auto. specialize (P e H W). lia.
Qed.
Lemma as_ext : forall s s' A, AsOk s A -> ext s s' -> AsOk s' A.
Proof. intros s s' A H [[x [T P]] [_ [R _]]]. eapply as_grow; eauto. intros e E W. destruct (P e E) as [[Q _] _]. contradiction. Qed.
Lemma as_kept : forall s s' A m x, AsOk s A -> b_root s <= m -> b_trail s' = kept m (b_trail s) ++ x -> (forall e, In e x -> plain (e_why e)) -> b_root s' = b_root s -> AsOk s' A.
Proof.
  intros s s' A m x [A1 A2] M T P R. constructor.
  - intros p l H. rewrite R. destruct (A1 p l H) as [B [e [E1 [E2 E3]]]]. split; auto. exists e. sp; auto. rewrite T. apply in_or_app. left. apply filter_In. split; auto. apply Nat.leb_le. lia.
  - intros e. rewrite T, R. intros H W Le. apply in_app_or in H as [H|H]; [apply filter_In in H as [H _]; auto|]. destruct (P e H). contradiction.
Qed.
Lemma as_undo : forall n s D G A l, Core n s D G -> AsOk s A -> AsOk (undo s l) A.
Proof.
  intros n s D G A l K H. destruct (Nat.lt_ge_cases (Nat.max l (b_root s)) (b_dl s)) as [X|X]; [|rewrite undo_ge; auto].
  rewrite undo_max, (undo_eq n s D G _ K (Nat.le_max_r _ _) X). eapply (as_kept s _ A (Nat.max l (b_root s)) []); eauto; try lia; [cbn; now rewrite app_nil_r|easy].
Qed.
Lemma as_pop : forall n s D G A k, Core n s D G -> Shape s -> AsOk s A -> AsOk (popRootLevel s k) (filter (fun a => Nat.leb (snd a) (b_root (popRootLevel s k))) A).
Proof.
  intros n s D G A k K SH [A1 A2]. pose proof (k_root _ _ _ _ K) as R0. unfold popRootLevel. set (r := b_root s - Nat.min k (b_root s)).
  assert (RR : b_root (undo (setRoot s r) r) = r) by (unfold undo; destruct (Nat.ltb _ _); reflexivity). rewrite RR.
  assert (IN : forall e, In e (b_trail (undo (setRoot s r) r)) <-> (In e (b_trail s) /\ e_lev e <= r) \/ (exists e0, In e0 (b_trail s) /\ r < e_lev e0 /\ e_log e0 <= r /\ e = readd r e0)).
  { destruct (Nat.lt_ge_cases r (b_dl s)) as [X|X].
    - apply (undo_inG s r r X (le_n _)).
    - rewrite undo_ge by (cbn; lia). cbn. intros e. split.
      + intros E. left. split; auto. pose proof (k_lv _ _ _ _ K e E). lia.
      + intros [[E _]|[e0 [E [E1 _]]]]; auto. pose proof (k_lv _ _ _ _ K e0 E). lia. }
  constructor; rewrite ?RR.
  - intros p l H. apply filter_In in H as [H L]. cbn in L. apply Nat.leb_le in L. split; auto. destruct (A1 p l H) as [_ [e [E1 [E2 E3]]]]. exists e. sp; auto. apply IN. left. split; auto. lia.
  - intros e E W Le. apply IN in E as [[E E1]|[e0 [E [E1 [E2 ->]]]]].
    + apply filter_In. split; [apply A2; auto; unfold r in Le; lia|]. cbn. now apply Nat.leb_le.
    + exfalso. cbn in W. apply in_split in E as [t1 [t2 T]]. destruct (sh_dec s SH t1 e0 t2 T W) as [_ [Z _]]. lia.
Qed.
Lemma as_push : forall s A p, AsOk s A -> tFree (b_trail s) p -> b_dl s = b_root s -> (forall e, In e (b_trail s) -> e_lev e <= b_dl s) -> AsOk (pushRootLevel (assume s p)) (A ++ [(p, S (b_root s))]).
Proof.
  intros s A p [A1 A2] [F1 F2] DL LV. rewrite <- isT_iff in F1. rewrite <- isF_iff in F2. apply not_true_is_false in F1, F2. unfold assume. rewrite F1, F2. cbn [orb].
  assert (R : Nat.min (S (b_dl s)) (S (b_root s)) = S (b_root s)) by lia. constructor; cbn [pushRootLevel setRoot b_root b_dl b_trail]; rewrite R.
  - intros q l H. apply in_app_or in H as [H|[H|[]]].
    + destruct (A1 q l H) as [B [e [E1 E2]]]. split; [lia|]. exists e. split; auto. apply in_or_app. auto.
    + injection H as <- <-. split; [lia|]. eexists. split; [apply in_or_app; right; left; reflexivity|]. cbn. split; auto. lia.
  - intros e H W Le. apply in_or_app. apply in_app_or in H as [H|[<-|[]]]; [left; apply A2; auto; apply LV in H; lia|right; left; cbn; rewrite DL; reflexivity].
Qed.

Section S.
Variable n : nat.
Hypothesis NV : (Z.of_nat n < varMax)%Z.

(** What a conflict on the root level means *)
Lemma all_true : forall s D G A a, Core n s D G -> Shape s -> AsOk s A -> b_dl s <= b_root s -> holds a lit_true = true -> (forall c, inDb D c -> sat_clause a c = true) ->
  (forall p l, In (p, l) A -> holds a p = true) -> forall e, In e (b_trail s) -> holds a (e_lit e) = true.
Proof.
  intros s D G A a K SH AO DL H0 HD HA e E. apply (semantic_core n s D G (b_dl s) a K HD); auto.
  - intros x X GV _. destruct GV as [W|[W|W]].
    + apply (HA _ (e_lev x)). apply (a_dec _ _ AO); auto. pose proof (k_lv _ _ _ _ K x X). lia.
    + exfalso. exact (sh_ext s SH x X W).
    + rewrite W. exact H0.
  - pose proof (k_lv _ _ _ _ K e E). pose proof (k_log _ _ _ _ K e E). lia.
Qed.
Definition at0 (a : asg) : asg := fun w => if Nat.eqb w 0 then true else a w.
Lemma at0_true : forall a, holds (at0 a) lit_true = true.
Proof. reflexivity. Qed.
Lemma at0_lit : forall a p, good_var n p -> holds (at0 a) p = holds a p.
Proof. intros a [v b] [H _]. cbn in H. unfold holds, at0. cbn. destruct v; [lia|reflexivity]. Qed.
Lemma at0_clause : forall a c, Forall (good_var n) c -> sat_clause (at0 a) c = sat_clause a c.
Proof. intros a c H. induction H; cbn; auto. unfold sat_clause in *. rewrite IHForall, at0_lit by auto. reflexivity. Qed.
Lemma at0_cnf : forall a F, (forall c, In c F -> Forall (good_var n) c) -> sat_cnf (at0 a) F = sat_cnf a F.
Proof. intros a F. induction F as [|c F IH]; cbn; auto. intros H. unfold sat_cnf in *. rewrite at0_clause, IH; auto. Qed.
Definition goodA (A : list (lit * nat)) : Prop := forall p l, In (p, l) A -> good_var n p.

Lemma conflict_unsat : forall x F A, SI n x F A -> goodA A -> b_conf (q_st x) <> None -> b_dl (q_st x) <= b_root (q_st x) -> forall a, ~ isModel a F A.
Proof.
  intros x F A [D [G [I [SH [DO AO]]]]] GA CF DL a [M1 M2]. set (s := q_st x) in *.
  assert (HD : forall c, inDb D c -> sat_clause (at0 a) c = true). { apply (o_mod _ _ _ _ DO); [reflexivity|]. rewrite at0_cnf; auto. apply (o_gvF _ _ _ _ DO). }
  assert (T : forall e, In e (b_trail s) -> holds (at0 a) (e_lit e) = true).
  { apply (all_true s D G A (at0 a) (proj1 I) SH AO DL); auto. intros p l H. rewrite at0_lit; eauto. }
  destruct (b_conf s) as [[p w]|] eqn:CE; [|congruence]. destruct (k_conf _ _ _ _ (proj1 I) p w CE) as [X|[[c0 [C1 C2]] _]].
  - subst w. exact (sh_conf s SH p CE).
  - specialize (HD c0 C1). apply existsb_exists in HD as [q [Q1 Q2]]. destruct (C2 q Q1) as [e [E1 E2]]. specialize (T e E1). rewrite E2, holds_neg, Q2 in T. discriminate.
Qed.
Lemma total_model : forall x F A, SI n x F A -> b_conf (q_st x) = None -> b_front (q_st x) = length (b_trail (q_st x)) -> hasFree n (q_st x) = false ->
  total n (q_st x) /\ isModel (modelOf (q_st x)) F A.
Proof.
  intros x F A [D [G [I [SH [DO AO]]]]] NC FR HF. set (s := q_st x) in *. pose proof (k_nd _ _ _ _ (proj1 I)) as ND.
  assert (AS : forall v, 1 <= v <= n -> tTrue (b_trail s) (v, false) \/ tTrue (b_trail s) (v, true)).
  { intros v V. destruct (isT s (v, false)) eqn:E1; [left; now apply isT_iff|]. destruct (isT s (v, true)) eqn:E2; [right; now apply isT_iff|]. exfalso.
    unfold hasFree in HF. assert (X : existsb (fun v => negb (isT s (v, false)) && negb (isT s (v, true))) (seq 1 n) = true) by (apply existsb_exists; exists v; rewrite in_seq, E1, E2; cbn; split; auto; lia). congruence. }
  assert (HM : forall p, tTrue (b_trail s) p -> holds (modelOf s) p = true).
  { intros [v b] T. unfold holds, modelOf. cbn. destruct b; cbn.
    - destruct (isT s (v, false)) eqn:X; auto. apply isT_iff in X. exfalso. exact (tt_ff (b_trail s) (v, false) ND X T).
    - rewrite (proj2 (isT_iff s (v, false)) T). reflexivity. }
  split; [|split].
  - intros v V. destruct (AS v V) as [T|T].
    + rewrite (proj2 (isT_iff s _) T). destruct (isT s (v, true)) eqn:X; auto. apply isT_iff in X. exfalso. exact (tt_ff (b_trail s) (v, false) ND T X).
    + rewrite (proj2 (isT_iff s _) T). destruct (isT s (v, false)) eqn:X; auto. apply isT_iff in X. exfalso. exact (tt_ff (b_trail s) (v, false) ND X T).
  - apply forallb_forall. intros c C. assert (IN : inDb D c). { destruct (o_in _ _ _ _ DO c C) as [H|[i [H _]]]; [now left|right; eapply nth_error_In; eauto]. }
    apply existsb_exists. destruct (quiet_of n s D G I NC FR c IN) as [[p [P1 P2]]|[p [q [P1 [_ [_ [[N1 N2] _]]]]]]]; [exists p; auto|]. exfalso.
    pose proof (o_gvF _ _ _ _ DO c C) as GV. rewrite Forall_forall in GV. specialize (GV p P1). destruct p as [v b]. unfold tFalse in N2. destruct (AS v GV) as [T|T]; destruct b; cbn in N2; auto.
  - intros p l H. destruct (a_true _ _ AO p l H) as [_ [e [E1 [E2 _]]]]. apply HM. exists e. auto.
Qed.

(** Termination measure: entries on lower levels weigh more *)
Definition wt (t : list ent) : nat := list_sum (map (fun e => Nat.pow (n + 2) (n - e_lev e)) t).
Lemma wt_app : forall t u, wt (t ++ u) = wt t + wt u.
Proof. intros t u. unfold wt. rewrite map_app, list_sum_app. reflexivity. Qed.
Lemma pw_pos : forall k, 1 <= Nat.pow (n + 2) k.
Proof. intros k. pose proof (Nat.pow_nonzero (n + 2) k ltac:(lia)). lia. Qed.
Lemma wt_le : forall t j, (forall e, In e t -> Nat.pow (n + 2) (n - e_lev e) <= j) -> wt t <= length t * j.
Proof.
  induction t as [|e t IH]; intros j H; [cbn; auto|]. specialize (IH j ltac:(intros; apply H; now right)). specialize (H e (or_introl eq_refl)). change (wt (e :: t)) with (Nat.pow (n + 2) (n - e_lev e) + wt t). cbn [length]. lia.
Qed.
Lemma wt_split : forall m t, wt t = wt (kept m t) + wt (filter (fun e => Nat.ltb m (e_lev e)) t).
Proof.
  intros m. induction t as [|e t IH]; auto. change (wt (e :: t)) with (Nat.pow (n + 2) (n - e_lev e) + wt t). rewrite IH. unfold kept. cbn [filter]. destruct (Nat.leb_spec (e_lev e) m), (Nat.ltb_spec m (e_lev e)); try lia;
    match goal with |- context [wt (e :: ?t)] => change (wt (e :: t)) with (Nat.pow (n + 2) (n - e_lev e) + wt t) end; lia.
Qed.
Lemma wt_max : forall s D G, Core n s D G -> wt (b_trail s) < Nat.pow (n + 2) (S n).
Proof.
  intros s D G K. pose proof (trail_bound n s D G K) as B. pose proof (wt_le (b_trail s) (Nat.pow (n + 2) n)) as X.
  assert (Y : forall e, In e (b_trail s) -> Nat.pow (n + 2) (n - e_lev e) <= Nat.pow (n + 2) n) by (intros; apply Nat.pow_le_mono_r; lia). specialize (X Y).
  cbn [Nat.pow]. pose proof (pw_pos n). nia.
Qed.
Lemma wt_jump : forall s D G m e, Core n s D G -> m < b_dl s -> b_dl s <= n -> e_lev e = m -> wt (b_trail s) < wt (kept m (b_trail s) ++ [e]).
Proof.
  intros s D G m e K M DL E. rewrite wt_app, (wt_split m (b_trail s)). pose proof (trail_bound n s D G K) as B.
  pose proof (wt_le (filter (fun e => Nat.ltb m (e_lev e)) (b_trail s)) (Nat.pow (n + 2) (n - S m))) as X.
  assert (Y : forall e, In e (filter (fun e => Nat.ltb m (e_lev e)) (b_trail s)) -> Nat.pow (n + 2) (n - e_lev e) <= Nat.pow (n + 2) (n - S m)).
  { intros x H. apply filter_In in H as [_ H]. apply Nat.ltb_lt in H. apply Nat.pow_le_mono_r; lia. }
  specialize (X Y). assert (Z : length (filter (fun e => Nat.ltb m (e_lev e)) (b_trail s)) <= S n).
  { eapply Nat.le_trans; [|exact B]. clear. induction (b_trail s) as [|a l IH]; cbn [filter length]; auto. destruct (Nat.ltb m (e_lev a)); cbn [length]; lia. }
  change (wt [e]) with (Nat.pow (n + 2) (n - e_lev e) + 0). rewrite E. replace (n - m) with (S (n - S m)) by lia. cbn [Nat.pow]. pose proof (pw_pos (n - S m)). nia.
Qed.

(** Propagation *)
Lemma prop_si : forall s L F A, SI n (Sv s L) F A -> b_conf s = None -> exists s' ok, propagate (S (S n)) s = (s', Some ok) /\ SI n (Sv s' L) F A /\
  b_dl s' = b_dl s /\ b_root s' = b_root s /\ wt (b_trail s) <= wt (b_trail s') /\
  (ok = true -> b_conf s' = None /\ b_front s' = length (b_trail s')) /\ (ok = false -> b_conf s' <> None).
Proof.
  intros s L F A [D [G [I [SH [DO AO]]]]] NC. cbn [q_st q_lrn] in *. destruct (propagate (S (S n)) s) as [s' r] eqn:P.
  pose proof (propagate_total n D G s I NC s' r P) as T. destruct (propagate_spec n D G _ s I NC s' r P) as [I' [P1 [[x P2] [P3 [P4 _]]]]].
  pose proof (propagate_ext (S (S n)) s) as EX. rewrite P in EX. cbn [fst] in EX.
  destruct r as [ok|]; [|congruence]. exists s', ok. split; auto. split.
  - exists D, G. sp; auto; [eapply shape_ext; eauto|eapply as_ext; eauto].
  - destruct EX as [_ [_ [EX _]]]. sp; auto; [rewrite P2, wt_app; lia|intros ->; auto|]. intros ->. apply P4; auto.
Qed.
Lemma si_fields : forall x s' L F A, SI n x F A -> (forall D G, InvG n (q_st x) D G -> Shape (q_st x) -> AsOk (q_st x) A -> InvG n s' D G /\ Shape s' /\ AsOk s' A) -> L = q_lrn x -> SI n (Sv s' L) F A.
Proof. intros x s' L F A [D [G [I [SH [DO AO]]]]] H ->. destruct (H D G I SH AO) as [X1 [X2 X3]]. exists D, G. auto. Qed.
Lemma assume_si : forall s L F A p, SI n (Sv s L) F A -> b_conf s = None -> b_front s = length (b_trail s) -> good_var n p -> isT s p = false -> isF s p = false ->
  SI n (Sv (assume s p) L) F A /\ b_conf (assume s p) = None /\ b_root (assume s p) = b_root s /\ wt (b_trail s) < wt (b_trail (assume s p)).
Proof.
  intros s L F A p H NC FR GV T1 T2. split.
  - apply (si_fields (Sv s L)); auto. cbn [q_st]. intros D G I SH AO. sp.
    + apply assume_inv; auto. apply GV.
    + eapply shape_assume; eauto. apply I.
    + unfold assume. rewrite T1, T2. eapply as_grow; eauto; [reflexivity|]. intros e [<-|[]] _. cbn. pose proof (k_root _ _ _ _ (proj1 I)). lia.
  - unfold assume. rewrite T1, T2. cbn [orb b_trail b_conf b_root]. sp; auto. rewrite wt_app. match goal with |- context [wt [?e]] => change (wt [e]) with (Nat.pow (n + 2) (n - e_lev e) + 0) end. pose proof (pw_pos (n - S (b_dl s))). cbn [e_lev]. lia.
Qed.
Lemma learn_si : forall s L F A w k, SI n (Sv s L) F A -> b_conf s <> None -> b_root s < b_dl s -> exists x', resolveConflict w k (Sv s L) = Ok (x', true) /\
  SI n x' F A /\ b_conf (q_st x') = None /\ b_root (q_st x') = b_root s /\ wt (b_trail s) < wt (b_trail (q_st x')).
Proof.
  intros s L F A w k [D [G [I [SH [DO AO]]]]] CF RT. cbn [q_st q_lrn] in *. destruct (resolve_spec n s D G I SH NV CF RT w k L) as [x' [R [[cc [D' [G' [I' [EN [GV DD]]]]]] SH' CF' RT' DL' [e [T [EL PL]]]]]].
  exists x'. sp; auto.
  - assert (IN : forall c, inDb D' c <-> inDb D c \/ c = cc).
    { intros c. unfold inDb. destruct DD as [[-> _]|[-> _]]; cbn [d_imp d_exp]; rewrite in_app_iff; cbn [In]; split.
      - intros [[H|[H|[]]]|H]; auto.
      - intros [[H|H]|H]; auto.
      - intros [H|[H|[H|[]]]]; auto. injection H as H. auto.
      - intros [[H|H]|H]; auto. subst c. auto. }
    exists D', G'. sp; auto.
    + destruct DO as [O1 O2 O3 O4 O5]. constructor; auto.
      * intros a A0 AF c C. apply IN in C as [C|C]; [eapply O1; eauto|]. subst c. apply EN. split; [auto|]. intros c0; apply O1; auto.
      * intros c C. destruct (O2 c C) as [X|[i [X Y]]].
        -- left. destruct DD as [[-> _]|[-> _]]; cbn; auto. apply in_or_app; auto.
        -- right. exists i. assert (i < length (d_exp D)) by (apply nth_error_Some; congruence). destruct DD as [[-> ->]|[-> ->]]; cbn; auto. split; [rewrite nth_error_app1; auto|]. intros [Z|Z]; [lia|contradiction].
      * intros i Z. destruct DD as [[-> E]|[-> E]]; rewrite E in Z; cbn; auto. rewrite app_length. cbn. destruct Z as [<-|Z]; [cbn; lia|apply O3 in Z; lia].
      * intros c C. apply IN in C as [C| ->]; auto.
    + eapply (as_kept s _ A (b_dl (q_st x')) [e]); eauto; [lia|]. intros e0 [<-|[]]. exact PL.
  - rewrite T. apply (wt_jump s D G); auto; [apply I|lia|]. apply (dl_bound n s D G); auto. apply I.
Qed.

Definition post (w : oracle) (fuel : nat) (t0 : list ent) (x : sv) (v : verdict) : Prop :=
  match v with
  | VTrue => b_conf (q_st x) = None /\ b_front (q_st x) = length (b_trail (q_st x)) /\ hasFree n (q_st x) = false
  | VFalse => b_conf (q_st x) <> None /\ b_dl (q_st x) <= b_root (q_st x)
  | VFree => b_conf (q_st x) = None /\ exists k s, w_limit w k s = true
  | VFuel => wt t0 + fuel < Nat.pow (n + 2) (S n)
  end.
Lemma loop_ok : forall w F A, picks n w -> forall fuel x conflict, SI n x F A ->
  (conflict = false -> b_conf (q_st x) = None /\ b_front (q_st x) = length (b_trail (q_st x))) -> (conflict = true -> b_conf (q_st x) <> None) ->
  exists x' v, loop fuel n w x conflict = Ok (x', v) /\ SI n x' F A /\ b_root (q_st x') = b_root (q_st x) /\ post w fuel (b_trail (q_st x)) x' v.
Proof.
  intros w F A PK. induction fuel as [|k IH]; intros x conflict S0 C0 C1.
  - exists x, VFuel. cbn. sp; auto. destruct S0 as [D [G [I _]]]. pose proof (wt_max (q_st x) D G (proj1 I)). cbn in *. lia.
  - assert (DEC : forall y, SI n y F A -> b_conf (q_st y) = None -> b_front (q_st y) = length (b_trail (q_st y)) -> b_root (q_st y) = b_root (q_st x) -> wt (b_trail (q_st x)) <= wt (b_trail (q_st y)) ->
      exists x' v, (let s := q_st y in if negb (hasFree n s) then Ok (y, VTrue) else if isF s (w_pick w k s) then Ok (y, VTrue) else
        match propagate (S (S n)) (assume s (w_pick w k s)) with (s', Some ok) => loop k n w (Sv s' (q_lrn y)) (negb ok) | (_, None) => UB end) = Ok (x', v) /\
        SI n x' F A /\ b_root (q_st x') = b_root (q_st x) /\ post w (S k) (b_trail (q_st x)) x' v).
    { intros y S1 NC FR RT WT. cbn zeta. destruct (hasFree n (q_st y)) eqn:HF; cbn [negb]; [|exists y, VTrue; sp; auto; cbn; auto].
      destruct (PK k (q_st y) HF) as [GV [T1 T2]]. rewrite T2. destruct y as [s L]. cbn [q_st q_lrn] in *.
      destruct (assume_si s L F A (w_pick w k s) S1 NC FR GV T1 T2) as [S2 [NC2 [RT2 WT2]]].
      destruct (prop_si _ L F A S2 NC2) as [s' [ok [P [S3 [_ [RT3 [WT3 [OK1 OK2]]]]]]]]. rewrite P.
      destruct (IH (Sv s' L) (negb ok) S3) as [x' [v [E [S4 [RT4 PO]]]]]; [destruct ok; [auto|discriminate]|destruct ok; [discriminate|auto]|].
      exists x', v. cbn [q_st] in *. sp; auto; [congruence|]. destruct v; cbn in *; auto. lia. }
    cbn [loop]. destruct conflict.
    + specialize (C1 eq_refl). clear C0. destruct x as [s L]. cbn [q_st q_lrn] in *. destruct (Nat.lt_ge_cases (b_root s) (b_dl s)) as [LT|GE].
      * destruct (learn_si s L F A w k S0 C1 LT) as [x1 [E [S1 [NC [RT WT]]]]]. rewrite E. cbn [bind].
        destruct x1 as [s1 L1]. cbn [q_st q_lrn] in *. destruct (prop_si s1 L1 F A S1 NC) as [s' [ok [P [S2 [_ [RT2 [WT2 [OK1 OK2]]]]]]]]. rewrite P. destruct ok.
        -- destruct (OK1 eq_refl) as [NC2 FR2]. rewrite NC2. cbn [q_st]. destruct (hasFree n s' && w_limit w k s') eqn:LM.
           ++ exists (Sv s' L1), VFree. cbn. sp; auto; [congruence|]. apply andb_true_iff in LM. exists k, s'. apply LM.
           ++ apply (DEC (Sv s' L1)); auto; cbn; [congruence|lia].
        -- destruct (IH (Sv s' L1) true S2) as [x' [v [E2 [S3 [RT3 PO]]]]]; [discriminate|auto|]. exists x', v. cbn [q_st] in *. sp; auto; [congruence|]. destruct v; cbn in *; auto. lia.
      * unfold resolveConflict at 1. cbn [q_st]. rewrite (proj2 (Nat.ltb_ge _ _) GE). cbn [bind q_st]. destruct (b_conf s) as [cf|] eqn:CE; [|congruence]. exists (Sv s L), VFalse. cbn. rewrite CE. sp; auto; congruence.
    + destruct (C0 eq_refl) as [NC FR]. apply (DEC x); auto.
Qed.
Lemma search_ok : forall w F A fuel x, picks n w -> SI n x F A -> exists x' v, search fuel n w x = Ok (x', v) /\ SI n x' F A /\ b_root (q_st x') = b_root (q_st x) /\ post w fuel [] x' v.
Proof.
  intros w F A fuel x PK S0. unfold search. destruct (b_conf (q_st x)) eqn:CE.
  - destruct (loop_ok w F A PK fuel x true S0) as [x' [v [E [S1 [R PO]]]]]; [discriminate|congruence|]. exists x', v. sp; auto. destruct v; cbn in *; auto. lia.
  - destruct x as [s L]. cbn [q_st q_lrn] in *. destruct (prop_si s L F A S0 CE) as [s' [ok [P [S2 [_ [RT2 [WT2 [OK1 OK2]]]]]]]]. rewrite P.
    destruct (loop_ok w F A PK fuel (Sv s' L) (negb ok) S2) as [x' [v [E [S1 [R PO]]]]]; [destruct ok; [auto|discriminate]|destruct ok; [discriminate|auto]|].
    exists x', v. cbn [q_st] in *. sp; auto; [congruence|]. destruct v; cbn in *; auto. lia.
Qed.
End S.
