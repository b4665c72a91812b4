(** C20: search under assumptions. *)
From Coq Require Import List Bool Arith ZArith Lia.
From Verif Require Import Base ClModel ClSpec ClProofs BpModel BpSpec BpProofs BpProofs2 BpProofs3 BpProofs4 BpProofs5 CaModel CaSpec SeModel SeSpec SeProofs SeProofs2 SeProofs3 SeProofs4 SeProofs5.
Import ListNotations.

(** Searching, solving with restarts and reductions, and pushing assumptions never run into undefined behaviour, whatever
    the heuristics, limits and strategies do. *)
Theorem c20_no_error : forall n x F A w, (Z.of_nat n < varMax)%Z -> sess n x F A -> picks n w ->
  (forall fuel, exists x' v, search fuel n w x = Ok (x', v)) /\
  (forall rounds fuel, exists x' v, solve rounds fuel n w x = Ok (x', v)) /\
  (forall p, good_var n p -> exists x' ok, pushRoot n x p = Ok (x', ok)).
Proof.
  intros n x F A w NV H PK. destruct (sess_ok n NV x F A H) as [S [B GA]]. split; [|split].
  - intros fuel. destruct (search_ok n NV w F A fuel x PK S) as [x' [v [E _]]]. eauto.
  - intros rounds fuel. destruct (solve_ok n NV w F A fuel PK rounds x S) as [x' [v [E _]]]. eauto.
  - intros p GV. destruct (push_si n x F A p S B GV GA) as [x' [ok [E _]]]. eauto.
Qed.
Print Assumptions c20_no_error.

(** Every search ends after boundedly many decisions and conflicts, independently of everything but the number of variables. *)
Theorem c20_terminates : forall n x F A w fuel, (Z.of_nat n < varMax)%Z -> sess n x F A -> picks n w -> bound n <= fuel ->
  (forall x' v, search fuel n w x = Ok (x', v) -> v <> VFuel) /\ (forall rounds x' v, solve rounds fuel n w x = Ok (x', v) -> v <> VFuel).
Proof.
  intros n x F A w fuel NV H PK BF. destruct (sess_ok n NV x F A H) as [S [B GA]]. unfold bound in BF. split.
  - intros x' v E ->. destruct (search_ok n NV w F A fuel x PK S) as [y [u [E' [_ [_ P]]]]]. rewrite E in E'. injection E' as <- <-. unfold post in P. lia.
  - intros rounds x' v E ->. destruct (solve_ok n NV w F A fuel PK rounds x S) as [y [u [E' [_ [_ [[Z _]|[_ P]]]]]]]; rewrite E in E'; injection E' as <- <-; [discriminate|]. unfold post in P. lia.
Qed.
Print Assumptions c20_terminates.

(** The answer true comes with a total assignment that satisfies all clauses and all assumptions. *)
Theorem c20_sat : forall n x F A w fuel x', (Z.of_nat n < varMax)%Z -> sess n x F A -> picks n w ->
  search fuel n w x = Ok (x', VTrue) \/ (exists rounds, solve rounds fuel n w x = Ok (x', VTrue)) ->
  total n (q_st x') /\ isModel (modelOf (q_st x')) F A.
Proof.
  intros n x F A w fuel x' NV H PK E. destruct (sess_ok n NV x F A H) as [S [B GA]].
  assert (SI n x' F A /\ post n w fuel [] x' VTrue) as [S' [P1 [P2 P3]]].
  { destruct E as [E|[rounds E]].
    - destruct (search_ok n NV w F A fuel x PK S) as [y [u [E' [S' [_ P]]]]]. rewrite E in E'. injection E' as <- <-. auto.
    - destruct (solve_ok n NV w F A fuel PK rounds x S) as [y [u [E' [S' [_ [[Z _]|[_ P]]]]]]]; rewrite E in E'; injection E' as <- <-; [discriminate|auto]. }
  apply total_model; auto.
Qed.
Print Assumptions c20_sat.

(** The answer false means that no assignment satisfies all clauses and all assumptions. *)
Theorem c20_unsat : forall n x F A w fuel x', (Z.of_nat n < varMax)%Z -> sess n x F A -> picks n w ->
  search fuel n w x = Ok (x', VFalse) \/ (exists rounds, solve rounds fuel n w x = Ok (x', VFalse)) -> forall a, ~ isModel a F A.
Proof.
  intros n x F A w fuel x' NV H PK E. destruct (sess_ok n NV x F A H) as [S [B GA]].
  assert (SI n x' F A /\ post n w fuel [] x' VFalse) as [S' [P1 P2]].
  { destruct E as [E|[rounds E]].
    - destruct (search_ok n NV w F A fuel x PK S) as [y [u [E' [S' [_ P]]]]]. rewrite E in E'. injection E' as <- <-. auto.
    - destruct (solve_ok n NV w F A fuel PK rounds x S) as [y [u [E' [S' [_ [[Z _]|[_ P]]]]]]]; rewrite E in E'; injection E' as <- <-; [discriminate|auto]. }
  intros a. apply (conflict_unsat n x'); auto.
Qed.
Print Assumptions c20_unsat.

(** Without limits a search decides whether there is a solution under the assumptions. *)
Theorem c20_decides : forall n x F A w fuel, (Z.of_nat n < varMax)%Z -> sess n x F A -> picks n w -> unlimited w -> bound n <= fuel ->
  ((exists a, isModel a F A) <-> exists x', search fuel n w x = Ok (x', VTrue)) /\ ((forall a, ~ isModel a F A) <-> exists x', search fuel n w x = Ok (x', VFalse)).
Proof.
  intros n x F A w fuel NV H PK UL BF. pose proof (proj1 (c20_terminates n x F A w fuel NV H PK BF)) as T.
  destruct (sess_ok n NV x F A H) as [S [B GA]]. destruct (search_ok n NV w F A fuel x PK S) as [y [u [E [_ [_ P]]]]].
  pose proof (c20_sat n x F A w fuel y NV H PK) as ST. pose proof (c20_unsat n x F A w fuel y NV H PK) as US. rewrite E in ST, US. rewrite E. destruct u.
  - destruct (ST (or_introl eq_refl)) as [_ M]. split; split; eauto; [intros Z; exfalso; exact (Z _ M)|intros [x' Z]; discriminate].
  - specialize (US (or_introl eq_refl)). split; split; eauto; [intros [a M]; exfalso; exact (US a M)|intros [x' Z]; discriminate].
  - destruct P as [_ [k [s L]]]. rewrite UL in L. discriminate.
  - exfalso. exact (T y VFuel E eq_refl).
Qed.
Print Assumptions c20_decides.

(** Assumptions stay true until they are popped, whatever happens in between. *)
Theorem c20_assumptions_hold : forall n x F A p l, (Z.of_nat n < varMax)%Z -> sess n x F A -> In (p, l) A -> isT (q_st x) p = true /\ l <= b_root (q_st x).
Proof.
  intros n x F A p l NV H I. destruct (sess_ok n NV x F A H) as [[D [G [_ [_ [_ AO]]]]] _]. destruct (a_true _ _ AO p l I) as [R [e [E1 [E2 _]]]]. split; auto. apply isT_iff. exists e. auto.
Qed.
Print Assumptions c20_assumptions_hold.

(** An assumption is only refused if it contradicts the clauses and the assumptions before it. *)
Theorem c20_push_refused : forall n x F A p x', (Z.of_nat n < varMax)%Z -> sess n x F A -> good_var n p -> pushRoot n x p = Ok (x', false) ->
  forall a, isModel a F A -> holds a p = false.
Proof.
  intros n x F A p x' NV H GV E. destruct (sess_ok n NV x F A H) as [S [B GA]]. destruct (push_si n x F A p S B GV GA) as [y [o [E' [_ [_ [_ P]]]]]]. rewrite E in E'. injection E' as <- <-. auto.
Qed.
Print Assumptions c20_push_refused.
(** Searching keeps the root level; pushing an assumption adds at most one root level and, if accepted, makes the assumption true; popping removes
    exactly the given number of levels and all decisions above. *)
Theorem c20_levels : forall n x F A, (Z.of_nat n < varMax)%Z -> sess n x F A ->
  (forall w fuel x' v, picks n w -> search fuel n w x = Ok (x', v) -> b_root (q_st x') = b_root (q_st x)) /\
  (forall w rounds fuel x' v, picks n w -> solve rounds fuel n w x = Ok (x', v) -> b_root (q_st x') = b_root (q_st x)) /\
  (forall p x' ok, good_var n p -> pushRoot n x p = Ok (x', ok) -> (b_root (q_st x') = b_root (q_st x) \/ b_root (q_st x') = S (b_root (q_st x))) /\ (ok = true -> isT (q_st x') p = true)) /\
  (forall k, b_root (q_st (popRoot x k)) = b_root (q_st x) - k /\ b_dl (q_st (popRoot x k)) = b_root (q_st x) - k).
Proof.
  intros n x F A NV H. destruct (sess_ok n NV x F A H) as [S [B GA]]. repeat split.
  - intros w fuel x' v PK E. destruct (search_ok n NV w F A fuel x PK S) as [y [u [E' [_ [R _]]]]]. rewrite E in E'. injection E' as <- <-. auto.
  - intros w rounds fuel x' v PK E. destruct (solve_ok n NV w F A fuel PK rounds x S) as [y [u [E' [_ [R _]]]]]. rewrite E in E'. injection E' as <- <-. auto.
  - destruct (push_si n x F A p S B H0 GA) as [y [o [E' [_ [_ [R _]]]]]]. rewrite H1 in E'. injection E' as <- <-. auto.
  - intros ->. destruct (push_si n x F A p S B H0 GA) as [y [o [E' [S' _]]]]. rewrite H1 in E'. injection E' as <- <-. cbn [orb] in S'. destruct S' as [D [G [_ [_ [_ AO]]]]].
    destruct (a_true _ _ AO p (b_root (q_st x'))) as [_ [e [E1 [E2 _]]]]; [apply in_or_app; right; now left|]. apply isT_iff. exists e. auto.
  - cbn [popRoot q_st]. rewrite pop_root. lia.
  - cbn [popRoot q_st]. destruct S as [D [G [I _]]]. rewrite (pop_dl n _ D G k (proj1 I)). lia.
Qed.
Print Assumptions c20_levels.

(** A conflict with assumptions yields a core: assumptions that cannot hold together. *)
Theorem c20_core : forall n x F A, (Z.of_nat n < varMax)%Z -> sess n x F A -> b_conf (q_st x) <> None -> 0 < b_root (q_st x) ->
  exists c, coreOf x = Ok c /\ NoDup c /\ (forall p, In p c -> exists l, In (p, l) A) /\ forall a, sat_cnf a F = true -> exists p, In p c /\ holds a p = false.
Proof.
  intros n x F A NV H CF R. destruct (sess_ok n NV x F A H) as [S [B GA]]. apply (core_ok n x F A S GA CF (B CF)).
  destruct S as [D [G [I _]]]. pose proof (k_root _ _ _ _ (proj1 I)). lia.
Qed.
Print Assumptions c20_core.
(** On level 0 a conflict means that the clauses have no model. *)
Theorem c20_top_conflict : forall n x F A, (Z.of_nat n < varMax)%Z -> sess n x F A -> b_conf (q_st x) <> None -> b_root (q_st x) = 0 -> forall a, sat_cnf a F = false.
Proof.
  intros n x F A NV H CF R a. destruct (sess_ok n NV x F A H) as [S [B GA]]. destruct (sat_cnf a F) eqn:E; auto. exfalso.
  set (a0 := fun v => match v with 0 => true | _ => a v end).
  destruct S as [D [G [I [SH [DO AO]]]]]. apply (conflict_unsat n x F [] ) with a; auto; [|intros p l []|split; [auto|intros p l []]].
  exists D, G. split; auto. split; auto. split; auto. constructor; [intros p l []|]. intros e E1 E2 E3. exfalso. apply in_split in E1 as [t1 [t2 T]]. destruct (sh_dec _ SH t1 e t2 T E2). lia.
Qed.
Print Assumptions c20_top_conflict.

(** All clauses the solver stores, and all literals it has assigned on level 0, follow from the clauses that were added: learning, assumptions and
    backjumping add nothing to the problem. *)
Theorem c20_stored : forall n x F A a, (Z.of_nat n < varMax)%Z -> sess n x F A -> holds a lit_true = true -> sat_cnf a F = true ->
  (forall c, stored (q_st x) c -> sat_clause a c = true) /\ (forall e, In e (b_trail (q_st x)) -> e_lev e = 0 -> holds a (e_lit e) = true).
Proof.
  intros n x F A a NV H A0 SF. destruct (sess_ok n NV x F A H) as [[D [G [I [SH [DO AO]]]]] _]. set (s := q_st x) in *.
  assert (GA : GM D a) by (split; auto; apply (o_mod _ _ _ _ DO); auto). pose proof (bridge_arcs n s D G I SH) as AR. split.
  - intros c [[i [d [C ->]]]|[[p [q [Q ->]]]|[p [q [r [Q ->]]]]]].
    + destruct (k_rep _ _ _ _ (proj1 I) i d C) as [W [c0 [E1 [_ SB]]]].
      assert (IN : inDb D c0) by (right; eapply nth_error_In; eauto). pose proof (proj2 GA c0 IN) as S. apply existsb_exists in S as [y [Y1 Y2]].
      destruct (SB y Y1) as [Y|Y]; [|exfalso; apply (gm_zf n s D G I SH a y GA) in Y; congruence].
      apply existsb_exists. exists y. split; auto. destruct (lit_eq_dec y (h0 d)) as [-> |N]; [now left|right]. apply (others_in d false y W). auto.
    + destruct (AR p [q]) as [_ X]; [left; cbn; apply in_or_app; left; apply in_map_iff; exists q; auto|]. unfold sat_clause. cbn.
      destruct (X a GA) as [Y|[y [[<-|[]] Y]]]; rewrite Y; auto. now rewrite orb_true_r.
    + destruct (AR p [q; r]) as [_ X]; [left; cbn; apply in_or_app; right; apply in_map_iff; exists (q, r); auto|]. unfold sat_clause. cbn.
      destruct (X a GA) as [Y|[y [[<-|[<-|[]]] Y]]]; rewrite Y; rewrite ?orb_true_r; auto.
  - intros e E L. apply (gm_zero n s D G I SH a e GA E). pose proof (k_log _ _ _ _ (proj1 I) e E). lia.
Qed.
Print Assumptions c20_stored.

(** A session: five variables; decisions try the first free variable, false first. *)
Definition freeVar (s : st) (v : nat) : bool := negb (isT s (v, false)) && negb (isT s (v, true)).
Definition exW (lim : bool) : oracle := Oracle (fun k _ => Opt 0 (Nat.even k) (Nat.modulo k 3) (Nat.modulo k 4) 0 lit_true) (fun k _ => Nat.even k) (fun _ _ => false)
  (fun _ s => match find (freeVar s) (seq 1 5) with Some v => (v, true) | None => lit_true end)
  (fun _ _ => lim) (fun _ _ => true) (fun _ _ => [1; 2; 3]).
Lemma exW_picks : forall lim, picks 5 (exW lim).
Proof.
  intros lim k s H. apply existsb_exists in H as [v [V1 V2]]. unfold exW. cbn [w_pick].
  destruct (find (freeVar s) (seq 1 5)) as [u|] eqn:E; [|exfalso; apply (find_none _ _ E v) in V1; unfold freeVar in V1; congruence].
  apply find_some in E as [E1 E2]. apply in_seq in E1. unfold freeVar in E2. apply andb_true_iff in E2 as [E2 E3]. apply negb_true_iff in E2, E3. unfold good_var, isF. cbn [neg fst snd negb]. repeat split; auto; lia.
Qed.
Definition P (v : nat) : lit := (v, false).
Definition M (v : nat) : lit := (v, true).
Definition exF : list clause := [[P 1; P 2; P 3]; [P 1; P 2; M 3]; [P 1; M 2; P 4]; [P 1; M 2; M 4]; [P 5; M 1; P 2; P 3; M 4; P 1]; [M 1; P 2; P 3; P 5]].
Definition stepAdd (x : sv) (c : clause) : sv := fst (addClause x (Flags true false false 0 0) c).
Definition ex1 : sv := fold_left stepAdd exF (Sv init []).
Definition pushed (x : sv) (p : lit) : sv := match pushRoot 5 x p with Ok (x', _) => x' | _ => x end.
Definition searched (fuel : nat) (x : sv) : sv := match search fuel 5 (exW false) x with Ok (x', _) => x' | _ => x end.
Definition ex2 : sv := pushed (pushed ex1 (M 5)) (M 1).
Definition ex3 : sv := searched 100 ex2.
Definition ex4 : sv := popRoot ex3 1.
Definition ex5 : sv := searched 100 ex4.
Lemma add_many : forall n F2 x F A, sess n x F A -> forallb (fun c => forallb (fun p => Nat.ltb 0 (fst p) && Nat.leb (fst p) n) c) F2 = true ->
  forallb (fun k => match b_conf (q_st (fold_left stepAdd (firstn k F2) x)) with None => Nat.eqb (b_dl (q_st (fold_left stepAdd (firstn k F2) x))) 0 | _ => false end) (seq 0 (length F2)) = true ->
  sess n (fold_left stepAdd F2 x) (F ++ F2) A.
Proof.
  intros n. induction F2 as [|c F2 IH]; intros x F A H GV OK; cbn [fold_left]; [rewrite app_nil_r; auto|].
  cbn [forallb] in GV. apply andb_true_iff in GV as [G1 G2]. cbn [length seq forallb firstn fold_left] in OK. apply andb_true_iff in OK as [O1 O2].
  destruct (b_conf (q_st x)) eqn:NC; [discriminate|]. apply Nat.eqb_eq in O1. replace (F ++ c :: F2) with ((F ++ [c]) ++ F2) by (rewrite <- app_assoc; reflexivity). apply IH; auto.
  - apply s_add; auto. apply Forall_forall. intros p Hp. rewrite forallb_forall in G1. specialize (G1 p Hp). apply andb_true_iff in G1 as [X Y]. apply Nat.ltb_lt in X. apply Nat.leb_le in Y. split; auto.
  - rewrite <- seq_shift in O2. rewrite forallb_forall in *. intros k K. apply (O2 (S k)). apply in_map. auto.
Qed.
Lemma ex1_sess : sess 5 ex1 exF [].
Proof. apply (add_many 5 exF (Sv init []) [] []); [apply s_init|vm_compute; reflexivity|vm_compute; reflexivity]. Qed.
Definition isOk (r : res (sv * bool)) : bool := match r with Ok (_, true) => true | _ => false end.
Lemma push_sess : forall x F A p, sess 5 x F A -> good_var 5 p -> isOk (pushRoot 5 x p) = true -> sess 5 (pushed x p) F (A ++ [(p, b_root (q_st (pushed x p)))]).
Proof.
  intros x F A p H GV OK. unfold pushed. destruct (pushRoot 5 x p) as [[x' ok]| |] eqn:E; try discriminate. destruct ok; [|discriminate]. exact (s_push 5 x F A p x' true H GV E).
Qed.
Definition vIs (r : res (sv * verdict)) (v : verdict) : bool := match r with Ok (_, VTrue) => match v with VTrue => true | _ => false end | Ok (_, VFalse) => match v with VFalse => true | _ => false end | _ => false end.
Lemma search_sess : forall fuel x F A v, sess 5 x F A -> vIs (search fuel 5 (exW false) x) v = true -> sess 5 (searched fuel x) F A /\ search fuel 5 (exW false) x = Ok (searched fuel x, v).
Proof.
  intros fuel x F A v H OK. unfold searched. destruct (search fuel 5 (exW false) x) as [[x' u]| |] eqn:E; try discriminate.
  split; [apply (s_search 5 x F A fuel (exW false) x' u H (exW_picks false) E); destruct u; cbn in OK; discriminate|]. destruct u, v; cbn in OK; auto; discriminate.
Qed.
Lemma ex2_sess : sess 5 ex2 exF [(M 5, 1); (M 1, 2)].
Proof.
  assert (X : b_root (q_st (pushed ex1 (M 5))) = 1) by (vm_compute; reflexivity). assert (Y : b_root (q_st (pushed (pushed ex1 (M 5)) (M 1))) = 2) by (vm_compute; reflexivity).
  assert (S1 : sess 5 (pushed ex1 (M 5)) exF [(M 5, 1)]). { rewrite <- X. apply (push_sess ex1 exF [] (M 5) ex1_sess); [split; cbn; lia|vm_compute; reflexivity]. }
  unfold ex2. rewrite <- Y. apply (push_sess _ exF [(M 5, 1)] (M 1) S1); [split; cbn; lia|vm_compute; reflexivity].
Qed.
Lemma ex3_sess : sess 5 ex3 exF [(M 5, 1); (M 1, 2)] /\ search 100 5 (exW false) ex2 = Ok (ex3, VFalse).
Proof. apply search_sess; [apply ex2_sess|vm_compute; reflexivity]. Qed.
Lemma ex4_sess : sess 5 ex4 exF [(M 5, 1)].
Proof. assert (X : b_root (q_st ex3) = 2) by (vm_compute; reflexivity). pose proof (s_pop 5 ex3 exF _ 1 (proj1 ex3_sess)) as H. fold ex4 in H. rewrite X in H. exact H. Qed.
Lemma ex5_sess : sess 5 ex5 exF [(M 5, 1)] /\ search 100 5 (exW false) ex4 = Ok (ex5, VTrue).
Proof. apply search_sess; [apply ex4_sess|vm_compute; reflexivity]. Qed.
(** Under the assumptions that 5 and 1 are false there is no solution, due to the second; after taking it back there is one, found with what was learnt before. *)
Example c20_session_nonvacuous : (Z.of_nat 5 < varMax)%Z /\ sess 5 ex2 exF [(M 5, 1); (M 1, 2)] /\ search 100 5 (exW false) ex2 = Ok (ex3, VFalse) /\
  coreOf ex3 = Ok [M 1] /\ b_root (q_st ex3) = 2 /\ sess 5 ex4 exF [(M 5, 1)] /\ search 100 5 (exW false) ex4 = Ok (ex5, VTrue) /\ map (modelOf (q_st ex5)) [1; 2; 3; 4; 5] = [true; false; true; false; false].
Proof.
  split; [reflexivity|]. split; [exact ex2_sess|]. split; [exact (proj2 ex3_sess)|]. split; [vm_compute; reflexivity|]. split; [vm_compute; reflexivity|]. split; [exact ex4_sess|]. split; [exact (proj2 ex5_sess)|]. vm_compute. reflexivity.
Qed.
Example c20_unlimited_nonvacuous : unlimited (exW false) /\ picks 5 (exW false) /\ ~ unlimited (exW true).
Proof. split; [intros k s; reflexivity|split; [apply exW_picks|]]. intros H. specialize (H 0 init). discriminate. Qed.
(** A heuristic that returns a false literal makes the search stop with the answer true although variables are free; the next
    clauses have no solution. *)
Definition badW : oracle := Oracle (w_opt (exW false)) (w_expl (exW false)) (w_shared (exW false)) (fun _ _ => M 1) (w_limit (exW false)) (w_restart (exW false)) (w_reduce (exW false)).
Definition badF : list clause := [[P 1]; [P 2; P 3]; [P 2; M 3]; [M 2; P 3]; [M 2; M 3]].
Theorem c20_false_decision_refuted : exists x x', sess 5 x badF [] /\ (forall a, ~ isModel a badF []) /\ search 100 5 badW x = Ok (x', VTrue).
Proof.
  exists (fold_left stepAdd badF (Sv init [])). eexists. split; [|split; [|vm_compute; reflexivity]].
  - apply (add_many 5 badF (Sv init []) [] []); [apply s_init|vm_compute; reflexivity|vm_compute; reflexivity].
  - intros a [H _]. unfold sat_cnf, badF, sat_clause, holds in H. cbn in H. destruct (a 1), (a 2), (a 3); discriminate.
Qed.
Print Assumptions c20_false_decision_refuted.
