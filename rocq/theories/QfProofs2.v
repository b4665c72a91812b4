From Coq Require Import List Bool Arith ZArith Lia Permutation.
From Verif Require Import Base ClModel ClSpec ClProofs BpModel BpSpec BpProofs BpProofs2 BpProofs3 BpProofs4 BpProofs5 CaModel CaSpec SeModel SeSpec SeProofs SeProofs2 SeProofs3 SeProofs4 SeProofs5 EnModel EnProofs EnProofs2 QfModel QfSpec QfProofs.
Import ListNotations.

Section S.
Variable n : nat.
Hypothesis NV : (Z.of_nat n < varMax)%Z.

(** * Levels *)
Lemma low_true : forall x F A a L, SI n x F A -> goodA n A -> L <= b_root (q_st x) -> holds a lit_true = true -> sat_cnf a F = true -> (forall p l, In (p, l) A -> l <= L -> holds a p = true) ->
  forall p, isT (q_st x) p = true -> lev (q_st x) p <= L -> holds a p = true.
Proof.
  intros x F A a L [D [G [I [SH [DO AO]]]]] GA LR H0 HF HA p T LV. apply isT_iff in T as [e [E1 E2]].
  rewrite (lev_in n (q_st x) D G (proj1 I) e p E1) in LV by (unfold litOf; rewrite E2; reflexivity). rewrite <- E2.
  apply (semantic_core n (q_st x) D G L a (proj1 I)); auto; [apply (o_mod _ _ _ _ DO); auto| |pose proof (k_log _ _ _ _ (proj1 I) e E1); lia].
  intros y Y GV LX. destruct GV as [Wh|[Wh|Wh]].
  - destruct (in_split _ _ Y) as [t1 [t2 T]]. destruct (sh_dec _ SH t1 y t2 T Wh) as [_ [Z _]]. apply (HA _ (e_lev y)); [|lia]. apply (a_dec _ _ AO); auto. lia.
  - exfalso. exact (sh_ext _ SH y Y Wh).
  - rewrite Wh. exact H0.
Qed.
Lemma lev_dl : forall x F A p, SI n x F A -> isT (q_st x) p = true -> lev (q_st x) p <= b_dl (q_st x).
Proof.
  intros x F A p [D [G [I _]]] T. apply isT_iff in T as [e [E1 E2]]. rewrite (lev_in n (q_st x) D G (proj1 I) e p E1) by (unfold litOf; rewrite E2; reflexivity). apply (k_lv _ _ _ _ (proj1 I) e E1).
Qed.
Lemma lev_neg : forall s p, lev s (neg p) = lev s p.
Proof. intros s [v b]. reflexivity. Qed.
Lemma sent_true : forall x F A, SI n x F A -> isT (q_st x) lit_true = true /\ isT (q_st x) lit_false = false /\ lev (q_st x) lit_true = 0.
Proof.
  intros x F A [D [G [I _]]]. pose proof (k_sent _ _ _ _ (proj1 I)) as SN.
  assert (T : tr (b_trail (q_st x)) lit_true 0) by (apply sent_tr; auto). sp.
  - apply isT_iff. eapply tr_true; eauto.
  - destruct (isT (q_st x) lit_false) eqn:E; auto. exfalso. apply isT_iff in E. apply (tt_ff (b_trail (q_st x)) lit_true (k_nd _ _ _ _ (proj1 I))); [eapply tr_true; eauto|exact E].
  - destruct SN as [e [E1 [E2 [E3 E4]]]]. rewrite (lev_in n (q_st x) D G (proj1 I) e lit_true E1); auto. unfold litOf. rewrite E2. reflexivity.
Qed.
Lemma fr_var : forall x F A p, SI n x F A -> isFr (q_st x) p = true -> fst p <> 0.
Proof.
  intros x F A [v b] H E V. cbn in V. subst v. destruct (sent_true x F A H) as [T1 [T2 _]]. unfold isFr, isF, neg in E. unfold lit_true, lit_false in *. destruct b; cbn in *; rewrite ?T1, ?T2 in E; discriminate.
Qed.

(** * No errors: assumptions change, but the session goes on *)
Definition Weak (F : list clause) (x : sv) (f : qf) : Prop :=
  (exists A, SI n x F A /\ goodA n A) /\ bnd x /\ (sentinel (f_q f) = true \/ good_var n (f_q f)) /\ (forall p, In p (f_open f) -> fst p <= n).
Lemma updOpen_in : forall k s m done l m' l', updOpen k s m done l = (m', l') -> forall p, In p l' -> In p done \/ In p l /\ isFr s p = true.
Proof.
  induction k as [|k IH]; intros s m done l m' l' E p P; cbn [updOpen] in E; [injection E as <- <-; auto|]. destruct l as [|q r]; [injection E as <- <-; auto|].
  destruct (isFr s q && isOpen m q) eqn:X.
  - destruct (IH _ _ _ _ _ _ E p P) as [Q|[Q1 Q2]]; [|right; split; auto; now right]. apply in_app_or in Q as [Q|[<- |[]]]; auto. apply andb_true_iff in X as [X _]. right. split; auto. now left.
  - destruct (IH _ _ _ _ _ _ E p P) as [Q|[Q1 Q2]]; auto. right. split; auto. right. destruct r; [destruct Q1|]. apply rot_in in Q1; [auto|discriminate].
Qed.
Lemma updateOpen_in : forall s f p, In p (f_open (updateOpen s f)) -> In p (f_open f) /\ isFr s p = true.
Proof. intros s f p. unfold updateOpen. destruct (updOpen _ _ _ _ _) as [m l] eqn:E. cbn. intros P. destruct (updOpen_in _ _ _ _ _ _ _ E p P) as [[]|Q]; auto. Qed.
Lemma initUpper_in : forall s l m j m' l', fold_left (fun '(m, j) p => if isT s p then if Nat.eqb (lev s p) 0 then (fix_ m p, j) else (push m p, j ++ [p]) else (m, j)) l (m, j) = (m', l') -> forall p, In p l' -> In p j \/ In p l.
Proof.
  induction l as [|q l IH]; intros m j m' l' E p P; cbn [fold_left] in E; [injection E as <- <-; auto|]. destruct (isT s q); [destruct (Nat.eqb (lev s q) 0)|];
    destruct (IH _ _ _ _ E p P) as [Q|Q]; auto; try (right; now right). apply in_app_or in Q as [Q|[<- |[]]]; [auto|right; now left].
Qed.
Lemma updateUpper_in : forall s root l m j m' l', fold_left (fun '(m, j) p => if isOpen m p then
      if negb (isT s p) then (pop m p, j) else if Nat.ltb (lev s p) root then (fix_ m p, j) else (m, j ++ [p])
    else (m, j)) l (m, j) = (m', l') -> forall p, In p l' -> In p j \/ In p l.
Proof.
  induction l as [|q l IH]; intros m j m' l' E p P; cbn [fold_left] in E; [injection E as <- <-; auto|]. destruct (isOpen m q); [destruct (negb (isT s q)); [|destruct (Nat.ltb (lev s q) root)]|];
    destruct (IH _ _ _ _ E p P) as [Q|Q]; auto; try (right; now right). apply in_app_or in Q as [Q|[<- |[]]]; [auto|right; now left].
Qed.
Lemma commit_in : forall s f, f_q (commitModel s f) = f_q f /\ forall p, In p (f_open (commitModel s f)) -> In p (f_open f).
Proof.
  intros s f. unfold commitModel. destruct (sentinel (f_q f)).
  - unfold initUpper. destruct (fold_left _ _ _) as [m l] eqn:E. cbn. split; auto. intros p P. destruct (initUpper_in _ _ _ _ _ _ E p P) as [[]|Q]; auto.
  - unfold updateUpper. destruct (fold_left _ _ _) as [m l] eqn:E. cbn. split; auto. intros p P. destruct (updateUpper_in _ _ _ _ _ _ _ E p P) as [[]|Q]; auto.
Qed.
Lemma weak_pop : forall F x A k, SI n x F A -> goodA n A -> exists A', SI n (popRoot x k) F A' /\ goodA n A'.
Proof. intros F x A k H GA. destruct (pop_si n x F A k H) as [P _]. eexists. split; [exact P|]. intros p l Q. apply filter_In in Q as [Q _]. eapply GA; eauto. Qed.
Lemma popQuery_k : forall x f, exists k, popQuery x f = popRoot x k.
Proof. intros x f. unfold popQuery. destruct (_ && _); eauto. Qed.
Lemma pop_clean : forall x k F A, SI n x F A -> bnd (popRoot x k) /\ b_dl (q_st (popRoot x k)) = b_root (q_st (popRoot x k)).
Proof. intros x k F A H. destruct (pop_si n x F A k H) as [_ B]. split; auto. destruct H as [D [G [I _]]]. cbn [popRoot q_st]. rewrite pop_root, (pop_dl n _ D G); auto. apply I. Qed.

Lemma weak_update : forall F pre h x f, selects h -> Weak F x f -> exists r, doUpdate pre h n x f = Ok r /\ forall x' f' e, r = Cont x' f' e -> Weak F x' f'.
Proof.
  intros F pre h x f SEL [[A [S0 GA]] [B0 [Q0 O0]]]. unfold doUpdate. set (newQ := negb (isOpen (f_m f) (f_q f))).
  destruct (newQ || isFr (q_st x) (f_q f)) eqn:NF; [|eexists; split; [reflexivity|]; intros x' f' e [= <- <- <-]; unfold Weak; sp; eauto].
  destruct (popQuery_k x f) as [k ->]. destruct (weak_pop F x A k S0 GA) as [A1 [S1 GA1]]. destruct (pop_clean x k F A S0) as [B1 DL1]. set (x1 := popRoot x k) in *.
  destruct (b_conf (q_st x1)) as [cf|] eqn:CF. { eexists. split; [reflexivity|]. intros x' f' e [= <- <- <-]. unfold Weak. sp; eauto. }
  assert (GO : forall x2 A2 f2, SI n x2 F A2 -> goodA n A2 -> bnd x2 -> good_var n (f_q f2) -> (forall p, In p (f_open f2) -> fst p <= n) ->
    exists r, (do '(x', _) <- pushRoot n x2 (neg (f_q f2)); Ok (Cont x' f2 [EPush (Nat.ltb (b_root (q_st x2)) (b_root (q_st x')))])) = Ok r /\ forall x' f' e, r = Cont x' f' e -> Weak F x' f').
  { intros x2 A2 f2 S2 GA2 B2 GV OP. destruct (push_si n x2 F A2 (neg (f_q f2)) S2 B2 GV GA2) as [x3 [ok [E [S3 [B3 _]]]]]. rewrite E. cbn [bind]. eexists. split; [reflexivity|]. intros x' f' e [= <- <- <-].
    unfold Weak. sp; auto. eexists. split; [exact S3|]. destruct (ok || _); auto. intros p l P. apply in_app_or in P as [P|[P|[]]]; [eapply GA2; eauto|]. injection P as <- _. exact GV. }
  destruct newQ eqn:NQ.
  - assert (ALL : exists x2 ok, (if pre then match propagate (S (S n)) (q_st x1) with (s, Some ok) => Ok (Sv s (q_lrn x1), ok) | (_, None) => UB end else Ok (x1, true)) = Ok (x2, ok) /\ SI n x2 F A1 /\ bnd x2).
    { destruct pre; [|exists x1, true; sp; auto]. destruct x1 as [s1 L1] eqn:X1. cbn [q_st q_lrn] in *. destruct (prop_si n s1 L1 F A1 S1 CF) as [s2 [ok [P [S2 [D2 [R2 [_ [OK1 OK2]]]]]]]]. rewrite P. exists (Sv s2 L1), ok. sp; auto. intros _. cbn. lia. }
    destruct ALL as [x2 [ok [E [S2 B2]]]]. rewrite E. cbn [bind]. destruct ok; [|eexists; split; [reflexivity|]; intros x' f' e [= <- <- <-]; unfold Weak; sp; eauto].
    unfold select. destruct (f_open (updateOpen (q_st x2) f)) as [|z zs] eqn:OP; [eexists; split; [reflexivity|discriminate]|]. rewrite <- OP.
    assert (IN : In (h (q_st x2) (f_open (updateOpen (q_st x2) f))) (f_open (updateOpen (q_st x2) f))) by (apply SEL; rewrite OP; discriminate).
    assert (OK : forall p, In p (f_open (updateOpen (q_st x2) f)) -> good_var n p). { intros p P. apply updateOpen_in in P as [P1 P2]. apply (fr_var x2 F A1) in P2; auto. apply O0 in P1. unfold good_var. lia. }
    refine (GO x2 A1 (Qf _ _ _) S2 GA1 B2 _ _); cbn [f_q f_open]; [exact (OK _ IN)|]. intros p P. exact (proj2 (OK p P)).
  - cbn in NF. apply (GO x1 A1); auto. destruct Q0 as [Q0|Q0]; auto. exfalso. apply (fr_var x F A) in NF; auto. apply Nat.eqb_eq in Q0. congruence.
Qed.
Lemma weak_settle : forall F x f, Weak F x f -> exists x' ok, settle n x = Ok (x', ok) /\ Weak F x' f.
Proof.
  intros F x f [[A [S0 GA]] [B0 [Q0 O0]]]. unfold settle. destruct (weak_pop F x A 0 S0 GA) as [A1 [S1 GA1]]. destruct (pop_clean x 0 F A S0) as [B1 DL1]. destruct (popRoot x 0) as [s1 L1]. cbn [q_st q_lrn] in *.
  destruct (b_conf s1) as [cf|] eqn:CF; [eexists; eexists; split; [reflexivity|]; unfold Weak; sp; eauto|].
  destruct (prop_si n s1 L1 F A1 S1 CF) as [s2 [ok [P [S2 [D2 [R2 [_ [OK1 OK2]]]]]]]]. rewrite P. exists (Sv s2 L1), ok. split; auto. unfold Weak. sp; eauto. intros _. cbn. lia.
Qed.
Lemma post_bnd : forall w fuel x v rounds x0, (v = VFree /\ (rounds = 0 /\ x = x0 \/ 0 < rounds /\ b_conf (q_st x) = None /\ exists k s, w_limit w k s = true) \/ v <> VFree /\ post n w fuel [] x v) ->
  (v = VTrue -> modelState n x) /\ (v = VFalse -> b_conf (q_st x) <> None /\ b_dl (q_st x) <= b_root (q_st x)).
Proof. intros w fuel x v rounds x0 [[-> _]|[_ P]]; [split; discriminate|]. split; intros ->; exact P. Qed.
Lemma query_total : forall F pre rounds fuel u, (forall k, picks n (u_w (u k)) /\ selects (u_h (u k))) -> forall k x f, Weak F x f -> exists e a, query k pre rounds fuel n u x f = Ok (e, a).
Proof.
  intros F pre rounds fuel u HU. induction k as [|k IH]; intros x f W; cbn [query]; [eauto|]. destruct (HU k) as [PK SEL].
  destruct W as [[A [S0 GA]] [B0 [Q0 O0]]]. destruct (solve_ok n NV (u_w (u k)) F A fuel PK rounds x S0) as [x1 [v [E [S1 [R1 PO]]]]]. rewrite E. cbn [bind]. apply post_bnd in PO as [PT PF].
  assert (CONT : forall e x2 f2, Weak F x2 f2 -> exists e' a, (do r <- doUpdate pre (u_h (u k)) n x2 f2;
      match r with Done => Ok (e, Complete) | Cont x' f' e' => do '(e2, a) <- query k pre rounds fuel n u x' f'; Ok (e ++ e' ++ e2, a) end) = Ok (e', a)).
  { intros e x2 f2 W2. destruct (weak_update F pre (u_h (u k)) x2 f2 SEL W2) as [r [ER WR]]. rewrite ER. cbn [bind]. destruct r as [|x' f' e']; [eauto|]. destruct (IH x' f' (WR _ _ _ eq_refl)) as [e2 [a EQ]]. rewrite EQ. cbn. eauto. }
  destruct v; [|(* unsat *)|eauto|eauto].
  - destruct (commit_in (q_st x1) f) as [C1 C2]. apply CONT. unfold Weak. rewrite C1. destruct (PT eq_refl) as [NC _]. sp; auto.
    + exists A. split; auto. destruct (u_rst (u k)); auto. apply restart_si; auto.
    + destruct (u_rst (u k)); [eapply restart_si; eauto|]. intros X. congruence.
  - assert (W2 : Weak F (fst (fst (commitUnsat x1 f))) (snd (fst (commitUnsat x1 f)))).
    { unfold commitUnsat. destruct (popQuery_k x1 f) as [j ->]. destruct (weak_pop F x1 A j S1 GA) as [A1 [SS1 GA1]]. destruct (pop_clean x1 j F A S1) as [B1 DL1].
      assert (W1 : Weak F (popRoot x1 j) f) by (unfold Weak; sp; eauto). destruct (b_conf (q_st (popRoot x1 j))); [exact W1|]. destruct (_ && _); [|exact W1]. cbn [fst snd].
      unfold Weak. sp; eauto; [unfold updateOpen; destruct (updOpen _ _ _ _ _); exact Q0|]. intros p P. apply updateOpen_in in P as [P _]. auto. }
    destruct (commitUnsat x1 f) as [[x2 f2] up]. cbn [fst snd] in W2. destruct (b_conf (q_st x2)); [eauto|]. destruct (weak_settle F x2 f2 W2) as [x3 [ok [ES W3]]]. rewrite ES. cbn [bind].
    destruct ok; [apply CONT; auto|]. destruct (IH x3 f2 W3) as [e2 [a EQ]]. rewrite EQ. cbn. eauto.
Qed.
(** Without limits no search is stopped *)
Lemma query_unlimited : forall F pre rounds fuel u, (forall k, picks n (u_w (u k)) /\ selects (u_h (u k))) -> (forall k, unlimited (u_w (u k))) -> Nat.pow (n + 2) (S n) < fuel -> 0 < rounds ->
  forall k x f e a, Weak F x f -> query k pre rounds fuel n u x f = Ok (e, a) -> a <> Stopped.
Proof.
  intros F pre rounds fuel u HU UL BF RD. induction k as [|k IH]; intros x f e a W E; cbn [query] in E; [injection E as _ <-; discriminate|]. destruct (HU k) as [PK SEL].
  destruct W as [[A [S0 GA]] [B0 [Q0 O0]]]. destruct (solve_ok n NV (u_w (u k)) F A fuel PK rounds x S0) as [x1 [v [ES [S1 [R1 PO]]]]]. rewrite ES in E. cbn [bind] in E.
  assert (NV1 : v <> VFree /\ v <> VFuel).
  { destruct PO as [[-> [[Z _]|[_ [_ [j [s L]]]]]]|[NF PO]]; [lia|rewrite UL in L; discriminate|]. split; auto. intros ->. unfold post in PO. lia. }
  apply post_bnd in PO as [PT PF].
  assert (CONT : forall e0 x2 f2, Weak F x2 f2 -> (do r <- doUpdate pre (u_h (u k)) n x2 f2;
      match r with Done => Ok (e0, Complete) | Cont x' f' e' => do '(e2, a) <- query k pre rounds fuel n u x' f'; Ok (e0 ++ e' ++ e2, a) end) = Ok (e, a) -> a <> Stopped).
  { intros e0 x2 f2 W2 E2. destruct (weak_update F pre (u_h (u k)) x2 f2 SEL W2) as [r [ER WR]]. rewrite ER in E2. cbn [bind] in E2. destruct r as [|x' f' e']; [injection E2 as _ <-; discriminate|].
    destruct (query k pre rounds fuel n u x' f') as [[e2 a2]| |] eqn:EQ; cbn [bind] in E2; try discriminate. injection E2 as _ <-. apply (IH x' f' e2 a2); auto. eapply WR; eauto. }
  destruct v; [| |destruct NV1; congruence|destruct NV1; congruence].
  - destruct (commit_in (q_st x1) f) as [C1 C2]. apply (CONT _ _ _) in E; auto. unfold Weak. rewrite C1. destruct (PT eq_refl) as [NC _]. sp; auto.
    + exists A. split; auto. destruct (u_rst (u k)); auto. apply restart_si; auto.
    + destruct (u_rst (u k)); [eapply restart_si; eauto|]. intros X. congruence.
  - assert (W2 : Weak F (fst (fst (commitUnsat x1 f))) (snd (fst (commitUnsat x1 f)))).
    { unfold commitUnsat. destruct (popQuery_k x1 f) as [j ->]. destruct (weak_pop F x1 A j S1 GA) as [A1 [SS1 GA1]]. destruct (pop_clean x1 j F A S1) as [B1 DL1].
      assert (W1 : Weak F (popRoot x1 j) f) by (unfold Weak; sp; eauto). destruct (b_conf (q_st (popRoot x1 j))); [exact W1|]. destruct (_ && _); [|exact W1]. cbn [fst snd].
      unfold Weak. sp; eauto; [unfold updateOpen; destruct (updOpen _ _ _ _ _); exact Q0|]. intros p P. apply updateOpen_in in P as [P _]. auto. }
    destruct (commitUnsat x1 f) as [[x2 f2] up]. cbn [fst snd] in W2. destruct (b_conf (q_st x2)); [injection E as _ <-; discriminate|]. destruct (weak_settle F x2 f2 W2) as [x3 [ok [EST W3]]]. rewrite EST in E. cbn [bind] in E.
    destruct ok; [apply CONT in E; auto|]. destruct (query k pre rounds fuel n u x3 f2) as [[e2 a2]| |] eqn:EQ; cbn [bind] in E; try discriminate. injection E as _ <-. apply (IH x3 f2 e2 a2); auto.
Qed.
End S.
