(** C54: the fixpoint and histories. *)
From Coq Require Import List Arith Bool Lia.
From Verif Require Import Base AcSpec AcModel AcProofs AcProofs2.
Import ListNotations.

Lemma arc_dec (a b : arc) : {a = b} + {a <> b}.
Proof. decide equality; try apply Nat.eq_dec. decide equality; [apply bool_dec | apply Nat.eq_dec]. Qed.

Section Meas.
Variables (G : list arc) (top : lit -> bool) (prop : pasg -> option pasg).
Hypothesis PR : forall s1 s2, prop s1 = Some s2 -> pext s2 s1.
Definition open (s : pasg) : nat := length (filter (fun a => negb (isTrue s (a_lit a))) G).
Lemma newly_open s s' : pext s' s -> length (newly G s s') + open s' = open s.
Proof.
  intro X. unfold newly, open. induction G as [|a l IH]; [easy|]. cbn [filter]. destruct (isTrue s (a_lit a)) eqn:T.
  - rewrite (true_pext s s' (a_lit a)) by easy. cbn. exact IH.
  - destruct (isTrue s' (a_lit a)); cbn; lia.
Qed.
Definition mB (w : stB) : nat := let '(s, todo, _) := w in length todo + open s.
Lemma scanB_meas root fv node arcs : forall w st v pa w' st' v' pa', scanB G top prop root fv node arcs w st v pa = BCont w' st' v' pa' -> mB w' = mB w.
Proof.
  induction arcs as [|a arcs IH]; intros [[s todo] log] st v pa w' st' v' pa'; cbn [scanB]; [congruence|].
  destruct (isFalse s (a_lit a)) eqn:F; cbn [orb]; [apply IH|]. destruct (memN (a_tail a) v); [apply IH|]. destruct (memN (a_tail a) fv).
  - destruct (chain _ _ _ _); [|easy]. destruct (chain _ _ _ _); [|easy]. destruct (isTrue s (a_lit a)) eqn:T; [easy|]. destruct (prop _) as [s2|] eqn:P; [|easy]. intro E. apply IH in E. rewrite E. cbn [mB]. rewrite app_length.
    assert (X : pext s2 s) by (eapply pext_trans; [apply (set_ext s (a_lit a) T F) | now apply PR]). pose proof (newly_open s s2 X). lia.
  - destruct (isTrue s (a_lit a)); apply IH.
Qed.
Lemma loopB_meas root fv k : forall w st v pa w' pa', loopB G top prop k root fv w st v pa = ODone w' pa' -> mB w' = mB w.
Proof.
  induction k as [|k IH]; intros w [|node st] v pa w' pa'; cbn [loopB]; try congruence. destruct (scanB G top prop root fv node _ w st v pa) as [|w1 st1 v1 pa1|] eqn:S; [easy | | easy]. intro E. apply IH in E. apply scanB_meas in S. congruence.
Qed.
End Meas.

Definition done (G : list arc) (s : pasg) (todo : list arc) (a : arc) : Prop := enabled G s a /\ ~ In a todo.
Record J (G : list arc) (full : bool) (s : pasg) (todo : list arc) : Prop := {
  j_loop : forall a, In a G -> a_head a = a_tail a -> isFalse s (a_lit a) = true;
  j_todo : forall a, In a todo -> enabled G s a;
  j_acyc : ~ cyclic (done G s todo);
  j_full : full = true -> forall a w, In a G -> walk (done G s todo) (a_head a) w (a_tail a) -> isFalse s (a_lit a) = true }.

Lemma queued_done G s s' todo nt a : queued G s s' nt -> done G s' (todo ++ nt) a -> done G s todo a.
Proof. intros [Q _] [[I T] N]. rewrite in_app_iff in N. split; [split; [easy|] | tauto]. destruct (Q a I T); tauto. Qed.
Lemma J_assign G full s s' todo nt : pext s' s -> queued G s s' nt -> J G full s todo -> J G full s' (todo ++ nt).
Proof.
  intros X Q [J1 J2 J3 J4]. assert (D := queued_done G s s' todo nt). constructor.
  - intros a A E. eapply false_pext; eauto.
  - intros a A. apply in_app_iff in A as [A | A]; [|now apply Q]. destruct (J2 a A). split; [easy | eapply true_pext; eauto].
  - intros (x & a & w & W). apply J3. exists x, a, w. eapply walk_impl; [exact W|]. intros b _ B. now apply (D b Q).
  - intros F a w A W. eapply false_pext; [exact X|]. apply (J4 F a w A). eapply walk_impl; [exact W|]. intros b _ B. now apply (D b Q).
Qed.
Lemma walk_split (on : arc -> Prop) (r : arc) w : forall x y, walk on x w y -> (~ In r w /\ walk (fun a => on a /\ a <> r) x w y) \/ (exists w1 w2, w = w1 ++ r :: w2 /\ walk on x w1 (a_tail r) /\ walk on (a_head r) w2 y).
Proof.
  intros x y W. destruct (in_dec arc_dec r w) as [I | N].
  - right. apply in_split in I as (w1 & w2 & ->). exists w1, w2. split; [easy|]. clear -W. revert x W. induction w1 as [|b w1 IH]; intros x W; cbn [app] in W; inversion W as [|? ? ? O W']; subst.
    + split; [constructor | easy].
    + destruct (IH _ W'). split; [now constructor | easy].
  - left. split; [easy|]. eapply walk_impl; [exact W|]. intros b B O. split; [easy | intros ->; easy].
Qed.
(** one arc is checked *)
Lemma J_step G full s s' x todo nt : J G full s (x :: todo) -> pext s' s -> queued G s s' nt -> (forall w, ~ walk (enabled G s) (a_head x) w (a_tail x)) ->
  (full = true -> forall a w1 w2, In a G -> walk (enabled G s) (a_head a) w1 (a_tail x) -> walk (enabled G s) (a_head x) w2 (a_tail a) -> isFalse s' (a_lit a) = true) -> J G full s' (todo ++ nt).
Proof.
  intros [J1 J2 J3 J4] X Q FW BW. assert (D := queued_done G s s' todo nt). assert (DE : forall u w y, walk (done G s todo) u w y -> walk (enabled G s) u w y) by (intros u w y W; eapply walk_impl; [exact W | now intros b _ [B _]]).
  assert (DD : forall u w y, walk (fun a => done G s todo a /\ a <> x) u w y -> walk (done G s (x :: todo)) u w y).
  { intros u w y W. eapply walk_impl; [exact W|]. intros b _ [[B1 B2] B3]. split; [easy|]. intros [E | E]; [now apply B3 | easy]. }
  assert (WD : forall u w y, walk (done G s' (todo ++ nt)) u w y -> walk (done G s todo) u w y) by (intros u w y W; eapply walk_impl; [exact W|]; intros b _ B; now apply (D b Q)).
  constructor.
  - intros a A E. eapply false_pext; eauto.
  - intros a A. apply in_app_iff in A as [A | A]; [|now apply Q]. destruct (J2 a (or_intror A)). split; [easy | eapply true_pext; eauto].
  - intros (u & a & w & W). apply WD in W. destruct (walk_split _ x _ _ _ W) as [[_ W'] | (w1 & w2 & _ & W1 & W2)].
    + apply J3. exists u, a, w. now apply DD.
    + apply (FW (w2 ++ w1)). eapply walk_app; apply DE; eauto.
  - intros F a w A W. apply WD in W. destruct (walk_split _ x _ _ _ W) as [[_ W'] | (w1 & w2 & _ & W1 & W2)].
    + eapply false_pext; [exact X|]. apply (J4 F a w A). now apply DD.
    + apply (BW F a w1 w2); auto.
Qed.

Section Fix.
Variables (G : list arc) (top : lit -> bool) (prop : pasg -> option pasg).
Hypothesis PR : forall s1 s2, prop s1 = Some s2 -> pext s2 s1.
Lemma fix_spec full n : forall s todo log pa, J G full s todo ->
  match propagateFixpoint G top prop n full (s, todo, log) pa with
  | None => n < length todo + open G s
  | Some PErr => False
  | Some (PFail (_, _, log')) => failW G top prop s log log'
  | Some (PDone s' log' _) => J G full s' [] /\ pext s' s /\ exists nl, log' = log ++ nl /\ Forall (goodB G top s) nl
  end.
Proof.
  induction n as [|n IH]; intros s [|x todo] log pa JJ; cbn [propagateFixpoint].
  1, 3: split; [easy|]; split; [apply pext_refl | exists []; split; [now rewrite app_nil_r | constructor]].
  - cbn; lia.
  - destruct (j_todo _ _ _ _ JJ x (or_introl eq_refl)) as [XG XT]. assert (NL : a_head x <> a_tail x) by (intro E; apply (not_both s (a_lit x) XT), (j_loop _ _ _ _ JJ x XG E)).
    pose proof (forward_spec G s x pa NL) as FS. destruct (dfsForward G s x pa) as [why|v pa1|] eqn:DF; [| | easy].
    + destruct FS as (a & w & W & ->). apply failW_one; [|now left]. split; [apply pext_refl|]. split; [destruct (isFalse s (a_lit x)) eqn:F; [destruct (not_both _ _ XT F) | easy]|]. split.
      * intros y Y. apply in_rev in Y. apply in_map_iff in Y as (b & <- & B). apply (walk_on _ _ _ _ W b B).
      * exists (a_tail x), x, (a :: w). split; [constructor; [easy|]; eapply walk_impl; [exact W | now intros b _ [B _]]|]. intros b [<- | B]; [now left|]. right. left. apply -> in_rev. now apply in_map.
    + destruct FS as [P FV]. assert (NW : forall w, ~ walk (enabled G s) (a_head x) w (a_tail x)) by (intros w W; apply (FV 0), FV; eauto).
      destruct full.
      * pose proof (backward_spec G top prop PR x s todo log v pa1 (conj XG XT) P FV) as BS. destruct (dfsBackward G top prop x v (s, todo, log) pa1) as [[[s1 todo1] log1]|[[s1 todo1] log1] pa2|] eqn:DB; [easy | | easy].
        destruct BS as (X & (nt & -> & Q) & (nl & -> & FL) & BW). assert (J1 : J G true s1 (todo ++ nt)) by (eapply J_step; eauto).
        apply (loopB_meas G top prop PR) in DB. cbn [mB] in DB. specialize (IH s1 (todo ++ nt) (log ++ nl) pa2 J1). cbn [length].
        destruct (propagateFixpoint G top prop n true (s1, todo ++ nt, log ++ nl) pa2) as [[[[s2 todo2] log2]|s2 log2 pa3|]|]; [eapply failW_app; eauto | | easy | lia].
        destruct IH as (I1 & I2 & nl2 & -> & F2). split; [easy|]. split; [eapply pext_trans; eauto|]. exists (nl ++ nl2). split; [now rewrite app_assoc|]. apply Forall_app. split; [easy|]. eapply Forall_impl; [|exact F2]. intro e. now apply goodB_ext.
      * assert (J1 : J G false s todo) by (rewrite <- (app_nil_r todo); eapply J_step; eauto; [apply pext_refl | apply queued_refl | easy]).
        specialize (IH s todo log pa1 J1). cbn [length]. destruct (propagateFixpoint G top prop n false (s, todo, log) pa1) as [[[[s2 todo2] log2]|s2 log2 pa3|]|]; [easy | easy | easy | lia].
Qed.
End Fix.

Lemma hist_J G full s todo L : hist G full s todo L -> J G full s todo /\ Forall (fun s => J G full s []) L.
Proof.
  induction 1 as [s SL | s todo L s' H [IH1 IH2] X | s todo L top prop n log s' log' pa pa' H [IH1 IH2] PR P | s L H [IH1 IH2] | s todo L1 s' L2 H [IH1 IH2]].
  - split; [|constructor]. assert (ND : forall a, ~ done G s (filter (fun a => isTrue s (a_lit a)) G) a) by (intros a [[A B] C]; apply C, filter_In; auto). constructor.
    + easy.
    + intros a A. now apply filter_In in A.
    + intros (x & a & w & W). inversion W; subst. eapply ND; eauto.
    + intros _ a w A W. inversion W as [? E1 E2 E3 | ? ? ? O]; subst; [apply SL; congruence | destruct (ND _ O)].
  - split; [|easy]. apply (J_assign G full s); auto. apply newly_queued.
  - split; [|easy]. pose proof (fix_spec G top prop PR full n s todo log pa IH1) as K. rewrite P in K. apply K.
  - split; [easy | now constructor].
  - apply Forall_app in IH2 as [_ IH2]. inversion IH2; subst. now split.
Qed.
Lemma explains_cyclic G top x why A : explains G top x why -> holds A x = true -> (forall y, In y why -> holds A y = true) -> (forall y, top y = true -> holds A y = true) -> cyclic (enabledT G A).
Proof.
  intros (u & a & w & W & E) X H T. exists u, a, w. eapply walk_impl; [exact W|]. intros b B G'. split; [easy|]. destruct (E b B) as [-> | [K | K]]; auto.
Qed.
Lemma explains_false G top x why A : explains G top x why -> ~ cyclic (enabledT G A) -> (forall y, In y why -> holds A y = true) -> (forall y, top y = true -> holds A y = true) -> holds A x = false.
Proof.
  intros E C H T. destruct (holds A x) eqn:X; [|easy]. destruct C. eapply explains_cyclic; eauto.
Qed.
