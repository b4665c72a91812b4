(** C57: effect of a list of changes on one literal of one solver. *)
From Coq Require Import List Arith Bool Lia.
From Verif Require Import Base PwSpec PwModel.
Import ListNotations.

Definition upd (sid : nat) (l : lit) (b : bool) (c : change) : bool :=
  if lit_eqb (c_lit c) l && concerns sid c then match c_act c with AAdd => true | ARem => false | AFrz => b end else b.
Definition ev (sid : nat) (l : lit) (cs : list change) (b : bool) : bool := fold_left (upd sid l) cs b.
Definition wf (c : change) : Prop := match c_act c with AFrz => c_sid c = Some 64 | _ => match c_sid c with None => True | Some k => k < 64 end end.
Lemma ev_app sid l a b x : ev sid l (a ++ b) x = ev sid l b (ev sid l a x).
Proof. apply fold_left_app. Qed.
Lemma upd_ci sid l c : (forall b, upd sid l b c = b) \/ exists v, forall b, upd sid l b c = v.
Proof. unfold upd. destruct (lit_eqb (c_lit c) l && concerns sid c); [|now left]. destruct (c_act c); [right; now exists false | right; now exists true | now left]. Qed.
Lemma ev_ci sid l cs : (forall b, ev sid l cs b = b) \/ exists v, forall b, ev sid l cs b = v.
Proof.
  induction cs as [|c cs IH]; [now left|]. unfold ev in *. cbn. destruct IH as [IH | (v & IH)]; [|right; exists v; intro; apply IH]. destruct (upd_ci sid l c) as [U | (v & U)]; [left; intro b; now rewrite IH | right; exists v; intro b; now rewrite IH].
Qed.
Lemma ev_idem sid l cs b : ev sid l cs (ev sid l cs b) = ev sid l cs b.
Proof. destruct (ev_ci sid l cs) as [H | (v & H)]; now rewrite !H. Qed.
Lemma ltc_ne a b : ltc a b = true -> c_lit a <> c_lit b.
Proof. unfold ltc. intros H E. rewrite E, Nat.ltb_irrefl, Nat.eqb_refl in H. cbn in H. destruct (snd (c_lit b)); discriminate. Qed.
Lemma upd_comm sid l a b x : c_lit a <> c_lit b -> upd sid l (upd sid l x a) b = upd sid l (upd sid l x b) a.
Proof.
  intro N. unfold upd. destruct (lit_eqb (c_lit a) l) eqn:A; [|reflexivity]. destruct (lit_eqb (c_lit b) l) eqn:B; [|reflexivity]. apply lit_eqb_eq in A, B. congruence.
Qed.
Lemma ev_ins sid l x cs b : ev sid l (ins x cs) b = ev sid l (x :: cs) b.
Proof.
  revert b. induction cs as [|y cs IH]; intro b; [reflexivity|]. cbn [ins]. destruct (ltc y x) eqn:E; [|reflexivity]. apply ltc_ne in E. unfold ev in *. cbn [fold_left] in *. rewrite IH. f_equal. now apply upd_comm.
Qed.
Lemma ev_sort sid l cs b : ev sid l (sort cs) b = ev sid l cs b.
Proof. revert b. induction cs as [|c cs IH]; intro b; [reflexivity|]. unfold sort. cbn [fold_right]. rewrite ev_ins. unfold ev in *. cbn. apply IH. Qed.
Lemma in_ins x y cs : In x (ins y cs) <-> x = y \/ In x cs.
Proof. induction cs as [|z cs IH]; cbn [ins]; [cbn; intuition auto|]. destruct (ltc z y); cbn; [rewrite IH|]; intuition auto. Qed.
Lemma in_sort x cs : In x (sort cs) <-> In x cs.
Proof. induction cs as [|c cs IH]; [easy|]. unfold sort. cbn [fold_right]. rewrite in_ins. fold (sort cs). rewrite IH. cbn. intuition auto. Qed.
Lemma ev_filter sid l cs b : ev sid l (filter (concerns sid) cs) b = ev sid l cs b.
Proof.
  revert b. induction cs as [|c cs IH]; intro b; [reflexivity|]. cbn [filter]. destruct (concerns sid c) eqn:E; unfold ev in *; cbn [fold_left]; [apply IH|]. rewrite IH. unfold upd at 3. now rewrite E, andb_false_r.
Qed.
Lemma loop_ev sid l cs W : (forall c, In c cs -> concerns sid c = true /\ c_act c <> AFrz) -> applyLoop W cs l = ev sid l cs (W l).
Proof.
  assert (A : forall c W, concerns sid c = true -> apply W c l = upd sid l (W l) c). { intros c W0 K. unfold apply, upd, setW. rewrite K, andb_true_r. destruct (lit_eqb (c_lit c) l) eqn:E.
    - apply lit_eqb_eq in E. rewrite E. destruct (c_act c); [| |reflexivity]; assert (X : lit_eqb l l = true) by now apply lit_eqb_eq. all: now rewrite X.
    - destruct (c_act c); [| |reflexivity]; (destruct (lit_eqb l (c_lit c)) eqn:F; [apply lit_eqb_eq in F; assert (X : lit_eqb (c_lit c) l = true) by (now apply lit_eqb_eq); congruence | reflexivity]). }
  revert W. induction cs as [|c cs IH]; intros W H; [reflexivity|]. destruct cs as [|d r].
  - cbn. apply A. apply H. now left.
  - assert (H' : forall x, In x (d :: r) -> concerns sid x = true /\ c_act x <> AFrz) by (intros x X; apply H; now right). change (applyLoop W (c :: d :: r)) with (if lit_eqb (c_lit d) (c_lit c) then applyLoop W (d :: r) else applyLoop (apply W c) (d :: r)).
    destruct (lit_eqb (c_lit d) (c_lit c)) eqn:E; rewrite IH by exact H'; unfold ev; cbn [fold_left].
    + f_equal. apply lit_eqb_eq in E. destruct (H d (or_intror (or_introl eq_refl))) as [D1 D2]. unfold upd. rewrite D1, <- E. destruct (lit_eqb (c_lit d) l); [|reflexivity]. cbn. destruct (c_act d); easy.
    + f_equal. f_equal. apply A. apply H. now left.
Qed.
Lemma init_ev H changes step last sid W l : sid < 64 -> (forall c, In c changes -> wf c) ->
  init H changes step last sid W l = ev sid l changes (if 1 <? step - last then H l sid || W l else W l).
Proof.
  intros S F. unfold init. assert (K : forall c, In c (filter (concerns sid) changes) -> concerns sid c = true /\ c_act c <> AFrz). { intros c C. apply filter_In in C as [C K]. split; [easy|]. intro Z. specialize (F c C). unfold wf in F. rewrite Z in F. unfold concerns in K. rewrite F in K. apply Nat.eqb_eq in K. lia. }
  rewrite <- (ev_filter sid l changes). destruct (isSorted (filter (concerns sid) changes)).
  - rewrite (loop_ev sid) by exact K. now destruct (1 <? step - last).
  - rewrite (loop_ev sid) by (intros c C; apply (proj1 (in_sort _ _)) in C; auto). rewrite ev_sort. now destruct (1 <? step - last).
Qed.
Lemma mask_concerns c sid : sid < 64 -> wf c -> c_act c <> AFrz -> mask c sid = concerns sid c.
Proof. unfold wf, mask, concerns. intros S F A. destruct (c_sid c) as [i|]; [|reflexivity]. rewrite (proj2 (Nat.ltb_ge 63 i)); [reflexivity|]. destruct (c_act c); [lia | lia | easy]. Qed.
Lemma hist_ev cs H l sid : sid < 64 -> (forall c, In c cs -> wf c) -> fold_left histAdd cs H l sid = ev sid l cs (H l sid).
Proof.
  intro S. revert H. induction cs as [|c cs IH]; intros H F; [reflexivity|]. unfold ev. cbn [fold_left]. rewrite IH by (intros; apply F; now right). unfold ev. f_equal. unfold histAdd, upd. pose proof (mask_concerns c sid S (F c (or_introl eq_refl))) as M.
  assert (SY : lit_eqb l (c_lit c) = lit_eqb (c_lit c) l). { destruct (lit_eqb l (c_lit c)) eqn:A; symmetry; [apply lit_eqb_eq in A; now apply lit_eqb_eq|]. destruct (lit_eqb (c_lit c) l) eqn:B; [|reflexivity]. apply lit_eqb_eq in B. assert (lit_eqb l (c_lit c) = true) by now apply lit_eqb_eq. congruence. }
  destruct (c_act c); rewrite ?SY; [| |destruct (lit_eqb (c_lit c) l && concerns sid c); reflexivity]; rewrite M by discriminate; destruct (lit_eqb (c_lit c) l), (concerns sid c), (H l sid); reflexivity.
Qed.
Lemma wf_op o : valid o -> wf (toChange o).
Proof. destruct o as [[k|] l | [k|] l | l]; cbn; easy. Qed.
Lemma wanted_ev ops sid l : sid < 64 -> ev sid l (map toChange ops) false = true <-> wanted ops sid l.
Proof.
  intro S. induction ops as [|o ops IH] using rev_ind.
  - split; [discriminate|]. intros (a & w & b & E & _). destruct a; discriminate.
  - rewrite map_app, ev_app. unfold ev at 1. cbn [map fold_left]. assert (LR : lit_eqb l l = true) by now apply lit_eqb_eq.
    assert (KW : forall w a, concerns sid (Ch l w a) = true <-> for_solver w sid). { intros w a. unfold concerns, for_solver. cbn. destruct w as [i|]; [rewrite Nat.eqb_eq; split; [intros ->; now right | intros [X | X]; congruence] | split; auto]. }
    assert (KEEP : (forall w, o = OAdd w l -> ~ for_solver w sid) -> (forall w, o = ORem w l -> ~ for_solver w sid) -> wanted (ops ++ [o]) sid l <-> wanted ops sid l).
    { intros N1 N2. split.
      - intros (a & w & b & E & W & R). destruct b as [|z b _] using rev_ind; [apply app_inj_tail in E as [_ E]; exfalso; eapply N1; eauto|]. rewrite app_comm_cons, app_assoc in E. apply app_inj_tail in E as [E <-]. exists a, w, b. split; [easy|]. split; [easy|]. intros w' X. apply R. apply in_app_iff. now left.
      - intros (a & w & b & -> & W & R). exists a, w, (b ++ [o]). split; [now rewrite <- app_assoc|]. split; [easy|]. intros w' X. apply in_app_iff in X as [X | [X | []]]; [now apply R | now apply N2]. }
    destruct o as [w x | w x | x]; cbn [toChange]; unfold upd; cbn [c_lit c_act].
    + destruct (lit_eqb x l) eqn:E; cbn [andb].
      * apply lit_eqb_eq in E. subst x. destruct (concerns sid (Ch l w AAdd)) eqn:K.
        -- apply KW in K. split; [|easy]. intros _. exists ops, w, []. easy.
        -- rewrite IH. symmetry. apply KEEP; [|easy]. intros w' Q F. injection Q as <-. apply (KW w AAdd) in F. congruence.
      * rewrite IH. symmetry. apply KEEP; [|easy]. intros w' Q. injection Q as <- <-. congruence.
    + destruct (lit_eqb x l) eqn:E; cbn [andb].
      * apply lit_eqb_eq in E. subst x. destruct (concerns sid (Ch l w ARem)) eqn:K.
        -- apply KW in K. split; [discriminate|]. intros (a & w' & b & E & W & R). exfalso. destruct b as [|z b _] using rev_ind; [apply app_inj_tail in E as [_ E]; discriminate|]. rewrite app_comm_cons, app_assoc in E. apply app_inj_tail in E as [_ <-]. apply (R w); [apply in_app_iff; right; now left | easy].
        -- rewrite IH. symmetry. apply KEEP; [easy|]. intros w' Q F. injection Q as <-. apply (KW w ARem) in F. congruence.
      * rewrite IH. symmetry. apply KEEP; [easy|]. intros w' Q. injection Q as <- <-. congruence.
    + replace (concerns sid (Ch x (Some 64) AFrz)) with false by (unfold concerns; cbn [c_sid]; symmetry; apply Nat.eqb_neq; lia). rewrite andb_false_r, IH. symmetry. now apply KEEP.
Qed.
(** what is frozen *)
Lemma prep_watch sid l cs : sid < 64 -> (forall c, In c cs -> wf c) -> forall m f, match cs with [] => False | c :: _ => ev sid l cs (if lit_eqb (c_lit c) l then m sid else false) = true end -> In l (prep cs m f).
Proof.
  intros S. induction cs as [|c r IH]; intros F m f H; [easy|]. cbn [prep]. set (m' := match c_act c with AAdd => fun k => m k || mask c k | ARem => fun k => m k && negb (mask c k) | AFrz => m end). set (f' := match c_act c with AFrz => true | _ => f end).
  assert (M : lit_eqb (c_lit c) l = true -> m' sid = upd sid l (m sid) c). { intro E. unfold m', upd. rewrite E. cbn [andb]. pose proof (mask_concerns c sid S (F c (or_introl eq_refl))) as X. destruct (c_act c); [| |destruct (concerns sid c); reflexivity]; rewrite X by discriminate; destruct (concerns sid c), (m sid); reflexivity. }
  assert (HERE : lit_eqb (c_lit c) l = true -> m' sid = true -> In l (if f' || existsb m' (seq 0 64) then [c_lit c] else [])). { intros E T. replace (existsb m' (seq 0 64)) with true; [rewrite orb_true_r; left; now apply lit_eqb_eq|]. symmetry. apply existsb_exists. exists sid. split; [apply in_seq; lia | easy]. }
  assert (NU : lit_eqb (c_lit c) l = false -> upd sid l false c = false) by (intro E; unfold upd; now rewrite E).
  unfold ev in H. cbn [fold_left] in H. destruct r as [|d r'].
  - cbn in H. destruct (lit_eqb (c_lit c) l) eqn:E; [apply HERE; [easy | now rewrite M] | rewrite NU in H by easy; discriminate].
  - assert (F' : forall x, In x (d :: r') -> wf x) by (intros; apply F; now right). destruct (lit_eqb (c_lit d) (c_lit c)) eqn:DC.
    + apply lit_eqb_eq in DC. apply IH; [easy|]. rewrite DC. destruct (lit_eqb (c_lit c) l) eqn:E; [rewrite M by easy; exact H | rewrite NU in H by easy; exact H].
    + apply in_app_iff. destruct (lit_eqb (c_lit c) l) eqn:E.
      * destruct (ev_ci sid l (d :: r')) as [K | (v & K)]; unfold ev in K; rewrite K in H; [left; apply HERE; [easy | now rewrite M]|]. right. apply IH; [easy|]. unfold ev. now rewrite K.
      * right. rewrite NU in H by easy. apply IH; [easy|]. destruct (lit_eqb (c_lit d) l); exact H.
Qed.
Lemma prep_frz c cs : forall m f, (match cs with [] => False | d :: _ => f = true /\ c_lit d = c_lit c end) \/ (In c cs /\ c_act c = AFrz) -> In (c_lit c) (prep cs m f).
Proof.
  induction cs as [|d r IH]; intros m f H; [destruct H as [H | [H _]]; easy|]. cbn [prep]. set (m' := match c_act d with AAdd => fun k => m k || mask d k | ARem => fun k => m k && negb (mask d k) | AFrz => m end). set (f' := match c_act d with AFrz => true | _ => f end).
  assert (Q : (f' = true /\ c_lit d = c_lit c) \/ (In c r /\ c_act c = AFrz)). { destruct H as [[-> E] | [[-> | H] A]]; [left; split; [unfold f'; now destruct (c_act d) | easy] | left; split; [unfold f'; now rewrite A | easy] | now right]. }
  destruct r as [|e r'].
  - destruct Q as [[-> E] | [[] _]]. left. exact E.
  - destruct (lit_eqb (c_lit e) (c_lit d)) eqn:ED.
    + apply lit_eqb_eq in ED. apply IH. destruct Q as [[-> E] | Q]; [left; split; congruence | now right].
    + apply in_app_iff. destruct Q as [[-> E] | Q]; [left; left; exact E | right; apply IH; now right].
Qed.
(** the invariant *)
Definition ok (gaps a b : bool) : Prop := if gaps then b = true -> a = true else a = b.
Record I (gaps : bool) (P C : list op) (s : pw) : Prop := {
  w_val : forall o, In o (P ++ C) -> valid o;
  w_wf : forall c, In c (changes s) -> wf c;
  w_ch : forall sid l b, ev sid l (changes s) b = ev sid l (map toChange C) b;
  w_mem : forall o, In o C -> In (toChange o) (changes s);
  w_hist : forall sid l, sid < 64 -> hist s l sid = ev sid l (map toChange P) false;
  w_step : 1 <= step s /\ (step s = 1 -> P = []);
  w_last : forall sid, last s sid <= step s;
  w_ini : ini s = false -> forall sid, last s sid < step s;
  w_new : forall sid l, last s sid = 0 -> wat s sid l = false;
  w_cur : forall sid l, sid < 64 -> last s sid = step s -> ok gaps (wat s sid l) (ev sid l (map toChange (P ++ C)) false);
  w_prev : forall sid l, sid < 64 -> S (last s sid) = step s -> ok gaps (wat s sid l) (ev sid l (map toChange P) false) }.
Lemma ok_ev gaps sid l cs a b : ok gaps a b -> ok gaps (ev sid l cs a) (ev sid l cs b).
Proof. destruct gaps; cbn; [|intros ->; reflexivity]. intro H. destruct (ev_ci sid l cs) as [K | (v & K)]; rewrite !K; auto. Qed.
Lemma reach_I gaps P C s : reach gaps P C s -> I gaps P C s.
Proof.
  induction 1 as [|P C s o R J N V | P C s R J | P C s sid R J S G | P C s R J | P C s sid R J].
  - constructor; cbn; try easy; try lia; intros; destruct gaps; cbn; try easy; lia.
  - destruct J as [J1 J2 J3 J3' J4 J5 J6 J7 J8 J9 J10]. constructor; cbn [do_op hist changes step last wat ini]; auto.
    + intros x X. rewrite app_assoc in X. apply in_app_iff in X as [X | [<- | []]]; auto.
    + intros c X. apply in_app_iff in X as [X | [<- | []]]; [auto | now apply wf_op].
    + intros sid l b. rewrite map_app, !ev_app, J3. reflexivity.
    + intros x X. apply in_app_iff in X as [X | [<- | []]]; apply in_app_iff; [left; auto | right; now left].
    + intros sid l S E. specialize (J7 N sid). lia.
  - destruct J as [J1 J2 J3 J3' J4 J5 J6 J7 J8 J9 J10]. constructor; cbn [do_prepare prepare fst hist changes step last wat ini]; auto.
    + intros c X. apply (proj1 (in_sort _ _)) in X. auto.
    + intros sid l b. now rewrite ev_sort.
    + intros o X. apply (proj2 (in_sort _ _)). auto.
  - destruct J as [J1 J2 J3 J3' J4 J5 J6 J7 J8 J9 J10]. constructor; cbn [do_init hist changes step last wat ini]; auto; unfold upN.
    + intro k. destruct (k =? sid); [lia | auto].
    + discriminate.
    + intros k l. destruct (k =? sid); [lia | auto].
    + intros k l K. destruct (k =? sid) eqn:E; [|auto]. intros _. apply Nat.eqb_eq in E. subst k. rewrite init_ev by auto. rewrite J3, map_app, ev_app. specialize (J6 sid).
      destruct (Nat.eq_dec (last s sid) (step s)) as [A | A].
      * rewrite (proj2 (Nat.ltb_ge 1 _)) by lia. specialize (J9 sid l S A). rewrite map_app, ev_app in J9. rewrite <- ev_idem with (b := ev sid l (map toChange P) false). now apply ok_ev.
      * apply ok_ev. destruct (Nat.eq_dec (Datatypes.S (last s sid)) (step s)) as [B | B]; [rewrite (proj2 (Nat.ltb_ge 1 _)) by lia; now apply J10|]. rewrite (proj2 (Nat.ltb_lt 1 _)) by lia. rewrite J4 by easy.
        destruct gaps; cbn; [intros ->; reflexivity|]. destruct G as [G | [G | G]]; [easy | rewrite (J8 sid l G); apply orb_false_r | lia].
    + intros k l K. destruct (k =? sid) eqn:E; [lia | auto].
  - destruct J as [J1 J2 J3 J3' J4 J5 J6 J7 J8 J9 J10]. constructor; cbn [do_unfreeze hist changes step last wat ini]; auto.
    + intros o X. rewrite app_nil_r in X. auto.
    + easy.
    + intros sid l S. rewrite hist_ev, J3, J4, map_app, ev_app by auto. reflexivity.
    + split; [lia|]. lia.
    + intros _ sid. specialize (J6 sid). lia.
    + intros sid l S E. specialize (J6 sid). lia.
  - destruct J as [J1 J2 J3 J3' J4 J5 J6 J7 J8 J9 J10]. constructor; cbn [do_fresh hist changes step last wat ini]; auto; unfold upN.
    + intro k. destruct (k =? sid); [lia | auto].
    + intros N k. destruct (k =? sid); [lia | auto].
    + intros k l. destruct (k =? sid); auto.
    + intros k l K. destruct (k =? sid); [lia | auto].
    + intros k l K. destruct (k =? sid); [|auto]. intro E. destruct J5 as [_ J5]. rewrite J5 by lia. destruct gaps; cbn; easy.
Qed.
