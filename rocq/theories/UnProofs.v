(** C56: the invariant. *)
From Coq Require Import List Arith Bool Lia Sorting.Sorted.
From Verif Require Import Base UnSpec UnModel.
Import ListNotations.

Definition below (l : nat) (T : list (lit * nat)) : list (lit * nat) := filter (fun x => snd x <? l) T.
Definition mok (T : list (lit * nat)) (m : mark) (l : nat) : Prop :=
  match m with MLit i => i = length (below l T) /\ exists p, nth_error T i = Some (p, l) | MChk k => k = l /\ forall x, In x T -> snd x <> l end.
Record I (s : cp) : Prop := {
  c_le : forall x, In x (trail s) -> snd x <= dl s;
  c_srt : StronglySorted (fun x y : lit * nat => snd x <= snd y) (trail s);
  c_prop : prop s <= length (trail s);
  c_cur : forall x, In x (skipn (prop s) (trail s)) -> snd x = dl s;
  c_uw : StronglySorted (fun a b => b < a) (uw s) /\ Forall (fun l => 0 < l <= dl s) (uw s);
  c_lev : level s = hd 0 (uw s);
  c_marks : Forall2 (mok (trail s)) (undo s) (uw s);
  c_all : forall x, In x (trail s) -> 0 < snd x -> In (snd x) (uw s) }.
Lemma below_all l T : (forall x, In x T -> snd x < l) -> below l T = T.
Proof. intro H. unfold below. induction T as [|x T IH]; [easy|]. cbn [filter]. rewrite (proj2 (Nat.ltb_lt _ _)) by (apply H; now left). f_equal. apply IH. intros y Y. apply H. now right. Qed.
Lemma below_none l T : (forall x, In x T -> l <= snd x) -> below l T = [].
Proof. intro H. unfold below. induction T as [|x T IH]; [easy|]. cbn [filter]. rewrite (proj2 (Nat.ltb_ge _ _)) by (apply H; now left). apply IH. intros y Y. apply H. now right. Qed.
Lemma below_app l a b : below l (a ++ b) = below l a ++ below l b.
Proof. apply filter_app. Qed.
(** the part of the current level is at the end *)
Lemma split_level d T : StronglySorted (fun x y : lit * nat => snd x <= snd y) T -> (forall x, In x T -> snd x <= d) -> exists S, T = below d T ++ S /\ forall x, In x S -> snd x = d.
Proof.
  induction 1 as [|x T S IH F]; intro L; [exists []; easy|]. destruct IH as (R & E & C); [intros; apply L; now right|]. unfold below. cbn [filter]. destruct (snd x <? d) eqn:Q.
  - exists R. split; [cbn; f_equal; exact E | exact C].
  - exists (x :: T). apply Nat.ltb_ge in Q. rewrite Forall_forall in F. fold (below d T). rewrite below_none by (intros y Y; specialize (F y Y); lia). split; [easy|]. intros y [<- | Y]; [specialize (L x (or_introl eq_refl)); lia|]. specialize (F y Y). specialize (L y (or_intror Y)). lia.
Qed.
Lemma mok_app T x m l : mok T m l -> l < snd x -> mok (T ++ [x]) m l.
Proof.
  intros M L. destruct m as [i|k]; cbn in *.
  - destruct M as [-> (p & P)]. rewrite below_app. rewrite (below_none l [x]) by (intros y [<- | []]; lia). rewrite app_nil_r. split; [easy|]. exists p. rewrite nth_error_app1; [easy|]. apply nth_error_Some. congruence.
  - destruct M as [-> M]. split; [easy|]. intros y Y. apply in_app_iff in Y as [Y | [<- | []]]; [auto | lia].
Qed.
Lemma mok_app_same T x i l : mok T (MLit i) l -> l <= snd x -> mok (T ++ [x]) (MLit i) l.
Proof.
  intros [-> (p & P)] L. cbn. rewrite below_app, (below_none l [x]) by (intros y [<- | []]; lia). rewrite app_nil_r. split; [easy|]. exists p. rewrite nth_error_app1; [easy|]. apply nth_error_Some. congruence.
Qed.
Lemma mok_cut T S m l d : (forall x, In x S -> snd x = d) -> l < d -> mok (T ++ S) m l -> mok T m l.
Proof.
  intros C L M. destruct m as [i|k]; cbn in *.
  - destruct M as [-> (p & P)]. rewrite below_app, (below_none l S) in * by (intros y Y; apply C in Y; lia). rewrite app_nil_r in *. split; [easy|]. exists p. destruct (lt_dec (length (below l T)) (length T)) as [K | K]; [now rewrite nth_error_app1 in P|].
    rewrite nth_error_app2 in P by lia. apply nth_error_In, C in P. cbn in P. lia.
  - destruct M as [-> M]. split; [easy|]. intros y Y. apply M. apply in_app_iff. now left.
Qed.
Lemma srt_app {A} (R : A -> A -> Prop) a b : StronglySorted R (a ++ b) -> StronglySorted R a.
Proof. induction a as [|x a IH]; intro H; [constructor|]. inversion H as [|? ? S F]; subst. constructor; [auto|]. apply Forall_app in F. easy. Qed.
Lemma srt_snoc (T : list (lit * nat)) x : StronglySorted (fun x y : lit * nat => snd x <= snd y) T -> (forall y, In y T -> snd y <= snd x) -> StronglySorted (fun x y : lit * nat => snd x <= snd y) (T ++ [x]).
Proof. induction 1 as [|a T S IH F]; intro L; cbn; [constructor; constructor|]. constructor; [apply IH; intros; apply L; now right|]. apply Forall_app. split; [easy|]. constructor; [apply L; now left | constructor]. Qed.
Lemma hd_uw s : I s -> In (dl s) (uw s) -> exists r, uw s = dl s :: r /\ level s = dl s /\ Forall (fun l => l < dl s) r.
Proof.
  intros J D. destruct (c_uw s J) as [S F]. pose proof (c_lev s J) as L. destruct (uw s) as [|a r]; [easy|]. inversion S as [|? ? S' FS]; subst. inversion F as [|? ? B _]; subst. assert (a = dl s). { destruct D as [D | D]; [easy|]. rewrite Forall_forall in FS. specialize (FS _ D). lia. } subst a. exists r. split; [easy|]. split; [exact L | exact FS].
Qed.
Lemma level_le s : I s -> level s <= dl s /\ (level s = dl s -> dl s = 0 \/ In (dl s) (uw s)).
Proof. intro J. rewrite (c_lev s J). destruct (c_uw s J) as [_ F]. destruct (uw s) as [|a r]; cbn; [split; [lia | intro; lia]|]. inversion F; subst. split; [lia|]. intro E. right. left. easy. Qed.
Lemma cur_none s : I s -> level s <> dl s -> forall x, In x (trail s) -> snd x < dl s.
Proof.
  intros J N x X. pose proof (c_le s J x X). destruct (Nat.eq_dec (snd x) (dl s)) as [E | E]; [|lia]. destruct (level_le s J) as [L _]. pose proof (c_all s J x X). destruct (hd_uw s J) as (r & _ & Q & _); [rewrite <- E; apply H0; lia | congruence].
Qed.
(** after registerUndo for a mark [m] that describes the level once the trail is extended by [add] *)
Lemma reg_chk s : I s -> exists s', registerUndoCheck s = Some s' /\ I s' /\ trail s' = trail s /\ prop s' = prop s /\ dl s' = dl s /\ (0 < dl s -> In (dl s) (uw s')).
Proof.
  intro J. unfold registerUndoCheck. destruct (dl s =? 0) eqn:Z; [apply Nat.eqb_eq in Z; exists s; split; [easy|]; split; [easy|]; repeat (split; [easy|]); lia|]. apply Nat.eqb_neq in Z. unfold registerUndo. destruct (level_le s J) as [LL LE].
  destruct (dl s =? level s) eqn:E; cbn [negb].
  - apply Nat.eqb_eq in E. destruct (LE (eq_sym E)) as [K | K]; [lia|]. exists s. split; [|split; [easy|]; repeat (split; [easy|]); easy].
    destruct (hd_uw s J K) as (r & U & _). pose proof (c_marks s J) as M. rewrite U in M. inversion M as [|m ? u ? M1 M2 E1 E2]; subst. destruct m as [i|k]; [easy|]. cbn in M1. destruct M1 as [-> _]. cbn [before]. now rewrite Nat.ltb_irrefl.
  - apply Nat.eqb_neq in E. rewrite (proj2 (Nat.ltb_ge _ _) LL). eexists. split; [reflexivity|]. split; [|cbn; repeat (split; [easy|]); auto]. pose proof J as J0. destruct J0 as [J1 J2 J3 J4 [J5 J5'] J6 J7 J8].
    constructor; cbn [trail undo prop level dl uw]; auto.
    + split; [constructor; [easy|] | constructor; [lia | easy]]. rewrite Forall_forall in *. intros l L. destruct (uw s) as [|a r]; [easy|]. cbn in J6. inversion J5 as [|? ? _ FA]; subst. rewrite Forall_forall in FA. specialize (J5' _ (or_introl eq_refl)). destruct L as [<- | L]; [lia | specialize (FA l L); lia].
    + constructor; [|easy]. split; [easy|]. intros x X Q. pose proof (cur_none s J (not_eq_sym E) x X). lia.
    + intros x X P. right. auto.
Qed.
Lemma assign_inv s p : I s -> exists s', assign s p = Some s' /\ I s' /\ trail s' = trail s ++ [(p, dl s)] /\ prop s' = prop s /\ dl s' = dl s.
Proof.
  intro J. unfold assign. destruct (level_le s J) as [LL LE].
  assert (R : exists s', registerUndo s (MLit (length (trail s))) = Some s' /\ trail s' = trail s /\ prop s' = prop s /\ dl s' = dl s /\ StronglySorted (fun a b => b < a) (uw s') /\ Forall (fun l => 0 < l <= dl s) (uw s') /\ level s' = hd 0 (uw s') /\
    Forall2 (mok (trail s ++ [(p, dl s)])) (undo s') (uw s') /\ incl (uw s) (uw s') /\ (0 < dl s -> In (dl s) (uw s'))).
  { unfold registerUndo. destruct (dl s =? level s) eqn:E; cbn [negb].
    - apply Nat.eqb_eq in E. destruct (LE (eq_sym E)) as [K | K].
      + assert (U : uw s = []). { destruct (c_uw s J) as [_ F]. destruct (uw s) as [|a r]; [easy|]. inversion F; subst. lia. } pose proof (c_marks s J) as M. rewrite U in M. inversion M as [UE|]. exists s. rewrite U, <- UE. split; [easy|]. do 3 (split; [easy|]). split; [constructor|]. split; [constructor|]. split; [rewrite (c_lev s J), U; easy|]. split; [constructor|]. split; [easy | lia].
      + destruct (hd_uw s J K) as (r & U & LV & FR). destruct (c_uw s J) as [S F]. pose proof (c_marks s J) as M. rewrite U in *. inversion M as [|m ? u q M1 M2 E1 E2]; subst.
        assert (M2' : Forall2 (mok (trail s ++ [(p, dl s)])) u r). { clear -M2 FR. induction M2 as [|m l u r A B IH]; constructor; inversion FR; subst; [apply mok_app; [easy | cbn; lia] | auto]. }
        destruct m as [i|k]; cbn [before].
        * assert (LT : i < length (trail s)) by (destruct M1 as [_ (q & Q)]; apply nth_error_Some; congruence). rewrite (proj2 (Nat.ltb_ge _ _)) by lia. exists s. rewrite U, <- E1. split; [easy|]. do 3 (split; [easy|]). split; [easy|]. split; [easy|]. split; [rewrite LV; easy|]. split; [constructor; [apply mok_app_same; [easy | cbn; lia] | easy]|]. split; [easy|]. intros _. now left.
        * eexists. split; [reflexivity|]. cbn [trail undo prop level dl uw]. try rewrite U. do 3 (split; [easy|]). split; [easy|]. split; [easy|]. split; [rewrite LV; easy|]. split; [|split; [easy | intros _; now left]]. constructor; [|easy]. cbn. destruct M1 as [-> M1].
          assert (B : forall x, In x (trail s) -> snd x < dl s) by (intros x X; pose proof (c_le s J x X); pose proof (M1 x X); lia). rewrite below_app, (below_all _ _ B), below_none by (intros y [<- | []]; cbn; lia). rewrite app_nil_r. split; [easy|]. exists p. rewrite nth_error_app2, Nat.sub_diag by lia. easy.
    - apply Nat.eqb_neq in E. rewrite (proj2 (Nat.ltb_ge _ _) LL). eexists. split; [reflexivity|]. cbn [trail undo prop level dl uw]. do 3 (split; [easy|]). assert (B := cur_none s J (not_eq_sym E)). destruct (c_uw s J) as [S F].
      assert (LT : Forall (fun l => l < dl s) (uw s)). { rewrite Forall_forall in *. intros l L. pose proof (c_lev s J) as H. destruct (uw s) as [|a r]; [easy|]. cbn in H. inversion S as [|? ? _ FA]; subst. rewrite Forall_forall in FA. specialize (F _ (or_introl eq_refl)). destruct L as [<- | L]; [lia | specialize (FA l L); lia]. }
      split; [constructor; easy|]. split; [constructor; [lia | easy]|]. split; [easy|]. split; [|split; [intros x X; now right | intros _; now left]]. constructor.
      + cbn. rewrite below_app, (below_all _ _ B), below_none by (intros y [<- | []]; cbn; lia). rewrite app_nil_r. split; [easy|]. exists p. rewrite nth_error_app2, Nat.sub_diag by lia. easy.
      + pose proof (c_marks s J) as M. clear -M LT. induction M as [|m l u r A B IH]; constructor; inversion LT; subst; [apply mok_app; [easy | cbn; lia] | auto]. }
  destruct R as (s' & -> & T' & P' & D' & R1 & R2 & R3 & R4 & R5 & R6). eexists. split; [reflexivity|]. cbn [trail undo prop level dl uw]. rewrite T', D', P'. split; [|easy]. constructor; cbn [trail undo prop level dl uw].
  - intros x X. apply in_app_iff in X as [X | [<- | []]]; [now apply (c_le s J) | cbn; lia].
  - apply srt_snoc; [apply (c_srt s J) | apply (c_le s J)].
  - rewrite app_length. pose proof (c_prop s J). lia.
  - intros x X. rewrite skipn_app in X. apply in_app_iff in X as [X | X]; [now apply (c_cur s J)|]. pose proof (c_prop s J). replace (prop s - length (trail s)) with 0 in X by lia. destruct X as [<- | []]. easy.
  - easy.
  - easy.
  - easy.
  - intros x X P. apply in_app_iff in X as [X | [<- | []]]; [apply R5; now apply (c_all s J) | now apply R6].
Qed.
Lemma new_inv s : I s -> prop s = length (trail s) -> I (new s).
Proof.
  intros [J1 J2 J3 J4 [J5 J5'] J6 J7 J8] P. constructor; cbn [new trail undo prop level dl uw]; auto.
  - rewrite P, skipn_all. easy.
  - split; [easy|]. eapply Forall_impl; [|exact J5']. cbn. intros; lia.
Qed.
Lemma call_inv s : I s -> exists s' e, call s = Some (s', e) /\ I s' /\ trail s' = trail s /\ dl s' = dl s /\ prop s' = length (trail s) /\
  ((prop s = length (trail s) /\ e = [ECheck] /\ (0 < dl s -> In (dl s) (uw s'))) \/ (prop s < length (trail s) /\ e = [EProp (map fst (skipn (prop s) (trail s)))])).
Proof.
  intro J. unfold call. destruct (prop s =? length (trail s)) eqn:E; cbn [negb].
  - apply Nat.eqb_eq in E. destruct (reg_chk s J) as (s' & -> & J' & T & P & D & U). exists s', [ECheck]. split; [easy|]. split; [easy|]. split; [easy|]. split; [easy|]. split; [congruence|]. left. auto.
  - apply Nat.eqb_neq in E. pose proof (c_prop s J) as P. assert (K : length (skipn (prop s) (trail s)) = length (trail s) - prop s) by apply skipn_length. destruct (skipn (prop s) (trail s)) as [|x r] eqn:S; [cbn in K; lia|].
    rewrite (c_cur s J x) by (rewrite S; now left). rewrite Nat.eqb_refl. do 2 eexists. split; [reflexivity|]. cbn [trail undo prop level dl uw]. split; [|split; [easy|]; split; [easy|]; split; [easy|]; right; split; [lia | easy]].
    destruct J as [J1 J2 J3 J4 J5 J6 J7 J8]. constructor; cbn [trail undo prop level dl uw]; auto. rewrite skipn_all. easy.
Qed.
Definition cur (s : cp) : list lit := map fst (filter (fun x => snd x =? dl s) (firstn (prop s) (trail s))).
Lemma filter_uw r d : Forall (fun l => l < d) r -> filter (fun l => negb (l =? d)) r = r.
Proof. induction 1 as [|a r L F IH]; [easy|]. cbn. rewrite (proj2 (Nat.eqb_neq _ _)) by lia. cbn. now rewrite IH. Qed.
Lemma filter_none {A} (f : A -> bool) l : (forall x, In x l -> f x = false) -> filter f l = [].
Proof. induction l as [|a l IH]; [easy|]. intro H. cbn. rewrite (H a (or_introl eq_refl)). apply IH. intros; apply H. now right. Qed.
Lemma filter_same {A} (f : A -> bool) l : (forall x, In x l -> f x = true) -> filter f l = l.
Proof. induction l as [|a l IH]; [easy|]. intro H. cbn. rewrite (H a (or_introl eq_refl)). f_equal. apply IH. intros; apply H. now right. Qed.
Lemma back_inv always s : I s -> 0 < dl s -> exists s' e, back always s = Some (s', e) /\ I s' /\ trail s' = below (dl s) (trail s) /\ dl s' = pred (dl s) /\ prop s' = length (trail s') /\
  map fst (firstn (prop s) (trail s)) = map fst (trail s') ++ cur s /\ (cur s <> [] -> e = [EUndo (cur s)]) /\ (cur s = [] -> e = [] \/ e = [EUndo []] /\ always = true) /\
  (always = true -> prop s = length (trail s) -> In (dl s) (uw s) -> e <> []).
Proof.
  intros J D. destruct (split_level (dl s) (trail s) (c_srt s J) (c_le s J)) as (S & TE & SC). set (B := below (dl s) (trail s)) in *.
  assert (BL : forall x, In x B -> snd x < dl s) by (intros x X; apply filter_In in X as [_ X]; now apply Nat.ltb_lt in X).
  assert (PB : length B <= prop s). { destruct (le_lt_dec (length B) (prop s)) as [K | K]; [easy|]. exfalso. destruct (nth_error B (prop s)) as [x|] eqn:N; [|apply nth_error_None in N; lia]. assert (X : In x (skipn (prop s) (trail s))). { rewrite TE. rewrite skipn_app. apply in_app_iff. left. apply nth_error_split in N as (a & b & -> & <-). rewrite skipn_app, skipn_all, Nat.sub_diag. now left. } apply (c_cur s J) in X. apply nth_error_In, BL in N. lia. }
  assert (FP : firstn (prop s) (trail s) = B ++ firstn (prop s - length B) S) by (rewrite TE, firstn_app, firstn_all2 by lia; reflexivity).
  assert (CU : cur s = map fst (firstn (prop s - length B) S)). { unfold cur. rewrite FP, filter_app, filter_none, filter_same; [easy | |]; intros x X; [apply Nat.eqb_eq, SC; rewrite <- (firstn_skipn (prop s - length B) S); apply in_app_iff; now left | apply Nat.eqb_neq; apply BL in X; lia]. }
  assert (MF : map fst (firstn (prop s) (trail s)) = map fst B ++ cur s) by (rewrite FP, map_app, CU; easy).
  assert (SB : StronglySorted (fun x y : lit * nat => snd x <= snd y) B) by (pose proof (c_srt s J) as X; rewrite TE in X; eapply srt_app; eauto).
  unfold back. destruct (existsb (Nat.eqb (dl s)) (uw s)) eqn:EX.
  - assert (IU : In (dl s) (uw s)) by (apply existsb_exists in EX as (x & X & E); apply Nat.eqb_eq in E; congruence). destruct (hd_uw s J IU) as (r & U & LV & FR). unfold undoLevel. rewrite LV, Nat.eqb_refl. cbn [negb].
    pose proof (c_marks s J) as M. rewrite U in M. inversion M as [|m ? u q M1 M2 E1 E2]; subst q. destruct (c_uw s J) as [SU FU]. rewrite U in SU, FU. inversion SU as [|? ? SU' _]; subst. inversion FU as [|? ? _ FU']; subst.
    assert (MM : Forall2 (mok B) u r). { rewrite TE in M2. clear -M2 FR SC. induction M2 as [|m l u r A C IH]; constructor; inversion FR; subst; [eapply mok_cut; eauto | auto]. }
    assert (LV' : (match u with [] => Some 0 | MChk l :: _ => Some l | MLit i :: _ => match nth_error B i with Some x => Some (snd x) | None => None end end) = Some (hd 0 r)).
    { inversion MM as [|m' l' u' r' A C]; subst; [easy|]. destruct m' as [i|k]; cbn in A; [destruct A as [_ (p & ->)]; easy | destruct A as [-> _]; easy]. }
    assert (FIN : forall x, x = length B -> I (Cp B u x (hd 0 r) (pred (dl s)) (filter (fun l => negb (l =? dl s)) (dl s :: r)))).
    { intros x ->. cbn [filter]. rewrite Nat.eqb_refl. cbn [negb]. rewrite (filter_uw r (dl s) FR). constructor; cbn [trail undo prop level dl uw]; auto.
      - intros y Y. apply BL in Y. lia.
      - now rewrite skipn_all.
      - split; [easy|]. rewrite Forall_forall in *. intros l L. specialize (FR l L). specialize (FU' l L). lia.
      - intros y Y P. assert (K : In (snd y) (uw s)) by (apply (c_all s J); [rewrite TE; apply in_app_iff; now left | easy]). rewrite U in K. destruct K as [K | K]; [apply BL in Y; lia | easy]. }
    destruct m as [i|k]; cbn in M1.
    + destruct M1 as [Q (p & N)]. fold B in Q. assert (FI : firstn i (trail s) = B) by (rewrite TE, Q, firstn_app, Nat.sub_diag, firstn_all; cbn; apply app_nil_r). rewrite FI, LV'. do 2 eexists. split; [reflexivity|]. cbn [trail undo prop level dl uw]. rewrite U.
      assert (PX : (if i <? prop s then i else prop s) = length B) by (destruct (i <? prop s) eqn:X; [easy | apply Nat.ltb_ge in X; lia]). split; [now apply FIN|]. split; [easy|]. split; [easy|]. split; [exact PX|]. split; [exact MF|].
      assert (SK : skipn i (trail s) = S) by (rewrite TE, Q, skipn_app, Nat.sub_diag, skipn_all; easy). rewrite SK, Q, <- CU. assert (SN : S <> []) by (intro Z; rewrite Z, app_nil_r in TE; rewrite TE in N; apply nth_error_In, BL in N; cbn in N; lia).
      destruct (length B <? prop s) eqn:X.
      * split; [easy|]. apply Nat.ltb_lt in X. split; [|easy]. intro Z. rewrite CU in Z. destruct S as [|y S]; [easy|]. destruct (prop s - length B) eqn:O; [lia | discriminate Z].
      * apply Nat.ltb_ge in X. replace (prop s - length B) with 0 in CU by lia. cbn in CU. rewrite CU. split; [easy|]. split; [now left|]. intros _ PL _. rewrite TE, app_length in PL. destruct S; [easy | cbn in PL; lia].
    + destruct M1 as [-> NC]. assert (S = []). { destruct S as [|y S]; [easy|]. exfalso. apply (NC y); [rewrite TE; apply in_app_iff; right; now left | apply SC; now left]. } subst S. rewrite app_nil_r in TE. rewrite <- TE in LV'. rewrite LV'. do 2 eexists. split; [reflexivity|]. cbn [trail undo prop level dl uw]. rewrite U.
      assert (PX : prop s = length B) by (pose proof (c_prop s J) as P; rewrite TE in P; lia). split; [rewrite TE; now apply FIN|]. split; [exact TE|]. split; [easy|]. split; [rewrite TE; exact PX|]. split; [rewrite TE at 2; exact MF|]. rewrite CU, firstn_nil. cbn. split; [easy|]. split; [destruct always; auto | intros ->; easy].
  - assert (NU : ~ In (dl s) (uw s)) by (intro K; apply Bool.not_true_iff_false in EX; apply EX, existsb_exists; exists (dl s); split; [easy | apply Nat.eqb_refl]).
    assert (S = []). { destruct S as [|y S]; [easy|]. exfalso. apply NU. rewrite <- (SC y) by now left. apply (c_all s J); [rewrite TE; apply in_app_iff; right; now left | rewrite (SC y (or_introl eq_refl)); easy]. } subst S. rewrite app_nil_r in TE.
    do 2 eexists. split; [reflexivity|]. cbn [trail undo prop level dl uw]. assert (PX : prop s = length (trail s)) by (pose proof (c_prop s J); rewrite TE in *; lia). split; [|split; [exact TE|]; split; [easy|]; split; [exact PX|]; split; [rewrite TE at 2; exact MF|]; rewrite CU, firstn_nil; split; [easy|]; split; [now left | easy]].
    destruct (c_uw s J) as [SU FU]. assert (FR : Forall (fun l => l < dl s) (uw s)) by (rewrite Forall_forall in *; intros l L; specialize (FU l L); destruct (Nat.eq_dec l (dl s)); [congruence | lia]). rewrite (filter_uw _ _ FR).
    constructor; cbn [trail undo prop level dl uw]; try apply J.
    + intros x X. rewrite TE in X. apply BL in X. lia.
    + rewrite PX, skipn_all. easy.
    + split; [easy|]. rewrite Forall_forall in *. intros l L. specialize (FR l L). specialize (FU l L). lia.
Qed.
Lemma init_I : I init.
Proof. constructor; cbn; try (intros; contradiction); try reflexivity; try lia; try apply SSorted_nil; try apply Forall2_nil. split; [apply SSorted_nil | apply Forall_nil]. Qed.
Lemma reach_inv always tr s T : reach always tr s T -> I s /\ trail s = T /\ view tr (map fst (firstn (prop s) T)).
Proof.
  induction 1 as [|tr s T H (J & E & V) P | tr s T p s' H (J & E & V) A | tr s T s' e H (J & E & V) C | tr s T s' H (J & E & V) C | tr s T s' e H (J & E & V) D B].
  - split; [apply init_I|]. split; [easy | constructor].
  - split; [now apply new_inv|]. split; easy.
  - destruct (assign_inv s p J) as (s2 & A2 & J2 & T2 & P2 & D2). rewrite A in A2. injection A2 as <-. split; [easy|]. split; [congruence|]. rewrite P2, firstn_app. pose proof (c_prop s J). subst T. replace (prop s - length (trail s)) with 0 by lia. cbn. now rewrite app_nil_r.
  - destruct (call_inv s J) as (s2 & e2 & C2 & J2 & T2 & D2 & P2 & K). rewrite C in C2. injection C2 as <- <-. split; [easy|]. split; [congruence|]. subst T. rewrite P2, firstn_all. destruct K as [(K & -> & _) | (K & ->)].
    + constructor. rewrite K, firstn_all in V. exact V.
    + rewrite <- (firstn_skipn (prop s) (trail s)) at 2. rewrite map_app. now constructor.
  - destruct (reg_chk s J) as (s2 & C2 & J2 & T2 & P2 & D2 & _). rewrite C in C2. injection C2 as <-. split; [easy|]. split; [congruence|]. now rewrite P2.
  - destruct (back_inv always s J D) as (s2 & e2 & B2 & J2 & T2 & D2 & P2 & M & E1 & E2 & _). rewrite B in B2. injection B2 as <- <-. subst T. split; [easy|]. split; [exact T2|]. unfold below in T2. rewrite <- T2, P2, firstn_all. rewrite M in V.
    destruct (cur s) as [|c r] eqn:CU; [|rewrite E1 by easy; now constructor]. destruct (E2 eq_refl) as [-> | [-> _]]; [rewrite !app_nil_r in *; exact V | now constructor].
Qed.
