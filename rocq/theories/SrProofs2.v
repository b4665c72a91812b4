(** Rule simplification: sums *)
From Coq Require Import List Bool Arith ZArith Lia.
Import ListNotations.
From Verif Require Import Base LpSpec LpProofs RtModel RtProofs RtProofs2 SrModel SrSpec SrProofs.

Notation wl := (list (lit * Z)).
Definition lits (l : wl) : list lit := map (fun x : lit * Z => fst x) l.
Lemma lits_in l p : In p (lits l) <-> exists w, In (p, w) l.
Proof.
  unfold lits. rewrite in_map_iff. split; [intros ([q w] & E & I); cbn in E; subst; eauto|]. intros (w & I). exists (p, w). auto.
Qed.
Lemma lits_app l k : lits (l ++ k) = lits l ++ lits k.
Proof. apply map_app. Qed.
Lemma lits_cut b l : lits (map (cut b) l) = lits l.
Proof. unfold lits. rewrite map_map. now apply map_ext. Qed.
Lemma sumT_app N M : forall l k, sumT N M (l ++ k) = (sumT N M l + sumT N M k)%Z.
Proof. induction l as [|x l IH]; intros k; cbn [app sumT fold_right]; [auto|]. fold (sumT N M (l ++ k)) (sumT N M l). rewrite IH. destruct (litT N M (fst x)); lia. Qed.
Lemma sumW_app : forall l k, sumW (l ++ k) = (sumW l + sumW k)%Z.
Proof. induction l as [|x l IH]; intros k; cbn [app sumW fold_right]; [auto|]. fold (sumW (l ++ k)) (sumW l). rewrite IH. lia. Qed.
Lemma findW_nil p : findW [] p = 0%Z. Proof. reflexivity. Qed.
Lemma findW_cons x l p : findW (x :: l) p = if lit_eqb p (fst x) then snd x else findW l p.
Proof. unfold findW. cbn [find]. destruct (lit_eqb p (fst x)); reflexivity. Qed.
Lemma findW_notin : forall l p, ~ In p (lits l) -> findW l p = 0%Z.
Proof.
  induction l as [|x l IH]; intros p H; [auto|]. rewrite findW_cons. destruct (lit_eqb p (fst x)) eqn:E; [apply lit_eqb_eq in E; destruct H; left; auto|]. apply IH. intros J. apply H. now right.
Qed.
Lemma findW_in : forall l p, In p (lits l) -> In (p, findW l p) l.
Proof.
  induction l as [|[q w] l IH]; intros p H; [destruct H|]. rewrite findW_cons. cbn [fst snd]. destruct (lit_eqb p q) eqn:E; [apply lit_eqb_eq in E; subst; now left|]. right. apply IH. destruct H as [H|H]; [|auto].
  cbn in H. subst. rewrite lit_eqb_refl in E. discriminate.
Qed.
Lemma addW_lits p w : forall l, lits (addW l p w) = lits l.
Proof. induction l as [|x l IH]; [auto|]. cbn [addW]. destruct (lit_eqb p (fst x)); cbn; [auto|]. f_equal. apply IH. Qed.
Lemma addW_sumW p w : forall l, In p (lits l) -> sumW (addW l p w) = (sumW l + w)%Z.
Proof.
  induction l as [|x l IH]; intros H; [destruct H|]. cbn [addW]. destruct (lit_eqb p (fst x)) eqn:E; cbn [sumW fold_right snd]; fold (sumW l) (sumW (addW l p w)); [lia|]. rewrite IH; [lia|].
  destruct H as [H|H]; [|auto]. rewrite <- H, lit_eqb_refl in E. discriminate.
Qed.
Lemma addW_sumT N M p w : forall l, In p (lits l) -> sumT N M (addW l p w) = (sumT N M l + if litT N M p then w else 0)%Z.
Proof.
  induction l as [|x l IH]; intros H; [destruct H|]. cbn [addW]. destruct (lit_eqb p (fst x)) eqn:E; cbn [sumT fold_right fst snd]; fold (sumT N M l) (sumT N M (addW l p w)).
  - apply lit_eqb_eq in E. rewrite <- E. destruct (litT N M p); lia.
  - rewrite IH; [destruct (litT N M (fst x)); lia|]. destruct H as [H|H]; [|auto]. rewrite <- H, lit_eqb_refl in E. discriminate.
Qed.
Lemma addW_in p w : forall l x, In x (addW l p w) -> In x l \/ (fst x = p /\ snd x = (findW l p + w)%Z).
Proof.
  induction l as [|[q v] l IH]; intros x H; [destruct H|]. cbn [addW fst snd] in H. rewrite findW_cons. cbn [fst snd]. destruct (lit_eqb p q) eqn:E.
  - apply lit_eqb_eq in E. subst q. destruct H as [<-|H]; [right; auto|left; right; auto].
  - destruct H as [<-|H]; [left; now left|]. destruct (IH x H) as [A|A]; [left; now right|right; auto].
Qed.
Lemma NoDup_snoc {A} (l : list A) x : NoDup l -> ~ In x l -> NoDup (l ++ [x]).
Proof.
  induction l as [|y l IH]; intros H N; cbn; [constructor; [intros []|constructor]|]. inversion H as [|a c B1 B2]; subst. constructor; [|apply IH; auto; intros X; apply N; now right].
  intros X. apply in_app_iff in X as [X|[X|[]]]; [auto|]. apply N. now left.
Qed.
Lemma neg_neq (p : lit) : neg p <> p.
Proof. destruct p as [a sg]. unfold neg. cbn. intros X. injection X as X. destruct sg; discriminate. Qed.

(** ** first loop *)
Section S.
Context (bodyId : nat) (K : known).
Lemma lvl_notweak p : lvl K p <> VWeak.
Proof. unfold lvl, litVal. destruct (k_val K (fst p)), (k_rel K (fst p)), (snd p); cbn; discriminate. Qed.
Record inv (m : marks) (c : acc) : Prop := Inv
  { v_sum : c_sum c = sumW (c_out c);
    v_le : (c_sum c <= int_max)%Z;
    v_w : forall x, In x (c_out c) -> (0 < snd x <= c_max c)%Z /\ (c_min c <= snd x)%Z;
    v_max : (1 <= c_max c)%Z;
    v_m : forall p, In p (m_body m) <-> In p (lits (c_out c));
    v_h : m_head m = [];
    v_nd : NoDup (lits (c_out c));
    v_dirty : c_dirty c = false -> forall p, In p (lits (c_out c)) -> ~ In (neg p) (lits (c_out c));
    v_free : forall p, In p (lits (c_out c)) -> lvl K p = VFree \/ lvl K p = VWeak }.
Lemma inv_nonneg m c : inv m c -> forall x, In x (c_out c) -> (0 <= snd x)%Z.
Proof. intros H x J. destruct (v_w _ _ H x J). lia. Qed.
Lemma sumLoop_ok : forall ls m c m' c', inv m c -> (forall x, In x ls -> (0 <= snd x)%Z) -> sumLoop bodyId K m c ls = (m', Some c') ->
  inv m' c' /\ incl (lits (c_out c')) (lits (c_out c) ++ lits ls)
  /\ forall N M, sub N M -> knows K N M -> (c_bound c <= sumT N M (c_out c) + sumT N M ls)%Z <-> (c_bound c' <= sumT N M (c_out c'))%Z.
Proof.
  induction ls as [|[p w] ls IH]; intros m c m' c' H Hp E.
  - injection E as <- <-. split; [auto|]. split; [intros x J; apply in_app_iff; auto|]. intros N M _ _. cbn. rewrite Z.add_0_r. reflexivity.
  - cbn [sumLoop] in E. assert (Hp' : forall x, In x ls -> (0 <= snd x)%Z) by (intros x J; apply Hp; now right).
    assert (Pw : (0 <= w)%Z) by (apply (Hp (p, w)); now left).
    destruct (c_bound c <=? 0)%Z eqn:Cb.
    { injection E as <- <-. apply Z.leb_le in Cb. split; [auto|]. split; [intros x J; apply in_app_iff; auto|]. intros N M _ _.
      pose proof (sumT_nonneg N M (c_out c) (inv_nonneg m c H)). pose proof (sumT_nonneg N M ((p, w) :: ls) Hp). split; lia. }
    destruct (negb _); [discriminate|].
    assert (Sc : forall N M, sumT N M ((p, w) :: ls) = ((if litT N M p then w else 0) + sumT N M ls)%Z) by (intros N M; cbn [sumT fold_right fst snd]; fold (sumT N M ls); destruct (litT N M p); lia).
    assert (Inc : forall l l' : list lit, incl l (l' ++ lits ls) -> incl l (l' ++ lits ((p, w) :: ls))) by (intros l l' X x J; apply X, in_app_iff in J; apply in_app_iff; cbn; tauto).
    destruct (w =? 0)%Z eqn:Cw.
    { apply Z.eqb_eq in Cw. subst w. apply IH in E as (A & A' & B); auto. split; [auto|]. split; [now apply Inc|]. intros N M Hs Hk. rewrite Sc. rewrite <- (B N M Hs Hk). destruct (litT N M p); lia. }
    apply Z.eqb_neq in Cw. destruct (lvl K p) eqn:Lv.
    + (* free *) assert (Go : forall lv, lvl K p = lv -> lv = VFree \/ lv = VWeak ->
        (if (int_max - c_sum c <? w)%Z then (m, None)
            else
              let new := negb (inBody m p) in
              let out := if new then c_out c ++ [(p, w)] else addW (c_out c) p w in
              let w' := if new then w else (findW (c_out c) p + w)%Z in
              let m := if new then addToBody m p else m in
              sumLoop bodyId K m (Acc (c_bound c) (if (c_max c <? w')%Z then w' else c_max c) (if (w' <? c_min c)%Z then w' else c_min c)
                             (c_sum c + w) (c_dirty c || negb new || inBody m (neg p)) out) ls) = (m', Some c') ->
        inv m' c' /\ incl (lits (c_out c')) (lits (c_out c) ++ lits ((p, w) :: ls)) /\ forall N M, sub N M -> knows K N M -> (c_bound c <= sumT N M (c_out c) + sumT N M ((p, w) :: ls))%Z <-> (c_bound c' <= sumT N M (c_out c'))%Z).
      { clear E. intros lv El Ev E. destruct (int_max - c_sum c <? w)%Z eqn:Co; [discriminate|]. apply Z.ltb_ge in Co. cbn zeta in E. destruct (inBody m p) eqn:Eb; cbn [negb] in E.
      * apply inBody_iff in Eb. pose proof (proj1 (v_m _ _ H p) Eb) as Ip. apply IH in E as (A & A' & B); auto.
        -- cbn [c_out c_bound] in A', B. rewrite addW_lits in A'. split; [auto|]. split; [apply Inc; auto|]. intros N M Hs Hk. rewrite <- (B N M Hs Hk). rewrite addW_sumT by auto. rewrite Sc. lia.
        -- assert (Fw : (0 < findW (c_out c) p <= c_max c)%Z /\ (c_min c <= findW (c_out c) p)%Z) by (pose proof (findW_in _ _ Ip) as X; now apply (v_w _ _ H) in X).
           destruct H as [h1 h2 h3 h4 h5 h6 h7 h8 h9]. split; cbn [c_bound c_max c_min c_sum c_dirty c_out].
           ++ rewrite addW_sumW by auto. lia.
           ++ lia.
           ++ intros x J. apply addW_in in J as [J|[_ J]].
              ** destruct (h3 x J). destruct (c_max c <? _)%Z eqn:X1; [apply Z.ltb_lt in X1|]; (destruct (_ <? c_min c)%Z eqn:X2; [apply Z.ltb_lt in X2|]); lia.
              ** rewrite J. destruct (c_max c <? _)%Z eqn:X1; [|apply Z.ltb_ge in X1]; (destruct (_ <? c_min c)%Z eqn:X2; [apply Z.ltb_lt in X2|apply Z.ltb_ge in X2]); lia.
           ++ destruct (c_max c <? _)%Z eqn:X1; [apply Z.ltb_lt in X1|]; lia.
           ++ rewrite addW_lits. auto.
           ++ auto.
           ++ rewrite addW_lits. auto.
           ++ rewrite addW_lits. intros X. rewrite orb_true_r in X. discriminate.
           ++ rewrite addW_lits. auto.
      * assert (Np : ~ In p (lits (c_out c))) by (intros X; apply (v_m _ _ H), inBody_iff in X; congruence). apply IH in E as (A & A' & B); auto.
        -- cbn [c_out c_bound] in A', B. rewrite lits_app in A'. split; [auto|]. split; [intros x J; apply A' in J; rewrite <- app_assoc in J; exact J|]. intros N M Hs Hk. rewrite <- (B N M Hs Hk). rewrite sumT_app. rewrite Sc.
           cbn [sumT fold_right fst snd]. fold (sumT N M ls). destruct (litT N M p); lia.
        -- destruct H as [h1 h2 h3 h4 h5 h6 h7 h8 h9]. split; cbn [c_bound c_max c_min c_sum c_dirty c_out].
           ++ rewrite sumW_app. cbn. lia.
           ++ lia.
           ++ intros x J. apply in_app_iff in J as [J|[<-|[]]].
              ** destruct (h3 x J). destruct (c_max c <? _)%Z eqn:X1; [apply Z.ltb_lt in X1|]; (destruct (_ <? c_min c)%Z eqn:X2; [apply Z.ltb_lt in X2|]); lia.
              ** cbn [snd]. destruct (c_max c <? _)%Z eqn:X1; [|apply Z.ltb_ge in X1]; (destruct (_ <? c_min c)%Z eqn:X2; [apply Z.ltb_lt in X2|apply Z.ltb_ge in X2]); lia.
           ++ destruct (c_max c <? _)%Z eqn:X1; [apply Z.ltb_lt in X1|]; lia.
           ++ intros q. rewrite lits_app, in_app_iff. cbn. rewrite h5. tauto.
           ++ auto.
           ++ rewrite lits_app. now apply NoDup_snoc.
           ++ rewrite lits_app. intros X. rewrite orb_false_r in X. apply orb_false_iff in X as [X1 X2]. assert (Nn : ~ In (neg p) (lits (c_out c))). { intros Y. apply h5 in Y. assert (Z : inBody (addToBody m p) (neg p) = true) by (apply inBody_iff; now right). congruence. }
              intros q J Y. cbn in J, Y. apply in_app_iff in J as [J|[<-|[]]]; apply in_app_iff in Y as [Y|[Y|[]]].
              ** now apply (h8 X1 q J).
              ** apply Nn. rewrite Y, neg_neg. auto.
              ** auto.
              ** symmetry in Y. now apply neg_neq in Y.
           ++ intros q J. rewrite lits_app in J. apply in_app_iff in J as [J|[<-|[]]]; [auto|]. cbn [fst]. rewrite Lv. auto. }
      apply (Go VFree); auto.
    + (* true *) apply IH in E as (A & A' & B); auto; [|destruct H as [h1 h2 h3 h4 h5 h6 h7 h8 h9]; now split]. cbn [c_out c_bound] in A', B. split; [auto|]. split; [now apply Inc|]. intros N M Hs Hk. rewrite <- (B N M Hs Hk). rewrite Sc, (lvl_true K N M p Hs Hk Lv). lia.
    + (* false *) apply IH in E as (A & A' & B); auto. split; [auto|]. split; [now apply Inc|]. intros N M Hs Hk. rewrite <- (B N M Hs Hk). rewrite Sc, (lvl_false K N M p Hs Hk Lv). lia.
    + (* weak *) destruct (lvl_notweak p Lv).
Qed.
End S.
