(** Rule transformation: bodies, choices, shifting *)
From Coq Require Import List Bool Arith ZArith Lia.
Import ListNotations.
From Verif Require Import Base LpSpec LpProofs RtModel.

(** The rules [T] can replace the rules [R] in every program over atoms below [k]. *)
Definition replaces (k : nat) (R T : prog) : Prop := forall P, below k P -> sameAS k (P ++ R) (P ++ T).
Lemma progT_In N M P Q : (forall r, In r P <-> In r Q) -> progT N M P <-> progT N M Q.
Proof. intros H. unfold progT. split; intros K r I; apply K, H, I. Qed.
Lemma sameAS_refl k P : below k P -> sameAS k P P.
Proof. intros B. apply sameAS_equiv; auto. reflexivity. Qed.
Lemma sameAS_right k k' P Q Q' : below k' Q -> (forall M, stable Q M <-> stable Q' M) -> sameAS k P Q -> sameAS k P Q'.
Proof.
  intros _ E (A & B & C). split; [|split].
  - intros M H. destruct (A M H) as (M' & H' & G). exists M'. split; [now apply E|auto].
  - intros M' H. apply E in H. auto.
  - intros M1 M2 H1 H2. apply C; now apply E.
Qed.
Lemma stable_equiv P Q : (forall N M, sub N M -> progT N M P <-> progT N M Q) -> forall M, stable P M <-> stable Q M.
Proof.
  intros E M. split; intros [T Mn]; (split; [apply E; auto using sub_refl|intros N Hs TN; apply Mn; auto; apply E; auto]).
Qed.
Lemma sameAS_iff k P P' Q Q' : (forall M, stable P M <-> stable P' M) -> (forall M, stable Q M <-> stable Q' M) -> sameAS k P Q -> sameAS k P' Q'.
Proof.
  intros EP E (A & B & C). split; [|split].
  - intros M H. apply EP in H. destruct (A M H) as (M' & H' & G). exists M'. split; [now apply E|auto].
  - intros M' H. apply E in H. destruct (B M' H) as (M & H' & G). exists M. split; [now apply EP|auto].
  - intros M1 M2 H1 H2. apply C; now apply E.
Qed.

Lemma replaces_equiv k R T : below k R -> below k T -> (forall N M, sub N M -> progT N M R <-> progT N M T) -> replaces k R T.
Proof.
  intros BR BT E P BP. apply sameAS_equiv; [apply below_app; auto|apply below_app; auto|].
  intros N M Hs. rewrite !progT_app, E by auto. reflexivity.
Qed.
Lemma replaces_refl k R : below k R -> replaces k R R.
Proof. intros B. apply replaces_equiv; auto. reflexivity. Qed.
Lemma replaces_trans k k' R T U : k <= k' -> replaces k R T -> replaces k' T U -> replaces k R U.
Proof. intros L A B P BP. apply (sameAS_trans k k' _ (P ++ T)); auto. apply B. now apply (below_le k). Qed.
(** replacing one after the other *)
Lemma replaces_app k k' R1 R2 T1 T2 : k <= k' -> below k R1 -> below k R2 -> below k' T1 -> replaces k R1 T1 -> replaces k' R2 T2 -> replaces k (R1 ++ R2) (T1 ++ T2).
Proof.
  intros L BR1 BR2 B1 A B P BP.
  assert (X : forall X Y : prog, forall M, stable (P ++ X ++ Y) M <-> stable (P ++ Y ++ X) M).
  { intros X Y. apply stable_equiv. intros N M _. apply progT_In. intros r. rewrite !in_app_iff. tauto. }
  apply (sameAS_trans k k' _ (P ++ T1 ++ R2)); auto.
  - apply (sameAS_iff k ((P ++ R2) ++ R1) _ ((P ++ R2) ++ T1)).
    + intros M. rewrite <- app_assoc. apply X.
    + intros M. rewrite <- app_assoc. apply X.
    + apply A. apply below_app; auto.
  - rewrite !app_assoc. apply B. apply below_app. split; [now apply (below_le k)|auto].
Qed.

Lemma single_progT N M r : progT N M [r] <-> ruleT N M r.
Proof. unfold progT. split; [intros H; apply H; now left|intros H x [<-|[]]; auto]. Qed.
Lemma cons_progT N M r P : progT N M (r :: P) <-> ruleT N M r /\ progT N M P.
Proof. unfold progT. split; [intros H; split; [apply H; now left|intros x I; apply H; now right]|]. intros [A B] x [<-|I]; auto. Qed.

Lemma single_below k r : below k [r] <-> forall a, In a (ratoms r) -> a < k.
Proof. unfold below. split; [intros H a I; apply (H r); [now left|auto]|]. intros H x a [<-|[]] I. auto. Qed.
Lemma cons_below k r P : below k (r :: P) <-> (forall a, In a (ratoms r) -> a < k) /\ below k P.
Proof. change (r :: P) with ([r] ++ P). rewrite below_app, single_below. reflexivity. Qed.

(** ** a body gets a name *)
Section NameBody.
Context (k : nat) (ch : bool) (hs : list nat) (b : body) (Bl : below k [Rule ch hs b]) (Pb : posB b).
Definition nbE (N M : asg) : asg := fun a => (a =? k) && bodyT N M b.
Lemma nb_b N1 N2 M1 M2 : agree k N1 N2 -> agree k M1 M2 -> bodyT N1 M1 b = bodyT N2 M2 b.
Proof. intros A B. apply (bodyT_agree k); auto. intros a I. rewrite single_below in Bl. apply Bl. apply in_app_iff. auto. Qed.
Lemma nb_h h : In h hs -> h < k.
Proof. intros I. rewrite single_below in Bl. apply Bl. apply in_app_iff. auto. Qed.
Lemma nameBody : replaces k [Rule ch hs b] [Rule ch hs (Norm [pos k]); Rule false [k] b].
Proof.
  pose proof nb_h as Hb. intros P BP. apply (extension k P _ _ nbE); auto.
  - intros N1 N2 M1 M2 A B a L. unfold nbE. now rewrite (nb_b N1 N2 M1 M2).
  - intros N M Hs a L. unfold nbE. rewrite !andb_true_iff. intros [X Y]. split; [auto|]. now apply (bodyT_mono N).
  - intros N M Hs H. apply single_progT in H. apply cons_progT. split; [|apply single_progT].
    + intros Bd. unfold bodyT in Bd. cbn in Bd. rewrite andb_true_r in Bd. unfold litT in Bd. cbn in Bd. rewrite up_hi in Bd by auto. unfold nbE in Bd.
      rewrite Nat.eqb_refl in Bd. cbn in Bd. specialize (H Bd). cbn [r_choice r_head] in *. destruct ch.
      * intros h I K. rewrite <- (up_agree k nbE N M) by now apply Hb. apply H; auto. rewrite (up_agree k nbE M M); auto.
      * destruct H as (h & I & K). exists h. split; [auto|]. rewrite <- (up_agree k nbE N M); auto.
    + intros Bd. cbn [r_choice r_head r_body] in *. exists k. split; [now left|]. rewrite up_hi by auto. unfold nbE. rewrite Nat.eqb_refl. cbn.
      rewrite <- Bd. apply nb_b; apply up_agree.
  - intros M H Sb. apply cons_progT in H as [H1 H2]. apply cons_progT. split.
    + apply ruleT_shrink; auto; [exact I|]. intros h I K. cbn in I. rewrite <- (up_agree k nbE M M); auto.
    + apply single_progT. intros Bd. cbn [r_choice r_head r_body] in *. exists k. split; [now left|]. rewrite up_hi by auto. unfold nbE. rewrite Nat.eqb_refl. cbn.
      rewrite <- Bd. apply nb_b; [apply up_agree|apply agree_refl].
  - intros N M Hs H _. apply cons_progT in H as [H1 H2]. apply single_progT in H2. apply single_progT. intros Bd. cbn [r_body] in Bd.
    destruct (H2 Bd) as (x & [<-|[]] & Hx). apply H1. cbn. unfold litT. cbn. now rewrite Hx.
  - intros N M Hs H a L. unfold nbE. rewrite andb_true_iff, Nat.eqb_eq. intros [-> Bd]. apply cons_progT in H as [H1 H2]. apply single_progT in H2.
    destruct (H2 Bd) as (x & [<-|[]] & Hx). auto.
Qed.
End NameBody.

(** ** choices *)
Section Choice1.
Context (k : nat) (h : nat) (ls : list lit) (Bl : below k [Rule true [h] (Norm ls)]).
Definition chE (N M : asg) : asg := fun a => (a =? k) && negb (M h).
Lemma ch_ls p : In p ls -> fst p < k.
Proof. intros I. rewrite single_below in Bl. apply Bl. apply in_app_iff. right. cbn. now apply in_map. Qed.
Lemma ch_h : h < k.
Proof. rewrite single_below in Bl. apply Bl. now left. Qed.
Lemma ch_b N1 N2 M1 M2 : agree k N1 N2 -> agree k M1 M2 -> forallb (litT N1 M1) ls = forallb (litT N2 M2) ls.
Proof. intros A B. apply forallb_ext. intros x I. apply (litT_agree k); auto using ch_ls. Qed.
Lemma choice1 : replaces k [Rule true [h] (Norm ls)] [Rule false [h] (Norm (ls ++ [ngt k])); Rule false [k] (Norm [ngt h])].
Proof.
  pose proof ch_h as Hh. intros P BP. apply (extension k P _ _ chE); auto.
  - intros N1 N2 M1 M2 A B a L. unfold chE. now rewrite (B h).
  - intros N M Hs H. apply single_progT in H. apply cons_progT. split; [|apply single_progT].
    + intros Bd. cbn [r_body bodyT] in Bd. rewrite forallb_app in Bd. apply andb_true_iff in Bd as [B1 B2]. cbn in B2. unfold litT in B2. cbn in B2.
      rewrite andb_true_r, up_hi in B2 by auto. unfold chE in B2. rewrite Nat.eqb_refl in B2. cbn in B2. rewrite negb_involutive in B2.
      rewrite <- (ch_b N _ M _) in B1 by apply up_agree. exists h. split; [now left|]. rewrite <- (up_agree k chE N M) by auto. apply H; auto. now left.
    + intros Bd. exists k. split; [now left|]. cbn in Bd. unfold litT in Bd. cbn in Bd. rewrite andb_true_r in Bd. rewrite <- (up_agree k chE M M) in Bd by auto.
      rewrite up_hi by auto. unfold chE. now rewrite Nat.eqb_refl, Bd.
  - intros M H Sb. apply cons_progT in H as [H1 H2]. apply cons_progT. split.
    + apply ruleT_shrink; auto; [exact I|]. intros x [<-|[]] K. rewrite <- (up_agree k chE M M); auto.
    + apply single_progT. intros Bd. exists k. split; [now left|]. cbn in Bd. unfold litT in Bd. cbn in Bd. rewrite andb_true_r in Bd.
      rewrite up_hi by auto. unfold chE. now rewrite Nat.eqb_refl, Bd.
  - intros N M Hs H Ex. apply cons_progT in H as [H1 H2]. apply single_progT. intros Bd x [<-|[]] K. cbn [r_body bodyT] in Bd.
    destruct H1 as (y & [<-|[]] & Hy); [|auto]. cbn [r_body bodyT]. rewrite forallb_app, Bd. cbn. unfold litT. cbn. rewrite andb_true_r, Ex by auto.
    unfold chE. now rewrite Nat.eqb_refl, K.
  - intros N M Hs H a L. unfold chE. rewrite andb_true_iff, Nat.eqb_eq. intros [-> Bd]. apply cons_progT in H as [_ H]. apply single_progT in H.
    destruct H as (y & [<-|[]] & Hy); [|auto]. cbn. unfold litT. cbn. now rewrite Bd.
Qed.
End Choice1.

Lemma hd1_pos h : h <> 0 -> hd1 h = [h].
Proof. intros H. unfold hd1. apply Nat.eqb_neq in H. now rewrite H. Qed.
Lemma addNorm_out s h ls : t_out (addNorm s h ls) = t_out s ++ [Rule false (hd1 h) (Norm ls)].
Proof. reflexivity. Qed.

Lemma replaces_iff k R R' T T' : (forall r, In r R <-> In r R') -> (forall r, In r T <-> In r T') -> replaces k R T -> replaces k R' T'.
Proof.
  intros ER ET H P BP. apply (sameAS_iff k (P ++ R) _ (P ++ T)); [| |now apply H]; apply stable_equiv; intros N M _; apply progT_In; intros r; rewrite !in_app_iff, ?ER, ?ET; tauto.
Qed.
Lemma transformChoice_ok : forall hs s ls, below (t_next s) [Rule true hs (Norm ls)] -> (forall h, In h hs -> h <> 0) -> t_next s <> 0 ->
  exists T, t_out (transformChoice s ls hs) = t_out s ++ T /\ t_next s <= t_next (transformChoice s ls hs) /\ below (t_next (transformChoice s ls hs)) T
    /\ t_aux (transformChoice s ls hs) = t_aux s /\ (forall r, In r T -> exists h ls, r = Rule false [h] (Norm ls))
    /\ replaces (t_next s) [Rule true hs (Norm ls)] T.
Proof.
  induction hs as [|h hs IH]; intros s ls Bl Hz Kz; cbn [transformChoice].
  - exists []. rewrite app_nil_r. split; [auto|]. split; [auto|]. split; [intros r a []|]. split; [auto|]. split; [intros r []|].
    apply replaces_equiv; auto; [intros r a []|]. intros N M _. split; [intros _ r []|]. intros _ r [<-|[]] _ h [].
  - cbn [newAtom]. set (s1 := addNorm (addNorm (St (S (t_next s)) (t_out s) (t_aux s)) h (ls ++ [ngt (t_next s)])) (t_next s) [ngt h]).
    assert (Bl1 : below (t_next s) [Rule true [h] (Norm ls)]).
    { apply single_below. rewrite single_below in Bl. intros a I. apply Bl. cbn in *. rewrite ?in_app_iff in *. tauto. }
    assert (Bl2 : below (t_next s) [Rule true hs (Norm ls)]).
    { apply single_below. rewrite single_below in Bl. intros a I. apply Bl. cbn in *. rewrite ?in_app_iff in *. tauto. }
    assert (Hh : h < t_next s) by (rewrite single_below in Bl; apply Bl; now left).
    destruct (IH s1 ls) as (T & E1 & E2 & E3 & E4 & E5 & E6).
    + now apply (below_le (t_next s)); [cbn; lia|].
    + intros x I. apply Hz. now right.
    + cbn. lia.
    + set (T0 := [Rule false [h] (Norm (ls ++ [ngt (t_next s)])); Rule false [t_next s] (Norm [ngt h])]).
      assert (BT0 : below (S (t_next s)) T0).
      { intros r a [<-|[<-|[]]] I; cbn in I.
        - destruct I as [<-|I]; [lia|]. rewrite map_app in I. apply in_app_iff in I as [I|[<-|[]]]; [|cbn; lia]. apply in_map_iff in I as (p & <- & I). pose proof (ch_ls _ _ _ Bl1 p I). lia.
        - destruct I as [<-|[<-|[]]]; lia. }
      exists (T0 ++ T). split; [|split; [|split; [|split; [|split]]]].
      * rewrite E1. unfold s1. rewrite !addNorm_out. cbn [t_out]. rewrite (hd1_pos h), (hd1_pos (t_next s)); [|auto|apply Hz; now left]. now rewrite <- !app_assoc.
      * cbn in E2. lia.
      * apply below_app. split; [|auto]. apply (below_le (S (t_next s))); [cbn in E2; lia|auto].
      * now rewrite E4.
      * intros r I. apply in_app_iff in I as [[<-|[<-|[]]]|I]; eauto.
      * apply (replaces_trans (t_next s) (t_next s) _ ([Rule true [h] (Norm ls)] ++ [Rule true hs (Norm ls)])); [auto| |].
        -- apply replaces_equiv; auto; [apply below_app; auto|]. intros N M _. rewrite progT_app, !single_progT. unfold ruleT. cbn [r_choice r_head r_body]. split.
           ++ intros X. split; intros Bd x I; apply X; auto; [destruct I as [<-|[]]; now left|now right].
           ++ intros [X Y] Bd x [<-|I]; [apply X; auto; now left|now apply Y].
        -- apply (replaces_app _ (S (t_next s))); auto. now apply choice1.
Qed.

(** ** shifting a disjunction *)
Definition others (hs : list nat) (i : nat) : list lit := map ngt (firstn i hs ++ skipn (S i) hs).
Fixpoint shifted (ls : list lit) (pre hs : list nat) : prog :=
  match hs with
  | [] => []
  | h :: r => Rule false (hd1 h) (Norm (ls ++ map ngt (pre ++ r))) :: shifted ls (pre ++ [h]) r
  end.
Lemma shiftLoop_ok ls0 : forall hs s h pre, shiftLoop s (ls0 ++ map ngt (pre ++ hs)) (length ls0 + length pre) h hs
  = St (t_next s) (t_out s ++ shifted ls0 pre (h :: hs)) (t_aux s).
Proof.
  induction hs as [|h' hs IH]; intros s h pre; cbn [shiftLoop shifted].
  - unfold addNorm, addRule. reflexivity.
  - assert (X : firstn (length ls0 + length pre) (ls0 ++ map ngt (pre ++ h' :: hs)) ++ ngt h :: skipn (S (length ls0 + length pre)) (ls0 ++ map ngt (pre ++ h' :: hs))
            = ls0 ++ map ngt ((pre ++ [h]) ++ hs)).
    { assert (Ex : ls0 ++ map ngt (pre ++ h' :: hs) = (ls0 ++ map ngt pre) ++ ngt h' :: map ngt hs) by (rewrite map_app, <- app_assoc; reflexivity).
      assert (Ln : length ls0 + length pre = length (ls0 ++ map ngt pre)) by now rewrite app_length, map_length.
      rewrite Ex, Ln, firstn_app, Nat.sub_diag, firstn_all. cbn [firstn]. rewrite app_nil_r.
      rewrite skipn_app. replace (S (length (ls0 ++ map ngt pre)) - length (ls0 ++ map ngt pre)) with 1 by lia.
      rewrite skipn_all2 by lia. cbn [skipn app]. rewrite !map_app. cbn [map]. rewrite <- !app_assoc. reflexivity. }
    rewrite X. replace (S (length ls0 + length pre)) with (length ls0 + length (pre ++ [h])) by (rewrite app_length; cbn; lia).
    rewrite IH. unfold addNorm, addRule. cbn [t_next t_out t_aux]. f_equal. rewrite <- app_assoc. reflexivity.
Qed.
Lemma transformDisjunction_ok s ls hs s' : transformDisjunction s ls hs = Ok s' -> s' = St (t_next s) (t_out s ++ shifted ls [] hs) (t_aux s).
Proof.
  unfold transformDisjunction. destruct hs as [|h hs]; [discriminate|]. intros E. injection E as <-.
  pose proof (shiftLoop_ok ls hs s h []) as X. cbn [app length] in X. now rewrite Nat.add_0_r in X.
Qed.
Lemma shifted_in ls : forall hs pre r, In r (shifted ls pre hs) <-> exists p h q, hs = p ++ h :: q /\ r = Rule false (hd1 h) (Norm (ls ++ map ngt (pre ++ p ++ q))).
Proof.
  induction hs as [|h hs IH]; intros pre r; cbn [shifted].
  - split; [intros []|]. intros (p & h & q & E & _). destruct p; discriminate.
  - split.
    + intros [<-|I]; [exists [], h, hs; auto|]. apply IH in I as (p & h' & q & -> & ->). exists (h :: p), h', q. split; [auto|]. now rewrite <- app_assoc.
    + intros (p & h' & q & E & ->). destruct p as [|x p]; cbn in E; injection E as -> ->; [now left|]. right. apply IH. exists p, h', q. split; [auto|]. now rewrite <- app_assoc.
Qed.
