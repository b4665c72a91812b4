From Coq Require Import List Bool Arith ZArith Lia Permutation.
From Verif Require Import Base ClModel ClSpec ClProofs BpModel BpSpec BpProofs BpProofs2 BpProofs3 BpProofs4 BpProofs5 CaModel CaSpec CaProofs7 SeModel SeSpec.
Import ListNotations.

(** * Predicates kept by propagation *)
Definition plain (w : why) : Prop := w <> Dec /\ w <> Ext.
Section Keep.
Variable P : st -> Prop.
Hypothesis Pforce : forall s p w, plain w -> P s -> P (fst (force s p w)).
Hypothesis Pfront : forall s f, P s -> P (set_front s f).
Hypothesis Pwl : forall s w, P s -> P (set_wl s w).
Hypothesis Pcls : forall s c, P s -> P (set_cls s c).

Lemma bins_k : forall p l s, P s -> P (fst (bins s p l)).
Proof.
  induction l as [|x l IH]; intros s H; cbn [bins]; auto. destruct (isT s x); auto.
  pose proof (Pforce s x (By1 p) ltac:(split; discriminate) H) as F. destruct (force s x (By1 p)) as [s1 ok]. destruct ok; cbn [fst] in *; auto.
Qed.
Lemma terns_k : forall p l s, P s -> P (fst (terns s p l)).
Proof.
  induction l as [|[x y] l IH]; intros s H; cbn [terns]; auto. destruct (_ && _); auto.
  pose proof (Pforce s y (By2 p (neg x)) ltac:(split; discriminate) H) as F1. pose proof (Pforce s x (By2 p (neg y)) ltac:(split; discriminate) H) as F2.
  destruct (isF s x); [destruct (force s y (By2 p (neg x))) as [s1 ok]|destruct (force s x (By2 p (neg y))) as [s1 ok]]; destruct ok; cbn [fst] in *; auto.
Qed.
Lemma cl_prop_k : forall s p i c, P s -> P (fst (fst (cl_prop s p i c))).
Proof.
  intros s p i c H. unfold cl_prop. destruct (isT s _); auto. destruct (negb _); [cbn; apply Pwl; auto|]. destruct (updateWatch s c _); [cbn; apply Pwl; auto|].
  pose proof (Pforce s (head c (negb (lit_eqb (h1 c) (neg p)))) (ByC i) ltac:(split; discriminate) H) as F. destruct (force s _ (ByC i)) as [s1 ok]. exact F.
Qed.
Lemma wloop_k : forall p l s, P s -> P (fst (fst (wloop s p l))).
Proof.
  induction l as [|i l IH]; intros s H; cbn [wloop]; auto. destruct (nth i (b_cls s) None) as [c|]; auto.
  pose proof (cl_prop_k s p i c H) as F. destruct (cl_prop s p i c) as [[s1 ok] keep]. destruct ok; cbn [fst] in *; auto.
  specialize (IH s1 F). destruct (wloop s1 p l) as [[s2 r] b]. exact IH.
Qed.
Lemma prop1_k : forall s p, P s -> P (fst (prop1 s p)).
Proof.
  intros s p H. unfold prop1. pose proof (bins_k p (b_bin (set_front s (S (b_front s))) p) (set_front s (S (b_front s))) (Pfront _ _ H)) as F1.
  destruct (bins _ p _) as [s1 ok1]. destruct ok1; cbn [negb fst] in *; auto.
  pose proof (terns_k p (b_tern s1 p) s1 F1) as F2. destruct (terns s1 p _) as [s2 ok2]. destruct ok2; cbn [negb fst] in *; auto.
  pose proof (wloop_k p (b_wl s2 p) s2 F2) as F3. destruct (wloop s2 p _) as [[s3 l] ok3]. cbn in *. auto.
Qed.
Lemma propagate_k : forall fuel s, P s -> P (fst (propagate fuel s)).
Proof.
  induction fuel as [|fuel IH]; intros s H; cbn [propagate]; auto. destruct (nth_error _ _) as [e|]; auto.
  pose proof (prop1_k s (e_lit e) H) as F. destruct (prop1 s (e_lit e)) as [s1 ok]. destruct ok; cbn [fst] in *; auto.
Qed.
End Keep.

(** Propagation only adds literals with reasons, on the current level *)
Definition ext (s s' : st) : Prop :=
  (exists x, b_trail s' = b_trail s ++ x /\ forall e, In e x -> plain (e_why e) /\ e_lev e = b_dl s) /\
  b_dl s' = b_dl s /\ b_root s' = b_root s /\ length (b_cls s') = length (b_cls s) /\ (NE s -> NE s').
Lemma ext_refl : forall s, ext s s.
Proof. intros s. split; [exists []; rewrite app_nil_r; split; auto; intros e []|sp; auto]. Qed.
Lemma put_at_length : forall (A : Type) (l : list A) i x, length (put_at l i x) = length l.
Proof. induction l; destruct i; cbn; auto. Qed.

Lemma ext_trans : forall a b c, ext a b -> ext b c -> ext a c.
Proof.
  intros a b c [[x [X1 X2]] [A1 [A2 [A3 A4]]]] [[y [Y1 Y2]] [B1 [B2 [B3 B4]]]]. split; [|sp; auto; congruence].
  exists (x ++ y). rewrite Y1, X1, app_assoc. split; auto. intros e E. apply in_app_or in E as [E|E]; auto. rewrite A1 in Y2. auto.
Qed.
Lemma forceG_ext : forall s p w g, plain w -> ext s (fst (forceG s p w g)).
Proof.
  intros s p w g W. unfold forceG. destruct (isT s p); [|destruct (isF s p)]; cbn [fst]; [apply ext_refl| |].
  - split; [exists []; cbn; rewrite app_nil_r; split; auto; intros e []|]. cbn. sp; auto. intros _ q E. cbn in E. inversion E. destruct W. congruence.
  - split; [exists [Ent p (b_dl s) w g]; cbn; split; auto; intros e [<-|[]]; auto|]. cbn. sp; auto.
Qed.
Lemma propagate_ext : forall fuel s, ext s (fst (propagate fuel s)).
Proof.
  intros fuel s. assert (X : forall s', (ext s s' /\ True) -> True) by auto.
  assert (Q : forall i c s', ext s s' -> length (put_at (b_cls s') i c) = length (b_cls s)).
  { intros i c s' E. rewrite put_at_length. apply E. }
  (* the predicate must allow the clauses to be replaced: lengths are compared separately *)
  assert (E0 : (exists x, b_trail (fst (propagate fuel s)) = b_trail s ++ x /\ forall e, In e x -> plain (e_why e) /\ e_lev e = b_dl s) /\
    b_dl (fst (propagate fuel s)) = b_dl s /\ b_root (fst (propagate fuel s)) = b_root s /\ (NE s -> NE (fst (propagate fuel s)))).
  { apply (propagate_k (fun s' => (exists x, b_trail s' = b_trail s ++ x /\ forall e, In e x -> plain (e_why e) /\ e_lev e = b_dl s) /\
      b_dl s' = b_dl s /\ b_root s' = b_root s /\ (NE s -> NE s'))); auto.
    - intros s1 p w W [[x [X1 X2]] [A1 [A2 A3]]]. destruct (forceG_ext s1 p w (b_dl s1) W) as [[y [Y1 Y2]] [B1 [B2 [B3 B4]]]]. fold (force s1 p w) in *.
      sp; auto; try congruence. exists (x ++ y). rewrite Y1, X1, app_assoc. split; auto. intros e E. apply in_app_or in E as [E|E]; auto. rewrite A1 in Y2. auto.
    - sp; auto. exists []. rewrite app_nil_r. split; auto. intros e []. }
  destruct E0 as [E1 [E2 [E3 E4]]]. split; auto. sp; auto. clear.
  revert s. assert (B : forall p l s, length (b_cls (fst (bins s p l))) = length (b_cls s)).
  { induction l as [|x l IH]; intros s; cbn [bins]; auto. destruct (isT s x); auto. pose proof (forceG_fields s x (By1 p) (b_dl s)) as F.
    fold (force s x (By1 p)) in F. destruct (force s x (By1 p)) as [s1 []]; cbn [fst] in *; [rewrite IH|]; destruct F as [_ [_ [F _]]]; congruence. }
  assert (T : forall p l s, length (b_cls (fst (terns s p l))) = length (b_cls s)).
  { induction l as [|[x y] l IH]; intros s; cbn [terns]; auto. destruct (_ && _); auto.
    pose proof (forceG_fields s y (By2 p (neg x)) (b_dl s)) as F1. pose proof (forceG_fields s x (By2 p (neg y)) (b_dl s)) as F2. fold (force s x (By2 p (neg y))) in F2. fold (force s y (By2 p (neg x))) in F1.
    destruct (isF s x); [destruct (force s y (By2 p (neg x))) as [s1 []]|destruct (force s x (By2 p (neg y))) as [s1 []]]; cbn [fst] in *; rewrite ?IH; destruct F1 as [_ [_ [F1 _]]], F2 as [_ [_ [F2 _]]]; congruence. }
  assert (C : forall s p i c, length (b_cls (fst (fst (cl_prop s p i c)))) = length (b_cls s)).
  { intros s p i c. unfold cl_prop. destruct (isT s _); auto. destruct (negb _); [cbn; apply put_at_length|]. destruct (updateWatch s c _); [cbn; apply put_at_length|].
    pose proof (forceG_fields s (head c (negb (lit_eqb (h1 c) (neg p)))) (ByC i) (b_dl s)) as F1. fold (force s (head c (negb (lit_eqb (h1 c) (neg p)))) (ByC i)) in F1.
    destruct (force s _ (ByC i)) as [s1 ok]. cbn [fst] in *. destruct F1 as [_ [_ [F1 _]]]. congruence. }
  assert (W : forall p l s, length (b_cls (fst (fst (wloop s p l)))) = length (b_cls s)).
  { induction l as [|i l IH]; intros s; cbn [wloop]; auto. destruct (nth i (b_cls s) None) as [c|]; auto.
    pose proof (C s p i c) as F. destruct (cl_prop s p i c) as [[s1 ok] keep]. destruct ok; cbn [fst] in *; auto.
    specialize (IH s1). destruct (wloop s1 p l) as [[s2 r] b]. cbn [fst] in *. congruence. }
  induction fuel as [|fuel IH]; intros s; cbn [propagate]; auto. destruct (nth_error _ _) as [e|]; auto.
  assert (F : length (b_cls (fst (prop1 s (e_lit e)))) = length (b_cls s)).
  { unfold prop1. set (p := e_lit e). pose proof (B p (b_bin (set_front s (S (b_front s))) p) (set_front s (S (b_front s)))) as F1.
    destruct (bins _ p _) as [s1 ok1]. destruct ok1; cbn [negb fst] in *; auto.
    pose proof (T p (b_tern s1 p) s1) as F2. destruct (terns s1 p _) as [s2 ok2]. destruct ok2; cbn [negb fst] in *; [|rewrite F2; exact F1].
    pose proof (W p (b_wl s2 p) s2) as F3. destruct (wloop s2 p _) as [[s3 l] ok3]. cbn in *. congruence. }
  destruct (prop1 s (e_lit e)) as [s1 ok]. destruct ok; cbn [fst] in *; auto. rewrite IH. exact F.
Qed.

(** * Shape of the trail: the decisions of the levels *)
Record Shape (s : st) : Prop := {
  sh_dec : forall t1 e t2, b_trail s = t1 ++ e :: t2 -> e_why e = Dec -> 1 <= e_lev e /\ e_log e = e_lev e /\ forall e', In e' t1 -> e_lev e' < e_lev e;
  sh_all : forall i, 1 <= i <= b_dl s -> exists e, In e (b_trail s) /\ e_why e = Dec /\ e_lev e = i;
  sh_ext : forall e, In e (b_trail s) -> e_why e <> Ext;
  sh_conf : NE s }.

Lemma shape_init : Shape init.
Proof.
  constructor; cbn.
  - intros [|a t1] e t2 H; inversion H; subst; cbn; [discriminate|]. destruct t1; discriminate.
  - intros i H. lia.
  - intros e [<-|[]]. discriminate.
  - intros p. discriminate.
Qed.
Lemma shape_grow : forall s s' x, Shape s -> b_trail s' = b_trail s ++ x -> (forall e, In e x -> plain (e_why e)) -> b_dl s' = b_dl s -> NE s' -> Shape s'.
Proof.
  intros s s' x [A B C E] T X DL N. constructor; auto.
  - intros t1 e t2 H W. rewrite T in H. apply app_split in H as [[t3 [H _]]|[t3 [_ H]]]; [eauto|].
    exfalso. apply (proj1 (X e ltac:(rewrite H; apply in_or_app; right; now left))). exact W.
  - intros i I. rewrite DL in I. destruct (B i I) as [e [E1 E2]]. exists e. split; auto. rewrite T. apply in_or_app. auto.
  - intros e I. rewrite T in I. apply in_app_or in I as [I|I]; auto. apply X; auto.
Qed.
Lemma shape_ext : forall s s', Shape s -> ext s s' -> Shape s'.
Proof. intros s s' S [[x [X1 X2]] [A [_ [_ N]]]]. apply (shape_grow s s' x S X1); auto; [intros e E; apply X2; auto|]. apply N, S. Qed.
Lemma shape_assume : forall n s D G p, Core n s D G -> Shape s -> Shape (assume s p).
Proof.
  intros n s D G p K S. unfold assume. destruct (_ || _); auto. destruct S as [A B C E]. constructor; cbn.
  - intros t1 e t2 H W. apply snoc_split in H as [[-> [-> ->]]|[t3 [H _]]]; [|eauto]. cbn. sp; auto; [lia|]. intros e' I. pose proof (k_lv _ _ _ _ K e' I). lia.
  - intros i I. destruct (Nat.eq_dec i (S (b_dl s))) as [-> |N].
    + exists (Ent p (S (b_dl s)) Dec (S (b_dl s))). sp; auto. apply in_or_app. right. now left.
    + destruct (B i ltac:(lia)) as [e [E1 E2]]. exists e. split; auto. apply in_or_app. auto.
  - intros e I. apply in_app_or in I as [I|[<-|[]]]; auto. discriminate.
  - exact E.
Qed.
Lemma shape_undoG : forall n s D G r l, Core n s D G -> Shape s -> r <= l -> l < b_dl s -> Shape (undo (setRoot s r) l).
Proof.
  intros n s D G r l K [A B C E] RL LT. rewrite (undo_eqG s r l LT RL).
  assert (PL : forall e, In e (again l (b_trail s)) -> plain (e_why e)).
  { intros e I. unfold again in I. apply in_map_iff in I as [e0 [<- I]]. apply filter_In in I as [I H]. apply andb_true_iff in H as [H1 H2]. apply Nat.ltb_lt in H1. apply Nat.leb_le in H2.
    cbn. split; [|apply C; auto]. intros W. apply in_split in I as [t1 [t2 I]]. destruct (A t1 e0 t2 I W) as [_ [X _]]. lia. }
  apply (shape_grow (St (kept l (b_trail s)) (length (kept l (b_trail s))) l (b_bin s) (b_tern s) (b_cls s) (b_wl s) None r) _ (again l (b_trail s))); auto; [|intros q; discriminate].
  destruct (filter_prefix (b_trail s) l (k_so _ _ _ _ K)) as [x X]. fold (kept l (b_trail s)) in X. constructor; cbn.
  - intros t1 e t2 H W. apply (A t1 e (t2 ++ x)); auto. rewrite X at 1. rewrite H. rewrite <- app_assoc. reflexivity.
  - intros i I. destruct (B i ltac:(lia)) as [e [E1 [E2 E3]]]. exists e. sp; auto. apply filter_In. split; auto. apply Nat.leb_le. lia.
  - intros e I. apply filter_In in I as [I _]. auto.
  - intros q. discriminate.
Qed.
Lemma shape_undo : forall n s D G l, Core n s D G -> Shape s -> Shape (undo s l).
Proof.
  intros n s D G l K S. destruct (Nat.lt_ge_cases (Nat.max l (b_root s)) (b_dl s)) as [H|H]; [|rewrite undo_ge; auto].
  rewrite undo_max. rewrite <- (setRoot_id s) at 1. apply (shape_undoG n s D G); auto. lia.
Qed.
Lemma shape_root : forall s r, Shape s -> Shape (setRoot s r).
Proof. intros s r [A B C E]. constructor; auto. Qed.
Lemma shape_pop : forall n s D G k, Core n s D G -> Shape s -> Shape (popRootLevel s k).
Proof.
  intros n s D G k K S. unfold popRootLevel. set (r := b_root s - Nat.min k (b_root s)).
  destruct (Nat.lt_ge_cases r (b_dl s)) as [H|H]; [apply (shape_undoG n s D G); auto|]. rewrite undo_ge; [apply shape_root; auto|]. cbn. lia.
Qed.

(** The decision of a level *)
Lemma dec_split : forall n s D G i, Core n s D G -> Shape s -> 1 <= i <= b_dl s -> exists t1 e t2, b_trail s = t1 ++ e :: t2 /\ e_why e = Dec /\ e_lev e = i /\
  t1 = filter (fun e => Nat.ltb (e_lev e) i) (b_trail s) /\ (forall e', In e' t2 -> i <= e_lev e').
Proof.
  intros n s D G i K S I. destruct (sh_all s S i I) as [e [E1 [E2 E3]]]. apply in_split in E1 as [t1 [t2 T]].
  exists t1, e, t2. destruct (sh_dec s S t1 e t2 T E2) as [_ [_ X]].
  assert (Y : forall e', In e' t2 -> i <= e_lev e').
  { intros e' I'. apply in_split in I' as [u1 [u2 U]]. subst t2. rewrite <- E3. apply (k_so _ _ _ _ K (t1 ++ e :: u1) e' u2); [rewrite T, <- app_assoc; reflexivity|]. apply in_or_app. right. now left. }
  sp; auto. rewrite T, filter_app. cbn [filter]. rewrite E3, Nat.ltb_irrefl, filter_all, filter_none, app_nil_r; auto.
  - intros e' I'. apply Nat.ltb_ge. auto.
  - intros e' I'. apply Nat.ltb_lt. rewrite <- E3. auto.
Qed.
Lemma dec_unique : forall n s D G e, Core n s D G -> Shape s -> In e (b_trail s) -> e_why e = Dec -> 1 <= e_lev e <= b_dl s /\
  exists t1 t2, b_trail s = t1 ++ e :: t2 /\ t1 = filter (fun x => Nat.ltb (e_lev x) (e_lev e)) (b_trail s).
Proof.
  intros n s D G e K S I W. apply in_split in I as [t1 [t2 T]]. destruct (sh_dec s S t1 e t2 T W) as [A [_ X]].
  assert (L : e_lev e <= b_dl s). { apply (k_lv _ _ _ _ K). rewrite T. apply in_or_app. right. now left. }
  split; auto. exists t1, t2. split; auto. rewrite T, filter_app. cbn [filter]. rewrite Nat.ltb_irrefl, filter_all, filter_none, app_nil_r; auto.
  - intros e' I'. apply Nat.ltb_ge. apply in_split in I' as [u1 [u2 U]]. subst t2. apply (k_so _ _ _ _ K (t1 ++ e :: u1) e' u2); [rewrite T, <- app_assoc; reflexivity|]. apply in_or_app. right. now left.
  - intros e' I'. apply Nat.ltb_lt. auto.
Qed.
