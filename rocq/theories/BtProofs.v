(** C53: closed forms of the loops of removeTrue. *)
From Coq Require Import List Arith Bool Lia Permutation.
From Verif Require Import Base IgSpec BtSpec BtModel.
Import ListNotations.

Lemma leqb_eq a b : lit_eqb a b = true <-> a = b.
Proof. unfold lit_eqb. destruct a as [a x], b as [b y]. cbn. rewrite andb_true_iff, Nat.eqb_eq, eqb_true_iff. split; [now intros [-> ->] | now intros [= -> ->]]. Qed.
Lemma leqb_refl a : lit_eqb a a = true.
Proof. now apply leqb_eq. Qed.
Lemma leqb_ne a b : a <> b -> lit_eqb a b = false.
Proof. intro H. destruct (lit_eqb a b) eqn:E; [now apply leqb_eq in E | easy]. Qed.
Lemma leqb_sym a b : lit_eqb a b = lit_eqb b a.
Proof. destruct (lit_eqb a b) eqn:E; symmetry; [apply leqb_eq in E as ->; apply leqb_refl | apply leqb_ne; intros ->; now rewrite leqb_refl in E]. Qed.
Lemma neg_neg a : neg (neg a) = a.
Proof. destruct a as [v b]. unfold neg. cbn. now rewrite negb_involutive. Qed.
Lemma leqb_neg a b : lit_eqb (neg a) (neg b) = lit_eqb a b.
Proof. destruct (lit_eqb a b) eqn:E; [apply leqb_eq in E as ->; apply leqb_refl | apply leqb_ne; intro H; apply (f_equal neg) in H; rewrite !neg_neg in H; subst; now rewrite leqb_refl in E]. Qed.
Lemma leqb_var a b : fst a <> fst b -> lit_eqb a b = false.
Proof. intro H. apply leqb_ne. now intros ->. Qed.

Fixpoint it {A} (n : nat) (h : A -> A) (x : A) : A := match n with O => x | S n => it n h (h x) end.
Definition num (l : lit) (ts : list lit) : nat := length (filter (lit_eqb l) ts).
Lemma fold_upd {A} (h : A -> A) ts : forall f l, fold_left (fun f t => upd f t h) ts f l = it (num l ts) h (f l).
Proof. induction ts as [|t ts IH]; intros f l; cbn; [easy|]. rewrite IH. unfold num, upd. cbn. now destruct (lit_eqb l t). Qed.
Lemma rm_filter {A} (P : A -> bool) n : forall l, length (filter P l) <= n -> it n (rmFirst P) l = filter (fun x => negb (P x)) l.
Proof.
  assert (Z : forall l, length (filter P l) = 0 -> filter (fun x => negb (P x)) l = l) by (induction l as [|x l IH]; cbn; [easy|]; destruct (P x); cbn; [easy|]; intro H; now rewrite IH).
  assert (F : forall l, filter (fun x => negb (P x)) (rmFirst P l) = filter (fun x => negb (P x)) l) by (induction l as [|x l IH]; cbn; [easy|]; destruct (P x) eqn:E; cbn; [easy|]; rewrite E; cbn; now rewrite IH).
  assert (C : forall l, length (filter P (rmFirst P l)) = pred (length (filter P l))) by (induction l as [|x l IH]; cbn; [easy|]; destruct (P x) eqn:E; cbn; [easy|]; now rewrite E).
  induction n as [|n IH]; intros l H; cbn; [symmetry; apply Z; lia|]. rewrite IH, F; [easy | rewrite C; lia].
Qed.
Definition numb (f : bool) (fs : list bool) : nat := length (filter (Bool.eqb f) fs).
Lemma fold_pred fs : forall b x, fold_left (fun c f => cnt c f pred) fs b x = b x - numb x fs.
Proof. induction fs as [|f fs IH]; intros b x; cbn; [lia|]. rewrite IH. unfold cnt, numb. cbn. destruct (Bool.eqb x f); cbn; lia. Qed.

Lemma fold1 p xs : forall g, fold_left (loop1 p) xs g =
  Gr (fold_left (fun f t => upd f t (rmFirst (isB p))) (map (fun x => neg (fst x)) xs) (g_l g)) (g_r g) (g_b g) (fold_left (fun c f => cnt c f pred) (map snd xs) (g_bin g)) (g_tern g).
Proof. induction xs as [|x xs IH]; intro g; cbn; [now destruct g|]. now rewrite IH. Qed.
Definition tgs (xs : list (lit * lit * bool)) : list lit := flat_map (fun x => [neg (fst (fst x)); neg (snd (fst x))]) xs.
Lemma fold2 p xs : forall g, fold_left (loop2 p) xs g =
  Gr (g_l g) (fold_left (fun f t => upd f t (rmFirst (isT p))) (tgs xs) (g_r g)) (g_b g) (g_bin g) (fold_left (fun c f => cnt c f pred) (map snd xs) (g_tern g)).
Proof. induction xs as [|x xs IH]; intro g; cbn; [now destruct g|]. now rewrite IH. Qed.
Lemma fold3 s xs : forall g, let g' := fold_left (loop3 s) xs g in
  g_l g' = g_l g /\ g_r g' = g_r g /\ g_bin g' false = g_bin g false /\ g_tern g' false = g_tern g false /\ (xs = [] -> g' = g) /\
  forall l e, (In e (g_b g' l) -> In e (g_b g l)) /\ (In e (g_b g l) -> notTrue s e = true -> In e (g_b g' l)).
Proof.
  assert (SL : forall g l l' e, (In e (g_b (simplifyLearnt s g l) l') -> In e (g_b g l')) /\ (In e (g_b g l') -> notTrue s e = true -> In e (g_b (simplifyLearnt s g l) l'))).
  { intros g l l' e. cbn. unfold upd. destruct (lit_eqb l' l); [rewrite filter_In; tauto | tauto]. }
  assert (ONE : forall g x, let g' := loop3 s g x in g_l g' = g_l g /\ g_r g' = g_r g /\ g_bin g' false = g_bin g false /\ g_tern g' false = g_tern g false /\
    forall l e, (In e (g_b g' l) -> In e (g_b g l)) /\ (In e (g_b g l) -> notTrue s e = true -> In e (g_b g' l))).
  { intros g [x | x y]; cbn [loop3].
    - split; [easy|]. split; [easy|]. split; [easy|]. split; [easy|]. intros l e. apply (SL g (neg x) l e).
    - split; [easy|]. split; [easy|]. split; [easy|]. split; [easy|]. intros l e. destruct (SL g (neg x) l e) as [A1 A2]. destruct (SL (decTern (simplifyLearnt s g (neg x)) true) (neg y) l e) as [B1 B2].
      change (g_b (decTern (simplifyLearnt s g (neg x)) true)) with (g_b (simplifyLearnt s g (neg x))) in *. split; [auto | intros U V; apply B2; auto]. }
  induction xs as [|x xs IH]; intro g; cbn [fold_left]; [repeat split; auto|].
  destruct (ONE g x) as (O1 & O2 & O3 & O4 & O5). destruct (IH (loop3 s g x)) as (I1 & I2 & I3 & I4 & _ & I6).
  split; [congruence|]. split; [congruence|]. split; [congruence|]. split; [congruence|]. split; [easy|].
  intros l e. specialize (O5 l e). specialize (I6 l e). split; [intro H; now apply O5, I6 | intros H K; apply I6; [now apply O5 | easy]].
Qed.

(** Entries of a clause for [l], with flags *)
Definition binOf (l : lit) (fc : bool * sclause) : list (lit * bool) :=
  match snd fc with C2 a b => (if lit_eqb l (neg a) then [(b, fst fc)] else []) ++ (if lit_eqb l (neg b) then [(a, fst fc)] else []) | _ => [] end.
Definition terOf (l : lit) (fc : bool * sclause) : list (lit * lit * bool) :=
  match snd fc with
  | C3 a b d => (if lit_eqb l (neg a) then [(b, d, fst fc)] else []) ++ (if lit_eqb l (neg b) then [(a, d, fst fc)] else []) ++ (if lit_eqb l (neg d) then [(a, b, fst fc)] else [])
  | _ => [] end.
Definition both (s : pasg) (x : lit * lit * bool) : bool := isFreeL s (fst (fst x)) && isFreeL s (snd (fst x)).
Definition addf (s : pasg) (l : lit) (x : lit * lit * bool) : list (lit * bool) := if both s x then binOf l (snd x, C2 (fst (fst x)) (snd (fst x))) else [].
Lemma fold4 s p xs : forall g, let g' := fold_left (loop4 s p) xs g in
  (forall l, g_l g' l = g_l g l ++ flat_map (addf s l) xs) /\ g_r g' = fold_left (fun f t => upd f t (rmFirst (isT (neg p)))) (tgs xs) (g_r g) /\ g_b g' = g_b g /\
  (forall f, g_bin g' f = g_bin g f + numb f (map snd (filter (both s) xs))) /\ g_tern g' = fold_left (fun c f => cnt c f pred) (map snd xs) (g_tern g).
Proof.
  induction xs as [|[[q r] f] xs IH]; intro g.
  - cbn. repeat split; [intro; now rewrite app_nil_r | intro; now rewrite Nat.add_0_r].
  - cbn [fold_left]. destruct (IH (loop4 s p g (q, r, f))) as (A & B & C & F & G). cbn zeta. split; [|split; [|split; [|split]]].
    + intro l. rewrite A. cbn [flat_map]. rewrite app_assoc. f_equal. unfold loop4, addf, both, binOf. cbn [fst snd]. destruct (isFreeL s q && isFreeL s r); [|cbn; now rewrite app_nil_r].
      cbn [add g_l remove_tern decTern]. unfold push, upd. destruct (lit_eqb l (neg q)), (lit_eqb l (neg r)); cbn [app]; rewrite <- ?app_assoc, ?app_nil_r; easy.
    + rewrite B. cbn [tgs flat_map app fold_left]. unfold loop4. cbn [fst snd]. destruct (isFreeL s q && isFreeL s r); reflexivity.
    + rewrite C. unfold loop4. destruct (isFreeL s q && isFreeL s r); reflexivity.
    + intro x. rewrite F. cbn [filter]. unfold loop4. unfold both at 2. cbn [fst snd]. destruct (isFreeL s q && isFreeL s r); [|easy].
      cbn [add g_bin remove_tern decTern]. unfold cnt, numb. cbn. destruct (Bool.eqb x f); cbn; lia.
    + rewrite G. cbn [map fold_left]. unfold loop4. destruct (isFreeL s q && isFreeL s r); reflexivity.
Qed.

Lemma Perm_filter {A} (P : A -> bool) l l' : Permutation l l' -> Permutation (filter P l) (filter P l').
Proof. induction 1; cbn; [easy | destruct (P x); [now constructor | easy] | destruct (P x), (P y); try easy; apply perm_swap | etransitivity; eauto]. Qed.
Lemma filter_flat {A B} (P : B -> bool) (f : A -> list B) l : filter P (flat_map f l) = flat_map (fun x => filter P (f x)) l.
Proof. induction l as [|x l IH]; cbn; [easy|]. now rewrite filter_app, IH. Qed.
