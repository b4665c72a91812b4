(** C53: the represented clauses along a history. *)
From Coq Require Import List Arith Bool Lia Permutation.
From Verif Require Import Base IgSpec BtSpec BtModel BtProofs BtProofs2.
Import ListNotations.

Definition proc (P : list lit) (l : lit) : Prop := exists p, In p P /\ fst p = fst l.
Lemma proc_dec P l : {proc P l} + {~ proc P l}.
Proof.
  induction P as [|p P IH]; [right; now intros (p & [] & _)|]. destruct (Nat.eq_dec (fst p) (fst l)) as [E | N]; [left; exists p; split; [now left | easy]|].
  destruct IH as [Y | Y]; [left | right].
  - destruct Y as (q & Q1 & Q2). exists q. split; [now right | easy].
  - intros (q & [-> | Q1] & Q2); [easy|]. apply Y. now exists q.
Qed.
Record Rep (g : graph) (s : pasg) (P : list lit) (cs : list (bool * sclause)) (bs : list sclause) : Prop := mkRep {
  rP : forall p, In p P -> isTrue s p = true;
  rWf : Forall (fun fc => distinct (snd fc)) cs;
  rWfb : Forall distinct bs;
  rOff : forall p fc, In p P -> In fc cs -> ~ In p (lits (snd fc)) /\ (In (neg p) (lits (snd fc)) -> isC2 (snd fc) = true);
  rL : forall l, proc P l -> g_l g l = [] /\ g_r g l = [] /\ g_b g l = [];
  rN : forall l, ~ proc P l -> Permutation (g_l g l) (flat_map (binOf l) cs) /\ Permutation (g_r g l) (flat_map (terOf l) cs);
  rB : forall l e, In e (g_b g l) -> exists c, In c bs /\ In (l, e) (entries c);
  rB' : forall l e c, ~ proc P l -> In c bs -> In (l, e) (entries c) -> notTrue s e = true -> In e (g_b g l);
  rCnt : forall f, f = false \/ bs = [] -> g_bin g f = nb f cs /\ g_tern g f = nt f cs;
  rSet : Forall (fun fc => settled s (lits (snd fc))) cs;
  rSetb : Forall (fun c => settled s (lits c)) bs }.
Definition mean (A : asg) (cs : list (bool * sclause)) (bs : list sclause) : Prop := Forall (fun fc => satc A (snd fc)) cs /\ Forall (satc A) bs.

Lemma nb_app f a b : nb f (a ++ b) = nb f a + nb f b.
Proof. unfold nb. now rewrite filter_app, app_length. Qed.
Lemma nt_app f a b : nt f (a ++ b) = nt f a + nt f b.
Proof. unfold nt. now rewrite filter_app, app_length. Qed.
Lemma numb_app f a b : numb f (a ++ b) = numb f a + numb f b.
Proof. unfold numb. now rewrite filter_app, app_length. Qed.
Lemma num_app f a b : num f (a ++ b) = num f a + num f b.
Proof. unfold num. now rewrite filter_app, app_length. Qed.
Lemma numb_perm {A} f (h : A -> bool) a b : Permutation a b -> numb f (map h a) = numb f (map h b).
Proof. intro H. unfold numb. apply Permutation_length, Perm_filter, Permutation_map, H. Qed.
Lemma num_perm {A} l (h : A -> lit) a b : Permutation a b -> num l (map h a) = num l (map h b).
Proof. intro H. unfold num. apply Permutation_length, Perm_filter, Permutation_map, H. Qed.
Lemma tgs_perm l a b : Permutation a b -> num l (tgs a) = num l (tgs b).
Proof. intro H. unfold num, tgs. apply Permutation_length, Perm_filter. now apply Permutation_flat_map. Qed.

Section Rem.
Variables (s : pasg) (p : lit) (cs : list (bool * sclause)).
Hypothesis W : Forall (fun fc => distinct (snd fc)) cs.
Lemma all_bin_cnt l : length (filter (isB p) (flat_map (binOf l) cs)) <= num l (map (fun x => neg (fst x)) (flat_map (binOf (neg p)) cs)).
Proof. clear W. induction cs as [|fc r IH]; [cbn; lia|]. cbn [flat_map]. rewrite filter_app, map_app, app_length, num_app. pose proof (bin_cnt p l fc). lia. Qed.
Lemma all_ter_cnt x l : length (filter (isT x) (flat_map (terOf l) cs)) <= num l (tgs (flat_map (terOf (neg x)) cs)).
Proof. clear W. induction cs as [|fc r IH]; [cbn; lia|]. cbn [flat_map]. unfold tgs in *. rewrite filter_app, flat_map_app, app_length, num_app. pose proof (ter_cnt x l fc) as H. unfold tgs in H. lia. Qed.
Lemma all_bin_simp l : fst l <> fst p ->
  Permutation (filter (fun x => negb (isB p x)) (flat_map (binOf l) cs) ++ flat_map (addf s l) (flat_map (terOf p) cs)) (flat_map (binOf l) (flat_map (simp s p) cs)).
Proof.
  intro V. revert W. induction cs as [|fc r IH]; intro W'; [easy|]. inversion W' as [|? ? W1 W2]; subst. cbn [flat_map]. rewrite filter_app, !flat_map_app, <- (bin_simp s p l fc W1 V), <- !app_assoc.
  apply Permutation_app_head. rewrite Permutation_app_comm, <- app_assoc. apply Permutation_app_head. rewrite Permutation_app_comm. apply IH, W2.
Qed.
Lemma all_ter_simp l : fst l <> fst p -> filter (fun x => negb (isT (neg p) x)) (filter (fun x => negb (isT p x)) (flat_map (terOf l) cs)) = flat_map (terOf l) (flat_map (simp s p) cs).
Proof. intro V. revert W. induction cs as [|fc r IH]; intro W'; [easy|]. inversion W' as [|? ? W1 W2]; subst. cbn [flat_map]. rewrite !filter_app, flat_map_app, IH, (ter_simp s p l fc W1 V) by easy. easy. Qed.
Lemma all_ter_p : filter (fun x => negb (isT p x)) (flat_map (terOf p) cs) = flat_map (terOf p) cs.
Proof. revert W. induction cs as [|fc r IH]; intro W'; [easy|]. inversion W' as [|? ? W1 W2]; subst. cbn [flat_map]. now rewrite filter_app, IH, (ter_p p fc W1). Qed.
Lemma all_nb f : nb f cs + numb f (map snd (filter (both s) (flat_map (terOf p) cs))) = nb f (flat_map (simp s p) cs) + numb f (map snd (flat_map (binOf (neg p)) cs)) /\
  numb f (map snd (flat_map (binOf (neg p)) cs)) <= nb f cs /\
  nt f cs = nt f (flat_map (simp s p) cs) + numb f (map snd (flat_map (terOf (neg p)) cs)) + numb f (map snd (flat_map (terOf p) cs)).
Proof.
  revert W. induction cs as [|fc r IH]; intro W'; [easy|]. inversion W' as [|? ? W1 W2]; subst. destruct (IH W2) as (A & B & C). destruct (nb_simp s p f fc W1) as (A' & B' & C').
  cbn [flat_map]. change (fc :: r) with ([fc] ++ r). rewrite !filter_app, !map_app, !nb_app, !nt_app, !numb_app. lia.
Qed.
End Rem.

Lemma true_neg s x : isTrue s x = true -> isTrue s (neg x) = false /\ ~ free s x.
Proof. unfold isTrue, pval, free, neg. destruct x as [v b]. cbn. destruct (s v) as [y|]; cbn; [|easy]. destruct y, b; easy. Qed.
Lemma freeL s x : isFreeL s x = true <-> free s x.
Proof. unfold isFreeL, isFree, free. destruct (s (fst x)); easy. Qed.
(** What a clause with a false literal needs *)
Lemma settled2 s a b p : isTrue s p = true -> a = neg p \/ b = neg p -> settled s [a; b] -> isTrue s (if lit_eqb a (neg p) then b else a) = true.
Proof.
  intros T H S. apply true_neg in T as [T1 T2]. assert (T3 : ~ free s (neg p)) by (unfold free in *; now destruct p).
  assert (N : forall x, isTrue s x = true -> x <> neg p) by (intros x X ->; congruence).
  destruct S as [(x & X & X') | (x & y & X & Y & XY & FX & FY)]; cbn in X.
  - pose proof (N x X') as NX. destruct (lit_eqb a (neg p)) eqn:E; [apply leqb_eq in E; subst a|]; destruct X as [<- | [<- | []]]; try easy. destruct H as [-> | ->]; [now rewrite leqb_refl in E | easy].
  - exfalso. cbn in Y. destruct H as [-> | ->]; destruct X as [<- | [<- | []]], Y as [<- | [<- | []]]; easy.
Qed.

Lemma remove_rep g s P cs bs p : Rep g s P cs bs -> isTrue s p = true -> ~ In p P -> Rep (removeTrue s g p) s (p :: P) (flat_map (simp s p) cs) bs.
Proof.
  intros [R1 R2 R3 R4 R5 R6 R7 R8 R9 R10 R11] T NP.
  assert (NPr : ~ proc P p).
  { intros (q & Q1 & Q2). destruct (var_cases q p Q2) as [-> | ->]; [easy|]. apply R1 in Q1. apply true_neg in T as [T _]. congruence. }
  assert (NPn : ~ proc P (neg p)) by (intros (q & Q1 & Q2); apply NPr; now exists q).
  unfold removeTrue. set (g1 := fold_left (loop1 p) (g_l g (neg p)) g). set (g2 := fold_left (loop2 p) (g_r g1 (neg p)) g1). set (g3 := fold_left (loop3 s) (g_b g2 (neg p)) g2). set (g4 := fold_left (loop4 s p) (g_r g3 p) g3).
  pose proof (fold1 p (g_l g (neg p)) g) as F1. fold g1 in F1. pose proof (fold2 p (g_r g1 (neg p)) g1) as F2. fold g2 in F2.
  destruct (fold3 s (g_b g2 (neg p)) g2) as (F3l & F3r & F3b & F3t & F3n & F3). fold g3 in F3l, F3r, F3b, F3t, F3n, F3. destruct (fold4 s p (g_r g3 p) g3) as (F4l & F4r & F4b & F4bin & F4t). fold g4 in F4l, F4r, F4b, F4bin, F4t.
  assert (G1l : forall l, g_l g1 l = it (num l (map (fun x => neg (fst x)) (g_l g (neg p)))) (rmFirst (isB p)) (g_l g l)) by (intro l; rewrite F1; apply fold_upd).
  assert (G1 : g_r g1 = g_r g /\ g_b g1 = g_b g /\ g_tern g1 = g_tern g /\ forall f, g_bin g1 f = g_bin g f - numb f (map snd (g_l g (neg p)))) by (rewrite F1; repeat split; intro f; apply fold_pred).
  destruct G1 as (G1r & G1b & G1t & G1n).
  assert (G2r : forall l, g_r g2 l = it (num l (tgs (g_r g (neg p)))) (rmFirst (isT p)) (g_r g l)) by (intro l; rewrite F2, <- G1r; apply fold_upd).
  assert (G2 : g_l g2 = g_l g1 /\ g_b g2 = g_b g /\ g_bin g2 = g_bin g1 /\ forall f, g_tern g2 f = g_tern g f - numb f (map snd (g_r g (neg p)))) by (rewrite F2; cbn; repeat split; [easy|]; intro f; rewrite <- G1r, <- G1t; apply fold_pred).
  destruct G2 as (G2l & G2b & G2n & G2t).
  destruct (R6 p NPr) as [Pl Pr]. destruct (R6 (neg p) NPn) as [Nl Nr].
  assert (PR : Permutation (g_r g3 p) (flat_map (terOf p) cs)).
  { rewrite F3r, G2r, rm_filter; [rewrite <- all_ter_p at 1 by easy; now apply Perm_filter|].
    assert (Z : Permutation (filter (isT p) (g_r g p)) (filter (isT p) (filter (fun x => negb (isT p x)) (flat_map (terOf p) cs)))) by (apply Perm_filter; now rewrite all_ter_p).
    rewrite (Permutation_length Z). clear. induction (flat_map _ _) as [|x l IH]; cbn; [lia|]. destruct (isT p x) eqn:E; cbn; rewrite ?E; easy. }
  assert (LL : forall l, fst l <> fst p -> ~ proc P l -> Permutation (g_l g4 l) (flat_map (binOf l) (flat_map (simp s p) cs))).
  { intros l V NL. destruct (R6 l NL) as [L1 _]. rewrite F4l, F3l, G2l, G1l, rm_filter.
    - rewrite <- (all_bin_simp s p cs R2 l V). apply Permutation_app; [now apply Perm_filter | now apply Permutation_flat_map].
    - rewrite (Permutation_length (Perm_filter (isB p) _ _ L1)), (num_perm l (fun x => neg (fst x)) _ _ Nl). apply all_bin_cnt. }
  assert (LR : forall l, fst l <> fst p -> ~ proc P l -> Permutation (g_r g4 l) (flat_map (terOf l) (flat_map (simp s p) cs))).
  { intros l V NL. destruct (R6 l NL) as [_ L1]. rewrite F4r, fold_upd.
    assert (C1 : g_r g3 l = filter (fun x => negb (isT p x)) (g_r g l)).
    { rewrite F3r, G2r. apply rm_filter. rewrite (Permutation_length (Perm_filter (isT p) _ _ L1)), (tgs_perm l _ _ Nr). apply all_ter_cnt. }
    rewrite C1, rm_filter; [rewrite <- (all_ter_simp s p cs R2 l V); now apply Perm_filter, Perm_filter|].
    rewrite (tgs_perm l _ _ PR). etransitivity; [|pose proof (all_ter_cnt cs (neg p) l) as H; rewrite neg_neg in H; exact H].
    rewrite <- (Permutation_length (Perm_filter (isT (neg p)) _ _ L1)). clear. induction (g_r g l) as [|x r IH]; cbn; [lia|]. destruct (negb (isT p x)); cbn; destruct (isT (neg p) x); cbn; lia. }
  assert (LP : forall l, fst l <> fst p -> proc P l -> g_l g4 l = [] /\ g_r g4 l = []).
  { assert (Z : forall A (P0 : A -> bool) n, it n (rmFirst P0) [] = []) by (intros A P0 n; induction n; cbn; easy).
    intros l V PL. destruct (R5 l PL) as (L1 & L2 & _). split.
    - rewrite F4l, F3l, G2l, G1l, L1, Z. cbn [app]. generalize (g_r g3 p). clear - R1 PL. intro xs. induction xs as [|[[q r] f] xs IH]; [easy|]. cbn [flat_map]. rewrite IH, app_nil_r. unfold addf, both. cbn [fst snd].
      destruct (isFreeL s q && isFreeL s r) eqn:B; [|easy]. apply andb_true_iff in B as [B1 B2]. apply freeL in B1, B2. destruct PL as (w & W1 & W2). apply R1 in W1. apply true_neg in W1 as [_ W1]. unfold free in *. rewrite W2 in W1.
      unfold binOf. cbn [fst snd]. rewrite !leqb_var by (cbn; congruence). easy.
    - rewrite F4r, fold_upd. assert (E : g_r g3 l = []) by (rewrite F3r, G2r, L2; apply Z). rewrite E. apply Z. }
  assert (GC : forall l, fst l = fst p -> g_l (clear (clear g4 (neg p)) p) l = [] /\ g_r (clear (clear g4 (neg p)) p) l = [] /\ g_b (clear (clear g4 (neg p)) p) l = []).
  { intros l V. cbn. unfold upd. destruct (var_cases l p V) as [-> | ->]; rewrite leqb_refl; [easy|]. destruct (lit_eqb (neg p) p); easy. }
  assert (GN : forall l, fst l <> fst p -> g_l (clear (clear g4 (neg p)) p) l = g_l g4 l /\ g_r (clear (clear g4 (neg p)) p) l = g_r g4 l /\ g_b (clear (clear g4 (neg p)) p) l = g_b g4 l).
  { intros l V. cbn. unfold upd. rewrite !(leqb_var l) by (cbn; easy). easy. }
  assert (SI : forall fc, In fc (flat_map (simp s p) cs) -> exists fc0, In fc0 cs /\ In fc (simp s p fc0)) by (intros fc H; apply in_flat_map in H; exact H).
  assert (SP : forall fc0 fc, distinct (snd fc0) -> In fc (simp s p fc0) -> distinct (snd fc) /\ incl (lits (snd fc)) (lits (snd fc0)) /\ ~ In p (lits (snd fc)) /\ (In (neg p) (lits (snd fc)) -> isC2 (snd fc) = true) /\
                                (fc = fc0 \/ exists x y, snd fc = C2 x y /\ free s x /\ free s y)).
  { intros [f [a b | a b d]] fc D H; unfold simp in H; cbn [fst snd] in *.
    - destruct (lit_eqb a p) eqn:E1, (lit_eqb b p) eqn:E2; cbn [orb] in H; try easy. destruct H as [<- | []]. cbn [snd]. split; [easy|]. split; [easy|]. split; [|split; [easy | now left]].
      intros [-> | [-> | []]]; rewrite leqb_refl in *; easy.
    - destruct (dist3 _ _ _ D) as (D1 & D2 & D3). destruct (lit_eqb a p) eqn:E1, (lit_eqb b p) eqn:E2, (lit_eqb d p) eqn:E3; cbn [orb] in H; try easy.
      assert (TW : forall x y, x <> p -> y <> p -> fst x <> fst y -> incl [x; y] [a; b; d] -> In fc (two s f x y) -> distinct (snd fc) /\ incl (lits (snd fc)) [a; b; d] /\ ~ In p (lits (snd fc)) /\ (In (neg p) (lits (snd fc)) -> isC2 (snd fc) = true) /\
                                (fc = (f, C3 a b d) \/ exists x y, snd fc = C2 x y /\ free s x /\ free s y)).
      { intros x y X Y XY INC H'. unfold two in H'. destruct (isFreeL s x && isFreeL s y) eqn:B; [|easy]. destruct H' as [<- | []]. apply andb_true_iff in B as [B1 B2]. apply freeL in B1, B2. cbn [snd].
        split; [unfold distinct; cbn; constructor; [intros [Z | []]; now symmetry in Z | now constructor; [|constructor]]|]. split; [easy|]. split; [intros [Z | [Z | []]]; easy|]. split; [easy|]. right. exists x, y. auto. }
      assert (Z1 : a <> p) by (intros ->; now rewrite leqb_refl in E1). assert (Z2 : b <> p) by (intros ->; now rewrite leqb_refl in E2). assert (Z3 : d <> p) by (intros ->; now rewrite leqb_refl in E3).
      destruct (lit_eqb a (neg p)) eqn:E4; [apply (TW b d); auto; intros z Hz; cbn in *; tauto|].
      destruct (lit_eqb b (neg p)) eqn:E5; [apply (TW a d); auto; intros z Hz; cbn in *; tauto|].
      destruct (lit_eqb d (neg p)) eqn:E6; [apply (TW a b); auto; intros z Hz; cbn in *; tauto|].
      destruct H as [<- | []]. cbn [snd]. split; [easy|]. split; [easy|]. split; [intros [Z | [Z | [Z | []]]]; easy|]. split; [|now left].
      intros [-> | [-> | [-> | []]]]; rewrite leqb_refl in *; easy. }
  assert (RW : forall fc, In fc cs -> distinct (snd fc)) by (now apply Forall_forall).
  split.
  - intros q [<- | Q]; auto.
  - apply Forall_forall. intros fc H. destruct (SI fc H) as (fc0 & H0 & H1). now apply (SP fc0 fc (RW _ H0)).
  - easy.
  - intros q fc Q H. destruct (SI fc H) as (fc0 & H0 & H1). destruct (SP fc0 fc (RW _ H0) H1) as (S1 & S2 & S3 & S4 & S5). destruct Q as [<- | Q]; [easy|].
    destruct (R4 q fc0 Q H0) as [O1 O2]. split; [intro X; now apply O1, S2|]. intro X. destruct S5 as [-> | (x & y & -> & _)]; [now apply O2 | easy].
  - intros l (q & [<- | Q] & V).
    + apply GC. now symmetry.
    + destruct (Nat.eq_dec (fst l) (fst p)) as [E | N]; [now apply GC|]. destruct (GN l N) as (-> & -> & ->). assert (PL : proc P l) by now exists q. destruct (LP l N PL) as [-> ->]. split; [easy|]. split; [easy|].
      rewrite F4b. destruct (R5 l PL) as (_ & _ & Z). destruct (g_b g3 l) as [|e r] eqn:B; [easy|]. exfalso. assert (X : In e (g_b g3 l)) by (rewrite B; now left). apply F3 in X. rewrite G2b, Z in X. easy.
  - intros l NL. assert (V : fst l <> fst p) by (intro V; apply NL; exists p; split; [now left | easy]). assert (NL' : ~ proc P l) by (intros (q & Q & V'); apply NL; exists q; split; [now right | easy]).
    destruct (GN l V) as (-> & -> & _). split; auto.
  - intros l e H. destruct (Nat.eq_dec (fst l) (fst p)) as [E | N]; [destruct (GC l E) as (_ & _ & Z); now rewrite Z in H|]. destruct (GN l N) as (_ & _ & Z). rewrite Z, F4b in H. apply F3 in H. rewrite G2b in H. now apply R7.
  - intros l e c NL C1 C2 NT. assert (V : fst l <> fst p) by (intro V; apply NL; exists p; split; [now left | easy]). assert (NL' : ~ proc P l) by (intros (q & Q & V'); apply NL; exists q; split; [now right | easy]).
    destruct (GN l V) as (_ & _ & ->). rewrite F4b. apply F3; [|easy]. rewrite G2b. eapply R8; eauto.
  - intros f F. cbn [clear g_bin g_tern]. rewrite F4bin, F4t, fold_pred. destruct (R9 f F) as [B1 B2].
    assert (E3 : g_bin g3 f = g_bin g2 f /\ g_tern g3 f = g_tern g2 f).
    { destruct F as [-> | ->]; [now split|]. rewrite F3n; [now split|]. rewrite G2b. destruct (g_b g (neg p)) as [|e r] eqn:B; [easy|]. destruct (R7 (neg p) e) as (c & [] & _). rewrite B. now left. }
    destruct E3 as [-> ->]. rewrite G2n, G1n, G2t, B1, B2. destruct (all_nb s p cs R2 f) as (A1 & A2 & A3).
    rewrite (numb_perm f snd _ _ Nl), (numb_perm f snd _ _ Nr), (numb_perm f snd _ _ PR), (numb_perm f snd _ _ (Perm_filter (both s) _ _ PR)). lia.
  - apply Forall_forall. intros fc H. destruct (SI fc H) as (fc0 & H0 & H1). destruct (SP fc0 fc (RW _ H0) H1) as (S1 & S2 & S3 & S4 & S5). rewrite Forall_forall in R10.
    destruct S5 as [-> | (x & y & E & FX & FY)]; [now apply R10|]. right. rewrite E in *. exists x, y. cbn. repeat split; auto. now apply dist2 in S1.
  - easy.
Qed.

Lemma remove_mean g s P cs bs p A : Rep g s P cs bs -> isTrue s p = true -> extends A s -> (Forall (fun fc => satc A (snd fc)) cs <-> Forall (fun fc => satc A (snd fc)) (flat_map (simp s p) cs)).
Proof.
  intros R T X. pose proof (rSet _ _ _ _ _ R) as S. pose proof (rWf _ _ _ _ _ R) as W. clear R.
  assert (HT : forall x, isTrue s x = true -> holds A x = true).
  { intros [v b] H. unfold isTrue, pval in H. unfold holds. cbn in *. specialize (X v). destruct (s v) as [y|]; [|easy]. cbn in H. rewrite (X y eq_refl). now destruct (xorb y b). }
  assert (HN : holds A (neg p) = false). { apply HT in T. unfold holds, neg in *. destruct p as [v b]. cbn in *. destruct (A v), b; easy. }
  assert (TF : ~ free s (neg p) /\ isTrue s (neg p) = false) by (destruct (true_neg s p T); unfold free in *; now destruct p).
  induction cs as [|fc r IH]; [easy|]. inversion S as [|? ? S1 S2]; inversion W as [|? ? W1 W2]; subst. cbn [flat_map]. rewrite Forall_cons_iff, Forall_app, (IH S2 W2).
  enough (E : satc A (snd fc) <-> Forall (fun fc => satc A (snd fc)) (simp s p fc)) by now rewrite E.
  destruct fc as [f [a b | a b d]]; unfold simp; cbn [fst snd] in *.
  - destruct (lit_eqb a p) eqn:E1, (lit_eqb b p) eqn:E2; cbn [orb]; rewrite ?leqb_eq in *; subst.
    1-3: split; [constructor | intros _; exists p; cbn; auto]. rewrite Forall_cons_iff. cbn [snd]. intuition.
  - destruct (lit_eqb a p) eqn:E1, (lit_eqb b p) eqn:E2, (lit_eqb d p) eqn:E3; cbn [orb]; rewrite ?leqb_eq in *; subst.
    1-7: split; [constructor | intros _; exists p; cbn; auto].
    assert (TW : forall x y, (forall z, In z [a; b; d] <-> z = neg p \/ z = x \/ z = y) -> (satc A (C3 a b d) <-> Forall (fun fc => satc A (snd fc)) (two s f x y))).
    { intros x y Z. unfold two. destruct (isFreeL s x && isFreeL s y) eqn:B.
      - rewrite Forall_cons_iff. cbn [snd]. unfold satc. cbn [lits]. split.
        + intros (z & Hz & HA). split; [|constructor]. apply Z in Hz as [-> | Hz]; [congruence|]. exists z. cbn. intuition.
        + intros ((z & Hz & HA) & _). exists z. split; [|easy]. apply Z. cbn in Hz. intuition.
      - split; [constructor|]. intros _. destruct S1 as [(z & Hz & TZ) | (z & w & Hz & Hw & ZW & FZ & FW)]; [exists z; split; [easy | now apply HT]|]. exfalso.
        cbn [lits] in Hz, Hw. apply Z in Hz, Hw. assert (FF : free s x /\ free s y). { destruct Hz as [-> | [-> | ->]]; [easy | |]; destruct Hw as [-> | [-> | ->]]; easy. }
        destruct FF as [FX FY]. apply freeL in FX, FY. now rewrite FX, FY in B. }
    destruct (lit_eqb a (neg p)) eqn:E4; [apply leqb_eq in E4 as ->; apply TW; intro z; cbn; intuition|].
    destruct (lit_eqb b (neg p)) eqn:E5; [apply leqb_eq in E5 as ->; apply TW; intro z; cbn; intuition|].
    destruct (lit_eqb d (neg p)) eqn:E6; [apply leqb_eq in E6 as ->; apply TW; intro z; cbn; intuition|].
    rewrite Forall_cons_iff. cbn [snd]. intuition.
Qed.
