(** C53: the other operations and the meaning of what is visited. *)
From Coq Require Import List Arith Bool Lia Permutation.
From Verif Require Import Base IgSpec BtSpec BtModel BtProofs BtProofs2 BtProofs3.
Import ListNotations.

Lemma true_ext s s' x : pextends s' s -> isTrue s x = true -> isTrue s' x = true.
Proof. unfold pextends, isTrue, pval. intros H. specialize (H (fst x)). destruct (s (fst x)) as [b|]; [|easy]. rewrite (H b eq_refl). easy. Qed.
Lemma free_proc s P x : (forall p, In p P -> isTrue s p = true) -> free s x -> ~ proc P (neg x).
Proof. intros H F (p & P1 & P2). apply H in P1. apply true_neg in P1 as [_ P1]. apply P1. unfold free in *. cbn in P2. now rewrite P2. Qed.
Lemma settled_incl s c d : incl c d -> settled s c -> settled s d.
Proof. intros I [(x & X & Y) | (x & y & X & Y & Z)]; [left | right]; [exists x | exists x, y]; repeat split; try apply I; easy. Qed.
(** The entry of a literal of a clause *)
Lemma entry_of c x : In x (lits c) -> exists e, In (neg x, e) (entries c) /\ incl (elits e) (lits c) /\ forall y, In y (lits c) -> y = x \/ In y (elits e).
Proof.
  destruct c as [a b | a b d]; cbn [lits entries].
  - intros [<- | [<- | []]]; eexists; (split; [cbn; eauto|]); cbn; (split; [intros z; cbn; tauto | intros y; intuition]).
  - intros [<- | [<- | [<- | []]]]; eexists; (split; [cbn; eauto|]); cbn; (split; [intros z; cbn; tauto | intros y; intuition]).
Qed.
Lemma entry_inv c l e : In (l, e) (entries c) -> In (neg l) (lits c) /\ incl (elits e) (lits c) /\ forall y, In y (lits c) -> y = neg l \/ In y (elits e).
Proof.
  destruct c as [a b | a b d]; cbn [lits entries].
  - intros [[= <- <-] | [[= <- <-] | []]]; rewrite neg_neg; cbn; (split; [tauto|]); (split; [intros z; cbn; tauto | intros y; intuition]).
  - intros [[= <- <-] | [[= <- <-] | [[= <- <-] | []]]]; rewrite neg_neg; cbn; (split; [tauto|]); (split; [intros z; cbn; tauto | intros y; intuition]).
Qed.
Lemma static_in l e fc : In e (map (fun x => Bin (fst x)) (binOf l fc) ++ map (fun x => Ter (fst (fst x)) (snd (fst x))) (terOf l fc)) <-> In (l, e) (entries (snd fc)).
Proof.
  assert (D : forall a, (if lit_eqb l (neg a) then l = neg a else l <> neg a)) by (intro a; destruct (lit_eqb l (neg a)) eqn:E; [now apply leqb_eq | intros ->; now rewrite leqb_refl in E]).
  destruct fc as [f [a b | a b d]]; unfold binOf, terOf; cbn [fst snd entries].
  - pose proof (D a) as Da. pose proof (D b) as Db. destruct (lit_eqb l (neg a)), (lit_eqb l (neg b)); cbn; intuition (try congruence).
  - pose proof (D a) as Da. pose proof (D b) as Db. pose proof (D d) as Dd. destruct (lit_eqb l (neg a)), (lit_eqb l (neg b)), (lit_eqb l (neg d)); cbn; intuition (try congruence).
Qed.
Lemma static_all l e cs : In e (map (fun x => Bin (fst x)) (flat_map (binOf l) cs) ++ map (fun x => Ter (fst (fst x)) (snd (fst x))) (flat_map (terOf l) cs)) <-> exists fc, In fc cs /\ In (l, e) (entries (snd fc)).
Proof.
  induction cs as [|fc r IH]; [cbn; split; [easy | now intros (x & [] & _)]|]. cbn [flat_map]. rewrite !map_app. pose proof (static_in l e fc) as S. rewrite !in_app_iff in *. split.
  - intro H. assert (K : In (l, e) (entries (snd fc)) \/ exists fc, In fc r /\ In (l, e) (entries (snd fc))) by tauto. destruct K as [K | (x & X & Y)]; [exists fc; split; [now left | easy] | exists x; split; [now right | easy]].
  - intros (x & [<- | X] & Y); [tauto|]. assert (K : exists fc, In fc r /\ In (l, e) (entries (snd fc))) by now exists x. tauto.
Qed.

(** Visits *)
Lemma visit_static g s P cs bs l e : Rep g s P cs bs -> ~ proc P l -> (exists fc, In fc cs /\ In (l, e) (entries (snd fc))) -> In e (visit g l).
Proof.
  intros R NL H. apply static_all in H. destruct (rN _ _ _ _ _ R l NL) as [L1 L2]. unfold visit. rewrite app_assoc, in_app_iff. left. rewrite in_app_iff in *. destruct H as [H | H]; [left | right].
  - eapply Permutation_in; [symmetry; apply Permutation_map, L1 | exact H].
  - eapply Permutation_in; [symmetry; apply Permutation_map, L2 | exact H].
Qed.
Lemma visit_inv g s P cs bs l e : Rep g s P cs bs -> In e (visit g l) -> ~ proc P l /\ exists c, (In c bs \/ exists f, In (f, c) cs) /\ In (l, e) (entries c).
Proof.
  intros R H. destruct (proc_dec P l) as [PL | NL]; [destruct (rL _ _ _ _ _ R l PL) as (L1 & L2 & L3); unfold visit in H; now rewrite L1, L2, L3 in H|]. split; [easy|].
  destruct (rN _ _ _ _ _ R l NL) as [L1 L2]. unfold visit in H. rewrite app_assoc, in_app_iff in H. destruct H as [H | H].
  - assert (K : exists fc, In fc cs /\ In (l, e) (entries (snd fc))).
    { apply static_all. rewrite in_app_iff in *. destruct H as [H | H]; [left | right]; (eapply Permutation_in; [apply Permutation_map; eassumption | exact H]). }
    destruct K as ([f c] & K1 & K2). exists c. split; [right; now exists f | easy].
  - destruct (rB _ _ _ _ _ R l e H) as (c & C1 & C2). exists c. auto.
Qed.
(** A clause without true literal is visited at its free literals *)
Lemma visit_free g s P cs bs c x : Rep g s P cs bs -> (In c bs \/ exists f, In (f, c) cs) -> In x (lits c) -> free s x -> (forall y, In y (lits c) -> isTrue s y = false) ->
  exists e, In e (visit g (neg x)) /\ incl (elits e) (lits c) /\ forall y, In y (lits c) -> y = x \/ In y (elits e).
Proof.
  intros R C X F NT. destruct (entry_of c x X) as (e & E1 & E2 & E3). exists e. split; [|easy]. pose proof (free_proc s P x (rP _ _ _ _ _ R) F) as NP. destruct C as [C | (f & C)].
  - unfold visit. rewrite app_assoc, in_app_iff. right. apply (rB' _ _ _ _ _ R (neg x) e c NP C E1). unfold notTrue. apply forallb_forall. intros y Y. rewrite (NT y); [easy | now apply E2].
  - apply (visit_static g s P cs bs (neg x) e R NP). exists (f, c). auto.
Qed.
Lemma true_lit s (c : list lit) : (exists x, In x c /\ isTrue s x = true) \/ (forall y, In y c -> isTrue s y = false).
Proof. destruct (existsb (isTrue s) c) eqn:E; [left; now apply existsb_exists | right]. intros y Y. destruct (isTrue s y) eqn:T; [|easy]. assert (K : existsb (isTrue s) c = true) by (apply existsb_exists; eauto). congruence. Qed.
Lemma three s x : isTrue s x = true \/ isTrue s (neg x) = true \/ free s x.
Proof. unfold isTrue, pval, free. destruct x as [v b]. cbn. destruct (s v) as [y|]; cbn; [destruct y, b; auto | auto]. Qed.

Lemma all_sat g s P cs bs A c : Rep g s P cs bs -> extends A s -> says (visit g) A -> (In c bs \/ exists f, In (f, c) cs) -> settled s (lits c) -> satc A c.
Proof.
  intros R X S C [(x & H & T) | (x & y & HX & HY & XY & FX & FY)]; [exists x; split; [easy | eapply extends_true; eauto]|].
  destruct (true_lit s (lits c)) as [(z & Z & T) | NT]; [exists z; split; [easy | eapply extends_true; eauto]|].
  destruct (holds A x) eqn:HA; [now exists x|]. destruct (visit_free g s P cs bs c x R C HX FX NT) as (e & E1 & E2 & _).
  destruct (S (neg x)) with (e := e) as (z & Z & HZ); [unfold holds, neg in *; destruct x as [v b]; cbn in *; destruct (A v), b; easy | easy|]. exists z. split; [now apply E2 | easy].
Qed.
Lemma says_mean g s P cs bs A : Rep g s P cs bs -> extends A s -> (says (visit g) A <-> mean A cs bs).
Proof.
  intros R X. pose proof (rSet _ _ _ _ _ R) as S1. pose proof (rSetb _ _ _ _ _ R) as S2. rewrite Forall_forall in S1, S2. split.
  - intro S. split; apply Forall_forall; intros c C; (eapply all_sat; eauto). right. exists (fst c). now destruct c.
  - intros [M1 M2] l HL e E. rewrite Forall_forall in M1, M2. destruct (visit_inv _ _ _ _ _ l e R E) as (_ & c & C & I). destruct (entry_inv c l e I) as (_ & _ & I3).
    assert (SC : satc A c) by (destruct C as [C | (f & C)]; [now apply M2 | now apply (M1 (f, c))]). destruct SC as (x & X1 & X2). exists x. split; [|easy]. destruct (I3 x X1) as [-> | Y]; [|easy]. exfalso.
    unfold holds, neg in *. destruct l as [v b]. cbn in *. destruct (A v), b; easy.
Qed.

Lemma rep_assign g s P cs bs s' : Rep g s P cs bs -> pextends s' s -> quiet (visit g) s' -> Rep g s' P cs bs.
Proof.
  intros R X Q. assert (SET : forall c, (In c bs \/ exists f, In (f, c) cs) -> settled s (lits c) -> settled s' (lits c)).
  { intros c C [(x & X1 & X2) | (x & y & HX & HY & XY & FX & FY)]; [left; exists x; split; [easy | eapply true_ext; eauto]|].
    destruct (true_lit s' (lits c)) as [T | NT']; [now left|].
    assert (NT : forall y, In y (lits c) -> isTrue s y = false) by (intros z Z; destruct (isTrue s z) eqn:T; [|easy]; apply (true_ext s s' z X) in T; rewrite (NT' z Z) in T; easy).
    assert (ONE : forall z, In z (lits c) -> free s z -> isTrue s' (neg z) = true -> settled s' (lits c)).
    { intros z Z FZ TZ. destruct (visit_free g s P cs bs c z R C Z FZ NT) as (e & E1 & E2 & _). apply (settled_incl s' (elits e)); [easy|]. now apply (Q (neg z)). }
    destruct (three s' x) as [T | [T | F1]]; [rewrite (NT' x HX) in T; easy | now apply (ONE x)|]. destruct (three s' y) as [T | [T | F2]]; [rewrite (NT' y HY) in T; easy | now apply (ONE y)|].
    right. exists x, y. auto. }
  destruct R as [R1 R2 R3 R4 R5 R6 R7 R8 R9 R10 R11]. rewrite Forall_forall in R10, R11. split; try assumption.
  - intros p H. eapply true_ext; eauto.
  - intros l e c NL C I NT. eapply R8; eauto. unfold notTrue in *. rewrite forallb_forall in *. intros z Z. specialize (NT z Z). destruct (isTrue s z) eqn:T; [|easy]. now rewrite (true_ext s s' z X T) in NT.
  - apply Forall_forall. intros fc H. apply SET; [right; exists (fst fc); now destruct fc | now apply R10].
  - apply Forall_forall. intros fc H. apply SET; [now left | now apply R11].
Qed.

Lemma push_at {A} (f : lit -> list A) k x l : push f k x l = f l ++ (if lit_eqb l k then [x] else []).
Proof. unfold push, upd. destruct (lit_eqb l k); [easy | now rewrite app_nil_r]. Qed.
Lemma rep_add g s P cs bs f c : Rep g s P cs bs -> distinct c -> settled s (lits c) -> (forall x p, In x (lits c) -> In p P -> fst x <> fst p) -> Rep (add g f c) s P (cs ++ [(f, c)]) bs.
Proof.
  intros R D S V. destruct R as [R1 R2 R3 R4 R5 R6 R7 R8 R9 R10 R11].
  assert (GB : g_b (add g f c) = g_b g) by now destruct c.
  assert (GL : forall l, g_l (add g f c) l = g_l g l ++ binOf l (f, c) /\ g_r (add g f c) l = g_r g l ++ terOf l (f, c)).
  { intro l. destruct c as [a b | a b d]; cbn [add g_l g_r]; unfold binOf, terOf; cbn [fst snd]; rewrite ?push_at, ?app_nil_r, <- ?app_assoc; split; easy. }
  assert (VL : forall l, proc P l -> binOf l (f, c) = [] /\ terOf l (f, c) = []).
  { intros l (p & P1 & P2). assert (N : forall x, In x (lits c) -> lit_eqb l (neg x) = false) by (intros x X; apply leqb_var; intro E; apply (V x p X P1); cbn in E; congruence).
    unfold binOf, terOf. cbn [fst snd]. destruct c as [a b | a b d]; rewrite !N by (cbn; tauto); easy. }
  split; try assumption.
  - apply Forall_app. split; [easy | now constructor].
  - intros p fc HP H. apply in_app_iff in H as [H | [<- | []]]; [now apply R4|]. cbn [snd]. split; [intro X; now apply (V p p) | intro X; now destruct (V (neg p) p X HP)].
  - intros l PL. destruct (GL l) as [-> ->]. rewrite GB. destruct (VL l PL) as [-> ->]. rewrite !app_nil_r. now apply R5.
  - intros l NL. destruct (GL l) as [-> ->]. rewrite !flat_map_app. cbn [flat_map]. rewrite !app_nil_r. destruct (R6 l NL) as [L1 L2]. split; now apply Permutation_app_tail.
  - rewrite GB. easy.
  - rewrite GB. easy.
  - intros f' F. destruct (R9 f' F) as [B1 B2]. rewrite nb_app, nt_app, <- B1, <- B2. destruct c as [a b | a b d]; cbn [add g_bin g_tern]; unfold cnt, nb, nt; cbn [filter fst snd isC2 negb]; destruct (Bool.eqb f' f); cbn; lia.
  - apply Forall_app. split; [easy | now constructor].
Qed.
Lemma rep_shared g s P cs bs c : Rep g s P cs bs -> distinct c -> settled s (lits c) -> (forall x p, In x (lits c) -> In p P -> fst x <> fst p) -> snd (addShared g c) = true -> Rep (fst (addShared g c)) s P cs (c :: bs).
Proof.
  intros R D S V OK. destruct R as [R1 R2 R3 R4 R5 R6 R7 R8 R9 R10 R11].
  assert (G : g_l (fst (addShared g c)) = g_l g /\ g_r (fst (addShared g c)) = g_r g /\ g_bin (fst (addShared g c)) false = g_bin g false /\ g_tern (fst (addShared g c)) false = g_tern g false /\
    forall l e, In e (g_b (fst (addShared g c)) l) <-> In e (g_b g l) \/ In (l, e) (entries c)).
  { assert (IF : forall l k (e x : entry), In e (if lit_eqb l k then [x] else []) <-> (k, x) = (l, e)) by (intros l k e x; destruct (lit_eqb l k) eqn:E; [apply leqb_eq in E as ->; cbn; split; [intros [-> | []]; easy | intros [= ->]; auto] | split; [easy | intros [= -> ->]; now rewrite leqb_refl in E]]).
    destruct c as [a b | a b d]; cbn [addShared entries] in *; destruct (hasLearnt _ _ _); try easy; cbn [fst g_l g_r g_b g_bin g_tern]; (repeat split; try easy); rewrite !push_at, !in_app_iff, !IF; cbn [In]; tauto. }
  destruct G as (GL & GR & GB & GT & G). split; try assumption.
  - now constructor.
  - intros l PL. rewrite GL, GR. destruct (R5 l PL) as (L1 & L2 & L3). split; [easy|]. split; [easy|]. destruct (g_b (fst (addShared g c)) l) as [|e r] eqn:B; [easy|]. exfalso.
    assert (X : In e (g_b (fst (addShared g c)) l)) by (rewrite B; now left). apply G in X. rewrite L3 in X. destruct X as [[] | X]. apply entry_inv in X as [X _]. destruct PL as (p & P1 & P2). apply (V (neg l) p X P1). now symmetry.
  - rewrite GL, GR. easy.
  - intros l e H. apply G in H as [H | H]; [destruct (R7 l e H) as (c' & C1 & C2); exists c'; split; [now right | easy] | exists c; split; [now left | easy]].
  - intros l e c' NL [<- | C] I NT; apply G; [now right | left; eauto].
  - intros f [-> | Z]; [rewrite GB, GT; apply R9; now left | easy].
  - now constructor.
Qed.
Lemma refused g s P cs bs c : Rep g s P cs bs -> snd (addShared g c) = false -> fst (addShared g c) = g /\ exists c', In c' bs /\ subsumes c' c.
Proof.
  intros R N. assert (K : exists x q r e, x = neg (hd (pos 0) (lits c)) /\ In (neg x) (lits c) /\ In q (lits c) /\ (forall y, r = Some y -> In y (lits c)) /\ hasLearnt (g_b g x) q r = true /\ fst (addShared g c) = g /\ e = tt).
  { destruct c as [a b | a b d]; cbn [addShared] in *; destruct (hasLearnt _ _ _) eqn:H; try easy; [exists (neg a), b, None, tt | exists (neg a), b, (Some d), tt]; rewrite neg_neg; cbn; repeat split; auto; try easy. intros y [= <-]. auto. }
  destruct K as (x & q & r & e & _ & K2 & K3 & K4 & K5 & K6 & _). split; [easy|]. unfold hasLearnt in K5. apply existsb_exists in K5 as (e' & E1 & E2).
  destruct (rB _ _ _ _ _ R x e' E1) as (c' & C1 & C2). exists c'. split; [easy|]. destruct (entry_inv c' x e' C2) as (_ & _ & I). intros y Y. destruct (I y Y) as [-> | Z]; [easy|].
  assert (IS : forall w, lit_eqb w q || match r with Some r => lit_eqb w r | None => false end = true -> In w (lits c)).
  { intros w W. apply orb_true_iff in W as [W | W]; [apply leqb_eq in W as ->; easy|]. destruct r as [r|]; [|easy]. apply leqb_eq in W as ->. now apply K4. }
  destruct e' as [u | u w]; cbn in Z.
  - destruct Z as [<- | []]. now apply IS.
  - apply andb_true_iff in E2 as [E2 E3]. apply andb_true_iff in E2 as [E2 _]. destruct Z as [<- | [<- | []]]; now apply IS.
Qed.
Lemma satc_sub A c c' : subsumes c' c -> satc A c' -> satc A c.
Proof. intros S (x & X & Y). exists x. split; [now apply S | easy]. Qed.

Lemma hist_rep sh g s P asked : hist sh g s P asked -> exists cs bs, Rep g s P cs bs /\ (sh = false -> bs = []) /\ (forall A, extends A s -> (Forall (satc A) asked <-> mean A cs bs)) /\
  (forall fc, In fc cs -> exists c, In c asked /\ subsumes (snd fc) c) /\ (forall c, In c bs -> In c asked).
Proof.
  induction 1 as [|g s P asked f c H IH D S V|g s P asked c SH H IH D S V|g s P asked s' H IH X Q|g s P asked p H IH T NP].
  - exists [], []. split; [|split; [easy|]; split; [intros A _; split; [repeat constructor | constructor]|]; split; easy].
    split; try (constructor); try easy; try (intros; cbn; split; easy).
  - destruct IH as (cs & bs & R & B & M & I1 & I2). exists (cs ++ [(f, c)]), bs. split; [now apply rep_add|]. split; [easy|]. split; [|split; [|intros c' C'; right; auto]].
    + intros A X. specialize (M A X). unfold mean in *. rewrite Forall_app, !Forall_cons_iff. cbn [snd]. split; [intros [K1 K2]; apply M in K2; intuition | intros ((K1 & K2 & _) & K3); split; [easy | apply M; auto]].
    + intros fc F. apply in_app_iff in F as [F | [<- | []]]; [destruct (I1 fc F) as (c' & C1 & C2); exists c'; split; [now right | easy] | exists c; split; [now left | now intro]].
  - destruct IH as (cs & bs & R & B & M & I1 & I2). destruct (snd (addShared g c)) eqn:OK.
    + exists cs, (c :: bs). split; [now apply rep_shared|]. split; [congruence|]. split; [|split; [intros fc F; destruct (I1 fc F) as (c' & C1 & C2); exists c'; split; [now right | easy] | intros c' [<- | C']; [now left | right; auto]]].
      intros A X. specialize (M A X). unfold mean in *. rewrite !Forall_cons_iff. intuition.
    + destruct (refused g s P cs bs c R OK) as [-> (c' & C1 & C2)]. exists cs, bs. split; [easy|]. split; [easy|]. split; [|split; [intros fc F; destruct (I1 fc F) as (c'' & C3 & C4); exists c''; split; [now right | easy] | intros c'' C'; right; auto]].
      intros A X. specialize (M A X). rewrite Forall_cons_iff. split; [intros [_ K]; now apply M|]. intro K. split; [|now apply M]. apply (satc_sub A c c' C2). destruct K as [_ K]. rewrite Forall_forall in K. auto.
  - destruct IH as (cs & bs & R & B & M & I1 & I2). exists cs, bs. split; [now apply rep_assign with (s := s)|]. split; [easy|]. split; [|split; easy]. intros A XA. apply M. intros v b E. apply XA. now apply X.
  - destruct IH as (cs & bs & R & B & M & I1 & I2). exists (flat_map (simp s p) cs), bs. split; [now apply remove_rep|]. split; [easy|]. split; [|split; [|easy]].
    + intros A X. rewrite (M A X). unfold mean. now rewrite (remove_mean g s P cs bs p A R T X).
    + intros fc F. apply in_flat_map in F as (fc0 & F1 & F2). destruct (I1 fc0 F1) as (c & C1 & C2). exists c. split; [easy|]. intros x X. apply C2. clear - F2 X. destruct fc0 as [f [a b | a b d]]; unfold simp, two in F2; cbn [fst snd lits] in *.
      * destruct (_ || _); [easy|]. destruct F2 as [<- | []]. easy.
      * repeat match type of F2 with In _ (if ?b then _ else _) => destruct b end; cbn in F2; try easy; destruct F2 as [<- | []]; cbn in X |- *; tauto.
Qed.
