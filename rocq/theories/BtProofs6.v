(** C53: propagation to the end, arcs in the other direction, and what is left when all true literals were removed. *)
From Coq Require Import List Arith Bool Lia Permutation.
From Verif Require Import Base IgSpec BtSpec BtModel BtProofs BtProofs2 BtProofs3 BtProofs4 BtProofs5.
Import ListNotations.

Lemma rep_quiet g s P cs bs : Rep g s P cs bs -> quiet (visit g) s.
Proof.
  intros R l T e E. destruct (visit_inv _ _ _ _ _ l e R E) as (_ & c & C & I). destruct (entry_inv c l e I) as (I1 & _ & I3).
  assert (S : settled s (lits c)). { pose proof (rSet _ _ _ _ _ R) as S1. pose proof (rSetb _ _ _ _ _ R) as S2. rewrite Forall_forall in S1, S2. destruct C as [C | (f & C)]; [now apply S2 | now apply (S1 (f, c))]. }
  destruct (true_neg s l T) as [N1 N2]. assert (N3 : ~ free s (neg l)) by (unfold free in *; now destruct l).
  destruct S as [(x & X & TX) | (x & y & X & Y & XY & FX & FY)].
  - left. exists x. split; [|easy]. destruct (I3 x X) as [-> | K]; [congruence | easy].
  - right. exists x, y. destruct (I3 x X) as [-> | KX]; [easy|]. destruct (I3 y Y) as [-> | KY]; [easy|]. auto.
Qed.

Section Prop_.
Variables (g : graph) (s0 : pasg) (P : list lit) (cs : list (bool * sclause)) (bs : list sclause).
Hypothesis R : Rep g s0 P cs bs.
Definition J (s : pasg) (q : list lit) : Prop :=
  pextends s s0 /\ (forall l, In l q -> isTrue s l = true /\ free s0 l) /\
  (forall l, isTrue s l = true -> In l q \/ forall e, In e (visit g l) -> settled s (elits e) \/ exists x, In x (elits e) /\ In (neg x) q).
Lemma settled_grown s s' new (q : list lit) c : grown s s' new -> (forall x, In x (map fst new) -> In x q) -> settled s c -> settled s' c \/ exists x, In x c /\ In (neg x) q.
Proof.
  intros (G1 & G2 & G3 & _) I [(x & X & T) | (x & y & X & Y & XY & FX & FY)]; [left; left; exists x; split; [easy | eapply true_ext; eauto]|].
  assert (K : forall z, In z c -> free s z -> isTrue s' z = true \/ (exists x, In x c /\ In (neg x) q) \/ free s' z).
  { intros z Z F. destruct (three s' z) as [T | [T | F']]; auto. right. left. exists z. split; [easy|]. apply I. destruct (G3 _ T) as [T' | T']; [|easy]. exfalso. apply true_neg in T' as [_ T']. apply T'. unfold free in *. now destruct z. }
  destruct (K x X FX) as [T | [T | F1]]; [left; left; eauto | auto|]. destruct (K y Y FY) as [T | [T | F2]]; [left; left; eauto | auto|]. left. right. exists x, y. auto.
Qed.
Lemma J_step s l q s' tr : J s (l :: q) -> propagate g s l = (true, s', tr) -> J s' (q ++ rev (map fst tr)).
Proof.
  intros (J1 & J2 & J3) H. destruct (J2 l (or_introl eq_refl)) as [TL FL]. unfold propagate in H. destruct (propL_spec l _ _ _ _ _ _ TL H) as (new & E & _ & K & _). rewrite app_nil_r in E. subst tr. destruct (K eq_refl) as (G & U). clear K.
  destruct G as (G1 & G2 & G3 & G4). assert (GG : grown s s' new) by (split; auto). assert (QI : forall x, In x (map fst new) -> In x (q ++ rev (map fst new))) by (intros x X; apply in_app_iff; right; now apply -> in_rev).
  split; [eapply ext_trans; eauto|]. split.
  - intros x X. apply in_app_iff in X as [X | X]; [destruct (J2 x (or_intror X)); split; [eapply true_ext; eauto | easy]|]. apply in_rev, in_map_iff in X as ([y w] & <- & X). destruct (G2 y w X) as [F T]. split; [easy|]. cbn. unfold free in *. destruct (s0 (fst y)) as [b|] eqn:E; [|easy]. apply J1 in E. congruence.
  - intros l2 T2. destruct (G3 l2 T2) as [T | X]; [|left; now apply QI]. destruct (lit_eq_dec l2 l) as [-> | NE].
    + right. intros e E. assert (TT : forall x, In x (elits e) -> isTrue s' x = true -> settled s' (elits e)) by (intros x X Y; left; eauto). destruct e as [x | x y].
      * left. apply (TT x); [now left|]. apply (U (Bin x) x E). exists []. split; [now left | constructor].
      * assert (UX : isFalse s y = true -> isTrue s' x = true) by (intro F; apply (U _ x E); exists [y]; split; [now left | now constructor]).
        assert (UY : isFalse s x = true -> isTrue s' y = true) by (intro F; apply (U _ y E); exists [x]; split; [now right | now constructor]).
        destruct (three s x) as [Tx | [Tx | Fx]]; [left; apply (TT x); [now left | eapply true_ext; eauto] | rewrite <- false_neg in Tx; left; apply (TT y); [right; now left | auto]|].
        destruct (three s y) as [Ty | [Ty | Fy]]; [left; apply (TT y); [right; now left | eapply true_ext; eauto] | rewrite <- false_neg in Ty; left; apply (TT x); [now left | auto]|].
        destruct (Nat.eq_dec (fst x) (fst y)) as [V | V]; [|apply (settled_grown s s' new); [easy | easy|]; right; exists x, y; cbn; auto].
        exfalso. destruct (visit_inv _ _ _ _ _ l _ R E) as (_ & c & C & I). assert (D : distinct c) by (destruct C as [C | (f & C)]; [pose proof (rWfb _ _ _ _ _ R) as W | pose proof (rWf _ _ _ _ _ R) as W]; rewrite Forall_forall in W; [now apply W | now apply (W (f, c))]).
        destruct c as [a b | a b d]; cbn in I; [intuition congruence|]. destruct (dist3 _ _ _ D) as (D1 & D2 & D3). destruct I as [I | [I | [I | []]]]; injection I as _ <- <-; easy.
    + destruct (J3 l2 T) as [[X | X] | D]; [now destruct NE | left; apply in_app_iff; now left|]. right. intros e E. destruct (D e E) as [S | (x & X & [NX | NX])].
      * now apply (settled_grown s s' new).
      * subst l. left. assert (E0 := E). destruct (visit_inv _ _ _ _ _ l2 e R E) as (_ & c & C & I). destruct (entry_inv c l2 e I) as (I1 & I2 & I3).
        destruct (true_neg s' l2 T2) as [N2 _]. assert (TT : forall z, In z (lits c) -> isTrue s' z = true -> settled s' (elits e)) by (intros z Z TZ; left; exists z; split; [|easy]; destruct (I3 z Z) as [-> | K]; [congruence | easy]).
        destruct (true_lit s0 (lits c)) as [(z & Z & TZ) | NT]; [apply (TT z Z); eapply true_ext; [|exact TZ]; eapply ext_trans; eauto|].
        assert (FX : free s0 x) by (unfold free in *; now destruct x). destruct (visit_free _ _ _ _ _ c x R C (I2 x X) FX NT) as (e' & V1 & V2 & V3).
        assert (NX : In (neg l2) (elits e')) by (destruct (V3 (neg l2) I1) as [K | K]; [exfalso; apply NE; rewrite <- K; now rewrite neg_neg | easy]).
        assert (FN : isFalse s (neg l2) = true) by (rewrite false_neg, neg_neg; easy).
        destruct e' as [a | a b]; cbn in NX.
        -- destruct NX as [-> | []]. rewrite (U (Bin (neg l2)) (neg l2) V1) in N2; [easy|]. exists []. split; [now left | constructor].
        -- destruct NX as [-> | [-> | []]].
           ++ apply (TT b); [apply V2; right; now left|]. apply (U _ b V1). exists [neg l2]. split; [now right | now constructor].
           ++ apply (TT a); [apply V2; now left|]. apply (U _ a V1). exists [neg l2]. split; [now left | now constructor].
      * right. exists x. split; [easy | apply in_app_iff; now left].
Qed.
Lemma derived_sound p es s tr A : derived p es s tr -> extends A s -> (forall e, In e es -> sate A e) -> forall x, In x (map fst tr) -> holds A x = true.
Proof.
  intros D X S. induction D as [|x w tr D IH T (e & E & _ & _ & RE)]; [easy|]. intros y [<- | Y]; [|now apply IH]. cbn. apply RE; [|now apply S]. intros z Z. destruct (T z Z) as [K | K]; [eapply extends_true; eauto | now apply IH].
Qed.
Lemma grown_sound s s' new A : grown s s' new -> extends A s -> (forall x, In x (map fst new) -> holds A x = true) -> extends A s'.
Proof.
  intros (_ & _ & G & _) X H v b E. assert (T : isTrue s' (v, negb b) = true) by (unfold isTrue, pval; cbn; rewrite E; now destruct b). assert (K : holds A (v, negb b) = true) by (destruct (G _ T) as [K | K]; [eapply extends_true; eauto | auto]).
  unfold holds in K. cbn in K. destruct (A v), b; easy.
Qed.
Lemma prop_sound s l b s' tr A : isTrue s l = true -> propagate g s l = (b, s', tr) -> extends A s -> says (visit g) A -> b = true /\ extends A s'.
Proof.
  intros T H X S. assert (HL : holds A l = true) by (eapply extends_true; eauto). destruct (propL_spec l _ _ _ _ _ _ T H) as (new & E & D & K1 & K2). pose proof (derived_sound _ _ _ _ A D X (S l HL)) as DS.
  destruct b; [split; [easy|]; destruct (K1 eq_refl) as [G _]; now apply (grown_sound s s' new)|]. exfalso. destruct (K2 eq_refl) as (x & w & n' & -> & F & G). assert (X' : extends A s') by (apply (grown_sound s s' n'); auto; intros; apply DS; now right).
  specialize (DS x (or_introl eq_refl)). rewrite (extends_false A s' x X' F) in DS. easy.
Qed.
Lemma unit_correct n : forall s q b s', J s q -> unitPropagate n g s q = Some (b, s') ->
  (forall A, extends A s -> says (visit g) A -> b = true /\ extends A s') /\ (b = true -> pextends s' s /\ quiet (visit g) s').
Proof.
  induction n as [|n IH]; intros s q b s' H E; destruct q as [|l q]; cbn in E; try easy.
  1, 2: injection E as <- <-; split; [auto|]; intros _; (split; [now intros v b|]); intros l T e E; destruct H as (_ & _ & H); destruct (H l T) as [[] | K]; destruct (K e E) as [S | (x & _ & [])]; easy.
  destruct (propagate g s l) as [[b1 s1] tr] eqn:PR. assert (TL : isTrue s l = true) by (destruct H as (_ & H & _); apply H; now left). destruct b1.
  - destruct (IH _ _ _ _ (J_step s l q s1 tr H PR) E) as [I1 I2]. split.
    + intros A X S. destruct (prop_sound s l true s1 tr A TL PR X S) as [_ X1]. now apply I1.
    + intro B. destruct (I2 B) as [X1 Q]. split; [|easy]. unfold propagate in PR. destruct (propL_spec l _ _ _ _ _ _ TL PR) as (new & _ & _ & K & _). eapply ext_trans; [apply (K eq_refl) | easy].
  - injection E as <- <-. split; [|easy]. intros A X S. destruct (prop_sound s l false s1 tr A TL PR X S). easy.
Qed.
Lemma J_start p : free s0 p -> J (put s0 p) [p].
Proof.
  intro F. split; [now apply put_ext|]. split; [intros l [<- | []]; split; [apply put_true | easy]|]. intros l T. destruct (put_inv s0 p l T) as [T0 | ->]; [|left; now left]. right. intros e E.
  assert (GR : grown s0 (put s0 p) [(p, [])]).
  { split; [now apply put_ext|]. split; [intros x w [[= <- <-] | []]; split; [easy | apply put_true]|]. split; [|cbn; constructor; [easy | constructor]]. intros x X. destruct (put_inv s0 p x X) as [Y | ->]; [auto | right; now left]. }
  apply (settled_grown s0 _ _ _ _ GR); [easy|]. now apply (rep_quiet g s0 P cs bs R l).
Qed.
(** It ends. *)
Definition vars : list nat := flat_map (fun fc => map fst (lits (snd fc))) cs ++ flat_map (fun c => map fst (lits c)) bs.
Definition open (s : pasg) : nat := length (filter (isFree s) (nodup Nat.eq_dec vars)).
Lemma visit_vars l e x : In e (visit g l) -> In x (elits e) -> In (fst x) vars.
Proof.
  intros E X. destruct (visit_inv _ _ _ _ _ l e R E) as (_ & c & C & I). destruct (entry_inv c l e I) as (_ & I2 & _). apply I2 in X. unfold vars. apply in_app_iff. destruct C as [C | (f & C)]; [right | left]; apply in_flat_map.
  - exists c. split; [easy | now apply in_map].
  - exists (f, c). split; [easy | now apply in_map].
Qed.
Lemma nodup_app {A} (a b : list A) : NoDup a -> NoDup b -> (forall x, In x a -> ~ In x b) -> NoDup (a ++ b).
Proof. induction a as [|x a IH]; intros Ha Hb D; [easy|]. inversion Ha as [|? ? N H]; subst. cbn. constructor; [|apply IH; auto; intros y Y; apply D; now right]. rewrite in_app_iff. intros [K | K]; [easy|]. now apply (D x (or_introl eq_refl)). Qed.
Lemma open_le s s' new : grown s s' new -> (forall x, In x (map fst new) -> In (fst x) vars) -> open s' + length new <= open s.
Proof.
  intros (G1 & G2 & G3 & G4) V. unfold open. assert (ML : length (map (fun t : lit * list lit => fst (fst t)) new) = length new) by apply map_length. rewrite <- ML, <- app_length. apply NoDup_incl_length.
  - apply nodup_app; [apply NoDup_filter, NoDup_nodup | easy|]. intros v H K. apply filter_In in H as [_ H]. apply in_map_iff in K as ([x w] & <- & K). destruct (G2 x w K) as [_ T]. cbn in H. apply true_neg in T as [_ T]. apply T. unfold isFree in H. unfold free. now destruct (s' (fst x)).
  - intros v H. apply in_app_iff in H as [H | H].
    + apply filter_In in H as [H1 H2]. apply filter_In. split; [easy|]. unfold isFree in *. destruct (s v) as [b|] eqn:E; [|easy]. apply G1 in E. now rewrite E in H2.
    + apply in_map_iff in H as ([x w] & <- & H). cbn. apply filter_In. split; [apply nodup_In, V; now apply (in_map fst) in H|]. destruct (G2 x w H) as [F _]. unfold free in F. unfold isFree. now rewrite F.
Qed.
Lemma derived_lits p es s tr x : derived p es s tr -> In x (map fst tr) -> exists e, In e es /\ In x (elits e).
Proof. induction 1 as [|y w tr D IH T (e & E & E' & _)]; [easy|]. intros [<- | X]; [now exists e | auto]. Qed.
Lemma unit_ends n : forall s q, J s q -> length q + open s <= n -> unitPropagate n g s q <> None.
Proof.
  induction n as [|n IH]; intros s q H L; destruct q as [|l q]; cbn; try easy.
  destruct (propagate g s l) as [[b s'] tr] eqn:PR. destruct b; [|easy]. apply IH; [now apply (J_step s l)|].
  assert (TL : isTrue s l = true) by (destruct H as (_ & H & _); apply H; now left). destruct (propL_spec l _ _ _ _ _ _ TL PR) as (new & E & D & K & _). rewrite app_nil_r in E. subst tr. destruct (K eq_refl) as [G _].
  rewrite app_length, rev_length, map_length. cbn in L. pose proof (open_le s s' new G) as O. assert (OO : open s' + length new <= open s); [apply O|lia]. intros x X. destruct (derived_lits _ _ _ _ x D X) as (e & E1 & E2). eapply visit_vars; eauto.
Qed.
End Prop_.

Lemma revL_spec rev es : match revL rev es with
  | Some a => exists e, In e es /\ Forall (fun x => rev x = true) (elits e) /\ a = map neg (elits e)
  | None => forall e, In e es -> ~ Forall (fun x => rev x = true) (elits e) end.
Proof.
  induction es as [|e es IH]; cbn [revL]; [easy|]. assert (K : match revE rev e with Some a => Forall (fun x => rev x = true) (elits e) /\ a = map neg (elits e) | None => ~ Forall (fun x => rev x = true) (elits e) end).
  { destruct e as [x | x y]; cbn; [destruct (rev x) eqn:E; [split; [now constructor | easy] | intro F; inversion F; congruence]|]. destruct (rev x) eqn:E, (rev y) eqn:E'; cbn; try (split; [repeat constructor; easy | easy]); intro F; inversion F as [|? ? F1 F2]; inversion F2; congruence. }
  destruct (revE rev e) as [a|]; [exists e; split; [now left | easy]|]. destruct (revL rev es) as [a|]; [destruct IH as (e' & E & E'); exists e'; split; [now right | easy]|]. intros e' [<- | E]; auto.
Qed.

(** What is left *)
Lemma perm_split (cs : list (bool * sclause)) : Permutation (map snd cs) (map snd (filter (fun fc => Bool.eqb false (fst fc)) cs) ++ map snd (filter (fun fc => Bool.eqb true (fst fc)) cs)).
Proof. induction cs as [|[f c] r IH]; [easy|]. cbn. destruct f; cbn; [rewrite IH; apply Permutation_middle | now constructor]. Qed.
Lemma bins f cs : nb f cs = binaries (map snd (filter (fun fc => Bool.eqb f (fst fc)) cs)) /\ nt f cs = ternaries (map snd (filter (fun fc => Bool.eqb f (fst fc)) cs)).
Proof. unfold nb, nt, binaries, ternaries. induction cs as [|[h c] r [IH1 IH2]]; [easy|]. cbn. destruct (Bool.eqb f h); cbn; [|easy]. destruct c; cbn; rewrite ?IH1, ?IH2; easy. Qed.
Lemma times_one l e fc : times e (map (fun x => Bin (fst x)) (binOf l fc) ++ map (fun x => Ter (fst (fst x)) (snd (fst x))) (terOf l fc)) = count_occ le_dec (entries (snd fc)) (l, e).
Proof.
  assert (D : forall a e', (if lit_eqb l (neg a) then (if le_dec (neg a, e') (l, e) then 1 else 0) = (if entry_dec e' e then 1 else 0) else (if le_dec (neg a, e') (l, e) then 1 else 0) = 0)).
  { intros a e'. destruct (lit_eqb l (neg a)) eqn:E; [apply leqb_eq in E as ->; destruct (le_dec _ _), (entry_dec _ _); congruence|]. destruct (le_dec _ _) as [K|]; [|easy]. injection K as <- _. now rewrite leqb_refl in E. }
  assert (C : forall x (t : lit * entry) r, count_occ le_dec (x :: r) t = (if le_dec x t then 1 else 0) + count_occ le_dec r t) by (intros x t r; cbn; destruct (le_dec x t); easy).
  assert (C' : forall x r, times e (x :: r) = (if entry_dec x e then 1 else 0) + times e r) by (intros x r; unfold times; cbn; destruct (entry_dec x e); easy).
  destruct fc as [f [a b | a b d]]; unfold binOf, terOf; cbn [fst snd entries]; rewrite !C.
  - pose proof (D a (Bin b)) as D1. pose proof (D b (Bin a)) as D2. destruct (lit_eqb l (neg a)), (lit_eqb l (neg b)); rewrite D1, D2; cbn [app map]; rewrite ?C'; easy.
  - pose proof (D a (Ter b d)) as D1. pose proof (D b (Ter a d)) as D2. pose proof (D d (Ter a b)) as D3. destruct (lit_eqb l (neg a)), (lit_eqb l (neg b)), (lit_eqb l (neg d)); rewrite D1, D2, D3; cbn [app map fst snd]; rewrite ?C'; easy.
Qed.
Lemma times_all l e cs : times e (map (fun x => Bin (fst x)) (flat_map (binOf l) cs) ++ map (fun x => Ter (fst (fst x)) (snd (fst x))) (flat_map (terOf l) cs)) = follows l e (map snd cs).
Proof.
  unfold follows. induction cs as [|fc r IH]; [easy|]. cbn [flat_map map]. rewrite !map_app, count_occ_app, <- IH, <- times_one. unfold times. rewrite !count_occ_app. lia.
Qed.
Lemma perm_times e a b : Permutation a b -> times e a = times e b.
Proof. intro H. unfold times. revert e. now apply (Permutation_count_occ entry_dec). Qed.
Lemma visit_times g s P cs l e : Rep g s P cs [] -> ~ proc P l -> times e (visit g l) = follows l e (map snd cs).
Proof.
  intros R N. destruct (rN _ _ _ _ _ R l N) as [L1 L2]. rewrite <- times_all. assert (B : g_b g l = []). { destruct (g_b g l) as [|x r] eqn:B; [easy|]. destruct (rB _ _ _ _ _ R l x) as (c & [] & _). rewrite B. now left. }
  unfold visit. rewrite B, app_nil_r. apply perm_times, Permutation_app; now apply Permutation_map.
Qed.
Lemma follows_perm l e a b : Permutation a b -> follows l e a = follows l e b.
Proof. intro H. unfold follows. revert l e. enough (K : forall t, count_occ le_dec (flat_map entries a) t = count_occ le_dec (flat_map entries b) t) by auto. apply (Permutation_count_occ le_dec). now apply Permutation_flat_map. Qed.
Lemma rep_free g s P cs bs : Rep g s P cs bs -> (forall l, isTrue s l = true -> In l P) -> forall fc x, In fc cs -> In x (lits (snd fc)) -> free s x.
Proof.
  intros R ALL fc x C X. destruct (three s x) as [T | [T | F]]; [| |easy]; exfalso.
  - destruct (rOff _ _ _ _ _ R x fc (ALL x T) C) as [O _]. easy.
  - destruct (rOff _ _ _ _ _ R (neg x) fc (ALL _ T) C) as [_ O]. rewrite neg_neg in O. specialize (O X). destruct fc as [f [a b | a b d]]; [|easy]. cbn [snd lits] in *.
    pose proof (rSet _ _ _ _ _ R) as S. rewrite Forall_forall in S. specialize (S _ C). cbn [snd lits] in S. destruct (true_neg s _ T) as [N1 N2]. rewrite neg_neg in N1. assert (N3 : ~ free s x) by (unfold free in *; now destruct x).
    destruct S as [(z & Z & TZ) | (z & w & Z & W & ZW & FZ & FW)].
    + destruct (rOff _ _ _ _ _ R z (f, C2 a b) (ALL z TZ) C) as [O' _]. easy.
    + cbn in X, Z, W. destruct X as [<- | [<- | []]], Z as [<- | [<- | []]], W as [<- | [<- | []]]; easy.
Qed.
