(** C55: the invariant of the graph. *)
From Coq Require Import List Arith Bool Lia Permutation Sorting.Sorted.
From Verif Require Import Base AcSpec EgModel EgProofs.
Import ListNotations.

Lemma runI_ne l x : runI l = Some x -> x <> [].
Proof. destruct l as [|[[p t] f] r]; cbn; [easy|]. destruct f; [destruct (runI r)|]; intros [= <-]; easy. Qed.
Lemma RepF_none C f n : RepF C f -> has a_tail n C = [] -> f n = None.
Proof.
  intros R H. specialize (R n). destruct (f n) as [i|]; [|easy]. destruct R as [L R]. specialize (R [] eq_refl). rewrite app_nil_r, H in R. assert (K : length (skipn i C) = length C - i) by apply skipn_length. destruct (skipn i C); [cbn in K; lia | discriminate R].
Qed.
Lemma RepI_none C v f n : RepI C v f -> has a_head n C = [] -> f n = None.
Proof.
  intros R H. specialize (R n). destruct (f n) as [i|]; [|easy]. destruct R as (L & x & R & P). rewrite H in P. apply Permutation_sym, Permutation_nil in P. specialize (R []). apply runI_ne in R. easy.
Qed.
Record Inv (A : list arc) (g : eg) : Prop := {
  i_perm : Permutation (arcs g) A;
  i_com : com g <= length (arcs g);
  i_fro : frozen g = true -> com g = length (arcs g);
  i_mx : forall a, In a (arcs g) -> a_tail a < mx g /\ a_head a < mx g;
  i_nn : nN g <= mx g;
  i_rep : 0 < com g -> RepF (firstn (com g) (arcs g)) (fo g) /\ RepI (firstn (com g) (arcs g)) (invs g) (io g) /\ (forall n, nN g <= n -> fo g n = None /\ io g n = None) /\ (forall a, In a (skipn (com g) (arcs g)) -> nN g <= a_tail a /\ nN g <= a_head a);
  i_zero : com g = 0 -> invs g = [] /\ (forall n, fo g n <> None -> has a_tail n (arcs g) <> []) /\ (forall n, io g n <> None -> has a_head n (arcs g) <> []) }.

Lemma fin_inv A g l1 l2 : Inv A g -> sortedBy g l1 l2 -> exists g', finalize g l1 l2 = Some g' /\ Inv A g' /\ gen g' = gen g /\ com g <= com g' /\ firstn (com g) (arcs g') = firstn (com g) (arcs g) /\ frozen g' = true.
Proof.
  intros I [S1 S2]. unfold finalize. destruct (frozen g) eqn:FR; [exists g; auto 8|]. destruct I as [I1 I2 _ I4 I5 I6 I7].
  set (C := firstn (com g) (arcs g)) in *. set (P := skipn (com g) (arcs g)) in *. assert (CP : C ++ P = arcs g) by apply firstn_skipn. assert (LC : length C = com g) by (unfold C; rewrite firstn_length; lia).
  assert (A1 := sorts_asc _ _ _ _ S1). assert (A2 := sorts_asc _ _ _ _ S2). destruct S1 as [P1 _], S2 as [P2 _]. assert (P12 : Permutation P l2) by (eapply Permutation_trans; eauto). assert (PC : Permutation (C ++ l2) (arcs g)) by (rewrite <- CP; apply Permutation_app_head; now apply Permutation_sym).
  assert (EI : exists f', offs a_head (0 <? com g) (length (invs g)) None l1 (io g) = Some f' /\ RepI (C ++ l2) (invs g ++ entries l1) f').
  { apply (RepI_ext C).
    - intros n N. destruct (com g) as [|c] eqn:E.
      + destruct (I7 eq_refl) as (_ & _ & Z). destruct (io g n) as [i|] eqn:V; [|now destruct C]. exfalso. apply (Z n); [congruence|]. rewrite <- CP. cbn. pose proof (has_perm a_head n _ _ P1) as HP. rewrite N in HP. apply Permutation_sym, Permutation_nil in HP. exact HP.
      + destruct I6 as (_ & R & _); [lia|]. apply R.
    - intros n N. destruct (com g) as [|c] eqn:E; [now destruct C|]. destruct I6 as (_ & R & Z & Q); [lia|]. specialize (R n). destruct (io g n) as [i|] eqn:V; [|exact R]. exfalso. apply N, has_nil. intros a B K. apply (Permutation_in a (Permutation_sym P1)), Q in B. destruct (Z n); [lia | congruence].
    - exact A1.
    - apply Permutation_app_head. eapply Permutation_trans; [apply Permutation_refl | exact P2].
    - intros K a B. apply Nat.ltb_lt in K. destruct (I6 K) as (_ & _ & Z & Q). apply (Permutation_in a (Permutation_sym P1)), Q in B. now apply Z. }
  assert (EF : exists f', offs a_tail (0 <? com g) (length C) None l2 (fo g) = Some f' /\ RepF (C ++ l2) f').
  { apply RepF_ext.
    - intros n N. destruct (com g) as [|c] eqn:E.
      + destruct (I7 eq_refl) as (_ & Z & _). destruct (fo g n) as [i|] eqn:V; [|now destruct C]. exfalso. apply (Z n); [congruence|]. rewrite <- CP. cbn. pose proof (has_perm a_tail n _ _ P12) as HP. rewrite N in HP. apply Permutation_sym, Permutation_nil in HP. exact HP.
      + destruct I6 as (R & _); [lia|]. apply R.
    - intros n N. destruct (com g) as [|c] eqn:E; [now destruct C|]. destruct I6 as (R & _ & Z & Q); [lia|]. specialize (R n). destruct (fo g n) as [i|] eqn:V; [|exact R]. exfalso. apply N, has_nil. intros a B K. apply (Permutation_in a (Permutation_sym P12)), Q in B. destruct (Z n); [lia | congruence].
    - exact A2.
    - intros K a B. apply Nat.ltb_lt in K. destruct (I6 K) as (_ & _ & Z & Q). apply (Permutation_in a (Permutation_sym P12)), Q in B. now apply Z. }
  destruct EI as (fi & -> & RI), EF as (ff & EF & RF). rewrite LC in EF. rewrite EF. eexists. split; [reflexivity|]. split; [|split; [easy|]; split; [cbn [com]; rewrite app_length; lia|]; split; [|easy]; cbn [arcs]; rewrite firstn_app, LC, Nat.sub_diag; cbn [firstn]; rewrite app_nil_r; unfold C; now rewrite firstn_firstn, Nat.min_id].
  assert (MX : forall a, In a (C ++ l2) -> a_tail a < mx g /\ a_head a < mx g) by (intros a B; apply I4; eapply Permutation_in; eauto).
  constructor; cbn [arcs frozen invs fo io nN mx com gen].
  - eapply Permutation_trans; eauto.
  - lia.
  - easy.
  - exact MX.
  - lia.
  - intros _. rewrite firstn_all, skipn_all. split; [exact RF|]. split; [exact RI|]. split; [|easy]. intros n N. split; [apply (RepF_none _ _ _ RF) | apply (RepI_none _ _ _ _ RI)]; apply has_nil; intros a B; apply MX in B; lia.
  - intro Z. apply length_zero_iff_nil in Z. rewrite Z in *. apply app_eq_nil in Z as [Z1 Z2]. rewrite Z2 in P2. apply Permutation_sym, Permutation_nil in P2. subst l1. split; [|split; intros n N; exfalso; apply N; [eapply RepF_none | eapply RepI_none]; eauto; easy].
    rewrite Z1 in LC. cbn in LC. destruct (I7 (eq_sym LC)) as (-> & _). easy.
Qed.
Lemma add_inv A g p x y : Inv A g -> frozen g = false -> exists g', addEdge g p x y = Some g' /\ Inv (A ++ [Arc p x y]) g' /\
  ((gen g' = gen g /\ com g' = com g) \/ gen g' = S (gen g)) /\ arcs g' = arcs g ++ [Arc p x y].
Proof.
  intros [I1 I2 _ I4 I5 I6 I7] FR. unfold addEdge. rewrite FR. set (e := Arc p x y).
  assert (MX : forall a, In a (arcs g ++ [e]) -> a_tail a < Nat.max (S (Nat.max x y)) (mx g) /\ a_head a < Nat.max (S (Nat.max x y)) (mx g)).
  { intros a B. apply in_app_iff in B as [B | [<- | []]]; [apply I4 in B; lia | cbn [a_tail a_head e]; lia]. }
  assert (CP : firstn (com g) (arcs g) ++ skipn (com g) (arcs g) = arcs g) by apply firstn_skipn.
  destruct ((0 <? com g) && (Nat.min x y <? nN g)) eqn:E; eexists; (split; [reflexivity|]); (split; [|split; [auto | reflexivity]]); constructor; cbn [arcs frozen invs fo io nN mx com gen]; try easy; try lia.
  - now apply Permutation_app_tail.
  - intros _. apply andb_true_iff in E as [E _]. apply Nat.ltb_lt in E. destruct (I6 E) as (RF & RI & _). split; [easy|]. split; intros n N H; apply N.
    + apply (RepF_none _ _ n RF). apply has_nil. intros a B. apply (proj1 (has_nil _ _ _) H). apply in_app_iff. left. rewrite <- CP. apply in_app_iff. now left.
    + apply (RepI_none _ _ _ n RI). apply has_nil. intros a B. apply (proj1 (has_nil _ _ _) H). apply in_app_iff. left. rewrite <- CP. apply in_app_iff. now left.
  - now apply Permutation_app_tail.
  - rewrite app_length. lia.
  - intros K. destruct (I6 K) as (RF & RI & Z & Q). rewrite firstn_app, skipn_app. replace (com g - length (arcs g)) with 0 by lia. cbn [firstn skipn]. rewrite app_nil_r. split; [easy|]. split; [easy|]. split; [easy|].
    intros a B. apply in_app_iff in B as [B | [<- | []]]; [now apply Q|]. cbn [a_tail a_head e]. apply andb_false_iff in E as [E | E]; [apply Nat.ltb_ge in E; lia | apply Nat.ltb_ge in E; lia].
  - intro K. destruct (I7 K) as (Z1 & Z2 & Z3). split; [easy|]. split; intros n N H; rewrite has_app in H; apply app_eq_nil in H as [H _]; [now apply (Z2 n) | now apply (Z3 n)].
Qed.
Lemma step_inv A g B g' : Inv A g -> gstep g B g' -> Inv (A ++ B) g' /\ gen g <= gen g' /\ (gen g' = gen g -> com g <= com g' /\ firstn (com g) (arcs g') = firstn (com g) (arcs g)).
Proof.
  intros I [p x y g1 E | | l1 l2 g1 S E].
  - assert (FR : frozen g = false) by (unfold addEdge in E; now destruct (frozen g)). destruct (add_inv A g p x y I FR) as (g2 & E2 & I2 & G & AR). rewrite E in E2. injection E2 as <-. split; [exact I2|]. split; [lia|].
    intro Q. destruct G as [[_ C] | G]; [|lia]. split; [lia|]. rewrite AR, firstn_app. replace (com g - length (arcs g)) with 0 by (pose proof (i_com _ _ I); lia). cbn [firstn]. apply app_nil_r.
  - rewrite app_nil_r. split; [|split; [cbn; lia | split; cbn; [lia | easy]]]. destruct I as [I1 I2 I3 I4 I5 I6 I7]. constructor; auto; easy.
  - rewrite app_nil_r. destruct (fin_inv A g l1 l2 I S) as (g2 & E2 & I2 & G & C & F & _). rewrite E in E2. injection E2 as <-. split; [exact I2|]. split; [lia | auto].
Qed.
Lemma init_inv : Inv [] empty.
Proof. constructor; cbn; try easy; try lia. Qed.
Lemma gsteps_inv g B g' : gsteps g B g' -> forall A, Inv A g -> Inv (A ++ B) g' /\ gen g <= gen g' /\ (gen g' = gen g -> com g <= com g' /\ firstn (com g) (arcs g') = firstn (com g) (arcs g)).
Proof.
  induction 1 as [g | g B g1 D g2 H IH S]; intros A I; [rewrite app_nil_r; split; [easy|]; split; [lia | easy]|].
  destruct (IH A I) as (I1 & G1 & K1). destruct (step_inv _ _ _ _ I1 S) as (I2 & G2 & K2). rewrite app_assoc. split; [easy|]. split; [lia|]. intro E. destruct K1 as [C1 F1]; [lia|]. destruct K2 as [C2 F2]; [lia|]. split; [lia|].
  rewrite <- F1. assert (X : firstn (com g) (firstn (com g1) (arcs g2)) = firstn (com g) (firstn (com g1) (arcs g1))) by now rewrite F2. rewrite !firstn_firstn in X. now replace (Nat.min (com g) (com g1)) with (com g) in X by lia.
Qed.
