(** C53: removeTrue on the represented clauses. *)
From Coq Require Import List Arith Bool Lia Permutation.
From Verif Require Import Base IgSpec BtSpec BtModel BtProofs.
Import ListNotations.

Definition two (s : pasg) (f : bool) (x y : lit) : list (bool * sclause) := if isFreeL s x && isFreeL s y then [(f, C2 x y)] else [].
(** What becomes of a clause when [p] is removed *)
Definition simp (s : pasg) (p : lit) (fc : bool * sclause) : list (bool * sclause) :=
  match snd fc with
  | C2 a b => if lit_eqb a p || lit_eqb b p then [] else [fc]
  | C3 a b d => if lit_eqb a p || lit_eqb b p || lit_eqb d p then [] else
      if lit_eqb a (neg p) then two s (fst fc) b d else if lit_eqb b (neg p) then two s (fst fc) a d else if lit_eqb d (neg p) then two s (fst fc) a b else [fc]
  end.
Definition isC2 (c : sclause) : bool := match c with C2 _ _ => true | _ => false end.
Definition nb (f : bool) (cs : list (bool * sclause)) : nat := length (filter (fun fc => Bool.eqb f (fst fc) && isC2 (snd fc)) cs).
Definition nt (f : bool) (cs : list (bool * sclause)) : nat := length (filter (fun fc => Bool.eqb f (fst fc) && negb (isC2 (snd fc))) cs).

Lemma var_cases (a p : lit) : fst a = fst p -> a = p \/ a = neg p.
Proof. destruct a as [v x], p as [w y]. cbn. intros ->. destruct x, y; auto. Qed.
Lemma leqb_np p : lit_eqb (neg p) p = false.
Proof. destruct p as [v []]; unfold lit_eqb; cbn; apply andb_false_r. Qed.
Lemma leqb_pn p : lit_eqb p (neg p) = false.
Proof. rewrite leqb_sym. apply leqb_np. Qed.
Ltac sv := cbn [fst neg]; (assumption || congruence).
Ltac ev := repeat (rewrite ?neg_neg, ?leqb_neg, ?leqb_refl, ?leqb_np, ?leqb_pn in *; cbn [app filter map flat_map fst snd negb orb andb] in *;
  try match goal with |- context [lit_eqb ?x ?y] => rewrite (leqb_var x y) by sv end).
Lemma dist2 a b : distinct (C2 a b) -> fst a <> fst b.
Proof. unfold distinct. cbn. intros H E. inversion H as [|? ? N _]. apply N. left. now symmetry. Qed.
Lemma dist3 a b d : distinct (C3 a b d) -> fst a <> fst b /\ fst a <> fst d /\ fst b <> fst d.
Proof. unfold distinct. cbn. intros H. inversion H as [|? ? N H']. inversion H' as [|? ? N' _]. cbn in *. repeat split; intro E; [apply N; left | apply N; right; left | apply N'; left]; now symmetry. Qed.
(** [c] has no literal over the variable of [p], or exactly one *)
Ltac split_var a p := let H := fresh "V" in destruct (Nat.eq_dec (fst a) (fst p)) as [H | H]; [destruct (var_cases a p H) as [-> | ->]; cbn [fst neg] in * |].
Ltac dl := repeat match goal with |- context [lit_eqb ?x ?y] => destruct (lit_eqb x y) eqn:?; cbn [app filter map flat_map fst snd negb orb andb] end.

Ltac bad := exfalso; repeat match goal with H : lit_eqb _ _ = true |- _ => apply leqb_eq in H end; subst; cbn [fst neg] in *; congruence.

Section One.
Variables (s : pasg) (p : lit).
Lemma flat_two l f x y : flat_map (binOf l) (two s f x y) = (if isFreeL s x && isFreeL s y then binOf l (f, C2 x y) else []) /\ flat_map (terOf l) (two s f x y) = [].
Proof. unfold two. destruct (_ && _); cbn [flat_map]; [rewrite app_nil_r|]; split; easy. Qed.
Lemma bin_simp l fc : distinct (snd fc) -> fst l <> fst p ->
  filter (fun x => negb (isB p x)) (binOf l fc) ++ flat_map (addf s l) (terOf p fc) = flat_map (binOf l) (simp s p fc).
Proof.
  intros W V. destruct fc as [f [a b | a b d]]; cbn [snd] in W.
  - apply dist2 in W. unfold terOf, simp, binOf, isB. cbn [fst snd flat_map]. rewrite app_nil_r.
    split_var a p; [| |split_var b p]; ev; dl; try easy; ev; try easy; rewrite ?app_nil_r; try easy; bad.
  - apply dist3 in W as (W1 & W2 & W3). unfold simp, terOf. cbn [snd fst]. change (binOf l (f, C3 a b d)) with (@nil (lit * bool)). cbn [filter app].
    split_var a p; [| |split_var b p; [| |split_var d p]]; ev; unfold addf, both; cbn [fst snd]; rewrite ?(proj1 (flat_two _ _ _ _)), ?app_nil_r; try easy.
Qed.
Lemma ter_simp l fc : distinct (snd fc) -> fst l <> fst p ->
  filter (fun x => negb (isT (neg p) x)) (filter (fun x => negb (isT p x)) (terOf l fc)) = flat_map (terOf l) (simp s p fc).
Proof.
  intros W V. destruct fc as [f [a b | a b d]]; cbn [snd] in W.
  - unfold simp. cbn. destruct (_ || _); easy.
  - apply dist3 in W as (W1 & W2 & W3). unfold simp, terOf, isT. cbn [snd fst].
    split_var a p; [| |split_var b p; [| |split_var d p]]; ev; rewrite ?(proj2 (flat_two _ _ _ _)); unfold terOf; cbn [fst snd flat_map]; dl; ev; try easy; try (unfold two; destruct (isFreeL s _ && isFreeL s _); easy); bad.
Qed.
Lemma ter_p fc : distinct (snd fc) -> filter (fun x => negb (isT p x)) (terOf p fc) = terOf p fc.
Proof.
  intros W. destruct fc as [f [a b | a b d]]; [easy|]. apply dist3 in W as (W1 & W2 & W3). unfold terOf, isT. cbn [snd fst].
  split_var a p; [| |split_var b p; [| |split_var d p]]; ev; easy.
Qed.
Lemma bin_cnt l fc : length (filter (isB p) (binOf l fc)) <= num l (map (fun x => neg (fst x)) (binOf (neg p) fc)).
Proof.
  destruct fc as [f [a b | a b d]]; [|cbn; lia]. unfold binOf, isB, num. cbn [fst snd]. rewrite !leqb_neg. rewrite (leqb_sym p a), (leqb_sym p b).
  destruct (lit_eqb l (neg a)) eqn:A, (lit_eqb l (neg b)) eqn:B, (lit_eqb a p) eqn:C, (lit_eqb b p) eqn:D; cbn [app filter fst snd map]; rewrite ?A, ?B, ?C, ?D; cbn; lia.
Qed.
Lemma ter_cnt x l fc : length (filter (isT x) (terOf l fc)) <= num l (tgs (terOf (neg x) fc)).
Proof.
  destruct fc as [f [a b | a b d]]; [cbn; lia|]. unfold terOf, isT, num, tgs. cbn [fst snd]. rewrite !leqb_neg. rewrite (leqb_sym x a), (leqb_sym x b), (leqb_sym x d).
  destruct (lit_eqb l (neg a)) eqn:A, (lit_eqb l (neg b)) eqn:B, (lit_eqb l (neg d)) eqn:B', (lit_eqb a x) eqn:C, (lit_eqb b x) eqn:D, (lit_eqb d x) eqn:D';
    cbn [app filter fst snd flat_map]; rewrite ?A, ?B, ?B', ?C, ?D, ?D'; cbn [orb]; cbn [filter length]; lia.
Qed.
Lemma nb_simp f fc : distinct (snd fc) ->
  nb f [fc] + numb f (map snd (filter (both s) (terOf p fc))) = nb f (simp s p fc) + numb f (map snd (binOf (neg p) fc)) /\ numb f (map snd (binOf (neg p) fc)) <= nb f [fc] /\
  nt f [fc] = nt f (simp s p fc) + numb f (map snd (terOf (neg p) fc)) + numb f (map snd (terOf p fc)).
Proof.
  intro W. destruct fc as [f' [a b | a b d]]; cbn [snd] in W; unfold simp, terOf, binOf, nb, nt, numb, two, both; cbn [fst snd].
  - apply dist2 in W. split_var a p; [| |split_var b p]; ev; cbn [isC2]; ev; destruct (Bool.eqb f f') eqn:EQ; cbn; rewrite ?EQ; cbn; lia.
  - apply dist3 in W as (W1 & W2 & W3). split_var a p; [| |split_var b p; [| |split_var d p]]; ev; cbn [isC2]; ev; destruct (Bool.eqb f f') eqn:EQ; cbn; rewrite ?EQ; cbn; try lia;
      destruct (isFreeL s _ && isFreeL s _); cbn; rewrite ?EQ; cbn; lia.
Qed.
End One.
