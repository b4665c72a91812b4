(** Rule simplification: cutting weights, and the result of simplifying a sum *)
From Coq Require Import List Bool Arith ZArith Lia.
Import ListNotations.
From Verif Require Import Base LpSpec LpProofs RtModel RtProofs RtProofs2 SrModel SrSpec SrProofs SrProofs2.
Local Open Scope Z_scope.

Lemma cut_if b w : (if b <? w then b else w) = Z.min w b.
Proof. destruct (b <? w) eqn:E; [apply Z.ltb_lt in E|apply Z.ltb_ge in E]; lia. Qed.
Lemma findW_cut b q : 0 < b -> forall l, findW (map (cut b) l) q = Z.min (findW l q) b.
Proof.
  intros Hb. induction l as [|x l IH]; [cbn; lia|]. cbn [map]. rewrite !findW_cons. cbn [cut fst snd]. destruct (lit_eqb q (fst x)); [reflexivity|auto].
Qed.
Lemma findW_app_min q w k k' : forall l, Z.min w (findW k q) = Z.min w (findW k' q) -> Z.min w (findW (l ++ k) q) = Z.min w (findW (l ++ k') q).
Proof. induction l as [|x l IH]; intros E; [auto|]. cbn [app]. rewrite !findW_cons. destruct (lit_eqb q (fst x)); auto. Qed.

(** what the second loop computes: [dF] is what is taken off for a literal whose complement is in [F] *)
Definition dF (m : marks) (F : wl) (x : lit * Z) : Z := if snd (fst x) && inBody m (neg (fst x)) then Z.min (snd x) (findW F (neg (fst x))) else 0.
Definition sumD (m : marks) (F l : wl) : Z := fold_right (fun (x : lit * Z) s => (snd x - dF m F x) + s) 0 l.
Lemma cutLoop_ok m b : 0 < b -> forall l dn mx mn sw sr F mx' mn' sw' sr', cutLoop m b dn l mx mn sw sr = (F, mx', mn', sw', sr') ->
  (forall x, In x dn -> snd x <= b) -> (forall x, In x (dn ++ map (cut b) l) -> snd x <= mx) ->
  F = dn ++ map (cut b) l /\ sw' = sw - sumW l + sumW (map (cut b) l) /\ sr' = sr + sumD m F (map (cut b) l)
  /\ mn' <= mn /\ (forall x, In x (map (cut b) l) -> mn' <= snd x) /\ (forall x, In x F -> snd x <= mx').
Proof.
  intros Hb. induction l as [|[p w] l IH]; intros dn mx mn sw sr F mx' mn' sw' sr' E Hd Hx.
  - cbn in E. injection E as <- <- <- <- <-. cbn in *. rewrite app_nil_r in *. split; [auto|]. split; [lia|]. split; [lia|]. split; [lia|]. split; [intros x []|auto].
  - cbn [cutLoop] in E. rewrite cut_if in E. set (cw := Z.min w b) in *. assert (Mc : map (cut b) ((p, w) :: l) = (p, cw) :: map (cut b) l) by reflexivity. rewrite Mc in *.
    apply IH in E.
    + destruct E as (A1 & A2 & A3 & A4 & A5 & A6). rewrite <- app_assoc in A1. cbn [app] in A1. split; [auto|]. cbn [sumW fold_right snd]. fold (sumW l) (sumW (map (cut b) l)). split; [|split; [|split; [|split]]].
      * rewrite A2. subst cw. destruct (b <? w) eqn:X; [apply Z.ltb_lt in X|apply Z.ltb_ge in X]; lia.
      * rewrite A3. cbn [sumD fold_right]. fold (sumD m F (map (cut b) l)). cbn [snd fst].
        assert (Y : (if snd p && inBody m (neg p) then sr + cw - Z.min cw (findW (dn ++ (p, cw) :: l) (neg p)) else sr + cw) = sr + (cw - dF m F (p, cw))).
        { unfold dF. cbn [fst snd]. destruct (snd p && inBody m (neg p)); [|lia]. rewrite A1.
          rewrite (findW_app_min (neg p) cw ((p, cw) :: l) ((p, cw) :: map (cut b) l)); [lia|]. rewrite !findW_cons. cbn [fst snd]. destruct (lit_eqb (neg p) p); [auto|]. rewrite findW_cut by auto. lia. }
        rewrite Y. lia.
      * destruct (cw <? mn) eqn:X; [apply Z.ltb_lt in X|]; lia.
      * intros x [<-|J]; [|auto]. cbn [snd]. destruct (cw <? mn) eqn:X; [|apply Z.ltb_ge in X]; lia.
      * auto.
    + intros x J. apply in_app_iff in J as [J|[<-|[]]]; [auto|]. cbn. lia.
    + rewrite <- app_assoc. cbn [app]. intros x J. destruct (b <? w) eqn:X; [|auto]. apply in_app_iff in J as [J|[<-|J]]; [auto|cbn; lia|]. apply in_map_iff in J as (y & <- & _). cbn. lia.
Qed.

(** at most one of two complementary literals counts *)
Section D.
Context (N M : asg) (Hs : sub N M).
Definition u (p : lit) : Z := if litT N M p then 0 else 1.
Definition sumU (F : wl) : Z := fold_right (fun (x : lit * Z) s => (if snd (fst x) then 0 else snd x * u (fst x)) + s) 0 F.
Definition sumF (F : wl) (A : list lit) : Z := fold_right (fun (a : lit) s => findW F a * u a + s) 0 A.
Lemma u_range p : 0 <= u p <= 1.
Proof. unfold u. destruct (litT N M p); lia. Qed.
Lemma sumF_notin x F : forall A, ~ In (fst x) A -> sumF (x :: F) A = sumF F A.
Proof.
  induction A as [|a A IH]; intros H; [auto|]. cbn [sumF fold_right]. fold (sumF (x :: F) A) (sumF F A). rewrite IH by (intros X; apply H; now right). rewrite findW_cons.
  destruct (lit_eqb a (fst x)) eqn:E; [|auto]. apply lit_eqb_eq in E. destruct H. now left.
Qed.
Lemma sumF_cons x F : 0 <= snd x -> (forall y, In y F -> 0 <= snd y) -> forall A, NoDup A -> sumF (x :: F) A <= snd x * u (fst x) + sumF F A.
Proof.
  intros Hx HF. induction A as [|a A IH]; intros Nd; [cbn; pose proof (u_range (fst x)); nia|]. inversion Nd as [|? ? B1 B2]; subst. cbn [sumF fold_right]. fold (sumF (x :: F) A) (sumF F A). rewrite findW_cons.
  assert (Fa : 0 <= findW F a). { destruct (in_dec (fun p q : lit => match Bool.bool_dec (lit_eqb p q) true with left e => left (proj1 (lit_eqb_iff p q) e) | right n => right (fun e => n (proj2 (lit_eqb_iff p q) e)) end) a (lits F)) as [J|J].
    - apply findW_in in J. now apply HF in J.
    - rewrite findW_notin by auto. lia. }
  destruct (lit_eqb a (fst x)) eqn:E.
  - apply lit_eqb_eq in E. subst a. rewrite sumF_notin by auto. pose proof (u_range (fst x)). nia.
  - specialize (IH B2). lia.
Qed.
Lemma sumF_le : forall F A, (forall y, In y F -> 0 <= snd y) -> NoDup A -> (forall a, In a A -> snd a = false) -> sumF F A <= sumU F.
Proof.
  induction F as [|x F IH]; intros A HF Nd Hp.
  - assert (X : forall A, sumF [] A = 0) by (clear; induction A as [|a A IH]; [auto|]; cbn [sumF fold_right]; fold (sumF [] A); rewrite findW_nil; lia). rewrite X. cbn. lia.
  - assert (HF' : forall y, In y F -> 0 <= snd y) by (intros y J; apply HF; now right). specialize (IH A HF' Nd Hp). cbn [sumU fold_right]. fold (sumU F). destruct (snd (fst x)) eqn:E.
    + rewrite sumF_notin; [lia|]. intros J. apply Hp in J. congruence.
    + pose proof (sumF_cons x F (HF x (or_introl eq_refl)) HF' A Nd). lia.
Qed.
Lemma sumT_sumD m F : (forall y, In y F -> 0 <= snd y) -> NoDup (lits F) -> sumT N M F <= sumD m F F.
Proof.
  intros HF Nd.
  (* negative literals against their complements *)
  assert (G : forall l, (forall y, In y l -> In y F) -> sumT N M l + sumU l <= sumD m F l + sumF F (map neg (filter (fun p : lit => snd p) (lits l)))).
  { induction l as [|x l IH]; intros Hl; [cbn; lia|]. cbn [sumT fold_right sumU sumD lits map filter]. fold (sumT N M l) (sumU l) (sumD m F l) (lits l).
    assert (Hx : 0 <= snd x) by (apply HF, Hl; now left). specialize (IH (fun y J => Hl y (or_intror J))).
    unfold dF. destruct (snd (fst x)) eqn:Es; cbn [andb map sumF fold_right].
    - fold (sumF F (map neg (filter (fun p : lit => snd p) (lits l)))). pose proof (neg_false N M (fst x) Hs) as Nf.
      assert (Fn : 0 <= findW F (neg (fst x))). { destruct (in_dec (fun p q : lit => match Bool.bool_dec (lit_eqb p q) true with left e => left (proj1 (lit_eqb_iff p q) e) | right n => right (fun e => n (proj2 (lit_eqb_iff p q) e)) end) (neg (fst x)) (lits F)) as [J|J].
        - apply findW_in in J. now apply HF in J.
        - rewrite findW_notin by auto. lia. }
      pose proof (u_range (neg (fst x))) as Un. destruct (inBody m (neg (fst x))).
      + destruct (litT N M (fst x)) eqn:Et; [|nia]. assert (U1 : u (neg (fst x)) = 1) by (unfold u; now rewrite Nf). rewrite U1. lia.
      + destruct (litT N M (fst x)); nia.
    - unfold u at 1. destruct (litT N M (fst x)); lia. }
  specialize (G F (fun y J => J)). assert (X : sumF F (map neg (filter (fun p : lit => snd p) (lits F))) <= sumU F).
  { apply sumF_le; auto.
    - assert (Ndf : NoDup (filter (fun p : lit => snd p) (lits F))) by now apply NoDup_filter. revert Ndf. generalize (filter (fun p : lit => snd p) (lits F)). clear. induction l as [|p l IH]; intros H; [constructor|]. inversion H as [|? ? B1 B2]; subst. cbn. constructor; [|auto].
      intros J. apply in_map_iff in J as (q & E & J). assert (q = p) by (rewrite <- (neg_neg q), <- (neg_neg p); now rewrite E). now subst.
    - intros a J. apply in_map_iff in J as (q & <- & J). apply filter_In in J as [_ J]. destruct q as [v sg]. cbn in *. now rewrite J. }
  lia.
Qed.
End D.
Lemma sumD_le m F : (forall y, In y F -> 0 <= snd y) -> forall l, (forall y, In y l -> In y F) -> sumD m F l <= sumW l.
Proof.
  intros HF. induction l as [|x l IH]; intros Hl; [cbn; lia|]. cbn [sumD sumW fold_right]. fold (sumD m F l) (sumW l). specialize (IH (fun y J => Hl y (or_intror J))).
  assert (0 <= dF m F x); [|lia]. unfold dF. destruct (_ && _); [|lia]. assert (0 <= snd x) by (apply HF, Hl; now left).
  destruct (in_dec (fun p q : lit => match Bool.bool_dec (lit_eqb p q) true with left e => left (proj1 (lit_eqb_iff p q) e) | right n => right (fun e => n (proj2 (lit_eqb_iff p q) e)) end) (neg (fst x)) (lits F)) as [J|J].
  - apply findW_in, HF in J. cbn in J. lia.
  - rewrite findW_notin by auto. lia.
Qed.
(** complementary literals cost at least the least weight *)
Lemma sumD_compl m F mn p : (forall q, In q (lits F) -> In q (m_body m)) -> (forall y, In y F -> 0 <= snd y) -> (forall y, In y F -> mn <= snd y) -> In p (lits F) -> In (neg p) (lits F) -> sumD m F F <= sumW F - mn.
Proof.
  intros Hm HF Hn.
  assert (G : forall q, snd q = true -> In q (lits F) -> In (neg q) (lits F) -> forall l, (forall y, In y l -> In y F) -> In q (lits l) -> sumD m F l <= sumW l - mn).
  { intros q Sq Iq Inq. induction l as [|x l IH]; intros Hl Il; [destruct Il|]. cbn [sumD sumW fold_right]. fold (sumD m F l) (sumW l). destruct Il as [E|Il].
    - pose proof (sumD_le m F HF l (fun y J => Hl y (or_intror J))) as X. unfold dF. rewrite E, Sq. assert (B : inBody m (neg q) = true) by (apply inBody_iff, Hm; auto). rewrite B. cbn [andb].
      pose proof (Hn x (Hl x (or_introl eq_refl))). apply findW_in, Hn in Inq. cbn in Inq. lia.
    - specialize (IH (fun y J => Hl y (or_intror J)) Il). pose proof (sumD_le m F HF [x] (fun y J => Hl y (match J with or_introl e => or_introl e | or_intror f => match f with end end))) as X. cbn in X. lia. }
  intros A B. destruct (snd p) eqn:E.
  - apply (G p); auto.
  - apply (G (neg p)); auto; [destruct p as [a sg]; cbn in *; now rewrite E|]. now rewrite neg_neg.
Qed.

(** ** counts *)
Lemma sumT_count N M w : forall l, (forall x, In x l -> snd x = w) -> sumT N M l = w * sumT N M (map (fun x : lit * Z => (fst x, 1)) l).
Proof.
  induction l as [|x l IH]; intros H; [cbn; lia|]. cbn [map sumT fold_right fst snd]. fold (sumT N M l) (sumT N M (map (fun x : lit * Z => (fst x, 1)) l)). rewrite IH by (intros y J; apply H; now right).
  rewrite (H x) by now left. destruct (litT N M (fst x)); lia.
Qed.
Lemma ceil b w c : 0 < w -> (b <= w * c <-> (b + (w - 1)) / w <= c).
Proof.
  intros Hw. split; intros H.
  - assert ((b + (w - 1)) / w < c + 1); [|lia]. apply Z.div_lt_upper_bound; lia.
  - pose proof (Z.mul_succ_div_gt (b + (w - 1)) w Hw). nia.
Qed.
Lemma weaken_ok N M bound w l : 0 < w -> (forall x, In x l -> snd x = w) -> bodyT N M (weakenCount bound w l) = bodyT N M (Agg bound l).
Proof.
  intros Hw H. unfold weakenCount. destruct (w =? 1); [auto|]. cbn [bodyT]. rewrite (sumT_count N M w l H). apply Bool.eq_true_iff_eq. rewrite !Z.leb_le. symmetry. now apply ceil.
Qed.
Lemma sumW_const w : forall l, (forall x, In x l -> snd x = w) -> sumW l = w * Z.of_nat (length l).
Proof. induction l as [|x l IH]; intros H; [cbn; lia|]. cbn [sumW fold_right]. fold (sumW l). rewrite IH by (intros y J; apply H; now right). rewrite (H x) by now left. cbn [length]. lia. Qed.
Lemma count_slack bound w l : 0 < w -> (forall x, In x l -> snd x = w) -> bound <= sumW l - w -> 1 <= sumW l - boundOf (weakenCount bound w l).
Proof.
  intros Hw H Hb. unfold weakenCount. destruct (w =? 1) eqn:E; cbn [boundOf]; [apply Z.eqb_eq in E; lia|]. rewrite (sumW_const w l H) in *.
  assert ((bound + (w - 1)) / w <= Z.of_nat (length l) - 1) by (apply ceil; lia). nia.
Qed.

(** a literal heavier than the slack is needed *)
Lemma needed N M : forall l p, (forall x, In x l -> 0 <= snd x) -> In p (lits l) -> litT N M p = false -> sumT N M l <= sumW l - findW l p.
Proof.
  induction l as [|x l IH]; intros p H J E; [destruct J|]. rewrite findW_cons. cbn [sumT sumW fold_right]. fold (sumT N M l) (sumW l). assert (H' : forall x, In x l -> 0 <= snd x) by (intros y Y; apply H; now right).
  pose proof (sumT_le N M l H'). destruct (lit_eqb p (fst x)) eqn:Ex.
  - apply lit_eqb_eq in Ex. subst p. rewrite E. lia.
  - destruct J as [J|J]; [rewrite <- J, lit_eqb_refl in Ex; discriminate|]. specialize (IH p H' J E). pose proof (H x (or_introl eq_refl)). destruct (litT N M (fst x)); lia.
Qed.
