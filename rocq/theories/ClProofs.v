From Coq Require Import List Bool Arith ZArith Lia Permutation.
From Verif Require Import Base ClModel ClSpec.
Import ListNotations.
Local Open Scope Z_scope.

#[local] Arguments Z.add : simpl never.
#[local] Arguments Z.sub : simpl never.
#[local] Arguments Z.eqb : simpl never.
#[local] Arguments Z.ltb : simpl never.
#[local] Arguments Z.leb : simpl never.

Lemma fst_neg : forall p : lit, fst (neg p) = fst p.
Proof. intros [v b]. reflexivity. Qed.

Section S.
Variable s : sview.
Hypothesis WF : wf_view s.

Let wo := watchOrder s.

Lemma pval_some_val : forall p b, pval (s_val s) p = Some b -> exists c, s_val s (fst p) = Some c.
Proof. intros [v sg] b H. unfold pval in H. cbn in *. destruct (s_val s v); [eauto|discriminate]. Qed.

Lemma wo_cases : forall p,
  (free_lit s p /\ wo p = s_dl s + 1) \/
  (false_lit s p /\ wo p = s_lvl s (fst p) /\ 0 <= s_lvl s (fst p) <= s_dl s) \/
  (true_lit s p /\ wo p = u32max - s_lvl s (fst p) /\ 0 <= s_lvl s (fst p) <= s_dl s).
Proof.
  intros p. unfold wo, watchOrder, free_lit, false_lit, true_lit.
  destruct (pval (s_val s) p) as [[|]|] eqn:E; auto.
  - destruct (pval_some_val _ _ E) as [c Hc]. pose proof (wv_lvl s WF _ _ Hc). auto.
  - destruct (pval_some_val _ _ E) as [c Hc]. pose proof (wv_lvl s WF _ _ Hc). auto.
Qed.

Lemma wo_range : forall p, 0 <= wo p <= u32max.
Proof.
  intros p. pose proof (wv_dl s WF). unfold varMax, u32max in *.
  destruct (wo_cases p) as [[_ H1]|[[_ [H1 H2]]|[_ [H1 H2]]]]; unfold u32max in *; lia.
Qed.

Lemma wo_zero : forall p, wo p = 0 <-> false_lit s p /\ s_lvl s (fst p) = 0.
Proof.
  intros p. pose proof (wv_dl s WF). unfold varMax, u32max, false_lit, free_lit, true_lit in *.
  destruct (wo_cases p) as [[F H1]|[[F [H1 H2]]|[F [H1 H2]]]]; unfold free_lit, false_lit, true_lit, u32max in *; split;
    try lia; try (intros [G _]; congruence); intros; try (split; [assumption|lia]); lia.
Qed.

Lemma wo_max : forall p, wo p = u32max <-> true_lit s p /\ s_lvl s (fst p) = 0.
Proof.
  intros p. pose proof (wv_dl s WF). unfold varMax, u32max, false_lit, free_lit, true_lit in *.
  destruct (wo_cases p) as [[F H1]|[[F [H1 H2]]|[F [H1 H2]]]]; unfold free_lit, false_lit, true_lit, u32max in *; split;
    try lia; try (intros [G _]; congruence); intros; try (split; [assumption|lia]); lia.
Qed.

Lemma better_wo : forall p q, better s p q <-> wo q < wo p.
Proof.
  intros p q. pose proof (wv_dl s WF). unfold better.
  destruct (wo_cases p) as [[F H1]|[[F [H1 H2]]|[F [H1 H2]]]];
  destruct (wo_cases q) as [[G K1]|[[G [K1 K2]]|[G [K1 K2]]]];
  unfold free_lit, false_lit, true_lit, u32max, varMax in *; rewrite F, G; split; intros; try lia; try tauto; try exact I.
Qed.

(** * The loop *)
Definition keepable (p : lit) : Prop := wo p <> 0 /\ wo p <> u32max.

Record Inv (simp : bool) (omax : nat) (pre : list lit) (kept : list lit) (st : prep) : Prop := {
  i_keep : forall p, In p kept -> keepable p /\ In p pre;
  i_all : forall p, In p pre -> In p kept \/ wo p = 0;
  i_simp : simp = true -> NoDup (map fst kept) /\ (forall p, In p (p_seen st) <-> In p kept);
  i_nosimp : simp = false -> kept = filter (fun p => negb (wo p =? 0)) pre;
  i_size : p_size st = length kept;
  i_len : (length (p_out st) <= omax)%nat /\ (length (p_out st) <= length pre)%nat;
  i_out : match p_out st with
          | [] => kept = [] /\ p_w1 st = 0 /\ p_w2 st = 0
          | [o] => kept = [o] /\ p_w1 st = wo o /\ p_w2 st = 0
          | o0 :: o1 :: tl => p_w1 st = wo o0 /\ p_w2 st = wo o1 /\ wo o1 <= wo o0 /\
              exists rest, Permutation kept (o0 :: o1 :: rest) /\ (forall r, In r rest -> wo r <= wo o1) /\
                           ((length pre <= omax)%nat -> Permutation rest tl)
          end }.

Lemma set_nth_last : forall (l : list lit) x y, set_nth (length l) x (l ++ [y]) = l ++ [x].
Proof.
  intros l x y. unfold set_nth. rewrite firstn_app, firstn_all, Nat.sub_diag. cbn [firstn].
  rewrite app_nil_r. f_equal. f_equal. apply skipn_all2. rewrite app_length. cbn. lia.
Qed.

Lemma put_spec : forall omax p out, (3 <= omax)%nat -> (length out <= omax)%nat ->
  exists pre', put omax p out = pre' ++ [p] /\
    ((length out < omax)%nat -> pre' = out) /\ (length pre' <= length out)%nat /\ (length pre' < omax)%nat /\
    (forall o0 o1 tl, out = o0 :: o1 :: tl -> exists tl', pre' = o0 :: o1 :: tl') /\
    ((length out < 3)%nat -> pre' = out).
Proof.
  intros omax p out H L. unfold put. destruct (Nat.ltb_spec (length out) omax).
  - exists out. repeat split; auto. intros; subst; eauto.
  - assert (length out = omax) by lia.
    exists (firstn (omax - 1) out). unfold set_nth. rewrite skipn_all2 by lia. repeat split; try lia.
    + rewrite firstn_length; lia.
    + rewrite firstn_length; lia.
    + intros o0 o1 tl ->. cbn [length] in *. destruct omax as [|[|[|n]]]; try lia.
      replace (S (S (S n)) - 1)%nat with (S (S n)) by lia. cbn [firstn]. eauto.
Qed.

Lemma nth_last_app : forall (l : list lit) p d, nth (length l) (l ++ [p]) d = p.
Proof. intros. rewrite app_nth2 by lia. now rewrite Nat.sub_diag. Qed.
Lemma swap_last0 : forall o0 l p, swap 0 (length (o0 :: l)) ((o0 :: l) ++ [p]) = p :: l ++ [o0].
Proof.
  intros. unfold swap. rewrite nth_last_app. cbn [nth app].
  unfold set_nth at 2. cbn [firstn skipn app].
  change (p :: l ++ [p]) with ((p :: l) ++ [p]).
  change (length (o0 :: l)) with (length (p :: l)). rewrite set_nth_last. reflexivity.
Qed.
Lemma swap_last1 : forall o0 o1 l p, swap 1 (length (o0 :: o1 :: l)) ((o0 :: o1 :: l) ++ [p]) = o0 :: p :: l ++ [o1].
Proof.
  intros. unfold swap. rewrite nth_last_app. cbn [nth app].
  unfold set_nth at 2. cbn [firstn skipn app].
  change (o0 :: p :: l ++ [p]) with ((o0 :: p :: l) ++ [p]).
  change (length (o0 :: o1 :: l)) with (length (o0 :: p :: l)). rewrite set_nth_last. reflexivity.
Qed.
Lemma swap_same : forall i l, (i < length l)%nat -> swap i i l = l.
Proof.
  intros i l H. unfold swap.
  assert (G : set_nth i (nth i l lit_true) l = l).
  { unfold set_nth. rewrite <- (firstn_skipn i l) at 4.
    rewrite <- (firstn_skipn i l) at 2. rewrite app_nth2; rewrite firstn_length_le by lia; [|lia].
    rewrite Nat.sub_diag. f_equal. destruct (skipn i l) as [|x r] eqn:E.
    - apply (f_equal (@length _)) in E. rewrite skipn_length in E. cbn in E. lia.
    - cbn [nth]. f_equal. replace (S i) with (1 + i)%nat by lia.
      clear -E. revert i x r E. induction l; intros [|i] x r E; cbn in *; try discriminate; [now inversion E|eauto]. }
  rewrite G. exact G.
Qed.

Notation trivial := (trivially_true s).

Lemma seen_var_spec : forall l p, seen_var l p = true <-> exists q, In q l /\ fst q = fst p.
Proof.
  intros l p. unfold seen_var. rewrite existsb_exists. split; intros [q [A B]]; exists q; split; auto; now apply Nat.eqb_eq.
Qed.
Lemma seen_lit_spec : forall l p, seen_lit l p = true <-> In p l.
Proof.
  intros l p. unfold seen_lit. rewrite existsb_exists. split.
  - intros [q [A B]]. apply lit_eqb_eq in B. now subst.
  - intros A. exists p. split; auto. apply lit_eqb_refl.
Qed.

Lemma NoDup_map_snoc : forall (l : list lit) p, NoDup (map fst l) -> (forall q, In q l -> fst q <> fst p) ->
  NoDup (map fst (p :: l)).
Proof.
  intros l p N H. cbn. constructor; auto. intros C. apply in_map_iff in C as [q [A B]]. eapply H; eauto.
Qed.

Lemma prep_loop_spec : forall simp omax lits pre kept st, (3 <= omax)%nat -> Inv simp omax pre kept st ->
  let st' := prep_loop s simp omax lits st in
  (exists kept', Inv simp omax (pre ++ lits) kept' st') \/
  (p_w1 st' = u32max /\ trivial (pre ++ lits)).
Proof.
  intros simp omax lits. induction lits as [|p rest IH]; intros pre kept st O I; cbn [prep_loop].
  - left. exists kept. now rewrite app_nil_r.
  - fold wo. change (watchOrder s p) with (wo p).
    destruct I as [Ik Ia Is In0 Iz [Il Il'] Io].
    destruct ((negb (wo p =? 0) && negb (wo p =? u32max)) && (negb simp || negb (seen_var (p_seen st) p))) eqn:C.
    + apply andb_true_iff in C as [C1 C2]. apply andb_true_iff in C1 as [C0 C1].
      apply negb_true_iff in C0, C1. apply Z.eqb_neq in C0, C1.
      assert (R := wo_range p).
      destruct (put_spec omax p (p_out st) O Il) as [pre' [Ep [Ep1 [Ep2 [Ep3 [Ep4 Ep5]]]]]].
      match goal with |- context [prep_loop s simp omax rest ?t] => idtac | _ => idtac end.
      assert (K : forall out w1 w2 (seen : list lit),
         seen = (if simp then p :: p_seen st else p_seen st) ->
         (length out <= omax)%nat -> (length out <= S (length pre))%nat ->
         match out with
          | [] => False
          | [o] => kept = [] /\ o = p /\ w1 = wo o /\ w2 = 0
          | o0 :: o1 :: tl => w1 = wo o0 /\ w2 = wo o1 /\ wo o1 <= wo o0 /\
              exists rest, Permutation (p :: kept) (o0 :: o1 :: rest) /\ (forall r, In r rest -> wo r <= wo o1) /\
                           ((length (pre ++ [p]) <= omax)%nat -> Permutation rest tl)
          end ->
          let st' := prep_loop s simp omax rest (Prep out (S (p_size st)) w1 w2 seen) in
          (exists kept', Inv simp omax (pre ++ p :: rest) kept' st') \/ (p_w1 st' = u32max /\ trivial (pre ++ p :: rest))).
      { intros out w1 w2 seen Es L1 L2 M. replace (pre ++ p :: rest) with ((pre ++ [p]) ++ rest) by now rewrite <- app_assoc.
        apply (IH (pre ++ [p]) (kept ++ [p])); auto. constructor; cbn [p_out p_size p_w1 p_w2 p_seen].
        - intros q Hq. apply in_app_or in Hq as [Hq|[<-|[]]].
          + apply Ik in Hq as [A B]. split; auto. apply in_or_app; auto.
          + split; [split; auto|]. apply in_or_app. right. now left.
        - intros q Hq. apply in_app_or in Hq as [Hq|[<-|[]]].
          + apply Ia in Hq as [Hq|Hq]; auto. left. apply in_or_app; auto.
          + left. apply in_or_app. right. now left.
        - intros ->. destruct (Is eq_refl) as [S1 S2]. cbn in C2. apply negb_true_iff in C2. split.
          + apply Permutation_NoDup with (map fst (p :: kept)).
            * apply Permutation_map. apply Permutation_cons_append.
            * apply NoDup_map_snoc; auto. intros q Hq E. assert (seen_var (p_seen st) p = true); [|congruence].
              apply seen_var_spec. exists q. split; auto. now apply S2.
          + intros q. subst seen. cbn. rewrite in_app_iff, S2. cbn. tauto.
        - intros E. rewrite (In0 E). rewrite filter_app. cbn. apply Z.eqb_neq in C0. rewrite C0. reflexivity.
        - rewrite app_length. cbn. lia.
        - rewrite app_length. cbn [length]. lia.
        - destruct out as [|o0 [|o1 tl]].
          + contradiction.
          + destruct M as [-> [-> [M1 M2]]]. auto.
          + destruct M as [M1 [M2 [M3 [r [M4 [M5 M6]]]]]]. repeat split; auto. exists r. repeat split; auto.
            rewrite <- M4. symmetry. apply Permutation_cons_append. }
      rewrite Ep. rewrite app_length. cbn [length]. replace (length pre' + 1 - 1)%nat with (length pre') by lia.
      destruct (p_out st) as [|o0 [|o1 tl]] eqn:Eo.
      * (* first *)
        destruct Io as [-> [W1 W2]]. rewrite (Ep5 ltac:(cbn; lia)). cbn [length app].
        rewrite W1, W2. destruct (Z.ltb_spec 0 (wo p)); [|lia]. rewrite Z.ltb_irrefl.
        rewrite swap_same by (cbn; lia). cbn [fst snd]. apply K; auto; cbn; try lia.
      * destruct Io as [-> [W1 W2]]. rewrite (Ep5 ltac:(cbn; lia)). cbn [length].
        rewrite W1, W2. assert (R0 := wo_range o0). destruct (Ik o0 (or_introl eq_refl)) as [[Q1 Q2] _].
        destruct (Z.ltb_spec (wo o0) (wo p)).
        -- change (swap 0 1 ([o0] ++ [p])) with [p; o0].
           destruct (Z.ltb_spec 0 (wo o0)); [|lia]. rewrite swap_same by (cbn; lia).
           cbn [length] in *. apply K; auto; cbn; try lia. repeat split; try lia. exists []. split; [|split]; auto. intros r [].
        -- cbn [app]. destruct (Z.ltb_spec 0 (wo p)); [|lia]. rewrite swap_same by (cbn; lia).
           cbn [length] in *. apply K; auto; cbn; try lia. repeat split; try lia. exists []. split; [|split]; auto; [apply perm_swap|intros r []].
      * destruct Io as [W1 [W2 [W3 [r [P1 [P2 P3]]]]]].
        destruct (Ep4 _ _ _ eq_refl) as [tl' ->]. rewrite W1, W2.
        assert (TL : (length (pre ++ [p]) <= omax)%nat -> tl' = tl).
        { intros L. rewrite app_length in L. cbn [length] in *. assert (A : o0 :: o1 :: tl' = o0 :: o1 :: tl) by (apply Ep1; lia).
          congruence. }
        assert (LL : (length (pre ++ [p]) <= omax)%nat -> (length pre <= omax)%nat).
        { rewrite app_length. cbn. lia. }
        destruct (Z.ltb_spec (wo o0) (wo p)).
        -- rewrite swap_last0. cbn [app].
           destruct (Z.ltb_spec (wo o1) (wo o0)).
           ++ change (length (o0 :: o1 :: tl')) with (length (p :: o1 :: tl')).
              change (p :: o1 :: tl' ++ [o0]) with ((p :: o1 :: tl') ++ [o0]). rewrite swap_last1.
              apply K; auto; cbn [length] in *; try (rewrite ?app_length; cbn [length]; lia).
              repeat split; try lia. exists (o1 :: r). repeat split.
              ** rewrite P1. reflexivity.
              ** intros q [<-|Hq]; [lia|]. specialize (P2 _ Hq). lia.
              ** intros L. rewrite (TL L). rewrite (P3 (LL L)). apply Permutation_cons_append.
           ++ apply K; auto; cbn [length] in *; try (rewrite ?app_length; cbn [length]; lia).
              repeat split; try lia. exists (o0 :: r). repeat split.
              ** rewrite P1. constructor. apply perm_swap.
              ** intros q [<-|Hq]; [lia|]. specialize (P2 _ Hq). lia.
              ** intros L. rewrite (TL L). rewrite (P3 (LL L)). apply Permutation_cons_append.
        -- destruct (Z.ltb_spec (wo o1) (wo p)).
           ++ rewrite swap_last1. 
              apply K; auto; cbn [length] in *; try (rewrite ?app_length; cbn [length]; lia).
              repeat split; try lia. exists (o1 :: r). repeat split.
              ** rewrite P1. apply perm_trans with (o0 :: p :: o1 :: r); [apply perm_swap|reflexivity].
              ** intros q [<-|Hq]; [lia|]. specialize (P2 _ Hq). lia.
              ** intros L. rewrite (TL L). rewrite (P3 (LL L)). apply Permutation_cons_append.
           ++ cbn [app]. apply K; auto; cbn [length] in *; try (rewrite ?app_length; cbn [length]; lia).
              repeat split; try lia. exists (p :: r). repeat split.
              ** rewrite P1. apply perm_trans with (o0 :: p :: o1 :: r); [apply perm_swap|]. constructor. apply perm_swap.
              ** intros q [<-|Hq]; [lia|]. specialize (P2 _ Hq). lia.
              ** intros L. rewrite (TL L). rewrite (P3 (LL L)). apply Permutation_cons_append.
    + destruct ((wo p =? u32max) || (simp && negb (wo p =? 0) && seen_lit (p_seen st) (neg p))) eqn:D.
      * right. cbn [p_w1]. split; auto. exists p. split; [apply in_or_app; right; now left|].
        apply orb_true_iff in D as [D|D].
        -- left. apply wo_max. now apply Z.eqb_eq.
        -- right. apply andb_true_iff in D as [D D3]. apply andb_true_iff in D as [D1 D2]. subst simp.
           destruct (Is eq_refl) as [_ S2]. apply seen_lit_spec in D3. apply S2 in D3. apply Ik in D3 as [_ D3].
           apply in_or_app. now left.
      * apply orb_false_iff in D as [D1 D2]. apply Z.eqb_neq in D1.
        replace (pre ++ p :: rest) with ((pre ++ [p]) ++ rest) by now rewrite <- app_assoc.
        apply (IH (pre ++ [p]) kept); auto.
        assert (X : wo p = 0 \/ (simp = true /\ In p kept)).
        { destruct (Z.eqb_spec (wo p) 0) as [|N0]; auto. right.
          apply Z.eqb_neq in D1. rewrite D1 in C. cbn in C. apply orb_false_iff in C as [C1 C2].
          apply negb_false_iff in C1, C2. subst simp. split; auto. destruct (Is eq_refl) as [_ S2].
          apply seen_var_spec in C2 as [q [Q1 Q2]]. cbn in D2.
          destruct (same_var q p Q2) as [-> | ->]; [now apply S2|].
          exfalso. rewrite neg_neg in D2. assert (seen_lit (p_seen st) q = true) by now apply seen_lit_spec. congruence. }
        constructor; auto.
        -- intros q Hq. apply Ik in Hq as [A B]. split; auto. apply in_or_app; auto.
        -- intros q Hq. apply in_app_or in Hq as [Hq|[<-|[]]]; auto. destruct X as [X|[_ X]]; auto.
        -- intros E. rewrite filter_app. cbn. destruct X as [X|[X _]]; [|congruence]. rewrite X. cbn. rewrite app_nil_r. auto.
        -- rewrite app_length. cbn [length]. lia.
        -- destruct (p_out st) as [|o0 [|o1 tl]]; auto.
           destruct Io as [W1 [W2 [W3 [r [P1 [P2 P3]]]]]]. repeat split; auto. exists r. repeat split; auto.
           intros L. apply P3. rewrite app_length in L. lia.
Qed.

Lemma Inv_init : forall simp omax, Inv simp omax [] [] (Prep [] 0 0 0 []).
Proof.
  intros. constructor; cbn; auto; try tauto; try lia. intros _. split; [constructor|tauto].
Qed.

Lemma filter_In_false : forall lits p, In p lits -> wo p <> 0 -> In p (filter (fun p => negb (wo p =? 0)) lits).
Proof. intros. apply filter_In. split; auto. apply negb_true_iff. now apply Z.eqb_neq. Qed.

Lemma NoDup_map_filter : forall (f : lit -> bool) l, NoDup (map fst l) -> NoDup (map fst (filter f l)).
Proof.
  intros f l. induction l as [|x l IH]; cbn; intros H; auto. inversion H; subst.
  destruct (f x); cbn; auto. constructor; auto. intros C. apply H2. apply in_map_iff in C as [y [A B]].
  apply filter_In in B as [B _]. apply in_map_iff. eauto.
Qed.

(** Outcome of [prepare] as used for vectors and for [status]. *)
Lemma prepare_cases : forall fs omax lits, (3 <= omax)%nat ->
  (fs = true /\ (length lits <= omax)%nat) \/ distinct_vars lits ->
  let '(out, n) := prepare s fs omax lits in
  (out = [lit_true] /\ n = 1%nat /\ trivial lits) \/
  (exists kept, NoDup (map fst kept) /\ n = length kept /\
     (forall p, In p kept -> keepable p /\ In p lits) /\
     (forall p, In p lits -> In p kept \/ wo p = 0) /\
     match out with
     | [] => kept = []
     | [o] => kept = [o]
     | o0 :: o1 :: tl => wo o1 <= wo o0 /\
         exists rest, Permutation kept (o0 :: o1 :: rest) /\ (forall r, In r rest -> wo r <= wo o1) /\
                      ((length lits <= omax)%nat -> Permutation rest tl)
     end).
Proof.
  intros fs omax lits O H. unfold prepare.
  remember (fs && (2 <? length lits)%nat && (length lits <=? omax)%nat) as simp eqn:Esimp.
  destruct (prep_loop_spec simp omax lits [] [] (Prep [] 0 0 0 []) O (Inv_init _ _)) as [[kept I]|[W T]];
    set (st := prep_loop s simp omax lits (Prep [] 0 0 0 [])) in *; cbn [app] in *.
  2:{ rewrite W, Z.eqb_refl. cbn. left. auto. }
  destruct I as [Ik Ia Is In0 Iz [Il Il'] Io].
  assert (NM : p_w1 st =? u32max = false).
  { apply Z.eqb_neq. destruct (p_out st) as [|o0 [|o1 tl]].
    - destruct Io as [_ [-> _]]. discriminate.
    - destruct Io as [-> [-> _]]. apply (Ik o0). now left.
    - destruct Io as [-> [_ [_ [r [P _]]]]]. apply (Ik o0). eapply Permutation_in; [symmetry; exact P|now left]. }
  rewrite NM. cbn [orb].
  assert (ND : simp = true \/ distinct_vars lits -> NoDup (map fst kept)).
  { intros [E|E]; [now apply Is|]. destruct simp eqn:Es; [now apply Is|]. rewrite (In0 eq_refl).
    now apply NoDup_map_filter. }
  assert (SM : NoDup (map fst kept) \/ (length lits <= 2)%nat /\ fs = true /\ simp = false).
  { destruct H as [[E1 E2]|E]; [|left; auto]. subst fs. cbn [andb] in Esimp.
    destruct (Nat.ltb_spec 2 (length lits)); [left|right; split; [lia|auto]].
    apply ND. left. rewrite Esimp. cbn [andb]. now apply Nat.leb_le. }
  destruct (negb (p_w2 st =? 0) && (fst (nth 0 (p_out st) lit_true) =? fst (nth 1 (p_out st) lit_true))%nat) eqn:V.
  - apply andb_true_iff in V as [V1 V2]. apply negb_true_iff in V1. apply Z.eqb_neq in V1. apply Nat.eqb_eq in V2.
    destruct (p_out st) as [|o0 [|o1 tl]] eqn:Eo; try (destruct Io as [_ [_ X]]; congruence).
    cbn [nth] in *. destruct Io as [W1 [W2 [W3 [r [P1 [P2 P3]]]]]].
    assert (SM' : (length lits <= 2)%nat /\ simp = false).
    { destruct SM as [N|[SM1 [_ SM2]]]; auto. exfalso.
      apply (Permutation_map fst) in P1. apply (Permutation_NoDup P1) in N. cbn in N.
      inversion N as [|? ? X]; subst. apply X. left. congruence. }
    destruct SM' as [S1 S2]. assert (E0 : In o0 kept) by (eapply Permutation_in; [symmetry; exact P1|now left]).
    assert (E1 : In o1 kept) by (eapply Permutation_in; [symmetry; exact P1|right; now left]).
    assert (r = []).
    { assert (length kept <= length lits)%nat.
      { rewrite (In0 S2). clear. induction lits as [|x l IH]; cbn; [lia|]. destruct (negb (wo x =? 0)); cbn; lia. }
      rewrite P1 in H0. destruct r; auto. cbn in *. lia. }
    subst r.
    destruct (lit_eqb o0 (neg o1)) eqn:L.
    + apply lit_eqb_eq in L. left. repeat split; auto. exists o0. split; [apply Ik; auto|]. right.
      rewrite L, neg_neg. apply Ik. auto.
    + right. assert (o1 = o0). { destruct (same_var o0 o1 V2) as [->| ->]; auto. rewrite neg_neg, lit_eqb_refl in L. discriminate. }
      subst o1. exists [o0]. repeat split; auto.
      * cbn. constructor; [intros []|constructor].
      * destruct H0 as [<-|[]]. now apply Ik.
      * destruct H0 as [<-|[]]. now apply Ik.
      * destruct H0 as [<-|[]]. now apply Ik.
      * intros p Hp. destruct (Ia p Hp) as [A|A]; auto. eapply Permutation_in in A; [|exact P1]. left.
        cbn in *. tauto.
  - right. exists kept.
    assert (N : NoDup (map fst kept)).
    { destruct SM as [|[SM1 [_ SM2]]]; auto. destruct (p_out st) as [|o0 [|o1 tl]] eqn:Eo.
      - destruct Io as [-> _]. constructor.
      - destruct Io as [-> _]. cbn. constructor; [intros []|constructor].
      - cbn [nth] in V. destruct Io as [W1 [W2 [W3 [r [P1 [P2 P3]]]]]].
        assert (E1 : In o1 kept) by (eapply Permutation_in; [symmetry; exact P1|right; now left]).
        destruct (Ik _ E1) as [[K1 K2] _]. rewrite W2 in V. apply Z.eqb_neq in K1. rewrite K1 in V. cbn in V.
        apply Nat.eqb_neq in V.
        assert (r = []).
        { assert (length kept <= length lits)%nat.
          { rewrite (In0 SM2). clear. induction lits as [|x l IH]; cbn; [lia|]. destruct (negb (wo x =? 0)); cbn; lia. }
          rewrite P1 in H0. destruct r; auto. cbn in *. lia. }
        subst r. apply (Permutation_map fst) in P1. symmetry in P1. apply (Permutation_NoDup P1). cbn.
        constructor; [intros [X|[]]; auto|constructor; [intros []|constructor]]. }
    repeat split; auto; try (intros p Hp; apply Ik; auto); try (apply Ik; auto).
    destruct (p_out st) as [|o0 [|o1 tl]]; try tauto.
Qed.

Lemma trivial_sat : forall lits a, extends_top a s -> trivial lits -> sat_clause a lits = true.
Proof.
  intros lits a E [p [A [[B C]|B]]]; apply existsb_exists.
  - exists p. split; auto. unfold true_lit, pval in B. destruct p as [v b]. cbn in *.
    destruct (s_val s v) as [x|] eqn:V; [|discriminate]. inversion B as [B']. unfold holds. cbn.
    rewrite (E _ _ V C). reflexivity.
  - destruct (holds a p) eqn:Hp; [exists p; auto|exists (neg p)]. split; auto. rewrite holds_neg, Hp. reflexivity.
Qed.

Lemma true_sat : forall a, extends_top a s -> holds a lit_true = true.
Proof.
  intros a E. destruct (wv_true s WF) as [A B]. unfold holds, lit_true. cbn. rewrite (E _ _ A B). reflexivity.
Qed.

Lemma false_top_holds : forall a p, extends_top a s -> wo p = 0 -> holds a p = false.
Proof.
  intros a p E H. apply wo_zero in H as [A B]. unfold false_lit, pval in A. destruct p as [v b]. cbn in *.
  destruct (s_val s v) as [x|] eqn:V; [|discriminate]. inversion A as [A']. unfold holds. cbn.
  rewrite (E _ _ V B). reflexivity.
Qed.

Lemma on_top_keepable : forall p, keepable p <-> ~ on_top s p.
Proof.
  intros p. unfold keepable. rewrite wo_zero, wo_max. unfold on_top, false_lit, true_lit, pval.
  destruct (s_val s (fst p)) as [x|].
  - cbn [option_map]. destruct (xorb x (snd p)); split.
    + intros [A B] [C D]. auto.
    + intros A. split; intros [B C]; [discriminate|]. apply A. split; congruence.
    + intros [A B] [C D]. auto.
    + intros A. split; intros [B C]; [|discriminate]. apply A. split; congruence.
  - split; [intros _ [A _]; congruence|intros _; split; intros [A _]; discriminate].
Qed.

Lemma prepare_vec_spec : forall fs lits, fs = true \/ distinct_vars lits ->
  let R := prepare_vec s fs lits in
  (forall a, extends_top a s -> sat_clause a R = sat_clause a lits) /\
  ((R = [lit_true] /\ trivial lits) \/
   (distinct_vars R /\ watches_first s R /\
    (forall p, In p R -> In p lits /\ ~ on_top s p) /\
    (forall p, In p lits -> In p R \/ (false_lit s p /\ s_lvl s (fst p) = 0)))).
Proof.
  intros fs lits H.
  assert (T0 : wo lit_false = 0).
  { apply wo_zero. destruct (wv_true s WF) as [A B]. unfold false_lit, pval. cbn. rewrite A. auto. }
  destruct lits as [|x0 l0].
  { unfold prepare_vec. unfold prepare. replace (fs && (2 <? length [lit_false])%nat && (length [lit_false] <=? 3 + length [lit_false])%nat) with false by (destruct fs; reflexivity).
    cbn [prep_loop]. change (watchOrder s lit_false) with (wo lit_false). rewrite T0. cbn. split; auto.
    right. split; [constructor|]. split; [exact I|]. split; tauto. }
  set (lits := x0 :: l0) in *.
  assert (PV : prepare_vec s fs lits = let '(out, n) := prepare s fs (3 + length lits) lits in firstn n out) by reflexivity.
  cbv zeta. rewrite PV. clear PV.
  pose proof (prepare_cases fs (3 + length lits)%nat lits ltac:(lia)) as C.
  destruct (prepare s fs (3 + length lits) lits) as [out n].
  destruct C as [[-> [-> T]]|[kept [N [-> [K1 [K2 M]]]]]].
  - destruct H as [-> |H]; [left; split; auto; lia|right; auto].
  - cbn [firstn]. split; [|left; auto]. intros a E. rewrite (trivial_sat _ _ E T). cbn. now rewrite true_sat.
  - assert (P : Permutation kept out).
    { destruct out as [|o0 [|o1 tl]]; try (subst; reflexivity).
      destruct M as [_ [r [P1 [_ P3]]]]. rewrite P1. do 2 constructor. apply P3. lia. }
    rewrite (Permutation_length P), firstn_all. split.
    + intros a E. apply eq_true_iff_eq. unfold sat_clause. rewrite !existsb_exists. split.
      * intros [p [A B]]. exists p. split; auto. eapply Permutation_in in A; [|symmetry; exact P]. now apply K1.
      * intros [p [A B]]. destruct (K2 _ A) as [G|G]; [|rewrite false_top_holds in B; auto; discriminate].
        exists p. split; auto. now apply (Permutation_in _ P).
    + right. split; [|split; [|split]].
      * unfold distinct_vars. apply (Permutation_NoDup (Permutation_map fst P) N).
      * unfold watches_first. destruct out as [|o0 [|o1 tl]]; auto. destruct M as [M1 [r [P1 [P2 P3]]]].
        split; [rewrite better_wo; lia|]. intros q Hq. rewrite better_wo.
        specialize (P2 q). assert (In q r) by (eapply Permutation_in; [symmetry; apply P3; lia|exact Hq]).
        specialize (P2 H0). lia.
      * intros p Hp. eapply Permutation_in in Hp; [|symmetry; exact P]. apply K1 in Hp as [A B]. split; auto. now apply on_top_keepable.
      * intros p Hp. destruct (K2 _ Hp) as [A|A]; [left; now apply (Permutation_in _ P)|right]. now apply wo_zero.
Qed.

(** * Status *)
Lemma neq_diff : forall l (p q : lit), NoDup (map fst l) -> In p l -> In q l -> p <> q -> fst p <> fst q.
Proof.
  intros l p q N Hp Hq D E. apply D. clear D. induction l as [|x l IH]; [contradiction|].
  cbn in N. inversion N; subst. destruct Hp as [-> |Hp], Hq as [-> |Hq]; auto.
  - exfalso. apply H1. rewrite E. now apply in_map.
  - exfalso. apply H1. rewrite <- E. now apply in_map.
Qed.

Lemma status_spec : forall lits, distinct_vars lits ->
  let st := status s lits in
  (st = 9 <-> exists p, In p lits /\ true_lit s p /\ s_lvl s (fst p) = 0) /\
  (Z.testbit st 0 = true <-> exists p, In p lits /\ true_lit s p) /\
  (Z.testbit st 1 = true <-> forall p, In p lits -> false_lit s p) /\
  (st = 10 <-> forall p, In p lits -> false_lit s p /\ s_lvl s (fst p) = 0) /\
  (st <> 9 -> (Z.testbit st 2 = true <->
     exists p, In p lits /\ ~ on_top s p /\
       forall q, In q lits -> q <> p -> false_lit s q /\ (free_lit s p \/ s_lvl s (fst q) < s_lvl s (fst p)))).
Proof.
  intros lits D. pose proof (wv_dl s WF) as DL. unfold varMax in DL.
  destruct lits as [|x0 l0].
  { cbn. repeat split; intros; try discriminate; try contradiction; try congruence.
    - destruct H as [p [[] _]].
    - destruct H as [p [[] _]].
    - destruct H0 as [p [[] _]]. }
  set (lits := x0 :: l0) in *.
  assert (PV : status s lits = let '(out, n) := prepare s false 3 lits in status_prep s out n) by reflexivity.
  cbv zeta. rewrite PV. clear PV.
  pose proof (prepare_cases false 3 lits ltac:(lia) (or_intror D)) as C.
  destruct (prepare s false 3 lits) as [out n].
  destruct C as [[-> [-> T]]|[kept [N [-> [K1 [K2 M]]]]]].
  - assert (W : watchOrder s lit_true = u32max).
    { apply wo_max. destruct (wv_true s WF) as [A B]. unfold true_lit, pval. cbn. rewrite A. auto. }
    assert (T' : exists p, In p lits /\ true_lit s p /\ s_lvl s (fst p) = 0).
    { destruct T as [p [A [[B B']|B]]]; eauto. exfalso.
      apply (neq_diff _ p (neg p) D A B); [apply not_eq_sym, neg_neq|now rewrite fst_neg]. }
    unfold status_prep. cbn [Nat.ltb Nat.leb nth]. rewrite W, Z.eqb_refl.
    destruct T' as [p [A [B B']]].
    repeat split; intros; try discriminate; eauto; try congruence.
    + specialize (H _ A). unfold false_lit, true_lit in *. congruence.
    + specialize (H _ A). unfold false_lit, true_lit in *. destruct H. congruence.
  - assert (NT : ~ exists p, In p lits /\ true_lit s p /\ s_lvl s (fst p) = 0).
    { intros [p [A B]]. apply wo_max in B. destruct (K2 _ A) as [G|G]; [apply K1 in G as [[_ G] _]; congruence|unfold u32max in *; congruence]. }
    assert (WB : forall p, In p kept -> 1 <= wo p < u32max).
    { intros p Hp. apply K1 in Hp as [[A B] _]. pose proof (wo_range p). lia. }
    assert (ZF : forall q, wo q = 0 -> false_lit s q /\ s_lvl s (fst q) = 0) by (intros; now apply wo_zero).
    unfold status_prep.
    destruct kept as [|k0 kr].
    { cbn [length Nat.ltb Nat.leb]. cbn.
      assert (AF : forall p, In p lits -> false_lit s p /\ s_lvl s (fst p) = 0).
      { intros p Hp. destruct (K2 _ Hp) as [[]|G]. auto. }
      destruct (Z.leb_spec 0 (s_dl s)); [|lia]. cbn.
      repeat split; intros; try discriminate; try contradiction; try congruence; try (apply AF; auto).
      - destruct H0 as [p [A B]]. destruct (AF _ A). unfold false_lit, true_lit in *. congruence.
      - destruct H1 as [p [A [B C]]]. exfalso. apply B. destruct (AF _ A) as [X Y]. split; auto.
        destruct (pval_some_val _ _ X) as [c Hc]. congruence. }
    (* at least one literal kept: shape of out *)
    assert (SH : exists o0 tl, out = o0 :: tl /\ In o0 (k0 :: kr) /\ (forall r, In r (k0 :: kr) -> wo r <= wo o0) /\
       ((length (k0 :: kr) <= 1)%nat -> kr = [] /\ o0 = k0) /\
       ((1 < length (k0 :: kr))%nat -> exists o1 tl', tl = o1 :: tl' /\ In o1 (k0 :: kr) /\ o1 <> o0 /\
            forall r, In r (k0 :: kr) -> r <> o0 -> wo r <= wo o1)).
    { destruct out as [|o0 [|o1 tl]].
      - discriminate.
      - inversion M; subst. exists o0, []. split; auto. split; [now left|]. split; [intros r [<-|[]]; lia|].
        split; auto. cbn. lia.
      - destruct M as [M1 [r [P1 [P2 _]]]]. exists o0, (o1 :: tl). split; auto.
        assert (I0 : In o0 (k0 :: kr)) by (eapply Permutation_in; [symmetry; exact P1|now left]).
        assert (I1 : In o1 (k0 :: kr)) by (eapply Permutation_in; [symmetry; exact P1|right; now left]).
        split; auto. split.
        { intros q Hq. eapply Permutation_in in Hq; [|exact P1]. destruct Hq as [<-|[<-|Hq]]; try lia. specialize (P2 _ Hq). lia. }
        split.
        { intros L. apply Permutation_length in P1. cbn in *. lia. }
        intros _. exists o1, tl. split; auto. split; auto. split.
        { intros ->. apply (Permutation_map fst) in P1. apply (Permutation_NoDup P1) in N. cbn in N. inversion N as [|? ? X]. apply X. now left. }
        intros q Hq NQ. eapply Permutation_in in Hq; [|exact P1]. destruct Hq as [<-|[<-|Hq]]; try lia; try congruence. now apply P2. }
    destruct SH as [o0 [tl [EO [I0 [MX [S1 S2]]]]]]. subst out.
    destruct (K1 _ I0) as [Kp0 L0].
    assert (W0 := WB _ I0).
    set (kept := k0 :: kr) in *.
    change (nth 0 (o0 :: tl) lit_true) with o0. fold wo.
    replace (0 <? length kept)%nat with true by reflexivity.
    change (watchOrder s o0) with (wo o0).
    destruct (Z.eqb_spec (wo o0) u32max) as [X|_]; [lia|].
    set (sw := if (1 <? length kept)%nat then wo (nth 1 (o0 :: tl) lit_true) else 0).
    assert (SW : 0 <= sw /\ (forall r, In r lits -> r <> o0 -> wo r <= sw) /\
                 (sw = 0 \/ exists o1, In o1 lits /\ o1 <> o0 /\ wo o1 = sw)).
    { unfold sw. destruct (Nat.ltb_spec 1 (length kept)) as [L|L].
      - destruct (S2 L) as [o1 [tl' [-> [I1 [NE B]]]]]. cbn [nth]. pose proof (wo_range o1).
        split; [lia|]. split; [intros r Hr NR; destruct (K2 _ Hr) as [G|G]; [auto|lia]|].
        right. exists o1. split; [now apply K1|auto].
      - destruct (S1 L) as [-> ->]. split; [lia|]. split; auto. intros r Hr NR. destruct (K2 _ Hr) as [[G|[]]|G]; [congruence|lia]. }
    clearbody sw. destruct SW as [SW0 [SW1 SW2]].
    assert (MX' : forall r, In r lits -> wo r <= wo o0).
    { intros r Hr. destruct (K2 _ Hr) as [G|G]; [auto|lia]. }
    clear S1 S2 MX I0 K2 K1 N WB M kept k0 kr tl ZF D T0 || idtac.
    assert (TT : forall q, true_lit s q <-> varMax < wo q).
    { intros q. unfold varMax. destruct (wo_cases q) as [[F F1]|[[F [F1 F2]]|[F [F1 F2]]]]; unfold true_lit, false_lit, free_lit, u32max in *;
        split; intros; try congruence; try lia. }
    assert (FF : forall q, false_lit s q <-> wo q <= s_dl s).
    { intros q. destruct (wo_cases q) as [[F F1]|[[F [F1 F2]]|[F [F1 F2]]]]; unfold true_lit, false_lit, free_lit, u32max in *;
        split; intros; try congruence; try lia. }
    assert (FL : forall q, false_lit s q -> wo q = s_lvl s (fst q)).
    { intros q G. destruct (wo_cases q) as [[F F1]|[[F [F1 F2]]|[F [F1 F2]]]]; unfold true_lit, false_lit, free_lit, u32max in *; try congruence; lia. }
    assert (TL : forall q, true_lit s q -> wo q = u32max - s_lvl s (fst q)).
    { intros q G. destruct (wo_cases q) as [[F F1]|[[F [F1 F2]]|[F [F1 F2]]]]; unfold true_lit, false_lit, free_lit, u32max in *; try congruence; lia. }
    assert (RL : forall q, free_lit s q <-> wo q = s_dl s + 1).
    { intros q. destruct (wo_cases q) as [[F F1]|[[F [F1 F2]]|[F [F1 F2]]]]; unfold true_lit, false_lit, free_lit, u32max in *;
        split; intros; try congruence; try lia. }
    assert (NT0 : ~ on_top s o0) by now apply on_top_keepable.
    assert (UN : forall o0l, (free_lit s o0 /\ o0l = s_dl s + 1) \/ (~ free_lit s o0 /\ o0l = s_lvl s (fst o0)) ->
       ((sw <=? s_dl s) && (sw <? o0l) = true <->
     exists p, In p lits /\ ~ on_top s p /\
       forall q, In q lits -> q <> p -> false_lit s q /\ (free_lit s p \/ s_lvl s (fst q) < s_lvl s (fst p)))).
    { intros o0l OL. rewrite andb_true_iff, Z.leb_le, Z.ltb_lt. split.
      - intros [A B]. exists o0. split; auto. split; auto. intros q Hq NQ.
        assert (wo q <= sw) by auto. assert (false_lit s q) by (apply FF; lia). split; auto.
        destruct OL as [[OL1 OL2]|[OL1 OL2]]; auto. right. rewrite <- (FL _ H0). lia.
      - intros [p [A [B C]]].
        assert (p = o0).
        { destruct (lit_eq_dec p o0) as [|NE]; auto. exfalso. destruct (C o0 L0) as [C1 C2]; auto.
          pose proof (MX' _ A) as Mp. pose proof (proj1 (FF o0) C1). assert (false_lit s p) by (apply FF; lia).
          destruct C2 as [C2|C2]; [apply RL in C2; lia|]. rewrite <- !FL in C2; auto. lia. }
        subst p. destruct SW2 as [-> |[o1 [O1 [O2 O3]]]].
        + split; [lia|]. destruct OL as [[_ ->]|[OL1 ->]]; [lia|].
          assert (NZ : s_lvl s (fst o0) <> 0 /\ 0 <= s_lvl s (fst o0)).
          { destruct (wo_cases o0) as [[F F1]|[[F [F1 F2]]|[F [F1 F2]]]]; unfold u32max in *; try lia.
            contradiction. }
          lia.
        + destruct (C o1 O1 O2) as [C1 C2]. pose proof (proj1 (FF o1) C1). split; [lia|].
          destruct OL as [[OL1 ->]|[OL1 ->]]; [lia|]. destruct C2 as [C2|C2]; [contradiction|]. rewrite <- (FL o1) in C2; auto. lia. }
    assert (N9 : forall z : Z, z <> 9 -> (z = 9 <-> exists p, In p lits /\ true_lit s p /\ s_lvl s (fst p) = 0)).
    { intros z Hz. split; intros; contradiction. }
    assert (N10 : forall z : Z, z <> 10 -> (z = 10 <-> forall p, In p lits -> false_lit s p /\ s_lvl s (fst p) = 0)).
    { intros z Hz. split; intros H; [contradiction|]. exfalso. apply NT0. destruct (H _ L0) as [A B]. split; auto.
      destruct (pval_some_val _ _ A) as [c Hc]. congruence. }
    destruct (Z.ltb_spec varMax (wo o0)) as [V|V].
    + assert (T0 : true_lit s o0) by now apply TT.
      specialize (UN (u32max - wo o0)). rewrite <- UN.
      2:{ right. rewrite (TL _ T0). split; [|lia]. unfold true_lit, free_lit in *. congruence. }
      assert (B0 : true = true <-> exists p, In p lits /\ true_lit s p) by (split; eauto).
      assert (B1 : false = true <-> forall p, In p lits -> false_lit s p).
      { split; [discriminate|]. intros H. specialize (H _ L0). unfold true_lit, false_lit in *. congruence. }
      destruct ((sw <=? s_dl s) && (sw <? u32max - wo o0)) eqn:U; cbn.
      * split; [apply N9; discriminate|]. split; [exact B0|]. split; [exact B1|]. split; [apply N10; discriminate|tauto].
      * split; [apply N9; discriminate|]. split; [exact B0|]. split; [exact B1|]. split; [apply N10; discriminate|tauto].
    + assert (B0 : false = true <-> exists p, In p lits /\ true_lit s p).
      { split; [discriminate|]. intros [p [A B]]. apply TT in B. specialize (MX' _ A). lia. }
      destruct (Z.leb_spec (wo o0) (s_dl s)) as [G|G].
      * assert (B1 : true = true <-> forall p, In p lits -> false_lit s p).
        { split; auto. intros _ p Hp. apply FF. specialize (MX' _ Hp). lia. }
        destruct (Z.eqb_spec (wo o0) 0); [lia|].
        assert (F0 : false_lit s o0) by (apply FF; lia).
        specialize (UN (wo o0)). rewrite <- UN.
        2:{ right. rewrite (FL _ F0). split; [|lia]. unfold false_lit, free_lit in *. congruence. }
        destruct ((sw <=? s_dl s) && (sw <? wo o0)) eqn:U; cbn.
        -- split; [apply N9; discriminate|]. split; [exact B0|]. split; [exact B1|]. split; [apply N10; discriminate|tauto].
        -- split; [apply N9; discriminate|]. split; [exact B0|]. split; [exact B1|]. split; [apply N10; discriminate|tauto].
      * assert (B1 : false = true <-> forall p, In p lits -> false_lit s p).
        { split; [discriminate|]. intros H. specialize (H _ L0). apply FF in H. lia. }
        assert (F0 : free_lit s o0).
        { destruct (wo_cases o0) as [[F F1]|[[F [F1 F2]]|[F [F1 F2]]]]; auto; try lia. apply TT in F. lia. }
        specialize (UN (wo o0)). rewrite <- UN.
        2:{ left. split; auto. now apply RL. }
        destruct ((sw <=? s_dl s) && (sw <? wo o0)) eqn:U; cbn.
        -- split; [apply N9; discriminate|]. split; [exact B0|]. split; [exact B1|]. split; [apply N10; discriminate|tauto].
        -- split; [apply N9; discriminate|]. split; [exact B0|]. split; [exact B1|]. split; [apply N10; discriminate|tauto].
Qed.
End S.
