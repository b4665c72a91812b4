(** Rule transformation: whole rules and programs *)
From Coq Require Import List Bool Arith ZArith Lia Permutation.
Import ListNotations.
From Verif Require Import Base LpSpec LpProofs RtModel RtProofs RtProofs2 RtProofs3 RtProofs4 RtProofs5.

Lemma replaces_frame k F R T : below k F -> replaces k R T -> replaces k (F ++ R) (F ++ T).
Proof. intros B H P BP. rewrite !app_assoc. apply H. apply below_app. auto. Qed.
(** steps compose *)
Lemma adds_step s s1 s' R F R' T : t_out s1 = t_out s ++ F -> t_next s <= t_next s1 -> below (t_next s1) F -> replaces (t_next s) R (F ++ R') ->
  adds s1 s' R' T -> adds s s' R (F ++ T).
Proof.
  intros E1 E2 B H (A1 & A2 & A3 & A4 & A5). split; [rewrite A1, E1; now rewrite app_assoc|]. split; [lia|]. split; [|split; [auto|]].
  - apply below_app. split; [now apply (below_le (t_next s1))|auto].
  - apply (replaces_trans _ (t_next s1) _ (F ++ R')); [auto|auto|]. now apply replaces_frame.
Qed.
Lemma adds_rule s r : below (t_next s) [r] -> zeros s -> adds s (addRule s r) [r] [r].
Proof. intros B Z. split; [auto|]. split; [auto|]. split; [auto|]. split; [auto|]. now apply replaces_refl. Qed.
Lemma replaces_swap k R A B : replaces k R (A ++ B) -> replaces k R (B ++ A).
Proof. apply replaces_iff; intros r; rewrite ?in_app_iff; tauto. Qed.
Lemma below_body k ch hs b ch' hs' : below k [Rule ch hs b] -> (forall h, In h hs' -> h < k) -> below k [Rule ch' hs' b].
Proof. intros B H. rewrite single_below in *. intros a I. apply in_app_iff in I as [I|I]; [auto|]. apply B. apply in_app_iff. auto. Qed.
Lemma below_head k ch hs b : below k [Rule ch hs b] -> forall h, In h hs -> h < k.
Proof. intros B h I. rewrite single_below in B. apply B. apply in_app_iff. auto. Qed.

Lemma sum_adds fuel s h bound wl x s' : transformSum fuel s h bound wl x = Ok s' -> below (t_next s) [Rule false (hd1 h) (Agg bound wl)] -> h < t_next s -> t_next s <> 0 -> zeros s ->
  posB (Agg bound wl) /\ exists T, adds s s' [Rule false (hd1 h) (Agg bound wl)] T /\ forall r, In r T -> normalR r.
Proof.
  intros E B L K Z. assert (E' := E). unfold transformSum in E'. destruct (cutSum bound (sortW wl)) as [[[agg sumR] sum]| |] eqn:Ec; try discriminate E'. clear E'. split.
  - eapply agg_posB; eauto.
  - eapply transformSum_post; eauto.
Qed.

(** not a disjunction with a normal body: those are shifted *)
Definition notDisj (r : rule) : Prop := r_choice r = true \/ length (r_head r) <= 1 \/ isNormal r = false.
Definition normalD (r : rule) : Prop := exists hs ls, r = Rule false hs (Norm ls).
Lemma normalR_D r : normalR r -> normalD r.
Proof. intros (h & ls & ->). exists (hd1 h), ls. auto. Qed.
Lemma choice_adds s s1 hs ls : below (t_next s) [Rule true hs (Norm ls)] -> (forall h, In h hs -> h <> 0) -> t_next s <> 0 -> zeros s -> s1 = transformChoice s ls hs ->
  exists T, adds s s1 [Rule true hs (Norm ls)] T /\ forall r, In r T -> normalD r.
Proof.
  intros B H K Z ->. destruct (transformChoice_ok hs s ls B H K) as (T & E1 & E2 & E3 & E4 & E5 & E6). exists T. split.
  - split; [auto|]. split; [auto|]. split; [auto|]. split; [|auto]. unfold zeros. now rewrite E4.
  - intros r I. destruct (E5 r I) as (h & l & ->). exists [h], l. auto.
Qed.
Lemma transform_ok fuel s r x s' : transform fuel s r x = Ok s' -> below (t_next s) [r] -> (forall h, In h (r_head r) -> h <> 0) -> t_next s <> 0 -> zeros s -> notDisj r ->
  exists T, adds s s' [r] T
    /\ (r_choice r = false -> length (r_head r) <= 1 -> forall q, In q T -> normalD q)
    /\ (isNormal r = true -> r_head r <> [] -> forall q, In q T -> normalD q).
Proof.
  destruct r as [ch hs b]. unfold transform. cbn [r_body r_choice r_head]. intros E B H K Z ND. destruct b as [cond|bound wl].
  - destruct (Nat.ltb (if ch then 0 else 1) (length hs)) eqn:C1.
    + apply Nat.ltb_lt in C1. destruct ch.
      2: { unfold notDisj in ND. cbn in ND. destruct ND as [ND|[ND|ND]]; [discriminate|lia|discriminate]. }
      destruct ((1 <? length cond) && (1 <? length hs) && negb (noAux x)).
      * cbn [newAtom] in E. injection E as <-.
        set (s0 := addNorm (St (S (t_next s)) (t_out s) (t_aux s)) (t_next s) cond).
        destruct (choice_adds s0 (transformChoice s0 [pos (t_next s)] hs) hs [pos (t_next s)]) as (T & A & N); auto.
        -- cbn. apply single_below. intros a I. apply in_app_iff in I as [I|[<-|[]]]; [|cbn; lia]. apply (below_head _ _ _ _ B) in I. lia.
        -- cbn. lia.
        -- exists ([Rule false [t_next s] (Norm cond)] ++ T). split; [|split].
           ++ apply (adds_step s s0 _ _ _ [Rule true hs (Norm [pos (t_next s)])]); auto.
              ** cbn. now rewrite hd1_pos.
              ** cbn. lia.
              ** cbn. apply (below_body _ true hs); [apply (below_le (t_next s)); [lia|auto]|]. intros h [<-|[]]. lia.
              ** apply replaces_swap. cbn [app]. apply nameBody; auto. exact I.
           ++ intros _ _ q J. apply in_app_iff in J as [[<-|[]]|J]; [|auto]. exists [t_next s], cond. auto.
           ++ intros _ _ q J. apply in_app_iff in J as [[<-|[]]|J]; [|auto]. exists [t_next s], cond. auto.
      * injection E as <-. destruct (choice_adds s (transformChoice s cond hs) hs cond) as (T & A & N); auto. exists T. auto.
    + injection E as <-. exists [Rule ch hs (Norm cond)]. split; [now apply adds_rule|]. apply Nat.ltb_ge in C1. split.
      * intros -> _ q [<-|[]]. exists hs, cond. auto.
      * intros _ Nh q [<-|[]]. destruct ch; [destruct hs; [easy|cbn in C1; lia]|]. exists hs, cond. auto.
  - destruct (ch || (1 <? length hs)) eqn:C.
    + cbn [newAtom] in E. set (s0 := addRule (St (S (t_next s)) (t_out s) (t_aux s)) (Rule ch hs (Norm [pos (t_next s)]))) in *.
      apply sum_adds in E as (Pb & T & A & N); auto.
      * exists ([Rule ch hs (Norm [pos (t_next s)])] ++ T). split; [|split; [|discriminate]].
        -- apply (adds_step s s0 _ _ _ [Rule false (hd1 (t_next s)) (Agg bound wl)]); auto.
           ++ cbn. lia.
           ++ cbn. apply single_below. intros a I. apply in_app_iff in I as [I|[<-|[]]]; [|cbn; lia]. apply (below_head _ _ _ _ B) in I. lia.
           ++ rewrite hd1_pos by auto. now apply nameBody.
        -- cbn [r_choice r_head]. intros -> Lh. cbn [orb] in C. apply Nat.ltb_lt in C. lia.
      * cbn. apply (below_body _ ch hs); [apply (below_le (t_next s)); [lia|auto]|]. intros h I. apply hd1_in in I. lia.
      * cbn. lia.
    + apply orb_false_iff in C as [-> C]. apply Nat.ltb_ge in C. set (h := match hs with h :: _ => h | [] => 0 end) in E.
      assert (Eh : hs = hd1 h). { unfold h. destruct hs as [|a [|c l]]; [reflexivity| |cbn in C; lia]. rewrite hd1_pos; [auto|]. apply H. now left. }
      rewrite Eh in B. apply sum_adds in E as (Pb & T & A & N); auto.
      * rewrite Eh. exists T. split; [auto|]. split; intros _ _ q J; apply normalR_D; auto.
      * unfold h. destruct hs as [|a l]; [lia|]. apply (below_head _ _ _ _ B). unfold h. rewrite hd1_pos; [now left|]. apply H. now left.
Qed.

Lemma adds_seq s s1 s2 R1 R2 T1 T2 : below (t_next s) R1 -> below (t_next s) R2 -> adds s s1 R1 T1 -> adds s1 s2 R2 T2 -> adds s s2 (R1 ++ R2) (T1 ++ T2).
Proof.
  intros B1 B2 (A1 & A2 & A3 & A4 & A5) (C1 & C2 & C3 & C4 & C5). split; [rewrite C1, A1; now rewrite app_assoc|]. split; [lia|]. split; [|split; [auto|]].
  - apply below_app. split; [now apply (below_le (t_next s1))|auto].
  - now apply (replaces_app _ (t_next s1)).
Qed.

Section Ext.
Context (m : ermode) (isCount small : rule -> bool).
Notation native := (handleNatively m isCount small).
(** a rule as the parser makes it *)
Definition wfR (r : rule) : Prop := (forall h, In h (r_head r) -> h <> 0) /\ posB (r_body r) /\ (r_choice r = true -> r_head r <> []).
Lemma normalD_native q : normalD q -> native q = true.
Proof. intros (hs & ls & ->). reflexivity. Qed.
Lemma nonnative_notDisj r : native r = false -> r_choice r = true \/ isNormal r = false.
Proof. unfold handleNatively. destruct (isNormal r), (r_choice r); cbn; auto. Qed.

Lemma step_ok fuel s r x s' : (if native r then Ok (addRule s r) else transform fuel s r x) = Ok s' -> below (t_next s) [r] -> (forall h, In h (r_head r) -> h <> 0) ->
  t_next s <> 0 -> zeros s -> (r_choice r = false /\ length (r_head r) <= 1) \/ (isNormal r = true /\ r_head r <> []) -> exists T, adds s s' [r] T /\ forall q, In q T -> native q = true.
Proof.
  intros E B H K Z C. destruct (native r) eqn:En.
  - injection E as <-. exists [r]. split; [now apply adds_rule|]. intros q [<-|[]]. auto.
  - apply transform_ok in E as (T & A & N1 & N2); auto.
    + exists T. split; [auto|]. intros q J. apply normalD_native. destruct C as [[C1 C2]|[C1 C2]]; auto.
    + unfold notDisj. apply nonnative_notDisj in En. tauto.
Qed.
Lemma extendedOne_ok fuel s r s' : extendedOne m isCount small fuel s r = Ok s' -> native r = false -> below (t_next s) [r] -> wfR r -> t_next s <> 0 -> zeros s ->
  exists T, adds s s' [r] T /\ forall q, In q T -> native q = true.
Proof.
  intros E En B (H & Pb & Hc) K Z. unfold extendedOne in E. pose proof (nonnative_notDisj r En) as ND. destruct (isNormal r || _) eqn:C.
  - apply transform_ok in E as (T & A & N1 & N2); auto; [|unfold notDisj; tauto]. exists T. split; [auto|]. intros q J. apply normalD_native. apply orb_true_iff in C as [C|C].
    + destruct ND as [ND|ND]; [|congruence]. apply N2; auto.
    + apply andb_true_iff in C as [C1 C2]. apply negb_true_iff in C1. apply Nat.ltb_lt in C2. apply N1; auto. lia.
  - apply orb_false_iff in C as [C1 C2]. cbn [newAtom] in E. set (s0 := St (S (t_next s)) (t_out s) (t_aux s)) in *. destruct r as [ch hs b]. cbn [r_body r_head r_choice] in *.
    set (r1 := Rule false [t_next s] b) in *. set (r2 := Rule ch hs (Norm [pos (t_next s)])) in *.
    assert (B1 : below (t_next s0) [r1]). { apply (below_body _ ch hs); [apply (below_le (t_next s)); [cbn; lia|auto]|]. intros h [<-|[]]. cbn. lia. }
    assert (B2 : below (t_next s0) [r2]). { apply single_below. intros a I. apply in_app_iff in I as [I|[<-|[]]]; [|cbn; lia]. apply (below_head _ _ _ _ B) in I. cbn. lia. }
    destruct (if native r1 then Ok (addRule s0 r1) else transform fuel s0 r1 (if transformNoAux small r1 then NoAux else Default)) as [s1| |] eqn:E1; try discriminate E. cbn [bind] in E.
    apply step_ok in E1 as (T1 & A1 & N1); auto.
    2: { intros h [<-|[]]. auto. }
    2: { cbn. lia. }
    assert (Le : t_next s0 <= t_next s1) by apply A1.
    apply step_ok in E as (T2 & A2 & N2); auto.
    + exists (T1 ++ T2). split; [|intros q J; apply in_app_iff in J as [J|J]; auto]. pose proof (adds_seq _ _ _ _ _ _ _ B1 B2 A1 A2) as A.
      change (T1 ++ T2) with ([] ++ (T1 ++ T2)). apply (adds_step s s0 _ _ _ ([r1] ++ [r2])); auto.
      * cbn. now rewrite app_nil_r.
      * cbn. lia.
      * intros q a [].
      * cbn [app]. apply (replaces_swap _ _ [r2] [r1]). now apply nameBody.
    + now apply (below_le (t_next s0)).
    + cbn in Le. lia.
    + apply A1.
    + right. split; [auto|]. cbn. destruct hs; [|discriminate]. destruct ch; [now specialize (Hc eq_refl)|]. cbn in C2. discriminate.
Qed.
Lemma transformExtended_ok fuel : forall ext s s', transformExtended m isCount small fuel s ext = Ok s' -> (forall r, In r ext -> native r = false /\ wfR r) -> below (t_next s) ext -> t_next s <> 0 -> zeros s ->
  exists T, adds s s' ext T /\ forall q, In q T -> native q = true.
Proof.
  induction ext as [|r ext IH]; intros s s' E H B K Z; cbn [transformExtended] in E.
  - injection E as <-. exists []. split; [|intros q []]. split; [now rewrite app_nil_r|]. split; [auto|]. split; [intros r a []|]. split; [auto|]. apply replaces_refl. intros r a [].
  - destruct (extendedOne m isCount small fuel s r) as [s1| |] eqn:E1; try discriminate E. cbn [bind] in E. apply cons_below in B as [B1 B2].
    destruct (H r (or_introl eq_refl)) as [Hn Hw].
    apply extendedOne_ok in E1 as (T1 & A1 & N1); auto; [|now apply single_below]. assert (Le : t_next s <= t_next s1) by apply A1.
    apply IH in E as (T2 & A2 & N2).
    + exists (T1 ++ T2). split; [|intros q J; apply in_app_iff in J as [J|J]; auto]. change (r :: ext) with ([r] ++ ext). apply (adds_seq s s1); auto. now apply single_below.
    + intros q J. apply H. now right.
    + now apply (below_le (t_next s)).
    + lia.
    + apply A1.
Qed.
Lemma addRules_ok fuel : forall P s ext s' ext', addRules m isCount small fuel s ext P = Ok (s', ext') -> (forall r, In r P -> wfR r) -> below (t_next s) P -> t_next s <> 0 ->
  exists T e, t_out s' = t_out s ++ T /\ ext' = ext ++ e /\ t_next s <= t_next s' /\ below (t_next s') T /\ (forall r, In r e -> In r P) /\ (forall r, In r e -> native r = false /\ wfR r)
    /\ (forall q, In q T -> native q = true) /\ replaces (t_next s) P (T ++ e).
Proof.
  induction P as [|r P IH]; intros s ext s' ext' E H B K; cbn [addRules] in E.
  - injection E as <- <-. exists [], []. rewrite !app_nil_r. split; [auto|]. split; [auto|]. split; [auto|]. split; [intros r a []|]. split; [auto|]. split; [intros r []|]. split; [intros r []|].
    apply replaces_refl. intros r a [].
  - apply cons_below in B as [B1 B2]. apply single_below in B1. pose proof (H r (or_introl eq_refl)) as Hw. assert (H' : forall r, In r P -> wfR r) by (intros q J; apply H; now right).
    unfold addOne in E. destruct (native r) eqn:En.
    + cbn [bind] in E. apply IH in E as (T & e & D1 & D2 & D3 & D4 & D5 & D6 & D7 & D8); auto.
      exists ([r] ++ T), e. split; [rewrite D1; cbn; now rewrite <- app_assoc|]. split; [auto|]. split; [auto|]. split; [apply below_app; split; [now apply (below_le (t_next s))|auto]|].
      split; [intros q J; right; auto|]. split; [auto|]. split; [intros q [<-|J]; auto|]. rewrite <- app_assoc. change (r :: P) with ([r] ++ P). now apply replaces_frame.
    + destruct ((length (r_head r) <=? 1) && transformNoAux small r) eqn:C.
      * destruct (transform fuel (setAux s []) r NoAux) as [s1| |] eqn:E1; try discriminate E. cbn [bind] in E. apply andb_true_iff in C as [C1 C2]. apply Nat.leb_le in C1.
        unfold transformNoAux in C2. rewrite !andb_true_iff, !negb_true_iff in C2. destruct C2 as [[C2 C3] _].
        apply transform_ok in E1 as (T1 & (A1 & A2 & A3 & A4 & A5) & N1 & _); auto.
        -- cbn in A1, A2, A5. apply IH in E as (T & e & D1 & D2 & D3 & D4 & D5 & D6 & D7 & D8); auto; [|now apply (below_le (t_next s))|lia].
           exists (T1 ++ T), e. split; [rewrite D1, A1; now rewrite app_assoc|]. split; [auto|]. split; [lia|]. split; [apply below_app; split; [now apply (below_le (t_next s1))|auto]|].
           split; [|split; [auto|split]].
           ++ intros q J. right. auto.
           ++ intros q J. apply in_app_iff in J as [J|J]; auto. apply normalD_native. auto.
           ++ rewrite <- app_assoc. change (r :: P) with ([r] ++ P). apply (replaces_app _ (t_next s1)); auto.
        -- apply Hw.
        -- constructor.
        -- unfold notDisj. auto.
      * cbn [bind] in E. apply IH in E as (T & e & D1 & D2 & D3 & D4 & D5 & D6 & D7 & D8); auto.
        exists T, ([r] ++ e). split; [auto|]. split; [rewrite D2; now rewrite <- app_assoc|]. split; [auto|]. split; [auto|]. split; [intros q [<-|J]; [now left|right; auto]|].
        split; [intros q [<-|J]; auto|]. split; [auto|]. apply (replaces_iff _ ([r] ++ P) _ ([r] ++ T ++ e)).
        -- intros q. reflexivity.
        -- intros q. rewrite !in_app_iff. cbn [In app]. tauto.
        -- now apply replaces_frame.
Qed.
End Ext.
