(** Rule simplification: values, heads, conjunctive bodies *)
From Coq Require Import List Bool Arith ZArith Lia.
Import ListNotations.
From Verif Require Import Base LpSpec LpProofs RtModel RtProofs RtProofs2 SrModel SrSpec.

Section S.
Context (bodyId : nat) (K : known).
Lemma lvl_true N M p : sub N M -> knows K N M -> lvl K p = VTrue -> litT N M p = true.
Proof.
  intros Hs H E. destruct (H (fst p)) as (A & B & C). unfold lvl, litVal in E. unfold litT. destruct p as [a sg]; cbn in *.
  destruct (k_val K a), (k_rel K a), sg; cbn in E; try discriminate; try (apply B; tauto); rewrite A by tauto; reflexivity.
Qed.
Lemma lvl_false N M p : sub N M -> knows K N M -> lvl K p = VFalse -> litT N M p = false.
Proof.
  intros Hs H E. destruct (H (fst p)) as (A & B & C). unfold lvl, litVal in E. unfold litT. destruct p as [a sg]; cbn in *.
  assert (Na : M a = false -> N a = false) by (intros X; destruct (N a) eqn:Y; [apply Hs in Y; congruence|auto]).
  destruct (k_val K a), (k_rel K a), sg; cbn in E; try discriminate; try (apply Na, A; tauto); rewrite ?(C eq_refl); auto; rewrite (Hs a) by (apply B; tauto); reflexivity.
Qed.
Lemma isV_true v w : isV v w = true <-> v = w.
Proof. destruct v, w; cbn; split; congruence. Qed.
Lemma lit_eqb_iff p q : lit_eqb p q = true <-> p = q.
Proof. apply lit_eqb_eq. Qed.
Lemma inBody_iff m p : inBody m p = true <-> In p (m_body m).
Proof.
  unfold inBody. rewrite existsb_exists. split; [intros (x & I & E); apply lit_eqb_iff in E; now subst|]. intros I. exists p. split; [auto|]. now apply lit_eqb_iff.
Qed.
Lemma inHead_iff m a : inHead m a = true <-> In a (m_head m).
Proof.
  unfold inHead. rewrite existsb_exists. split; [intros (x & I & E); apply Nat.eqb_eq in E; now subst|]. intros I. exists a. split; [auto|]. apply Nat.eqb_refl.
Qed.
Lemma neg_false N M p : sub N M -> litT N M p = true -> litT N M (neg p) = false.
Proof. intros Hs. destruct p as [a sg]. unfold litT. cbn. destruct sg; cbn; intros E; [|now rewrite (Hs a E)]. apply negb_true_iff in E. destruct (N a) eqn:X; [apply Hs in X; congruence|auto]. Qed.

(** ** clearing *)
Lemma clearAll_body : forall l m p, In p (m_body (clearAll m l)) <-> In p (m_body m) /\ ~ In (fst p) l.
Proof.
  induction l as [|a l IH]; intros m p; cbn [clearAll fold_left]; [tauto|]. unfold clearAll in IH. rewrite IH. cbn [clearRule m_body]. rewrite filter_In, negb_true_iff, Nat.eqb_neq. cbn [In].
  split; [intros [[A B] C]; split; [auto|]; intros [X|X]; [now symmetry in X|auto]|]. intros [A B]. split; [split; [auto|]|]; intros X; apply B; auto.
Qed.
Lemma clearAll_head : forall l m a, In a (m_head (clearAll m l)) <-> In a (m_head m) /\ ~ In a l.
Proof.
  induction l as [|x l IH]; intros m a; cbn [clearAll fold_left]; [tauto|]. unfold clearAll in IH. rewrite IH. cbn [clearRule m_head]. rewrite filter_In, negb_true_iff, Nat.eqb_neq. cbn [In].
  split; [intros [[A B] C]; split; [auto|]; intros [X|X]; [now symmetry in X|auto]|]. intros [A B]. split; [split; [auto|]|]; intros X; apply B; auto.
Qed.
Lemma empty_list {A} (l : list A) : (forall x, ~ In x l) -> l = [].
Proof. destruct l as [|x l]; [auto|]. intros H. destruct (H x). now left. Qed.
Lemma clear_clean m l : (forall p, In p (m_body m) -> In (fst p) l) -> m_head m = [] -> clearAll m l = noMarks.
Proof.
  intros H E. destruct (clearAll m l) as [b h] eqn:X. unfold noMarks. f_equal.
  - apply empty_list. intros p I. assert (Y : In p (m_body (clearAll m l))) by now rewrite X. apply clearAll_body in Y as [Y1 Y2]. auto.
  - apply empty_list. intros a I. assert (Y : In a (m_head (clearAll m l))) by now rewrite X. apply clearAll_head in Y as [Y1 _]. rewrite E in Y1. destruct Y1.
Qed.

(** ** heads *)
Section Head.
Context (wof : lit -> Z) (slack : Z) (b : body) (Sl : (0 <= slack)%Z).
Definition headOk (m : marks) : Prop := forall N M, sub N M -> knows K N M -> bodyT N M b = true ->
  (forall h, inBody m (pos h) = true -> (slack < wof (pos h))%Z -> N h = true) /\ (forall h, inBody m (ngt h) = true -> (slack < wof (ngt h))%Z -> M h = false).
Lemma headLoop_marks : forall hs m sat out m' sat' out', headLoop K m wof slack sat out hs = (m', sat', out') ->
  m_body m' = m_body m /\ exists new, out' = out ++ new /\ (forall a, In a (m_head m') <-> In a (m_head m) \/ In a new) /\ incl new hs
    /\ NoDup new /\ (forall a, In a new -> ~ In a (m_head m) /\ k_fact K a = false /\ k_false K a = false).
Proof.
  induction hs as [|h hs IH]; intros m sat out m' sat' out' E; cbn [headLoop] in E.
  - injection E as <- <- <-. split; [auto|]. exists []. rewrite app_nil_r. split; [auto|]. split; [cbn; tauto|]. split; [intros x []|]. split; [constructor|intros a []].
  - assert (Add : forall sat, inHead m h = false -> k_fact K h = false -> k_false K h = false -> headLoop K (addToHead m h) wof slack sat (out ++ [h]) hs = (m', sat', out') ->
      m_body m' = m_body m /\ exists new, out' = out ++ new /\ (forall a, In a (m_head m') <-> In a (m_head m) \/ In a new) /\ incl new (h :: hs)
        /\ NoDup new /\ (forall a, In a new -> ~ In a (m_head m) /\ k_fact K a = false /\ k_false K a = false)).
    { intros sat0 Hm Hf Hx E'. apply IH in E' as (A & new & B & C & D & Nd & F). split; [auto|]. exists (h :: new). split; [rewrite B; now rewrite <- app_assoc|]. split; [|split; [|split]].
      - intros a. rewrite C. cbn [addToHead m_head In]. tauto.
      - intros x [<-|I]; [now left|right; auto].
      - constructor; [|auto]. intros I. apply F in I as [I _]. apply I. now left.
      - intros a [<-|I]; [split; [|auto]; intros X; apply inHead_iff in X; congruence|]. destruct (F a I) as (F1 & F2). split; [|auto]. intros X. apply F1. now right. }
    assert (Skip : forall sat, headLoop K m wof slack sat out hs = (m', sat', out') -> m_body m' = m_body m /\ exists new, out' = out ++ new /\ (forall a, In a (m_head m') <-> In a (m_head m) \/ In a new) /\ incl new (h :: hs)
        /\ NoDup new /\ (forall a, In a new -> ~ In a (m_head m) /\ k_fact K a = false /\ k_false K a = false)).
    { intros sat0 E'. apply IH in E' as (A & new & B & C & D & F). split; [auto|]. exists new. split; [auto|]. split; [auto|]. split; [intros x I; right; auto|auto]. }
    destruct (negb (inBody m (pos h) || inBody m (ngt h) || inHead m h || k_fact K h || k_false K h)) eqn:C1.
    + apply negb_true_iff in C1. rewrite !orb_false_iff in C1. destruct C1 as [[[[_ _] C1] C2] C3]. now apply (Add sat).
    + destruct (negb (k_false K h || inHead m h)) eqn:C2; [|now apply (Skip sat)]. apply negb_true_iff, orb_false_iff in C2 as [C2 C3].
      destruct (k_fact K h) eqn:C4; cbn [orb] in E; [now apply (Skip true)|]. destruct (slack <? _)%Z; [now apply (Skip true)|]. destruct (_ <=? slack)%Z; [now apply (Add sat)|now apply (Skip sat)].
Qed.
(** what happens to the atoms of the head when the body is true *)
Lemma headLoop_ok N M : sub N M -> knows K N M -> bodyT N M b = true -> forall hs m sat out m' sat' out', headOk m -> headLoop K m wof slack sat out hs = (m', sat', out') ->
  (forall h, In h hs -> In h out' \/ In h (m_head m) \/ M h = false \/ (sat' = true /\ N h = true)) /\ (sat' = true -> sat = true \/ exists h, In h hs /\ N h = true).
Proof.
  intros Hs Hk Hb. induction hs as [|h hs IH]; intros m sat out m' sat' out' Ho E; [cbn in E; injection E as <- <- <-; split; [intros h []|auto]|]. cbn [headLoop] in E.
  assert (Ho' : headOk (addToHead m h)) by exact Ho. destruct (Hk h) as (Kf & Kt & _). destruct (Ho N M Hs Hk Hb) as (Hp & Hn).
  assert (Add : forall sat0, headLoop K (addToHead m h) wof slack sat0 (out ++ [h]) hs = (m', sat', out') -> (sat0 = sat) ->
    (forall x, In x (h :: hs) -> In x out' \/ In x (m_head m) \/ M x = false \/ (sat' = true /\ N x = true)) /\ (sat' = true -> sat = true \/ exists h', In h' (h :: hs) /\ N h' = true)).
  { intros sat0 E' ->. pose proof (headLoop_marks _ _ _ _ _ _ _ E') as (_ & new & En & _). destruct (IH _ _ _ _ _ _ Ho' E') as [A B]. split.
    - intros x [<-|I]; [left; rewrite En; apply in_app_iff; left; apply in_app_iff; right; now left|]. destruct (A x I) as [X|[X|X]]; auto. cbn in X. destruct X as [<-|X]; [|auto].
      left. rewrite En. apply in_app_iff. left. apply in_app_iff. right. now left.
    - intros X. destruct (B X) as [Y|(y & Y1 & Y2)]; [auto|]. right. exists y. split; [now right|auto]. }
  assert (Skip : forall sat0, headLoop K m wof slack sat0 out hs = (m', sat', out') -> (sat0 = sat \/ N h = true) -> (sat' = true /\ N h = true) \/ In h (m_head m) \/ M h = false ->
    (forall x, In x (h :: hs) -> In x out' \/ In x (m_head m) \/ M x = false \/ (sat' = true /\ N x = true)) /\ (sat' = true -> sat = true \/ exists h', In h' (h :: hs) /\ N h' = true)).
  { intros sat0 E' Hsat Hh. destruct (IH _ _ _ _ _ _ Ho E') as [A B]. split.
    - intros x [<-|I]; [tauto|auto].
    - intros X. destruct (B X) as [->|(y & Y1 & Y2)]; [|right; exists y; split; [now right|auto]]. destruct Hsat as [->|Hn']; [now left|]. right. exists h. split; [now left|auto]. }
  assert (SatMono : forall hs m out m' sat' out', headLoop K m wof slack true out hs = (m', sat', out') -> sat' = true).
  { clear. induction hs as [|h hs IH]; intros m out m' sat' out' E; cbn [headLoop] in E; [now injection E as <- <- <-|].
    destruct (negb _); [now apply IH in E|]. destruct (negb _); [|now apply IH in E]. destruct (_ || _); [now apply IH in E|]. destruct (_ <=? _)%Z; now apply IH in E. }
  destruct (negb (inBody m (pos h) || inBody m (ngt h) || inHead m h || k_fact K h || k_false K h)) eqn:C1; [now apply (Add sat)|].
  destruct (negb (k_false K h || inHead m h)) eqn:C2.
  - apply negb_true_iff, orb_false_iff in C2 as [C2 C3]. destruct (k_fact K h || _) eqn:C4.
    + assert (Nh : N h = true). { apply orb_true_iff in C4 as [C4|C4]; [apply Kt; auto|]. apply Z.ltb_lt in C4. destruct (inBody m (pos h)) eqn:Eb; [now apply Hp|].
        lia. }
      apply (Skip true); auto. left. split; [now apply SatMono in E|auto].
    + apply orb_false_iff in C4 as [C4 C5]. destruct (_ <=? slack)%Z eqn:C6; [now apply (Add sat)|]. apply Z.leb_gt in C6. apply (Skip sat); auto. right. right.
      destruct (inBody m (ngt h)) eqn:Eb; [now apply Hn|lia].
  - apply (Skip sat); auto. apply negb_false_iff, orb_true_iff in C2 as [C2|C2]; [right; right; apply Kf; auto|right; left; now apply inHead_iff].
Qed.
Lemma pushHead_ok m ch hs m' o : headOk m -> m_head m = [] -> pushHead K m ch hs wof slack = (m', o) ->
  m_head m' = [] /\ incl (m_body m') (m_body m)
  /\ (forall out, o = Some out -> NoDup out /\ incl out hs /\ forall a, In a out -> k_fact K a = false /\ k_false K a = false)
  /\ forall N M, sub N M -> knows K N M -> ruleT N M (Rule ch hs b) <-> match o with Some out => ruleT N M (Rule ch out b) | None => True end.
Proof.
  intros Ho Hm E. unfold pushHead in E. destruct (headLoop K m wof slack false [] hs) as [[m1 sat] out] eqn:El. injection E as <- <-.
  pose proof (headLoop_marks _ _ _ _ _ _ _ El) as (A1 & new & A2 & A3 & A4 & A5 & A6). cbn in A2. subst new. split; [|split; [|split]].
  - apply empty_list. intros a I. apply clearAll_head in I as [I1 I2]. apply A3 in I1. rewrite Hm in I1. destruct I1 as [[]|I1]. auto.
  - intros p I. apply clearAll_body in I as [I _]. now rewrite A1 in I.
  - intros o' Eo. destruct (_ || _); [|discriminate]. injection Eo as <-. split; [auto|]. split; [auto|]. intros a I. now apply A6.
  - intros N M Hs Hk.
    assert (X : ruleT N M (Rule ch hs b) <-> (bodyT N M b = true -> if ch then forall h, In h hs -> M h = true -> N h = true else exists h, In h hs /\ N h = true)) by reflexivity.
    rewrite X. clear X. destruct (bodyT N M b) eqn:Hb.
    2: { split; [|discriminate]. intros _. destruct (_ || _); [|auto]. intros Y. cbn in Y. congruence. }
    destruct (headLoop_ok N M Hs Hk Hb _ _ _ _ _ _ _ Ho El) as [B1 B2]. rewrite Hm in B1.
    assert (B3 : sat = true -> exists h, In h hs /\ N h = true) by (intros Z; destruct (B2 Z) as [?|?]; [discriminate|auto]).
    destruct ch.
    + assert (All : (forall h, In h out -> M h = true -> N h = true) -> forall h, In h hs -> M h = true -> N h = true).
      { intros H h I Mh. destruct (B1 h I) as [Y|[[]|[Y|[_ Y]]]]; auto. congruence. }
      destruct (negb sat || _) eqn:C.
      * split; [intros H _ h I; apply (H eq_refl); auto|]. intros H _. apply All. now apply H.
      * split; [auto|]. intros _ _. apply All. intros h I. apply orb_false_iff in C as [_ C]. cbn [andb] in C. apply negb_false_iff, Nat.eqb_eq in C. destruct out; [destruct I|discriminate].
    + cbn [andb]. rewrite orb_false_r. destruct sat; cbn [negb].
      * split; [auto|]. intros _ _. auto.
      * split.
        -- intros H _. destruct (H eq_refl) as (h & I & Nh). destruct (B1 h I) as [Y|[[]|[Y|[Y _]]]]; [|rewrite (Hs h Nh) in Y; discriminate|discriminate]. exists h. auto.
        -- intros H _. destruct (H Hb) as (h & I & Nh). exists h. split; [now apply A4|auto].
Qed.
End Head.

(** the outcome means the same as the rule *)
Definition resOk (r : rule) (o : outcome) : Prop :=
  forall N M, sub N M -> knows K N M -> match o with Keep r' => ruleT N M r <-> ruleT N M r' | Drop => ruleT N M r | Threw => True end.

(** ** conjunctions *)
Lemma normLoop_ok : forall ls m out, (forall p, In p (m_body m) <-> In p out) ->
  match normLoop bodyId K m out ls with
  | NOk m' out' => m_head m' = m_head m /\ (forall p, In p (m_body m') <-> In p out') /\ (exists new, out' = out ++ new /\ incl new ls /\ (NoDup out -> NoDup out') /\ ((forall p, In p out -> ~ In (neg p) out) -> forall p, In p out' -> ~ In (neg p) out') /\ forall p, In p new -> lvl K p = VFree \/ lvl K p = VWeak)
      /\ forall N M, sub N M -> knows K N M -> forallb (litT N M) out' = forallb (litT N M) out && forallb (litT N M) ls
  | NFalse m' out' => m_head m' = m_head m /\ (forall p, In p (m_body m') <-> In p out') /\ forall N M, sub N M -> knows K N M -> forallb (litT N M) out && forallb (litT N M) ls = false
  | NThrow _ => True
  end.
Proof.
  induction ls as [|p ls IH]; intros m out Hm; cbn [normLoop].
  - split; [auto|]. split; [auto|]. split; [exists []; rewrite app_nil_r; split; [auto|]; split; [intros x []|]; split; [auto|]; split; [auto|]; intros p []|]. intros N M _ _. cbn. now rewrite andb_true_r.
  - destruct (negb (fst p <? bodyId)); [exact I|]. destruct (isV (lvl K p) VFalse || inBody m (neg p)) eqn:C1.
    + split; [auto|]. split; [auto|]. intros N M Hs Hk. cbn [forallb]. apply orb_true_iff in C1 as [C1|C1].
      * apply isV_true in C1. rewrite (lvl_false N M p Hs Hk C1). cbn. now rewrite andb_false_r.
      * apply inBody_iff, Hm in C1. destruct (litT N M p) eqn:E; [|cbn; now rewrite andb_false_r]. destruct (forallb (litT N M) out) eqn:Eo; [|auto]. rewrite forallb_forall in Eo. specialize (Eo _ C1).
        rewrite (neg_false N M p Hs E) in Eo. discriminate.
    + apply orb_false_iff in C1 as [C1 C1']. destruct (negb (isV (lvl K p) VTrue) && negb (inBody m p)) eqn:C2.
      * apply andb_true_iff in C2 as [C2 C3]. apply negb_true_iff in C2, C3.
        assert (Np : ~ In p out) by (intros X; apply Hm, inBody_iff in X; congruence). assert (Nn : ~ In (neg p) out) by (intros X; apply Hm, inBody_iff in X; congruence).
        assert (Hm' : forall q, In q (m_body (addToBody m p)) <-> In q (out ++ [p])). { intros q. rewrite in_app_iff. cbn [addToBody m_body In]. rewrite Hm. tauto. }
        specialize (IH (addToBody m p) (out ++ [p]) Hm'). destruct (normLoop bodyId K (addToBody m p) (out ++ [p]) ls) as [m' out'|m' out'|]; [| |auto].
        -- destruct IH as (A1 & A2 & (new & A3 & A4 & A5 & A6 & A7) & A8). split; [auto|]. split; [auto|]. split.
           ++ exists (p :: new). split; [rewrite A3; now rewrite <- app_assoc|]. split; [intros x [<-|J]; [now left|right; auto]|]. split; [|split].
              ** intros Nd. apply A5. clear - Nd Np. induction out as [|y l IHl]; cbn; [constructor; [intros []|constructor]|]. inversion Nd as [|a c B1 B2]; subst. constructor; [|apply IHl; auto; intros X; apply Np; now right].
                 intros X. apply in_app_iff in X as [X|[X|[]]]; [auto|]. apply Np. now left.
              ** intros H. apply A6. intros q J. apply in_app_iff in J as [J|[<-|[]]]; intros X; apply in_app_iff in X as [X|[X|[]]].
                 --- now apply (H q J).
                 --- apply Nn. rewrite X, neg_neg. auto.
                 --- auto.
                 --- destruct p as [a sg]. unfold neg in X. cbn in X. injection X as X. destruct sg; discriminate.
              ** intros q [<-|J]; [|auto]. destruct (lvl K p); auto; discriminate.
           ++ intros N M Hs Hk. rewrite A8 by auto. rewrite forallb_app. cbn [forallb]. rewrite andb_true_r. now rewrite andb_assoc.
        -- destruct IH as (A1 & A2 & A3). split; [auto|]. split; [auto|]. intros N M Hs Hk. rewrite <- (A3 N M Hs Hk). rewrite forallb_app. cbn [forallb]. rewrite andb_true_r. now rewrite andb_assoc.
      * assert (Hp : forall N M, sub N M -> knows K N M -> forallb (litT N M) out = forallb (litT N M) out && litT N M p).
        { intros N M Hs Hk. apply andb_false_iff in C2 as [C2|C2]; apply negb_false_iff in C2.
          - apply isV_true in C2. now rewrite (lvl_true N M p Hs Hk C2), andb_true_r.
          - apply inBody_iff, Hm in C2. destruct (forallb (litT N M) out) eqn:E; [|auto]. rewrite forallb_forall in E. now rewrite (E p C2). }
        specialize (IH m out Hm). destruct (normLoop bodyId K m out ls) as [m' out'|m' out'|]; [| |auto].
        -- destruct IH as (A1 & A2 & (new & A3 & A4 & A5) & A6). split; [auto|]. split; [auto|]. split; [exists new; split; [auto|]; split; [intros x J; right; auto|auto]|].
           intros N M Hs Hk. rewrite A6 by auto. cbn [forallb]. rewrite (Hp N M Hs Hk) at 1. now rewrite andb_assoc.
        -- destruct IH as (A1 & A2 & A3). split; [auto|]. split; [auto|]. intros N M Hs Hk. rewrite <- (A3 N M Hs Hk). cbn [forallb]. rewrite (Hp N M Hs Hk) at 2. now rewrite andb_assoc.
Qed.
(** shape of a simplified rule *)
Definition shape (r r' : rule) : Prop :=
  r_choice r' = r_choice r /\ NoDup (r_head r') /\ incl (r_head r') (r_head r) /\ forall a, In a (r_head r') -> k_fact K a = false /\ k_false K a = false.
Lemma headOk_norm m out : (forall p, In p (m_body m) <-> In p out) -> headOk one 0 (Norm out) m.
Proof.
  intros Hm N M Hs Hk B. cbn in B. rewrite forallb_forall in B. split; intros h I _; apply inBody_iff, Hm, B in I; unfold litT in I; cbn in I; [auto|now apply negb_true_iff].
Qed.
Lemma simplifyNormal_ok ch hs ls m' o : simplifyNormal bodyId K noMarks ch hs ls = (m', o) -> (o <> Threw -> m' = noMarks) /\ resOk (Rule ch hs (Norm ls)) o
  /\ forall r', o = Keep r' -> shape (Rule ch hs (Norm ls)) r' /\ exists out, r_body r' = Norm out /\ incl out ls /\ NoDup out /\ (forall p, In p out -> ~ In (neg p) out) /\ forall p, In p out -> lvl K p = VFree \/ lvl K p = VWeak.
Proof.
  unfold simplifyNormal. pose proof (normLoop_ok ls noMarks []) as H. destruct (normLoop bodyId K noMarks [] ls) as [m out|m out|m]; intros E.
  - destruct H as (A1 & A2 & (new & A3 & A4 & A5 & A6 & A7) & A8); [cbn; tauto|]. cbn in A3. subst new. destruct (pushHead K m ch hs one 0) as [m1 o1] eqn:Ep. injection E as <- <-.
    destruct (pushHead_ok one 0 (Norm out) (Z.le_refl 0) m ch hs m1 o1 (headOk_norm m out A2)) as (B1 & B2 & B3 & B4); auto. split; [|split].
    + intros _. apply clear_clean; auto. intros p J. apply in_map. now apply A2, B2.
    + intros N M Hs Hk. assert (X : ruleT N M (Rule ch hs (Norm ls)) <-> ruleT N M (Rule ch hs (Norm out))). { unfold ruleT. cbn [r_body bodyT r_choice r_head]. rewrite (A8 N M Hs Hk). reflexivity. }
      specialize (B4 N M Hs Hk). destruct o1; [rewrite X; auto|]. now apply X, B4.
    + intros r' Eo. destruct o1 as [h|]; [|discriminate]. injection Eo as <-. destruct (B3 h eq_refl) as (C1 & C2 & C3). split; [split; auto|]. exists out. split; [auto|]. split; [auto|].
      split; [apply A5; constructor|]. split; [|auto]. apply A6. intros p [].
  - destruct H as (A1 & A2 & A3); [cbn; tauto|]. injection E as <- <-. split; [|split; [|discriminate]].
    + intros _. apply clear_clean; auto. intros p J. apply in_map. now apply A2.
    + intros N M Hs Hk. intros B. cbn in B. specialize (A3 N M Hs Hk). cbn in A3. congruence.
  - injection E as <- <-. split; [intros X; congruence|]. split; [intros N M _ _; exact I|discriminate].
Qed.
End S.
