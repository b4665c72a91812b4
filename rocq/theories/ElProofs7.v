(** Preprocessor: elimination of a variable and of blocked clauses *)
From Coq Require Import List Bool Arith ZArith NArith Lia Permutation.
Import ListNotations.
From Verif Require Import Base ElModel ElSpec ElProofs ElProofs2 ElProofs3 ElProofs4 ElProofs5 ElProofs6.

(** the resolvent of [c] and [d] on [v] is a tautology *)
Definition triv (v : nat) (c d : list lit) : Prop := exists z, In z d /\ fst z <> v /\ In (neg z) c.

Section El.
Context (R : asg -> Prop) (fz : nat -> bool) (w : world) (SW : soundWorld R fz w) (OR : onlyOn fz R).
Context (Z0 : forall v, fz v = true -> v <> 0).
Context (Q : asg -> Prop).
Notation F := (F R). Notation wf0 := (wf0 fz). Notation wfx := (wfx fz). Notation wf := (ElProofs2.wfx fz []).
Notation J := (J fz Q).

Lemma deref_live s id k : deref s id = Ok k -> lits s id = Some (k_lits k).
Proof. intros H. apply deref_ok in H as [H _]. now apply lits_cls. Qed.

Lemma liveOcc_spec s L x : In x (liveOcc s L) <-> In x L /\ lits s (fst x) <> None.
Proof.
  induction L as [|[id b] L IH]; cbn [liveOcc]; [cbn; tauto|]. unfold lits in *. destruct (s_cls s id) as [k|] eqn:E; cbn [In].
  - rewrite IH. split.
    + intros [<-|[A B]]; [split; [auto|cbn; rewrite E; discriminate]|auto].
    + intros [[<-|A] B]; auto.
  - rewrite IH. split; [intros [A B]; auto|]. intros [[<-|A] B]; [cbn in B; rewrite E in B; exfalso; now apply B|auto].
Qed.
Lemma liveOcc_nd s L : NoDup (map fst L) -> NoDup (map fst (liveOcc s L)).
Proof.
  induction L as [|[id b] L IH]; cbn [liveOcc map]; [auto|]. intros N. inversion N; subst. destruct (s_cls s id); [|auto]. cbn. constructor; [|auto].
  intros I. apply H1. apply in_map_iff in I as (x & <- & I). apply in_map. now apply liveOcc_spec in I.
Qed.
Lemma liveOcc_ok s v L : occOk s v L -> occOk s v (liveOcc s L).
Proof.
  intros (A & B & C). split; [|split].
  - intros id c b E I. apply liveOcc_spec. split; [eapply A; eauto|cbn; congruence].
  - intros id c b I. apply liveOcc_spec in I. now apply B.
  - now apply liveOcc_nd.
Qed.
Lemma withSign_in sg L i : In i (withSign sg L) <-> In (i, sg) L.
Proof.
  unfold withSign. rewrite in_map_iff. split.
  - intros ([j b] & Ej & I). cbn in Ej. subst j. apply filter_In in I as [I E]. cbn in E. apply eqb_prop in E. now subst.
  - intros I. exists (i, sg). split; [auto|]. apply filter_In. split; [auto|]. cbn. apply eqb_reflx.
Qed.

(** ** Removing all clauses of a variable *)
Lemma bvRemove_ok D v : forall cls cnt s s', wf0 D s -> occs [v] s -> occOk s v cls -> (forall x, In x cls -> lits s (fst x) <> None) ->
  bvRemove v cls cnt s = Ok s' ->
  exists Cs, wf0 D s' /\ occs [v] s' /\ (forall id c b, lits s' id = Some c -> ~ In (v, b) c)
    /\ (s_n s' = s_n s /\ s_elim s' = s_elim s /\ s_tr s' = s_tr s /\ s_facts s' = s_facts s)
    /\ s_top s' = rev (map (fun c => (false, toFront v c)) Cs) ++ s_top s
    /\ (forall a, F s a <-> F s' a /\ allSat a Cs)
    /\ (forall c, In c Cs -> exists id b, lits s id = Some c /\ In (v, b) c /\ In (id, b) cls)
    /\ (forall id c b, lits s id = Some c -> In (v, b) c -> In c Cs)
    /\ lsub s s'
    /\ (forall k x, k < cnt -> nth_error cls k = Some x -> freeIdOf [v] s' (fst x))
    /\ (forall j, fr j s s').
Proof.
  induction cls as [|[id b] cls IH]; intros cnt s s' W O K Lv H; cbn [bvRemove] in H.
  - injection H as <-. exists []. split; [auto|]. split; [auto|]. split; [intros id c b E I; now apply (proj1 K id c b E)|].
    split; [auto|]. split; [auto|]. split; [intros a; split; [intros A; split; [auto|intros ? []]|tauto]|]. split; [intros ? []|].
    split; [intros id c b E I; exfalso; now apply (proj1 K id c b E)|]. split; [intros ? ?; auto|].
    split; [intros k x _ E; destruct k; discriminate|]. intros; apply fr_refl.
  - apply bind_ok in H as (k & Hk & H). apply getc_ok in Hk; subst k. destruct (s_cls s id) as [k|] eqn:Ek.
    2:{ exfalso. apply (Lv (id, b)); [now left|]. unfold lits. cbn. now rewrite Ek. }
    apply bind_ok in H as (s1 & H1 & H).
    destruct (bceVeRemove_ok R fz [v] D s id (0 <? cnt) v false s1 W O H1) as (c & E & N1 & L1 & W1 & O1 & (A1 & A2 & A3 & A4 & A5) & T1 & F1 & Fr1 & Fi).
    pose proof (proj1 (proj2 K) id c b (or_introl eq_refl) E) as Ib.
    destruct K as (K1 & K2 & K3). cbn in K3. inversion K3 as [|? ? K4 K5]; subst.
    assert (Ls : lsub s s1). { intros j y. destruct (Nat.eq_dec j id) as [->|Nj]; [congruence|now rewrite L1]. }
    apply IH in H; auto.
    + destruct H as (Cs & W2 & O2 & Nv & (B1 & B2 & B3 & B4) & T2 & F2 & C2 & C3 & Ls2 & Fi2 & Fr2). exists (c :: Cs).
      split; [auto|]. split; [auto|]. split; [auto|]. split; [repeat split; congruence|].
      split; [rewrite T2, T1; cbn [map rev]; now rewrite <- app_assoc|].
      split. { intros a. rewrite F1, F2. split; [intros [[A B] C]; split; [auto|intros y [<-|I]; auto]|].
               intros [A B]. split; [split; [auto|intros y I; apply B; now right]|apply B; now left]. }
      split. { intros y [<-|I]; [exists id, b; repeat split; auto; now left|]. destruct (C2 _ I) as (j & d & G1 & G2 & G3).
               exists j, d. split; [now apply Ls|]. split; [auto|now right]. }
      split. { intros j y d Ej I. destruct (Nat.eq_dec j id) as [->|Nj]; [left; congruence|]. right. apply (C3 j y d); [now rewrite L1|auto]. }
      split; [intros j y G; now apply Ls, Ls2|]. split; [|intros j; eapply fr_trans; [apply Fr1|apply Fr2]].
      intros j x Hj Ex. destruct j as [|j]; cbn in Ex.
      * injection Ex as <-. cbn. apply (freeId_fr [v] s1); [|apply Fr2|auto]. apply Fi; auto.
        -- apply Nat.ltb_lt. lia.
        -- intros ->. destruct Ib.
      * apply (Fi2 j); [lia|auto].
    + split; [|split; [|auto]].
      * intros j y d Ej I. destruct (Nat.eq_dec j id) as [->|Nj]; [congruence|]. rewrite L1 in Ej by auto.
        destruct (K1 _ _ _ Ej I) as [G|G]; [congruence|auto].
      * intros j y d I Ej. apply Ls in Ej. apply (K2 j); auto. now right.
    + intros x I. rewrite L1; [apply Lv; now right|]. intros G. apply K4. rewrite <- G. now apply in_map.
Qed.

(** ** Counting the resolvents *)
Lemma trivial_ok D s i L r v : wf0 D s -> lits s i = Some L -> (forall z, In z r -> fst z <> 0 /\ ~ In (fst z) (map fst D)) ->
  trivialResolvent (markAll s L) r v = true <-> triv v L r.
Proof.
  intros W E Hr. unfold trivialResolvent, triv. rewrite existsb_exists. pose proof (q_nd _ _ _ W _ _ E) as Nd.
  assert (G : forall z, In z r -> markedL (markAll s L) (neg z) = true <-> In (neg z) L).
  { intros z Iz. destruct (Hr z Iz) as [_ ND]. unfold markedL.
    change (In (neg z) L) with (In (fst (neg z), snd (neg z)) L).
    rewrite <- (markAll_some s L (fst (neg z)) (snd (neg z)) Nd).
    - destruct (s_lm (markAll s L) (fst (neg z))) as [y|]; [|split; discriminate]. rewrite eqb_true_iff. split; congruence.
    - right. rewrite (q_lm _ _ _ W). apply lmD_none. exact ND. }
  split.
  - intros (z & Iz & H). apply andb_true_iff in H as [H1 H2]. apply negb_true_iff, Nat.eqb_neq in H2. exists z. repeat split; auto. now apply G.
  - intros (z & Iz & H1 & H2). exists z. split; [auto|]. apply andb_true_iff. split; [now apply G|]. apply negb_true_iff. now apply Nat.eqb_neq.
Qed.

Lemma bvInner_ok (S : st) v maxCnt bce L (T : nat -> Prop) (C : nat -> list lit) : forall negs done lm b done' lm' b' stop,
  (forall x, In x negs -> forall k, deref S (fst x) = Ok k -> k_lits k = C (fst x) /\ (trivialResolvent S (k_lits k) v = true <-> T (fst x))) ->
  bvInner S v maxCnt bce L negs done lm b = Ok (done', lm', b', stop) ->
  (b_cnt b <= maxCnt -> length (b_cands b) = b_cnt b) ->
  map fst done' = map fst (done ++ negs)
  /\ b_cnt b <= b_cnt b' /\ (b_cnt b' <= maxCnt -> length (b_cands b') = b_cnt b')
  /\ (forall x, In x (b_cands b) -> In x (b_cands b'))
  /\ (forall x, In x (b_cands b') -> In x (b_cands b) \/ exists j, In j (map fst negs) /\ ~ T j /\ x = (toFront v L, toFront v (C j)))
  /\ (b_cnt b' <= maxCnt -> stop = false /\ forall j, In j (map fst negs) -> T j \/ In (toFront v L, toFront v (C j)) (b_cands b'))
  /\ (lm' = true -> lm = true /\ forall j, In j (map fst negs) -> T j)
  /\ (forall j, In (j, true) done' -> In (j, true) done \/ (In (j, true) negs /\ (b_mm b' <> 0 -> T j)))
  /\ b_mm b' <= b_mm b /\ (stop = true -> b_mm b' = 0).
Proof.
  induction negs as [|[j mk] negs IH]; intros done lm b done' lm' b' stop Hn H Hc; cbn [bvInner] in H.
  - injection H as <- <- <- <-. rewrite app_nil_r. split; [auto|]. split; [auto|]. split; [auto|]. split; [auto|]. split; [auto|].
    split; [intros _; split; [auto|intros ? []]|]. split; [intros ->; split; [auto|intros ? []]|]. split; [auto|]. split; [auto|discriminate].
  - apply bind_ok in H as (k & Hk & H). destruct (Hn (j, mk) (or_introl eq_refl) k Hk) as [EC ET]. cbn [fst] in EC, ET.
    assert (Hn' : forall x, In x negs -> forall k, deref S (fst x) = Ok k -> k_lits k = C (fst x) /\ (trivialResolvent S (k_lits k) v = true <-> T (fst x)))
      by (intros x I; apply Hn; now right).
    cbn [map fst In].
    destruct (trivialResolvent S (k_lits k) v) eqn:Et.
    + apply IH in H as (G1 & G2 & G3 & G4 & G5 & G6 & G7 & G8 & G9 & G10); auto. rewrite <- app_assoc in G1. cbn [app] in G1.
      assert (Tj : T j) by (now apply ET).
      split; [auto|]. split; [auto|]. split; [auto|]. split; [auto|].
      split; [intros x I; destruct (G5 x I) as [A|(i & A & B)]; [auto|right; exists i; auto]|].
      split; [intros A; destruct (G6 A) as [B B']; split; [auto|intros i [<-|I]; auto]|].
      split; [intros A; destruct (G7 A) as [B B']; split; [auto|intros i [<-|I]; auto]|].
      split; [|auto]. intros i I. destruct (G8 i I) as [A|[A B]]; [|right; auto]. apply in_app_iff in A as [A|[A|[]]]; [auto|].
      injection A as -> ->. right. split; [now left|auto].
    + assert (Nt : ~ T j) by (intros A; apply ET in A; congruence). cbv zeta in H.
      set (mm := b_mm b - (if mk then 1 else 0)) in *. assert (Hmm : mm <= b_mm b) by (unfold mm; lia). clearbody mm.
      assert (Rest : forall b0 d0, b_mm b0 = mm -> b_cnt b0 = Datatypes.S (b_cnt b) -> (b_cnt b0 <= maxCnt -> length (b_cands b0) = b_cnt b0) ->
        (forall x, In x (b_cands b) -> In x (b_cands b0)) ->
        (forall x, In x (b_cands b0) -> In x (b_cands b) \/ x = (toFront v L, toFront v (C j))) ->
        (b_cnt b0 <= maxCnt -> In (toFront v L, toFront v (C j)) (b_cands b0)) ->
        d0 = done ++ [(j, false)] -> bvInner S v maxCnt bce L negs d0 false b0 = Ok (done', lm', b', stop) ->
        map fst done' = map fst (done ++ (j, mk) :: negs)
        /\ b_cnt b <= b_cnt b' /\ (b_cnt b' <= maxCnt -> length (b_cands b') = b_cnt b')
        /\ (forall x, In x (b_cands b) -> In x (b_cands b'))
        /\ (forall x, In x (b_cands b') -> In x (b_cands b) \/ exists i, (j = i \/ In i (map fst negs)) /\ ~ T i /\ x = (toFront v L, toFront v (C i)))
        /\ (b_cnt b' <= maxCnt -> stop = false /\ forall i, (j = i \/ In i (map fst negs)) -> T i \/ In (toFront v L, toFront v (C i)) (b_cands b'))
        /\ (lm' = true -> lm = true /\ forall i, (j = i \/ In i (map fst negs)) -> T i)
        /\ (forall i, In (i, true) done' -> In (i, true) done \/ (((j, mk) = (i, true) \/ In (i, true) negs) /\ (b_mm b' <> 0 -> T i)))
        /\ b_mm b' <= b_mm b /\ (stop = true -> b_mm b' = 0)).
      { intros b0 d0 Q1 Q2 Q3 Q4 Q5 Q6 -> H'. apply IH in H' as (G1 & G2 & G3 & G4 & G5 & G6 & G7 & G8 & G9 & G10); auto.
        split; [rewrite G1, <- app_assoc, !map_app; reflexivity|]. split; [lia|]. split; [auto|]. split; [auto|].
        split; [intros x I; destruct (G5 x I) as [A|(i & A & B)]; [destruct (Q5 x A) as [A'| ->]; [auto|right; exists j; auto]|right; exists i; auto]|].
        split; [intros A; destruct (G6 A) as [B B']; split; [auto|intros i [<-|I]; [right; apply G4, Q6; lia|auto]]|].
        split; [intros A; destruct (G7 A); discriminate|].
        split; [|split; [lia|auto]]. intros i I. destruct (G8 i I) as [A|[A B]]; [|right; auto]. apply in_app_iff in A as [A|[A|[]]]; [auto|]. discriminate. }
      destruct (Datatypes.S (b_cnt b) <=? maxCnt) eqn:Ec; [|destruct (mm =? 0) eqn:Em].
      * apply Nat.leb_le in Ec. eapply Rest; [..|reflexivity|exact H]; cbn [b_mm b_cnt b_cands].
        -- auto.
        -- auto.
        -- intros _. rewrite app_length, Hc by lia. cbn. lia.
        -- intros x I. apply in_app_iff. auto.
        -- intros x I. apply in_app_iff in I as [I|[<-|[]]]; [auto|]. right. now rewrite EC.
        -- intros _. apply in_app_iff. right. left. now rewrite EC.
      * apply Nat.leb_gt in Ec. apply Nat.eqb_eq in Em. injection H as <- <- <- <-. cbn [b_mm b_cnt b_cands].
        split; [now rewrite !map_app|]. split; [lia|]. split; [lia|]. split; [auto|]. split; [auto|]. split; [lia|]. split; [discriminate|].
        split; [|split; [lia|auto]]. intros i I. apply in_app_iff in I as [I|[I|I]]; [auto|discriminate|]. right. split; [auto|lia].
      * apply Nat.leb_gt in Ec. eapply Rest; [..|reflexivity|exact H]; cbn [b_mm b_cnt b_cands]; auto; lia.
Qed.

(** All pairs; the clauses of [v] in [poss] and [negs] are those of [s0] *)
Lemma bvOuter_ok D v maxCnt bce s0 : forall poss negs s blocked b s' negs' blocked' b', wf0 D s ->
  lmOnly s0 s -> (forall u, s_lm s u = s_lm s0 u) ->
  bvOuter s v maxCnt bce poss negs blocked b = Ok (s', negs', blocked', b') ->
  (b_cnt b <= maxCnt -> length (b_cands b) = b_cnt b) ->
  (forall i, In i (poss ++ map fst negs) -> lits s0 i <> None) ->
  lmOnly s0 s' /\ (forall u, s_lm s' u = s_lm s0 u)
  /\ map fst negs' = map fst negs
  /\ b_cnt b <= b_cnt b' /\ (b_cnt b' <= maxCnt -> length (b_cands b') = b_cnt b')
  /\ (forall x, In x (b_cands b) -> In x (b_cands b'))
  /\ (forall x, In x (b_cands b') -> In x (b_cands b) \/ exists i j ci cj, In i poss /\ In j (map fst negs) /\ lits s0 i = Some ci /\ lits s0 j = Some cj
        /\ ~ triv v ci cj /\ x = (toFront v ci, toFront v cj))
  /\ (b_cnt b' <= maxCnt -> forall i j ci cj, In i poss -> In j (map fst negs) -> lits s0 i = Some ci -> lits s0 j = Some cj ->
        triv v ci cj \/ In (toFront v ci, toFront v cj) (b_cands b'))
  /\ (forall i, In i blocked' -> In i blocked \/ (In i poss /\ forall ci j cj, lits s0 i = Some ci -> In j (map fst negs) -> lits s0 j = Some cj -> triv v ci cj))
  /\ (forall j, In (j, true) negs' -> In (j, true) negs /\ (b_mm b' <> 0 -> forall i ci cj, In i poss -> lits s0 i = Some ci -> lits s0 j = Some cj -> triv v ci cj))
  /\ b_mm b' <= b_mm b.
Proof.
  induction poss as [|i poss IH]; intros negs s blocked b s' negs' blocked' b' W Lo Lm H Hc Lv; cbn [bvOuter] in H.
  - injection H as <- <- <- <-. split; [auto|]. split; [auto|]. split; [auto|]. split; [auto|]. split; [auto|]. split; [auto|]. split; [auto|].
    split; [intros _ ? ? ? ? []|]. split; [auto|]. split; [|auto]. intros j I. split; [auto|intros _ ? ? ? []].
  - apply bind_ok in H as (k & Hk & H). pose proof (deref_live _ _ _ Hk) as El. cbv zeta in H.
    apply bind_ok in H as ([[[negs1 lm1] b1] stop] & H1 & H).
    assert (E0 : lits s0 i = Some (k_lits k)) by (rewrite <- (lmOnly_lits _ _ Lo); auto).
    set (s1 := markAll s (k_lits k)) in *.
    assert (Lo1 : lmOnly s0 s1) by (eapply lmOnly_trans; [exact Lo|apply markAll_only]).
    pose (T := fun j => forall c, lits s0 j = Some c -> triv v (k_lits k) c).
    pose (C := fun j => match lits s0 j with Some c => c | None => [] end).
    apply (bvInner_ok s1 v maxCnt bce (k_lits k) T C) in H1; auto.
    2:{ intros [j mk] I kk Hkk. cbn [fst] in *. apply deref_live in Hkk. rewrite (lmOnly_lits _ _ Lo1) in Hkk. unfold C, T. rewrite Hkk.
        split; [auto|]. unfold s1. rewrite (trivial_ok D s i (k_lits k) (k_lits kk) v W El).
        - split; [intros G c Ec; injection Ec as <-; exact G|intros G; now apply G].
        - intros z Iz. rewrite <- (lmOnly_lits _ _ Lo) in Hkk. destruct (q_var _ _ _ W _ _ _ Hkk Iz) as (A1 & A2 & A3). auto. }
    destruct H1 as (G1 & G2 & G3 & G4 & G5 & G6 & G7 & G8 & G9 & G10). cbn [app] in G1.
    set (s2 := unmarkAll s1 (k_lits k)) in *.
    assert (Lo2 : lmOnly s0 s2) by (eapply lmOnly_trans; [exact Lo1|apply unmarkAll_only]).
    assert (Lm2 : forall u, s_lm s2 u = s_lm s0 u).
    { intros u. unfold s2, s1. rewrite restore; [auto|]. intros p I. eapply lm_free; eauto. }
    assert (W2 : wf0 D s2). { apply (wf0_lm fz D s); auto. - eapply lmOnly_trans; [apply markAll_only|apply unmarkAll_only]. - intros u. now rewrite Lm2, Lm. }
    assert (Tt : forall j ci cj, T j -> lits s0 i = Some ci -> lits s0 j = Some cj -> triv v ci cj).
    { intros j ci cj Tj Ei Ej. rewrite E0 in Ei. injection Ei as <-. now apply Tj. }
    assert (Cj : forall j cj, lits s0 j = Some cj -> C j = cj) by (intros j cj Ej; unfold C; now rewrite Ej).
    assert (Lk : forall j, In j (map fst negs) -> lits s0 j <> None) by (intros j I; apply Lv, in_app_iff; auto).
    assert (Bl : forall i0, In i0 (if lm1 then blocked ++ [i] else blocked) -> In i0 blocked \/
      (i = i0 /\ forall ci j cj, lits s0 i0 = Some ci -> In j (map fst negs) -> lits s0 j = Some cj -> triv v ci cj)).
    { intros i0 I. destruct lm1; [|auto]. apply in_app_iff in I as [I|[<-|[]]]; [auto|]. right. split; [auto|]. intros ci j cj Ei I Ej.
      destruct (G7 eq_refl) as [_ G]. apply (Tt j); auto. }
    destruct stop.
    + injection H as <- <- <- <-. specialize (G10 eq_refl).
      assert (Nc : ~ b_cnt b1 <= maxCnt) by (intros A; destruct (G6 A); discriminate).
      split; [auto|]. split; [auto|]. split; [auto|]. split; [auto|]. split; [auto|]. split; [auto|].
      split. { intros x I. destruct (G5 x I) as [A|(j & A & B & Ex)]; [auto|]. right. destruct (lits s0 j) as [cj|] eqn:Ej; [|now apply Lk in A].
               exists i, j, (k_lits k), cj. rewrite (Cj _ _ Ej) in Ex. split; [now left|]. repeat split; auto.
               intros G. apply B. intros c Ec. rewrite Ej in Ec. injection Ec as <-. auto. }
      split; [tauto|]. split. { intros i0 I. destruct (Bl i0 I) as [A|[-> A]]; [auto|]. right. split; [now left|auto]. }
      split; [|auto]. intros j I. destruct (G8 j I) as [[]|[A B]]. split; [auto|lia].
    + apply IH in H; auto. 2:{ intros j I. apply Lv. rewrite G1 in I. now right. }
      destruct H as (K1 & K2 & K3 & K4 & K5 & K6 & K7 & K8 & K9 & K10 & K11).
      split; [auto|]. split; [auto|]. split; [congruence|]. split; [lia|]. split; [auto|]. split; [auto|].
      split. { intros x I. destruct (K7 x I) as [A|(i0 & j & ci & cj & A1 & A2 & A3 & A4 & A5 & A6)].
               - destruct (G5 x A) as [B|(j & B1 & B2 & Ex)]; [auto|]. right. destruct (lits s0 j) as [cj|] eqn:Ej; [|now apply Lk in B1].
                 exists i, j, (k_lits k), cj. rewrite (Cj _ _ Ej) in Ex. split; [now left|]. repeat split; auto.
                 intros G. apply B2. intros c Ec. rewrite Ej in Ec. injection Ec as <-. auto.
               - right. exists i0, j, ci, cj. rewrite G1 in A2. split; [now right|]. repeat split; auto. }
      split. { intros Hle i0 j ci cj [<-|I] Ij Ei Ej.
               - destruct (G6 ltac:(lia)) as [_ G]. destruct (G j Ij) as [Tj|Ic]; [left; apply (Tt j); auto|]. right. apply K6.
                 rewrite E0 in Ei. injection Ei as <-. now rewrite (Cj _ _ Ej) in Ic.
               - apply (K8 Hle i0 j); auto. now rewrite G1. }
      split. { intros i0 I. destruct (K9 i0 I) as [A|[A B]].
               - destruct (Bl i0 A) as [A'|[-> A']]; [auto|]. right. split; [now left|auto].
               - right. split; [now right|]. intros ci j cj E1 I1. apply B; auto. now rewrite G1. }
      split; [|lia]. intros j I. destruct (K10 j I) as [A B]. destruct (G8 j A) as [[]|[A' B']]. split; [auto|].
      intros Nm i0 ci cj [<-|Ii] Ei Ej; [|eapply B; eauto]. apply (Tt j); auto. apply B'. lia.
Qed.

(** ** Blocked clauses *)
Definition blk v (s : st) (id : nat) : Prop := forall C, lits s id = Some C -> exists sg, In (v, sg) C /\
  forall j E, lits s j = Some E -> In (v, negb sg) E -> exists z, In z E /\ fst z <> v /\ In (neg z) C.
Lemma blk_lsub v s s' id : lsub s s' -> blk v s id -> blk v s' id.
Proof.
  intros L B C E. destruct (B C (L _ _ E)) as (sg & I & H). exists sg. split; [auto|]. intros j y Ej. apply (H j). now apply L.
Qed.
Lemma sat_perm a c d : Permutation c d -> sat_clause a c = sat_clause a d.
Proof.
  intros P. destruct (sat_clause a d) eqn:E.
  - eapply sat_incl; [|exact E]. intros x I. eapply Permutation_in; [apply Permutation_sym|]; eauto.
  - destruct (sat_clause a c) eqn:E2; [|auto]. rewrite <- E. symmetry. eapply sat_incl; [|exact E2]. intros x I. eapply Permutation_in; eauto.
Qed.
Lemma value_none s v : value s v = None -> v <> 0 /\ s_elim s v = false /\ ~ In v (map fst (s_tr s)).
Proof. intros H. apply (litVal_none s (v, false)). unfold litVal. cbn [fst]. now rewrite H. Qed.

Lemma satL a c p : In p c -> holds a p = true -> sat_clause a c = true.
Proof. intros I H. apply sat_in. eauto. Qed.
Lemma blockedOne D v s id s' : fz v = false -> ~ In v (map fst (s_tr s)) -> wf0 D s -> occs [] s -> J None (s_top s) (F s) ->
  (forall a, Q a -> F s a) -> blk v s id -> bceVeRemove id false v true s = Ok s' ->
  wf0 D s' /\ occs [] s' /\ J None (s_top s') (F s') /\ (forall a, Q a -> F s' a) /\ lsub s s'
  /\ s_n s' = s_n s /\ s_elim s' = s_elim s /\ s_tr s' = s_tr s /\ s_facts s' = s_facts s.
Proof.
  intros Hf Nt W O HJ HQ HB H.
  destruct (bceVeRemove_ok R fz [] D s id false v true s' W O H) as (c & E & N1 & L1 & W1 & O1 & (A1 & A2 & A3 & A4 & A5) & T1 & F1 & Fr1 & _).
  assert (Ls : lsub s s'). { intros j y. destruct (Nat.eq_dec j id) as [->|Nj]; [congruence|now rewrite L1]. }
  split; [auto|]. split; [auto|]. split; [|split; [intros a K; apply F1; auto|split; [auto|auto]]].
  destruct (HB c E) as (sg & Iv & Hbl). pose proof (q_nd _ _ _ W _ _ E) as Nd.
  destruct (toFront_ok v sg c Nd Iv) as (t & Et & Pt & Nv). rewrite T1, Et.
  apply J_cons with (P' := F s); cbn [fst]; auto.
  - intros a. rewrite F1. now rewrite (sat_perm _ _ _ Pt).
  - intros a (Ra & Ta & Ca) S. split; [|split].
    + apply (OR a); auto. intros u Fu. unfold setTo. cbn. destruct (u =? v) eqn:Eu; [apply Nat.eqb_eq in Eu; congruence|auto].
    + intros p Ip. rewrite A3 in Ip. rewrite setTo_other; [apply Ta; now rewrite A3|]. cbn. intros G. apply Nt. rewrite <- G. now apply in_map.
    + intros j y Ej. destruct (in_dec Nat.eq_dec v (map fst y)) as [Iy|Ny]; [|rewrite setTo_clause by auto; eapply Ca; eauto].
      apply in_map_iff in Iy as ([u d] & Eu & Iy). cbn in Eu. subst u. destruct (bool_dec d sg) as [->|Nd'].
      * apply (satL _ _ (v, sg)); auto. apply setTo_same.
      * assert (d = negb sg) as -> by (destruct d, sg; first [reflexivity|now destruct Nd']).
        destruct (Hbl j y (Ls _ _ Ej) Iy) as (z & Iz & Nz & Inz). apply (satL _ _ z); auto. rewrite setTo_other by auto.
        destruct (holds a z) eqn:Hz; [auto|]. rewrite <- (sat_perm _ _ _ Pt) in S.
        rewrite (satL a c (neg z)) in S; [discriminate|auto|]. now rewrite holds_neg, Hz.
  - discriminate.
  - apply (q_var _ _ _ W _ _ _ E Iv).
  - now apply J_up.
Qed.

Lemma bvBlocked_ok D v : fz v = false -> forall ids s s', ~ In v (map fst (s_tr s)) -> wf0 D s -> occs [] s -> J None (s_top s) (F s) ->
  (forall a, Q a -> F s a) -> (forall id, In id ids -> blk v s id) -> bvBlocked v ids s = Ok s' ->
  wf0 D s' /\ occs [] s' /\ J None (s_top s') (F s') /\ (forall a, Q a -> F s' a) /\ lsub s s'
  /\ s_n s' = s_n s /\ s_elim s' = s_elim s /\ s_tr s' = s_tr s /\ s_facts s' = s_facts s.
Proof.
  intros Hf. induction ids as [|id ids IH]; intros s s' Nt W O HJ HQ HB H; cbn [bvBlocked] in H.
  - injection H as <-. repeat (split; [first [assumption|intros ? ?; auto]|]). auto.
  - apply bind_ok in H as (s1 & H1 & H). apply (blockedOne D) in H1 as (B1 & B2 & B3 & B4 & B5 & B6 & B7 & B8 & B9); auto.
    2:{ apply HB. now left. }
    apply IH in H as (C1 & C2 & C3 & C4 & C5 & C6 & C7 & C8 & C9); auto.
    + split; [auto|]. split; [auto|]. split; [auto|]. split; [auto|]. split; [intros j y E; auto|]. repeat split; congruence.
    + now rewrite B8.
    + intros j I. apply (blk_lsub v s); auto. apply HB. now right.
Qed.
Lemma bvBlockedNeg_ok D v : fz v = false -> forall negs mm s s', ~ In v (map fst (s_tr s)) -> wf0 D s -> occs [] s -> J None (s_top s) (F s) ->
  (forall a, Q a -> F s a) -> (mm <> 0 -> forall id, In (id, true) negs -> blk v s id) -> bvBlockedNeg v negs mm s = Ok s' ->
  wf0 D s' /\ occs [] s' /\ J None (s_top s') (F s') /\ (forall a, Q a -> F s' a) /\ lsub s s'
  /\ s_n s' = s_n s /\ s_elim s' = s_elim s /\ s_tr s' = s_tr s /\ s_facts s' = s_facts s.
Proof.
  intros Hf. induction negs as [|[id mk] negs IH]; intros mm s s' Nt W O HJ HQ HB H; destruct mm as [|mm]; cbn [bvBlockedNeg] in H; try discriminate;
    try (injection H as <-; repeat (split; [first [assumption|intros ? ?; auto]|]); auto).
  apply bind_ok in H as (k & Hk & H). destruct mk.
  - apply bind_ok in H as (s1 & H1 & H). apply (blockedOne D) in H1 as (B1 & B2 & B3 & B4 & B5 & B6 & B7 & B8 & B9); auto.
    2:{ apply HB; [discriminate|]. now left. }
    apply IH in H as (C1 & C2 & C3 & C4 & C5 & C6 & C7 & C8 & C9); auto.
    + split; [auto|]. split; [auto|]. split; [auto|]. split; [auto|]. split; [intros j y E; auto|]. repeat split; congruence.
    + now rewrite B8.
    + intros _ j I. apply (blk_lsub v s); auto. apply HB; [discriminate|]. now right.
  - apply IH in H; auto. intros N j I. apply HB; auto. now right.
Qed.
End El.
