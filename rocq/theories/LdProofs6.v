(** C51: the invariants hold in every execution. *)
From Coq Require Import List Arith Bool Lia Permutation.
From Verif Require Import Base LdSpec LdModel LdProofs LdProofs2 LdProofs3 LdProofs4 LdProofs5.
Import ListNotations.

Section P.
Variables (m : nat) (peers : nat -> nat -> bool).
Hypothesis M2 : 2 <= m.
Notation Inv := (Inv m peers).
Notation todoG := (todoG peers).
Notation Sem := (Sem m peers).
Notation Ref := (Ref m peers).
Notation share := (share peers).
Notation pubd := (pubd m).

Lemma run_cur s t s' e b' : run1 m peers t s = Ok (s', e) -> pubOf (s_pc s' t) = Some b' -> exists b, pubOf (s_pc s t) = Some b /\ p_it b = p_it b'.
Proof.
  unfold run1. intros E.
  destruct (s_pc s t) eqn:EP; unfold at_, fin in E;
    repeat match type of E with context [if ?c then _ else _] => destruct c eqn:? | context [match ?c with Some _ => _ | None => _ end] => destruct c eqn:? end;
    try discriminate; try (injection E as <- <-; cbn; rewrite ?fset_same, ?EP; cbn; intros K; try discriminate; injection K as <-; cbn; eauto; fail);
    try (unfold release in E; destruct (_ <? _); [discriminate|]; cbn in E; destruct (_ =? 0); injection E as <- <-; cbn; rewrite ?fset_same; discriminate).
Qed.

(** What a step does to references *)
Inductive reff (s : st) (t : nat) (s' : st) : list ev -> Prop :=
| RA e : s_refs s' = s_refs s -> s_hold s' = s_hold s -> (forall x, curb (s_pc s' t) x = curb (s_pc s t) x) -> deleted e = [] -> received e t = [] -> reff s t s' e
| RB b e : pubOf (s_pc s t) = Some b -> p_i b = m -> pubOf (s_pc s' t) = None -> p_dec b <= s_refs s (it_id (p_it b)) ->
    (forall i, s_refs s' i = if i =? it_id (p_it b) then s_refs s i - p_dec b else s_refs s i) ->
    s_hold s' = (if it_keep (p_it b) then fset (s_hold s) t (p_it b :: s_hold s t) else s_hold s) ->
    deleted e = (if p_dec b =? 0 then [] else if s_refs s (it_id (p_it b)) - p_dec b =? 0 then [p_it b] else []) -> received e t = [] -> reff s t s' e
| RC x : pubOf (s_pc s t) = None -> pubOf (s_pc s' t) = None -> s_refs s' = s_refs s -> s_hold s' = fset (s_hold s) t (x :: s_hold s t) -> reff s t s' [Recv t x].
Lemma curb_same p p' : option_map p_it (pubOf p') = option_map p_it (pubOf p) -> forall x, curb p' x = curb p x.
Proof. intros E x. unfold curb. destruct (pubOf p), (pubOf p'); cbn in E; try discriminate; [injection E as ->|]; reflexivity. Qed.
Lemma run_ref s g t s' e : Inv s g -> t < m -> run1 m peers t s = Ok (s', e) -> reff s t s' e.
Proof.
  intros H T. pose proof (i_pb _ _ _ _ H t T) as B. unfold LdProofs.pubOK in B. unfold run1. intros E.
  destruct (s_pc s t) eqn:EP; cbn [pubOf] in B; unfold at_ in E;
    repeat match type of E with context [if ?c then _ else _] => destruct c eqn:? | context [match ?c with Some _ => _ | None => _ end] => destruct c eqn:? end;
    try discriminate.
  all: try (injection E as <- <-; apply RA; cbn; rewrite ?fset_same, ?EP; auto; apply curb_same; rewrite ?fset_same; cbn; auto; fail).
  - injection E as <- <-. apply Nat.eqb_eq in Heqb0, Heqb1. apply (RB _ _ _ b); rewrite ?EP; cbn; auto.
    + unfold fin. destruct (it_keep (p_it b)); cbn; now rewrite fset_same.
    + lia.
    + intros i. unfold fin. destruct (it_keep (p_it b)); cbn; rewrite Heqb1, Nat.sub_0_r; now destruct (i =? _).
    + unfold fin. destruct (it_keep (p_it b)); reflexivity.
    + now rewrite Heqb1.
  - unfold release in E. destruct (Nat.ltb_spec (s_refs s (it_id (p_it b))) (p_dec b)) as [|LE]; [discriminate|]. cbn [bind] in E. injection E as <- <-.
    apply (RB _ _ _ b); rewrite ?EP; cbn; auto.
    + apply B.
    + unfold fin. destruct (it_keep (p_it b)); cbn; now rewrite fset_same.
    + intros i. unfold fin. destruct (it_keep (p_it b)); cbn; unfold fset; destruct (Nat.eqb_spec i (it_id (p_it b))) as [->|]; reflexivity.
    + unfold fin. destruct (it_keep (p_it b)); reflexivity.
    + destruct (Nat.eqb_spec (p_dec b) 0) as [Z|NZ].
      * destruct B as (_ & _ & _ & B). congruence.
      * destruct (_ =? 0); reflexivity.
    + destruct (_ =? 0); reflexivity.
  - injection E as <- <-. apply RC; cbn; rewrite ?fset_same, ?EP; auto.
  - injection E as <- <-. apply RC; cbn; rewrite ?fset_same, ?EP; auto.
Qed.

Lemma received_none e t : (forall x, ~ In (Recv t x) e) -> received e t = [].
Proof.
  induction e as [|a e IH]; intros N; [reflexivity|]. assert (forall x, ~ In (Recv t x) e) as N' by (intros x X; apply (N x); now right).
  destruct a; cbn; auto. destruct (Nat.eqb_spec t0 t) as [->|]; [|auto]. exfalso. apply (N x). now left.
Qed.
Lemma filter_from1 u x : filter (from u) [x] = if it_from x =? u then [x] else []. Proof. reflexivity. Qed.

Lemma Sem_run tr s g t s' e g' p' : Inv s g -> Sem tr s g -> t < m -> run1 m peers t s = Ok (s', e) -> eff m peers s g t s' g' e -> s_pc s' = fset (s_pc s) t p' -> blk s g t g' p' e ->
  Sem (tr ++ e) s' g'.
Proof.
  intros H Z T RU EF EP BK. destruct (run_ev m peers s t s' e RU) as (P1 & P2 & P3 & P4).
  assert (forall u, published (tr ++ e) u = published tr u) as PT by (intros u; now rewrite published_app, P1, app_nil_r).
  assert (forall u, u <> t -> todoG (s_pc s' u) = todoG (s_pc s u)) as TO by (intros u U; now rewrite EP, fset_other).
  assert (forall x, pubd (tr ++ e) x <-> pubd tr x) as PD by (intros x; unfold LdProofs5.pubd; split; intros (u & U & K); exists u; rewrite PT in *; auto).
  assert (forall i u, i < m -> u < m -> filter (goesTo peers i) (published tr u) = filter (from u) (received (tr ++ e) i ++ trans s' g' i) ++ todoG (s_pc s' u) i) as SQ.
  { intros i u I U. pose proof (z_seq _ _ _ _ _ Z i u I U) as Q. rewrite received_app. destruct EF as [e N ET EO _ _|j x J ET FX EO D1 D2 D3|x ET EO D].
    - assert (received e i = []) as -> by (destruct (P3 i) as [K|K]; [exact K|subst i; now apply received_none]). rewrite app_nil_r, (ET i I), Q. f_equal.
      destruct (Nat.eq_dec u t) as [->|NE]; [now rewrite EO|now rewrite TO].
    - cbn [received]. rewrite app_nil_r. rewrite Q. destruct (Nat.eq_dec i j) as [->|NE].
      + rewrite ET, !filter_app, filter_from1, FX. destruct (Nat.eqb_spec t u) as [<-|NU]; [rewrite D1, D2, app_nil_r; now rewrite !app_assoc|]. rewrite app_nil_r. now rewrite TO by auto.
      + rewrite (EO i I NE). f_equal. destruct (Nat.eq_dec u t) as [->|NU]; [now rewrite D3|now rewrite TO].
    - rewrite Q. f_equal; [|destruct (Nat.eq_dec u t) as [->|NU]; [now rewrite D|now rewrite TO]]. cbn. destruct (Nat.eqb_spec t i) as [<-|NE].
      + rewrite ET, <- app_assoc. reflexivity.
      + rewrite app_nil_r. now rewrite EO by auto. }
  constructor.
  - intros i u I U. rewrite PT. now apply SQ.
  - intros i x I X. assert (In x (received tr i ++ trans s g i) \/ it_from x = t) as K.
    { rewrite received_app in X. destruct EF as [e N ET EO _ _|j y J ET FX EO D1 D2 D3|y ET EO D].
      - assert (received e i = []) as K by (destruct (P3 i) as [K|K]; [exact K|subst i; now apply received_none]). rewrite K, app_nil_r, (ET i I) in X. now left.
      - cbn [received] in X. rewrite app_nil_r in X. destruct (Nat.eq_dec i j) as [->|NE]; [|rewrite (EO i I NE) in X; now left].
        rewrite ET, app_assoc in X. apply in_app_iff in X. destruct X as [X|[<-|[]]]; auto.
      - left. cbn in X. destruct (Nat.eqb_spec t i) as [<-|NE]; [rewrite ET; now rewrite <- app_assoc in X|]. rewrite app_nil_r in X. now rewrite EO in X by auto. }
    destruct K as [K| ->]; [now apply (z_from _ _ _ _ _ Z i)|exact T].
  - intros u x U. rewrite PT, P4. now apply (z_pub _ _ _ _ _ Z).
  - intros u U. rewrite PT. now apply (z_nd _ _ _ _ _ Z).
  - intros x y X Y. apply PD in X, Y. now apply (z_inj _ _ _ _ _ Z).
  - intros u b U K. rewrite PT. destruct (Nat.eq_dec u t) as [->|NE].
    + destruct (run_cur _ _ _ _ _ RU K) as (b0 & K0 & <-). now apply (z_cur _ _ _ _ _ Z).
    + rewrite EP, fset_other in K by exact NE. now apply (z_cur _ _ _ _ _ Z).
  - intros a. rewrite blocks_app, in_app_iff, (z_blk _ _ _ _ _ Z a). destruct BK as [_ BK]. specialize (BK a). split.
    + intros [[K|(u & U & K)]|K].
      * destruct (proj2 BK) as [K'|K']; [now left|now left|]. right. exists t. rewrite EP, fset_same. auto.
      * destruct (Nat.eq_dec u t) as [->|NE]; [|right; exists u; rewrite EP, fset_other by exact NE; auto].
        destruct (proj2 BK) as [K'|K']; [right; now left|now left|]. right. exists t. rewrite EP, fset_same. auto.
      * destruct (proj2 BK) as [K'|K']; [right; now right|now left|]. right. exists t. rewrite EP, fset_same. auto.
    + intros [K|(u & U & K)].
      * destruct (proj1 BK) as [K'|[K'|K']]; [now left|tauto| |tauto]. left. right. exists t. auto.
      * rewrite EP in K. destruct (Nat.eq_dec u t) as [->|NE]; [rewrite fset_same in K|rewrite fset_other in K by exact NE; left; right; eauto].
        destruct (proj1 BK) as [K'|[K'|K']]; [now right|tauto| |tauto]. left. right. exists t. auto.
  - rewrite blocks_app. destruct BK as [[->| ->] _]; [rewrite app_nil_r; apply (z_bnd _ _ _ _ _ Z)|]. apply NoDup_snoc; [apply (z_bnd _ _ _ _ _ Z)|].
    intros K. apply (z_blk _ _ _ _ _ Z) in K. assert (gO g (s_brk s) <> Nowhere) as O.
    { destruct K as [K|(u & U & K)]; [rewrite (i_bo _ _ _ _ H _ K); discriminate|]. rewrite (i_ha _ _ _ _ H u _ U); [discriminate|]. destruct (s_pc s u); cbn in *; congruence. }
    pose proof (i_own _ _ _ _ H _ O). lia.
Qed.

Lemma sum_cnt x f f' k : (forall i, i < k -> f i = f' i + (if negb (i =? it_from x) && negb (goesTo peers i x) then 1 else 0)) -> sumTo k f = sumTo k f' + cnt peers x k.
Proof.
  induction k as [|k IH]; intros E; [reflexivity|]. rewrite !sum_S, cnt_S, (E k) by lia. rewrite IH by (intros; apply E; lia). lia.
Qed.

Lemma Ref_run tr s g t s' e g' p' : Inv s g -> Sem tr s g -> Ref tr s -> t < m -> run1 m peers t s = Ok (s', e) -> eff m peers s g t s' g' e -> s_pc s' = fset (s_pc s) t p' ->
  Ref (tr ++ e) s'.
Proof.
  intros H Z R T RU EF EP. destruct (run_ev m peers s t s' e RU) as (P1 & P2 & P3 & P4). pose proof (run_ref s g t s' e H T RU) as RE.
  assert (forall u, published (tr ++ e) u = published tr u) as PT by (intros u; now rewrite published_app, P1, app_nil_r).
  assert (forall x, pubd (tr ++ e) x <-> pubd tr x) as PD by (intros x; unfold LdProofs5.pubd; split; intros (u & U & K); exists u; rewrite PT in *; auto).
  assert (forall u x, relb (tr ++ e) u x = relb tr u x) as RL by (intros u x; now rewrite relb_app, P2, orb_false_r).
  assert (forall u x, In (Rel u x) (tr ++ e) <-> In (Rel u x) tr) as RI by (intros u x; rewrite <- !relb_in; now rewrite RL).
  assert (forall u x, In x (received tr u) -> In x (received (tr ++ e) u)) as RM by (intros u x X; rewrite received_app; apply in_app_iff; now left).
  assert (forall u x, curb (s_pc s' u) x = true -> curb (s_pc s u) x = true) as CM.
  { intros u x K. destruct (Nat.eq_dec u t) as [->|NE]; [|now rewrite EP, fset_other in K]. unfold curb in K |- *. destruct (pubOf (s_pc s' t)) as [b'|] eqn:EB; [|discriminate].
    destruct (run_cur _ _ _ _ _ RU EB) as (b & -> & ->). exact K. }
  assert (forall u x, curb (s_pc s u) x = false -> curb (s_pc s' u) x = false) as CF by (intros u x K; destruct (curb (s_pc s' u) x) eqn:Q; [apply CM in Q; congruence|reflexivity]).
  assert (forall y, (forall u, curb (s_pc s' u) y = curb (s_pc s u) y) -> sumTo m (share (tr ++ e) s' y) = sumTo m (share tr s y)) as SE.
  { intros y K. apply sum_ext. intros i I. unfold LdProofs5.share. now rewrite RL, K. }
  assert (forall u x, In (Rel u x) (tr ++ e) -> u < m /\ (In x (received (tr ++ e) u) \/ In x (published (tr ++ e) u)) /\ curb (s_pc s' u) x = false) as RR.
  { intros u x X. apply RI in X. destruct (r_rel _ _ _ _ R u x X) as (U & K & C). rewrite PT. split; [exact U|]. split; [|now apply CF]. destruct K as [K|K]; auto. }
  assert (forall u x, In x (s_hold s u) -> u < m -> (In x (received (tr ++ e) u) \/ it_keep x = true /\ In x (published (tr ++ e) u)) /\ curb (s_pc s' u) x = false /\ relb (tr ++ e) u x = false) as HO.
  { intros u x X U. destruct (r_hold _ _ _ _ R u x U X) as (K1 & K2 & K3). rewrite RL, PT. split; [destruct K1 as [K1|K1]; auto|]. auto. }
  destruct RE as [e E1 E2 E3 E4 E5|b e B1 B2 B3 B4 B5 B6 B7 B8|x C1 C2 C3 C4].
  - (* nothing *)
    constructor; auto.
    + intros x X. apply PD in X. rewrite E1, SE; [now apply (r_refs _ _ _ _ R)|]. intros u. destruct (Nat.eq_dec u t) as [->|NE]; [apply E3|now rewrite EP, fset_other].
    + intros u x U X. rewrite E2 in X. auto.
    + intros u U. rewrite E2. now apply (r_hnd _ _ _ _ R).
    + intros x. rewrite deleted_app, E4, app_nil_r, E1, PD. apply (r_del _ _ _ _ R).
    + rewrite deleted_app, E4, app_nil_r. apply (r_dnd _ _ _ _ R).
  - (* publish ends *)
    set (x := p_it b) in *. assert (In x (published tr t)) as XP by now apply (z_cur _ _ _ _ _ Z). assert (pubd tr x) as XD by (exists t; auto).
    destruct (z_pub _ _ _ _ _ Z t x T XP) as [FX _].
    assert (curb (s_pc s t) x = true) as CT by (unfold curb; rewrite B1; apply eqi_refl).
    assert (p_dec b = cnt peers x m) as DC. { pose proof (i_pb _ _ _ _ H t T) as B. unfold LdProofs.pubOK in B. rewrite B1, B2 in B. apply B. }
    assert (forall y, y <> x -> forall u, curb (s_pc s' u) y = curb (s_pc s u) y) as CY.
    { intros y NE u. destruct (Nat.eq_dec u t) as [->|NU]; [|now rewrite EP, fset_other]. unfold curb. rewrite B3, B1. symmetry. apply eqi_false. auto. }
    assert (sumTo m (share tr s x) = sumTo m (share (tr ++ e) s' x) + cnt peers x m) as SX.
    { apply sum_cnt. intros i I. unfold LdProofs5.share. rewrite RL, FX, CT. unfold curb. rewrite B3. destruct (i =? t); cbn; [lia|]. destruct (goesTo peers i x); cbn; lia. }
    pose proof (r_refs _ _ _ _ R x XD) as RX.
    assert (forall y, pubd tr y -> s_refs s' (it_id y) = sumTo m (share (tr ++ e) s' y)) as RN.
    { intros y Y. rewrite B5. destruct (Nat.eqb_spec (it_id y) (it_id x)) as [EI|NI].
      - apply (z_inj _ _ _ _ _ Z y x Y XD) in EI. subst y. lia.
      - rewrite SE by (apply CY; congruence). now apply (r_refs _ _ _ _ R). }
    constructor; auto.
    + intros y Y. apply PD in Y. now apply RN.
    + intros u y U Y. rewrite B6 in Y. destruct (it_keep x) eqn:KX; [|auto]. destruct (Nat.eq_dec u t) as [->|NE]; [rewrite fset_same in Y|rewrite fset_other in Y by exact NE; auto].
      destruct Y as [<-|Y]; [|auto]. rewrite PT, RL. split; [auto|]. split; [unfold curb; now rewrite B3|]. destruct (relb tr t x) eqn:RB; [|reflexivity]. apply relb_in in RB. apply (r_rel _ _ _ _ R) in RB. destruct RB as (_ & _ & RB). congruence.
    + intros u U. rewrite B6. destruct (it_keep x) eqn:KX; [|now apply (r_hnd _ _ _ _ R)]. destruct (Nat.eq_dec u t) as [->|NE]; [rewrite fset_same|rewrite fset_other by exact NE; now apply (r_hnd _ _ _ _ R)].
      constructor; [|now apply (r_hnd _ _ _ _ R)]. intros Y. destruct (r_hold _ _ _ _ R t x T Y) as (_ & Q & _). congruence.
    + intros y. rewrite deleted_app, in_app_iff, (r_del _ _ _ _ R), PD, B5, B7. destruct (Nat.eqb_spec (p_dec b) 0) as [DZ|DZ].
      { rewrite DZ, Nat.sub_0_r. destruct (it_id y =? it_id x); cbn; tauto. }
      destruct (Nat.eqb_spec (it_id y) (it_id x)) as [EI|NI].
      * split.
        -- intros [[Y1 Y2]|Y]; [apply (z_inj _ _ _ _ _ Z y x Y1 XD) in EI; subst y; lia|]. destruct (Nat.eqb_spec (s_refs s (it_id x) - p_dec b) 0) as [Q|]; [|destruct Y]. destruct Y as [<-|[]]. auto.
        -- intros [Y1 Y2]. apply (z_inj _ _ _ _ _ Z y x Y1 XD) in EI. subst y. right. rewrite Y2. now left.
      * split; [intros [Y|Y]; [exact Y|]|now left]. destruct (_ =? 0); [destruct Y as [<-|[]]; congruence|destruct Y].
    + rewrite deleted_app, B7. destruct (Nat.eqb_spec (p_dec b) 0) as [DZ|DZ]; [rewrite app_nil_r; apply (r_dnd _ _ _ _ R)|].
      destruct (_ =? 0); [|rewrite app_nil_r; apply (r_dnd _ _ _ _ R)]. apply NoDup_snoc; [apply (r_dnd _ _ _ _ R)|]. intros K. apply (r_del _ _ _ _ R) in K. destruct K as [_ K]. lia.
  - (* receive *)
    assert (trans s g t = x :: trans s' g' t) as TX. { inversion EF as [e N _ _ _ _ EE|j y _ _ _ _ _ _ _ EE|y Q _ _ EE]; subst; [exfalso; apply (N x); now left|exact Q]. }
    assert (In x (received tr t ++ trans s g t)) as XI by (rewrite TX; apply in_app_iff; right; now left).
    destruct (sem_recv m peers tr s g t x Z T XI) as [XD XG]. pose proof (sem_nodup m peers tr s g t Z T) as ND. rewrite TX in ND. apply NoDup_remove_2 in ND. rewrite in_app_iff in ND.
    assert (~ In x (published tr t)) as NP by (intros K; destruct (z_pub _ _ _ _ _ Z t x T K) as [FX _]; unfold goesTo in XG; now rewrite FX, Nat.eqb_refl in XG).
    assert (forall y u, curb (s_pc s' u) y = curb (s_pc s u) y) as CY by (intros y u; destruct (Nat.eq_dec u t) as [->|NU]; [unfold curb; now rewrite C1, C2|now rewrite EP, fset_other]).
    constructor; auto.
    + intros y Y. apply PD in Y. rewrite C3, SE by (apply CY). now apply (r_refs _ _ _ _ R).
    + intros u y U Y. rewrite C4 in Y. destruct (Nat.eq_dec u t) as [->|NE]; [rewrite fset_same in Y|rewrite fset_other in Y by exact NE; auto]. destruct Y as [<-|Y]; [|auto].
      split; [left; rewrite received_app; apply in_app_iff; right; cbn; rewrite Nat.eqb_refl; now left|]. split; [unfold curb; now rewrite C2|].
      rewrite RL. destruct (relb tr t x) eqn:RB; [|reflexivity]. apply relb_in in RB. apply (r_rel _ _ _ _ R) in RB. tauto.
    + intros u U. rewrite C4. destruct (Nat.eq_dec u t) as [->|NE]; [rewrite fset_same|rewrite fset_other by exact NE; now apply (r_hnd _ _ _ _ R)].
      constructor; [|now apply (r_hnd _ _ _ _ R)]. intros Y. destruct (r_hold _ _ _ _ R t x T Y) as (Q & _). tauto.
    + intros y. rewrite deleted_app. cbn. rewrite app_nil_r, C3, PD. apply (r_del _ _ _ _ R).
    + rewrite deleted_app. cbn. rewrite app_nil_r. apply (r_dnd _ _ _ _ R).
Qed.
End P.
