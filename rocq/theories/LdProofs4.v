(** C51: every step succeeds; what it does to the nogoods in transit. *)
From Coq Require Import List Arith Bool Lia.
From Verif Require Import Base LdSpec LdModel LdProofs LdProofs2 LdProofs3.
Import ListNotations.

Definition optl (o : option item) : list item := match o with Some x => [x] | None => [] end.
(** The nogood that receive has taken from the queue *)
Definition inh (s : st) (p : pc) : list item :=
  match p with Po2 _ n => optl (s_data s n) | Po3 a _ | Po4 a => optl (s_data s a) | Fr0 _ x | Fr1 _ x => [x] | _ => [] end.
Definition pend (s : st) (l : list nat) : list item := flat_map (fun a => optl (s_data s a)) (tl l).
(** Nogoods on their way to thread [i] *)
Definition trans (s : st) (g : gh) (i : nat) : list item := inh s (s_pc s i) ++ pend s (gL g i).
(** The nogood that a thread at [p] has still to push to thread [i] *)
Definition todo (p : pc) (i : nat) : list item :=
  match pubOf p with Some b => if i <? (match p with Pu2 _ _ _ => S (p_i b) | _ => p_i b end) then [] else [p_it b] | None => [] end.

Lemma pend_ext s s' l : (forall a, In a (tl l) -> s_data s' a = s_data s a) -> pend s' l = pend s l.
Proof. unfold pend. intros E. induction (tl l) as [|a r IH]; cbn; [reflexivity|]. rewrite E by (now left). rewrite IH; [reflexivity|]. intros b B. apply E. now right. Qed.

Section P.
Variables (m : nat) (peers : nat -> nat -> bool).
Notation Inv := (Inv m peers).
Notation pubOK := (pubOK m peers).
Definition todoG (p : pc) (i : nat) : list item := filter (goesTo peers i) (todo p i).

Lemma in_tl {A} (x : A) l : In x (tl l) -> In x l. Proof. destruct l; cbn; auto. Qed.
(** Others see the same in transit if data of their nodes stays. *)
Lemma trans_other s g s' g' t u p' : Inv s g -> u < m -> u <> t -> s_pc s' = fset (s_pc s) t p' -> gL g' u = gL g u ->
  (forall a, gO g a = Qu u \/ gO g a = Hand u -> s_data s' a = s_data s a) -> trans s' g' u = trans s g u.
Proof.
  intros H U NE EP EL ED. unfold trans. rewrite EP, fset_other, EL by exact NE. f_equal.
  - pose proof (i_ha _ _ _ _ H u) as HA. pose proof (i_pc _ _ _ _ H u U) as C. destruct (s_pc s u) eqn:E; cbn in *; auto.
    + destruct C as ((l & C) & _). rewrite ED; [reflexivity|]. left. apply (i_qu _ _ _ _ H); [exact U|]. rewrite C. now left.
    + rewrite ED; [reflexivity|]. right. now apply HA.
    + rewrite ED; [reflexivity|]. right. now apply HA.
  - apply pend_ext. intros a A. apply ED. left. apply (i_qu _ _ _ _ H); [exact U|]. now apply in_tl.
Qed.

(** What a step of thread [t] does: nothing to the nogoods in transit; a push; a receive; receive finds nothing *)
Inductive eff (s : st) (g : gh) (t : nat) (s' : st) (g' : gh) : list ev -> Prop :=
| Same e : (forall x, ~ In (Recv t x) e) -> (forall i, i < m -> trans s' g' i = trans s g i) -> (forall i, i < m -> todoG (s_pc s' t) i = todoG (s_pc s t) i) ->
    (forall i, i < m -> In (Empty t) e -> gL g t = [s_tail s t] \/ exists a, pend2 m s (s_tail s t) a) -> (forall i, In (Empty t) e -> i = t -> trans s g i = pend s (gL g i)) ->
    eff s g t s' g' e
| Push j x : j < m -> trans s' g' j = trans s g j ++ [x] -> it_from x = t -> (forall i, i < m -> i <> j -> trans s' g' i = trans s g i) ->
    todoG (s_pc s t) j = [x] -> todoG (s_pc s' t) j = [] -> (forall i, i < m -> i <> j -> todoG (s_pc s' t) i = todoG (s_pc s t) i) -> eff s g t s' g' []
| Got x : trans s g t = x :: trans s' g' t -> (forall i, i < m -> i <> t -> trans s' g' i = trans s g i) -> todoG (s_pc s t) = todoG (s_pc s' t) -> eff s g t s' g' [Recv t x].

Lemma ok_own s g a : Inv s g -> gO g a <> Nowhere -> ok s a = true.
Proof. intros H A. pose proof (i_own _ _ _ _ H a A). unfold ok. apply andb_true_iff. split; apply Nat.ltb_lt; lia. Qed.
Lemma ok_hand s g t a : Inv s g -> t < m -> hnd (s_pc s t) = Some a -> gO g a = Hand t /\ ok s a = true.
Proof. intros H T A. pose proof (i_ha _ _ _ _ H t a T A) as O. split; [exact O|]. apply (ok_own s g); [exact H|congruence]. Qed.

(** Blocks: on the stack or in the hands of a thread *)
Definition heldB (p : pc) : option nat := match p with Bl0 _ a | Bl1 _ a _ | Bl2 _ a _ => Some a | _ => None end.
Definition blk (s : st) (g : gh) (t : nat) (g' : gh) (p' : pc) (e : list ev) : Prop :=
  (blocks e = [] \/ blocks e = [s_brk s]) /\
  forall a, (In a (gB g') \/ heldB p' = Some a) <-> (In a (gB g) \/ heldB (s_pc s t) = Some a \/ In a (blocks e)).
Ltac bk E := split; [cbn; auto|intros ?; rewrite ?E; cbn; intuition congruence].
Definition good (s : st) (g : gh) (t : nat) : Prop := exists s' e g', run1 m peers t s = Ok (s', e) /\ Inv s' g' /\ eff s g t s' g' e /\ (exists p', s_pc s' = fset (s_pc s) t p' /\ blk s g t g' p' e).

(** Steps that change no memory of queues *)
Lemma eff_quiet s g s' g' t p' e : Inv s g -> t < m -> s_pc s' = fset (s_pc s) t p' -> gL g' = gL g -> s_data s' = s_data s -> inh s' p' = inh s (s_pc s t) ->
  (forall i, i < m -> todoG p' i = todoG (s_pc s t) i) -> (forall x, ~ In (Recv t x) e) -> ~ In (Empty t) e -> eff s g t s' g' e.
Proof.
  intros H T EP EL ED EI ET N1 N2. apply Same; auto.
  - intros i I. destruct (Nat.eq_dec i t) as [->|NE]; [|eapply trans_other; eauto; [now rewrite EL|intros; now rewrite ED]].
    unfold trans. rewrite EP, fset_same, EI, EL. f_equal. apply pend_ext. intros. now rewrite ED.
  - intros i I. rewrite EP, fset_same. now apply ET.
  - tauto.
  - tauto.
Qed.
Lemma cnt_S x k : cnt peers x (S k) = cnt peers x k + (if negb (k =? it_from x) && negb (goesTo peers k x) then 1 else 0).
Proof. unfold cnt. rewrite seq_S, filter_app, app_length. cbn. destruct (negb (k =? it_from x) && negb (goesTo peers k x)); reflexivity. Qed.
Lemma todo_skip b i : ~ (i = p_i b /\ goesTo peers i (p_it b) = true) -> forall d, todoG (Loop (Pb (p_it b) (S (p_i b)) d)) i = todoG (Loop b) i.
Proof.
  intros N d. unfold todoG, todo. cbn [pubOf p_i p_it]. destruct (Nat.ltb_spec i (S (p_i b))), (Nat.ltb_spec i (p_i b)); try lia; auto.
  cbn. destruct (goesTo peers i (p_it b)) eqn:E; [|reflexivity]. exfalso. apply N. split; [lia|reflexivity].
Qed.
Lemma memR s x d s' e : release s x d = Ok (s', e) -> sameMem s s' /\ s_pc s' = s_pc s /\ s_hold s' = s_hold s /\ (e = [] \/ e = [Del x]).
Proof.
  unfold release. destruct (_ <? _); [discriminate|]. intros E. injection E as <- <-. repeat split; try reflexivity. destruct (_ =? 0); auto.
Qed.

(** The reference count is not too small for what [t] is about to give back. *)
Definition refOK (s : st) (t : nat) : Prop := match s_pc s t with Dec b => p_dec b <= s_refs s (it_id (p_it b)) | _ => True end.
Lemma run_ok s g t : Inv s g -> t < m -> s_pc s t <> Idle -> refOK s t -> good s g t.
Proof.
  intros H T NI RO. unfold good, run1. pose proof (i_pc _ _ _ _ H t T) as C. pose proof (i_pb _ _ _ _ H t T) as B. pose proof (ok_hand s g t) as OH.
  unfold LdProofs.pubOK in B. unfold refOK in RO.
  destruct (s_pc s t) as [|b|b|b n|b n nx|b n|b a|b a top|b a top|b n|b n|b n p|b| |a n|a n|a n|a|a x|a x] eqn:E; cbn [pubOf pcOK hnd] in *; try (now destruct NI).
  - (* Loop *)
    destruct B as (B1 & B2 & B3). destruct (Nat.eqb_spec (p_i b) m) as [EM|NM].
    + destruct (Nat.eqb_spec (p_dec b) 0).
      * eexists _, _, g. split; [reflexivity|]. split; [|split].
        -- apply (Inv_pc m peers s g _ t Idle); auto; try (rewrite E; discriminate); try discriminate; unfold fin; try exact I; destruct (it_keep (p_it b)); repeat split.
        -- apply (eff_quiet s g _ _ t Idle); auto; unfold fin; try (destruct (it_keep (p_it b)); reflexivity).
           ++ now rewrite E.
           ++ intros i I. rewrite E. unfold todoG, todo. cbn [pubOf]. destruct (Nat.ltb_spec i (p_i b)); [reflexivity|lia].
           ++ intros x [X|[]]; discriminate.
           ++ intros [X|[]]; discriminate.
        -- exists Idle. split; [unfold fin; destruct (it_keep (p_it b)); reflexivity|bk E].
      * eexists _, _, g. split; [reflexivity|]. split; [|split; [|eexists; split; [reflexivity|bk E]]].
        -- apply (Inv_pc m peers s g _ t (Dec b)); auto; try (rewrite E; discriminate); try discriminate; try exact I; repeat split; auto.
        -- apply (eff_quiet s g _ _ t (Dec b)); auto; rewrite E; auto.
    + assert (p_i b < m) as BL by lia. destruct (Nat.eqb_spec (p_i b) t) as [ET|NT].
      * eexists _, _, g. split; [reflexivity|]. split; [|split; [|eexists; split; [reflexivity|bk E]]].
        -- apply (Inv_pc m peers s g _ t (Loop (inc b))); auto; try (rewrite E; discriminate); try discriminate; try exact I; repeat split; auto.
           cbn [inc p_dec p_it p_i]. rewrite cnt_S, B2, ET, B1, Nat.eqb_refl. cbn. lia.
        -- apply (eff_quiet s g _ _ t (Loop (inc b))); auto; rewrite E; auto. intros i _. apply todo_skip.
           intros [-> K]. unfold goesTo in K. now rewrite B1, ET, Nat.eqb_refl in K.
      * destruct (negb (it_unit (p_it b)) && negb (peers (p_i b) t)) eqn:EG.
        -- assert (goesTo peers (p_i b) (p_it b) = false) as GF.
           { unfold goesTo. rewrite B1. apply andb_true_iff in EG. destruct EG as [G1 G2]. apply negb_true_iff in G1, G2. rewrite G1, G2. cbn. now rewrite andb_false_r. }
           eexists _, _, g. split; [reflexivity|]. split; [|split; [|eexists; split; [reflexivity|bk E]]].
           ++ apply (Inv_pc m peers s g _ t (Loop (Pb (p_it b) (S (p_i b)) (S (p_dec b))))); auto; try (rewrite E; discriminate); try discriminate; try exact I; repeat split; auto.
              cbn [inc p_dec p_it p_i]. rewrite cnt_S, B2, GF, B1. destruct (Nat.eqb_spec (p_i b) t); [congruence|]. cbn. lia.
           ++ apply (eff_quiet s g _ _ t (Loop (Pb (p_it b) (S (p_i b)) (S (p_dec b))))); auto; rewrite E; auto. intros i _. apply todo_skip. intros [-> K]. congruence.
        -- assert (goesTo peers (p_i b) (p_it b) = true) as GF.
           { unfold goesTo. rewrite B1. destruct (Nat.eqb_spec (p_i b) t); [congruence|]. cbn. destruct (it_unit (p_it b)); [reflexivity|]. cbn in EG. now destruct (peers (p_i b) t). }
           eexists _, _, g. split; [reflexivity|]. split; [|split; [|eexists; split; [reflexivity|bk E]]].
           ++ apply (Inv_pc m peers s g _ t (Al0 b)); auto; try (rewrite E; discriminate); try discriminate; try exact I; repeat split; auto.
           ++ apply (eff_quiet s g _ _ t (Al0 b)); auto; rewrite E; auto.
  - (* Al0 *)
    destruct (Nat.eqb_spec (s_free s t) 0) as [EF|NF].
    + eexists _, _, _. split; [reflexivity|]. split; [apply (Inv_new m peers s g t b H T E EF)|]. split; [|eexists; split; [reflexivity|bk E]].
      apply (eff_quiet s g _ _ t (Bl0 b (s_brk s))); auto; try (rewrite E; reflexivity); [intros x [X|[]]; discriminate|intros [X|[]]; discriminate].
    + eexists _, _, g. split; [reflexivity|]. split; [|split; [|eexists; split; [reflexivity|bk E]]].
      * apply (Inv_pc m peers s g _ t (Al1 b (s_free s t))); auto; try (rewrite E; discriminate); try discriminate; try exact I; repeat split; try tauto.
        cbn. pose proof (i_fc _ _ _ _ H t T) as K. destruct (gF g t) as [|y r]; cbn in K; [congruence|]. destruct K as (-> & _). eauto.
      * apply (eff_quiet s g _ _ t (Al1 b (s_free s t))); auto; rewrite E; auto.
  - (* Al1 *)
    destruct C as (r & C). assert (gO g n = Free t) as O by (apply (i_fo _ _ _ _ H t n T); rewrite C; now left). unfold at_. rewrite (ok_own s g n H) by congruence.
    eexists _, _, g. split; [reflexivity|]. split; [|split; [|eexists; split; [reflexivity|bk E]]].
    + apply (Inv_pc m peers s g _ t (Al2 b n (s_next s n))); auto; try (rewrite E; discriminate); try discriminate; try exact I; repeat split; try tauto.
      cbn. exists r. split; [exact C|]. pose proof (i_fc _ _ _ _ H t T) as K. rewrite C in K. apply K.
    + apply (eff_quiet s g _ _ t (Al2 b n (s_next s n))); auto; rewrite E; auto.
  - (* Al2 *)
    destruct (Inv_take m peers s g t b n nx H T E) as (r & C1 & IN).
    eexists _, _, _. split; [reflexivity|]. split; [exact IN|]. split; [|eexists; split; [reflexivity|bk E]].
    apply (eff_quiet s g _ _ t (Al3 b n)); auto; rewrite E; auto.
  - (* Al3 *)
    destruct (OH n H T eq_refl) as [O OKn]. unfold at_. rewrite OKn. eexists _, _, g. split; [reflexivity|].
    assert (forall a, a <> n -> fset (s_data s) n (Some (p_it b)) a = s_data s a) as DN by (intros a A; now rewrite fset_other).
    split; [|split; [|eexists; split; [reflexivity|bk E]]].
    + apply (Inv_hand m peers s g _ t (Pu0 b n) n); auto; try (rewrite E; discriminate); try (rewrite E; reflexivity). cbn. now rewrite fset_same.
    + apply Same; auto.
      * intros i I. destruct (Nat.eq_dec i t) as [->|NE].
        -- unfold trans. cbn. rewrite fset_same, E. cbn. apply pend_ext. intros a A. cbn. apply DN. intros ->. pose proof (i_qu _ _ _ _ H t n T (in_tl _ _ A)). congruence.
        -- eapply trans_other; [exact H|exact I|first [exact N'|exact NE]|reflexivity|auto..]. intros a A. cbn. apply DN. intros ->. destruct A; congruence.
      * intros i I. cbn. rewrite fset_same, E. reflexivity.
      * intros i I [].
      * intros i [].
  - (* Bl0 *)
    destruct (OH a H T eq_refl) as [O OKn]. eexists _, _, g. split; [reflexivity|]. split; [|split; [|eexists; split; [reflexivity|bk E]]].
    + apply (Inv_pc m peers s g _ t (Bl1 b a (s_top s))); auto; try (rewrite E; discriminate); try discriminate; try exact I; repeat split; try tauto. cbn. congruence.
    + apply (eff_quiet s g _ _ t (Bl1 b a (s_top s))); auto; rewrite E; auto.
  - (* Bl1 *)
    destruct (OH a H T eq_refl) as [O OKn]. unfold at_. rewrite OKn. eexists _, _, g. split; [reflexivity|]. split; [|split; [|eexists; split; [reflexivity|bk E]]].
    + apply (Inv_hand m peers s g _ t (Bl2 b a top) a); auto; try (rewrite E; discriminate); try (rewrite E; reflexivity); [intros x X; cbn; now rewrite fset_other|cbn; now rewrite fset_same].
    + apply (eff_quiet s g _ _ t (Bl2 b a top)); auto; rewrite E; auto.
  - (* Bl2 *)
    destruct (OH a H T eq_refl) as [O OKn]. destruct (Nat.eqb_spec (s_top s) top) as [ET|NT].
    + eexists _, _, _. split; [reflexivity|]. split; [apply (Inv_block m peers s g t b a top H T E ET)|]. split; [|eexists; split; [reflexivity|bk E]].
      apply (eff_quiet s g _ _ t (Al0 b)); auto; rewrite E; auto.
    + eexists _, _, g. split; [reflexivity|]. split; [|split; [|eexists; split; [reflexivity|bk E]]].
      * apply (Inv_pc m peers s g _ t (Bl0 b a)); auto; try (rewrite E; discriminate); try discriminate; try exact I; repeat split; try tauto. cbn. congruence.
      * apply (eff_quiet s g _ _ t (Bl0 b a)); auto; rewrite E; auto.
  - (* Pu0 *)
    destruct (OH n H T eq_refl) as [O OKn]. unfold at_. rewrite OKn. eexists _, _, g. split; [reflexivity|]. split; [|split; [|eexists; split; [reflexivity|bk E]]].
    + apply (Inv_hand m peers s g _ t (Pu1 b n) n); auto; try (rewrite E; discriminate); try (rewrite E; reflexivity); [intros x X; cbn; now rewrite fset_other|cbn; now rewrite fset_same].
    + apply (eff_quiet s g _ _ t (Pu1 b n)); auto; rewrite E; auto.
  - (* Pu1 *)
    destruct (OH n H T eq_refl) as [O OKn]. destruct B as (B1 & B2 & B3 & B4). destruct C as [C1 C2].
    eexists _, _, _. split; [reflexivity|]. split; [apply (Inv_push m peers s g t b n H T E)|]. split; [|eexists; split; [reflexivity|bk E]].
    assert (p_i b <> t) as NT by (unfold goesTo in B4; rewrite B1 in B4; destruct (Nat.eqb_spec (p_i b) t); [discriminate|assumption]).
    apply (Push _ _ _ _ _ (p_i b) (p_it b)); auto.
    + unfold trans. cbn. rewrite fset_other by exact NT. rewrite fset_same. destruct (i_hd _ _ _ _ H (p_i b) B3) as (l & HL). rewrite HL.
      change (inh (goto (w_head s (p_i b) n) t (Pu2 b n (s_head s (p_i b)))) (s_pc s (p_i b))) with (inh s (s_pc s (p_i b))). rewrite <- app_assoc. f_equal.
      unfold pend. cbn. rewrite flat_map_app. cbn. now rewrite C1.
    + intros i I NE. destruct (Nat.eq_dec i t) as [->|N'].
      * unfold trans. cbn. rewrite fset_same, E, fset_other by exact NE. reflexivity.
      * eapply trans_other; [exact H|exact I|first [exact N'|exact NE]|reflexivity|auto..]. cbn. now rewrite fset_other.
    + rewrite E. unfold todoG, todo. cbn [pubOf]. rewrite Nat.ltb_irrefl. cbn. now rewrite B4.
    + cbn. rewrite fset_same. unfold todoG, todo. cbn [pubOf]. destruct (Nat.ltb_spec (p_i b) (S (p_i b))); [reflexivity|lia].
    + intros i I NE. cbn. rewrite fset_same, E. unfold todoG, todo. cbn [pubOf]. destruct (Nat.ltb_spec i (S (p_i b))), (Nat.ltb_spec i (p_i b)); try lia; reflexivity.
  - (* Pu2 *)
    destruct C as ((l1 & l2 & C1) & C2 & C3). destruct B as (B1 & B2 & B3 & B4).
    unfold at_. rewrite (ok_own s g p H) by (rewrite (i_qu _ _ _ _ H (p_i b) p B3); [discriminate|rewrite C1; apply in_app_iff; right; now left]).
    eexists _, _, g. split; [reflexivity|]. split; [apply (Inv_link m peers s g t b n p H T E)|]. split; [|eexists; split; [reflexivity|bk E]].
    apply (eff_quiet s g _ _ t (Loop (inc b))); auto; rewrite E; auto.
  - (* Dec *)
    destruct B as (B1 & B2 & B3). destruct (release s (p_it b) (p_dec b)) as [[s1 e1]| |] eqn:ER; [|unfold release in ER; destruct (Nat.ltb_spec (s_refs s (it_id (p_it b))) (p_dec b)); [lia|discriminate]..].
    cbn [bind]. destruct (memR _ _ _ _ _ ER) as (SM & EP & EH & EE). assert (sameMem s (fin s1 t (p_it b)) /\ s_pc (fin s1 t (p_it b)) = fset (s_pc s) t Idle) as [SM' EP'].
    { unfold fin. destruct (it_keep (p_it b)); cbn; rewrite EP; split; auto. }
    eexists _, _, g. split; [reflexivity|]. split; [|split; [|eexists; split; [exact EP'|destruct EE as [->| ->]; bk E]]].
    + apply (Inv_pc m peers s g _ t Idle); auto; try (rewrite E; discriminate); try discriminate; exact I.
    + apply (eff_quiet s g _ _ t Idle); auto; try apply SM'; try (now rewrite E).
      * intros i I. rewrite E. unfold todoG, todo. cbn [pubOf]. destruct (Nat.ltb_spec i (p_i b)); [reflexivity|lia].
      * intros x X. apply in_app_iff in X. destruct X as [X|[X|[]]]; [|discriminate]. destruct EE as [->| ->]; [destruct X|destruct X as [X|[]]; discriminate].
      * intros X. apply in_app_iff in X. destruct X as [X|[X|[]]]; [|discriminate]. destruct EE as [->| ->]; [destruct X|destruct X as [X|[]]; discriminate].
  - (* Po0 *)
    destruct (i_hd _ _ _ _ H t T) as (l & HL). pose proof (i_lk _ _ _ _ H t T) as K. rewrite HL in K.
    unfold at_. rewrite (ok_own s g _ H) by (rewrite (i_qu _ _ _ _ H t _ T); [discriminate|rewrite HL; now left]).
    destruct (Nat.eqb_spec (s_next s (s_tail s t)) 0) as [EZ|NZ].
    + eexists _, _, g. split; [reflexivity|]. split; [|split; [|eexists; split; [reflexivity|bk E]]].
      * apply (Inv_pc m peers s g _ t Idle); auto; try (rewrite E; discriminate); try discriminate; try exact I; repeat split.
      * apply Same.
        -- intros x [X|[]]; discriminate.
        -- intros i I. destruct (Nat.eq_dec i t) as [->|NE]; [unfold trans; cbn; now rewrite fset_same, E|]. eapply trans_other; [exact H|exact I|first [exact N'|exact NE]|reflexivity|auto..].
        -- intros i I. cbn. now rewrite fset_same, E.
        -- intros i I _. destruct l as [|y l]; [now left|]. right. cbn in K. destruct K as [[K|[_ K]] _]; [|eauto]. exfalso. pose proof (in_L_ok m peers s g t y H T) as L0. rewrite HL in L0. specialize (L0 ltac:(right; now left)). lia.
        -- intros i _ ->. unfold trans. now rewrite E.
    + eexists _, _, g. split; [reflexivity|]. split; [|split; [|eexists; split; [reflexivity|bk E]]].
      * apply (Inv_pc m peers s g _ t (Po1 (s_tail s t) (s_next s (s_tail s t)))); auto; try (rewrite E; discriminate); try discriminate; try exact I; repeat split.
        cbn. destruct l as [|y l]; cbn in K; [congruence|]. destruct K as [[K|[K _]] _]; [|congruence]. exists l. now rewrite K.
      * apply (eff_quiet s g _ _ t (Po1 (s_tail s t) (s_next s (s_tail s t)))); auto; rewrite E; auto.
  - (* Po1 *)
    destruct (Inv_pop m peers s g t a n H T E) as (l & HL & IN). eexists _, _, _. split; [reflexivity|]. split; [exact IN|]. split; [|eexists; split; [reflexivity|bk E]].
    apply Same; auto.
    + intros i I. destruct (Nat.eq_dec i t) as [->|NE].
      * unfold trans. cbn. rewrite !fset_same, E, HL. reflexivity.
      * eapply trans_other; [exact H|exact I|first [exact N'|exact NE]|reflexivity|auto..]. cbn. now rewrite fset_other.
    + intros i I. cbn. now rewrite fset_same, E.
    + intros i I [].
    + intros i [].
  - (* Po2 *)
    destruct (OH a H T eq_refl) as [O OKn]. destruct C as ((l & HL) & DN). assert (gO g n = Qu t) as On by (apply (i_qu _ _ _ _ H); [exact T|rewrite HL; now left]).
    rewrite OKn, (ok_own s g n H) by congruence. cbn [andb]. eexists _, _, g. split; [reflexivity|].
    assert (forall y, y <> a -> fset (s_data s) a (s_data s n) y = s_data s y) as DD by (intros y Y; now rewrite fset_other).
    split; [|split; [|eexists; split; [reflexivity|bk E]]].
    + apply (Inv_hand m peers s g _ t (Po3 a n) a); auto; try (rewrite E; discriminate); try (rewrite E; reflexivity). cbn. rewrite fset_same. eauto.
    + apply Same; auto.
      * intros i I. destruct (Nat.eq_dec i t) as [->|NE].
        -- unfold trans. cbn. rewrite fset_same, E. cbn. rewrite fset_same. f_equal. apply pend_ext. intros y A. cbn. apply DD. intros ->. pose proof (i_qu _ _ _ _ H t a T (in_tl _ _ A)). congruence.
        -- eapply trans_other; [exact H|exact I|first [exact N'|exact NE]|reflexivity|auto..]. intros y A. cbn. apply DD. intros ->. destruct A; congruence.
      * intros i I. cbn. now rewrite fset_same, E.
      * intros i I [].
      * intros i [].
  - (* Po3 *)
    destruct (OH a H T eq_refl) as [O OKn]. destruct C as ((l & HL) & DN). assert (gO g n = Qu t) as On by (apply (i_qu _ _ _ _ H); [exact T|rewrite HL; now left]).
    unfold at_. rewrite (ok_own s g n H) by congruence. eexists _, _, g. split; [reflexivity|].
    assert (forall y, y <> n -> fset (s_data s) n None y = s_data s y) as DD by (intros y Y; now rewrite fset_other).
    assert (a <> n) as AN by congruence. pose proof (i_nd _ _ _ _ H t T) as ND. rewrite HL in ND. inversion_clear ND as [|? ? N1 N2].
    split; [|split; [|eexists; split; [reflexivity|bk E]]].
    + apply (Inv_own m peers s g _ g t (Po4 a)); auto; try (rewrite E; discriminate); try congruence.
      * intros y Y1 Y2. destruct (Nat.eq_dec y n) as [->|NE]; [right; exists l, a; auto|]. left. cbn. now apply DD.
      * now apply (i_fc _ _ _ _ H).
      * now apply (i_fn _ _ _ _ H).
      * intros y. now apply (i_fo _ _ _ _ H).
      * now apply (i_bc _ _ _ _ H).
      * now apply (i_bn _ _ _ _ H).
      * now apply (i_bo _ _ _ _ H).
      * cbn. congruence.
      * cbn. now rewrite DD.
    + apply Same; auto.
      * intros i I. destruct (Nat.eq_dec i t) as [->|NE].
        -- unfold trans. cbn. rewrite fset_same, E. cbn. rewrite DD by exact AN. f_equal. apply pend_ext. intros y A. cbn. apply DD. rewrite HL in A. cbn in A. congruence.
        -- eapply trans_other; [exact H|exact I|first [exact N'|exact NE]|reflexivity|auto..]. intros y A. cbn. apply DD. intros ->. destruct A; congruence.
      * intros i I. cbn. now rewrite fset_same, E.
      * intros i I [].
      * intros i [].
  - (* Po4 *)
    destruct (OH a H T eq_refl) as [O OKn]. rewrite OKn. destruct (s_data s a) as [x|] eqn:ED; [|congruence]. eexists _, _, g. split; [reflexivity|]. split; [|split; [|eexists; split; [reflexivity|bk E]]].
    + apply (Inv_pc m peers s g _ t (Fr0 a x)); auto; try (rewrite E; discriminate); try discriminate; try exact I; repeat split. cbn. congruence.
    + apply (eff_quiet s g _ _ t (Fr0 a x)); auto; rewrite E; auto. cbn. now rewrite ED.
  - (* Fr0 *)
    destruct (OH a H T eq_refl) as [O OKn]. destruct (Nat.eqb_spec a (S t)) as [ES|NS].
    + eexists _, _, _. split; [reflexivity|]. split; [eapply (Inv_sent m peers s g _ t a x H T E); [repeat split|reflexivity]|]. split; [|eexists; split; [reflexivity|bk E]].
      apply Got.
      * unfold trans. cbn. rewrite fset_same, E. reflexivity.
      * intros i I NE. eapply trans_other; [exact H|exact I|first [exact N'|exact NE]|reflexivity|auto..].
      * cbn. now rewrite fset_same, E.
    + unfold at_. rewrite OKn. eexists _, _, g. split; [reflexivity|]. split; [|split; [|eexists; split; [reflexivity|bk E]]].
      * apply (Inv_hand m peers s g _ t (Fr1 a x) a); auto; try (rewrite E; discriminate); try (rewrite E; reflexivity); [intros y Y; cbn; now rewrite fset_other|cbn; now rewrite fset_same].
      * apply (eff_quiet s g _ _ t (Fr1 a x)); auto; rewrite E; auto.
  - (* Fr1 *)
    eexists _, _, _. split; [reflexivity|]. split; [eapply (Inv_put m peers s g _ t a x H T E); [repeat split|reflexivity]|]. split; [|eexists; split; [reflexivity|bk E]].
    apply Got.
    + unfold trans. cbn. rewrite fset_same, E. reflexivity.
    + intros i I NE. eapply trans_other; [exact H|exact I|first [exact N'|exact NE]|reflexivity|auto..].
    + cbn. now rewrite fset_same, E.
Qed.
End P.
