(** Invariant of enumeration by backtracking. *)
From Coq Require Import List Bool Arith ZArith Lia.
Import ListNotations.
From Verif Require Import Base ClModel EnModel EnSpec BkModel BkSpec.

Lemma in_firstn {T} (l : list T) k x : In x (firstn k l) -> In x l.
Proof. revert l. induction k as [|k IH]; intros [|y l]; cbn; try easy. intros [->|H]; auto. Qed.
Lemma in_firstn_le {T} (l : list T) k k' x : k <= k' -> In x (firstn k l) -> In x (firstn k' l).
Proof. intros L H. replace k with (min k k') in H by lia. rewrite <- firstn_firstn in H. now apply in_firstn in H. Qed.
Lemma existsb_lit p l : existsb (lit_eqb p) l = true <-> In p l.
Proof. rewrite existsb_exists. split; [intros (x & I & E); apply lit_eqb_eq in E; now subst|intros I; exists p; split; auto using lit_eqb_refl]. Qed.
Lemma filter_filter_le (l : list (lit * nat * bool)) k K : k <= K -> filter (fun e => snd (fst e) <=? k) (filter (fun e => snd (fst e) <=? K) l) = filter (fun e => snd (fst e) <=? k) l.
Proof. intros L. induction l as [|e l IH]; cbn; auto. destruct (snd (fst e) <=? K) eqn:E; cbn; [now rewrite IH|]. rewrite IH. apply Nat.leb_gt in E. destruct (Nat.leb_spec (snd (fst e)) k); [lia|auto]. Qed.
Lemma nth_firstn {T} (l : list T) i k d : i < k -> nth i (firstn k l) d = nth i l d.
Proof. revert l k. induction i as [|i IH]; intros [|x l] [|k] L; cbn; auto; try lia. apply IH. lia. Qed.

Section Inv.
Variables (n : nat) (F : list clause) (proj : option (nat -> bool)) (step : lit) (As : list lit).
Definition P' (v : nat) : bool := match proj with None => true | Some P => P v end.
Notation cov := (covers n (modeB proj)).
Lemma cov_iff m M : cov m M <-> forall v, 1 <= v <= n -> P' v = true -> m v = M v.
Proof. unfold modeB, P'. destruct proj as [P|]; cbn; [tauto|]. split; intros H v V; auto. Qed.
(** models not yet reported *)
Definition U (s : bst) (M : asg) : Prop := isModelB F As M /\ forall m, In m (rep s) -> ~ cov m M.
Definition sats (M : asg) (l : list lit) : Prop := forall p, In p l -> holds M p = true.
Definition pv (p : lit) : Prop := 1 <= fst p <= n /\ P' (fst p) = true.
Definition litOf (m : asg) (v : nat) : lit := if m v then pos v else ngt v.
Definition nogoodOf (m : asg) : clause := match proj with None => [] | Some P => map (fun v => neg (litOf m v)) (filter P (seq 1 n)) ++ [neg step] end.
(** [m] cannot be met again below level [k] *)
Definition sep (s : bst) (k : nat) (m : asg) : Prop :=
  (exists p, In p (lits s k) /\ pv p /\ holds m p = false)
  \/ (exists x j, In (x, nogoodOf m) (pn s) /\ 1 <= j <= k /\ j <= dl s /\ decAt s j = neg x).

Record J (s : bst) : Prop := {
  j_root : root s <= flip s <= dl s;
  j_as : firstn (root s) (dec s) = As;
  j_lev : forall e, In e (imp s) -> snd (fst e) <= dl s;
  j_cons : forall p, tr s p = true -> tr s (neg p) = true -> False;
  j_true : exists b, In (pos 0, 0, b) (imp s);
  j_step : In step (lits s (root s));
  j_range : forall k, root s < k <= dl s -> 1 <= fst (decAt s k) <= n;
  j_lrn : forall M c, U s M -> In c (lrn s) -> sat_clause M c = true;
  j_pn : forall x c, In (x, c) (pn s) -> proj <> None /\ exists m, In m (rep s) /\ c = nogoodOf m;
  j_sem : forall M k, U s M -> k <= dl s -> sats M (firstn k (dec s)) -> sats M (lits s k);
  j_mode : bmode s <= 2 /\ (proj = None -> bmode s <= 1) /\ (proj <> None -> rep s = [] \/ bmode s = 2);
  j_pd : rep s <> [] -> forall k, root s < k <= flip s -> P' (fst (decAt s k)) = true;
  j_left : forall m k, In m (rep s) -> root s < k <= flip s -> sep s (k - 1) m \/ holds m (decAt s k) = true;
  j_cfl : cfl s = true -> forall M, U s M -> ~ sats M (dec s)
}.
Definition sepAll (s : bst) : Prop := forall m, In m (rep s) -> sep s (flip s) m.
Definition Dead (s : bst) : Prop := forall M, U s M -> ~ sats M (dec s).

Lemma in_lits s k p : In p (lits s k) <-> In p (firstn k (dec s)) \/ exists j b, In (p, j, b) (imp s) /\ j <= k.
Proof.
  unfold lits. rewrite in_app_iff, in_map_iff. split; (intros [H|H]; [now left|right]).
  - destruct H as ([[q j] b] & E & I). cbn in E. subst q. apply filter_In in I as [I L]. apply Nat.leb_le in L. eauto.
  - destruct H as (j & b & I & L). exists (p, j, b). split; auto. apply filter_In. split; auto. now apply Nat.leb_le.
Qed.
Lemma lits_mono s k k' p : k <= k' -> In p (lits s k) -> In p (lits s k').
Proof. intros L. rewrite !in_lits. intros [H|(j & b & I & X)]; [left; now apply in_firstn_le with k|right; exists j, b; split; auto; lia]. Qed.
Lemma tr_in s p : tr s p = true <-> In p (lits s (dl s)).
Proof. apply existsb_lit. Qed.
Lemma tr_lits s k p : k <= dl s -> In p (lits s k) -> tr s p = true.
Proof. intros L H. apply tr_in. now apply lits_mono with k. Qed.
Lemma dec_tr s p : In p (dec s) -> tr s p = true.
Proof. intros H. apply tr_in, in_lits. left. unfold dl. now rewrite firstn_all. Qed.
Lemma sem_all s M : J s -> U s M -> sats M (dec s) -> forall p, tr s p = true -> holds M p = true.
Proof. intros HJ HU H p T. apply tr_in in T. apply (j_sem s HJ M (dl s)); auto. unfold dl. now rewrite firstn_all. Qed.
Lemma cfl_false s : (cfl s = true -> False) -> cfl s = false.
Proof. destruct (cfl s); auto. intros H. exfalso. auto. Qed.
Lemma decAt_in s k : 1 <= k <= dl s -> In (decAt s k) (firstn k (dec s)).
Proof. intros L. unfold decAt. rewrite <- (nth_firstn (dec s) (k - 1) k) by lia. apply nth_In. rewrite firstn_length. unfold dl in L. lia. Qed.
Lemma sep_mono s s' k k' m : (forall p, In p (lits s k) -> In p (lits s' k')) -> (forall e, In e (pn s) -> In e (pn s')) -> (forall j, 1 <= j <= k -> j <= dl s -> j <= k' /\ j <= dl s' /\ decAt s' j = decAt s j) -> sep s k m -> sep s' k' m.
Proof.
  intros H1 H2 H3 [(p & I & V & E)|(x & j & I & L & D & E)]; [left; exists p; auto|right]. destruct (H3 j L D) as (X & Y & Z). exists x, j. split; [auto|]. split; [lia|]. split; [auto|]. now rewrite Z.
Qed.
Lemma sep_le s k k' m : k <= k' -> sep s k m -> sep s k' m.
Proof. intros L. apply sep_mono; auto. - intros p. now apply lits_mono. - intros j Lj Dj. split; [lia|auto]. Qed.

(** every unreported model satisfies all clauses *)
Lemma litOf_holds m v : holds m (litOf m v) = true.
Proof. unfold litOf, holds. destruct (m v) eqn:E; cbn; now rewrite E. Qed.
Lemma litOf_val m M v : holds M (litOf m v) = true <-> m v = M v.
Proof. unfold litOf, holds. destruct (m v); cbn; destruct (M v); cbn; split; intros H; auto; discriminate H. Qed.
Lemma nogood_sat s M m : U s M -> In m (rep s) -> proj <> None -> sat_clause M (nogoodOf m) = true.
Proof.
  intros [HM HU] Im Hp. destruct (sat_clause M (nogoodOf m)) eqn:E; auto. exfalso. apply (HU m Im). apply cov_iff. intros v V W.
  unfold sat_clause in E. unfold nogoodOf in E. unfold P' in W. destruct proj as [Q|]; [|congruence].
  rewrite existsb_app in E. apply orb_false_iff in E as [E _]. apply litOf_val.
  destruct (holds M (litOf m v)) eqn:X; auto. exfalso. assert (existsb (holds M) (map (fun v => neg (litOf m v)) (filter Q (seq 1 n))) = true); [|congruence].
  apply existsb_exists. exists (neg (litOf m v)). split; [|now rewrite holds_neg, X]. apply in_map_iff. exists v. split; auto. apply filter_In. split; auto. apply in_seq. lia.
Qed.
Lemma clauses_sat s M c : J s -> U s M -> In c (clauses F s) -> sat_clause M c = true.
Proof.
  intros HJ HU I. unfold clauses in I. apply in_app_or in I as [I|I]; [|apply in_app_or in I as [I|I]].
  - destruct HU as [(_ & H & _) _]. unfold sat_cnf in H. rewrite forallb_forall in H. auto.
  - now apply (j_lrn s HJ).
  - apply in_map_iff in I as ([x c'] & E & I). cbn in E. subst c'. destruct (j_pn s HJ x c I) as (Hp & m & Im & ->). now apply (nogood_sat s).
Qed.
(** a unit literal holds in every assignment that satisfies the clauses and the true literals *)
Lemma unit_holds s M p : unit F s p = true -> (forall c, In c (clauses F s) -> sat_clause M c = true) -> (forall q, tr s q = true -> holds M q = true) -> holds M p = true.
Proof.
  intros H HC HT. unfold unit in H. apply existsb_exists in H as (c & Ic & E). apply andb_true_iff in E as [_ E]. rewrite forallb_forall in E.
  specialize (HC c Ic). apply existsb_exists in HC as (q & Iq & Eq). specialize (E q Iq). apply orb_true_iff in E as [E|E]; [apply lit_eqb_eq in E; now subst|].
  unfold fl in E. apply HT in E. rewrite holds_neg, Eq in E. discriminate.
Qed.
Lemma unit_sound s p M : J s -> unit F s p = true -> U s M -> sats M (dec s) -> holds M p = true.
Proof. intros HJ Hu HU H. apply (unit_holds s M p Hu); [intros c; now apply clauses_sat|now apply sem_all]. Qed.
Lemma base_sat s M : J s -> U s M -> sat_cnf M (base F s) = true.
Proof.
  intros HJ HU. apply forallb_forall. intros c I. unfold base in I. apply in_app_or in I as [I|I]; [now apply (clauses_sat s)|].
  apply in_map_iff in I as ([[p k] b] & <- & I). apply filter_In in I as [I _]. unfold finderReason. cbn [fst snd]. pose proof (j_lev s HJ _ I) as L. cbn in L.
  destruct (sat_clause M (p :: map neg (firstn k (dec s)))) eqn:E; auto. exfalso. cbn in E. apply orb_false_iff in E as [E1 E2].
  assert (holds M p = true); [|congruence]. apply (j_sem s HJ M k HU L); [|apply in_lits; right; eauto].
  intros q Iq. destruct (holds M q) eqn:X; auto. exfalso. assert (existsb (holds M) (map neg (firstn k (dec s))) = true); [|congruence].
  apply existsb_exists. exists (neg q). split; [now apply in_map|]. now rewrite holds_neg, X.
Qed.

(** ** operations *)
Lemma force_cases s p b : (force s p b = s /\ tr s p = true) \/ (force s p b = setCfl s true /\ tr s p = false /\ fl s p = true) \/ (force s p b = setImp s ((p, dl s, b) :: imp s) /\ tr s p = false /\ fl s p = false).
Proof. unfold force. destruct (tr s p); auto. destruct (fl s p); auto. Qed.
Lemma lits_force s p b k q : In q (lits s k) -> In q (lits (force s p b) k).
Proof. destruct (force_cases s p b) as [[-> _]|[(-> & _)|(-> & _)]]; auto. rewrite !in_lits. cbn [setImp dec imp]. intros [H|(j & b' & I & L)]; [now left|right; exists j, b'; split; auto; now right]. Qed.
Lemma lits_new s p b k : k < dl s -> lits (setImp s ((p, dl s, b) :: imp s)) k = lits s k.
Proof. intros L. unfold lits. cbn [setImp dec imp filter]. cbn [fst snd]. destruct (Nat.leb_spec (dl s) k); [lia|auto]. Qed.
Lemma tr_new s p b q : tr (setImp s ((p, dl s, b) :: imp s)) q = true <-> q = p \/ tr s q = true.
Proof.
  rewrite !tr_in, !in_lits. cbn [setImp dec imp]. unfold dl. cbn [setImp dec]. split.
  - intros [H|(j & b' & [E|I] & L)]; auto; [injection E as -> _ _; auto|right; right; eauto].
  - intros [->|[H|(j & b' & I & L)]]; auto; right; [exists (length (dec s)), b; split; [now left|auto]|exists j, b'; split; [now right|auto]].
Qed.
Lemma force_J s p b : J s -> (forall M, U s M -> sats M (dec s) -> holds M p = true) -> J (force s p b).
Proof.
  intros HJ HS. destruct (force_cases s p b) as [[-> _]|[(-> & _ & E)|(-> & T & E)]]; auto.
  - destruct HJ as [A1 A2 A3 A4 A5 A6 A7 A8 A9 A10 A11 A12 A13 A14]. constructor; auto. cbn. intros _ M HU H. unfold fl in E.
    assert (HJ : J s) by (constructor; auto). apply (sem_all s M HJ HU H) in E. rewrite holds_neg, (HS M HU H) in E. discriminate.
  - set (s' := setImp s ((p, dl s, b) :: imp s)). pose proof HJ as [A1 A2 A3 A4 A5 A6 A7 A8 A9 A10 A11 A12 A13 A14].
    assert (LM : forall k q, In q (lits s k) -> In q (lits s' k)) by (intros k q; pose proof (lits_force s p b k q) as H; destruct (force_cases s p b) as [[X Y]|[(X & Y & Z)|(X & _)]]; [congruence|congruence|now rewrite X in H]).
    constructor; auto.
    + intros e [<-|I]; [cbn; auto|now apply A3].
    + intros q X Y. apply tr_new in X, Y. unfold fl in E. destruct X as [->|X], Y as [Y|Y].
      * now apply neg_neq in Y.
      * congruence.
      * subst p. rewrite neg_neg in E. congruence.
      * eauto.
    + destruct A5 as (b' & I). exists b'. now right.
    + intros M k HU L H q Iq. change (U s M) in HU. change (dl s') with (dl s) in L. change (dec s') with (dec s) in H. destruct (Nat.eq_dec k (dl s)) as [->|N].
      * assert (T' : tr s' q = true) by (apply tr_in; exact Iq). apply tr_new in T' as [->|T']; [apply HS; auto|apply (sem_all s M); auto]; unfold dl in H; now rewrite firstn_all in H.
      * unfold s' in Iq. rewrite lits_new in Iq by lia. now apply (A10 M k).
    + intros m k Im L. destruct (A13 m k Im L) as [X|X]; [left|now right]. revert X. apply sep_mono; auto. intros j Lj Dj. split; [lia|auto].
Qed.
Lemma force_sepAll s p b : sepAll s -> sepAll (force s p b).
Proof.
  intros H m I. assert (X : rep (force s p b) = rep s /\ flip (force s p b) = flip s /\ dl (force s p b) = dl s /\ dec (force s p b) = dec s /\ pn (force s p b) = pn s) by (destruct (force_cases s p b) as [[-> _]|[(-> & _)|(-> & _)]]; auto).
  destruct X as (X1 & X2 & X3 & X4 & X5). rewrite X1 in I. rewrite X2. specialize (H m I). revert H. apply sep_mono; [intros q; apply lits_force|now rewrite X5|]. intros j Lj Dj. unfold decAt. rewrite X3, X4. split; [lia|auto].
Qed.
Definition same (s s' : bst) : Prop := dec s' = dec s /\ root s' = root s /\ flip s' = flip s /\ bmode s' = bmode s /\ lrn s' = lrn s /\ pn s' = pn s /\ rep s' = rep s.
Lemma same_refl s : same s s. Proof. unfold same. auto 10. Qed.
Lemma same_trans s s1 s2 : same s s1 -> same s1 s2 -> same s s2.
Proof. unfold same. intros (A1 & A2 & A3 & A4 & A5 & A6 & A7) (B1 & B2 & B3 & B4 & B5 & B6 & B7). repeat split; congruence. Qed.
Lemma force_same s p b : same s (force s p b).
Proof. destruct (force_cases s p b) as [[-> _]|[(-> & _)|(-> & _)]]; unfold same; auto 10. Qed.
Lemma reimply_ind (Q : bst -> Prop) : (forall s p, Q s -> cfl s = false -> unit F s p = true -> Q (force s p false)) -> forall ps s, Q s -> Q (reimply F s ps).
Proof.
  intros H ps. induction ps as [|p ps IH]; intros s HQ; cbn; auto. apply IH. destruct (cfl s) eqn:E; cbn [negb andb]; auto. destruct (unit F s p) eqn:X; auto.
Qed.
Lemma reimply_J ps s : J s -> J (reimply F s ps).
Proof. apply reimply_ind. intros s0 p HJ _ Hu. apply force_J; auto. intros M. now apply unit_sound. Qed.
Lemma reimply_same ps s : same s (reimply F s ps).
Proof. apply (reimply_ind (same s)); auto using same_refl. intros s0 p H _ _. eapply same_trans; eauto using force_same. Qed.
Lemma reimply_lits ps s k q : In q (lits s k) -> In q (lits (reimply F s ps) k).
Proof. intros H. apply (reimply_ind (fun s' => In q (lits s' k))); auto. intros s0 p X _ _. now apply lits_force. Qed.
Lemma reimply_sepAll ps s : sepAll s -> sepAll (reimply F s ps).
Proof. intros H. apply (reimply_ind sepAll); auto. intros. now apply force_sepAll. Qed.

(** changing the backtrack level *)
Lemma setFlip_J s f m : J s -> root s <= f <= dl s -> m <= 2 -> (proj = None -> m <= 1) -> (proj <> None -> rep s = [] \/ m = 2) ->
  (rep s <> [] -> forall k, root s < k <= f -> P' (fst (decAt s k)) = true) ->
  (forall x k, In x (rep s) -> root s < k <= f -> sep s (k - 1) x \/ holds x (decAt s k) = true) -> J (setFlip s f m).
Proof. intros [A1 A2 A3 A4 A5 A6 A7 A8 A9 A10 A11 A12 A13 A14] Hf H1 H2 H3 H4 H5. constructor; auto. Qed.

(** undoing levels *)
Definition K (s : bst) (k : nat) : nat := max k (flip s).
Lemma undo_lits s k j : j <= K s k -> lits (undoImpl s k) j = lits s j.
Proof.
  intros L. unfold undoImpl. fold (K s k). destruct (Nat.leb_spec (dl s) (K s k)); auto. unfold lits. cbn [dec imp]. rewrite firstn_firstn, Nat.min_l by auto. now rewrite filter_filter_le.
Qed.
Lemma undo_dl s k : dl (undoImpl s k) = min (dl s) (K s k).
Proof. unfold undoImpl. fold (K s k). destruct (Nat.leb_spec (dl s) (K s k)); [lia|]. unfold dl. cbn [dec]. rewrite firstn_length. unfold dl in H. lia. Qed.
Lemma undo_decAt s k j : 1 <= j <= K s k -> decAt (undoImpl s k) j = decAt s j.
Proof. intros L. unfold undoImpl. fold (K s k). destruct (Nat.leb_spec (dl s) (K s k)); auto. unfold decAt. cbn [dec]. apply nth_firstn. lia. Qed.
Lemma undo_dec s k j : j <= K s k -> firstn j (dec (undoImpl s k)) = firstn j (dec s).
Proof. intros L. unfold undoImpl. fold (K s k). destruct (Nat.leb_spec (dl s) (K s k)); auto. cbn [dec]. rewrite firstn_firstn, Nat.min_l; auto. Qed.
Lemma undo_fields s k : root (undoImpl s k) = root s /\ flip (undoImpl s k) = flip s /\ bmode (undoImpl s k) = bmode s /\ lrn (undoImpl s k) = lrn s /\ pn (undoImpl s k) = pn s /\ rep (undoImpl s k) = rep s.
Proof. unfold undoImpl. destruct (dl s <=? max k (flip s)); cbn; auto 10. Qed.
Lemma undo_sep s k j m : j <= K s k -> sep s j m -> sep (undoImpl s k) j m.
Proof.
  intros L. apply sep_mono; [intros p; now rewrite undo_lits|now rewrite (proj1 (proj2 (proj2 (proj2 (proj2 (undo_fields s k))))))|].
  intros i Li Di. split; [lia|]. split; [rewrite undo_dl; lia|]. apply undo_decAt. lia.
Qed.
Lemma undo_J s k : J s -> J (undoImpl s k).
Proof.
  intros HJ. destruct (Nat.le_gt_cases (dl s) (K s k)) as [L|L].
  { unfold undoImpl. fold (K s k). destruct (Nat.leb_spec (dl s) (K s k)); [auto|lia]. }
  pose proof HJ as [A1 A2 A3 A4 A5 A6 A7 A8 A9 A10 A11 A12 A13 A14]. destruct (undo_fields s k) as (E1 & E2 & E3 & E4 & E5 & E6). assert (EK : flip s <= K s k) by (unfold K; lia).
  pose proof (undo_dl s k) as ED. rewrite Nat.min_r in ED by lia.
  assert (EU : forall M, U (undoImpl s k) M -> U s M) by (unfold U; now rewrite E6).
  assert (ET : forall p, tr (undoImpl s k) p = true -> tr s p = true). { intros p T. apply tr_in in T. rewrite ED, undo_lits in T by lia. apply tr_lits with (K s k); auto. lia. }
  constructor.
  - rewrite E1, E2, ED. lia.
  - rewrite E1, undo_dec by lia. exact A2.
  - intros e I. rewrite ED. unfold undoImpl in I. fold (K s k) in I. destruct (Nat.leb_spec (dl s) (K s k)); [lia|]. cbn [imp] in I. apply filter_In in I as [_ I]. now apply Nat.leb_le in I.
  - intros p X Y. apply (A4 p); auto.
  - destruct A5 as (b & I). exists b. unfold undoImpl. fold (K s k). destruct (Nat.leb_spec (dl s) (K s k)); [lia|]. cbn [imp]. apply filter_In. split; auto.
  - rewrite E1, undo_lits by lia. exact A6.
  - rewrite E1, ED. intros j Lj. rewrite undo_decAt by lia. apply A7. lia.
  - rewrite E4. intros M c HU. apply A8. auto.
  - rewrite E5, E6. exact A9.
  - rewrite ED. intros M j HU Lj H. rewrite undo_lits by lia. rewrite undo_dec in H by lia. apply A10; auto. lia.
  - rewrite E3, E6. exact A11.
  - rewrite E1, E2, E6. intros H j Lj. rewrite undo_decAt by lia. auto.
  - rewrite E1, E2, E6. intros m j Im Lj. rewrite undo_decAt by lia. destruct (A13 m j Im Lj) as [X|X]; [left; apply undo_sep; auto; lia|now right].
  - unfold undoImpl. fold (K s k). destruct (Nat.leb_spec (dl s) (K s k)); [lia|]. cbn. discriminate.
Qed.
Lemma undo_sepAll s k : sepAll s -> sepAll (undoImpl s k).
Proof. intros H m I. destruct (undo_fields s k) as (E1 & E2 & E3 & E4 & E5 & E6). rewrite E6 in I. rewrite E2. apply undo_sep; [unfold K; lia|auto]. Qed.
End Inv.
