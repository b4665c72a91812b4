(** Preprocessor: the stack of removed clauses; removal of clauses *)
From Coq Require Import List Bool Arith ZArith NArith Lia Permutation.
Import ListNotations.
From Verif Require Import Base ElModel ElSpec ElProofs ElProofs2 ElProofs3 ElProofs4 ElProofs5.

(** the assignment [a] changed so that [x] holds *)
Definition setTo (a : asg) (x : lit) : asg := fun v => if v =? fst x then negb (snd x) else a v.
Lemma setTo_same a x : holds (setTo a x) x = true.
Proof. unfold holds, setTo. rewrite Nat.eqb_refl. now destruct (snd x). Qed.
Lemma setTo_other a x p : fst p <> fst x -> holds (setTo a x) p = holds a p.
Proof. intros N. unfold holds, setTo. apply Nat.eqb_neq in N. now rewrite N. Qed.
Lemma setTo_clause a x c : ~ In (fst x) (map fst c) -> sat_clause (setTo a x) c = sat_clause a c.
Proof.
  induction c as [|p c IH]; intros N; [reflexivity|]. cbn in N. rewrite !sat_cons, IH by tauto. rewrite setTo_other by tauto. reflexivity.
Qed.
Definition indep (v : nat) (P : asg -> Prop) : Prop := forall a b, (forall u, u <> v -> a u = b u) -> P a -> P b.
Definition allSat (a : asg) (Ds : list (list lit)) : Prop := forall D, In D Ds -> sat_clause a D = true.

Section El.
Context (R : asg -> Prop) (fz : nat -> bool) (w : world) (SW : soundWorld R fz w) (OR : onlyOn fz R).
Context (Z0 : forall v, fz v = true -> v <> 0).
Context (Q : asg -> Prop).
Notation F := (F R). Notation wf0 := (wf0 fz). Notation wfx := (wfx fz). Notation wf := (ElProofs2.wfx fz []).

(** [J up T P]: the stack [T] turns a model of [P] into a model of [Q]; [up] is the variable
    of the entry above. *)
Inductive J : option nat -> list (bool * list lit) -> (asg -> Prop) -> Prop :=
| J_nil up (P : asg -> Prop) : (forall a, P a -> Q a) -> J up [] P
| J_cons up mk x c T (P P' : asg -> Prop) :
    (forall a, P' a <-> P a /\ sat_clause a (x :: c) = true) ->
    (forall a, P a -> sat_clause a (x :: c) = false -> P (setTo a x)) ->
    (mk = false -> up = Some (fst x) \/ indep (fst x) P) ->
    fz (fst x) = false -> fst x <> 0 -> ~ In (fst x) (map fst c) ->
    J (Some (fst x)) T P' -> J up ((mk, x :: c) :: T) P.

Lemma indep_ext v P P' : (forall a, P a <-> P' a) -> indep v P -> indep v P'.
Proof. intros E I a b H K. apply E. apply (I a b H). now apply E. Qed.
Lemma J_ext up T P P' : (forall a, P a <-> P' a) -> J up T P -> J up T P'.
Proof.
  intros E H. destruct H as [up P H|up mk x c T P P2 H1 H2 H3 H4 H5 H6 H7].
  - constructor. intros a K. apply H. now apply E.
  - econstructor; eauto.
    + intros a. rewrite H1, E. tauto.
    + intros a K S. apply E. apply H2; auto. now apply E.
    + intros Hm. destruct (H3 Hm) as [K|K]; [auto|]. right. eapply indep_ext; eauto.
Qed.
Lemma J_up up T P : J None T P -> J up T P.
Proof.
  intros H. inversion H as [u P0 H0|u mk x c T0 P0 P2 H1 H2 H3 H4 H5 H6 H7]; subst; [constructor; auto|]. econstructor; eauto.
  intros Hm. destruct (H3 Hm) as [K|K]; [discriminate|auto].
Qed.

Lemma indep_setTo v P a x : indep v P -> fst x = v -> P a -> P (setTo a x).
Proof. intros I E. apply I. intros u N. unfold setTo. subst. apply Nat.eqb_neq in N. now rewrite N. Qed.

(** The clauses removed when a variable is eliminated *)
Lemma J_group v T P : fz v = false -> v <> 0 -> indep v P -> forall Ds done up,
  (forall D, In D (done ++ Ds) -> exists x c, D = x :: c /\ fst x = v /\ ~ In v (map fst c)) ->
  (forall x c y d, In (x :: c) (done ++ Ds) -> In (y :: d) (done ++ Ds) -> y = neg x -> forall a, P a ->
     sat_clause a c = true \/ sat_clause a d = true) ->
  (done <> [] -> up = Some v) ->
  J None T (fun a => P a /\ allSat a (done ++ Ds)) ->
  J up (map (pair false) Ds ++ T) (fun a => P a /\ allSat a done).
Proof.
  intros Hf Hz Iv. induction Ds as [|D Ds IH]; intros done up Sh Pr Hup HJ; cbn [map app].
  - rewrite app_nil_r in HJ. now apply J_up.
  - destruct (Sh D) as (x & c & -> & Ex & Nx); [apply in_app_iff; right; now left|].
    assert (Ea : (done ++ [x :: c]) ++ Ds = done ++ (x :: c) :: Ds) by now rewrite <- app_assoc.
    apply J_cons with (P' := fun a => P a /\ allSat a (done ++ [x :: c])).
    + intros a. split.
      * intros [Pa Al]. split; [split; [auto|]|].
        -- intros E I. apply Al, in_app_iff. auto.
        -- apply Al, in_app_iff. right. now left.
      * intros [[Pa Al] S]. split; [auto|]. intros E I. apply in_app_iff in I as [I|[<-|[]]]; auto.
    + intros a [Pa Al] S. split; [apply (indep_setTo v); auto|]. intros E I.
      destruct (Sh E) as (y & d & -> & Ey & Ny); [apply in_app_iff; auto|]. rewrite sat_cons.
      destruct (bool_dec (snd y) (snd x)) as [K|K].
      * assert (y = x) as -> by (apply pair_eta; congruence). now rewrite setTo_same.
      * assert (En : y = neg x). { apply pair_eta; [cbn; congruence|]. cbn. destruct (snd y), (snd x); cbn; congruence. }
        destruct (Pr x c y d) with (a := a) as [Sc|Sd]; auto.
        -- apply in_app_iff. right. now left.
        -- apply in_app_iff. now left.
        -- rewrite sat_cons, Sc, orb_true_r in S. discriminate.
        -- rewrite setTo_clause, Sd, orb_true_r; [auto|]. now rewrite Ex.
    + intros _. destruct done as [|E done]; [|left; rewrite Hup; congruence]. right. rewrite Ex.
      apply (indep_ext v P); [|auto]. intros a. split; [intros Pa; split; [auto|intros ? []]|tauto].
    + now rewrite Ex.
    + now rewrite Ex.
    + now rewrite Ex.
    + rewrite Ex. apply IH; rewrite ?Ea; auto.
Qed.

(** ** [toFront] *)
Lemma posOf_spec ev : forall l i p,
  (~ In ev (map fst l) /\ posOf ev i l p = p)
  \/ exists k x, nth_error l k = Some x /\ fst x = ev /\ posOf ev i l p = i + k.
Proof.
  induction l as [|x l IH]; intros i p; cbn [posOf map]; [left; auto|].
  destruct (fst x =? ev) eqn:E.
  - apply Nat.eqb_eq in E. right. destruct (IH (S i) i) as [[N K]|(k & y & K1 & K2 & K3)].
    + exists 0, x. rewrite K. cbn. split; [auto|]. split; [auto|lia].
    + exists (S k), y. rewrite K3. cbn. split; [auto|]. split; [auto|lia].
  - apply Nat.eqb_neq in E. destruct (IH (S i) p) as [[N K]|(k & y & K1 & K2 & K3)].
    + left. split; [|auto]. cbn. intros [I|I]; auto.
    + right. exists (S k), y. rewrite K3. cbn. split; [auto|]. split; [auto|lia].
Qed.
Lemma nd_var (c : list lit) p q : NoDup (map fst c) -> In p c -> In q c -> fst p = fst q -> p = q.
Proof.
  induction c as [|y l IH]; [intros _ []|]. cbn. intros N. inversion N; subst. intros [->|Ip] [Iq|Iq] E; auto.
  - exfalso. apply H1. rewrite E. now apply in_map.
  - subst. exfalso. apply H1. rewrite <- E. now apply in_map.
Qed.
Lemma toFront_ok v b (c : list lit) : NoDup (map fst c) -> In (v, b) c ->
  exists t, toFront v c = (v, b) :: t /\ Permutation c ((v, b) :: t) /\ ~ In v (map fst t).
Proof.
  intros N I. unfold toFront. destruct (posOf_spec v c 0 0) as [[K _]|(k & x & K1 & K2 & K3)].
  - exfalso. apply K. apply in_map_iff. now exists (v, b).
  - rewrite K3. cbn [Nat.add]. assert (x = (v, b)). { apply (nd_var c); auto. eapply nth_error_In; eauto. } subst x.
    assert (G : exists t, swp k c = (v, b) :: t /\ Permutation c ((v, b) :: t)).
    { destruct c as [|h t]; [destruct k; discriminate|]. destruct k as [|k]; cbn [nth_error swp] in *.
      - injection K1 as ->. exists t. split; auto.
      - change (@nth_error lit t k = Some (v, b)) in K1. rewrite K1. exists (putAt t k h). split; [auto|]. now apply putAt_perm. }
    destruct G as (t & G1 & G2). exists t. split; [auto|]. split; [auto|].
    apply (Permutation_map fst) in G2. eapply Permutation_NoDup in N; [|exact G2]. cbn in N. now inversion N.
Qed.

(** ** Removing a clause for good *)
Definition erF (id ev : nat) (freeId : bool) (s : st) (p : lit) : st :=
  if negb (fst p =? ev) && freeId then eraseOcc s (fst p) (id, snd p) else s.
Lemma erF_same id ev f cl : forall s, let s' := fold_left (erF id ev f) cl s in
  s_n s' = s_n s /\ s_cls s' = s_cls s /\ s_wat s' = s_wat s /\ s_lm s' = s_lm s /\ s_tr s' = s_tr s /\ s_facts s' = s_facts s
  /\ s_elim s' = s_elim s /\ s_top s' = s_top s.
Proof.
  induction cl as [|p cl IH]; intros s; cbn [fold_left]; [repeat split|].
  destruct (IH (erF id ev f s p)) as (A1&A2&A3&A4&A5&A6&A7&A8). unfold erF in *. destruct (_ && _); repeat split; auto.
Qed.
Lemma erF_out id ev f cl : forall s u, u = ev \/ f = false \/ ~ In u (map fst cl) -> s_occ (fold_left (erF id ev f) cl s) u = s_occ s u.
Proof.
  induction cl as [|p cl IH]; intros s u H; cbn [fold_left]; [auto|]. rewrite IH.
  - unfold erF. destruct (fst p =? ev) eqn:E; cbn [negb andb]; [auto|]. destruct f; [|auto]. cbn. apply upd_other.
    apply Nat.eqb_neq in E. intros ->. destruct H as [H|[H|H]]; [congruence|discriminate|]. apply H. now left.
  - destruct H as [H|[H|H]]; auto. right; right. intros K. apply H. now right.
Qed.
Lemma erF_in id ev cl : forall s u b, NoDup (map fst cl) -> u <> ev -> In (u, b) cl ->
  s_occ (fold_left (erF id ev true) cl s) u = eraseL (id, b) (s_occ s u).
Proof.
  induction cl as [|p cl IH]; intros s u b N Nu I; [destruct I|]. cbn [fold_left]. cbn in N. inversion N; subst. destruct I as [->|I].
  - rewrite erF_out by (right; right; auto). unfold erF. cbn. apply Nat.eqb_neq in Nu. rewrite Nu. cbn. apply upd_same.
  - rewrite (IH _ u b); auto. f_equal. unfold erF. destruct (negb (fst p =? ev) && true); [|auto]. cbn. apply upd_other.
    intros ->. apply H1. change (fst p) with (fst (fst p, b)). now apply in_map.
Qed.

Lemma bceVeRemove_ok X D s id f v bl s' : wf0 D s -> occs X s -> bceVeRemove id f v bl s = Ok s' ->
  exists c, lits s id = Some c /\ lits s' id = None /\ (forall j, j <> id -> lits s' j = lits s j) /\ wf0 D s' /\ occs X s'
    /\ (s_n s' = s_n s /\ s_elim s' = s_elim s /\ s_tr s' = s_tr s /\ s_facts s' = s_facts s /\ s_occ s' v = s_occ s v)
    /\ s_top s' = (bl, toFront v c) :: s_top s
    /\ (forall a, F s a <-> F s' a /\ sat_clause a c = true)
    /\ (forall j, fr j s s')
    /\ (f = true -> c <> [] -> X = [v] -> freeIdOf [v] s' id).
Proof.
  intros W O H. unfold bceVeRemove in H. apply bind_ok in H as (k & Hk & H). apply deref_ok in Hk as [Hk Hlt].
  apply bind_ok in H as (x & Hx & H). cbv zeta in H.
  match type of H with context [fold_left ?g (k_lits k) ?s0] => change (fold_left g (k_lits k) s0) with (fold_left (erF id v f) (k_lits k) s0) in H end.
  set (s0 := removeWatch s (fst x) id) in *. pose proof (erF_same id v f (k_lits k) s0) as E. cbv zeta in E.
  pose proof (erF_out id v f (k_lits k) s0) as Eo. pose proof (erF_in id v (k_lits k) s0) as Ei.
  set (s1 := fold_left (erF id v f) (k_lits k) s0) in *. destruct E as (A1&A2&A3&A4&A5&A6&A7&A8).
  injection H as <-. exists (k_lits k). pose proof (lits_cls _ _ _ Hk) as El.
  match goal with |- context [setTop ?y ?t] => set (s' := setTop y t) end.
  assert (L' : forall j, lits s' j = if j =? id then None else lits s j).
  { intros j. change (lits s' j) with (lits (setC s1 id None) j). rewrite lits_setC. destruct (j =? id); [auto|]. unfold lits. now rewrite A2. }
  assert (N' : lits s' id = None) by (rewrite L', Nat.eqb_refl; auto).
  assert (Lj : forall j, j <> id -> lits s' j = lits s j) by (intros j Nj; rewrite L'; apply Nat.eqb_neq in Nj; now rewrite Nj).
  assert (Wa : forall u, s_wat s' u = if u =? fst x then eraseN id (s_wat s u) else s_wat s u).
  { intros u. change (s_wat s' u) with (s_wat s1 u). rewrite A3. cbn. unfold upd. destruct (u =? fst x) eqn:Eu; [apply Nat.eqb_eq in Eu as ->|]; auto. }
  pose proof (q_nd _ _ _ W _ _ El) as Nd.
  assert (Ls : lsub s s') by (intros j y; rewrite L'; destruct (j =? id); [discriminate|auto]).
  assert (Occ : forall u, s_occ s' u = s_occ s u \/ exists b, f = true /\ u <> v /\ In (u, b) (k_lits k) /\ s_occ s' u = eraseL (id, b) (s_occ s u)).
  { intros u. change (s_occ s' u) with (s_occ s1 u). destruct (Nat.eq_dec u v) as [->|Nu]; [left; rewrite Eo; auto|].
    destruct f; [|left; rewrite Eo; auto]. destruct (in_dec Nat.eq_dec u (map fst (k_lits k))) as [I|I]; [|left; rewrite Eo; auto].
    apply in_map_iff in I as ([u' b] & Eu & I). cbn in Eu. subst u'. right. exists b. split; [auto|]. split; [auto|]. split; [auto|]. apply (Ei u b); auto. }
  split; [auto|]. split; [auto|]. split; [auto|]. split; [|split; [|split; [|split; [|split; [|split]]]]].
  - apply (wf0_shrink fz D s); auto. intros u j _. rewrite Wa. destruct (u =? fst x); [apply cnt_erase|auto].
  - intros u Nu. pose proof (occOk_lsub _ _ _ _ Ls (O u Nu)) as O'. destruct (Occ u) as [K|(b & _ & _ & Ib & K)]; rewrite K; [auto|].
    destruct O' as (X1 & X2 & X3). split; [|split].
    + intros j c d Ej I. apply eraseL_in; [eapply X1; eauto|]. intros Ee. injection Ee as -> _. congruence.
    + intros j c d I. apply X2. eapply eraseL_sub; eauto.
    + apply eraseL_nd; auto.
  - split; [auto|]. split; [auto|]. split; [auto|]. split; [auto|]. change (s_occ s1 v = s_occ s v). rewrite Eo; auto.
  - cbn. rewrite A8. reflexivity.
  - intros a. apply (F_drop R s s' id); auto.
  - intros j. split; [rewrite L'; destruct (j =? id); auto|]. split.
    + intros u. destruct (Occ u) as [K|(b & _ & _ & _ & K)]; rewrite K; [auto|]. intros I. apply in_map_iff in I as (y & <- & I).
      apply in_map. eapply eraseL_sub; eauto.
    + intros _ u. rewrite Wa. destruct (u =? fst x); [apply eraseN_sub|auto].
  - intros -> Ne ->. split; [cbn; rewrite A1; exact Hlt|]. split; [auto|]. split.
    + intros u Nu. assert (Nu' : u <> v) by (intros ->; apply Nu; now left). destruct (O u Nu) as (X1 & X2 & X3).
      destruct (Occ u) as [K|(b & _ & _ & Ib & K)]; rewrite K.
      * intros I. apply in_map_iff in I as ([j d] & Ej & I). cbn in Ej. subst j. pose proof (X2 id _ d I El) as Id.
        assert (K2 : s_occ s' u = eraseL (id, d) (s_occ s u)) by (apply (Ei u d); auto).
        destruct (eraseL_nd (id, d) _ X3) as [_ K3]. apply (K3 I). rewrite <- K2, K. cbn. apply in_map_iff. now exists (id, d).
      * destruct (eraseL_nd (id, b) _ X3) as [_ K3]. apply K3. eapply X1; eauto.
    + destruct (kat0 _ _ Hx Ne) as [t Ht]. intros u. rewrite Wa. rewrite (count_occ_In Nat.eq_dec). pose proof (q_wat _ _ _ W id x t u) as C.
      rewrite <- Ht in C. specialize (C El). destruct (u =? fst x) eqn:Eu.
      * apply Nat.eqb_eq in Eu as ->. rewrite Nat.eqb_refl in C. rewrite cnt_erase_same. lia.
      * rewrite Nat.eqb_sym, Eu in C. lia.
Qed.
End El.
