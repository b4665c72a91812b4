(** C53: the implication graph for short clauses while one thread changes it.
    Model: [BtModel]; specification: [BtSpec] (with clauses and entries of [IgSpec]). *)
From Coq Require Import List Arith Bool Lia Permutation.
From Verif Require Import Base IgSpec BtSpec BtModel BtProofs BtProofs2 BtProofs3 BtProofs4 BtProofs5 BtProofs6.
Import ListNotations.

(** A history used below: two problem clauses and a learnt one; then literal 1 becomes true and is removed. *)
Definition demo1 : graph := add (add (add empty false (C2 (pos 1) (pos 2))) false (C3 (ngt 1) (pos 3) (pos 4))) true (C3 (pos 2) (pos 5) (ngt 6)).
Definition demoS : pasg := fun v => if v =? 1 then Some true else None.
Definition demoC : list sclause := [C3 (pos 2) (pos 5) (ngt 6); C3 (ngt 1) (pos 3) (pos 4); C2 (pos 1) (pos 2)].
Definition demo : graph := removeTrue demoS demo1 (pos 1).
Lemma demoS_true l : isTrue demoS l = true -> l = pos 1.
Proof. destruct l as [v b]. unfold isTrue, pval, demoS. cbn. destruct (v =? 1) eqn:E; [apply Nat.eqb_eq in E as ->; now destruct b | easy]. Qed.
Ltac dst := unfold distinct; cbn; repeat constructor; cbn; intuition discriminate.
Ltac stl := right; eexists; eexists; cbn; split; [left; reflexivity|]; split; [right; left; reflexivity|]; cbn; split; [discriminate|]; split; reflexivity.
Lemma demo_hist sh : hist sh demo demoS [pos 1] demoC.
Proof.
  unfold demo, demoC. apply HRemove; [|reflexivity | easy]. apply HAssign with (s := fun _ => None); [|easy | intros l T e E; apply demoS_true in T as ->; cbn in E; destruct E as [<- | []]; stl].
  unfold demo1. apply HAdd; [|dst | stl | easy]. apply HAdd; [|dst | stl | easy]. apply HAdd; [|dst | stl | easy]. constructor.
Qed.

(** Whatever was added, propagated and removed, alone or while the graph was shared: given the top-level assignment, what is visited says the
    same as the clauses that were given to it. *)
Theorem c53_meaning sh g s P asked A : hist sh g s P asked -> extends A s -> (Forall (satc A) asked <-> says (visit g) A).
Proof. intros H X. destruct (hist_rep _ _ _ _ _ H) as (cs & bs & R & _ & M & _). rewrite (M A X). symmetry. now apply (says_mean g s P). Qed.
Print Assumptions c53_meaning.
Example c53_meaning_nonvacuous : hist false demo demoS [pos 1] demoC /\ extends (fun v => v =? 1) demoS /\ ~ Forall (satc (fun v => v =? 1)) demoC /\ extends (fun _ => true) demoS /\ says (visit demo) (fun _ => true).
Proof.
  split; [apply demo_hist|]. assert (X : forall v b, demoS v = Some b -> v = 1 /\ b = true) by (unfold demoS; intros v b; destruct (v =? 1) eqn:E; [apply Nat.eqb_eq in E; intros [= <-]; auto | easy]).
  split; [intros v b E; apply X in E as [-> ->]; reflexivity|]. split; [intro F; unfold demoC in F; inversion F as [|? ? _ F2]; inversion F2 as [|? ? F3 _]; destruct F3 as (z & [<- | [<- | [<- | []]]] & HX); discriminate HX|].
  assert (Y : extends (fun _ => true) demoS) by (intros v b E; apply X in E as [_ ->]; reflexivity). split; [exact Y|].
  apply (c53_meaning false _ _ _ _ _ (demo_hist false) Y). unfold demoC. repeat constructor; [exists (pos 2) | exists (pos 3) | exists (pos 1)]; (split; [cbn; auto | reflexivity]).
Qed.

(** Without shared additions there are lists [pr] and [le] of problem and learnt clauses such that visits consist of their entries, each as
    often as they are there; literals whose variable was removed have no entries; the counters are right; every clause is (part of) one that was
    given, and together they say what the given ones say. Once all true literals were removed, only free literals are left. *)
Theorem c53_represents g s P asked : hist false g s P asked -> exists pr le,
  (forall l, (exists p, In p P /\ fst p = fst l) -> visit g l = []) /\
  (forall l e, (forall p, In p P -> fst p <> fst l) -> times e (visit g l) = follows l e (pr ++ le)) /\
  (g_bin g false = binaries pr /\ g_tern g false = ternaries pr /\ g_bin g true = binaries le /\ g_tern g true = ternaries le) /\
  (forall c, In c (pr ++ le) -> exists d, In d asked /\ subsumes c d) /\
  (forall A, extends A s -> (Forall (satc A) asked <-> Forall (satc A) (pr ++ le))) /\
  ((forall l, isTrue s l = true -> In l P) -> forall c x, In c (pr ++ le) -> In x (lits c) -> free s x).
Proof.
  intros H. destruct (hist_rep _ _ _ _ _ H) as (cs & bs & R & B & M & S & _). rewrite (B eq_refl) in *. pose proof (perm_split cs) as PS.
  exists (map snd (filter (fun fc => Bool.eqb false (fst fc)) cs)), (map snd (filter (fun fc => Bool.eqb true (fst fc)) cs)).
  assert (IN : forall c, In c (map snd (filter (fun fc => Bool.eqb false (fst fc)) cs) ++ map snd (filter (fun fc => Bool.eqb true (fst fc)) cs)) -> exists f, In (f, c) cs).
  { intros c C. apply (Permutation_in _ (Permutation_sym PS)), in_map_iff in C as ([f c'] & <- & C). now exists f. }
  split; [intros l L; destruct (rL _ _ _ _ _ R l L) as (L1 & L2 & L3); unfold visit; now rewrite L1, L2, L3|].
  split; [intros l e N; rewrite <- (follows_perm l e _ _ PS); apply (visit_times g s P); [easy|]; intros (p & P1 & P2); now apply (N p)|].
  split; [destruct (rCnt _ _ _ _ _ R false (or_introl eq_refl)) as [-> ->]; destruct (rCnt _ _ _ _ _ R true (or_intror eq_refl)) as [-> ->]; destruct (bins false cs) as [-> ->]; destruct (bins true cs) as [-> ->]; easy|].
  split; [intros c C; destruct (IN c C) as (f & C'); apply (S (f, c) C')|].
  split; [|intros ALL c x C X; destruct (IN c C) as (f & C'); now apply (rep_free g s P cs [] R ALL (f, c) x C')].
  intros A X. rewrite (M A X). unfold mean. rewrite !Forall_forall. split.
  - intros [K _] c C. destruct (IN c C) as (f & C'). now apply (K (f, c)).
  - intro K. split; [|easy]. intros [f c] C. apply K. apply (Permutation_in _ PS). change c with (snd (f, c)). now apply in_map.
Qed.
Print Assumptions c53_represents.
Example c53_represents_nonvacuous : hist false demo demoS [pos 1] demoC /\ (forall l, isTrue demoS l = true -> In l [pos 1]) /\
  visit demo (ngt 3) = [Bin (pos 4)] /\ visit demo (ngt 5) = [Ter (pos 2) (ngt 6)] /\ visit demo (ngt 2) = [Ter (pos 5) (ngt 6)] /\ g_bin demo false = 1 /\ g_tern demo true = 1 /\ g_tern demo false = 0.
Proof. split; [apply demo_hist|]. split; [intros l T; apply demoS_true in T as ->; now left|]. repeat split. Qed.

(** After any history there is nothing left to propagate at top level: every entry visited for a true literal has a true literal or two free ones. *)
Theorem c53_quiet sh g s P asked : hist sh g s P asked -> quiet (visit g) s.
Proof. intros H. destruct (hist_rep _ _ _ _ _ H) as (cs & bs & R & _). now apply (rep_quiet g s P cs bs). Qed.
Print Assumptions c53_quiet.
Example c53_quiet_nonvacuous : hist false demo1 demoS [] demoC /\ isTrue demoS (pos 1) = true /\ visit demo1 (pos 1) = [Ter (pos 3) (pos 4)].
Proof.
  split; [|now split]. apply HAssign with (s := fun _ => None); [|easy | intros l T e E; apply demoS_true in T as ->; cbn in E; destruct E as [<- | []]; stl].
  unfold demo1. apply HAdd; [|dst | stl | easy]. apply HAdd; [|dst | stl | easy]. apply HAdd; [|dst | stl | easy]. constructor.
Qed.

(** One visit for a true literal: whatever is set follows from an entry and literals that were true before; if it succeeds, exactly these literals
    became true, and among them every literal whose entry had only false literals beside it; if it fails, the last literal derived is false. *)
Theorem c53_propagate g s p b s' tr : isTrue s p = true -> propagate g s p = (b, s', tr) -> derived p (visit g p) s tr /\
  match b with
  | true => pextends s' s /\ (forall x, isTrue s' x = true <-> isTrue s x = true \/ In x (map fst tr)) /\ (forall e x, In e (visit g p) -> unit_ s e x -> isTrue s' x = true)
  | false => exists x why tr', tr = (x, why) :: tr' /\ isFalse s' x = true /\ pextends s' s /\ (forall x, isTrue s' x = true <-> isTrue s x = true \/ In x (map fst tr'))
  end.
Proof.
  intros T H. destruct (propL_spec p _ _ _ _ _ _ T H) as (new & E & D & K1 & K2). rewrite app_nil_r in E. subst tr. split; [easy|].
  assert (IFF : forall n, grown s s' n -> forall x, isTrue s' x = true <-> isTrue s x = true \/ In x (map fst n)).
  { intros n (G1 & G2 & G3 & _) x. split; [apply G3|]. intros [X | X]; [eapply true_ext; eauto|]. apply in_map_iff in X as ([y w] & <- & X). now apply (G2 y w). }
  destruct b.
  - destruct (K1 eq_refl) as [G U]. split; [apply G|]. split; [now apply IFF | exact U].
  - destruct (K2 eq_refl) as (x & w & n & -> & F & G). exists x, w, n. split; [easy|]. split; [easy|]. split; [apply G | now apply IFF].
Qed.
Print Assumptions c53_propagate.
Example c53_propagate_nonvacuous : let s := put (put (fun _ => None) (ngt 2)) (ngt 5) in isTrue s (ngt 5) = true /\
  (exists s', propagate demo1 s (ngt 5) = (true, s', [(ngt 6, [ngt 5; ngt 2])])) /\ (exists s', propagate demo1 (put s (pos 6)) (ngt 5) = (false, s', [(ngt 6, [ngt 5; ngt 2])])).
Proof. split; [reflexivity|]. split; eexists; reflexivity. Qed.

(** Propagating a literal to the end, from a top-level assignment: it ends; if it succeeds, the assignment is extended and nothing is left to
    propagate; whatever satisfies the clauses and the literal satisfies all that was set; it fails only if nothing satisfies them. *)
Theorem c53_unit_propagate sh g s P asked p : hist sh g s P asked -> free s p -> exists n, forall m, n <= m -> exists b s',
  unitPropagate m g (put s p) [p] = Some (b, s') /\ (b = true -> pextends s' (put s p) /\ quiet (visit g) s') /\
  (forall A, extends A s -> holds A p = true -> Forall (satc A) asked -> b = true /\ extends A s').
Proof.
  intros H F. destruct (hist_rep _ _ _ _ _ H) as (cs & bs & R & _ & M & _). pose proof (J_start g s P cs bs R p F) as J0. exists (1 + open cs bs (put s p)). intros m L.
  pose proof (unit_ends g s P cs bs R m (put s p) [p] J0 L) as E. destruct (unitPropagate m g (put s p) [p]) as [[b s']|] eqn:U; [|easy]. exists b, s'. split; [easy|].
  destruct (unit_correct g s P cs bs R m (put s p) [p] b s' J0 U) as [U1 U2]. split; [easy|]. intros A X HP SA. apply U1; [|apply (c53_meaning sh g s P asked A H X), SA].
  intros v c E'. unfold put in E'. destruct (v =? fst p) eqn:V; [|now apply X]. apply Nat.eqb_eq in V as ->. injection E' as <-. unfold holds in HP. destruct (A (fst p)), (snd p); easy.
Qed.
Print Assumptions c53_unit_propagate.
Example c53_unit_propagate_nonvacuous : hist false demo1 (fun _ => None) [] demoC /\ free (fun _ => None) (ngt 2) /\
  (exists s', unitPropagate 9 demo1 (put (fun _ => None) (ngt 2)) [ngt 2] = Some (true, s') /\ isTrue s' (pos 1) = true /\ s' 5 = None).
Proof.
  split; [unfold demo1; apply HAdd; [|dst | stl | easy]; apply HAdd; [|dst | stl | easy]; apply HAdd; [|dst | stl | easy]; constructor|]. split; [reflexivity|]. eexists. split; [reflexivity | split; reflexivity].
Qed.

(** Looking for an arc in the other direction: a reason is found iff some entry of the literal has only acceptable literals, and it is made of the
    negations of such an entry. *)
Theorem c53_reverse g rev p : match reverseArc g rev p with
  | Some a => exists e, In e (visit g p) /\ Forall (fun x => rev x = true) (elits e) /\ a = map neg (elits e)
  | None => forall e, In e (visit g p) -> ~ Forall (fun x => rev x = true) (elits e)
  end.
Proof. exact (revL_spec rev (visit g p)). Qed.
Print Assumptions c53_reverse.
Example c53_reverse_nonvacuous : reverseArc demo1 (fun x => negb (fst x =? 2)) (pos 1) = Some [ngt 3; ngt 4] /\ reverseArc demo1 (fun x => negb (fst x =? 3)) (pos 1) = None.
Proof. split; reflexivity. Qed.

(** Histories with shared additions: 1, 2 and 3 become true together. *)
Definition topS : pasg := fun v => if (v =? 1) || (v =? 2) || (v =? 3) then Some true else None.
Lemma topS_true l : isTrue topS l = true -> l = pos 1 \/ l = pos 2 \/ l = pos 3.
Proof.
  destruct l as [v b]. unfold isTrue, pval, topS. cbn [fst snd]. destruct (v =? 1) eqn:E1; [apply Nat.eqb_eq in E1 as ->; destruct b; [easy | auto]|]. destruct (v =? 2) eqn:E2; [apply Nat.eqb_eq in E2 as ->; destruct b; [easy | auto]|].
  destruct (v =? 3) eqn:E3; [apply Nat.eqb_eq in E3 as ->; destruct b; [easy | auto] | easy].
Qed.
Definition sharedAll (cs : list sclause) : graph := fold_left (fun g c => fst (addShared g c)) cs empty.
Definition stale1 : list sclause := [C3 (pos 2) (pos 3) (pos 4); C3 (pos 1) (pos 2) (pos 5); C3 (pos 1) (pos 3) (pos 6)].
Definition stale2 : list sclause := stale1 ++ [C3 (pos 1) (pos 4) (pos 7)].
Definition removed (cs : list sclause) : graph := removeTrue topS (removeTrue topS (removeTrue topS (sharedAll cs) (pos 1)) (pos 2)) (pos 3).
Lemma removed_hist cs : cs = stale1 \/ cs = stale2 -> hist true (removed cs) topS [pos 3; pos 2; pos 1] (rev cs).
Proof.
  intro K. unfold removed. apply HRemove; [|reflexivity | cbn; intuition discriminate]. apply HRemove; [|reflexivity | cbn; intuition discriminate]. apply HRemove; [|reflexivity | easy].
  apply HAssign with (s := fun _ => None); [|easy | intros l T e E; apply topS_true in T as [-> | [-> | ->]]; destruct K as [-> | ->]; cbn in E; easy].
  destruct K as [-> | ->]; unfold sharedAll; cbn [stale2 stale1 app fold_left rev]; repeat (apply HShared; [reflexivity | | dst | stl | easy]); constructor.
Qed.

(** For learnt clauses added while the graph was shared, removal is not complete: although all true literals were removed, an entry with true
    literals may still be visited for a free literal ... *)
Theorem c53_clean_learnt_refuted : exists g s P asked l e x, hist true g s P asked /\ (forall y, isTrue s y = true -> In y P) /\ free s l /\ In e (visit g l) /\ In x (elits e) /\ isTrue s x = true.
Proof.
  exists (removed stale1), topS, [pos 3; pos 2; pos 1], (rev stale1), (ngt 4), (Ter (pos 2) (pos 3)), (pos 2). split; [apply removed_hist; now left|].
  split; [intros y Y; apply topS_true in Y as [-> | [-> | ->]]; cbn; auto|]. split; [reflexivity|]. split; [now left|]. split; [now left | reflexivity].
Qed.
Print Assumptions c53_clean_learnt_refuted.
(** ... and the number of learnt clauses may stay positive although no clause is left. *)
Theorem c53_learnt_count_refuted : exists g s P asked, hist true g s P asked /\ (forall l, visit g l = []) /\ g_bin g true + g_tern g true = 1.
Proof.
  exists (removed stale2), topS, [pos 3; pos 2; pos 1], (rev stale2). split; [apply removed_hist; now right|]. split; [|reflexivity].
  intros [v b]. do 8 (destruct v as [|v]; [destruct b; reflexivity|]). reflexivity.
Qed.
Print Assumptions c53_learnt_count_refuted.
