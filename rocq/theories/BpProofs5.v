From Coq Require Import List Bool Arith ZArith Lia Permutation.
From Verif Require Import Base ClModel ClSpec ClProofs BpModel BpSpec BpProofs BpProofs2 BpProofs3 BpProofs4.
Import ListNotations.

Lemma init_inv : forall n, InvG n init (Db [] []) [].
Proof.
  intros n. assert (CN : forall i, cl init i = None) by (intros [|i]; reflexivity).
  split; [|split; [|split]].
  - constructor; cbn; auto; try (intros; exfalso; tauto); try (intros; discriminate).
    + repeat constructor. intros [].
    + intros e [<-|[]]. auto.
    + intros [|x t1] e t2 H e' E; [destruct E|]. exfalso. inversion H as [[A B]]. destruct t1; discriminate.
    + exists (Ent lit_true 0 Fact 0). sp; auto. now left.
    + intros e [<-|[]]. cbn. lia.
    + intros [|x t1] e t2 H; [inversion H; right; left; cbn; auto|]. inversion H as [[A B]]. destruct t1; discriminate.
    + intros e [<-|[]] i c E. discriminate.
    + intros i c E. destruct i; discriminate E.
    + intros [|i] c H; cbn in H; discriminate.
    + intros c0 q [[]|[]].
    + intros e [<-|[]]. cbn. auto.
  - intros q. cbn. split; [constructor|]. intros i. split; [intros []|]. intros [c [E _]]. destruct i; discriminate E.
  - intros i c E. rewrite CN in E. discriminate.
  - intros c [].
Qed.

Lemma reach_inv : forall n s D, reach n s D -> exists G, InvG n s D G.
Proof.
  intros n s D R. induction R as [|s D o R [G I] OK]; [exists []; apply init_inv|].
  destruct o as [p|p| |l|f simp c|i| |k].
  - exists G. destruct OK as [A [B C]]. apply assume_inv; auto. unfold good_var in C. lia.
  - exists G. destruct OK as [A C]. cbn. apply force_inv; auto; [unfold good_var in C; lia|exact Coq.Init.Logic.I|]. apply locks_no. discriminate.
  - exists G. unfold run, db_step, op_ok in *. destruct (propagate (S (S n)) s) as [s' r] eqn:E.
    destruct (propagate_spec n D G (S (S n)) s I OK s' r E) as [X _]. exact X.
  - exists G. cbn. apply undo_inv. auto.
  - apply create_inv with (G := G); auto.
  - exists G. apply remove_inv; auto.
  - exists G. apply push_inv; auto.
  - exists G. apply pop_inv; auto.
Qed.

(** * Completeness *)
Lemma dec_false : forall t q, tFalse t q \/ ~ tFalse t q.
Proof.
  intros t q. unfold tFalse, tTrue. destruct (existsb (fun e => lit_eqb (e_lit e) (neg q)) t) eqn:E.
  - left. apply existsb_exists in E as [e [A B]]. apply lit_eqb_eq in B. eauto.
  - right. intros [e [A B]]. assert (X : existsb (fun e => lit_eqb (e_lit e) (neg q)) t = true) by (apply existsb_exists; exists e; split; auto; apply lit_eqb_eq; auto). congruence.
Qed.
Lemma dec_true : forall t q, tTrue t q \/ ~ tTrue t q.
Proof. intros t q. destruct (dec_false t (neg q)) as [A|A]; unfold tFalse in A; rewrite neg_neg in A; auto. Qed.
Lemma dec_some_true : forall t c, (exists p, In p c /\ tTrue t p) \/ (forall p, In p c -> ~ tTrue t p).
Proof.
  intros t. induction c as [|a c IH]; [right; intros p []|]. destruct (dec_true t a) as [A|A]; [left; exists a; split; auto; now left|].
  destruct IH as [[p [B C]]|B]; [left; exists p; split; auto; now right|right]. intros p [<-|P]; auto.
Qed.
(** all false, or exactly one not false, or two *)
Lemma dec_two : forall t (c : list lit), (exists p q, In p c /\ In q c /\ p <> q /\ ~ tFalse t p /\ ~ tFalse t q) \/
  (exists a, forall b, In b c -> b <> a -> tFalse t b) .
Proof.
  intros t. induction c as [|x c IH]; [right; exists lit_true; intros b []|].
  destruct IH as [[p [q [A [B C]]]]|[a IH]]; [left; exists p, q; cbn; tauto|].
  destruct (dec_false t x) as [F|F].
  - right. exists a. intros b [<-|B] N; auto.
  - destruct (lit_eq_dec x a) as [-> |N]; [right; exists a; intros b [B|B] N; auto; congruence|].
    destruct (in_dec lit_eq_dec a c) as [IA|IA].
    + destruct (dec_false t a) as [FA|FA].
      * right. exists x. intros b [B|B] NB; [congruence|]. destruct (lit_eq_dec b a) as [-> |]; auto.
      * left. exists x, a. cbn. tauto.
    + right. exists x. intros b [B|B] NB; [congruence|]. apply IH; auto. intros ->. contradiction.
Qed.

Lemma quiet_of : forall n s D G, InvG n s D G -> b_conf s = None -> b_front s = length (b_trail s) -> forall c, inDb D c -> quiet (b_trail s) c.
Proof.
  intros n s D G [K [_ [DW DU]]] NC FR c0 IN. unfold Proc in DW, DU. rewrite NC, FR, firstn_all in DW, DU.
  pose proof (k_nd _ _ _ _ K) as ND.
  destruct (dec_some_true (b_trail s) c0) as [T|NT]; [left; auto|]. right.
  assert (FREE : forall p, In p c0 -> ~ tFalse (b_trail s) p -> tFree (b_trail s) p) by (intros p P F; split; auto).
  destruct IN as [IN|IN].
  - destruct (k_imp _ _ _ _ K c0 IN) as [[p [P [T|N]]]|[[c [C SB]]|[X _]]].
    + exfalso. apply (NT p P). eapply tr_true; eauto.
    + assert (F1 : ~ tFalse (b_trail s) p) by (intros F; apply (NT (neg p) N); exact F).
      assert (F2 : ~ tFalse (b_trail s) (neg p)) by (unfold tFalse; rewrite neg_neg; auto).
      exists p, (neg p). sp; auto. intros E. symmetry in E. exact (neg_neq p E).
    + destruct (k_good _ _ _ _ K c C) as [GC [NDC _]].
      destruct (dec_two (b_trail s) c) as [[p [q [P [Q [N [F1 F2]]]]]]|[a A]].
      * exists p, q. sp; auto; try (apply SB; auto); apply FREE; auto; apply SB; auto.
      * exfalso. assert (U : forall x, In x c -> (forall b, In b c -> b <> x -> tFalse (b_trail s) b) -> False).
        { intros x X H. assert (T : tr (b_trail s) x (b_dl s)).
          { apply (DU c C x (b_dl s) X). intros b B1 B2. destruct (H b B1 B2) as [e [E1 E2]]. exists e. sp; auto. apply (k_lv _ _ _ _ K); auto. }
          apply (NT x (proj1 SB x X)). eapply tr_true; eauto. }
        destruct (in_dec lit_eq_dec a c) as [IA|IA]; [apply (U a IA A)|].
        destruct c as [|x c]; [cbn in GC; tauto|]. apply (U x (or_introl eq_refl)). intros b B1 B2. apply A; auto. intros ->. contradiction.
    + congruence.
  - apply In_nth_error in IN as [i IN]. destruct (k_rep2 _ _ _ _ K i c0 IN) as [c C]. destruct (k_rep _ _ _ _ K i c C) as [W [c1 [E SB]]].
    assert (c1 = c0). { pose proof (eq_trans (eq_sym E) IN) as X. inversion X. auto. } subst c1.
    assert (NF : forall b, ~ tFalse (b_trail s) (head c b)).
    { intros b [e [E1 E2]]. pose proof (DW i c C b e E1 E2) as X. apply (NT (head c (negb b))); [apply SB, (wf_h c W)|]. eapply tr_true; eauto. }
    exists (head c false), (head c true). sp; try (apply SB, (wf_h c W)); [apply (wf_01 c W)|apply FREE; auto; apply SB, (wf_h c W)|apply FREE; auto; apply SB, (wf_h c W)].
Qed.

Lemma complete_lemma : forall n s D, reach n s D -> b_conf s = None -> b_front s = length (b_trail s) -> forall c, inDb D c -> quiet (b_trail s) c.
Proof. intros n s D R NC FR. destruct (reach_inv n s D R) as [G I]. apply (quiet_of n s D G I NC FR). Qed.
Lemma backtrack_lemma : forall n s D l, reach n s D -> Nat.max l (b_root s) < b_dl s -> forall c, inDb D c -> quiet (b_trail (undo s l)) c.
Proof.
  intros n s D l R LT. destruct (reach_inv n s D R) as [G I]. pose proof (undo_inv n s D G l I) as I'. rewrite undo_max in I' |- *.
  rewrite (undo_eq n s D G (Nat.max l (b_root s)) (proj1 I) ltac:(lia) LT) in *. apply (quiet_of n _ D G I'); reflexivity.
Qed.

(** * Soundness *)
Lemma sound_lemma : forall n s D, reach n s D -> forall t1 e t2, b_trail s = t1 ++ e :: t2 -> given e \/ implied D t1 (e_lit e).
Proof.
  intros n s D R t1 e t2 E. destruct (reach_inv n s D R) as [G [K _]]. unfold given.
  destruct (k_just _ _ _ _ K t1 e t2 E) as [J|[[J _]|J]]; auto.
  destruct (e_why e) eqn:W; cbn in J; auto.
  - destruct J as [c0 [A [[B C] _]]]. right. exists c0. sp; auto; [now left|]. intros x X Y. eapply tr_true; eauto.
  - destruct J as [c0 [A [[B C] _]]]. right. exists c0. sp; auto; [now left|]. intros x X Y. eapply tr_true; eauto.
  - destruct J as [c0 [A [[B C] _]]]. right. exists c0. sp; auto; [now left|]. intros x X Y. eapply tr_true; eauto.
  - destruct J as [c0 [A [B C]]]. right. exists c0. sp; auto; [right; eapply nth_error_In; eauto|]. intros x X Y. eapply tr_true; eauto.
Qed.
Lemma consistent_lemma : forall n s D, reach n s D -> forall p, ~ (tTrue (b_trail s) p /\ tFalse (b_trail s) p).
Proof. intros n s D R p [A B]. destruct (reach_inv n s D R) as [G [K _]]. exact (tt_ff _ _ (k_nd _ _ _ _ K) A B). Qed.

Lemma semantic_lemma : forall n s D L a, reach n s D -> (forall c, inDb D c -> sat_clause a c = true) ->
  (forall e, In e (b_trail s) -> given e -> e_lev e <= L -> holds a (e_lit e) = true) ->
  forall e, In e (b_trail s) -> e_lev e <= L -> holds a (e_lit e) = true.
Proof.
  intros n s D L a R SAT GIV. destruct (reach_inv n s D R) as [G [K _]].
  assert (X : forall k t1 t2, length t1 <= k -> b_trail s = t1 ++ t2 -> forall e, In e t1 -> e_lev e <= L -> holds a (e_lit e) = true).
  { induction k as [|k IH]; intros t1 t2 LE E e IE LV; [destruct t1; [destruct IE|cbn in LE; lia]|].
    apply in_split in IE as [u1 [u2 U]]. subst t1. rewrite <- app_assoc in E. cbn in E.
    destruct (sound_lemma n s D R u1 e _ E) as [H|[c [C1 [C2 C3]]]].
    - apply GIV; auto. rewrite E. apply in_or_app. right. now left.
    - destruct (lit_eq_dec lit_true lit_true) as [_|]; [|congruence].
      specialize (SAT c C1). apply existsb_exists in SAT as [x [X1 X2]]. destruct (lit_eq_dec x (e_lit e)) as [-> |N]; auto.
      exfalso. destruct (C3 x X1 N) as [e' [E1 E2]]. assert (H : holds a (e_lit e') = true).
      { apply (IH u1 (e :: u2 ++ t2)); auto. 
        - rewrite app_length in LE. cbn in LE. lia.
        - pose proof (k_so _ _ _ _ K u1 e _ E e' E1). lia. }
      rewrite E2, holds_neg, X2 in H. discriminate. }
  intros e IE. apply (X (length (b_trail s)) (b_trail s) [] (le_n _)); auto. now rewrite app_nil_r.
Qed.

(** The same w.r.t. the levels on which the literals are implied *)
Lemma sound_log : forall n s D G, Core n s D G -> forall t1 e t2, b_trail s = t1 ++ e :: t2 -> given e \/
  exists c, inDb D c /\ In (e_lit e) c /\ forall q, In q c -> q <> e_lit e -> tr t1 (neg q) (e_log e).
Proof.
  intros n s D G K t1 e t2 E. unfold given.
  destruct (k_just _ _ _ _ K t1 e t2 E) as [J|[[J _]|J]]; auto. destruct (why_ext (e_why e)) as [X|X]; auto.
  right. destruct (jw_byc _ _ _ _ _ J X) as [c [C1 [C2 C3]]]. exists c. auto.
Qed.
Lemma semantic_core : forall n s D G L a, Core n s D G -> (forall c, inDb D c -> sat_clause a c = true) ->
  (forall e, In e (b_trail s) -> given e -> e_log e <= L -> holds a (e_lit e) = true) ->
  forall e, In e (b_trail s) -> e_log e <= L -> holds a (e_lit e) = true.
Proof.
  intros n s D G L a K SAT GIV.
  assert (X : forall k t1 t2, length t1 <= k -> b_trail s = t1 ++ t2 -> forall e, In e t1 -> e_log e <= L -> holds a (e_lit e) = true).
  { induction k as [|k IH]; intros t1 t2 LE E e IE LV; [destruct t1; [destruct IE|cbn in LE; lia]|].
    apply in_split in IE as [u1 [u2 U]]. subst t1. rewrite <- app_assoc in E. cbn in E.
    destruct (sound_log n s D G K u1 e _ E) as [H|[c [C1 [C2 C3]]]].
    - apply GIV; auto. rewrite E. apply in_or_app. right. now left.
    - specialize (SAT c C1). apply existsb_exists in SAT as [x [X1 X2]]. destruct (lit_eq_dec x (e_lit e)) as [-> |N]; auto.
      exfalso. destruct (C3 x X1 N) as [e' [E1 [E2 E3]]]. assert (H : holds a (e_lit e') = true).
      { apply (IH u1 (e :: u2 ++ t2)); auto; [|lia]. rewrite app_length in LE. cbn in LE. lia. }
      rewrite E2, holds_neg, X2 in H. discriminate. }
  intros e IE. apply (X (length (b_trail s)) (b_trail s) [] (le_n _)); auto. now rewrite app_nil_r.
Qed.
Lemma semantic_log : forall n s D L a, reach n s D -> (forall c, inDb D c -> sat_clause a c = true) ->
  (forall e, In e (b_trail s) -> given e -> e_log e <= L -> holds a (e_lit e) = true) ->
  forall e, In e (b_trail s) -> e_log e <= L -> holds a (e_lit e) = true.
Proof. intros n s D L a R. destruct (reach_inv n s D R) as [G [K _]]. apply (semantic_core n s D G L a K). Qed.
(** Literals implied on a remaining level are assigned after going back, by any operation *)
Lemma implied_kept : forall n s D l, reach n s D -> Nat.max l (b_root s) < b_dl s -> forall e, In e (b_trail s) -> e_log e <= Nat.max l (b_root s) -> tTrue (b_trail (undo s l)) (e_lit e).
Proof.
  intros n s D l R LT e E LE. rewrite undo_max. set (m := Nat.max l (b_root s)) in *. assert (X : tr (b_trail s) (e_lit e) m) by (exists e; auto).
  pose proof (undo_tr s (b_root s) m LT ltac:(lia) ltac:(auto) (e_lit e) m (le_n _) X) as Y. rewrite setRoot_id in Y. eapply tr_true; eauto.
Qed.
Lemma pop_kept : forall n s D k, reach n s D -> forall e, In e (b_trail s) -> e_log e <= b_root (popRootLevel s k) -> tTrue (b_trail (popRootLevel s k)) (e_lit e).
Proof.
  intros n s D k R e E LE. destruct (reach_inv n s D R) as [G [K _]]. pose proof (k_root _ _ _ _ K) as KR. unfold popRootLevel in *. set (r := b_root s - Nat.min k (b_root s)) in *.
  destruct (Nat.lt_ge_cases r (b_dl s)) as [H|H].
  - rewrite undo_eqG in LE by auto. cbn in LE. assert (X : tr (b_trail s) (e_lit e) r) by (exists e; auto).
    pose proof (undo_tr s r r H (le_n _) ltac:(auto) (e_lit e) r (le_n _) X) as Y. eapply tr_true; eauto.
  - rewrite undo_ge; [exists e; auto|cbn; lia].
Qed.

(** * Conflicts *)
Definition NE (s : st) : Prop := forall p, b_conf s <> Some (p, Ext).
Lemma force_ne : forall s p w, w <> Ext -> NE s -> NE (fst (force s p w)).
Proof. intros s p w N H. unfold force, forceG. destruct (isT s p); [|destruct (isF s p)]; cbn; auto. intros q E. cbn in E. congruence. Qed.
Lemma bins_ne : forall p l s, NE s -> NE (fst (bins s p l)).
Proof.
  induction l as [|x l IH]; intros s H; cbn [bins]; auto. destruct (isT s x); auto.
  pose proof (force_ne s x (By1 p) ltac:(discriminate) H) as F. destruct (force s x (By1 p)) as [s1 ok]. destruct ok; cbn [fst] in *; auto.
Qed.
Lemma terns_ne : forall p l s, NE s -> NE (fst (terns s p l)).
Proof.
  induction l as [|[x y] l IH]; intros s H; cbn [terns]; auto. destruct (_ && _); auto.
  pose proof (force_ne s y (By2 p (neg x)) ltac:(discriminate) H) as F1. pose proof (force_ne s x (By2 p (neg y)) ltac:(discriminate) H) as F2.
  destruct (isF s x); [destruct (force s y (By2 p (neg x))) as [s1 ok]|destruct (force s x (By2 p (neg y))) as [s1 ok]]; destruct ok; cbn [fst] in *; auto.
Qed.
Lemma cl_prop_ne : forall s p i c, NE s -> NE (fst (fst (cl_prop s p i c))).
Proof.
  intros s p i c H. unfold cl_prop. destruct (isT s _); auto. destruct (negb _); auto. destruct (updateWatch s c _); auto.
  pose proof (force_ne s (head c (negb (lit_eqb (h1 c) (neg p)))) (ByC i) ltac:(discriminate) H) as F. destruct (force s _ (ByC i)) as [s1 ok]. exact F.
Qed.
Lemma wloop_ne : forall p l s, NE s -> NE (fst (fst (wloop s p l))).
Proof.
  induction l as [|i l IH]; intros s H; cbn [wloop]; auto. destruct (nth i (b_cls s) None) as [c|]; auto.
  pose proof (cl_prop_ne s p i c H) as F. destruct (cl_prop s p i c) as [[s1 ok] keep]. destruct ok; cbn [fst] in *; auto.
  specialize (IH s1 F). destruct (wloop s1 p l) as [[s2 r] b]. exact IH.
Qed.
Lemma prop1_ne : forall s p, NE s -> NE (fst (prop1 s p)).
Proof.
  intros s p H. unfold prop1. pose proof (bins_ne p (b_bin (set_front s (S (b_front s))) p) (set_front s (S (b_front s))) H) as F1.
  destruct (bins _ p _) as [s1 ok1]. destruct ok1; cbn [negb fst] in *; auto.
  pose proof (terns_ne p (b_tern s1 p) s1 F1) as F2. destruct (terns s1 p _) as [s2 ok2]. destruct ok2; cbn [negb fst] in *; auto.
  pose proof (wloop_ne p (b_wl s2 p) s2 F2) as F3. destruct (wloop s2 p _) as [[s3 r] ok3]. exact F3.
Qed.
Lemma propagate_ne : forall fuel s, NE s -> NE (fst (propagate fuel s)).
Proof.
  induction fuel as [|fuel IH]; intros s H; cbn [propagate]; auto. destruct (nth_error _ _) as [e|]; auto.
  pose proof (prop1_ne s (e_lit e) H) as F. destruct (prop1 s (e_lit e)) as [s1 ok]. destruct ok; cbn [fst] in *; auto.
Qed.

Lemma propagate_lemma : forall n s D, reach n s D -> b_conf s = None ->
  exists s' ok, propagate (S (S n)) s = (s', Some ok) /\
    b_dl s' = b_dl s /\ (exists x, b_trail s' = b_trail s ++ x) /\
    (ok = true -> b_conf s' = None /\ forall c, inDb D c -> quiet (b_trail s') c) /\
    (ok = false -> exists c, inDb D c /\ violated (b_trail s') c).
Proof.
  intros n s D R NC. destruct (reach_inv n s D R) as [G I]. destruct (propagate (S (S n)) s) as [s' r] eqn:E.
  destruct (propagate_spec n D G _ s I NC s' r E) as [I' [DL [X [T [F _]]]]]. pose proof (propagate_total n D G s I NC s' r E) as NN.
  destruct r as [ok|]; [|congruence]. exists s', ok. sp; auto.
  - intros ->. destruct (T eq_refl) as [A B]. split; auto. apply (quiet_of n s' D G I' A B).
  - intros ->. destruct (F eq_refl) as [A B]. destruct (b_conf s') as [[p w]|] eqn:CF; [|congruence].
    destruct (k_conf _ _ _ _ (proj1 I') p w CF) as [H|[H _]]; auto. exfalso. subst w.
    assert (N : NE (fst (propagate (S (S n)) s))). { apply propagate_ne. intros q. congruence. }
    rewrite E in N. exact (N p CF).
Qed.
Lemma conflict_lemma : forall n s D p w, reach n s D -> b_conf s = Some (p, w) -> w = Ext \/ exists c, inDb D c /\ violated (b_trail s) c.
Proof. intros n s D p w R. intros CF. destruct (reach_inv n s D R) as [G [K _]]. destruct (k_conf _ _ _ _ K p w CF) as [H|[H _]]; auto. Qed.
