(** Parallel solving: invariants that do not depend on solutions (C50). *)
From Coq Require Import List Bool Arith ZArith Lia.
Import ListNotations.
From Verif Require Import Base PsSpec PsModel PsProofs.

Section P.
Variables (sol : Type) (tv : sol -> lit -> bool) (G : sol -> Prop) (cost : sol -> Z) (same : sol -> sol -> Prop) (C : cfg).
Notation thread := (thread sol).
Notation glob := (glob sol).
Notation pcT := (pcT sol).
Notation st := (st sol).
Notation tstep := (tstep tv G cost same C).
Notation step := (step tv G cost same C).
Notation reach := (reach tv G cost same C).
Notation waits := (waits sol).
Notation lives := (lives sol).

(** The configurations covered: global restarts and enumeration of optima are not combined with splitting, optima are not
    enumerated by the optimiser, threads that enumerate by backtracking do not run out of memory *)
Record scope : Prop := Scope {
  sc_split : c_split C = true -> c_rst C = false /\ c_tent C = false;
  sc_tent : c_tent C = true -> c_kind C <> Opt;
  sc_oom : c_oom C = true -> c_kind C <> Bt;
  sc_n : c_n C <= 64 }.
Hypothesis HS : scope.

(** ** Bits *)
Local Open Scope Z_scope.
Lemma testbit_sub v i j : Z.testbit v (Z.of_nat j) = true -> i <> j -> (i < 64)%nat ->
  Z.testbit ((v - 2 ^ Z.of_nat j) mod 2 ^ 64) (Z.of_nat i) = Z.testbit v (Z.of_nat i).
Proof.
  intros H N I. rewrite Z.mod_pow2_bits_low by lia.
  rewrite Z.sub_nocarry_ldiff.
  - rewrite Z.ldiff_spec, Z.pow2_bits_false by lia. now rewrite andb_true_r.
  - apply Z.bits_inj'. intros k K. rewrite Z.ldiff_spec, Z.bits_0. destruct (Z.eq_dec k (Z.of_nat j)) as [->|E].
    + rewrite H. apply andb_false_r.
    + rewrite Z.pow2_bits_false by lia. reflexivity.
Qed.
Lemma maxV_bit i : (i < 64)%nat -> Z.testbit maxV (Z.of_nat i) = true.
Proof. intros H. change maxV with (Z.ones 64). apply Z.ones_spec_low. lia. Qed.
Lemma maxV_nz : maxV <> 0.
Proof. discriminate. Qed.
Local Close Scope Z_scope.

(** ** Effects on shared variables *)
(** Without the variables that only matter for waiting *)
Definition neut (g : glob) : glob := Glob (term g) (sync g) (rst g) (compl g) false (allow g) (forbid g) (aband g) (initv g) (q g) O O O None (tent g) (rep0 g) (rep g) (msplit g) (fun _ => false).
Inductive eff (i : nat) (g : glob) (t : thread) : glob -> Prop :=
| E_id : eff i g t g
| E_term : eff i g t (set_term g true)
| E_sub : pc t = Req5 -> eff i g t (subBit g i)
| E_xchg : pc t = Req4b -> initv g <> 0%Z -> eff i g t (set_initv g 0)
| E_zero : pc t = CM3 -> eff i g t (set_initv g 0)
| E_pop p r : pc t = ReqW -> term g = false -> sync g = false -> q g = p :: r -> eff i g t (set_q g r)
| E_push p : pc t = Run -> isSplit t = true -> snd p = false -> eff i g t (set_q g (q g ++ [p]))
| E_oom p : pc t = Exc -> allow g = true -> cur t = Some p -> eff i g t (set_q g (q g ++ [p]))
| E_commit m : pc t = CM1 m -> term g = false -> (if btNow C g then rep g = [] \/ disj t = true else ~ excl cost same C g m) -> eff i g t (commitG C g m)
| E_la r hp tn : pc t = La r hp tn -> eff i g t (syncInit C g)
| E_lb r hp tn : pc t = Lb r hp tn -> eff i g t (syncComplete tn g)
| E_lc r hp : pc t = Lc r hp -> eff i g t (syncClear g)
| E_ta k : pc t = TermA true k -> tent g = true -> eff i g t (set_compl (set_sync g true) true)
| E_tc c k : pc t = TermC c k -> eff i g t (set_compl g (compl g || c)).
Lemma tstep_eff i g t g' t' : tstep i g t g' t' -> pc t <> RunR -> exists h, eff i g t h /\ neut g' = neut h.
Proof.
  intros H NR. destruct H; try congruence;
    try (exists g; split; [apply E_id|reflexivity]); try (exists (set_term g true); split; [apply E_term|reflexivity]).
  - exists (subBit g i). split; [now apply E_sub|reflexivity].
  - exists (set_initv g 0). split; [now apply E_xchg|reflexivity].
  - exists (set_q g r). split; [|reflexivity]. apply orb_false_elim in H0. now apply E_pop with p.
  - exists (set_q g (q g ++ [(np, false)])). split; [|reflexivity]. now apply E_push.
  - exists (commitG C g m). split; [now apply E_commit|reflexivity].
  - exists (set_initv g 0). split; [now apply E_zero|reflexivity].
  - exists (syncInit C g). split; [now apply E_la with r hp tn|reflexivity].
  - exists (syncComplete tn g). split; [now apply E_lb with r hp|reflexivity].
  - exists (syncClear g). split; [now apply E_lc with r hp|reflexivity].
  - apply andb_prop in H0. destruct H0 as [? ->]. exists (set_compl (set_sync g true) true). split; [now apply E_ta with k|reflexivity].
  - exists (set_compl g (compl g || c)). split; [now apply E_tc with k|reflexivity].
  - exists (set_q g (q g ++ [p])). split; [now apply E_oom|reflexivity].
Qed.

(** ** Sets of program points *)
Definition retOf (p : pcT) : option (ret) :=
  match p with WS0 r | WS1 r _ _ | WaitS r _ _ | La r _ _ | Lb r _ _ | Lc r _ | Ld r _ | WSr r _ => Some r | _ => None end.
Definition lm (p : pcT) : bool := match p with La _ _ _ | Lb _ _ _ | Lc _ _ => true | _ => false end.
Definition parked (p : pcT) : bool := match p with WS1 _ _ _ | WaitS _ _ _ | Left => true | _ => false end.
(** Before the first synchronisation is over *)
Definition preP (p : pcT) : bool :=
  match p with
  | Start | Req None | Req2 None | WS0 _ | WS1 _ _ _ | WaitS _ _ _ | La _ _ _ | Lb _ _ _ | Lc _ _
  | Term _ (KReq None) | TermA _ (KReq None) | TermC _ (KReq None) | Leave | Left => true | _ => false end.
(** The thread searches its path *)
Definition runP (p : pcT) : bool :=
  match p with Run | RunR | CM0 _ | CM1 _ | CM3 | CM4 | CM5 false | UnsatO | Term false _ | TermA false _ => true | _ => false end.
(** The path in the hands of a thread that does not search *)
Definition itemOf (p : pcT) : option item :=
  match p with Req (Some p) | Req2 (Some p) | Got p | Term _ (KReq (Some p)) | TermA _ (KReq (Some p)) | TermC _ (KReq (Some p)) => Some p | _ => None end.
Definition retItem (r : ret) : option item := match r with RReq k => k | RGot p => Some p | RRun => None end.

(** ** The invariants *)
Record GI (g : glob) : Prop := {
  g_rst : rst g = false; g_aband : aband g = false; g_forbid : c_rst C = true -> forbid g = true;
  g_allow : allow g = true -> tent g = false;
  g_split : msplit g = true -> allow g = true /\ c_split C = true;
  g_port : allow g = true -> msplit g = false -> sync g = false /\ c_kind C = Bt /\ rep g <> [];
  g_bt : btNow C g = true -> rep g <> [] -> allow g = true;
  g_tent : tent g = true -> c_tent C = true;
  g_rep0 : msplit g = true -> sync g = true -> rep g = [] /\ q g = [];
  g_init : msplit g = true -> initv g = 0%Z \/ initv g = maxV;
  g_q : allow g = false -> q g = [];
  g_items : msplit g = false -> forall p, In p (q g) -> snd p = false }.
Record TI (g : glob) (i : nat) (t : thread) : Prop := {
  t_rst : pc t <> RunR;
  t_pre : sync g = true -> tent g && compl g = false -> preP (pc t) = true;
  t_lm : lm (pc t) = true -> sync g = true;
  t_initv : match pc t with Lb _ _ _ | Lc _ _ => initv g = maxV | _ => True end;
  t_wait : match pc t with ReqW | WaitW => allow g = true | _ => True end;
  t_zero : msplit g = true -> match pc t with Req6 | ReqW | WaitW => initv g = 0%Z | Req5 => False | _ => True end;
  t_bit : allow g = false -> match pc t with Req4 | Req5 => bit g i = true | Req6 => bit g i = false | Req4b => False | _ => True end;
  t_tn : tent g = true -> match pc t with WS1 _ _ tn | WaitS _ _ tn | La _ _ tn | Lb _ _ tn => tn = true | _ => True end;
  t_lc : match pc t with Lc _ _ => compl g = true -> tent g = true -> term g = true | _ => True end;
  t_us : (pc t = UnsatS \/ retOf (pc t) = Some RRun) -> term g = true \/ (sync g = true /\ compl g = true /\ c_tent C = true) \/ optimize C g = false;
  t_hp : match pc t with WS1 RRun hp _ | WaitS RRun hp _ | La RRun hp _ | Lb RRun hp _ | Lc RRun hp | Ld RRun hp | WSr RRun hp => hp = true | _ => True end;
  t_path : runP (pc t) = true \/ pc t = WS0 RRun -> hasPath t = true;
  t_uo : pc t = UnsatO -> optimize C g = true;
  t_gp1 : msplit g = true -> runP (pc t) = true -> isSplit t = true;
  t_gp0 : msplit g = false -> isSplit t = true -> allow g = true /\ disj t = true;
  t_gpn : msplit g = true -> sync g = true -> isSplit t = false;
  t_ws1 : msplit g = true -> forall r, retOf (pc t) = Some r -> r = RReq None;
  t_ws0 : msplit g = false -> forall r p, retOf (pc t) = Some r -> retItem r = Some p -> p = (c_path C, true);
  t_it : allow g = false -> forall p, itemOf (pc t) = Some p -> p = (c_path C, true);
  t_exc : pc t = Exc -> c_oom C = true;
  t_tc : match pc t with TermC _ _ => term g = true | _ => True end;
  t_cm3 : pc t = CM3 -> btNow C g = true /\ disj t = true /\ (rep g <> []) }.

Lemma GI_neut g h : neut g = neut h -> GI h -> GI g.
Proof.
  intros E H. assert (GI (neut h)) as H' by (destruct H; constructor; assumption). rewrite <- E in H'. destruct H'; constructor; assumption.
Qed.
Lemma TI_neut g h i t : neut g = neut h -> TI h i t -> TI g i t.
Proof.
  intros E H. assert (TI (neut h) i t) as H' by (destruct H; constructor; assumption). rewrite <- E in H'. destruct H'; constructor; assumption.
Qed.

(** ** Shared variables *)
Lemma optimize_bt (g : glob) : btNow C g = true -> tent g = false /\ c_kind C = Bt /\ optimize C g = false.
Proof. unfold btNow, optimize. destruct (tent g), (c_kind C); cbn; auto; discriminate. Qed.
Lemma nonpre_sync (g : glob) i (t : thread) : GI g -> TI g i t -> tent g = false -> preP (pc t) = false -> sync g = false.
Proof.
  intros H HT T N. destruct (sync g) eqn:E; [|reflexivity]. rewrite (t_pre _ _ _ HT E) in N; [discriminate|]. now rewrite T.
Qed.
Lemma la_syncInit (g : glob) : GI g -> syncInit C g = initQ C (set_rreq g O).
Proof. intros H. unfold syncInit. cbn. now rewrite (g_rst _ H). Qed.
Lemma GI_eff i g t h : eff i g t h -> GI g -> TI g i t -> GI h.
Proof.
  intros E H HT. destruct E as [| |P|P Z|P|p r P T0 S0 Q|p P Sp Sn|p P Al Cu|m P T0 B|r hp tn P|r hp tn P|r hp P|k P Tn|c k P].
  - exact H.
  - destruct H; constructor; assumption.
  - pose proof (t_zero _ _ _ HT) as Z. rewrite P in Z. destruct H; constructor; try assumption. intros M. destruct (Z M).
  - destruct H; constructor; try assumption. cbn. auto.
  - destruct H; constructor; try assumption. cbn. auto.
  - pose proof (t_wait _ _ _ HT) as W. rewrite P in W. destruct H; constructor; try assumption; cbn.
    + intros _ E. congruence.
    + congruence.
    + intros M x I. apply g_items0; [exact M|]. rewrite Q. now right.
  - assert (allow g = true) as Al.
    { destruct (msplit g) eqn:M; [apply (g_split _ H M)|apply (t_gp0 _ _ _ HT M Sp)]. }
    assert (sync g = false) as Sy by (apply (nonpre_sync g i t H HT); [apply (g_allow _ H Al)|now rewrite P]).
    destruct H; constructor; try assumption; cbn.
    + congruence.
    + congruence.
    + intros M x I. apply in_app_iff in I. destruct I as [I|[<-|[]]]; [now apply g_items0|exact Sn].
  - assert (sync g = false) as Sy by (apply (nonpre_sync g i t H HT); [apply (g_allow _ H Al)|now rewrite P]).
    pose proof (t_exc _ _ _ HT P) as O. apply (sc_oom HS) in O.
    destruct H; constructor; try assumption; cbn.
    + congruence.
    + congruence.
    + intros M. destruct (g_port0 Al M) as (_ & K & _). contradiction.
  - assert (tent g = false -> sync g = false) as Sy by (intros T; apply (nonpre_sync g i t H HT T); now rewrite P).
    pose proof (optimize_bt g) as OB.
    destruct H. unfold commitG. destruct (btNow C g) eqn:BN; [destruct (rep g) as [|r0 rr] eqn:R|]; cbn [isNil andb].
    + destruct (OB eq_refl) as (Tt & K & _).
      constructor; cbn; auto; try congruence.
      * intros M. destruct (g_split0 M). auto.
      * intros _ _. repeat split; auto. discriminate.
      * intros M S. rewrite (Sy Tt) in S. discriminate.
    + destruct (OB eq_refl) as (Tt & K & _). constructor; cbn; auto; try congruence.
      * intros A M. destruct (g_port0 A M) as (? & ? & ?). repeat split; auto. discriminate.
      * intros _ _. apply g_bt0; [reflexivity|]. discriminate.
      * intros M S. rewrite (Sy Tt) in S. discriminate.
    + constructor; cbn; auto; try congruence.
      * intros A M. destruct (g_port0 A M) as (? & ? & ?). repeat split; auto. destruct (rep g); discriminate.
      * intros X. change (btNow C g = true) in X. congruence.
      * intros M S. destruct (g_split0 M) as [A _]. rewrite (Sy (g_allow0 A)) in S. discriminate.
  - rewrite (la_syncInit _ H). pose proof (t_lm _ _ _ HT) as L. rewrite P in L. specialize (L eq_refl).
    destruct H. unfold initQ. cbn. destruct (allow g) eqn:A; cbn; [destruct (msplit g) eqn:M; cbn; [destruct (c_can C) eqn:K; cbn|]|].
    + constructor; cbn; auto; try congruence.
      * intros _. destruct (g_split0 eq_refl). auto.
      * intros _ S. destruct (g_rep1 eq_refl S). auto.
    + destruct (g_split0 eq_refl) as [_ D]. destruct (g_rep1 eq_refl L) as [R _]. constructor; cbn; auto; try congruence.
      intros _ p [].
    + destruct (g_port0 eq_refl eq_refl) as [S _]. congruence.
    + constructor; cbn; auto; try congruence.
      * intros M. destruct (g_split0 M). congruence.
      * intros M R. discriminate (g_bt0 M R).
      * intros M S. destruct (g_rep1 M S). auto.
      * intros _ p [].
  - unfold syncComplete. destruct (tn && compl g) eqn:B; [|exact H]. destruct (tent g && _) eqn:D.
    + apply andb_prop in D. destruct D as [D _]. assert (allow g = false) as A by (destruct (allow g) eqn:A; [apply (g_allow _ H) in A; congruence|reflexivity]).
      destruct H. constructor; cbn; auto; try congruence.
    + destruct H; constructor; assumption.
  - destruct H. constructor; cbn; auto; try congruence. intros A M. destruct (g_port0 A M) as (? & ?). auto.
  - assert (allow g = false) as A by (destruct (allow g) eqn:A; [apply (g_allow _ H) in A; congruence|reflexivity]).
    destruct H. constructor; cbn; auto; try congruence. intros M. destruct (g_split0 M). congruence.
  - destruct H; constructor; assumption.
Qed.

(** ** Other threads *)
Lemma TI_other i g t h j tj : eff i g t h -> GI g -> TI g i t -> i <> j -> j < c_n C ->
  (lm (pc t) = true -> parked (pc tj) = true) -> (lm (pc tj) = true -> parked (pc t) = true) -> TI g j tj -> TI h j tj.
Proof.
  intros E H HT N J LP LJ HJ. pose proof (sc_n HS) as N64.
  destruct E as [| |P|P Z|P|p r P T0 S0 Q|p P Sp Sn|p P Al Cu|m P T0 B|r hp tn P|r hp tn P|r hp P|k P Tn|c k P].
  - exact HJ.
  - destruct HJ; constructor; try assumption; cbn; auto.
    + destruct (pc tj); auto.
    + destruct (pc tj); auto.
  - pose proof (t_zero _ _ _ HT) as Z. pose proof (t_bit _ _ _ HT) as B. rewrite P in Z, B, LJ.
    destruct HJ; constructor; try assumption; cbn.
    + destruct (pc tj); auto; discriminate (LJ eq_refl).
    + intros M. destruct (Z M).
    + intros A. specialize (t_bit0 A). assert (bit (subBit g i) j = bit g j) as ->; [|exact t_bit0].
      unfold bit, subBit. cbn [initv set_initv]. apply testbit_sub; [apply B, A|auto|lia].
  - pose proof (t_bit _ _ _ HT) as B. rewrite P in B, LJ.
    destruct HJ; constructor; try assumption; cbn.
    + destruct (pc tj); auto; discriminate (LJ eq_refl).
    + intros M. specialize (t_zero0 M). destruct (pc tj); auto.
    + intros A. destruct (B A).
  - destruct (t_cm3 _ _ _ HT P) as (B & D & R). pose proof (g_bt _ H B R) as Al. rewrite P in LJ.
    destruct HJ; constructor; try assumption; cbn.
    + destruct (pc tj); auto; discriminate (LJ eq_refl).
    + intros M. specialize (t_zero0 M). destruct (pc tj); auto.
    + congruence.
  - destruct HJ; constructor; assumption.
  - destruct HJ; constructor; assumption.
  - destruct HJ; constructor; assumption.
  - rewrite P in LJ.
    assert (forall h : glob, tent h = tent g -> btNow C h = btNow C g /\ optimize C h = optimize C g) as OP by (intros h E; unfold btNow, optimize; now rewrite E).
    destruct HJ. unfold commitG. destruct (btNow C g && isNil (rep g)) eqn:BN; constructor; try assumption; cbn; auto; try congruence.
    + destruct (pc tj); auto.
    + intros M Sp. destruct (t_gp3 M Sp). auto.
    + intros X. destruct (t_cm4 X) as (? & ? & ?). repeat split; auto. destruct (rep g); discriminate.
    + intros X. destruct (t_cm4 X) as (? & ? & ?). repeat split; auto. destruct (rep g); discriminate.
  - rewrite P in LP. specialize (LP eq_refl). rewrite (la_syncInit _ H). pose proof (t_lm _ _ _ HT) as L. rewrite P in L. specialize (L eq_refl).
    destruct HJ. unfold initQ. cbn. destruct (pc tj) eqn:PJ; try discriminate LP; (destruct (allow g && msplit g && negb (c_can C)) eqn:D;
     [apply andb_prop in D; destruct D as [D _]; apply andb_prop in D; destruct D as [_ D]; assert (tent g = false) by apply (g_allow _ H), (g_split _ H D)|]; constructor; cbn; try rewrite PJ; cbn; auto; try congruence; try (intros; discriminate)).
    + intros _ X. rewrite (t_gpn0 D L) in X. discriminate.
    + intros _ r1 p [= <-] X. rewrite (t_ws2 D _ eq_refl) in X. discriminate.
    + intros _ X. rewrite (t_gpn0 D L) in X. discriminate.
    + intros _ r1 p [= <-] X. rewrite (t_ws2 D _ eq_refl) in X. discriminate.
    + intros _ X. rewrite (t_gpn0 D L) in X. discriminate.
  - rewrite P in LP. specialize (LP eq_refl). pose proof (g_tent _ H) as GT.
    unfold syncComplete. destruct (tn && compl g) eqn:B; [|exact HJ]. apply andb_prop in B. destruct B as [_ B]. destruct (tent g && _) eqn:D.
    + apply andb_prop in D. destruct D as [D _]. specialize (GT D). assert (c_kind C <> Opt) as NO by (apply (sc_tent HS GT)).
      assert (forall h : glob, tent h = false -> optimize C h = false) as OF by (intros h E; unfold optimize; rewrite E; destruct (c_kind C); cbn; congruence).
      destruct HJ. destruct (pc tj) eqn:PJ; try discriminate LP; constructor; cbn; try rewrite PJ; cbn; auto; try congruence; try (intros; discriminate); intros _; right; right; destruct (c_kind C); congruence.
    + destruct HJ; constructor; try assumption; cbn; auto; destruct (pc tj); auto.
  - rewrite P in LP. specialize (LP eq_refl). pose proof (t_lc _ _ _ HT) as LC. rewrite P in LC.
    assert (forall h : glob, tent h = tent g -> c_tent C = true -> tent g = false -> optimize C h = false) as OF.
    { intros h E K K'. apply (sc_tent HS) in K. unfold optimize. rewrite E, K'. destruct (c_kind C); cbn; congruence. }
    destruct HJ. destruct (pc tj) eqn:PJ; try discriminate LP; constructor; cbn; try rewrite PJ; cbn; auto; try congruence; try (intros; discriminate).
    all: intros X; destruct (t_us0 X) as [Y|[(Y & Z & K)|Y]]; auto; (destruct (tent g) eqn:Tg; [left; auto|right; right; auto]).
  - assert (lm (pc tj) = true -> False) as LJ' by (intros X; specialize (LJ X); rewrite P in LJ; discriminate LJ).
    assert (msplit g = true -> False) as NM by (intros M; apply (g_split _ H) in M; destruct M as [M _]; apply (g_allow _ H) in M; congruence).
    destruct HJ. constructor; cbn; auto; try tauto; try (intros _; rewrite Tn; discriminate).
    + destruct (pc tj) eqn:PJ; auto; now destruct (LJ' eq_refl).
  - assert (lm (pc tj) = true -> False) as LJ' by (intros X; specialize (LJ X); rewrite P in LJ; discriminate LJ).
    destruct HJ. constructor; cbn; auto; try tauto.
    + intros S X. apply t_pre0; [exact S|]. destruct (tent g), (compl g); auto.
    + destruct (pc tj) eqn:PJ; auto; now destruct (LJ' eq_refl).
    + intros X. destruct (t_us0 X) as [Y|[(Y & Z & K)|Y]]; auto. right. left. rewrite Z. auto.
Qed.

End P.
Arguments sc_split {C}. Arguments sc_tent {C}. Arguments sc_oom {C}. Arguments sc_n {C}.
Arguments g_aband {sol C}. Arguments g_allow {sol C}. Arguments g_bt {sol C}. Arguments g_forbid {sol C}. Arguments g_init {sol C}. Arguments g_items {sol C}. Arguments g_port {sol C}. Arguments g_q {sol C}. Arguments g_rep0 {sol C}. Arguments g_rst {sol C}. Arguments g_split {sol C}. Arguments g_tent {sol C}.
Arguments t_bit {sol C}. Arguments t_cm3 {sol C}. Arguments t_exc {sol C}. Arguments t_gp0 {sol C}. Arguments t_gp1 {sol C}. Arguments t_gpn {sol C}. Arguments t_hp {sol C}. Arguments t_initv {sol C}. Arguments t_it {sol C}. Arguments t_lc {sol C}. Arguments t_lm {sol C}. Arguments t_path {sol C}. Arguments t_pre {sol C}. Arguments t_rst {sol C}. Arguments t_tc {sol C}. Arguments t_tn {sol C}. Arguments t_uo {sol C}. Arguments t_us {sol C}. Arguments t_wait {sol C}. Arguments t_ws0 {sol C}. Arguments t_ws1 {sol C}. Arguments t_zero {sol C}.
Arguments optimize_bt {sol}. Arguments nonpre_sync {sol}. Arguments la_syncInit {sol}.
