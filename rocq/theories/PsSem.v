(** Parallel solving: what a set flag or a thread knows about solutions (C50). *)
From Coq Require Import List Bool Arith ZArith Lia.
Import ListNotations.
From Verif Require Import Base PsSpec PsModel PsProofs PsInv PsInvS PsInvR.

Section P.
Variables (sol : Type) (tv : sol -> lit -> bool) (G : sol -> Prop) (cost : sol -> Z) (same : sol -> sol -> Prop) (C : cfg).
Notation thread := (thread sol).
Notation glob := (glob sol).
Notation pcT := (pcT sol).
Notation st := (st sol).
Notation tstep := (tstep tv G cost same C).
Notation step := (step tv G cost same C).
Notation reach := (reach tv G cost same C).
Notation waits := (waits sol).
Notation lives := (lives sol).

Notation scope := (scope C).
Notation GI := (GI sol C).
Notation TI := (TI sol C).
Notation eff := (eff sol cost same C).
Notation lm := (lm sol).
Notation parked := (parked sol).
Notation preP := (preP sol).
Notation runP := (runP sol).
Notation itemOf := (itemOf sol).
Notation retOf := (retOf sol).
Notation Inv := (Inv sol C).
Notation excl := (excl cost same C).
Notation Sol := (Sol tv G C).
Notation inP := (inP tv).
Notation nothingLeft := (nothingLeft tv G cost same C).
Hypothesis HS : scope.


Definition A (g : glob) : Prop := nothingLeft g all.
(** Without a path and not yet leaving *)
Definition idleP (p : pcT) : bool :=
  match p with
  | Start | Req None | Req2 None | Req3 | Req4 | Req5 | Req6 | UnsatS | Done | CM5 true => true
  | _ => match retOf p with Some RRun | Some (RReq None) => true | _ => false end end.
Definition isExc (p : pcT) : bool := match p with Exc => true | _ => false end.
(** Solutions a thread has to search when the space is split *)
Definition clm (g : glob) (t : thread) (m : sol) : Prop :=
  match itemOf (pc t) with
  | Some p => (msplit g = true \/ snd p = false) /\ inP p m
  | None => runP (pc t) || isExc (pc t) = true /\ (msplit g = true \/ disj t = true) /\ reg t m
  end.
Definition inq (g : glob) (m : sol) : Prop := exists p, In p (q g) /\ inP p m.
Definition cover (g : glob) (f : nat -> thread) : Prop :=
  forall m, Sol m -> excl g m \/ (exists j, j < c_n C /\ clm g (f j) m) \/ inq g m.
Definition GC (s : st) : Prop :=
  allow (gl s) = true -> term (gl s) = true \/ sync (gl s) = true \/ (msplit (gl s) = true /\ initv (gl s) <> 0%Z) \/ cover (gl s) (thr s).

Record GB (g : glob) : Prop := {
  gb_compl : compl g = true -> A g;
  gb_rep : forall r, In r (rep g) -> Sol r;
  gb_rep0 : forall r, In r (rep0 g) -> Sol r;
  gb_no0 : tent g = true \/ c_tent C = false -> rep0 g = [] }.
Record TB (g : glob) (i : nat) (t : thread) : Prop := {
  b_cur : runP (pc t) || isExc (pc t) = true -> exists p, cur t = Some p /\ forall m, reg t m -> inP p m;
  b_cm : match pc t with CM0 m | CM1 m => Sol m /\ reg t m | _ => True end;
  b_term : match pc t with
           | Term true _ => A g \/ term g = true | TermA true _ | TermC true _ => A g
           | ReqNone => sync g = true \/ A g \/ term g = true | _ => True end;
  b_idle : allow g = false -> idleP (pc t) = true -> sync g = true \/ bit g i = true \/ A g \/ term g = true;
  b_run : allow g = false -> runP (pc t) = true -> forall m, Sol m -> excl g m \/ reg t m;
  b_dj : allow g = false -> runP (pc t) = true -> disj t = false }.

Lemma GB_neut g h : neut sol g = neut sol h -> GB h -> GB g.
Proof.
  intros E H. assert (GB (neut sol h)) as H' by (destruct H; constructor; assumption). rewrite <- E in H'. destruct H'; constructor; assumption.
Qed.
Lemma TB_neut g h i t : neut sol g = neut sol h -> TB h i t -> TB g i t.
Proof.
  intros E H. assert (TB (neut sol h) i t) as H' by (destruct H; constructor; assumption). rewrite <- E in H'. destruct H'; constructor; assumption.
Qed.

(** What is excluded stays excluded, except when the optimum is known *)
Definition switch (g : glob) (t : thread) (h : glob) : Prop :=
  match pc t with Lb _ _ _ => True | _ => False end /\ tent g = true /\ tent h = false /\ compl h = false /\ sync h = sync g /\ rep h = [] /\ rep0 h = rep g /\ allow h = allow g.
Lemma excl_mono (g h : glob) m : tent h = tent g -> rep0 h = rep0 g -> (forall r, In r (rep g) -> In r (rep h)) -> excl g m -> excl h m.
Proof.
  intros E E0 I. unfold PsModel.excl, optimize. rewrite E, E0. destruct (tent g || _).
  - intros (r & R & L). eauto.
  - intros [X|(r & R & L)]; [auto|]. right. eauto.
Qed.
Lemma excl_eff i g t h : eff i g t h -> switch g t h \/ forall m, excl g m -> excl h m.
Proof.
  intros E. destruct E as [| |P|P Z|P|p r P T0 S0 Q|p P Sp Sn|p P Al Cu|m P T0 B|r hp tn P|r hp tn P|r hp P|k P Tn|c k P];
    try (right; intros m' X; now apply (excl_mono g)).
  - right. intros m' X. apply (excl_mono g); auto; unfold commitG; destruct (_ && _); cbn; auto; intros r R; apply in_app_iff; auto.
  - right. intros m' X. apply (excl_mono g); auto; unfold syncInit, initQ; cbn; destruct (_ || _); cbn; auto; destruct (_ && _); auto.
  - unfold syncComplete. destruct (tn && compl g); [|right; auto]. destruct (tent g && _) eqn:D; [|right; intros m' X; now apply (excl_mono g)].
    left. apply andb_prop in D. destruct D as [D _]. unfold switch. rewrite P. repeat split; auto.
Qed.
Lemma A_eff i g t h : eff i g t h -> A g -> switch g t h \/ A h.
Proof. intros E H. destruct (excl_eff _ _ _ _ E) as [W|W]; [auto|right]. intros m S X. apply W. now apply H. Qed.
Lemma A_neut g h : neut sol g = neut sol h -> A h -> A g.
Proof.
  intros E H m S X. specialize (H m S X). change (excl (neut sol h) m) in H. rewrite <- E in H. exact H.
Qed.
Lemma switch_lm g t h : switch g t h -> lm (pc t) = true.
Proof. intros (H & _). now destruct (pc t). Qed.

Lemma GB_eff i g t h : eff i g t h -> GI g -> GB g -> TB g i t -> GB h.
Proof.
  intros E HG HB HT. pose proof (excl_eff _ _ _ _ E) as X.
  assert (A g -> switch g t h \/ A h) as XA by (apply (A_eff _ _ _ _ E)).
  destruct HB as [B1 B2 B3 B4]. constructor.
  - intros K. assert (A g \/ compl g = true -> A h) as W.
    { intros Y. assert (A g) as Z by tauto. destruct (XA Z) as [(_ & _ & _ & W & _)|W]; [congruence|exact W]. }
    apply W. destruct E as [| |P|P Z|P|p r P T0 S0 Q|p P Sp Sn|p P Al Cu|m P T0 B|r hp tn P|r hp tn P|r hp P|k P Tn|c k P]; auto.
    + right. revert K. unfold commitG. now destruct (_ && _).
    + right. revert K. unfold syncInit, initQ. cbn. destruct (_ || _); [destruct (_ && _)|]; auto.
    + right. revert K. unfold syncComplete. destruct (_ && compl g); [destruct (tent g && _)|]; cbn; auto; discriminate.
    + left. pose proof (b_term _ _ _ HT) as Y. now rewrite P in Y.
    + pose proof (b_term _ _ _ HT) as Y. rewrite P in Y. cbn in K. apply orb_prop in K. destruct K as [K| ->]; auto.
  - destruct E as [| |P|P Z|P|p r P T0 S0 Q|p P Sp Sn|p P Al Cu|m P T0 B|r hp tn P|r hp tn P|r hp P|k P Tn|c k P]; auto.
    + pose proof (b_cm _ _ _ HT) as Y. rewrite P in Y. destruct Y as [Y _]. intros r R.
      assert (In r (rep g ++ [m])) as R' by (revert R; unfold commitG; now destruct (_ && _)). apply in_app_iff in R'. destruct R' as [R'|[<-|[]]]; auto.
    + unfold syncInit, initQ. cbn. destruct (_ || _); [destruct (_ && _)|]; auto.
    + unfold syncComplete. destruct (_ && compl g); [destruct (tent g && _)|]; cbn; auto; intros ? [].
  - destruct E as [| |P|P Z|P|p r P T0 S0 Q|p P Sp Sn|p P Al Cu|m P T0 B|r hp tn P|r hp tn P|r hp P|k P Tn|c k P]; auto.
    + unfold commitG. destruct (_ && _); auto.
    + unfold syncInit, initQ. cbn. destruct (_ || _); [destruct (_ && _)|]; auto.
    + unfold syncComplete. destruct (_ && compl g); [destruct (tent g && _)|]; cbn; auto.
  - destruct E as [| |P|P Z|P|p r P T0 S0 Q|p P Sp Sn|p P Al Cu|m P T0 B|r hp tn P|r hp tn P|r hp P|k P Tn|c k P]; auto.
    + unfold commitG. destruct (_ && _); auto.
    + unfold syncInit, initQ. cbn. destruct (_ || _); [destruct (_ && _)|]; auto.
    + unfold syncComplete. destruct (_ && compl g); [destruct (tent g && _) eqn:D|]; cbn; auto.
      apply andb_prop in D. destruct D as [D _]. intros [X'|X']; [discriminate|]. rewrite (g_tent _ HG D) in X'. discriminate.
Qed.

Lemma la_fields (g : glob) : GI g -> term (syncInit C g) = term g /\ sync (syncInit C g) = sync g /\ compl (syncInit C g) = compl g /\ tent (syncInit C g) = tent g /\
  rep (syncInit C g) = rep g /\ rep0 (syncInit C g) = rep0 g /\ q (syncInit C g) = [] /\ initv (syncInit C g) = maxV /\
  ((allow (syncInit C g) = allow g /\ msplit (syncInit C g) = msplit g) \/ (allow (syncInit C g) = false /\ msplit (syncInit C g) = false /\ msplit g = true)).
Proof.
  intros H. rewrite (la_syncInit C g H). unfold initQ. cbn. destruct (allow g && msplit g && negb (c_can C)) eqn:D; cbn; repeat split; auto.
  right. apply andb_prop in D. destruct D as [D _]. apply andb_prop in D. tauto.
Qed.
Lemma lb_fields (g : glob) tn : term (syncComplete tn g) = term g \/ term (syncComplete tn g) = true.
Proof. unfold syncComplete. destruct (tn && compl g); [destruct (tent g && _)|]; auto. Qed.
Lemma lb_same (g : glob) tn : sync (syncComplete tn g) = sync g /\ allow (syncComplete tn g) = allow g /\ msplit (syncComplete tn g) = msplit g /\ q (syncComplete tn g) = q g /\ initv (syncComplete tn g) = initv g.
Proof. unfold syncComplete. destruct (tn && compl g); [destruct (tent g && _)|]; auto. Qed.
Lemma commit_fields (g : glob) m : term (commitG C g m) = term g /\ sync (commitG C g m) = sync g /\ tent (commitG C g m) = tent g /\ msplit (commitG C g m) = msplit g /\ q (commitG C g m) = q g /\ initv (commitG C g m) = initv g /\
  rep (commitG C g m) = rep g ++ [m] /\ rep0 (commitG C g m) = rep0 g /\ (allow (commitG C g m) = allow g \/ (allow (commitG C g m) = true /\ btNow C g = true /\ rep g = [])).
Proof.
  unfold commitG. destruct (btNow C g && isNil (rep g)) eqn:D; cbn; repeat split; auto. right. apply andb_prop in D. destruct (rep g); [tauto|]. destruct D; discriminate.
Qed.

Lemma TB_other i g t h j tj : eff i g t h -> GI g -> TI g i t -> i <> j -> j < c_n C -> (lm (pc t) = true -> parked (pc tj) = true) -> TI g j tj -> TB g j tj -> TB h j tj.
Proof.
  intros E HG HT N J LP TJ HB. pose proof (sc_n HS) as N64. pose proof (excl_eff _ _ _ _ E) as X.
  assert (lm (pc t) = true -> sync g = true) as LS by apply (t_lm _ _ _ HT).
  assert (parked (pc tj) = true -> runP (pc tj) = false /\ isExc (pc tj) = false /\ match pc tj with Term true _ | TermA true _ | TermC true _ | ReqNone | CM0 _ | CM1 _ => False | _ => True end) as PK by (destruct (pc tj); cbn; auto; discriminate).
  assert (A g -> A h \/ parked (pc tj) = true /\ sync h = true) as XA.
  { intros Y. destruct (A_eff _ _ _ _ E Y) as [W|W]; [right|auto]. pose proof (switch_lm _ _ _ W) as L. split; [auto|]. destruct W as (_ & _ & _ & _ & W & _). rewrite W. auto. }
  destruct HB as [B1 B2 B3 B4 B5 B6].
  assert (term g = true -> term h = true) as TM.
  { destruct E; auto; [destruct (commit_fields g m) as (Y & _); congruence|destruct (la_fields g HG) as (Y & _); congruence|destruct (lb_fields g tn); congruence]. }
  assert (sync g = true -> sync h = true \/ (exists r hp, pc t = Lc r hp) /\ h = syncClear g) as SM.
  { destruct E; auto; [destruct (commit_fields g m) as (_ & Y & _); left; congruence|destruct (la_fields g HG) as (_ & Y & _); left; congruence|destruct (lb_same g tn) as (Y & _); left; congruence|right; split; eauto]. }
  assert (allow h = false -> allow g = false \/ (lm (pc t) = true /\ sync h = true)) as AM.
  { destruct E; auto; [destruct (commit_fields g m) as (_ & _ & _ & _ & _ & _ & _ & _ & [Y|(Y & _)]); rewrite Y; auto; discriminate| |
      destruct (lb_same g tn) as (_ & Y & _); rewrite Y; auto]. intros _. right. rewrite H in *. split; [reflexivity|].
    destruct (la_fields g HG) as (_ & Y & _). rewrite Y. auto. }
  constructor; auto.
  - assert (forall P : pcT, pc tj = P -> parked P = false -> A g -> A h) as XA'.
    { intros P EP F Y. destruct (XA Y) as [Z|[Z _]]; [exact Z|]. congruence. }
    destruct (pc tj) eqn:PJ; auto.
    + destruct B3 as [B3|[B3|B3]]; auto; [|right; left; apply (XA' _ eq_refl); auto]. destruct (SM B3) as [Y|[(r & hp & Y) _]]; [auto|]. rewrite Y in LP. discriminate (LP eq_refl).
    + destruct c; auto. destruct B3 as [B3|B3]; auto. left. apply (XA' _ eq_refl); auto.
    + destruct c; auto. apply (XA' _ eq_refl); auto.
    + destruct c; auto. apply (XA' _ eq_refl); auto.
  - intros Ah Id. destruct (AM Ah) as [Ag|[L S]]; [|auto]. destruct (B4 Ag Id) as [Y|[Y|[Y|Y]]]; auto.
    + destruct (SM Y) as [Z|[(r & hp & Z) ->]]; [auto|]. right. left. pose proof (t_initv _ _ _ HT) as IV. rewrite Z in IV. unfold bit. cbn. rewrite IV. apply maxV_bit. lia.
    + right. left. unfold bit in *. destruct E as [| |P|P Z|P|p r P T0 S0 Q|p P Sp Sn|p P Al Cu|m P T0 B|r hp tn P|r hp tn P|r hp P|k P Tn|c k P]; auto.
      * cbn. rewrite testbit_sub; auto; [|lia]. pose proof (t_bit _ _ _ HT Ag) as Z. rewrite P in Z. exact Z.
      * pose proof (t_bit _ _ _ HT Ag) as Z'. rewrite P in Z'. destruct Z'.
      * destruct (t_cm3 _ _ _ HT P) as (B & D & R). rewrite (g_bt _ HG B R) in Ag. discriminate.
      * destruct (commit_fields g m) as (_ & _ & _ & _ & _ & -> & _). exact Y.
      * destruct (la_fields g HG) as (_ & _ & _ & _ & _ & _ & _ & -> & _). apply maxV_bit. lia.
      * destruct (lb_same g tn) as (_ & _ & _ & _ & ->). exact Y.
    + destruct (XA Y) as [Z|[_ Z]]; auto.
  - intros Ah Rn m S. destruct (AM Ah) as [Ag|[L _]]; [|destruct (PK (LP L)); congruence]. destruct (B5 Ag Rn m S) as [Y|Y]; auto. left.
    destruct X as [X|X]; auto. destruct (PK (LP (switch_lm _ _ _ X))). congruence.
  - intros Ah Rn. destruct (AM Ah) as [Ag|[L _]]; [|destruct (PK (LP L)); congruence]. auto.
Qed.
End P.
Arguments A {sol}. Arguments clm {sol}. Arguments inq {sol}. Arguments cover {sol}. Arguments GC {sol}. Arguments idleP {sol}. Arguments isExc {sol}.
Arguments gb_compl {sol tv G cost same C}. Arguments gb_rep {sol tv G cost same C}. Arguments gb_rep0 {sol tv G cost same C}. Arguments gb_no0 {sol tv G cost same C}.
Arguments b_cur {sol tv G cost same C}. Arguments b_cm {sol tv G cost same C}. Arguments b_term {sol tv G cost same C}. Arguments b_idle {sol tv G cost same C}.
Arguments b_run {sol tv G cost same C}. Arguments b_dj {sol tv G cost same C}.
