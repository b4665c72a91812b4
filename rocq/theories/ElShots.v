(** Preprocessing in a multi-shot session: the clauses of every step are preprocessed on top of
    what earlier steps left (shared_context.cpp:398-472, [SatPreprocessor::freezeSeen],
    [SatPreprocessor::preprocess]; one call per [SharedContext::endInit]). *)
From Coq Require Import List Bool Arith NArith Lia.
Import ListNotations.
From Verif Require Import Base ElModel ElSpec ElProofs6 ElProofs8 ElProofs9 ElProofs10.

(** One step: new constraints handled by others, the environment, options, fuel, whether there is
    something to preprocess, the choices of the elimination heap, new facts and clauses. *)
Record shot := Shot { h_R : asg -> Prop; h_w : world; h_o : opts; h_n : nat; h_run : bool;
                      h_script : list (bool * list (nat * bool)); h_units : list lit; h_cs : list (list lit) }.
(** shared_context.cpp:406-472, once per step; [db] collects the clauses handed to the solver *)
Fixpoint shots (db : list (list lit)) (y : carry) (l : list shot) : res (option (carry * list (list lit))) :=
  match l with
  | [] => Ok (Some (y, db))
  | h :: r =>
      do x <- preprocess (h_w h) (h_o h) (h_n h) (h_run h) (h_script h) (h_units h) (h_cs h) y;
      match x with
      | None => Ok None
      | Some (y', out) => shots (db ++ out) y' r
      end
  end.

(** The problem stated by the steps, and the constraints the solver works with. *)
Definition others (l : list shot) (a : asg) : Prop := forall h, In h l -> h_R h a.
Definition problem (l : list shot) (a : asg) : Prop := forall h, In h l -> h_R h a /\ satAll a (h_units h) (h_cs h).
Definition known (l : list shot) (db : list (list lit)) (a : asg) : Prop := others l a /\ sat_cnf a db = true.
(** What the caller has to ensure in every step: no blocked clause elimination (which
    [clasp_facade.cpp:176] with [shared_context.cpp:429-431] switches off for multi-shot problems); eliminated variables are not
    used again; everything seen in earlier steps and not eliminated is frozen
    ([SatPreprocessor::freezeSeen]); constraints of others are over frozen variables. *)
Fixpoint admShots (pre : list shot) (db : list (list lit)) (y : carry) (l : list shot) : Prop :=
  match l with
  | [] => True
  | h :: r =>
      let fz := o_frozen (h_o h) in
      o_bce (h_o h) = 0 /\ fz 0 = false /\ (forall v, y_elim y v = true -> fz v = false)
      /\ (forall c p, In c db -> In p c -> fz (fst p) = true)
      /\ (forall h', In h' (pre ++ [h]) -> onlyOn fz (h_R h')) /\ soundWorld (known (pre ++ [h]) db) fz (h_w h)
      /\ (forall p, In p (h_units h) -> fst p <> 0 /\ y_elim y (fst p) = false)
      /\ (forall c, In c (h_cs h) -> properClause c /\ forall p, In p c -> y_elim y (fst p) = false)
      /\ forall y' out, preprocess (h_w h) (h_o h) (h_n h) (h_run h) (h_script h) (h_units h) (h_cs h) y = Ok (Some (y', out)) ->
         admShots (pre ++ [h]) (db ++ out) y' r
  end.

Lemma J_fz fz fz' Q : forall up T P, J fz Q up T P -> (forall e x r, In e T -> snd e = x :: r -> fz' (fst x) = false) -> J fz' Q up T P.
Proof.
  intros up T P H. induction H as [up P H|up mk x c T P P2 H1 H2 H3 H4 H5 H6 H7 IH]; intros K; [constructor; auto|].
  econstructor; eauto.
  - apply (K _ x c (or_introl eq_refl)). reflexivity.
  - apply IH. intros e y r I. apply (K e y r). now right.
Qed.
Lemma J_and fz Q N : forall up T P, J fz Q up T P -> (forall e x r, In e T -> snd e = x :: r -> indep (fst x) N) ->
  J fz (fun a => Q a /\ N a) up T (fun a => P a /\ N a).
Proof.
  intros up T P H. induction H as [up P H|up mk x c T P P2 H1 H2 H3 H4 H5 H6 H7 IH]; intros K.
  - constructor. intros a [A B]. auto.
  - assert (Nx : indep (fst x) N) by (apply (K _ x c (or_introl eq_refl)); reflexivity).
    apply J_cons with (P' := fun a => P2 a /\ N a); auto.
    + intros a. rewrite H1. tauto.
    + intros a [A B] C. split; [auto|]. apply (Nx a); auto. intros u Hu. unfold setTo. destruct (u =? fst x) eqn:E; [apply Nat.eqb_eq in E; congruence|auto].
    + intros Hm. destruct (H3 Hm) as [G|G]; [auto|]. right. intros a b E [A B]. split; [apply (G a)|apply (Nx a)]; auto.
    + apply IH. intros e y r I. apply (K e y r). now right.
Qed.
Lemma J_Q fz (Q Q' : asg -> Prop) : (forall a, Q a -> Q' a) -> forall up T P, J fz Q up T P -> J fz Q' up T P.
Proof. intros E up T P H. induction H; [constructor; auto|econstructor; eauto]. Qed.

Lemma satAll_indep v t cs : (forall p, In p t -> fst p <> v) -> (forall c p, In c cs -> In p c -> fst p <> v) -> indep v (fun a => satAll a t cs).
Proof.
  intros Ht Hc a b E [A B]. split.
  - intros p I. rewrite <- (A p I). unfold holds. rewrite <- E; auto.
  - apply sat_cnf_all. apply sat_cnf_all in B. intros c I. specialize (B c I). unfold sat_clause in *. apply existsb_exists in B as (p & Ip & Hp).
    apply existsb_exists. exists p. split; [auto|]. rewrite <- Hp. unfold holds. rewrite <- E; eauto.
Qed.
Lemma problem_snoc l h a : problem (l ++ [h]) a <-> problem l a /\ h_R h a /\ satAll a (h_units h) (h_cs h).
Proof.
  unfold problem. split.
  - intros H. split; [intros h' I|]; apply H, in_app_iff; [auto|right; now left].
  - intros [A B] h' I. apply in_app_iff in I as [I|[<-|[]]]; auto.
Qed.
Lemma others_snoc l h a : others (l ++ [h]) a <-> others l a /\ h_R h a.
Proof.
  unfold others. split.
  - intros H. split; [intros h' I|]; apply H, in_app_iff; [auto|right; now left].
  - intros [A B] h' I. apply in_app_iff in I as [I|[<-|[]]]; auto.
Qed.
Lemma sat_cnf_app a x y : sat_cnf a (x ++ y) = true <-> sat_cnf a x = true /\ sat_cnf a y = true.
Proof. unfold sat_cnf. rewrite forallb_app, andb_true_iff. reflexivity. Qed.

Definition nofz : nat -> bool := fun _ => false.
Lemma shots_ok : forall l pre db y r, admShots pre db y l -> goodY nofz y -> hdE (y_elim y) (y_top y) ->
  J nofz (problem pre) None (y_top y) (Pof (others pre) (y_tr y) db) -> (forall a, problem pre a -> Pof (others pre) (y_tr y) db a) ->
  shots db y l = Ok r ->
  match r with
  | None => forall a, ~ problem (pre ++ l) a
  | Some (y', db') => hdE (y_elim y') (y_top y') /\ J nofz (problem (pre ++ l)) None (y_top y') (Pof (others (pre ++ l)) (y_tr y') db')
      /\ forall a, problem (pre ++ l) a -> Pof (others (pre ++ l)) (y_tr y') db' a
  end.
Proof.
  induction l as [|h l IH]; intros pre db y r A G HE HJ HQ H; cbn [shots] in H.
  - injection H as <-. rewrite app_nil_r. auto.
  - destruct A as (A1 & A2 & A3 & A4 & A5 & A6 & A7 & A8 & A9). set (fz := o_frozen (h_o h)) in *.
    destruct (preprocess (h_w h) (h_o h) (h_n h) (h_run h) (h_script h) (h_units h) (h_cs h) y) as [x| |] eqn:E; try discriminate H. cbn [bind] in H.
    assert (OR : onlyOn fz (known (pre ++ [h]) db)).
    { intros a b Eab [B1 B2]. split; [intros h' I; apply (A5 h' I a); auto|]. apply sat_cnf_all. apply sat_cnf_all in B2. intros c I. specialize (B2 c I).
      unfold sat_clause in *. apply existsb_exists in B2 as (p & Ip & Hp). apply existsb_exists. exists p. split; [auto|]. rewrite <- Hp. unfold holds. rewrite <- Eab; eauto. }
    assert (Hd : forall e x r, In e (y_top y) -> snd e = x :: r -> y_elim y (fst x) = true).
    { intros e z t I Es. destruct (HE e I) as (z' & t' & Es' & K). rewrite Es in Es'. injection Es' as <- <-. auto. }
    set (N := fun a => h_R h a /\ satAll a (h_units h) (h_cs h)).
    assert (PN : forall a, Pof (others pre) (y_tr y) db a /\ N a <-> Pof (known (pre ++ [h]) db) (y_tr y ++ h_units h) (h_cs h) a).
    { intros a. unfold Pof, N, known, satAll. rewrite others_snoc. split.
      - intros ((B1 & B2 & B3) & B4 & B5 & B6). split; [tauto|]. split; [|auto]. intros p I. apply in_app_iff in I as [I|I]; auto.
      - intros (((B1 & B2) & B3) & B4 & B5). split; [split; [auto|split; [|auto]]|split; [auto|split; [|auto]]]; intros p I; apply B4, in_app_iff; auto. }
    apply (preprocess_ok (known (pre ++ [h]) db) fz (h_w h) A6 OR) with (Q := problem (pre ++ [h])) (nb := true) in E; auto.
    + destruct x as [[y' out]|].
      * destruct E as (E1 & E2 & E3 & E4 & E5). replace (pre ++ h :: l) with ((pre ++ [h]) ++ l) by now rewrite <- app_assoc.
        assert (PE : forall a, Pof (known (pre ++ [h]) db) (y_tr y') out a <-> Pof (others (pre ++ [h])) (y_tr y') (db ++ out) a).
        { intros a. unfold Pof, known, satAll. rewrite sat_cnf_app. tauto. }
        apply (IH (pre ++ [h]) (db ++ out) y' r); auto.
        -- destruct E3 as (K1 & K2 & K3). split; [auto|split; auto].
        -- apply (J_ext _ _ _ _ (Pof (known (pre ++ [h]) db) (y_tr y') out)); auto. apply (J_fz fz); auto.
        -- intros a K. apply PE. auto.
      * injection H as <-. intros a K. apply (E a). apply problem_snoc. split; [intros h' I; apply K, in_app_iff; auto|]. apply K, in_app_iff. right. now left.
    + intros v Ev ->. congruence.
    + destruct G as (K1 & K2 & K3). split; [auto|split; auto].
    + apply (J_ext _ _ _ _ (fun a => Pof (others pre) (y_tr y) db a /\ N a)); [exact PN|].
      apply (J_Q _ (fun a => problem pre a /\ N a)); [intros a K; apply problem_snoc; exact K|].
      apply J_and.
      * apply (J_fz nofz); [auto|]. intros e z t I Es. apply A3. eauto.
      * intros e z t I Es. pose proof (Hd e z t I Es) as Ez. intros a b Eab [B1 B2]. split.
        -- apply (A5 h) with (a := a); [apply in_app_iff; right; now left| |auto]. intros v Fv. apply Eab. intros ->. apply A3 in Ez. congruence.
        -- revert a b Eab B1 B2. intros a b Eab _. apply satAll_indep with (v := fst z); auto.
           ++ intros p Ip Ep. apply A7 in Ip as [_ Ip]. congruence.
           ++ intros c p Ic Ip Ep. destruct (A8 c Ic) as [_ K]. apply K in Ip. congruence.
    + intros a K. apply PN. apply problem_snoc in K as [K1 K2]. split; [auto|exact K2].
Qed.
