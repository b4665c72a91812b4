(** C31 in multi-shot sessions, and why blocked clause elimination is restricted. *)
From Coq Require Import List Bool Arith NArith Lia.
Import ListNotations.
From Verif Require Import Base ElModel ElSpec ElProofs6 ElProofs8 ElProofs9 ElProofs10 ElThms ElShots.

Lemma shots_fresh l r : admShots [] [] fresh l -> shots [] fresh l = Ok r ->
  match r with
  | None => forall a, ~ problem l a
  | Some (y, db) => hdE (y_elim y) (y_top y) /\ J nofz (problem l) None (y_top y) (Pof (others l) (y_tr y) db)
      /\ forall a, problem l a -> Pof (others l) (y_tr y) db a
  end.
Proof.
  intros A H. apply (shots_ok l [] [] fresh r); auto.
  - split; [constructor|]. split; [intros ? []|discriminate].
  - intros e [].
  - constructor. intros a _ h [].
  - intros a _. split; [intros h []|]. split; [intros ? []|reflexivity].
Qed.

(** However many steps were made, a conflict is reported only if the problem of all steps has no
    model, and no model of it is lost. *)
Theorem c31_multishot_conflict_sound l : admShots [] [] fresh l -> shots [] fresh l = Ok None -> forall a, ~ problem l a.
Proof. intros A H. exact (shots_fresh l None A H). Qed.
Theorem c31_multishot_no_model_lost l y db : admShots [] [] fresh l -> shots [] fresh l = Ok (Some (y, db)) ->
  forall a, problem l a -> others l a /\ satAll a (y_tr y) db.
Proof. intros A H a P. apply (shots_fresh l _ A) in H as (_ & _ & H). exact (H a P). Qed.

(** Every model found after the last step extends to a model of all clauses of all steps; only
    eliminated variables change. *)
Theorem c31_multishot_model_extends l y db : admShots [] [] fresh l -> shots [] fresh l = Ok (Some (y, db)) ->
  (forall h, In h l -> exists fz, onlyOn fz (h_R h)) ->
  forall m, totalVec m -> others l (asgOf m) -> satAll (asgOf m) (y_tr y) db ->
  exists m' open, extendModel (y_top y) m [] = Ok (m', open)
    /\ totalVec m' /\ problem l (asgOf m') /\ (forall v, y_elim y v = false -> m' v = m v).
Proof.
  intros A H X m Tm Om Sm. apply (shots_fresh l _ A) in H as (HE & HJ & _).
  assert (Ex : forall h, In h l -> ext (h_R h)). { intros h I. destruct (X h I) as [fz O]. intros a b E Ha. apply (O a); auto. }
  assert (Sx : forall t c, ext (fun a => satAll a t c)).
  { intros t c a b E [B1 B2]. split; [intros p I; rewrite <- (B1 p I); unfold holds; now rewrite E|]. apply sat_cnf_all. apply sat_cnf_all in B2.
    intros d I. rewrite <- (sat_ext a b); auto. }
  apply (J_fz _ (fun v => negb (y_elim y v))) in HJ.
  2:{ intros e x r I E. destruct (HE e I) as (x' & r' & E' & K). rewrite E in E'. injection E' as <- <-. now rewrite K. }
  destruct (extend_ok (fun v => negb (y_elim y v)) (problem l) (y_top y) (Pof (others l) (y_tr y) db) m) as (m' & op & E & T' & P' & Fr); auto.
  - intros a b E [B1 B2]. split; [intros h I; apply (Ex h I a); auto|]. exact (Sx _ _ a b E B2).
  - intros a b E P h I. destruct (P h I) as [B1 B2]. split; [apply (Ex h I a); auto|exact (Sx _ _ a b E B2)].
  - split; auto.
  - exists m', op. split; [auto|]. split; [auto|]. split; [auto|]. intros v K. apply Fr. now rewrite K.
Qed.
Print Assumptions c31_multishot_conflict_sound.
Print Assumptions c31_multishot_no_model_lost.
Print Assumptions c31_multishot_model_extends.

(** Two steps: the first eliminates variable 1, the second adds clauses over the variables that
    are left and eliminates variable 5. *)
Definition shA : shot := Shot exR exW (Opts 0 false (fun v => v =? 4)) 100 true [(false, [(1, true)]); (false, [])] []
  [[pos 1; pos 2]; [ngt 1; pos 3]].
Definition shB : shot := Shot exR exW (Opts 0 false (fun v => (v =? 2) || (v =? 3) || (v =? 4))) 100 true [(false, [(5, true)]); (false, [])] []
  [[pos 5; ngt 2]; [ngt 5; pos 4]].
Definition shM : nat -> nat := fun v => match v with 3 => 2 | _ => 1 end.
Example c31_multishot_nonvacuous : admShots [] [] fresh [shA; shB]
  /\ exists y db, shots [] fresh [shA; shB] = Ok (Some (y, db)) /\ db = [[pos 2; pos 3]; [ngt 2; pos 4]]
     /\ length (y_top y) = 4 /\ map (y_elim y) [1; 2; 3; 4; 5] = [true; false; false; false; true]
     /\ totalVec shM /\ satAll (asgOf shM) (y_tr y) db
     /\ exists m' open, extendModel (y_top y) shM [] = Ok (m', open) /\ map m' [1; 2; 3; 4; 5] = [2; 1; 2; 1; 1].
Proof.
  assert (Wok : forall P fz, soundWorld P fz exW) by (intros P fz k t p []).
  assert (Rok : forall h fz, In h [shA; shB] -> onlyOn fz (h_R h)) by (intros h fz [<-|[<-|[]]] a b _ _; exact I).
  split.
  - cbn [admShots]. split; [reflexivity|]. split; [reflexivity|]. split; [discriminate|]. split; [intros c p []|]. split.
    { intros h' J'. apply Rok. cbn in J'. cbn. tauto. }
    split; [apply Wok|]. split; [intros p []|]. split.
    { intros c Hc. cbn in Hc. repeat (destruct Hc as [<-|Hc]; [split; [split; [cbn; lia|split; [repeat constructor; cbn; intuition discriminate|intros p Hp; cbn in Hp; intuition (subst; discriminate)]]|reflexivity]|]). destruct Hc. }
    intros y' out H. vm_compute in H. injection H as <- <-.
    split; [reflexivity|]. split; [reflexivity|]. split.
    { intros v Hv. cbn [y_elim] in Hv. destruct v as [|[|[|[|[|v]]]]]; cbn in *; auto; discriminate. }
    split; [intros c p Hc Hp; cbn in Hc; destruct Hc as [<-|[]]; cbn in Hp; intuition (subst; reflexivity)|]. split.
    { intros h' J'. apply Rok. cbn in J'. cbn. tauto. }
    split; [apply Wok|]. split; [intros p []|]. split; [|intros; exact I].
    intros c Hc. cbn in Hc. repeat (destruct Hc as [<-|Hc]; [split; [split; [cbn; lia|split; [repeat constructor; cbn; intuition discriminate|intros p Hp; cbn in Hp; intuition (subst; discriminate)]]|intros p Hp; cbn in Hp; intuition (subst; reflexivity)]|]). destruct Hc.
  - eexists _, _. split; [vm_compute; reflexivity|]. split; [reflexivity|]. split; [reflexivity|]. split; [reflexivity|].
    split; [intros v; do 4 (destruct v as [|v]; [auto|]); auto|].
    split; [split; [intros p []|reflexivity]|].
    eexists _, _. split; [vm_compute; reflexivity|]. reflexivity.
Qed.

(** ** Why blocked clause elimination is not used when several models or several steps are wanted *)
(** Variables: w = 1, u = 2, y = 3, d = 4. The clause w | ~u | y is blocked on w and removed, then
    u is eliminated. *)
Definition bcCs : list (list lit) :=
  [[pos 1; ngt 2; pos 3]; [pos 2; ngt 1; pos 4]; [pos 2; ngt 1; pos 5]; [pos 2; ngt 1; pos 6];
   [pos 1; pos 7; pos 8]; [pos 1; pos 9; pos 10]; [pos 1; pos 11; pos 12]].
Definition bcO : opts := Opts 2 false (fun _ => false).
Definition bcScript : list (bool * list (nat * bool)) := [(false, [(1, false); (2, true)]); (false, [])].
Definition bcM : nat -> nat := fun v => match v with 1 => 2 | 3 => 2 | 4 => 2 | _ => 1 end.
Lemma bcAdm : admissible exR exW bcO [] bcCs.
Proof.
  split; [intros a b _ _; exact I|]. split; [intros k t p []|]. split; [reflexivity|]. split; [intros p []|].
  intros c Hc. unfold bcCs in Hc. cbn in Hc.
  repeat (destruct Hc as [<-|Hc]; [split; [cbn; lia|split; [repeat constructor; cbn; intuition discriminate|intros p Hp; cbn in Hp; intuition (subst; discriminate)]]|]). destruct Hc.
Qed.

(** Asking for a second extension of the same model: with blocked clauses on the stack the second
    one need not be a model (shared_context.cpp:505-515; guarded by shared_context.cpp:429-431). *)
Theorem c31_bce_second_extension_refuted :
  ~ (forall o script cs, admissible exR exW o [] cs ->
     forall y out, preprocess exW o 100 true script [] cs fresh = Ok (Some (y, out)) ->
     forall m m1 op1 m2 op2, totalVec m -> satAll (asgOf m) (y_tr y) out ->
     extendModel (y_top y) m [] = Ok (m1, op1) -> op1 <> [] -> extendModel (y_top y) m1 op1 = Ok (m2, op2) ->
     satAll (asgOf m2) [] cs).
Proof.
  intros K. specialize (K bcO bcScript bcCs bcAdm).
  assert (E : exists y out m1 op1 m2 op2, preprocess exW bcO 100 true bcScript [] bcCs fresh = Ok (Some (y, out))
    /\ satAll (asgOf bcM) (y_tr y) out
    /\ extendModel (y_top y) bcM [] = Ok (m1, op1) /\ op1 <> [] /\ extendModel (y_top y) m1 op1 = Ok (m2, op2) /\ sat_cnf (asgOf m2) bcCs = false).
  { eexists _, _, _, _, _, _. split; [vm_compute; reflexivity|]. split; [split; [intros p []|reflexivity]|]. split; [vm_compute; reflexivity|].
    split; [discriminate|]. split; [vm_compute; reflexivity|]. vm_compute. reflexivity. }
  destruct E as (y & out & m1 & op1 & m2 & op2 & E1 & E2 & E3 & E4 & E5 & E6).
  destruct (K y out E1 bcM m1 op1 m2 op2) as [_ K']; auto; [|congruence].
  intros v. do 5 (destruct v as [|v]; [auto|]); auto.
Qed.
Print Assumptions c31_bce_second_extension_refuted.

(** Adding a clause over w, which is not eliminated, in a second step: the extension of a model
    may break it. *)
Definition bcA : shot := Shot exR exW bcO 100 true [(false, [(1, false)]); (false, [])] [] bcCs.
Definition bcB : shot := Shot exR exW (Opts 0 false (fun v => negb (v =? 0) && (v <=? 12))) 100 true [] [] [[ngt 1; pos 3]].
Theorem c31_bce_multishot_refuted :
  exists y db, shots [] fresh [bcA; bcB] = Ok (Some (y, db)) /\ map (y_elim y) [1; 2; 3] = [false; false; false]
  /\ exists m m' open, totalVec m /\ satAll (asgOf m) (y_tr y) db /\ extendModel (y_top y) m [] = Ok (m', open)
     /\ sat_clause (asgOf m') [ngt 1; pos 3] = false.
Proof.
  eexists _, _. split; [vm_compute; reflexivity|]. split; [reflexivity|].
  exists bcM. eexists _, _. split; [intros v; do 5 (destruct v as [|v]; [auto|]); auto|].
  split; [split; [intros p []|reflexivity]|]. split; [vm_compute; reflexivity|]. reflexivity.
Qed.
Print Assumptions c31_bce_multishot_refuted.
