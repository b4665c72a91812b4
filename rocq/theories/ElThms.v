(** C31: preprocessing keeps satisfiability, and models of the result extend to models of the
    problem. *)
From Coq Require Import List Bool Arith NArith Lia.
Import ListNotations.
From Verif Require Import Base ElModel ElSpec ElProofs6 ElProofs9 ElProofs10.

(** the solver before the first call *)
Definition fresh : carry := Carry [] (fun _ => false) [] 0.

Section Setup.
Context (R : asg -> Prop) (w : world) (o : opts) (n : nat) (run : bool) (script : list (bool * list (nat * bool))).
Context (units : list lit) (cs : list (list lit)).
(** What the caller has to ensure: the other constraints are over frozen variables, variable 0
    (which is always true) is none of the problem's, clauses are proper. *)
Definition admissible : Prop :=
  onlyOn (o_frozen o) R /\ soundWorld R (o_frozen o) w /\ o_frozen o 0 = false
  /\ (forall p, In p units -> fst p <> 0) /\ (forall c, In c cs -> properClause c).

Lemma fresh_ok (r : option (carry * list (list lit))) : admissible ->
  preprocess w o n run script units cs fresh = Ok r ->
  match r with
  | None => forall a, ~ Pof R units cs a
  | Some (y', out) => J (o_frozen o) (Pof R units cs) None (y_top y') (Pof R (y_tr y') out)
                      /\ (forall a, Pof R units cs a -> Pof R (y_tr y') out a)
  end.
Proof.
  intros (A1 & A2 & A3 & A4 & A5) H.
  apply (preprocess_ok R (o_frozen o) w A2 A1) with (Q := Pof R units cs) (nb := false) in H; try discriminate; auto.
  - destruct r as [[y' out]|]; [|auto]. split; apply H.
  - intros v E ->. congruence.
  - split; [constructor|]. split; [intros ? []|discriminate].
  - constructor. auto.
Qed.
Lemma Pof_ext fz t c : onlyOn fz R -> ext (Pof R t c).
Proof.
  intros O a b E (Ra & Ta & Ca). split; [|split].
  - apply (O a); auto.
  - intros p I. rewrite <- (holds_ext a b); auto.
  - apply sat_cnf_all. apply sat_cnf_all in Ca. intros d I. rewrite <- (sat_ext a b); auto.
Qed.

(** A conflict is reported only if the problem has no model. *)
Theorem c31_conflict_sound : admissible ->
  preprocess w o n run script units cs fresh = Ok None ->
  forall a, R a -> ~ satAll a units cs.
Proof. intros A H a Ra Sa. exact (fresh_ok None A H a (conj Ra Sa)). Qed.

(** No model is lost: every model of the problem satisfies all facts and clauses the solver
    receives. *)
Theorem c31_no_model_lost y out : admissible ->
  preprocess w o n run script units cs fresh = Ok (Some (y, out)) ->
  forall a, R a -> satAll a units cs -> satAll a (y_tr y) out.
Proof. intros A H a Ra Sa. apply (fresh_ok _ A) in H as [_ H]. now apply H. Qed.

(** Every model the solver finds is extended to a model of the problem; the values of frozen
    variables are kept. *)
Theorem c31_model_extends y out : admissible ->
  preprocess w o n run script units cs fresh = Ok (Some (y, out)) ->
  forall m, totalVec m -> R (asgOf m) -> satAll (asgOf m) (y_tr y) out ->
  exists m' open, extendModel (y_top y) m [] = Ok (m', open)
    /\ totalVec m' /\ R (asgOf m') /\ satAll (asgOf m') units cs /\ (forall v, o_frozen o v = true -> m' v = m v).
Proof.
  intros A H m Tm Rm Sm. apply (fresh_ok _ A) in H as [HJ _].
  destruct (extend_ok (o_frozen o) _ _ _ m (Pof_ext _ _ _ (proj1 A)) (Pof_ext _ _ _ (proj1 A)) HJ Tm) as (m' & op & E & T' & [R' S'] & Fr); [split; auto|].
  exists m', op. auto.
Qed.

(** Preprocessing decides nothing wrongly: the result has a model iff the problem has one. *)
Theorem c31_equisatisfiable y out : admissible ->
  preprocess w o n run script units cs fresh = Ok (Some (y, out)) ->
  (exists a, R a /\ satAll a units cs) <-> (exists a, R a /\ satAll a (y_tr y) out).
Proof.
  intros A H. split.
  - intros (a & Ra & Sa). exists a. split; [auto|]. eapply c31_no_model_lost; eauto.
  - intros (a & Ra & Sa). set (m := fun v => if a v then 1 else 2).
    assert (Ea : forall u, a u = asgOf m u) by (intros u; unfold asgOf, m; now destruct (a u)).
    assert (P : Pof R (y_tr y) out (asgOf m)) by (apply (Pof_ext _ _ _ (proj1 A) a); auto; split; auto).
    destruct (c31_model_extends y out A H m) as (m' & op & _ & _ & Rm & Sm & _); [|apply P|apply P|eauto].
    intros v. unfold m. destruct (a v); auto.
Qed.
End Setup.
Print Assumptions c31_conflict_sound.
Print Assumptions c31_no_model_lost.
Print Assumptions c31_model_extends.
Print Assumptions c31_equisatisfiable.

(** A case that meets the hypotheses: variable 1 is eliminated, a clause blocked on 5 is
    removed, variable 6 is frozen. *)
Definition exW : world := World (fun _ _ => Some []) (fun _ => 0) (fun _ => false).
Definition exO : opts := Opts 2 false (fun v => v =? 6).
Definition exCs : list (list lit) :=
  [[pos 1; pos 2]; [ngt 1; pos 3]; [ngt 1; ngt 2; pos 6]; [pos 5; pos 2; pos 3]; [ngt 5; ngt 2; pos 3]; [pos 5; ngt 2; pos 6]].
Definition exScript : list (bool * list (nat * bool)) := [(false, [(5, false); (1, true); (2, true)]); (false, [])].
Definition exR (a : asg) : Prop := True.
Definition exM : nat -> nat := fun v => match v with 3 => 2 | 5 => 2 | _ => 1 end.
Example c31_nonvacuous : admissible exR exW exO [pos 4] exCs
  /\ exists y out, preprocess exW exO 100 true exScript [pos 4] exCs fresh = Ok (Some (y, out))
     /\ y_tr y = [pos 4] /\ out = [[ngt 5; pos 3]; [pos 3; pos 6]]
     /\ y_top y = [(false, [pos 2; pos 3]); (false, [ngt 2; pos 5; pos 6]); (false, [ngt 1; ngt 2; pos 6]);
                   (false, [ngt 1; pos 3]); (false, [pos 1; pos 2]); (true, [pos 5; pos 2; pos 3])]
     /\ totalVec exM /\ satAll (asgOf exM) (y_tr y) out
     /\ exists m' open, extendModel (y_top y) exM [] = Ok (m', open) /\ map m' [1; 2; 3; 4; 5; 6] = [2; 1; 2; 1; 2; 1] /\ open = [].
Proof.
  split.
  - split; [intros a b _ _; exact I|]. split; [intros k t p []|]. split; [reflexivity|]. split.
    + intros p [<-|[]]. discriminate.
    + intros c Hc. unfold exCs in Hc. cbn in Hc.
      repeat (destruct Hc as [<-|Hc]; [split; [cbn; lia|split; [repeat constructor; cbn; intuition discriminate|intros p Hp; cbn in Hp; intuition (subst; discriminate)]]|]). destruct Hc.
  - eexists _, _. split; [vm_compute; reflexivity|]. cbn [y_tr y_top]. split; [reflexivity|]. split; [reflexivity|]. split; [reflexivity|].
    split; [intros v; do 6 (destruct v as [|v]; [auto|]); auto|].
    split; [split; [intros p [<-|[]]; reflexivity|reflexivity]|].
    eexists _, _. split; [vm_compute; reflexivity|]. split; reflexivity.
Qed.
