(** C13: unit propagation with watched literals. *)
From Coq Require Import List Bool Arith ZArith.
From Verif Require Import Base ClModel ClSpec BpModel BpSpec BpProofs5.
Import ListNotations.

(** Unit propagation terminates within the number of variables, only adds to the trail, and
    afterwards either every clause is satisfied or has two free literals, or the
    call failed and some clause is violated. *)
Theorem c13_propagate : forall n s D, reach n s D -> b_conf s = None ->
  exists s' ok, propagate (S (S n)) s = (s', Some ok) /\
    b_dl s' = b_dl s /\ (exists x, b_trail s' = b_trail s ++ x) /\
    (ok = true -> b_conf s' = None /\ forall c, inDb D c -> quiet (b_trail s') c) /\
    (ok = false -> exists c, inDb D c /\ violated (b_trail s') c).
Proof. exact propagate_lemma. Qed.
Print Assumptions c13_propagate.

(** In every state of every history in which the queue is empty and there is no conflict no
    clause is violated or unit. *)
Theorem c13_complete : forall n s D, reach n s D -> b_conf s = None -> b_front s = length (b_trail s) ->
  forall c, inDb D c -> quiet (b_trail s) c.
Proof. exact complete_lemma. Qed.
Print Assumptions c13_complete.

(** This includes states right after going back to a lower level, whatever happened before
    (also in the middle of a failed propagation): watches need not be restored. *)
Theorem c13_backtrack : forall n s D l, reach n s D -> Nat.max l (b_root s) < b_dl s -> forall c, inDb D c -> quiet (b_trail (undo s l)) c.
Proof. exact backtrack_lemma. Qed.
Print Assumptions c13_backtrack.

(** Every assigned literal was given from outside or is implied by a clause under
    literals assigned before it. *)
Theorem c13_sound : forall n s D, reach n s D -> forall t1 e t2, b_trail s = t1 ++ e :: t2 -> given e \/ implied D t1 (e_lit e).
Proof. exact sound_lemma. Qed.
Print Assumptions c13_sound.

(** Hence it holds in every model of the clauses in which the given literals up to its
    level hold. *)
Theorem c13_entailed : forall n s D L a, reach n s D -> (forall c, inDb D c -> sat_clause a c = true) ->
  (forall e, In e (b_trail s) -> given e -> e_lev e <= L -> holds a (e_lit e) = true) ->
  forall e, In e (b_trail s) -> e_lev e <= L -> holds a (e_lit e) = true.
Proof. exact semantic_lemma. Qed.
Print Assumptions c13_entailed.

(** The same for the levels on which literals are implied: these may be lower than the levels on
    which they were assigned, since backtracking stops at the root level. *)
Theorem c13_entailed_implied : forall n s D L a, reach n s D -> (forall c, inDb D c -> sat_clause a c = true) ->
  (forall e, In e (b_trail s) -> given e -> e_log e <= L -> holds a (e_lit e) = true) ->
  forall e, In e (b_trail s) -> e_log e <= L -> holds a (e_lit e) = true.
Proof. exact semantic_log. Qed.
Print Assumptions c13_entailed_implied.

(** Such literals are not lost when root levels are removed. *)
Theorem c13_implied_kept : forall n s D k, reach n s D -> forall e, In e (b_trail s) ->
  e_log e <= b_root (popRootLevel s k) -> tTrue (b_trail (popRootLevel s k)) (e_lit e).
Proof. exact pop_kept. Qed.
Print Assumptions c13_implied_kept.

Theorem c13_consistent : forall n s D, reach n s D -> forall p, ~ (tTrue (b_trail s) p /\ tFalse (b_trail s) p).
Proof. exact consistent_lemma. Qed.
Print Assumptions c13_consistent.

(** A conflict is due to a violated clause or to a literal forced from outside. *)
Theorem c13_conflict : forall n s D p w, reach n s D -> b_conf s = Some (p, w) -> w = Ext \/ exists c, inDb D c /\ violated (b_trail s) c.
Proof. exact conflict_lemma. Qed.
Print Assumptions c13_conflict.

(** ** A concrete history *)
Definition P (v : nat) : lit := (v, false).
Definition N (v : nat) : lit := (v, true).
Definition fs : flags := Flags false false false 1 0.
Definition fsh : flags := Flags false false true 2 3.
Definition fl : flags := Flags true true false 0 0.
Fixpoint runs (n : nat) (s : st) (D : db) (os : list op) : st * db :=
  match os with
  | [] => (s, D)
  | o :: os => let s' := run n s o in runs n s' (db_step s D o s') os
  end.
Fixpoint oks (n : nat) (s : st) (os : list op) : Prop :=
  match os with [] => True | o :: os => op_ok n s o /\ oks n (run n s o) os end.
Lemma runs_reach : forall n os s D, reach n s D -> oks n s os -> reach n (fst (runs n s D os)) (snd (runs n s D os)).
Proof.
  intros n os. induction os as [|o os IH]; intros s D R O; [exact R|]. destruct O as [O1 O2]. cbn [runs].
  apply IH; auto. now apply reach_op.
Qed.
(** Clauses with 2, 3, 4 and 6 literals, one with 7 shared ones; the fourth decision leads to a
    conflict in a clause; a learnt clause is asserted on level 3 and removed later (which
    fails while it is locked). *)
Definition hist : list op :=
  [OCreate fs true [N 1; P 2]; OCreate fs true [N 2; N 3; P 4]; OCreate fs true [N 4; P 5; P 6; P 7];
   OCreate fs true [N 1; N 3; N 7; P 8; P 9; P 10]; OCreate fsh true [N 8; P 5; P 6; N 9; N 10; N 3; P 11];
   OCreate fs true [N 9; P 10; P 8; P 5];
   OPropagate; ODecide (P 1); OPropagate; ODecide (P 3); OForce (N 5); OPropagate; OForce (N 6); OPropagate;
   ODecide (N 8); OPropagate; ODecide (N 10); OPropagate].
Definition hist2 : list op := [OUndo 3; OCreate fl true [N 3; P 5; P 10; P 8]; OPropagate; ORemove 3; ORemove 4; OUndo 1; ORemove 4; OPropagate].
Definition st1 := runs 11 init (Db [] []) hist.
Definition st2 := runs 11 (fst st1) (snd st1) (firstn 5 hist2).
Definition st3 := runs 11 (fst st1) (snd st1) hist2.
(** not all literals of a new clause are false on root levels *)
Lemma root_ok : forall s c, existsb (fun p => forallb (fun e => negb (lit_eqb (e_lit e) (neg p)) || Nat.ltb (b_root s) (e_lev e)) (b_trail s)) c = true ->
  exists p, In p c /\ forall e, In e (b_trail s) -> e_lit e = neg p -> b_root s < e_lev e.
Proof.
  intros s c H. apply existsb_exists in H as [p [P1 P2]]. exists p. split; auto. intros e E Q. rewrite forallb_forall in P2. specialize (P2 e E).
  rewrite Q, lit_eqb_refl in P2. cbn [negb orb] in P2. now apply Nat.ltb_lt.
Qed.
Ltac root_tac := first [left; vm_compute; reflexivity|right; apply root_ok; vm_compute; reflexivity].
Ltac ok_tac :=
  match goal with
  | |- op_ok _ _ (OCreate _ _ _) =>
    unfold op_ok; split; [vm_compute; reflexivity|split; [vm_compute; reflexivity|split; [repeat constructor|split; [left; reflexivity|
      split; [(left; reflexivity) || (right; split; [vm_compute; reflexivity|split; vm_compute; repeat constructor])|root_tac]]]]]
  | |- op_ok _ _ (ODecide _) => split; [vm_compute; reflexivity|split; [vm_compute; reflexivity|split; vm_compute; repeat constructor]]
  | |- op_ok _ _ (OForce _) => split; [vm_compute; reflexivity|split; vm_compute; repeat constructor]
  | |- op_ok _ _ (OUndo _) => exact I
  | |- op_ok _ _ OPushRoot => exact I
  | |- op_ok _ _ (OPopRoot _) => exact I
  | |- op_ok _ _ _ => vm_compute; reflexivity
  end.
Lemma hist_ok : oks 11 init hist.
Proof. unfold hist. cbn [oks]. repeat match goal with |- op_ok _ _ _ /\ _ => split | |- True => exact I end. all: ok_tac. Qed.
Lemma hist2_ok : oks 11 (fst st1) hist2.
Proof. unfold hist2. cbn [oks]. repeat match goal with |- op_ok _ _ _ /\ _ => split | |- True => exact I end. all: ok_tac. Qed.
Lemma hist2a_ok : oks 11 (fst st1) (firstn 5 hist2).
Proof. unfold hist2. cbn [oks firstn]. repeat match goal with |- op_ok _ _ _ /\ _ => split | |- True => exact I end. all: ok_tac. Qed.
Lemma st1_reach : reach 11 (fst st1) (snd st1).
Proof. apply runs_reach; [apply reach_init|exact hist_ok]. Qed.
Lemma st2_reach : reach 11 (fst st2) (snd st2).
Proof. apply runs_reach; [apply st1_reach|exact hist2a_ok]. Qed.
Lemma st3_reach : reach 11 (fst st3) (snd st3).
Proof. apply runs_reach; [apply st1_reach|exact hist2_ok]. Qed.

Example c13_nonvacuous :
  b_conf (fst st1) = Some (P 9, ByC 1) /\ b_dl (fst st1) = 4 /\ length (b_trail (fst st1)) = 11 /\
  b_conf (fst st2) = None /\ b_dl (fst st2) = 3 /\
  map e_lit (b_trail (fst st2)) = [lit_true; P 1; P 2; P 3; N 5; P 4; N 6; P 7; N 8; P 10] /\
  b_front (fst st2) = length (b_trail (fst st2)) /\ nth_error (d_exp (snd st2)) 4 = Some (Some [N 3; P 5; P 10; P 8]) /\
  nth_error (d_exp (snd st2)) 3 = Some None /\
  map e_lit (b_trail (fst st3)) = [lit_true; P 1; P 2] /\ nth_error (d_exp (snd st3)) 4 = Some None.
Proof. vm_compute. repeat split. Qed.
Example c13_nonvacuous_clauses : forall c, In c [[N 1; P 2]; [N 2; N 3; P 4]; [N 4; P 5; P 6; P 7]; [N 8; P 5; P 6; N 9; N 10; N 3; P 11]] ->
  inDb (snd st2) c /\ quiet (b_trail (fst st2)) c.
Proof.
  intros c H. assert (D : inDb (snd st2) c).
  { vm_compute in H. repeat destruct H as [H|H]; try contradiction; subst c; vm_compute; tauto. }
  split; [exact D|]. apply (c13_complete 11 (fst st2) (snd st2) st2_reach); vm_compute; auto.
Qed.

(** Root levels: P 1 and P 2 are assumptions; a clause that is unit on level 1 is learnt while the
    root level is 2, so that its literal is assigned on level 2; it is assigned again after
    the second assumption is removed, and its consequence is found by propagation. *)
Definition hist3 : list op :=
  [OCreate fs true [N 3; P 4]; OCreate fs true [N 2; P 5]; OPropagate; ODecide (P 1); OPropagate; OPushRoot; ODecide (P 2); OPropagate; OPushRoot;
   ODecide (P 6); OPropagate; OCreate fl true [P 3; N 1]; OPropagate; OPopRoot 1; OPropagate].
Definition st4 := runs 7 init (Db [] []) (firstn 13 hist3).
Definition st5 := runs 7 init (Db [] []) hist3.
Lemma hist3_ok : oks 7 init hist3.
Proof. unfold hist3. cbn [oks]. repeat match goal with |- op_ok _ _ _ /\ _ => split | |- True => exact I end. all: ok_tac. Qed.
Lemma st5_reach : reach 7 (fst st5) (snd st5).
Proof. apply runs_reach; [apply reach_init|exact hist3_ok]. Qed.
Example c13_nonvacuous_root :
  map e_lit (b_trail (fst st4)) = [lit_true; P 1; P 2; P 5; P 3; P 4] /\ map e_lev (b_trail (fst st4)) = [0; 1; 2; 2; 2; 2] /\
  map e_log (b_trail (fst st4)) = [0; 1; 2; 2; 1; 2] /\
  map e_lit (b_trail (fst st5)) = [lit_true; P 1; P 3; P 4] /\ map e_lev (b_trail (fst st5)) = [0; 1; 1; 1] /\ b_root (fst st5) = 1.
Proof. vm_compute. repeat split. Qed.
