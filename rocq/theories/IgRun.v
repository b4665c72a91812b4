(** C52: running schedules, for the examples. *)
From Coq Require Import List Arith Bool Lia.
From Verif Require Import Base IgSpec IgModel.
Import ListNotations.

(** A schedule: [n] steps of a thread, a call to add, a visit *)
Inductive act := Go (n t : nat) | DoAdd (t : nat) (c : sclause) | DoVisit (t : nat) (l : lit).
Fixpoint go (n t : nat) (s : st) (tr : list ev) : option (st * list ev) :=
  match n with
  | O => Some (s, tr)
  | S n => match s_pc s t with Idle => Some (s, tr) | _ => match run1 t s with Ok (s', e) => go n t s' (tr ++ e) | _ => None end end
  end.
Definition wfcb (c : sclause) : bool := forallb (fun p => negb (fst p =? 0)) (lits c).
Fixpoint sched (m : nat) (a : list act) (s : st) (tr : list ev) : option (st * list ev) :=
  match a with
  | [] => Some (s, tr)
  | Go n t :: a => if t <? m then match go n t s tr with Some (s', tr') => sched m a s' tr' | None => None end else None
  | DoAdd t c :: a => if (t <? m) && wfcb c then match s_pc s t with Idle => sched m a (goto s t (R0 (fst (jth c 0)) (KHas c))) (tr ++ [Call t c]) | _ => None end else None
  | DoVisit t l :: a => if t <? m then match s_pc s t with Idle => sched m a (begin s t l) (tr ++ [Begin t (s_vis s) l]) | _ => None end else None
  end.
Lemma wfcb_ok c : wfcb c = true -> wfc c.
Proof. unfold wfcb, wfc. rewrite forallb_forall, Forall_forall. intros H x X. apply H in X. apply negb_true_iff, Nat.eqb_neq in X. easy. Qed.
Lemma go_exec m n t : t < m -> forall s tr s' tr', exec m tr s -> go n t s tr = Some (s', tr') -> exec m tr' s'.
Proof.
  intro T. induction n as [|n IH]; intros s tr s' tr' X H; cbn in H; [now inversion H; subst|].
  destruct (s_pc s t) eqn:P; [now inversion H; subst | | | | | | | | |];
    (destruct (run1 t s) as [[s1 e1]| |] eqn:R; try easy; eapply IH; [|exact H]; econstructor; [exact X|]; apply (Run m s t s1 e1 T); [now rewrite P | exact R]).
Qed.
Lemma sched_exec m a : forall s tr s' tr', exec m tr s -> sched m a s tr = Some (s', tr') -> exec m tr' s'.
Proof.
  induction a as [|[n t | t c | t l] a IH]; intros s tr s' tr' X H; cbn [sched] in H; [now inversion H; subst | | |].
  - destruct (Nat.ltb_spec t m); [|easy]. destruct (go n t s tr) as [[s1 tr1]|] eqn:G; [|easy]. eapply IH; [eapply go_exec; eauto | exact H].
  - destruct (Nat.ltb_spec t m); [|easy]. cbn [andb] in H. destruct (wfcb c) eqn:W; [|easy]. destruct (s_pc s t) eqn:P; try easy. eapply IH; [|exact H]. econstructor; [exact X|]. apply Add; auto. now apply wfcb_ok.
  - destruct (Nat.ltb_spec t m); [|easy]. destruct (s_pc s t) eqn:P; try easy. eapply IH; [|exact H]. econstructor; [exact X|]. now apply Visit.
Qed.
Definition traceOf (m : nat) (a : list act) : list ev := match sched m a init [] with Some (_, tr) => tr | None => [] end.
Definition stateOf (m : nat) (a : list act) : st := match sched m a init [] with Some (s, _) => s | None => init end.
Lemma sched_run m a : sched m a init [] <> None -> exec m (traceOf m a) (stateOf m a).
Proof. intro H. unfold traceOf, stateOf. destruct (sched m a init []) as [[s tr]|] eqn:R; [|easy]. eapply sched_exec; [apply E0 | exact R]. Qed.
