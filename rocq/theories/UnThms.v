(** C56: what a user-defined propagator is told. *)
From Coq Require Import List Arith Bool Lia.
From Verif Require Import Base UnSpec UnModel UnProofs.
Import ListNotations.

(** In every reachable state every step is possible: no requirement or assertion of the code fails. *)
Theorem c56_no_error : forall always tr s T, reach always tr s T ->
  (forall p, assign s p <> None) /\ call s <> None /\ registerUndoCheck s <> None /\ (0 < dl s -> back always s <> None).
Proof.
  intros always tr s T R. destruct (reach_inv _ _ _ _ R) as (J & _ & _). split; [|split; [|split]].
  - intro p. destruct (assign_inv s p J) as (s' & -> & _). easy.
  - destruct (call_inv s J) as (s' & e & -> & _). easy.
  - destruct (reg_chk s J) as (s' & -> & _). easy.
  - intro D. destruct (back_inv always s J D) as (s' & e & -> & _). easy.
Qed.
Print Assumptions c56_no_error.

(** The changes reported and not undone are a beginning of the watched literals that are true; each missing one is of the current level, and once
    a round of propagation is over none is missing. Backtracking leaves exactly those that stay true. *)
Theorem c56_view : forall always tr s T, reach always tr s T ->
  (exists V R, view tr V /\ map fst T = V ++ map fst R /\ forall x, In x R -> In x T /\ snd x = dl s) /\
  (forall s' e, call s = Some (s', e) -> view (tr ++ e) (map fst T)) /\
  (forall s' e, 0 < dl s -> back always s = Some (s', e) -> view (tr ++ e) (map fst (filter (fun x => snd x <? dl s) T))).
Proof.
  intros always tr s T R. destruct (reach_inv _ _ _ _ R) as (J & E & V). split; [|split].
  - exists (map fst (firstn (prop s) T)), (skipn (prop s) T). split; [easy|]. split; [now rewrite <- map_app, firstn_skipn|]. subst T. intros x X. split; [|now apply (c_cur s J)]. rewrite <- (firstn_skipn (prop s) (trail s)). apply in_app_iff. now right.
  - intros s' e C. pose proof (RCall _ _ _ _ _ _ R C) as R'. destruct (reach_inv _ _ _ _ R') as (_ & E' & V'). destruct (call_inv s J) as (s2 & e2 & C2 & _ & T2 & _ & P2 & _). rewrite C in C2. injection C2 as <- <-. rewrite P2, E, firstn_all in V'. exact V'.
  - intros s' e D B. pose proof (RBack _ _ _ _ _ _ R D B) as R'. destruct (reach_inv _ _ _ _ R') as (_ & E' & V'). destruct (back_inv always s J D) as (s2 & e2 & B2 & _ & T2 & _ & P2 & _). rewrite B in B2. injection B2 as <- <-. rewrite P2, E', firstn_all in V'. exact V'.
Qed.
Print Assumptions c56_view.

(** A round of propagation reports something new, or calls check if there is nothing to report. Leaving a level calls undo once, with exactly the reported
    literals of the level; if there is none, undo is not called, or (only if it was asked for) called without changes. *)
Theorem c56_calls : forall always tr s T, reach always tr s T -> exists V, view tr V /\
  (forall s' e, call s = Some (s', e) -> (V = map fst T /\ e = [ECheck]) \/ exists ch, ch <> [] /\ e = [EProp ch] /\ map fst T = V ++ ch) /\
  (forall s' e, 0 < dl s -> back always s = Some (s', e) -> exists ch, V = map fst (filter (fun x => snd x <? dl s) T) ++ ch /\
    (ch <> [] -> e = [EUndo ch]) /\ (ch = [] -> e = [] \/ e = [EUndo []] /\ always = true)).
Proof.
  intros always tr s T R. destruct (reach_inv _ _ _ _ R) as (J & E & V). exists (map fst (firstn (prop s) T)). split; [easy|]. split.
  - intros s' e C. destruct (call_inv s J) as (s2 & e2 & C2 & _ & _ & _ & _ & K). rewrite C in C2. injection C2 as <- <-. subst T. destruct K as [(K & -> & _) | (K & ->)]; [left; now rewrite K, firstn_all|]. right. exists (map fst (skipn (prop s) (trail s))). split; [|split; [easy | now rewrite <- map_app, firstn_skipn]].
    intro Z. apply map_eq_nil in Z. pose proof (skipn_length (prop s) (trail s)) as L. rewrite Z in L. cbn in L. lia.
  - intros s' e D B. destruct (back_inv always s J D) as (s2 & e2 & B2 & _ & T2 & _ & _ & M & E1 & E2 & _). rewrite B in B2. injection B2 as <- <-. exists (cur s). subst T. split; [rewrite M, T2; easy | easy].
Qed.
Print Assumptions c56_calls.

(** With undo asked for on every level: leaving a level after a check calls undo. *)
Theorem c56_check_undone : forall tr s T s1 s2 e, reach true tr s T -> 0 < dl s -> call s = Some (s1, [ECheck]) -> back true s1 = Some (s2, e) -> e <> [].
Proof.
  intros tr s T s1 s2 e R D C B. destruct (reach_inv _ _ _ _ R) as (J & E & V). destruct (call_inv s J) as (s3 & e2 & C2 & J1 & T1 & D1 & P1 & K). rewrite C in C2. injection C2 as <- <-. destruct K as [(K & _ & U) | (K & X)]; [|discriminate X].
  destruct (back_inv true s1 J1) as (s4 & e3 & B2 & _ & _ & _ & _ & _ & _ & _ & H); [lia|]. rewrite B in B2. injection B2 as <- <-. apply H; [easy | congruence | rewrite D1; auto].
Qed.
Print Assumptions c56_check_undone.

Definition la : lit := (1, false).
Definition lb : lit := (2, false).
Definition run2 : option (list ev * list (lit * nat)) :=
  match assign (new init) la with Some s => match call s with Some (s, e1) => match call s with Some (s, e2) => match assign (new s) lb with Some s => match call s with Some (s, e3) => match back false s with Some (s, e4) => Some (e1 ++ e2 ++ e3 ++ e4, trail s)
    | None => None end | None => None end | None => None end | None => None end | None => None end | None => None end.
Example c56_nonvacuous : run2 = Some ([EProp [la]; ECheck; EProp [lb]; EUndo [lb]], [(la, 1)]).
Proof. reflexivity. Qed.
Example c56_nonvacuous_reach : exists s, reach false [EProp [la]] s [(la, 1)] /\ dl s = 1 /\ prop s = 1.
Proof.
  assert (R1 : reach false [] (new init) []) by (apply RNew; [constructor | easy]). assert (A : assign (new init) la = Some (Cp [(la, 1)] [MLit 0] 0 1 1 [1])) by reflexivity. pose proof (RAssign _ _ _ _ _ _ R1 A) as R2.
  assert (C : call (Cp [(la, 1)] [MLit 0] 0 1 1 [1]) = Some (Cp [(la, 1)] [MLit 0] 1 1 1 [1], [EProp [la]])) by reflexivity. pose proof (RCall _ _ _ _ _ _ R2 C) as R3. eexists. split; [exact R3|]. easy.
Qed.

(** Finding: "on all levels that have been propagated or checked" (clingo.h:68) fails. A level is checked, then a watched literal becomes true but a
    conflict arises before it is reported: the mark of the check was replaced, and undo is not called when the level is left. *)
Theorem c56_always_refuted : ~ (forall tr s T s1 p s2 s3 e, reach true tr s T -> 0 < dl s -> call s = Some (s1, [ECheck]) -> assign s1 p = Some s2 -> back true s2 = Some (s3, e) -> e <> []).
Proof.
  intro H. assert (R1 : reach true [] (new init) []) by (apply RNew; [constructor | easy]). assert (L : 0 < dl (new init)) by (cbn; lia).
  exact (H [] (new init) [] (Cp [] [MChk 1] 0 1 1 [1]) la (Cp [(la, 1)] [MLit 0] 0 1 1 [1]) (Cp [] [] 0 0 0 []) [] R1 L eq_refl eq_refl eq_refl eq_refl).
Qed.
Print Assumptions c56_always_refuted.
