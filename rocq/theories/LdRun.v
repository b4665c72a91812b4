(** C51: concrete runs. *)
From Coq Require Import List Arith Bool.
From Verif Require Import Base LdSpec LdModel.
Import ListNotations.

Inductive act := R (t n : nat) | P (t : nat) (u k : bool) | V (t : nat) | G (t : nat).
Section E.
Variables (m : nat) (peers : nat -> nat -> bool).
(** [R t n]: thread [t] runs for [n] steps; [P]: publish; [V]: receive; [G]: gives back what it got last *)
Fixpoint runs (n t : nat) (s : st) : option (st * list ev) :=
  match n with
  | O => Some (s, [])
  | S n => match s_pc s t with
    | Idle => None
    | _ => match run1 m peers t s with Ok (s1, e) => match runs n t s1 with Some (s2, e') => Some (s2, e ++ e') | None => None end | _ => None end
    end
  end.
Definition play1 (a : act) (s : st) : option (st * list ev) :=
  match a with
  | R t n => if t <? m then runs n t s else None
  | P t u k => if t <? m then match s_pc s t with Idle => Some (snd (newCall m s t u k), [Call t (fst (newCall m s t u k))]) | _ => None end else None
  | V t => if t <? m then match s_pc s t with Idle => Some (goto s t Po0, []) | _ => None end else None
  | G t => if t <? m then match s_pc s t with Idle => match s_hold s t with x :: h => match release (w_hold s t h) x 1 with Ok (s', e) => Some (s', Rel t x :: e) | _ => None end | [] => None end | _ => None end else None
  end.
Fixpoint play (l : list act) (s : st) : option (st * list ev) :=
  match l with [] => Some (s, []) | a :: l => match play1 a s with Some (s1, e) => match play l s1 with Some (s2, e') => Some (s2, e ++ e') | None => None end | None => None end end.
Lemma runs_exec t n : t < m -> forall tr s s' e, exec m peers tr s -> runs n t s = Some (s', e) -> exec m peers (tr ++ e) s'.
Proof.
  intros T. induction n as [|n IH]; cbn; intros tr s s' e X E; [injection E as <- <-; now rewrite app_nil_r|].
  assert (s_pc s t <> Idle) as NI by (intros Q; now rewrite Q in E).
  assert (match run1 m peers t s with Ok (s1, e1) => match runs n t s1 with Some (s2, e') => Some (s2, e1 ++ e') | None => None end | _ => None end = Some (s', e)) as E' by (destruct (s_pc s t); try exact E; now destruct NI).
  destruct (run1 m peers t s) as [[s1 e1]| |] eqn:RU; try discriminate. destruct (runs n t s1) as [[s2 e2]|] eqn:RN; [|discriminate]. injection E' as <- <-.
  rewrite app_assoc. apply (IH _ s1); [|exact RN]. eapply ES; [exact X|]. now apply Run with t.
Qed.
Lemma play_exec l : forall tr s s' e, exec m peers tr s -> play l s = Some (s', e) -> exec m peers (tr ++ e) s'.
Proof.
  induction l as [|a l IH]; cbn [play]; intros tr s s' e X E; [injection E as <- <-; now rewrite app_nil_r|].
  destruct (play1 a s) as [[s1 e1]|] eqn:P1; [|discriminate]. destruct (play l s1) as [[s2 e2]|] eqn:P2; [|discriminate]. injection E as <- <-. rewrite app_assoc. apply (IH _ s1); [|exact P2].
  destruct a as [t n|t u k|t|t]; cbn [play1] in P1; destruct (Nat.ltb_spec t m) as [T|]; try discriminate.
  - eapply runs_exec; eauto.
  - destruct (s_pc s t) eqn:EP; try discriminate. injection P1 as <- <-. eapply ES; [exact X|]. now apply Publish.
  - destruct (s_pc s t) eqn:EP; try discriminate. injection P1 as <- <-. eapply ES; [exact X|]. now apply Receive.
  - destruct (s_pc s t) eqn:EP; try discriminate. destruct (s_hold s t) as [|x h] eqn:EH; [discriminate|]. destruct (release (w_hold s t h) x 1) as [[s3 e3]| |] eqn:RE; try discriminate.
    injection P1 as <- <-. eapply ES; [exact X|]. now apply (Release m peers s t [] x h).
Qed.
Definition trace (l : list act) : list ev := match play l (init m) with Some (_, e) => e | None => [] end.
Definition final (l : list act) : st := match play l (init m) with Some (s, _) => s | None => init m end.
Lemma play_ok l : (if play l (init m) then true else false) = true -> exec m peers (trace l) (final l).
Proof. unfold trace, final. destruct (play l (init m)) as [[s e]|] eqn:E; [|discriminate]. intros _. now apply (play_exec l [] (init m) s e (E0 m peers)). Qed.
End E.

Definition all2 (t s : nat) : bool := true.
(** Thread 1 is in the middle of a push to thread 0 when thread 2 publishes. *)
Definition hidden : list act := [P 1 false false; R 1 11; P 2 false false; R 2 22; V 0; R 0 1].
(** A ring of 4: thread 1 publishes and keeps a nogood (not for 3) and then a literal for all; 0, 2 and 3 receive; some give back. *)
Definition ring4 (t s : nat) : bool := (s =? (t + 1) mod 4) || (t =? (s + 1) mod 4).
Definition parcel : list act :=
  [P 1 false true; R 1 24; P 1 true false; R 1 26; V 0; R 0 6; V 0; R 0 7; V 2; R 2 6; V 3; R 3 6; G 3; G 2; G 0; G 0; V 0; R 0 1].
Definition parcel2 : list act := parcel ++ [V 2; R 2 7; G 2; G 1].
