(** C30: post propagators run in priority order. *)
From Coq Require Import List Bool Arith Lia Sorted Permutation.
From Verif Require Import Base PlModel PlSpec PlProofs.
Import ListNotations.

(** Following the list visits every member exactly once, by priority and, for equal priorities, in order of insertion. *)
Theorem c30_order : forall prio l ms, hist prio l ms -> exists xs, chain l (n_head l) xs /\ Permutation xs ms /\ NoDup xs /\ order prio ms xs.
Proof. intros prio l ms H. destruct (hist_ok prio l ms H) as [xs [C ND PM OS CO]]. exists xs. auto. Qed.
Print Assumptions c30_order.

(** Adding a propagator that is not in the list and removing any propagator succeed, for every bound on the loops above the number of members. *)
Theorem c30_no_error : forall prio l ms p fuel, hist prio l ms -> length ms < fuel ->
  (~ In p ms -> exists l', add prio fuel l p = Ok l') /\ (exists l', remove fuel l p = Ok l').
Proof.
  intros prio l ms p fuel H LF. destruct (hist_ok prio l ms H) as [xs K]. split.
  - intros NP. destruct (add_ok prio l ms xs p fuel K NP LF) as [l' [xs' [A _]]]. eauto.
  - destruct (remove_ok prio l ms xs p fuel K LF) as [l' [xs' [A _]]]. eauto.
Qed.
Print Assumptions c30_no_error.

(** A removed propagator is unlinked and can be added again; a propagator outside the list has no successor. *)
Theorem c30_unlinked : forall prio l ms x, hist prio l ms -> ~ In x ms -> n_next l x = None.
Proof. intros prio l ms x H NX. destruct (hist_ok prio l ms H) as [xs [C ND PM OS CO]]. apply CO. intros X. apply NX. eapply Permutation_in; eauto. Qed.
Print Assumptions c30_unlinked.

(** Removing leaves the other propagators in their order. *)
Theorem c30_remove : forall prio l ms p fuel l' xs, hist prio l ms -> remove fuel l p = Ok l' -> chain l (n_head l) xs ->
  chain l' (n_head l') (List.remove Nat.eq_dec p xs).
Proof.
  intros prio l ms p fuel l' xs H A C. destruct (hist_ok prio l ms H) as [xs' [C' ND PM OS CO]]. rewrite (chain_fun _ _ _ _ C C').
  destruct (removeLoop_ok p l (Nat.max fuel (S (length xs'))) [] xs' C' ND) as [[N R]|[l2 [ys [zs [B [E [D _]]]]]]]; cbn [app lastSlot] in *; auto; try lia; unfold remove in A.
  - rewrite (removeLoop_fuel _ _ _ _ _ A) in R by lia. injection R as ->. rewrite notin_remove; auto.
  - rewrite (removeLoop_fuel _ _ _ _ _ A) in B by lia. injection B as ->. subst xs'. rewrite rm_mid; auto. apply NoDup_remove_2 in ND. auto.
Qed.
Print Assumptions c30_remove.

(** find returns the propagator of the given priority that was added first, if there is one. *)
Theorem c30_find : forall prio l ms k fuel, hist prio l ms -> length ms < fuel -> find prio fuel l k = Ok (hd_error (filter (fun x => Nat.eqb (prio x) k) ms)).
Proof.
  intros prio l ms k fuel H LF. destruct (hist_ok prio l ms H) as [xs [C ND PM [OS OST] CO]]. rewrite <- OST. unfold find. apply findLoop_ok; auto. rewrite (Permutation_length PM). auto.
Qed.
Print Assumptions c30_find.

(** clear destroys every member exactly once and leaves an empty list. *)
Theorem c30_clear : forall prio l ms fuel, hist prio l ms -> length ms < fuel -> exists l' ds, clear fuel l = Ok (l', ds) /\ Permutation ds ms /\ chain l' (n_head l') [].
Proof.
  intros prio l ms fuel H LF. destruct (hist_ok prio l ms H) as [xs [C ND PM OS CO]]. destruct (clearLoop_ok prio fuel l (n_head l) xs [] C ND) as [l' [A [B D]]]; [rewrite (Permutation_length PM); auto|].
  exists l', xs. sp; auto. rewrite B. constructor.
Qed.
Print Assumptions c30_clear.

Definition pr (x : nat) : nat := match x with 1 => 5 | 2 => 0 | 3 => 5 | 4 => 9 | 5 => 5 | _ => 1 end.
Definition okl (r : res plist) : plist := match r with Ok l => l | _ => new end.
Definition l1 := okl (add pr 9 new 1).
Definition l2 := okl (add pr 9 l1 2).
Definition l3 := okl (add pr 9 l2 3).
Definition l4 := okl (add pr 9 l3 4).
Definition l5 := okl (add pr 9 l4 5).
Definition l6 := okl (remove 9 l5 1).
Definition l7 := okl (add pr 9 l6 1).
Example c30_nonvacuous : hist pr l7 [2; 3; 4; 5; 1] /\ chain l7 (n_head l7) [2; 3; 5; 1; 4] /\ find pr 9 l7 5 = Ok (Some 3) /\ find pr 9 l7 6 = Ok None.
Proof.
  assert (H : hist pr l7 [2; 3; 4; 5; 1]).
  { apply (h_add pr l6 [2; 3; 4; 5] 1 9); [|cbn; lia|reflexivity]. apply (h_remove pr l5 [1; 2; 3; 4; 5] 1 9); [|reflexivity].
    apply (h_add pr l4 [1; 2; 3; 4] 5 9); [|cbn; lia|reflexivity]. apply (h_add pr l3 [1; 2; 3] 4 9); [|cbn; lia|reflexivity]. apply (h_add pr l2 [1; 2] 3 9); [|cbn; lia|reflexivity].
    apply (h_add pr l1 [1] 2 9); [|cbn; lia|reflexivity]. apply (h_add pr new [] 1 9); [|cbn; lia|reflexivity]. constructor. }
  sp; try reflexivity; auto. repeat constructor.
Qed.

(** The check in add (p->next == 0) does not detect that the last propagator of the list is added once more: it becomes its own successor, and no walk of the list ends. *)
Theorem c30_added_twice_refuted : exists prio l ms p fuel l', hist prio l ms /\ In p ms /\ add prio fuel l p = Ok l' /\ forall xs, ~ chain l' (n_head l') xs.
Proof.
  exists pr, l2, [1; 2], 1, 9, (okl (add pr 9 l2 1)). sp; [|cbn; auto|reflexivity|].
  - apply (h_add pr l1 [1] 2 9); [|cbn; lia|reflexivity]. apply (h_add pr new [] 1 9); [|cbn; lia|reflexivity]. constructor.
  - set (l := okl _). assert (LOOP : forall o xs, chain l o xs -> o <> Some 1).
    { induction 1 as [|x xs C IH]; [discriminate|]. intros [=->]. apply IH. reflexivity. }
    intros xs C. assert (HH : n_head l = Some 2) by reflexivity. rewrite HH in C. inversion C as [|x ys C1 E]. subst x. apply LOOP in C1. apply C1. reflexivity.
Qed.
Print Assumptions c30_added_twice_refuted.
