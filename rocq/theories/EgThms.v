(** C55: the graph of external edges holds exactly the edges that were added. *)
From Coq Require Import List Arith Bool Lia Permutation Sorting.Sorted.
From Verif Require Import Base AcSpec EgModel EgProofs EgProofs2.
Import ListNotations.

(** After every history of adding edges, freezing and unfreezing, whatever order the sorts leave equal edges in: a frozen graph lists for every
    node exactly the edges that leave it and exactly those that enter it, each as often as it was added. *)
Theorem c55_adjacency A g n : gsteps empty A g -> frozen g = true ->
  com g = length A /\ Permutation (arcs g) A /\ Permutation (fwdOf g n) (filter (fun a => a_tail a =? n) A) /\
  exists l, invOf g n = Some l /\ Permutation l (map (fun a => (a_lit a, a_tail a)) (filter (fun a => a_head a =? n) A)).
Proof.
  intros H F. destruct (gsteps_inv _ _ _ H [] init_inv) as [I _]. cbn [app] in I. destruct I as [I1 I2 I3 I4 I5 I6 I7]. specialize (I3 F). split; [rewrite I3; now apply Permutation_length|]. split; [exact I1|].
  assert (PT := has_perm a_tail n _ _ I1). assert (PH := Permutation_map lt_ (has_perm a_head n _ _ I1)). unfold fwdOf, invOf. destruct (com g) as [|c] eqn:C.
  - assert (Z : arcs g = []) by now apply length_zero_iff_nil. destruct (I7 eq_refl) as (_ & Z1 & Z2). rewrite Z in *. split.
    + destruct (fo g n) as [i|] eqn:V; [exfalso; apply (Z1 n); congruence || easy | exact PT].
    + destruct (io g n) as [i|] eqn:V; [exfalso; apply (Z2 n); congruence || easy | exists []; split; [easy | exact PH]].
  - destruct I6 as (RF & RI & _); [lia|]. rewrite I3, firstn_all in RF, RI. specialize (RF n). specialize (RI n). split.
    + destruct (fo g n) as [i|]; [destruct RF as [_ R]; specialize (R [] eq_refl); rewrite app_nil_r in R; rewrite R; exact PT | rewrite RF in PT; exact PT].
    + destruct (io g n) as [i|]; [destruct RI as (_ & x & R & P); specialize (R []); rewrite app_nil_r in R; exists x; split; [exact R | eapply Permutation_trans; eauto] | exists []; split; [easy | rewrite RI in PH; exact PH]].
Qed.
Print Assumptions c55_adjacency.

(** Freezing never fails (the check for an invalid incremental update never applies); adding fails only while the graph is frozen. *)
Theorem c55_no_error A g : gsteps empty A g ->
  (forall l1 l2, sortedBy g l1 l2 -> exists g', finalize g l1 l2 = Some g' /\ frozen g' = true) /\ (forall p x y, (exists g', addEdge g p x y = Some g') <-> frozen g = false).
Proof.
  intro H. destruct (gsteps_inv _ _ _ H [] init_inv) as [I _]. split.
  - intros l1 l2 S. destruct (fin_inv _ _ _ _ I S) as (g' & E & _ & _ & _ & _ & F). now exists g'.
  - intros p x y. split; [intros (g' & E); unfold addEdge in E; now destruct (frozen g)|]. intro F. destruct (add_inv _ _ p x y I F) as (g' & E & _). now exists g'.
Qed.
Print Assumptions c55_no_error.

(** While the generation of a frozen graph is unchanged, its edges keep their indices; the generation never decreases. *)
Theorem c55_indices A g B g' : gsteps empty A g -> frozen g = true -> gsteps g B g' -> gen g <= gen g' /\ (gen g' = gen g -> firstn (com g) (arcs g') = arcs g).
Proof.
  intros H F H'. destruct (gsteps_inv _ _ _ H [] init_inv) as [I _]. destruct (gsteps_inv _ _ _ H' _ I) as (_ & G & K). split; [exact G|]. intro E. destruct (K E) as [_ ->]. rewrite (i_fro _ _ I F). apply firstn_all.
Qed.
Print Assumptions c55_indices.

(** Edges 1-0, 0-1 and 0-2 frozen, then 3-4 appended, then 0-3 added, which sorts all edges anew *)
Definition x1 : lit := (1, false). Definition x2 : lit := (2, false).
Definition g1 : eg := Eg [Arc x1 0 1; Arc x1 0 2; Arc x2 1 0] true [(x2, 1, false); (x1, 0, false); (x1, 0, false)] (fun n => if n =? 1 then Some 2 else if n =? 0 then Some 0 else None) (fun n => if n =? 2 then Some 2 else if n =? 1 then Some 1 else if n =? 0 then Some 0 else None) 3 3 3 0.
Ltac srt := split; [apply NoDup_Permutation; [repeat (constructor; [cbn; intuition discriminate|]); constructor | repeat (constructor; [cbn; intuition discriminate|]); constructor | cbn; intuition] | repeat (constructor; [|repeat (constructor; [reflexivity|]); constructor]); constructor].
Example c55_nonvacuous : exists g2 g3, gsteps empty [Arc x2 1 0; Arc x1 0 1; Arc x1 0 2] g1 /\
  gsteps g1 [Arc x1 3 4] g2 /\ frozen g2 = true /\ gen g2 = 0 /\ firstn 3 (arcs g2) = arcs g1 /\
  gsteps g2 [Arc x2 0 3] g3 /\ frozen g3 = true /\ gen g3 = 1 /\ fwdOf g3 0 = [Arc x1 0 1; Arc x1 0 2; Arc x2 0 3] /\ invOf g3 3 = Some [(x2, 0)].
Proof.
  do 2 eexists. split; [|split; [|split; [|split; [|split; [|split; [|split; [|split]]]]]]].
  - eapply (GS _ [Arc x2 1 0; Arc x1 0 1; Arc x1 0 2] _ []); [|apply (GFin _ [Arc x2 1 0; Arc x1 0 1; Arc x1 0 2] [Arc x1 0 1; Arc x1 0 2; Arc x2 1 0])].
    + eapply (GS _ [Arc x2 1 0; Arc x1 0 1] _ [Arc x1 0 2]); [eapply (GS _ [Arc x2 1 0] _ [Arc x1 0 1]); [eapply (GS _ [] _ [Arc x2 1 0]); [constructor|]|]|]; constructor; reflexivity.
    + split; srt.
    + reflexivity.
  - eapply (GS _ [Arc x1 3 4] _ []); [|apply (GFin _ [Arc x1 3 4] [Arc x1 3 4])].
    + eapply (GS _ [] _ [Arc x1 3 4]); [eapply (GS _ [] _ []); [constructor | apply GUpd] | constructor; reflexivity].
    + split; srt.
    + reflexivity.
  - reflexivity.
  - reflexivity.
  - reflexivity.
  - eapply (GS _ [Arc x2 0 3] _ []); [|apply (GFin _ [Arc x2 1 0; Arc x1 0 1; Arc x1 0 2; Arc x2 0 3; Arc x1 3 4] [Arc x1 0 1; Arc x1 0 2; Arc x2 0 3; Arc x2 1 0; Arc x1 3 4])].
    + eapply (GS _ [] _ [Arc x2 0 3]); [eapply (GS _ [] _ []); [constructor | apply GUpd] | constructor; reflexivity].
    + split; srt.
    + reflexivity.
  - reflexivity.
  - reflexivity.
  - split; reflexivity.
Qed.
