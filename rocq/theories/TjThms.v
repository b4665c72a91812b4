(** C44: the component search finds exactly the strongly connected components *)
From Coq Require Import List Bool Arith ZArith Lia Relations.
Import ListNotations.
From Verif Require Import Base LpSpec DsModel DsSpec DsProofs TjModel TjSpec TjProofs TjProofs2 TjProofs3.

(** On every graph with at most [noNode] nodes the search ends without error. Two different nodes get
    the same component number iff each can be reached from the other, and a node gets a number only
    if there is such another node. The numbers used are those from the given start on, without gap.
    All nodes are visited and their identifiers are reset. *)
Theorem c44_components_exact : forall noNode n start succ id0 scc0, n <= noNode -> (forall v u, v < n -> In u (succ v) -> u < n) ->
  exists s fuel, (forall f, fuel <= f -> sccChecker noNode succ f id0 scc0 start n = Ok s)
    /\ (forall a b, a < n -> b < n -> a <> b -> (mutual succ a b <-> exists c, t_scc s a = Some c /\ t_scc s b = Some c))
    /\ (forall a, a < n -> (t_scc s a <> None <-> exists b, b <> a /\ mutual succ a b))
    /\ (forall c, start <= c < t_sccs s <-> exists a, a < n /\ t_scc s a = Some c)
    /\ (forall a, a < n -> t_seen s a = true /\ t_id s a = noNode).
Proof.
  intros noNode n start succ id0 scc0 Hn Hs. destruct (checker_ok noNode n start succ Hn Hs id0 scc0) as (s & f & A & (num & H) & B & C). exists s, f. split; [auto|].
  assert (D : forall v, v < n -> done s v) by (intros v L; split; [auto|now rewrite B]).
  assert (D' : forall v, done s v -> v < n) by (intros v [L _]; now apply (w_range _ _ _ _ _ _ _ H)).
  split; [|split; [|split]].
  - intros a b La Lb Ne. now apply (w_res _ _ _ _ _ _ _ H); auto.
  - intros a La. split.
    + intros E. destruct (t_scc s a) as [c|] eqn:Ea; [|congruence]. destruct (w_non _ _ _ _ _ _ _ H a c (D a La) Ea) as (b & O1 & O2 & O3). exists b. split; [auto|]. apply (w_res _ _ _ _ _ _ _ H); eauto.
    + intros (b & Ne & M) E. assert (Lb : b < n) by (apply (reach_closed succ (fun x => x < n)) with a; [intros d u; apply Hs|apply M|auto]).
      apply (w_res _ _ _ _ _ _ _ H) in M as (c & X & _); [congruence|auto|auto|congruence].
  - intros c. split.
    + intros L. destruct (w_used _ _ _ _ _ _ _ H c L) as (d & U1 & U2). exists d. auto.
    + intros (a & La & E). destruct (w_ids _ _ _ _ _ _ _ H) as [_ X]. apply (X a); auto.
  - intros a La. split; [auto|]. now apply (w_done _ _ _ _ _ _ _ H); auto.
Qed.
Print Assumptions c44_components_exact.

(** Components are numbered against the direction of the edges: what can be reached has no larger
    number. *)
Theorem c44_numbers_follow_dependencies : forall noNode n start succ id0 scc0, n <= noNode -> (forall v u, v < n -> In u (succ v) -> u < n) ->
  exists s fuel, (forall f, fuel <= f -> sccChecker noNode succ f id0 scc0 start n = Ok s)
    /\ forall a b c e, a < n -> b < n -> reach succ a b -> t_scc s a = Some c -> t_scc s b = Some e -> e <= c.
Proof.
  intros noNode n start succ id0 scc0 Hn Hs. destruct (checker_ok noNode n start succ Hn Hs id0 scc0) as (s & f & A & (num & H) & B & C). exists s, f. split; [auto|].
  assert (D : forall v, v < n -> done s v) by (intros v L; split; [auto|now rewrite B]).
  destruct (w_rank _ _ _ _ _ _ _ H) as (rank & rk & m1 & m2 & m4 & m3).
  assert (R : forall a b, reach succ a b -> a < n -> b < n /\ rank b <= rank a).
  { intros a b R. apply clos_rt_rt1n in R. induction R as [a|a x b E R IH]; intros L; [split; auto|]. assert (Lx : x < n) by (apply (Hs a); auto). destruct (IH Lx) as [Lb Hb]. split; [auto|].
    destruct (m3 a x (D a L) E) as [X|[->|(c & X & Y)]]; [lia|lia|]. rewrite (m2 a x c); auto. }
  intros a b c e La Lb Rab Ea Eb. apply (m4 b a e c); auto. now apply R.
Qed.
Print Assumptions c44_numbers_follow_dependencies.

(** The numbers of the atoms respect the dependencies of the program, which is what splitting
    disjunctions (C43) needs. *)
Lemma dep_range nA P : (forall r h, In r P -> In h (r_head r) -> h < nA) -> forall v u, v < depSize nA P -> In u (depSucc nA P v) -> u < depSize nA P.
Proof.
  intros Hh v u L I. unfold depSucc, depSize in *. destruct (v <? nA) eqn:E1; [|apply Nat.ltb_ge in E1; destruct (v <? nA + length P) eqn:E2].
  - apply in_map_iff in I as (k & <- & I). apply filter_In in I as [I _]. apply in_seq in I. lia.
  - apply Nat.ltb_lt in E2. destruct (nth_error P (v - nA)) as [r|] eqn:E; [|destruct I]. destruct (isDisj r); [destruct I as [<-|[]]; lia|]. apply nth_error_In in E. specialize (Hh r u E I). lia.
  - destruct (nth_error P (v - nA - length P)) as [r|] eqn:E; [|destruct I]. destruct (isDisj r); [|destruct I]. apply nth_error_In in E. specialize (Hh r u E I). lia.
Qed.
Lemma dep_edges nA P r h b : In r P -> In h (r_head r) -> b < nA -> In b (posAtoms (r_body r)) ->
  exists k, In k (depSucc nA P b) /\ nA <= k < nA + length P /\ (In h (depSucc nA P k) \/ exists d, nA + length P <= d /\ In d (depSucc nA P k) /\ In h (depSucc nA P d)).
Proof.
  intros I Ih Lb Ib. apply In_nth_error in I as [k E]. assert (Lk : k < length P) by (apply nth_error_Some; congruence).
  assert (X1 : (b <? nA) = true) by now apply Nat.ltb_lt. assert (X2 : (nA + k <? nA) = false) by (apply Nat.ltb_ge; lia). assert (X3 : (nA + k <? nA + length P) = true) by (apply Nat.ltb_lt; lia).
  exists (nA + k). split; [|split; [lia|]].
  - unfold depSucc. rewrite X1. apply in_map_iff. exists k. split; [auto|]. apply filter_In. split; [apply in_seq; lia|]. rewrite E. apply existsb_exists. exists b. split; [auto|apply Nat.eqb_refl].
  - assert (Ek : depSucc nA P (nA + k) = if isDisj r then [nA + length P + k] else r_head r) by (unfold depSucc; rewrite X2, X3; replace (nA + k - nA) with k by lia; now rewrite E). rewrite Ek.
    destruct (isDisj r) eqn:Ed; [|now left]. right. exists (nA + length P + k). split; [lia|]. split; [now left|]. unfold depSucc.
    assert (Y1 : (nA + length P + k <? nA) = false) by (apply Nat.ltb_ge; lia). assert (Y2 : (nA + length P + k <? nA + length P) = false) by (apply Nat.ltb_ge; lia). rewrite Y1, Y2. replace (nA + length P + k - nA - length P) with k by lia. now rewrite E, Ed.
Qed.
Theorem c44_components_respect_dependencies : forall noNode nA P start id0 scc0, depSize nA P <= noNode ->
  (forall r h, In r P -> In h (r_head r) -> h < nA) -> (forall r b, In r P -> In b (posAtoms (r_body r)) -> b < nA) ->
  exists s fuel, (forall f, fuel <= f -> sccChecker noNode (depSucc nA P) f id0 scc0 start (depSize nA P) = Ok s)
    /\ components P (fun a => if a <? nA then t_scc s a else None).
Proof.
  intros noNode nA P start id0 scc0 Hn Hh Hb. destruct (checker_ok noNode (depSize nA P) start (depSucc nA P) Hn (dep_range nA P Hh) id0 scc0) as (s & f & A & (num & H) & B & C). exists s, f. split; [auto|].
  assert (D : forall v, v < depSize nA P -> done s v) by (intros v L; split; [auto|now rewrite B]).
  assert (DA : forall v, v < nA -> done s v) by (intros v L; apply D; unfold depSize; lia).
  destruct (w_rank _ _ _ _ _ _ _ H) as (rank & rk & m1 & m2 & _ & m3). exists (fun a => rk - rank a). split.
  - intros a b E Ne. destruct (a <? nA) eqn:Ea; [|congruence]. destruct (b <? nA) eqn:Eb; [|congruence]. apply Nat.ltb_lt in Ea, Eb. destruct (t_scc s a) as [c|] eqn:Ec; [|congruence]. now rewrite (m2 a b c) by auto.
  - intros r h b I Ih Ib. assert (Lh : h < nA) by eauto. assert (Lb : b < nA) by eauto.
    apply Nat.ltb_lt in Lh as Eh. apply Nat.ltb_lt in Lb as Eb. rewrite Eh, Eb.
    destruct (dep_edges nA P r h b I Ih Lb Ib) as (k & K1 & K2 & K3).
    assert (Dk : done s k) by (apply D; unfold depSize; lia).
    pose proof (m1 b (DA b Lb)) as Rb. pose proof (m1 h (DA h Lh)) as Rh.
    assert (Step : forall x y, done s x -> done s y -> In y (depSucc nA P x) -> x <> y -> rank y < rank x \/ (rank y = rank x /\ t_scc s y = t_scc s x /\ t_scc s x <> None)).
    { intros x y Hx Hy J Ne. destruct (m3 x y Hx J) as [X|[X|(c & X & Y)]]; [now left|congruence|]. right. split; [now apply (m2 y x c)|]. split; congruence. }
    destruct (Step b k) as [X|(X1 & X2 & X3)]; auto; [lia|left|].
    + destruct K3 as [K3|(d & Ld & K3 & K4)].
      * destruct (Step k h) as [Y|(Y & _)]; auto; lia.
      * assert (Dd : done s d) by (apply D; now apply (dep_range nA P Hh k d); [unfold depSize; lia|]). destruct (Step k d) as [Y|(Y & _)]; auto; [lia| |]; destruct (Step d h) as [Z|(Z & _)]; auto; lia.
    + destruct K3 as [K3|(d & Ld & K3 & K4)].
      * destruct (Step k h) as [Y|(Y1 & Y2 & Y3)]; auto; [lia|left; lia|right; split; congruence].
      * assert (Dd : done s d) by (apply D; now apply (dep_range nA P Hh k d); [unfold depSize; lia|]).
        destruct (Step k d) as [Y|(Y1 & Y2 & Y3)]; auto; [lia| |]; (destruct (Step d h) as [Z|(Z1 & Z2 & Z3)]; auto; [lia| |]); try (left; lia). right. split; congruence.
Qed.
Print Assumptions c44_components_respect_dependencies.

(** Both together: with the components found by the search, splitting keeps the answer sets. *)
Theorem c44_search_and_split_keep_answer_sets : forall noNode nA P start id0 scc0 noGamma, depSize nA P <= noNode ->
  (forall r h, In r P -> In h (r_head r) -> 0 < h < nA) -> (forall r b, In r P -> In b (posAtoms (r_body r)) -> b < nA) ->
  normalDisj P -> distinctHeads P -> posP P ->
  exists s fuel, (forall f, fuel <= f -> sccChecker noNode (depSucc nA P) f id0 scc0 start (depSize nA P) = Ok s)
    /\ forall M, stable P M <-> stable (finalizeDisjunctions (fun a => if a <? nA then t_scc s a else None) noGamma P) M.
Proof.
  intros noNode nA P start id0 scc0 ng Hn Hh Hb HN HD HP.
  destruct (c44_components_respect_dependencies noNode nA P start id0 scc0 Hn) as (s & f & A & B); [intros r h I J; now apply (Hh r)|auto|]. exists s, f. split; [auto|]. intros M. apply shift_stable; auto. intros r h I J. specialize (Hh r h I J). lia.
Qed.
Print Assumptions c44_search_and_split_keep_answer_sets.

(** ** the hypotheses are met *)
(** a head cycle through atoms 1 and 2, and a larger cycle through 3, 4, 5 *)
Definition exTj : prog := [Rule false [1; 2; 3] (Norm [ngt 6]); Rule false [1] (Norm [pos 2]); Rule false [2] (Norm [pos 1]); Rule false [4] (Norm [pos 3; pos 1]);
  Rule true [5; 6] (Norm [pos 4]); Rule false [3] (Agg 1 [(pos 5, 1%Z); (pos 2, 1%Z)])].
Example c44_nonvacuous :
  (depSize 7 exTj <= 1000 /\ (forall r h, In r exTj -> In h (r_head r) -> 0 < h < 7) /\ (forall r b, In r exTj -> In b (posAtoms (r_body r)) -> b < 7) /\ normalDisj exTj /\ distinctHeads exTj /\ posP exTj)
  /\ match sccChecker 1000 (depSucc 7 exTj) 200 (fun v => v) (fun _ => None) 5 (depSize 7 exTj) with
     | Ok s => map (t_scc s) (seq 0 13) = [None; Some 6; Some 6; Some 5; Some 5; Some 5; None; None; Some 6; Some 6; Some 5; Some 5; Some 5] /\ t_sccs s = 7
     | _ => False
     end.
Proof.
  assert (C : forall Q : rule -> Prop, Forall Q exTj -> forall r, In r exTj -> Q r) by (intros Q F; now apply Forall_forall).
  split; [|vm_compute; auto]. split; [vm_compute; lia|]. split; [|split; [|split; [|split]]].
  - intros r h I. revert h. revert r I. apply (C (fun r => forall h, In h (r_head r) -> 0 < h < 7)). unfold exTj; repeat apply Forall_cons; try apply Forall_nil; intros h; cbn; lia.
  - intros r h I. revert h. revert r I. apply (C (fun r => forall h, In h (posAtoms (r_body r)) -> h < 7)). unfold exTj; repeat apply Forall_cons; try apply Forall_nil; intros h; cbn; lia.
  - intros r I _. revert r I. apply (C (fun r => 1 < length (r_head r) -> exists ls, r_body r = Norm ls)). unfold exTj; repeat apply Forall_cons; try apply Forall_nil; cbn; intros X; eauto; lia.
  - intros r I. revert r I. apply (C (fun r => NoDup (r_head r))). unfold exTj; repeat apply Forall_cons; try apply Forall_nil; cbn; repeat constructor; cbn; lia.
  - intros r I. revert r I. apply (C (fun r => posB (r_body r))). unfold exTj; repeat apply Forall_cons; try apply Forall_nil; cbn; try exact Logic.I. intros x X. cbn in X. destruct X as [<-|[<-|[]]]; cbn; lia.
Qed.
