(** C54: acyclicity of the enabled edges. *)
From Coq Require Import List Arith Bool Lia Sorting.Sorted.
From Verif Require Import Base AcSpec AcModel AcProofs AcProofs2 AcProofs3 AcProofs4.
Import ListNotations.

(** Whenever nothing is queued, the enabled arcs have no cycle, after every history of assignments, checks, new levels and backjumps, with
    and without backward propagation. *)
Theorem c54_acyclic G full s L : hist G full s [] L -> ~ cyclic (enabled G s).
Proof.
  intros H (x & a & w & W). apply hist_J in H as [[_ _ A _] _]. apply A. exists x, a, w. eapply walk_impl; [exact W|]. intros b _ B. split; [exact B | intros []].
Qed.
Print Assumptions c54_acyclic.

(** With backward propagation, every arc that would close a cycle of enabled arcs is disabled when nothing is queued. *)
Theorem c54_propagated G s L a w : hist G true s [] L -> In a G -> walk (enabled G s) (a_head a) w (a_tail a) -> isFalse s (a_lit a) = true.
Proof.
  intros H A W. apply hist_J in H as [[_ _ _ F] _]. apply (F eq_refl a w A). eapply walk_impl; [exact W|]. intros b _ B. split; [exact B | intros []].
Qed.
Print Assumptions c54_propagated.

Definition logged (o : outP) : list entryB := match o with PFail (_, _, log) => log | PDone _ log _ => log | PErr => [] end.
(** A check only derives what every assignment without a cycle satisfies: every reported reason is true when it is given, its literal was not
    false before, and it enables, with the literal and with literals that are true at top level, all arcs of a cycle. *)
Theorem c54_sound G full s todo L top prop n log pa o : hist G full s todo L -> (forall s1 s2, prop s1 = Some s2 -> pext s2 s1) ->
  propagateFixpoint G top prop n full (s, todo, log) pa = Some o ->
  exists new, logged o = log ++ new /\ forall x why sx, In (x, why, sx) new ->
    pext sx s /\ isFalse sx x = false /\ (forall y, In y why -> isTrue sx y = true) /\ explains G top x why /\
    (forall A, ~ cyclic (enabledT G A) -> (forall y, In y why -> holds A y = true) -> (forall y, top y = true -> holds A y = true) -> holds A x = false).
Proof.
  intros H PR P. apply hist_J in H as [JJ _]. pose proof (fix_spec G top prop PR full n s todo log pa JJ) as K. rewrite P in K.
  assert (E : exists new, logged o = log ++ new /\ Forall (goodB G top s) new).
  { destruct o as [[[s1 t1] l1]|s1 l1 p1|]; cbn [logged]; [|apply K | easy]. destruct K as (nl & x & why & sx & -> & F & _). now exists (nl ++ [(x, why, sx)]). }
  destruct E as (new & E & F). exists new. split; [exact E|]. intros x why sx I. rewrite Forall_forall in F. destruct (F _ I) as (F1 & F2 & F3 & F4).
  split; [exact F1|]. split; [exact F2|]. split; [exact F3|]. split; [exact F4|]. intros A AC HW HT. exact (explains_false G top x why A F4 AC HW HT).
Qed.
Print Assumptions c54_sound.

(** A check fails only if the enabled arcs have a cycle that no assignment can avoid any more, or if the propagation it asked for failed. *)
Theorem c54_conflict G full s todo L top prop n log pa w : hist G full s todo L -> (forall s1 s2, prop s1 = Some s2 -> pext s2 s1) ->
  propagateFixpoint G top prop n full (s, todo, log) pa = Some (PFail w) ->
  exists sx, pext sx s /\
    ((forall A, (forall y, isTrue sx y = true -> holds A y = true) -> (forall y, top y = true -> holds A y = true) -> cyclic (enabledT G A)) \/
     exists x, isTrue sx x = false /\ isFalse sx x = false /\ prop (set sx (neg x)) = None).
Proof.
  intros H PR P. apply hist_J in H as [JJ _]. pose proof (fix_spec G top prop PR full n s todo log pa JJ) as K. rewrite P in K. destruct w as [[s1 t1] l1].
  destruct K as (nl & x & why & sx & _ & F & E). apply Forall_app in F as [_ F]. inversion F as [|? ? F' _]; subst. destruct F' as (F1 & F2 & F3 & F4). exists sx. split; [exact F1|].
  destruct (isTrue sx x) eqn:T; [|right; exists x; destruct E as [E | E]; [discriminate E | easy]]. left. intros A HS HT. apply (explains_cyclic G top x why A F4); auto.
Qed.
Print Assumptions c54_conflict.

(** A check ends after at most as many rounds as arcs are queued and in the graph; its walks along the parents of nodes always end. *)
Theorem c54_ends G full s todo L top prop n log pa : hist G full s todo L -> (forall s1 s2, prop s1 = Some s2 -> pext s2 s1) -> length todo + length G <= n ->
  exists o, propagateFixpoint G top prop n full (s, todo, log) pa = Some o /\ o <> PErr.
Proof.
  intros H PR N. apply hist_J in H as [JJ _]. pose proof (fix_spec G top prop PR full n s todo log pa JJ) as K.
  destruct (propagateFixpoint G top prop n full (s, todo, log) pa) as [o|]; [exists o; split; [easy | intros ->; exact K]|]. exfalso.
  assert (open G s <= length G) by (unfold open; clear; induction G as [|b l IH]; cbn; [lia|]; destruct (negb _); cbn; lia). lia.
Qed.
Print Assumptions c54_ends.

(** Attaching new arcs behind those attached before: self-loops are disabled; every other new arc is queued, or pushed when its literal becomes
    true later, or never enabled; watches of older arcs keep pushing them; nothing else is pushed for a literal. *)
Theorem c54_attach G0 G1 s W todo s' W' todo' : attach (G0 ++ G1) (length G0) true (s, W, todo) = Some (s', W', todo') ->
  pext s' s /\ incl todo todo' /\
  (forall a, In a G1 -> a_head a = a_tail a -> isFalse s' (a_lit a) = true) /\
  (forall a s2, In a G1 -> a_head a <> a_tail a -> pext s2 s' -> isTrue s2 (a_lit a) = true -> (In a todo' /\ isTrue s' (a_lit a) = true) \/ In a (fire (G0 ++ G1) W' (a_lit a))) /\
  (forall p a, In a (fire G0 W p) -> In a (fire (G0 ++ G1) W' p)) /\
  ((forall p i, In i (W p) -> i < length G0) -> forall p a, In a (fire (G0 ++ G1) W' p) -> In a (fire G0 W p) \/ In a G1 /\ a_lit a = p) /\
  (forall a, In a todo' -> In a todo \/ In a G1 /\ isTrue s' (a_lit a) = true).
Proof.
  unfold attach. rewrite skipn_app, skipn_all, Nat.sub_diag. cbn [skipn app]. intro E. apply attach0 in E as (E1 & E2 & E3 & E4 & E5 & E6). split; [exact E1|]. split; [exact E3|].
  assert (NT : forall a, In a G1 -> exists k, nth_error G1 k = Some a) by (intros a A; now apply In_nth_error). split; [|split; [|split; [|split]]].
  - intros a A H. destruct (NT a A) as (k & K). apply E4 in K. unfold seenA in K. now rewrite (proj2 (Nat.eqb_eq _ _) H) in K.
  - intros a s2 A H X T. destruct (NT a A) as (k & K). pose proof (E4 k a K) as S. unfold seenA in S. rewrite (proj2 (Nat.eqb_neq _ _) H) in S. destruct S as [F | [I | [T' I]]]; [| |now left].
    + exfalso. apply (not_both s2 (a_lit a) T). eapply false_pext; eauto.
    + right. apply in_flat_map. exists (length G0 + k). split; [exact I|]. rewrite nth_error_app2, Nat.add_sub_swap, Nat.sub_diag by lia. cbn [plus]. rewrite K. now left.
  - intros p a A. apply in_flat_map in A as (i & I & A). apply in_flat_map. exists i. split; [now apply E2|]. destruct (nth_error G0 i) as [b|] eqn:Q; [|destruct A]. rewrite nth_error_app1 by (apply nth_error_Some; congruence). now rewrite Q.
  - intros B p a A. apply in_flat_map in A as (i & I & A). destruct (E5 p i I) as [K | (k & b & -> & K & L)].
    + left. apply in_flat_map. exists i. split; [exact K|]. rewrite nth_error_app1 in A by (eapply B; eauto). exact A.
    + right. rewrite nth_error_app2, Nat.add_sub_swap, Nat.sub_diag in A by lia. cbn [plus] in A. rewrite K in A. destruct A as [<- | []]. split; [eapply nth_error_In; eauto | exact L].
  - intros a A. destruct (E6 a A) as [K | (K1 & _ & K2)]; auto.
Qed.
Print Assumptions c54_attach.

(** After the arcs were sorted anew together with new ones, attaching all of them again covers every arc if no two arcs share a literal. *)
Theorem c54_reattach G old s W todo s' W' todo' : NoDup (map a_lit G) -> attach G old false (s, W, todo) = Some (s', W', todo') ->
  (forall a, In a G -> a_head a = a_tail a -> isFalse s' (a_lit a) = true) /\
  (forall a s2, In a G -> a_head a <> a_tail a -> pext s2 s' -> isTrue s2 (a_lit a) = true -> (In a todo' /\ isTrue s' (a_lit a) = true) \/ In a (fire G W' (a_lit a))).
Proof.
  unfold attach. cbn [skipn]. intros ND E. apply attachU in E as (E1 & E2 & E3 & E4); [|exact ND]. split.
  - intros a A H. apply In_nth_error in A as (k & K). apply E4 in K. unfold seenA in K. now rewrite (proj2 (Nat.eqb_eq _ _) H) in K.
  - intros a s2 A H X T. apply In_nth_error in A as (k & K). pose proof (E4 k a K) as S. unfold seenA in S. rewrite (proj2 (Nat.eqb_neq _ _) H) in S. destruct S as [F | [I | [T' I]]]; [| |now left].
    + exfalso. apply (not_both s2 (a_lit a) T). eapply false_pext; eauto.
    + right. apply in_flat_map. exists k. split; [exact I|]. rewrite K. now left.
Qed.
Print Assumptions c54_reattach.

(** In general it does not: arcs with the same literal overwrite one watch, and a cycle of enabled arcs then passes the check. *)
Theorem c54_attach_refuted : ~ (forall G0 G s W0 s1 W1 p top n full pa s2 log pa',
  StronglySorted (fun a b => a_tail a <= a_tail b) G0 -> StronglySorted (fun a b => a_tail a <= a_tail b) G -> incl G0 G ->
  attach G0 0 true (s, (fun _ => []), []) = Some (s, W0, []) -> attach G (length G0) false (s, W0, []) = Some (s1, W1, []) -> s1 (fst p) = None ->
  propagateFixpoint G top (fun x => Some x) n full (set s1 p, fire G W1 p, []) pa = Some (PDone s2 log pa') -> ~ cyclic (enabled G s2)).
Proof.
  intro H. set (x := (1, true)). set (y := (2, true)). set (G0 := [Arc x 5 6; Arc x 7 8; Arc x 9 10]). set (G := [Arc y 0 1; Arc y 1 0; Arc y 2 3; Arc x 5 6; Arc x 7 8; Arc x 9 10]).
  refine (H G0 G (fun _ => None) _ _ _ y (fun _ => false) 5 true (fun _ => (x, 0)) _ _ _ _ _ _ eq_refl eq_refl eq_refl eq_refl _).
  - repeat constructor.
  - repeat constructor.
  - intros a A. now do 3 right.
  - exists 0, (Arc y 0 1), [Arc y 1 0]. apply (WS _ (Arc y 0 1)); [split; [now left | reflexivity]|]. apply (WS _ (Arc y 1 0)); [split; [right; now left | reflexivity]|]. constructor.
Qed.
Print Assumptions c54_attach_refuted.

(** A new search starts with no node visited, and the nodes of the search before are those with the previous tag, also when the counter overflows. *)
Theorem c54_tags M tags cnt : 2 < M -> cnt < M -> (forall v, tags v <= cnt) ->
  let (tags', tag) := startSearch M tags cnt in 0 < tag /\ tag < M /\ (forall v, tags' v < tag) /\ (forall v, tags' v = tag - 1 <-> tags v = cnt).
Proof. exact (startSearch_spec M tags cnt). Qed.
Print Assumptions c54_tags.

(** Three arcs of a triangle and a fourth arc: two are enabled by a decision, the third is disabled by propagation. *)
Definition tri : list arc := [Arc (1, false) 0 1; Arc (2, false) 1 2; Arc (3, false) 2 0; Arc (4, false) 2 3].
Definition pa0 : par := fun _ => ((0, true), 0).
Definition sAB : pasg := fun v => if v =? 1 then Some true else if v =? 2 then Some true else None.
Example c54_nonvacuous : exists s, hist tri true s [] [fun _ => None] /\ isFalse s (3, false) = true /\ walk (enabled tri s) 0 [Arc (1, false) 0 1; Arc (2, false) 1 2] 2.
Proof.
  destruct (propagateFixpoint tri (fun _ => false) (fun x => Some x) 9 true (sAB, newly tri (fun _ => None) sAB, []) pa0) as [[|s' log' pa'|]|] eqn:E; try discriminate E.
  exists s'. split; [|split].
  - eapply (HCheck tri true sAB (newly tri (fun _ => None) sAB) [fun _ => None] (fun _ => false) (fun x => Some x)); [| |exact E].
    + apply (HAssign tri true (fun _ => None) []); [|now intros v b]. apply HOpen. apply (H0 tri true (fun _ => None)). intros a [<- | [<- | [<- | [<- | []]]]]; discriminate.
    + intros s1 s2 [= <-]. apply pext_refl.
  - injection E as <- _ _. reflexivity.
  - injection E as <- _ _. apply (WS _ (Arc (1, false) 0 1)); [split; [now left | reflexivity]|]. apply (WS _ (Arc (2, false) 1 2)); [split; [right; now left | reflexivity]|]. constructor.
Qed.
(** ... and its log gives the two arcs as reason; a cycle of true arcs fails *)
Example c54_sound_nonvacuous : (exists s' pa' sx, propagateFixpoint tri (fun _ => false) (fun x => Some x) 9 true (sAB, newly tri (fun _ => None) sAB, []) pa0 = Some (PDone s' [((3, false), [(1, false); (2, false)], sx)] pa')) /\
  exists w, propagateFixpoint tri (fun _ => false) (fun x => Some x) 9 false ((fun _ => Some true), tri, []) pa0 = Some (PFail w).
Proof. split; [do 3 eexists; reflexivity | eexists; reflexivity]. Qed.
Example c54_attach_nonvacuous : exists W s', attach (tri ++ [Arc (5, false) 3 3; Arc (1, false) 3 0]) (length tri) true ((fun v => if v =? 4 then Some true else None), (fun _ => []), []) = Some (s', W, []) /\
  fire (tri ++ [Arc (5, false) 3 3; Arc (1, false) 3 0]) W (1, false) = [Arc (1, false) 3 0] /\ isFalse s' (5, false) = true.
Proof. do 2 eexists. split; [reflexivity | split; reflexivity]. Qed.
Example c54_reattach_nonvacuous : exists W0 W1 s1, attach (tl tri) 0 true ((fun _ => None), (fun _ => []), []) = Some ((fun _ => None), W0, []) /\
  attach tri 3 false ((fun _ => None), W0, []) = Some (s1, W1, []) /\ NoDup (map a_lit tri) /\ map (fun v => fire tri W1 (v, false)) [1; 2; 3; 4] = map (fun a => [a]) tri.
Proof. do 3 eexists. split; [reflexivity|]. split; [reflexivity|]. split; [|reflexivity]. repeat (constructor; [cbn; intuition congruence|]). constructor. Qed.
Example c54_tags_nonvacuous : startSearch 4 (fun v => v) 3 = ((fun v => if v =? 3 then 1 else 0), 2).
Proof. reflexivity. Qed.
