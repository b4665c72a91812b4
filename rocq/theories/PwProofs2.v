(** C57: only what is needed is frozen. *)
From Coq Require Import List Arith Bool Lia Sorting.Sorted.
From Verif Require Import Base PwSpec PwModel PwProofs.
Import ListNotations.

Definition key (c : change) : nat := 2 * fst (c_lit c) + (if snd (c_lit c) then 0 else 1).
Lemma ltc_key a b : ltc a b = (key a <? key b).
Proof.
  unfold ltc, key. destruct (c_lit a) as [x p], (c_lit b) as [y q]. cbn [fst snd]. destruct (Nat.ltb_spec x y) as [L | L]; cbn [orb]; [symmetry; apply Nat.ltb_lt; destruct p, q; lia|].
  destruct (Nat.eqb_spec x y) as [-> | N]; cbn [andb]; [destruct p, q; cbn [andb negb]; symmetry; first [apply Nat.ltb_lt; lia | apply Nat.ltb_ge; lia] | symmetry; apply Nat.ltb_ge; destruct p, q; lia].
Qed.
Lemma key_lit a b : key a = key b -> c_lit a = c_lit b.
Proof. unfold key. destruct (c_lit a) as [x p], (c_lit b) as [y q]. cbn [fst snd]. intro H. assert (x = y) by (destruct p, q; lia). subst y. f_equal. destruct p, q; [easy | lia | lia | easy]. Qed.
Definition srt := StronglySorted (fun a b => key a <= key b).
Lemma ins_srt x l : srt l -> srt (ins x l).
Proof.
  unfold srt. induction 1 as [|y l S IH F]; cbn [ins]; [constructor; constructor|]. rewrite ltc_key. destruct (Nat.ltb_spec (key y) (key x)) as [L | L].
  - constructor; [exact IH|]. rewrite Forall_forall in *. intros z Z. apply (proj1 (in_ins _ _ _)) in Z as [-> | Z]; [lia | auto].
  - constructor; [now constructor|]. constructor; [lia|]. rewrite Forall_forall in *. intros z Z. specialize (F z Z). lia.
Qed.
Lemma sort_srt l : srt (sort l).
Proof. induction l as [|x l IH]; [constructor|]. apply ins_srt. exact IH. Qed.
Lemma ev_none sid l cs b : (forall c, In c cs -> c_lit c <> l) -> ev sid l cs b = b.
Proof.
  revert b. induction cs as [|c cs IH]; intros b N; [reflexivity|]. unfold ev in *. cbn [fold_left]. rewrite IH by (intros; apply N; now right). unfold upd. destruct (lit_eqb (c_lit c) l) eqn:E; [|reflexivity]. apply lit_eqb_eq in E. exfalso. apply (N c); [now left | easy].
Qed.
Lemma prep_in l cs : forall m f, In l (prep cs m f) -> exists c, In c cs /\ c_lit c = l.
Proof.
  induction cs as [|c r IH]; intros m f H; [easy|]. cbn [prep] in H. revert H. set (m' := match c_act c with AAdd => fun k => m k || mask c k | ARem => fun k => m k && negb (mask c k) | AFrz => m end). set (f' := match c_act c with AFrz => true | _ => f end).
  assert (HERE : In l (if f' || existsb m' (seq 0 64) then [c_lit c] else []) -> c_lit c = l) by (destruct (f' || existsb m' (seq 0 64)); [intros [X | []]; exact X | easy]).
  destruct r as [|d r']; [intro H; exists c; split; [now left | auto]|]. destruct (lit_eqb (c_lit d) (c_lit c)); intro H; [|apply in_app_iff in H as [H | H]; [exists c; split; [now left | auto]|]]; destruct (IH _ _ H) as (x & X & Y); exists x; (split; [now right | easy]).
Qed.
Lemma prep_only l cs : srt cs -> (forall c, In c cs -> wf c) -> forall m f, In l (prep cs m f) ->
  (match cs with [] => False | c :: _ => c_lit c = l /\ f = true end) \/ (exists c, In c cs /\ c_lit c = l /\ c_act c = AFrz) \/
  exists sid, sid < 64 /\ match cs with [] => False | c :: _ => ev sid l cs (if lit_eqb (c_lit c) l then m sid else false) = true end.
Proof.
  unfold srt. induction 1 as [|c r S IH F]; intros W m f H; [easy|]. cbn [prep] in H. revert H. set (m' := match c_act c with AAdd => fun k => m k || mask c k | ARem => fun k => m k && negb (mask c k) | AFrz => m end). set (f' := match c_act c with AFrz => true | _ => f end).
  assert (W' : forall x, In x r -> wf x) by (intros; apply W; now right). specialize (IH W').
  assert (FF : f' = true -> c_lit c = l -> (c_lit c = l /\ f = true) \/ (exists x, In x (c :: r) /\ c_lit x = l /\ c_act x = AFrz)).
  { unfold f'. destruct (c_act c) eqn:A; intros T E; [left; easy | left; easy | right; exists c; split; [now left | easy]]. }
  assert (M : forall sid, sid < 64 -> c_lit c = l -> m' sid = upd sid l (m sid) c). { intros sid L E. unfold m', upd. rewrite (proj2 (lit_eqb_eq _ _) E). cbn [andb]. pose proof (mask_concerns c sid L (W c (or_introl eq_refl))) as X. destruct (c_act c); [| |destruct (concerns sid c); reflexivity]; rewrite X by discriminate; destruct (concerns sid c), (m sid); reflexivity. }
  assert (HERE : (forall x, In x r -> c_lit x <> l) -> In l (if f' || existsb m' (seq 0 64) then [c_lit c] else []) -> (c_lit c = l /\ f = true) \/ (exists x, In x (c :: r) /\ c_lit x = l /\ c_act x = AFrz) \/ exists sid, sid < 64 /\ ev sid l (c :: r) (if lit_eqb (c_lit c) l then m sid else false) = true).
  { intros N H. destruct (f' || existsb m' (seq 0 64)) eqn:Q; [|easy]. destruct H as [E | []]. apply orb_true_iff in Q as [Q | Q]; [destruct (FF Q E) as [X | X]; auto|]. right. right. apply existsb_exists in Q as (sid & L & Q). apply in_seq in L. exists sid. split; [lia|]. unfold ev. cbn [fold_left]. rewrite (proj2 (lit_eqb_eq _ _) E). rewrite M in Q by (try lia; easy). rewrite Q. now apply ev_none. }
  destruct r as [|d r']; [intro H; apply HERE; [easy | exact H]|]. destruct (lit_eqb (c_lit d) (c_lit c)) eqn:DC.
  - apply lit_eqb_eq in DC. intro H. destruct (IH _ _ H) as [[E T] | [(x & X & Y) | (sid & L & X)]].
    + rewrite DC in E. destruct (FF T E) as [Z | Z]; auto.
    + right. left. exists x. split; [now right | easy].
    + right. right. exists sid. split; [easy|]. rewrite DC in X. unfold ev in *. cbn [fold_left] in *. destruct (lit_eqb (c_lit c) l) eqn:E; [apply lit_eqb_eq in E; rewrite <- M by easy; exact X|]. replace (upd sid l false c) with false by (unfold upd; now rewrite E). exact X.
  - intro H.
    assert (N : forall x, In x (d :: r') -> c_lit x <> c_lit c). { assert (K : key c < key d). { inversion F as [|? ? A _]; subst. destruct (Nat.eq_dec (key c) (key d)) as [Z | Z]; [|lia]. apply key_lit in Z. assert (lit_eqb (c_lit d) (c_lit c) = true) by (now apply lit_eqb_eq). congruence. }
      intros x X E. assert (key x = key c) by (unfold key; now rewrite E). inversion S as [|? ? _ FD]; subst. rewrite Forall_forall in FD. destruct X as [<- | X]; [lia | specialize (FD x X); lia]. }
    apply in_app_iff in H as [H | H].
    + apply HERE; [|exact H]. intros x X E. destruct (f' || existsb m' (seq 0 64)); [|easy]. destruct H as [H | []]. apply (N x X). congruence.
    + destruct (prep_in _ _ _ _ H) as (y & Y & YL). assert (CL : lit_eqb (c_lit c) l = false). { destruct (lit_eqb (c_lit c) l) eqn:E; [|reflexivity]. apply lit_eqb_eq in E. exfalso. apply (N y Y). congruence. }
      destruct (IH _ _ H) as [[_ T] | [(x & X & Z) | (sid & L & X)]]; [discriminate | right; left; exists x; split; [now right | easy]|]. right. right. exists sid. split; [easy|]. rewrite CL. unfold ev in *. cbn [fold_left] in *. replace (upd sid l false c) with false by (unfold upd; now rewrite CL). destruct (lit_eqb (c_lit d) l); exact X.
Qed.
Lemma frz_ops gaps P C s : reach gaps P C s -> forall c, In c (changes s) -> exists o, In o C /\ c = toChange o.
Proof.
  induction 1 as [|P C s o R IH N V | P C s R IH | P C s sid R IH S G | P C s R IH | P C s sid R IH]; cbn; try easy.
  - intros c X. apply in_app_iff in X as [X | [<- | []]]; [destruct (IH c X) as (o' & O & E); exists o'; split; [apply in_app_iff; now left | easy] | exists o; split; [apply in_app_iff; right; now left | easy]].
  - intros c X. apply (proj1 (in_sort _ _)) in X. auto.
Qed.
