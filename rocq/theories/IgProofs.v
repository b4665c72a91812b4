(** C52: counting, and the invariant of the shared store of short learnt clauses. *)
From Coq Require Import List Arith Bool Lia.
From Verif Require Import Base IgSpec IgModel.
Import ListNotations.

Lemma fset_eq {A} (f : nat -> A) k v : fset f k v k = v.
Proof. unfold fset. now rewrite Nat.eqb_refl. Qed.
Lemma fset_ne {A} (f : nat -> A) k v x : x <> k -> fset f k v x = f x.
Proof. intro H. unfold fset. apply Nat.eqb_neq in H. now rewrite H. Qed.
Lemma lit_eqb_eq a b : lit_eqb a b = true <-> a = b.
Proof. unfold lit_eqb. destruct a as [a x], b as [b y]. cbn. rewrite andb_true_iff, Nat.eqb_eq, eqb_true_iff. split; [now intros [-> ->] | now intros [= -> ->]]. Qed.
Lemma lset_eq {A} (f : lit -> A) k v : lset f k v k = v.
Proof. unfold lset. replace (lit_eqb k k) with true; [easy | symmetry; now apply lit_eqb_eq]. Qed.
Lemma lset_ne {A} (f : lit -> A) k v x : x <> k -> lset f k v x = f x.
Proof. intro H. unfold lset. destruct (lit_eqb x k) eqn:E; [now apply lit_eqb_eq in E | easy]. Qed.

Fixpoint sumN (m : nat) (f : nat -> nat) : nat := match m with O => 0 | S m => sumN m f + f m end.
Lemma sumN_ext m f g : (forall u, u < m -> f u = g u) -> sumN m f = sumN m g.
Proof. induction m as [|m IH]; cbn; intro H; [easy|]. rewrite IH, (H m); auto. Qed.
Lemma sumN_fset {A} (w : A -> nat) m t p v : t < m -> sumN m (fun u => w (fset p t v u)) + w (p t) = sumN m (fun u => w (p u)) + w v.
Proof.
  induction m as [|m IH]; [lia|]. intro H. cbn. destruct (Nat.eq_dec t m) as [-> | N].
  - rewrite fset_eq. rewrite (sumN_ext m _ (fun u => w (p u))); [lia|]. intros u U. now rewrite fset_ne by lia.
  - rewrite (fset_ne _ _ _ m) by lia. specialize (IH ltac:(lia)). lia.
Qed.

(** Trace *)
Lemma called_app a b : called (a ++ b) = called a ++ called b.
Proof. induction a as [|[] a IH]; cbn; try easy. now rewrite IH. Qed.
Lemma added_app a b : added (a ++ b) = added a ++ added b.
Proof. induction a as [|[? ?|? ? []|? ? ?|? ?|?] a IH]; cbn; try easy. now rewrite IH. Qed.
Lemma seen_app g a b : seen g (a ++ b) = seen g a ++ seen g b.
Proof. induction a as [|[? ?|? ? []|? ? ?|? ?|?] a IH]; cbn; try easy. rewrite IH. now destruct (_ =? _). Qed.
Lemma follows_app l e a b : follows l e (a ++ b) = follows l e a + follows l e b.
Proof. unfold follows. now rewrite flat_map_app, count_occ_app. Qed.
Lemma times_app e a b : times e (a ++ b) = times e a + times e b.
Proof. apply count_occ_app. Qed.
Lemma times_In e a : In e a -> 0 < times e a.
Proof. intro H. now apply count_occ_In. Qed.
Lemma follows_In l e cs : 0 < follows l e cs -> exists c, In c cs /\ In (l, e) (entries c).
Proof. intro H. apply count_occ_In, in_flat_map in H. exact H. Qed.
Lemma split_snoc (tr t1 t2 : list ev) x b : tr ++ [x] = t1 ++ b :: t2 -> (t2 = [] /\ x = b /\ t1 = tr) \/ (exists t3, t2 = t3 ++ [x] /\ tr = t1 ++ b :: t3).
Proof.
  intro H. destruct t2 as [|y t2'] using rev_ind.
  - left. apply app_inj_tail in H as [-> ->]. auto.
  - right. exists t2'. change (b :: t2' ++ [y]) with ((b :: t2') ++ [y]) in H. rewrite app_assoc in H. apply app_inj_tail in H as [-> ->]. auto.
Qed.

(** Encoding of entries *)
Definition enc (e : entry) : list cell := match e with Bin q => [(q, true)] | Ter q r => [(q, false); (r, false)] end.
Definition encs (es : list entry) : list cell := flat_map enc es.
Definition entOf (pq : lit * lit) : entry := if isSentinel (snd pq) then Bin (fst pq) else Ter (fst pq) (snd pq).
Lemma nc_enc pq : nc pq = enc (entOf pq).
Proof. unfold nc, entOf. now destruct (isSentinel _). Qed.
Lemma encs_app a b : encs (a ++ b) = encs a ++ encs b.
Proof. apply flat_map_app. Qed.
Lemma calls_len c : length (calls c) = length (entries c).
Proof. now destruct c. Qed.
Definition jent (c : sclause) (j : nat) : lit * entry := (fst (jth c j), entOf (snd (jth c j))).
Lemma jent_nth c j : wfc c -> j < length (calls c) -> nth_error (entries c) j = Some (jent c j).
Proof.
  unfold wfc, jent, jth, entOf. intros W H. destruct c as [p q | p q r]; cbn in *.
  - destruct j as [|[|j]]; [easy | easy | lia].
  - apply Forall_inv_tail in W as W1. apply Forall_inv in W1 as Q. apply Forall_inv_tail in W1. apply Forall_inv in W1 as R. apply Nat.eqb_neq in Q, R.
    destruct j as [|[|[|j]]]; cbn; unfold isSentinel; rewrite ?Q, ?R; try easy. lia.
Qed.

Definition cn (x : lit * entry) (l : list (lit * entry)) : nat := count_occ le_dec l x.
Definition is1 (y x : lit * entry) : nat := if le_dec y x then 1 else 0.
Definition doneC (x : lit * entry) (p : pc) : nat :=
  match p with A0 c j | A1 c j _ | A2 c j _ _ _ | A3 c j => cn x (firstn j (entries c)) | S0 c | S1 c _ => cn x (entries c) | _ => 0 end.
Definition pendC (x : lit * entry) (p : pc) : nat :=
  match p with
  | R0 _ (KHas c) | R1 _ (KHas c) _ | R2 _ (KHas c) _ _ _ => cn x (entries c)
  | A0 c j | A1 c j _ | A2 c j _ _ _ | A3 c j => cn x (skipn j (entries c))
  | _ => 0 end.
Lemma firstn_S {A} (l : list A) j y : nth_error l j = Some y -> firstn (S j) l = firstn j l ++ [y] /\ skipn j l = y :: skipn (S j) l.
Proof. revert j. induction l as [|a l IH]; intros [|j] H; cbn in *; try easy; [now inversion H|]. destruct (IH j H) as [-> ->]. easy. Qed.
Lemma next_counts x c j : wfc c -> j < length (calls c) ->
  doneC x (nextCall c j) = cn x (firstn j (entries c)) + is1 (jent c j) x /\ pendC x (nextCall c j) + is1 (jent c j) x = cn x (skipn j (entries c)).
Proof.
  intros W H. destruct (firstn_S _ _ _ (jent_nth c j W H)) as [F K]. unfold nextCall.
  assert (C : cn x (firstn (S j) (entries c)) = cn x (firstn j (entries c)) + is1 (jent c j) x) by (rewrite F; unfold cn; rewrite count_occ_app; f_equal; cbn; unfold is1; now destruct (le_dec _ _)).
  assert (P : cn x (skipn (S j) (entries c)) + is1 (jent c j) x = cn x (skipn j (entries c))) by (rewrite K; unfold cn, is1; cbn [count_occ]; destruct (le_dec _ _); lia).
  destruct (Nat.ltb_spec (S j) (length (calls c))) as [B | B]; cbn [doneC pendC]; [now split|].
  rewrite calls_len in B. rewrite firstn_all2 in C by lia. rewrite skipn_all2 in P by lia. now split.
Qed.

(** The ghosts: [E]: entries of a block; [D]: entries of the blocks after it; [L]: the list of the block *)
Section G.
Variables (E D : nat -> list entry) (L : nat -> lit).
Definition cont (s : st) (l : lit) : list entry := if s_head s l =? 0 then [] else E (s_head s l) ++ D (s_head s l).
Record Core (s : st) : Prop := mkCore {
  cBrk : 1 <= s_brk s;
  cHead : forall l, s_head s l <> 0 -> s_head s l < s_brk s /\ L (s_head s l) = l;
  cNext : forall b, 0 < b < s_brk s -> s_next s b < b /\ D b = (if s_next s b =? 0 then [] else E (s_next s b) ++ D (s_next s b)) /\
            (s_next s b <> 0 -> L (s_next s b) = L b /\ forall l, s_head s l <> s_next s b);
  cData : forall b, 0 < b < s_brk s -> s_size s b = length (encs (E b)) /\ s_size s b <= cap /\ forall i, i < s_size s b -> nth_error (encs (E b)) i = Some (s_data s b i);
  cLock : forall b, 0 < b < s_brk s -> s_lock s b = false -> s_head s (L b) = b }.

Definition rest (s : st) (p : pc) (r : list entry) : Prop :=
  match p with
  | R0 l k => r = cont s l
  | R1 l k b => (b <> 0 -> b < s_brk s /\ L b = l) /\ r = (if b =? 0 then [] else E b ++ D b)
  | R2 l k b i n => 0 < b < s_brk s /\ L b = l /\ exists E1 E2 E3, E b = E1 ++ E2 ++ E3 /\ i = length (encs E1) /\ n = i + length (encs E2) /\ r = E2 ++ D b
  | _ => False
  end.
Definition kOK (s : st) (tr : list ev) (l : lit) (k : purpose) (r : list entry) : Prop :=
  (forall e, times e r <= times e (cont s l)) /\
  match k with
  | KProp g => g < s_vis s /\ ~ In (End_ g) tr /\
      (forall t1 t2 u l', tr = t1 ++ Begin u g l' :: t2 -> l' = l /\ forall e, follows l e (added t1) <= times e (seen g tr) + times e r) /\
      (forall e, times e (seen g tr) + times e r <= times e (cont s l))
  | KHas c => wfc c /\ l = fst (jth c 0)
  end.
Definition adOK (c : sclause) (j : nat) : Prop := wfc c /\ j < length (calls c).
Definition pcOK (s : st) (tr : list ev) (p : pc) : Prop :=
  match p with
  | Idle => True
  | R0 l k | R1 l k _ | R2 l k _ _ _ => exists r, rest s p r /\ kOK s tr l k r
  | A0 c j | A3 c j => adOK c j
  | A1 c j x => adOK c j /\ 0 < x < s_brk s /\ L x = fst (jth c j)
  | A2 c j x n z => adOK c j /\ 0 < x < s_brk s /\ s_lock s x = true /\ s_head s (fst (jth c j)) = x /\ s_size s x = n /\
      z <= length (nc (snd (jth c j))) /\ (0 < z -> n + length (nc (snd (jth c j))) <= cap) /\ forall i, i < z -> nth_error (nc (snd (jth c j))) i = Some (s_data s x (n + i))
  | S0 c | S1 c _ => wfc c
  end.
End G.
Definition holds_lock (p : pc) : nat := match p with A2 _ _ x _ _ => x | _ => 0 end.
Definition visit_of (p : pc) : option nat := match p with R0 _ (KProp g) | R1 _ (KProp g) _ | R2 _ (KProp g) _ _ _ => Some g | _ => None end.

Section Inv.
Variable m : nat.
Record Inv (E D : nat -> list entry) (L : nat -> lit) (tr : list ev) (s : st) : Prop := mkInv {
  iCore : Core E D L s;
  iPc : forall t, pcOK E D L s tr (s_pc s t);
  iUniq : forall t u, holds_lock (s_pc s t) <> 0 -> holds_lock (s_pc s t) = holds_lock (s_pc s u) -> t = u;
  iVis : forall t u g, visit_of (s_pc s t) = Some g -> visit_of (s_pc s u) = Some g -> t = u;
  iFresh : forall g, s_vis s <= g -> seen g tr = [] /\ ~ In (End_ g) tr /\ forall u l, ~ In (Begin u g l) tr;
  iAdd : forall l e, follows l e (added tr) + sumN m (fun u => doneC (l, e) (s_pc s u)) = times e (cont E D s l);
  iCall : forall l e, times e (cont E D s l) + sumN m (fun u => pendC (l, e) (s_pc s u)) <= follows l e (called tr);
  iWf : Forall wfc (called tr);
  iEnd : forall g t1 t2 u l, tr = t1 ++ Begin u g l :: t2 -> In (End_ g) tr -> forall e, follows l e (added t1) <= times e (seen g tr) <= times e (cont E D s l);
  iFalse : forall t c, In (Ret t c false) tr -> exists c', In c' (called tr) /\ subsumes c' c }.

Lemma init_inv : Inv (fun _ => []) (fun _ => []) (fun _ => lit_false) [] init.
Proof.
  assert (Z : forall (w : pc -> nat), w Idle = 0 -> sumN m (fun _ => w Idle) = 0) by (intros w W; induction m as [|k IH]; cbn; rewrite ?W in *; lia).
  split; cbn; try easy; try lia.
  - split; cbn; try easy; intros; lia.
  - intros l e. apply (Z (doneC (l, e))). easy.
  - intros l e. assert (H := Z (pendC (l, e)) eq_refl). cbn in H. rewrite H. easy.
Qed.
End Inv.
