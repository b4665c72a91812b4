(** The two-ended container: buffers, frames, and single operations. *)
From Coq Require Import List Arith NArith Bool Lia.
From Verif Require Import Base LrModel LrSpec.
Import ListNotations.

Section P.
Variable byte : Type.
Variable junk : byte.
Variables sL sR al i pad : nat.
Hypothesis Z : sizes sL sR al i pad.
Notation st := (st byte). Notation elem := (list byte).
Notation bs := (bs sL sR al). Notation ic := (ic sL sR al i pad).
Notation extra := (extra sL sR al i pad).

(** * Arithmetic *)
Lemma u32_id x : (N.of_nat x < 4294967296)%N -> u32 x = x.
Proof. intros H. unfold u32. rewrite N.mod_small by exact H. apply Nat2N.id. Qed.
Lemma u31_id x : (N.of_nat x < 2147483648)%N -> u31 x = x.
Proof. intros H. unfold u31. rewrite N.mod_small by exact H. apply Nat2N.id. Qed.
Lemma sub32_le a b : b <= a -> sub32 a b = a - b.
Proof. intros H. unfold sub32. now rewrite (proj2 (Nat.leb_le b a) H). Qed.
Lemma sL_pos : 0 < sL. Proof. destruct Z. lia. Qed.
Lemma sR_pos : 0 < sR. Proof. destruct Z. lia. Qed.
Lemma al_pos : 0 < al. Proof. destruct Z. lia. Qed.
Lemma bs_ge : sL <= bs /\ sR <= bs.
Proof.
  pose proof al_pos. unfold LrModel.bs. set (x := Nat.max sL sR + (al - 1)). pose proof (Nat.div_mod x al ltac:(lia)). pose proof (Nat.mod_upper_bound x al ltac:(lia)).
  assert (x = Nat.max sL sR + (al - 1)) by reflexivity. clearbody x. nia.
Qed.
Lemma bs_le : (N.of_nat bs <= 131072)%N.
Proof.
  pose proof al_pos. unfold LrModel.bs. set (x := Nat.max sL sR + (al - 1)). pose proof (Nat.div_mod x al ltac:(lia)). pose proof (Nat.mod_upper_bound x al ltac:(lia)).
  assert (x = Nat.max sL sR + (al - 1)) by reflexivity. clearbody x. destruct Z. nia.
Qed.
Lemma ic_le : (N.of_nat ic <= 65536)%N.
Proof.
  unfold LrModel.ic. destruct (_ && _); [|lia]. pose proof bs_ge. pose proof sL_pos. pose proof (Nat.div_mod (i - pad) bs ltac:(lia)). destruct Z. nia.
Qed.
Lemma ic_bs : exists k, ic = k * bs.
Proof. unfold LrModel.ic. destruct (_ && _); [eauto|now exists 0]. Qed.

(** * Concatenation of elements of equal size *)
Lemma concat_len n (l : list elem) : Forall (fun x => length x = n) l -> length (concat l) = length l * n.
Proof. induction 1 as [|x l H _ IH]; cbn; [reflexivity|]. rewrite app_length, IH, H. reflexivity. Qed.
Lemma Forall_rev' {B} (Q : B -> Prop) l : Forall Q l -> Forall Q (rev l).
Proof. rewrite !Forall_forall. intros H x X. apply H. now apply in_rev. Qed.
Lemma concat_rev_len n (l : list elem) : Forall (fun x => length x = n) l -> length (concat (rev l)) = length l * n.
Proof. intros H. rewrite (concat_len n) by now apply Forall_rev'. now rewrite rev_length. Qed.

(** * Buffers *)
Definition owns (s : st) (o : nat) (p : ptr) (m : list byte) (f : bool) : Prop :=
  match p with
  | Null => m = [] /\ f = false
  | Inl o' => o' = o /\ s_inl _ s o = m /\ s_obj _ s o <> None /\ f = false /\ ic <> 0 /\ length m = ic
  | Heap b => s_heap _ s b = Some m /\ f = true
  end.
Definition has (s : st) (p : ptr) (m : list byte) : Prop := m = [] \/ mem _ s p = Some m.
Lemma owns_has s o p m f : owns s o p m f -> has s p m.
Proof.
  destruct p; cbn; intros H; [left; tauto|right|right; tauto]. destruct H as (-> & <- & H & _). cbn. destruct (s_obj _ s o); congruence.
Qed.
Lemma read_ok s p m off n : has s p m -> off + n <= length m -> read _ s p off n = Ok (firstn n (skipn off m)).
Proof.
  intros [->|H] L; cbn in L; unfold read; destruct n as [|n]; try reflexivity; [lia|]. rewrite H. now rewrite (proj2 (Nat.leb_le _ _) L).
Qed.

(** What an operation on object [o], whose buffer moves from [p] to [p'], leaves alone. *)
Record frame (s : st) (o : nat) (p : ptr) (s' : st) (p' : ptr) : Prop := {
  f_obj : s_obj _ s' = s_obj _ s;
  f_inl : forall q, q <> o -> s_inl _ s' q = s_inl _ s q;
  f_len : length (s_inl _ s' o) = length (s_inl _ s o);
  f_next : s_next _ s <= s_next _ s';
  f_heap : forall b, b < s_next _ s -> p <> Heap b -> s_heap _ s' b = s_heap _ s b;
  f_dom : forall b, s_heap _ s' b <> None -> p' = Heap b \/ (s_heap _ s b <> None /\ p <> Heap b);
  f_new : forall b, p' = Heap b -> p = Heap b \/ s_next _ s <= b;
  f_fr : (forall b, s_next _ s <= b -> s_heap _ s b = None) -> forall b, s_next _ s' <= b -> s_heap _ s' b = None
}.
Lemma frame_refl s o p : frame s o p s p.
Proof. constructor; auto. intros b H. destruct p as [|q|c]; try (right; split; [exact H|congruence]). destruct (Nat.eq_dec c b) as [->|N]; [now left|right; split; congruence]. Qed.
Lemma frame_trans s o p s1 p1 s2 p2 : frame s o p s1 p1 -> frame s1 o p1 s2 p2 -> frame s o p s2 p2.
Proof.
  intros F G. destruct F as [A1 A2 A3 A4 A5 A6 A7 A8]. destruct G as [B1 B2 B3 B4 B5 B6 B7 B8]. constructor.
  - congruence.
  - intros q N. now rewrite B2, A2.
  - congruence.
  - lia.
  - intros b L N. rewrite B5; [auto|lia|]. intros E. destruct (A7 b E); [congruence|lia].
  - intros b H. destruct (B6 b H) as [E|(E & E')]; [now left|]. destruct (A6 b E) as [X|X]; [congruence|auto].
  - intros b H. destruct (B7 b H) as [E|E]; [auto|right; lia].
  - intros H. auto.
Qed.
Lemma upd_eq {B} (f : nat -> B) k v : upd f k v k = v. Proof. unfold upd. now rewrite Nat.eqb_refl. Qed.
Lemma upd_neq {B} (f : nat -> B) k v x : x <> k -> upd f k v x = f x. Proof. intros N. unfold upd. now rewrite (proj2 (Nat.eqb_neq x k) N). Qed.

Definition splice (m : list byte) (off : nat) (x : list byte) : list byte := firstn off m ++ x ++ skipn (off + length x) m.
Lemma splice_len m off x : off + length x <= length m -> length (splice m off x) = length m.
Proof. intros H. unfold splice. rewrite !app_length, firstn_length, skipn_length. lia. Qed.
Lemma splice_nil m off : splice m off [] = m.
Proof. unfold splice. cbn. rewrite Nat.add_0_r. apply firstn_skipn. Qed.
Lemma write_ok s o p m f off x : owns s o p m f -> (forall b, p = Heap b -> b < s_next _ s) -> off + length x <= length m ->
  exists s', write _ s p off x = Ok s' /\ owns s' o p (splice m off x) f /\ frame s o p s' p /\ (forall q, q <> p -> mem _ s' q = mem _ s q).
Proof.
  intros O NB L. destruct x as [|y x]; [exists s; cbn; rewrite splice_nil; split; [reflexivity|split; [exact O|split; [apply frame_refl|auto]]]|].
  pose proof (owns_has _ _ _ _ _ O) as [->|M]; [cbn in L; lia|]. unfold write. rewrite M, (proj2 (Nat.leb_le _ _) L). fold (splice m off (y :: x)).
  pose proof (splice_len m off (y :: x) L) as SL. destruct p as [|q|b]; cbn in O, M |- *; [discriminate| |].
  - destruct O as (-> & E & OB & F & I0 & LN). eexists. split; [reflexivity|]. unfold setInl; cbn. split; [rewrite upd_eq; repeat split; auto; congruence|]. split.
    + constructor; cbn; auto.
      * intros q N. now apply upd_neq.
      * rewrite upd_eq. congruence.
      * intros b H. right. split; [exact H|discriminate].
    + intros [|q|b] N; cbn; [reflexivity| |reflexivity]. destruct (s_obj byte s q); [|reflexivity]. now rewrite upd_neq by congruence.
  - destruct O as (E & F). eexists. split; [reflexivity|]. unfold setHeap; cbn. split; [rewrite upd_eq; auto|]. split.
    + constructor; cbn; auto.
      * intros c _ N. now apply upd_neq; congruence.
      * intros c. unfold upd. destruct (Nat.eqb_spec c b) as [->|N]; [now left|right; split; congruence].
      * intros H c Hc. rewrite upd_neq; [auto|]. specialize (NB b eq_refl). lia.
    + intros [|q|c] N; cbn; try reflexivity. now rewrite upd_neq by congruence.
Qed.
Lemma release_ok s o r m : owns s o (r_buf r) m (r_free r) ->
  exists s', release _ s r = Ok s' /\ frame s o (r_buf r) s' Null /\ s_inl _ s' = s_inl _ s /\ (forall q, q <> r_buf r -> mem _ s' q = mem _ s q).
Proof.
  unfold owns, release. destruct (r_buf r) as [|q|b] eqn:E; intros H.
  - destruct H as (_ & ->). exists s. split; [reflexivity|]. split; [apply frame_refl|auto].
  - destruct H as (_ & _ & _ & -> & _). exists s. split; [reflexivity|]. split; [|auto]. constructor; auto; try discriminate. intros b H. right. split; [exact H|discriminate].
  - destruct H as (E' & ->). rewrite E'. eexists. split; [reflexivity|]. split; [|split; [reflexivity|]].
    + unfold setHeap. constructor; cbn; auto; try discriminate.
      * intros c _ N. apply upd_neq. congruence.
      * intros c. unfold upd. destruct (Nat.eqb_spec c b) as [->|N]; [congruence|]. intros H. right. split; congruence.
      * intros H c Hc. unfold upd. destruct (Nat.eqb c b); auto.
    + intros [|q|c] N; cbn; try reflexivity. now rewrite upd_neq by congruence.
Qed.

(** * Objects *)
Record good (s : st) (o : nat) (r : rep) (l k : list elem) (m gap : list byte) : Prop := {
  p_own : owns s o (r_buf r) m (r_free r);
  p_mem : m = concat l ++ gap ++ concat (rev k);
  p_cap : r_cap r = length m;
  p_left : r_left r = length l * sL;
  p_right : r_right r = length l * sL + length gap;
  p_L : Forall (fun x => length x = sL) l;
  p_R : Forall (fun x => length x = sR) k;
  p_fit : (N.of_nat (length l * sL + length k * sR) <= 1073741824)%N;
  p_lim : (N.of_nat (r_cap r) < 2147483648)%N;
  p_bs : exists c, r_cap r = c * bs
}.
Definition P s o r l k : Prop := exists m gap, good s o r l k m gap.

Lemma good_cap s o r l k m gap : good s o r l k m gap -> r_cap r = length l * sL + length gap + length k * sR.
Proof. intros G. rewrite (p_cap _ _ _ _ _ _ _ G), (p_mem _ _ _ _ _ _ _ G), !app_length, (concat_len sL), (concat_rev_len sR) by apply G. lia. Qed.
Lemma good_k s o r l k m gap : good s o r l k m gap -> sub32 (r_cap r) (r_right r) = length k * sR.
Proof. intros G. pose proof (good_cap _ _ _ _ _ _ _ G). pose proof (p_right _ _ _ _ _ _ _ G). rewrite sub32_le by lia. lia. Qed.
Lemma good_ls s o r l k m gap : good s o r l k m gap -> leftSize sL r = length l.
Proof. intros G. unfold leftSize. rewrite (p_left _ _ _ _ _ _ _ G). pose proof sL_pos. apply Nat.div_mul. lia. Qed.
Lemma good_rs s o r l k m gap : good s o r l k m gap -> rightSize sR r = length k.
Proof. intros G. unfold rightSize. rewrite (good_k _ _ _ _ _ _ _ G). pose proof sR_pos. apply Nat.div_mul. lia. Qed.
Lemma good_raw s o r l k m gap : good s o r l k m gap -> rawSize r = length l * sL + length k * sR.
Proof. intros G. unfold rawSize. rewrite (good_k _ _ _ _ _ _ _ G), (p_left _ _ _ _ _ _ _ G). apply u32_id. pose proof (p_fit _ _ _ _ _ _ _ G). lia. Qed.
Lemma good_empty s o r l k m gap : good s o r l k m gap -> empty r = true -> l = [] /\ k = [].
Proof.
  intros G. unfold empty. intros H. apply andb_true_iff in H. rewrite !Nat.eqb_eq in H. pose proof (good_cap _ _ _ _ _ _ _ G). pose proof (p_left _ _ _ _ _ _ _ G). pose proof (p_right _ _ _ _ _ _ _ G).
  pose proof sL_pos. pose proof sR_pos. split; [destruct l|destruct k]; auto; cbn in *; lia.
Qed.

(** Copying the contents into another buffer. *)
Lemma skipn_app_exact {B} (a b : list B) n : n = length a -> skipn n (a ++ b) = b.
Proof. intros ->. rewrite skipn_app, Nat.sub_diag, skipn_all. reflexivity. Qed.
Lemma firstn_app_exact {B} (a b : list B) n : n = length a -> firstn n (a ++ b) = a.
Proof. intros ->. rewrite firstn_app, Nat.sub_diag, firstn_all. cbn. apply app_nil_r. Qed.

Definition moves (s : st) (q : rep) (p : ptr) (rt : nat) : res st :=
  if empty q then Ok s
  else do a <- read _ s (r_buf q) 0 (leftSize sL q * sL); do s <- write _ s p 0 a;
       do b <- read _ s (r_buf q) (r_right q) (rightSize sR q * sR); write _ s p rt b.

Lemma moves_ok s o p m2 f oq q l k m gap : owns s o p m2 f -> (forall b, p = Heap b -> b < s_next _ s) -> p <> r_buf q -> good s oq q l k m gap -> length l * sL + length k * sR <= length m2 ->
  exists s' gap', moves s q p (length m2 - length k * sR) = Ok s' /\ owns s' o p (concat l ++ gap' ++ concat (rev k)) f /\
    length gap' = length m2 - length l * sL - length k * sR /\ frame s o p s' p /\ (forall x, x <> p -> mem _ s' x = mem _ s x).
Proof.
  intros O NB NP G L. pose proof (concat_len sL l (p_L _ _ _ _ _ _ _ G)) as CL. pose proof (concat_rev_len sR k (p_R _ _ _ _ _ _ _ G)) as CR.
  unfold moves. destruct (empty q) eqn:E.
  - destruct (good_empty _ _ _ _ _ _ _ G E) as (-> & ->). exists s, m2. split; [reflexivity|]. cbn. rewrite app_nil_r. split; [exact O|]. split; [lia|]. split; [apply frame_refl|auto].
  - rewrite (good_ls _ _ _ _ _ _ _ G), (good_rs _ _ _ _ _ _ _ G). pose proof (owns_has _ _ _ _ _ (p_own _ _ _ _ _ _ _ G)) as H.
    rewrite (read_ok s (r_buf q) m 0 _ H); [|rewrite <- (p_cap _ _ _ _ _ _ _ G), (good_cap _ _ _ _ _ _ _ G); lia]. cbn [bind].
    assert (FA : firstn (length l * sL) (skipn 0 m) = concat l). { cbn [skipn]. rewrite (p_mem _ _ _ _ _ _ _ G). apply firstn_app_exact. now symmetry. } rewrite FA.
    destruct (write_ok s o p m2 f 0 (concat l) O NB) as (s1 & W1 & O1 & F1 & M1); [lia|]. rewrite W1. cbn [bind].
    assert (H1 : has s1 (r_buf q) m). { destruct H as [->|H]; [now left|right]. rewrite M1; [exact H|congruence]. }
    rewrite (read_ok s1 (r_buf q) m _ _ H1); [|rewrite <- (p_cap _ _ _ _ _ _ _ G), (good_cap _ _ _ _ _ _ _ G), (p_right _ _ _ _ _ _ _ G); lia]. cbn [bind].
    assert (FB : firstn (length k * sR) (skipn (r_right q) m) = concat (rev k)).
    { rewrite (p_mem _ _ _ _ _ _ _ G), app_assoc, skipn_app_exact; [rewrite <- CR; apply firstn_all|]. rewrite app_length, CL. apply G. } rewrite FB.
    destruct (write_ok s1 o p _ f (length m2 - length k * sR) (concat (rev k)) O1) as (s2 & W2 & O2 & F2 & M2).
    { intros b Hb. pose proof (NB b Hb). pose proof (f_next _ _ _ _ _ F1). lia. }
    { rewrite splice_len by lia. lia. }
    exists s2, (firstn (length m2 - length l * sL - length k * sR) (skipn (length l * sL) m2)). split; [exact W2|]. split; [|split; [|split; [eapply frame_trans; eauto|intros x N; rewrite M2, M1; auto]]].
    + match goal with |- owns _ _ _ ?a _ => replace a with (splice (splice m2 0 (concat l)) (length m2 - length k * sR) (concat (rev k))); [exact O2|] end.
      unfold splice at 1. rewrite CR. replace (skipn _ (splice m2 0 (concat l))) with (@nil byte) by (symmetry; apply skipn_all2; rewrite splice_len by lia; lia). rewrite app_nil_r, app_assoc. f_equal.
      unfold splice. cbn [firstn app Nat.add]. rewrite CL, firstn_app, CL, firstn_all2 by lia. do 2 f_equal. lia.
    + rewrite firstn_length, skipn_length. lia.
Qed.
End P.
