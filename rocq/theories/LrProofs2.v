(** The two-ended container: operations on one object. *)
From Coq Require Import List Arith NArith Bool Lia.
From Verif Require Import Base LrModel LrSpec LrProofs.
Import ListNotations.

Section P.
Variable byte : Type.
Variable junk : byte.
Variables sL sR al i pad : nat.
Hypothesis Z : sizes sL sR al i pad.
Notation st := (st byte). Notation elem := (list byte).
Notation bs := (bs sL sR al). Notation ic := (ic sL sR al i pad).
Notation extra := (extra sL sR al i pad).
Notation owns := (owns byte sL sR al i pad). Notation frame := (frame byte). Notation good := (good byte sL sR al i pad). Notation P := (P byte sL sR al i pad).
Notation has := (has byte). Notation moves := (moves byte sL sR).
Notation realloc := (realloc byte junk sL sR al).

Definition below (s : st) (p : ptr) : Prop := forall b, p = Heap b -> b < s_next _ s.
Lemma frame_below s o p s' p' : frame s o p s' p' -> below s p' -> below s' p'.
Proof. intros F B b E. pose proof (f_next _ _ _ _ _ _ F). specialize (B b E). lia. Qed.

(** The state after alloc *)
Lemma alloc_ok s n : owns (fst (alloc byte junk s n)) 0 (snd (alloc byte junk s n)) (repeat junk n) true.
Proof. cbn. rewrite upd_eq. auto. Qed.

Lemma realloc_ok s o r l k m gap t : good s o r l k m gap -> below s (r_buf r) -> (forall b, s_next _ s <= b -> s_heap _ s b = None) ->
  r_right r < r_left r + t -> t <= bs -> (N.of_nat t <= 65536)%N ->
  exists s' r' m' gap', realloc s r = Ok (s', r') /\ good s' o r' l k m' gap' /\ frame s o (r_buf r) s' (r_buf r') /\ below s' (r_buf r') /\ r_left r' + t <= r_right r'.
Proof.
  intros G B FR Lr Lt Ht. unfold LrModel.realloc.
  pose proof (good_cap _ _ _ _ _ _ _ _ _ _ _ _ _ G) as C. pose proof (p_left _ _ _ _ _ _ _ _ _ _ _ _ _ G) as E1. pose proof (p_right _ _ _ _ _ _ _ _ _ _ _ _ _ G) as E2.
  pose proof (p_fit _ _ _ _ _ _ _ _ _ _ _ _ _ G) as FT. destruct (p_bs _ _ _ _ _ _ _ _ _ _ _ _ _ G) as (c & EC).
  pose proof (bs_ge _ _ _ _ _ Z) as (BG1 & BG2). pose proof (bs_le _ _ _ _ _ Z) as BL. pose proof (sL_pos _ _ _ _ _ Z) as SP.
  assert (CE : capacity sL sR al r = c). { unfold capacity. rewrite EC. apply Nat.div_mul. lia. }
  rewrite CE. assert (CB : (N.of_nat (c * bs) <= 1073741824 + 65536)%N) by lia.
  assert (C3 : c <= c * bs) by nia.
  rewrite (u32_id (c * 3)) by lia.
  assert (CD : (c * 3 / 2) * 2 <= c * 3) by (rewrite Nat.mul_comm; apply Nat.mul_div_le; lia).
  assert (CD2 : c * 3 <= (c * 3 / 2) * 2 + 1). { pose proof (Nat.div_mod (c * 3) 2 ltac:(lia)). pose proof (Nat.mod_upper_bound (c * 3) 2 ltac:(lia)). lia. }
  set (h := c * 3 / 2) in *. clearbody h. assert (HB : 2 * (h * bs) <= 3 * (c * bs)) by nia.
  rewrite (u32_id (h * bs)) by lia. rewrite (u32_id (4 * bs)) by lia.
  set (nc := if h * bs <? 4 * bs then 4 * bs else h * bs).
  assert (NC : exists d, nc = d * bs /\ c + 1 <= d) by (unfold nc; destruct (Nat.ltb_spec (h * bs) (4 * bs)); [exists 4|exists h]; split; auto; nia).
  assert (NL : (N.of_nat nc < 2147483648)%N) by (unfold nc; destruct (_ <? _); lia).
  clearbody nc. destruct NC as (d & Ed & Ld). assert (NG : r_cap r + bs <= nc) by nia.
  rewrite (good_k _ _ _ _ _ _ _ _ _ _ _ _ _ G). rewrite sub32_le by lia.
  cbn [alloc]. set (s1 := St byte (s_obj byte s) (s_inl byte s) (upd (s_heap byte s) (s_next byte s) (Some (repeat junk nc))) (S (s_next byte s))). set (p := Heap (s_next byte s)).
  assert (NP : p <> r_buf r) by (intros X; symmetry in X; specialize (B _ X); lia).
  assert (G1 : good s1 o r l k m gap).
  { destruct G as [A1 A2 A3 A4 A5 A6 A7 A8 A9 A10]. constructor; auto. revert A1 NP. unfold LrProofs.owns, s1, p. destruct (r_buf r) as [| |b]; cbn; auto. intros H N. now rewrite upd_neq by congruence. }
  assert (O1 : owns s1 o p (repeat junk nc) true) by (cbn; rewrite upd_eq; auto).
  assert (B1 : below s1 p) by (intros b X; injection X as <-; cbn; lia).
  destruct (moves_ok byte sL sR al i pad Z s1 o p (repeat junk nc) true o r l k m gap O1 B1 NP G1) as (s2 & gap' & M & O2 & LG & F2 & MM).
  { rewrite repeat_length. lia. }
  rewrite repeat_length in M, LG. unfold LrProofs.moves in M. rewrite M. cbn [bind].
  destruct (release_ok byte sL sR al i pad s2 o r m) as (s3 & R & F3 & EI & M3).
  { pose proof (p_own _ _ _ _ _ _ _ _ _ _ _ _ _ G1) as OW. revert OW. unfold LrProofs.owns. pose proof (MM (r_buf r) (fun X => NP (eq_sym X))) as ME. revert ME NP. unfold p. destruct (r_buf r) as [|x|b]; cbn; auto.
    - intros ME NP' (-> & A1 & A2 & A3 & A4 & A5). rewrite (f_obj _ _ _ _ _ _ F2). repeat split; auto. cbn in ME. rewrite (f_obj _ _ _ _ _ _ F2) in ME. unfold s1 in ME. cbn in ME. destruct (s_obj _ s o) eqn:OO; [|congruence]. injection ME as ->. exact A1.
    - intros ->. auto. }
  rewrite R. cbn [bind]. rewrite (u31_id nc NL). eexists _, _, _, gap'. split; [reflexivity|].
  assert (FF : frame s o (r_buf r) s3 p).
  { destruct F2 as [A1 A2 A3 A4 A5 A6 A7 A8]. destruct F3 as [D1 D2 D3 D4 D5 D6 D7 D8]. constructor; unfold s1 in *; cbn in *.
    - congruence.
    - intros q N. now rewrite D2, A2.
    - congruence.
    - lia.
    - intros b Lb N. rewrite D5, A5, upd_neq; auto; try lia. unfold p. intros X. injection X as X. lia.
    - intros b H. destruct (D6 b H) as [X|(X & X')]; [discriminate|]. destruct (A6 b X) as [Y|(Y & Y')]; [now left|right; split; auto]. rewrite upd_neq in Y by (unfold p in Y'; congruence). exact Y.
    - intros b X. injection X as <-. right. lia.
    - intros H b Hb. apply D8; [|lia]. intros b' Hb'. apply A8; [|lia]. intros b2 Hb2. rewrite upd_neq by lia. apply H. lia. }
  split; [constructor|split; [exact FF|split]]; cbn [r_buf r_cap r_left r_right r_free]; try apply G; auto.
  - pose proof (M3 p NP) as X. unfold p in X |- *. cbn in X |- *. rewrite X. exact O2.
  - rewrite !app_length, (concat_len _ sL), (concat_rev_len _ sR), LG by apply G. lia.
  - lia.
  - eauto.
  - intros b X. injection X as <-. pose proof (f_next _ _ _ _ _ _ F2). pose proof (f_next _ _ _ _ _ _ F3). cbn in *. lia.
  - cbn. lia.
Qed.

Ltac gd G := pose proof (good_cap _ _ _ _ _ _ _ _ _ _ _ _ _ G); pose proof (p_left _ _ _ _ _ _ _ _ _ _ _ _ _ G); pose proof (p_right _ _ _ _ _ _ _ _ _ _ _ _ _ G); pose proof (p_cap _ _ _ _ _ _ _ _ _ _ _ _ _ G);
  pose proof (p_fit _ _ _ _ _ _ _ _ _ _ _ _ _ G); pose proof (p_lim _ _ _ _ _ _ _ _ _ _ _ _ _ G); pose proof (concat_len _ sL _ (p_L _ _ _ _ _ _ _ _ _ _ _ _ _ G));
  pose proof (concat_rev_len _ sR _ (p_R _ _ _ _ _ _ _ _ _ _ _ _ _ G)).

Definition done (s : st) (o : nat) (r : rep) (x : res (st * rep)) (l k : list elem) : Prop :=
  exists s' r', x = Ok (s', r') /\ P s' o r' l k /\ frame s o (r_buf r) s' (r_buf r') /\ below s' (r_buf r').

Lemma splice_mid (a b c x : list byte) off : off = length a -> length x = length b -> splice byte (a ++ b ++ c) off x = a ++ x ++ c.
Proof.
  intros -> E. unfold splice. rewrite firstn_app_exact by reflexivity. do 2 f_equal. rewrite app_assoc. apply skipn_app_exact. rewrite app_length. lia.
Qed.
Lemma Forall_snoc {B} (Q : B -> Prop) l x : Forall Q l -> Q x -> Forall Q (l ++ [x]).
Proof. intros H Hx. apply Forall_app. auto. Qed.

Lemma pushLeft_ok s o r l k x : P s o r l k -> below s (r_buf r) -> (forall b, s_next _ s <= b -> s_heap _ s b = None) -> length x = sL ->
  (N.of_nat (length (l ++ [x]) * sL + length k * sR) <= 1073741824)%N -> done s o r (pushLeft byte junk sL sR al s r x) (l ++ [x]) k.
Proof.
  intros (m & gap & G) B FR LX FT. unfold pushLeft. destruct (bs_ge _ _ _ _ _ Z) as (BG1 & BG2).
  assert (H : exists s1 r1 m1 gap1, (if r_right r <? r_left r + sL then realloc s r else Ok (s, r)) = Ok (s1, r1) /\ good s1 o r1 l k m1 gap1 /\ frame s o (r_buf r) s1 (r_buf r1) /\ below s1 (r_buf r1) /\ r_left r1 + sL <= r_right r1).
  { destruct (Nat.ltb_spec (r_right r) (r_left r + sL)) as [Lt|Ge].
    - apply (realloc_ok s o r l k m gap sL G B FR Lt BG1). destruct Z. lia.
    - exists s, r, m, gap. split; [reflexivity|]. split; [exact G|]. split; [apply frame_refl|]. split; [exact B|exact Ge]. }
  destruct H as (s1 & r1 & m1 & gap1 & E & G1 & F1 & B1 & L1). rewrite E. cbn [bind].
  gd G1. destruct (write_ok byte sL sR al i pad s1 o (r_buf r1) m1 (r_free r1) (r_left r1) x (p_own _ _ _ _ _ _ _ _ _ _ _ _ _ G1) B1) as (s2 & W & O2 & F2 & _); [lia|].
  rewrite W. cbn [bind]. rewrite u32_id by lia. eexists _, _. split; [reflexivity|]. cbn [r_buf]. split; [|split; [eapply frame_trans; eauto|eapply frame_below; eauto]].
  exists (splice byte m1 (r_left r1) x), (skipn sL gap1). destruct G1 as [A1 A2 A3 A4 A5 A6 A7 A8 A9 A10].
  rewrite <- (firstn_skipn sL gap1) in A2. assert (LF : length (firstn sL gap1) = sL) by (rewrite firstn_length; lia).
  constructor; cbn [r_buf r_cap r_left r_right r_free]; auto.
  - rewrite A2, <- app_assoc, splice_mid; [|lia|lia]. rewrite concat_app. cbn. now rewrite app_nil_r, <- !app_assoc.
  - rewrite splice_len by lia. exact A3.
  - rewrite app_length. cbn. lia.
  - rewrite app_length, skipn_length. cbn. lia.
  - now apply Forall_snoc.
Qed.

Lemma pushRight_ok s o r l k x : P s o r l k -> below s (r_buf r) -> (forall b, s_next _ s <= b -> s_heap _ s b = None) -> length x = sR ->
  (N.of_nat (length l * sL + length (k ++ [x]) * sR) <= 1073741824)%N -> done s o r (pushRight byte junk sL sR al s r x) l (k ++ [x]).
Proof.
  intros (m & gap & G) B FR LX FT. unfold pushRight. destruct (bs_ge _ _ _ _ _ Z) as (BG1 & BG2).
  assert (H : exists s1 r1 m1 gap1, (if r_right r <? r_left r + sR then realloc s r else Ok (s, r)) = Ok (s1, r1) /\ good s1 o r1 l k m1 gap1 /\ frame s o (r_buf r) s1 (r_buf r1) /\ below s1 (r_buf r1) /\ r_left r1 + sR <= r_right r1).
  { destruct (Nat.ltb_spec (r_right r) (r_left r + sR)) as [Lt|Ge].
    - apply (realloc_ok s o r l k m gap sR G B FR Lt BG2). destruct Z. lia.
    - exists s, r, m, gap. split; [reflexivity|]. split; [exact G|]. split; [apply frame_refl|]. split; [exact B|exact Ge]. }
  destruct H as (s1 & r1 & m1 & gap1 & E & G1 & F1 & B1 & L1). rewrite E. cbn [bind].
  gd G1. rewrite (sub32_le (r_right r1) sR) by lia.
  destruct (write_ok byte sL sR al i pad s1 o (r_buf r1) m1 (r_free r1) (r_right r1 - sR) x (p_own _ _ _ _ _ _ _ _ _ _ _ _ _ G1) B1) as (s2 & W & O2 & F2 & _); [lia|].
  rewrite W. cbn [bind]. eexists _, _. split; [reflexivity|]. cbn [r_buf]. split; [|split; [eapply frame_trans; eauto|eapply frame_below; eauto]].
  exists (splice byte m1 (r_right r1 - sR) x), (firstn (length gap1 - sR) gap1). destruct G1 as [A1 A2 A3 A4 A5 A6 A7 A8 A9 A10].
  rewrite <- (firstn_skipn (length gap1 - sR) gap1) in A2. assert (LF : length (firstn (length gap1 - sR) gap1) = length gap1 - sR) by (rewrite firstn_length; lia).
  assert (LK : length (skipn (length gap1 - sR) gap1) = sR) by (rewrite skipn_length; lia).
  constructor; cbn [r_buf r_cap r_left r_right r_free]; auto.
  - rewrite A2. rewrite <- app_assoc, (app_assoc (concat l)), splice_mid; [|rewrite app_length; lia|lia]. rewrite rev_app_distr. cbn. now rewrite <- !app_assoc.
  - rewrite splice_len by lia. exact A3.
  - lia.
  - now apply Forall_snoc.
Qed.
End P.
