(** The two-ended container: removal, shrinking and copying. *)
From Coq Require Import List Arith NArith Bool Lia.
From Verif Require Import Base LrModel LrSpec LrProofs LrProofs2.
Import ListNotations.

Section P.
Variable byte : Type.
Variable junk : byte.
Variables sL sR al i pad : nat.
Hypothesis Z : sizes sL sR al i pad.
Notation st := (st byte). Notation elem := (list byte).
Notation bs := (bs sL sR al). Notation ic := (ic sL sR al i pad).
Notation extra := (extra sL sR al i pad).
Notation owns := (owns byte sL sR al i pad). Notation frame := (frame byte). Notation good := (good byte sL sR al i pad). Notation P := (P byte sL sR al i pad).
Notation has := (has byte). Notation moves := (moves byte sL sR). Notation below := (below byte). Notation done := (done byte sL sR al i pad).

Ltac gd G := pose proof (good_cap _ _ _ _ _ _ _ _ _ _ _ _ _ G); pose proof (p_left _ _ _ _ _ _ _ _ _ _ _ _ _ G); pose proof (p_right _ _ _ _ _ _ _ _ _ _ _ _ _ G); pose proof (p_cap _ _ _ _ _ _ _ _ _ _ _ _ _ G);
  pose proof (p_fit _ _ _ _ _ _ _ _ _ _ _ _ _ G); pose proof (p_lim _ _ _ _ _ _ _ _ _ _ _ _ _ G); pose proof (concat_len _ sL _ (p_L _ _ _ _ _ _ _ _ _ _ _ _ _ G));
  pose proof (concat_rev_len _ sR _ (p_R _ _ _ _ _ _ _ _ _ _ _ _ _ G)).

Lemma Forall_firstn' {B} (Q : B -> Prop) n l : Forall Q l -> Forall Q (firstn n l).
Proof. intros H. rewrite <- (firstn_skipn n l) in H. apply Forall_app in H. tauto. Qed.
Lemma Forall_skipn' {B} (Q : B -> Prop) n l : Forall Q l -> Forall Q (skipn n l).
Proof. intros H. rewrite <- (firstn_skipn n l) in H. apply Forall_app in H. tauto. Qed.

Lemma shrinkLeft_ok s o r l k n : P s o r l k -> n <= length l -> P s o (shrinkLeft sL r n) (firstn n l) k.
Proof.
  intros (m & gap & G) L. exists m, (concat (skipn n l) ++ gap). gd G. destruct G as [A1 A2 A3 A4 A5 A6 A7 A8 A9 A10].
  assert (LS : length (concat (skipn n l)) = (length l - n) * sL) by (rewrite (concat_len _ sL) by (now apply Forall_skipn'); rewrite skipn_length; reflexivity).
  assert (LF : length (firstn n l) = n) by (rewrite firstn_length; lia).
  assert (X : length l * sL = n * sL + (length l - n) * sL) by (rewrite <- Nat.mul_add_distr_r; f_equal; lia).
  constructor; cbn [shrinkLeft r_buf r_cap r_left r_right r_free]; auto.
  - rewrite A2. rewrite <- (firstn_skipn n l) at 1. rewrite concat_app, <- !app_assoc. reflexivity.
  - rewrite LF, app_length, LS. lia.
  - now apply Forall_firstn'.
  - rewrite LF. lia.
Qed.
Lemma shrinkRight_ok s o r l k n : P s o r l k -> n <= length k -> P s o (shrinkRight sR r n) l (firstn n k).
Proof.
  intros (m & gap & G) L. exists m, (gap ++ concat (rev (skipn n k))). gd G. destruct G as [A1 A2 A3 A4 A5 A6 A7 A8 A9 A10].
  assert (LS : length (concat (rev (skipn n k))) = (length k - n) * sR) by (rewrite (concat_rev_len _ sR) by (now apply Forall_skipn'); rewrite skipn_length; reflexivity).
  assert (LF : length (firstn n k) = n) by (rewrite firstn_length; lia).
  assert (X : length k * sR = n * sR + (length k - n) * sR) by (rewrite <- Nat.mul_add_distr_r; f_equal; lia).
  constructor; cbn [shrinkRight r_buf r_cap r_left r_right r_free]; auto.
  - rewrite A2. rewrite <- (firstn_skipn n k) at 1. rewrite rev_app_distr, concat_app, <- !app_assoc. reflexivity.
  - rewrite sub32_le by lia. rewrite app_length, LS. lia.
  - now apply Forall_firstn'.
  - rewrite LF. lia.
Qed.
Lemma removelast_firstn' {B} (l : list B) : removelast l = firstn (length l - 1) l.
Proof. rewrite removelast_firstn_len. f_equal. lia. Qed.
Lemma popLeft_ok s o r l k : P s o r l k -> l <> [] -> exists r', popLeft sL r = Ok r' /\ r_buf r' = r_buf r /\ P s o r' (removelast l) k.
Proof.
  intros H N. pose proof H as (m & gap & G). gd G. unfold popLeft. rewrite (good_ls _ _ _ _ _ _ Z _ _ _ _ _ _ _ G). destruct l as [|x l]; [congruence|]. cbn [length Nat.eqb].
  eexists. split; [reflexivity|]. split; [reflexivity|]. rewrite removelast_firstn'. pose proof (shrinkLeft_ok s o r (x :: l) k (length (x :: l) - 1) H ltac:(lia)) as Y.
  unfold shrinkLeft in Y. cbn [length] in *. replace (S (length l) - 1) with (length l) in * by lia. replace (r_left r - sL) with (length l * sL) by lia. exact Y.
Qed.
Lemma popRight_ok s o r l k : P s o r l k -> k <> [] -> exists r', popRight sR r = Ok r' /\ r_buf r' = r_buf r /\ P s o r' l (removelast k).
Proof.
  intros H N. pose proof H as (m & gap & G). gd G. unfold popRight. rewrite (good_rs _ _ _ _ _ _ Z _ _ _ _ _ _ _ G). destruct k as [|x k]; [congruence|]. cbn [length Nat.eqb].
  eexists. split; [reflexivity|]. split; [reflexivity|]. rewrite removelast_firstn'. pose proof (shrinkRight_ok s o r l (x :: k) (length (x :: k) - 1) H ltac:(lia)) as Y.
  unfold shrinkRight in Y. cbn [length] in *. replace (S (length k) - 1) with (length k) in * by lia. rewrite sub32_le in Y by lia.
  replace (r_right r + sR) with (r_cap r - length k * sR) by lia. exact Y.
Qed.

Lemma split_at {B} (l : list B) n : n < length l -> exists a x b, l = a ++ x :: b /\ length a = n.
Proof.
  intros H. destruct (nth_error l n) as [x|] eqn:E; [|apply nth_error_None in E; lia]. apply nth_error_split in E. destruct E as (a & b & -> & E). now exists a, x, b.
Qed.
Lemma erase_split {B} (a b : list B) x : erase (a ++ x :: b) (length a) = a ++ b.
Proof. unfold erase. rewrite firstn_app_exact by reflexivity. f_equal. replace (S (length a)) with (length (a ++ [x])) by (rewrite app_length; cbn; lia). change (x :: b) with ([x] ++ b). rewrite app_assoc. now apply skipn_app_exact. Qed.
Lemma erase_end {B} (l : list B) : erase l (length l) = l.
Proof. unfold erase. rewrite firstn_all, skipn_all2 by lia. apply app_nil_r. Qed.
Lemma eraseU_last {B} (a : list B) x : eraseU (a ++ [x]) (length a) = a.
Proof.
  unfold eraseU. rewrite app_length. cbn [length]. replace (length a <? length a + 1) with true by (symmetry; apply Nat.ltb_lt; lia).
  rewrite firstn_app_exact by reflexivity. replace (length a + 1 - 1) with (length a) by lia. rewrite skipn_app_exact by reflexivity. rewrite skipn_all2 by (rewrite app_length; cbn; lia). rewrite app_nil_r. apply removelast_last.
Qed.
Lemma eraseU_mid {B} (a b : list B) x y : eraseU (a ++ x :: b ++ [y]) (length a) = a ++ y :: b.
Proof.
  unfold eraseU. replace (length a <? length (a ++ x :: b ++ [y])) with true by (symmetry; apply Nat.ltb_lt; rewrite app_length; cbn; lia).
  rewrite firstn_app_exact by reflexivity. 
  assert (E1 : skipn (length (a ++ x :: b ++ [y]) - 1) (a ++ x :: b ++ [y]) = [y]).
  { replace (a ++ x :: b ++ [y]) with ((a ++ x :: b) ++ [y]) by (now rewrite <- app_assoc). apply skipn_app_exact. rewrite app_length. cbn. lia. }
  assert (E2 : skipn (S (length a)) (a ++ x :: b ++ [y]) = b ++ [y]).
  { replace (a ++ x :: b ++ [y]) with ((a ++ [x]) ++ b ++ [y]) by (now rewrite <- app_assoc). apply skipn_app_exact. rewrite app_length. cbn. lia. }
  rewrite E1, E2, !app_assoc, removelast_last, <- app_assoc. reflexivity.
Qed.
Lemma eraseU_end {B} (l : list B) : eraseU l (length l) = l.
Proof. unfold eraseU. now rewrite Nat.ltb_irrefl. Qed.

Lemma done_refl s o r l k : P s o r l k -> below s (r_buf r) -> done s o r (Ok (s, r)) l k.
Proof. intros H B. exists s, r. split; [reflexivity|]. split; [exact H|]. split; [apply frame_refl|exact B]. Qed.
Lemma mul_inj a b c : 0 < c -> a * c = b * c -> a = b.
Proof. intros H E. apply Nat.mul_cancel_r in E; lia. Qed.

Lemma Forall_mid {B} (Q : B -> Prop) a x b : Forall Q (a ++ x :: b) -> Forall Q a /\ Q x /\ Forall Q b.
Proof. intros H. apply Forall_app in H. destruct H as (H1 & H2). inversion H2; auto. Qed.

Lemma eraseLeft_ok s o r l k n : P s o r l k -> below s (r_buf r) -> n <= length l -> done s o r (eraseLeft byte sL s r n) (erase l n) k.
Proof.
  intros H B L. pose proof H as (m & gap & G). gd G. pose proof (sL_pos _ _ _ _ _ Z) as SP. unfold eraseLeft. destruct (Nat.eqb_spec (n * sL) (r_left r)) as [E|E].
  - assert (n = length l) as -> by (apply (mul_inj _ _ sL); lia). rewrite erase_end. now apply done_refl.
  - assert (Ln : n < length l) by (destruct (Nat.eq_dec n (length l)); [subst; lia|lia]). destruct (split_at l n Ln) as (a & x & b & -> & La). rewrite <- La. rewrite erase_split.
    pose proof G as [A1 A2 A3 A4 A5 A6 A7 A8 A9 A10]. destruct (Forall_mid _ _ _ _ A6) as (Fa & Fx & Fb).
    pose proof (concat_len _ sL a Fa) as Ca. pose proof (concat_len _ sL b Fb) as Cb. 
    rewrite app_length in *. cbn [length] in *. replace ((length a + S (length b)) * sL) with (length a * sL + sL + length b * sL) in * by lia.
    destruct (Nat.ltb_spec (r_left r) (S (length a) * sL)); [cbn in *; lia|].
    replace (r_left r - S (length a) * sL) with (length b * sL) by (cbn; lia).
    rewrite (read_ok byte s (r_buf r) m _ _ (owns_has _ _ _ _ _ _ _ _ _ _ _ A1)) by (cbn; lia). cbn [bind].
    assert (FR : firstn (length b * sL) (skipn (S (length a) * sL) m) = concat b).
    { rewrite A2, concat_app. cbn [concat]. rewrite <- !app_assoc, (app_assoc (concat a)). rewrite skipn_app_exact by (rewrite app_length; cbn; lia). apply firstn_app_exact. now symmetry. }
    rewrite FR. destruct (write_ok byte sL sR al i pad s o (r_buf r) m (r_free r) (length a * sL) (concat b) A1 B) as (s2 & W & O2 & F2 & _); [lia|].
    rewrite W. cbn [bind]. eexists _, _. split; [reflexivity|]. cbn [r_buf]. split; [|split; [exact F2|eapply frame_below; eauto]].
    set (w := x ++ concat b) in *. assert (Lw : length w = sL + length b * sL) by (unfold w; rewrite app_length; lia).
    exists (splice byte m (length a * sL) (concat b)), (skipn (length (concat b)) w ++ gap).
    constructor; cbn [r_buf r_cap r_left r_right r_free]; auto.
    + assert (E1 : m = concat a ++ firstn (length (concat b)) w ++ (skipn (length (concat b)) w ++ gap ++ concat (rev k))).
      { rewrite A2, concat_app. cbn [concat]. fold w. rewrite (app_assoc (firstn _ w)), firstn_skipn, <- app_assoc. reflexivity. }
      rewrite E1, splice_mid; [|lia|rewrite firstn_length; lia]. rewrite concat_app, <- !app_assoc. reflexivity.
    + rewrite splice_len by lia. exact A3.
    + rewrite app_length. lia.
    + rewrite !app_length, skipn_length. lia.
    + apply Forall_app. auto.
    + rewrite app_length. lia.
Qed.

Lemma eraseLeftU_ok s o r l k n : P s o r l k -> below s (r_buf r) -> n <= length l -> done s o r (eraseLeftU byte sL s r n) (eraseU l n) k.
Proof.
  intros H B L. pose proof H as (m & gap & G). gd G. pose proof (sL_pos _ _ _ _ _ Z) as SP. unfold eraseLeftU. destruct (Nat.eqb_spec (n * sL) (r_left r)) as [E|E].
  - assert (n = length l) as -> by (apply (mul_inj _ _ sL); lia). rewrite eraseU_end. now apply done_refl.
  - assert (Ln : n < length l) by (destruct (Nat.eq_dec n (length l)); [subst; lia|lia]). destruct (split_at l n Ln) as (a & x & b & -> & La). rewrite <- La.
    pose proof G as [A1 A2 A3 A4 A5 A6 A7 A8 A9 A10]. destruct (Forall_mid _ _ _ _ A6) as (Fa & Fx & Fb).
    pose proof (concat_len _ sL a Fa) as Ca. pose proof (concat_len _ sL b Fb) as Cb. 
    rewrite app_length in *. cbn [length] in *. replace ((length a + S (length b)) * sL) with (length a * sL + sL + length b * sL) in * by lia.
    rewrite sub32_le by lia. rewrite (read_ok byte s (r_buf r) m _ _ (owns_has _ _ _ _ _ _ _ _ _ _ _ A1)) by lia. cbn [bind].
    assert (WR : forall y, length y = sL -> exists s2, write byte s (r_buf r) (length a * sL) y = Ok s2 /\ owns s2 o (r_buf r) (concat a ++ y ++ concat b ++ gap ++ concat (rev k)) (r_free r) /\ frame s o (r_buf r) s2 (r_buf r)).
    { intros y Ly. destruct (write_ok byte sL sR al i pad s o (r_buf r) m (r_free r) (length a * sL) y A1 B) as (s2 & W & O2 & F2 & _); [lia|]. exists s2. split; [exact W|]. split; [|exact F2].
      assert (E1 : m = concat a ++ x ++ (concat b ++ gap ++ concat (rev k))) by (rewrite A2, concat_app; cbn [concat]; now rewrite <- !app_assoc).
      rewrite E1, splice_mid in O2; [exact O2|lia|lia]. }
    destruct b as [|y b _] using rev_ind.
    + rewrite eraseU_last. cbn [length] in *.
      assert (FR : firstn sL (skipn (r_left r - sL) m) = x).
      { rewrite A2, concat_app. cbn [concat]. rewrite app_nil_r, <- !app_assoc. rewrite skipn_app_exact by lia. apply firstn_app_exact. now symmetry. }
      rewrite FR. destruct (WR x Fx) as (s2 & W & O2 & F2). rewrite W. cbn [bind]. eexists _, _. split; [reflexivity|]. cbn [r_buf]. split; [|split; [exact F2|eapply frame_below; eauto]].
      exists (concat a ++ x ++ [] ++ gap ++ concat (rev k)), (x ++ gap). constructor; cbn [r_buf r_cap r_left r_right r_free]; auto; try lia.
      * cbn. now rewrite <- !app_assoc.
      * rewrite !app_length. cbn [length] in *. lia.
      * rewrite app_length. lia.
    + rewrite eraseU_mid. rewrite app_length in *. cbn [length] in *. destruct (Forall_mid _ _ _ _ Fb) as (Fb' & Fy & _). pose proof (concat_len _ sL b Fb') as Cb'.
      assert (FR : firstn sL (skipn (r_left r - sL) m) = y).
      { rewrite A2, concat_app. cbn [concat]. rewrite concat_app. cbn [concat]. rewrite app_nil_r, <- !app_assoc. rewrite (app_assoc x), (app_assoc (concat a)). rewrite skipn_app_exact by (rewrite !app_length; lia). apply firstn_app_exact. now symmetry. }
      rewrite FR. destruct (WR y Fy) as (s2 & W & O2 & F2). rewrite W. cbn [bind]. eexists _, _. split; [reflexivity|]. cbn [r_buf]. split; [|split; [exact F2|eapply frame_below; eauto]].
      eexists _, (y ++ gap). constructor; cbn [r_buf r_cap r_left r_right r_free]; [exact O2| | | | | | | | |]; auto; try lia.
      * rewrite !concat_app. cbn [concat]. rewrite app_nil_r, <- !app_assoc. reflexivity.
      * rewrite !app_length. lia.
      * rewrite app_length. cbn [length]. lia.
      * rewrite !app_length. cbn [length]. lia.
      * apply Forall_app. auto.
      * rewrite app_length. cbn [length]. lia.
Qed.

Lemma eraseRight_ok s o r l k n : P s o r l k -> below s (r_buf r) -> n <= length k -> done s o r (eraseRight byte sR s r n) l (erase k n).
Proof.
  intros H B L. pose proof H as (m & gap & G). gd G. pose proof (sR_pos _ _ _ _ _ Z) as SP. unfold eraseRight.
  assert (LE : n * sR <= length k * sR) by nia. rewrite (sub32_le _ (n * sR)) by lia. destruct (Nat.eqb_spec (r_cap r - n * sR) (r_right r)) as [E|E].
  - assert (n = length k) as -> by (apply (mul_inj _ _ sR); lia). rewrite erase_end. now apply done_refl.
  - assert (Ln : n < length k) by (destruct (Nat.eq_dec n (length k)); [subst; lia|lia]). destruct (split_at k n Ln) as (a & x & b & -> & La). rewrite <- La. rewrite erase_split.
    pose proof G as [A1 A2 A3 A4 A5 A6 A7 A8 A9 A10]. destruct (Forall_mid _ _ _ _ A7) as (Fa & Fx & Fb).
    pose proof (concat_rev_len _ sR a Fa) as Ca. pose proof (concat_rev_len _ sR b Fb) as Cb. 
    rewrite app_length in *. cbn [length] in *. replace ((length a + S (length b)) * sR) with (length a * sR + sR + length b * sR) in * by lia.
    rewrite sub32_le by (cbn; lia). destruct (Nat.ltb_spec (r_cap r - S (length a) * sR) (r_right r)); [cbn in *; lia|].
    replace (r_cap r - S (length a) * sR - r_right r) with (length b * sR) by (cbn; lia).
    rewrite (read_ok byte s (r_buf r) m _ _ (owns_has _ _ _ _ _ _ _ _ _ _ _ A1)) by lia. cbn [bind].
    assert (RV : concat (rev (a ++ x :: b)) = concat (rev b) ++ x ++ concat (rev a)).
    { rewrite rev_app_distr. cbn [rev]. rewrite !concat_app. cbn [concat]. now rewrite app_nil_r, <- !app_assoc. }
    assert (FR : firstn (length b * sR) (skipn (r_right r) m) = concat (rev b)).
    { rewrite A2, RV, app_assoc. rewrite skipn_app_exact by (rewrite app_length; lia). apply firstn_app_exact. now symmetry. }
    rewrite FR. destruct (write_ok byte sL sR al i pad s o (r_buf r) m (r_free r) (r_right r + sR) (concat (rev b)) A1 B) as (s2 & W & O2 & F2 & _); [lia|].
    rewrite W. cbn [bind]. eexists _, _. split; [reflexivity|]. cbn [r_buf]. split; [|split; [exact F2|eapply frame_below; eauto]].
    set (w := concat (rev b) ++ x) in *. assert (Lw : length w = sR + length b * sR) by (unfold w; rewrite app_length; lia).
    exists (splice byte m (r_right r + sR) (concat (rev b))), (gap ++ firstn sR w).
    constructor; cbn [r_buf r_cap r_left r_right r_free]; auto.
    + assert (E1 : m = (concat l ++ gap ++ firstn sR w) ++ skipn sR w ++ concat (rev a)).
      { rewrite A2, RV. rewrite (app_assoc (concat (rev b))). fold w. rewrite <- !app_assoc. do 2 f_equal. now rewrite app_assoc, firstn_skipn. }
      rewrite E1, splice_mid; [|rewrite !app_length, firstn_length; lia|rewrite skipn_length; lia]. rewrite rev_app_distr, concat_app, <- !app_assoc. reflexivity.
    + rewrite splice_len by lia. exact A3.
    + rewrite !app_length, firstn_length. lia.
    + apply Forall_app. auto.
    + rewrite app_length. lia.
Qed.

Lemma eraseRightU_ok s o r l k n : P s o r l k -> below s (r_buf r) -> n <= length k -> done s o r (eraseRightU byte sR s r n) l (eraseU k n).
Proof.
  intros H B L. pose proof H as (m & gap & G). gd G. pose proof (sR_pos _ _ _ _ _ Z) as SP. unfold eraseRightU.
  assert (LE : n * sR <= length k * sR) by nia. rewrite (sub32_le _ (n * sR)) by lia. destruct (Nat.eqb_spec (r_cap r - n * sR) (r_right r)) as [E|E].
  - assert (n = length k) as -> by (apply (mul_inj _ _ sR); lia). rewrite eraseU_end. now apply done_refl.
  - assert (Ln : n < length k) by (destruct (Nat.eq_dec n (length k)); [subst; lia|lia]). destruct (split_at k n Ln) as (a & x & b & -> & La). rewrite <- La.
    pose proof G as [A1 A2 A3 A4 A5 A6 A7 A8 A9 A10]. destruct (Forall_mid _ _ _ _ A7) as (Fa & Fx & Fb).
    pose proof (concat_rev_len _ sR a Fa) as Ca. pose proof (concat_rev_len _ sR b Fb) as Cb. 
    rewrite app_length in *. cbn [length] in *. replace ((length a + S (length b)) * sR) with (length a * sR + sR + length b * sR) in * by lia.
    rewrite (read_ok byte s (r_buf r) m _ _ (owns_has _ _ _ _ _ _ _ _ _ _ _ A1)) by lia. cbn [bind]. rewrite sub32_le by (cbn; lia).
    assert (RV : concat (rev (a ++ x :: b)) = concat (rev b) ++ x ++ concat (rev a)).
    { rewrite rev_app_distr. cbn [rev]. rewrite !concat_app. cbn [concat]. now rewrite app_nil_r, <- !app_assoc. }
    assert (WR : forall y, length y = sR -> exists s2, write byte s (r_buf r) (r_cap r - S (length a) * sR) y = Ok s2 /\ owns s2 o (r_buf r) ((concat l ++ gap ++ concat (rev b)) ++ y ++ concat (rev a)) (r_free r) /\ frame s o (r_buf r) s2 (r_buf r)).
    { intros y Ly. destruct (write_ok byte sL sR al i pad s o (r_buf r) m (r_free r) (r_cap r - S (length a) * sR) y A1 B) as (s2 & W & O2 & F2 & _); [cbn; lia|]. exists s2. split; [exact W|]. split; [|exact F2].
      assert (E1 : m = (concat l ++ gap ++ concat (rev b)) ++ x ++ concat (rev a)) by (rewrite A2, RV; now rewrite <- !app_assoc).
      rewrite E1, splice_mid in O2; [exact O2|rewrite !app_length; cbn; lia|lia]. }
    destruct b as [|y b _] using rev_ind.
    + rewrite eraseU_last. cbn [length rev concat] in *.
      assert (FR : firstn sR (skipn (r_right r) m) = x).
      { rewrite A2, RV. cbn [rev concat app]. rewrite app_assoc. rewrite skipn_app_exact by (rewrite app_length; lia). apply firstn_app_exact. now symmetry. }
      rewrite FR. destruct (WR x Fx) as (s2 & W & O2 & F2). rewrite W. cbn [bind]. eexists _, _. split; [reflexivity|]. cbn [r_buf]. split; [|split; [exact F2|eapply frame_below; eauto]].
      eexists _, (gap ++ x). constructor; cbn [r_buf r_cap r_left r_right r_free]; [exact O2| | | | | | | | |]; auto; try lia.
      * rewrite app_nil_r, <- !app_assoc. reflexivity.
      * rewrite !app_length. cbn [length] in *. lia.
      * rewrite app_length. lia.
    + rewrite eraseU_mid. rewrite app_length in *. cbn [length] in *. destruct (Forall_mid _ _ _ _ Fb) as (Fb' & Fy & _). pose proof (concat_rev_len _ sR b Fb') as Cb'.
      assert (RB : concat (rev (b ++ [y])) = y ++ concat (rev b)) by (rewrite rev_app_distr; reflexivity). rewrite RB in *.
      assert (FR : firstn sR (skipn (r_right r) m) = y).
      { rewrite A2, RV, <- !app_assoc, app_assoc. rewrite skipn_app_exact by (rewrite app_length; lia). apply firstn_app_exact. now symmetry. }
      rewrite FR. destruct (WR y Fy) as (s2 & W & O2 & F2). rewrite W. cbn [bind]. eexists _, _. split; [reflexivity|]. cbn [r_buf]. split; [|split; [exact F2|eapply frame_below; eauto]].
      eexists _, (gap ++ y). constructor; cbn [r_buf r_cap r_left r_right r_free]; [exact O2| | | | | | | | |]; auto; try lia.
      * rewrite rev_app_distr. cbn [rev]. rewrite !concat_app. cbn [concat]. rewrite app_nil_r, <- !app_assoc. reflexivity.
      * rewrite !app_length. lia.
      * rewrite !app_length. lia.
      * apply Forall_app. auto.
      * rewrite app_length. cbn [length]. lia.
Qed.

Lemma zero_fit : (N.of_nat (0 * sL + 0 * sR) <= 1073741824)%N. Proof. cbn. lia. Qed.
Lemma clear_ok s o r l k rel : P s o r l k -> below s (r_buf r) -> done s o r (clear byte s r rel) [] [].
Proof.
  intros (m & gap & G) B. unfold clear. destruct rel.
  - destruct (release_ok byte sL sR al i pad s o r m (p_own _ _ _ _ _ _ _ _ _ _ _ _ _ G)) as (s' & R & F & _ & _). rewrite R. cbn [bind r_buf r_cap r_free]. eexists _, _. split; [reflexivity|]. cbn [r_buf].
    split; [|split; [exact F|intros b X; discriminate]]. exists [], []. constructor; cbn; auto; try lia. now exists 0.
  - cbn [bind]. eexists _, _. split; [reflexivity|]. cbn [r_buf]. split; [|split; [apply frame_refl|exact B]]. exists m, m. pose proof G as [A1 A2 A3 A4 A5 A6 A7 A8 A9 A10].
    constructor; cbn [r_buf r_cap r_left r_right r_free]; auto. cbn. now rewrite app_nil_r. cbn. lia.
Qed.
End P.
