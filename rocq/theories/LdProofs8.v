(** C51: consequences of the invariants; returned calls; running alone; the destructor. *)
From Coq Require Import List Arith Bool Lia Permutation.
From Verif Require Import Base LdSpec LdModel LdProofs LdProofs2 LdProofs3 LdProofs4 LdProofs5 LdProofs6 LdProofs7.
Import ListNotations.

Section P.
Variables (m : nat) (peers : nat -> nat -> bool).
Hypothesis M2 : 2 <= m.
Notation Inv := (Inv m peers).
Notation todoG := (todoG peers).
Notation Sem := (Sem m peers).
Notation Ref := (Ref m peers).
Notation share := (share peers).
Notation pubd := (pubd m).

Lemma in_published tr u x : In (Call u x) tr <-> In x (published tr u).
Proof.
  induction tr as [|e tr IH]; [reflexivity|]. destruct e; cbn; try (rewrite <- IH; split; [intros [K|K]; [discriminate|exact K]|auto]; fail).
  destruct (Nat.eqb_spec t u) as [->|NE]; cbn; rewrite <- IH; (split; [intros [K|K]; [injection K; auto; congruence|auto]|]).
  - intros [->|K]; auto.
  - auto.
Qed.
Lemma in_received tr u x : In (Recv u x) tr <-> In x (received tr u).
Proof.
  induction tr as [|e tr IH]; [reflexivity|]. destruct e; cbn; try (rewrite <- IH; split; [intros [K|K]; [discriminate|exact K]|auto]; fail).
  destruct (Nat.eqb_spec t u) as [->|NE]; cbn; rewrite <- IH; (split; [intros [K|K]; [injection K; auto; congruence|auto]|]).
  - intros [->|K]; auto.
  - auto.
Qed.
Lemma run_ret s t s' e u x : run1 m peers t s = Ok (s', e) -> In (Ret u x) e -> u = t /\ pubOf (s_pc s' t) = None /\ exists b, pubOf (s_pc s t) = Some b /\ p_it b = x.
Proof.
  unfold run1. intros E.
  destruct (s_pc s t) eqn:EP; unfold at_, fin in E;
    repeat match type of E with context [if ?c then _ else _] => destruct c eqn:? | context [match ?c with Some _ => _ | None => _ end] => destruct c eqn:? end;
    try discriminate; try (injection E as <- <-; intros [K|K]; try discriminate; destruct K; fail);
    try (injection E as <- <-; intros []; fail);
    try (injection E as <- <-; intros [K|[]]; injection K as <- <-; cbn; rewrite fset_same; eauto; fail);
    try (unfold release in E; destruct (_ <? _); [discriminate|]; cbn in E; destruct (_ =? 0); injection E as <- <-; cbn; rewrite fset_same; intros K;
      repeat (destruct K as [K|K]; [first [discriminate K|injection K as <- <-; eauto]|]); destruct K; fail).
Qed.
Lemma exec_ret tr s : exec m peers tr s -> forall u x, In (Ret u x) tr -> u < m /\ In x (published tr u) /\ curb (s_pc s u) x = false.
Proof.
  induction 1 as [|tr s e s' EX IH ST]; [intros ? ? []|]. destruct (exec_inv m peers M2 tr s EX) as (g & HI & HS & HR). intros u x K. apply in_app_iff in K.
  inversion ST as [t s1 e1 T NI RU|t v k T EI|t T EI|t h1 y h2 s1 e1 T EI EH RE]; subst.
  - destruct (run_ok m peers s g t HI T NI (ref_ok m peers M2 tr s g t HI HS HR T)) as (s2 & e2 & g' & RU2 & _ & _ & p' & EP & _). rewrite RU in RU2. injection RU2 as <- <-.
    destruct K as [K|K].
    + destruct (IH u x K) as (U & P & C). split; [exact U|]. split; [rewrite published_app; apply in_app_iff; now left|].
      destruct (Nat.eq_dec u t) as [->|NE]; [|now rewrite EP, fset_other]. unfold curb in *. destruct (pubOf (s_pc s' t)) as [b'|] eqn:EB; [|reflexivity].
      destruct (run_cur m peers _ _ _ _ _ RU EB) as (b & EB' & <-). now rewrite EB' in C.
    + destruct (run_ret _ _ _ _ _ _ RU K) as (-> & EN & b & EB & <-). split; [exact T|]. split; [rewrite published_app; apply in_app_iff; left; now apply (z_cur _ _ _ _ _ HS)|]. unfold curb. now rewrite EN.
  - destruct K as [K|[K|[]]]; [|discriminate]. destruct (IH u x K) as (U & P & C). split; [exact U|]. split; [rewrite published_app; apply in_app_iff; now left|].
    cbn [newCall snd s_pc]. destruct (Nat.eq_dec u t) as [->|NE]; [|now rewrite fset_other]. rewrite fset_same. unfold curb. cbn. apply eqi_false. intros Q. apply (z_pub _ _ _ _ _ HS t x T) in P. rewrite <- Q in P. cbn in P. lia.
  - destruct K as [K|[]]. rewrite app_nil_r. destruct (IH u x K) as (U & P & C). split; [exact U|]. split; [exact P|]. cbn [goto s_pc]. destruct (Nat.eq_dec u t) as [->|NE]; [now rewrite fset_same|now rewrite fset_other].
  - destruct (memR _ _ _ _ _ RE) as (_ & EP & _ & EE). cbn [s_pc w_hold] in EP. rewrite EP. destruct K as [K|[K|K]]; [|discriminate|destruct EE as [->| ->]; cbn in K; intuition discriminate].
    destruct (IH u x K) as (U & P & C). split; [exact U|]. split; [rewrite published_app; apply in_app_iff; now left|exact C].
Qed.
(** no call of publish is open *)
Lemma all_returned tr s : exec m peers tr s -> (forall u x, In (Call u x) tr -> In (Ret u x) tr) -> forall u, u < m -> pubOf (s_pc s u) = None.
Proof.
  intros EX AL u U. destruct (exec_inv m peers M2 tr s EX) as (g & HI & HS & HR). destruct (pubOf (s_pc s u)) as [b|] eqn:EB; [|reflexivity].
  pose proof (z_cur _ _ _ _ _ HS u b U EB) as P. apply in_published in P. apply AL in P. destruct (exec_ret tr s EX u _ P) as (_ & _ & C). unfold curb in C. rewrite EB, eqi_refl in C. discriminate.
Qed.

(** receive finds nothing *)
Lemma empty_all tr s t s' e : exec m peers tr s -> t < m -> run1 m peers t s = Ok (s', e) -> In (Empty t) e -> (forall u x, In (Call u x) tr -> In (Ret u x) tr) -> forall u, u < m -> allOf peers tr t u.
Proof.
  intros EX T RU EM AL u U. pose proof (all_returned tr s EX AL) as NP. destruct (exec_inv m peers M2 tr s EX) as (g & HI & HS & HR).
  assert (s_pc s t <> Idle) as NI by (intros E; unfold run1 in RU; rewrite E in RU; injection RU as _ <-; destruct EM).
  destruct (run_ok m peers s g t HI T NI (ref_ok m peers M2 tr s g t HI HS HR T)) as (s2 & e2 & g' & RU2 & HI' & EF & _). rewrite RU in RU2. injection RU2 as <- <-.
  unfold allOf. rewrite (z_seq _ _ _ _ _ HS t u T U).
  assert (todoG (s_pc s u) t = []) as -> by (unfold LdProofs4.todoG, todo; now rewrite NP). rewrite app_nil_r.
  inversion EF as [e1 N1 N2 N3 N4 N5|j x|x]; subst; [|destruct EM|destruct EM as [EM|[]]; discriminate].
  rewrite (N5 t EM eq_refl). destruct (N4 t T EM) as [K|(a & v & b & V & K)].
  - rewrite K. cbn. now rewrite app_nil_r.
  - specialize (NP v V). rewrite K in NP. discriminate.
Qed.

(** References *)
Lemma not_deleted tr s t x : exec m peers tr s -> t < m -> needs peers tr t x -> ~ In x (deleted tr).
Proof.
  intros EX T [ND NR] D. destruct (exec_inv m peers M2 tr s EX) as (g & HI & HS & HR). apply (r_del _ _ _ _ HR) in D. destruct D as [P D].
  rewrite (r_refs _ _ _ _ HR x P) in D. rewrite sum_zero in D. specialize (D t T). unfold LdProofs5.share in D.
  assert (relb tr t x = false) as RL by (destruct (relb tr t x) eqn:Q; [apply relb_in in Q; contradiction|reflexivity]). rewrite RL in D.
  destruct (Nat.eqb_spec t (it_from x)) as [EF|NF].
  - destruct ND as [ND|[_ ND]]; [unfold goesTo in ND; rewrite EF, Nat.eqb_refl in ND; discriminate|]. rewrite ND in D. discriminate.
  - destruct ND as [ND|[ND _]]; [|congruence]. rewrite ND in D. discriminate.
Qed.
Lemma is_deleted tr s u x : exec m peers tr s -> In (Ret u x) tr -> (forall t, t < m -> ~ needs peers tr t x) -> In x (deleted tr).
Proof.
  intros EX K NN. destruct (exec_ret tr s EX u x K) as (U & P & C). destruct (exec_inv m peers M2 tr s EX) as (g & HI & HS & HR).
  assert (pubd tr x) as PD by (exists u; auto). apply (r_del _ _ _ _ HR). split; [exact PD|]. rewrite (r_refs _ _ _ _ HR x PD). apply sum_zero. intros i I. unfold LdProofs5.share.
  destruct (z_pub _ _ _ _ _ HS u x U P) as [F _]. rewrite F, C. destruct (Nat.eqb_spec i u) as [->|NE].
  - destruct (it_keep x) eqn:KX; [|reflexivity]. destruct (relb tr u x) eqn:RL; [reflexivity|]. exfalso. apply (NN u U). split; [auto|]. intros Q. apply relb_in in Q. congruence.
  - destruct (goesTo peers i x) eqn:G; [|reflexivity]. destruct (relb tr i x) eqn:RL; [reflexivity|]. exfalso. apply (NN i I). split; [auto|]. intros Q. apply relb_in in Q. congruence.
Qed.
Lemma deleted_published tr s x : exec m peers tr s -> In x (deleted tr) -> exists u, u < m /\ In x (published tr u).
Proof. intros EX D. destruct (exec_inv m peers M2 tr s EX) as (g & HI & HS & HR). apply (r_del _ _ _ _ HR) in D. apply D. Qed.
Lemma deleted_once tr s : exec m peers tr s -> NoDup (deleted tr).
Proof. intros EX. destruct (exec_inv m peers M2 tr s EX) as (g & HI & HS & HR). apply (r_dnd _ _ _ _ HR). Qed.

(** Running alone *)
Lemma bl_free tr s t a : exec m peers tr s -> heldB (s_pc s t) = Some a -> s_free s t <> 0.
Proof.
  intros EX. revert t a. induction EX as [|tr s e s' EX IH ST]; intros t a; [discriminate|].
  inversion ST as [v s1 e1 T NI RU|v w k T EI|v T EI|v h1 y h2 s1 e1 T EI EH RE]; subst.
  - specialize (IH t). unfold run1 in RU.
    destruct (s_pc s v) eqn:EP; unfold at_, fin in RU;
      repeat match type of RU with context [if ?c then _ else _] => destruct c eqn:? | context [match ?c with Some _ => _ | None => _ end] => destruct c eqn:? end;
      try discriminate;
      try (unfold release in RU; destruct (_ <? _); [discriminate|]; cbn in RU; injection RU as <- <-);
      try (injection RU as <- <-); cbn; unfold fset; destruct (Nat.eqb_spec t v) as [->|]; try discriminate; try apply IH; try (rewrite EP in IH; cbn in IH; apply IH).
  - cbn. unfold fset. destruct (t =? v); [discriminate|]. apply IH.
  - cbn. unfold fset. destruct (t =? v); [discriminate|]. apply IH.
  - destruct (memR _ _ _ _ _ RE) as ((_ & _ & _ & _ & E5 & _) & EP & _ & _). cbn in E5, EP. rewrite E5, EP. apply IH.
Qed.
Definition mu (s : st) (t : nat) : nat :=
  let w b k := 16 * (m - p_i b) + 20 - k in
  match s_pc s t with
  | Idle => 0
  | Loop b => w b 0
  | Al0 b => if s_free s t =? 0 then w b 1 else w b 7
  | Bl0 b _ => w b 4
  | Bl1 b _ top => if s_top s =? top then w b 5 else w b 2
  | Bl2 b _ top => if s_top s =? top then w b 6 else w b 3
  | Al1 b _ => w b 8 | Al2 b _ _ => w b 9 | Al3 b _ => w b 10
  | Pu0 b _ => w b 11 | Pu1 b _ => w b 12 | Pu2 b _ _ => w b 13
  | Dec _ => 1
  | Po0 => 8 | Po1 _ _ => 7 | Po2 _ _ => 6 | Po3 _ _ => 5 | Po4 _ => 4 | Fr0 _ _ => 3 | Fr1 _ _ => 2
  end.
Lemma mu_dec tr s t s' e : exec m peers tr s -> t < m -> s_pc s t <> Idle -> run1 m peers t s = Ok (s', e) -> mu s' t < mu s t.
Proof.
  intros EX T NI RU. destruct (exec_inv m peers M2 tr s EX) as (g & HI & HS & HR). pose proof (i_pb _ _ _ _ HI t T) as B. unfold LdProofs.pubOK in B. pose proof (bl_free tr s t) as BF.
  unfold mu, run1 in *.
  destruct (s_pc s t) eqn:EP; cbn [pubOf heldB] in B, BF; unfold at_ in RU;
    repeat match type of RU with context [if ?c then _ else _] => destruct c eqn:? | context [match ?c with Some _ => _ | None => _ end] => destruct c eqn:? end;
    try discriminate; try (now destruct NI);
    try (unfold release in RU; destruct (_ <? _); [discriminate|]; cbn [bind] in RU);
    injection RU as <- <-; unfold fin; try (destruct (it_keep _)); cbn [s_pc goto w_hold w_refs s_free s_top w_free w_data w_next w_head w_tail w_top newBlock p_i inc];
    rewrite ?fset_same, ?Nat.eqb_refl; cbn [p_i inc]; try lia.
  - apply Nat.eqb_neq in Heqb0. lia.
  - apply Nat.eqb_neq in Heqb0. lia.
  - destruct (s_free s t =? 0); lia.
  - destruct (s_top s =? top) eqn:Q; lia.
  - assert (s_free s t =? 0 = false) as -> by (apply Nat.eqb_neq; now apply (BF a)). lia.
Qed.
Lemma alone_ends n : forall tr s t, exec m peers tr s -> t < m -> mu s t <= n -> exists s' e, alone m peers n t s = Ok (s', e) /\ exec m peers (tr ++ e) s' /\ s_pc s' t = Idle.
Proof.
  induction n as [|n IH]; intros tr s t EX T L.
  - assert (s_pc s t = Idle) as E. { unfold mu in L. destruct (s_pc s t) eqn:E; [reflexivity|exfalso..]; repeat match type of L with context [if ?c then _ else _] => destruct c end; lia. }
    exists s, []. rewrite app_nil_r. auto.
  - cbn [alone]. assert ({s_pc s t = Idle} + {s_pc s t <> Idle}) as [E|NI] by (destruct (s_pc s t); [left; reflexivity|right; discriminate..]).
    + rewrite E. exists s, []. rewrite app_nil_r. auto.
    + destruct (exec_inv m peers M2 tr s EX) as (g & HI & HS & HR). destruct (run_ok m peers s g t HI T NI (ref_ok m peers M2 tr s g t HI HS HR T)) as (s2 & e2 & g' & RU & _).
      pose proof (mu_dec tr s t s2 e2 EX T NI RU) as D. assert (exec m peers (tr ++ e2) s2) as EX2 by (eapply ES; [exact EX|]; now apply Run with t).
      destruct (IH (tr ++ e2) s2 t EX2 T ltac:(lia)) as (s3 & e3 & A & EX3 & E3). exists s3, (e2 ++ e3). rewrite app_assoc. split; [|auto].
      destruct (s_pc s t); [now destruct NI|..]; rewrite RU; cbn [bind]; rewrite A; reflexivity.
Qed.
End P.
