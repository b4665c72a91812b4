(** C52: a thread that runs alone finishes its call. *)
From Coq Require Import List Arith Bool Lia.
From Verif Require Import Base IgSpec IgModel IgProofs IgProofs2 IgProofs3 IgProofs4.
Import ListNotations.

Section P.
Variable m : nat.
(** A locked first block is locked by somebody. *)
Definition LI (s : st) : Prop := forall l, s_head s l <> 0 -> s_lock s (s_head s l) = true -> exists u, holds_lock (s_pc s u) = s_head s l.
Lemma LI_same s s' t p : same s s' -> s_pc s' = fset (s_pc s) t p -> holds_lock (s_pc s t) = 0 -> LI s -> LI s'.
Proof.
  intros (A & B & C & F & G & H) P Q I l. rewrite A, F, P. intros N K. destruct (I l N K) as [u U]. exists u.
  destruct (Nat.eq_dec u t) as [-> | X]; [congruence | now rewrite fset_ne].
Qed.
Lemma hold_next c j : holds_lock (nextCall c j) = 0.
Proof. unfold nextCall. now destruct (_ <? _). Qed.
Lemma LI_run E D L tr s t s' e : Inv m E D L tr s -> LI s -> run1 t s = Ok (s', e) -> s_pc s t <> Idle -> LI s'.
Proof.
  intros I LL R NI. pose proof (iPc _ _ _ _ _ _ I t) as Q. pose proof (iCore _ _ _ _ _ _ I) as [C1 C2 C3 C4 C5].
  assert (HB : forall l, s_head s l < s_brk s) by (intro l; destruct (Nat.eq_dec (s_head s l) 0) as [Z | Z]; [lia | apply C2; easy]).
  assert (OT : forall l, s_head s l <> 0 -> s_lock s (s_head s l) = true -> s_head s l <> holds_lock (s_pc s t) -> exists u, u <> t /\ holds_lock (s_pc s u) = s_head s l).
  { intros l N K X. destruct (LL l N K) as [u U]. exists u. split; [intros ->; congruence | easy]. }
  assert (NH : forall l nx cs p, holds_lock p = 0 -> (holds_lock (s_pc s t) = 0 \/ holds_lock (s_pc s t) = s_head s l) -> LI (goto (newHead s l nx cs) t p)).
  { intros l nx cs p HP X l'. cbn. destruct (lit_dec l' l) as [-> | N]; rewrite ?lset_eq, ?lset_ne, ?fset_eq by easy; [easy|]. intros N1. rewrite fset_ne by (specialize (HB l'); lia). intro K.
    destruct (OT l' N1 K) as (u & U1 & U2); [destruct X as [-> | ->]; [easy|]; intro Y; apply N; destruct (C2 l' N1) as [_ <-]; rewrite Y; apply C2; congruence|]. exists u. now rewrite fset_ne. }
  unfold run1 in R. destruct (s_pc s t) as [|l k|l k b|l k b i n|c j|c j x|c j x n z|c j|c|c v] eqn:P; [easy | | | | | | | | |].
  - inversion R; subst. eapply LI_same; [apply same_goto | reflexivity | now rewrite P | easy].
  - destruct (b =? 0); [destruct k; inversion R; subst; (eapply LI_same; [apply same_goto | reflexivity | now rewrite P | easy])|].
    unfold at_ in R. destruct (ok s b); [|easy]. inversion R; subst. eapply LI_same; [apply same_goto | reflexivity | now rewrite P | easy].
  - destruct (negb (ok s b)); [easy|]. destruct (i =? n); [inversion R; subst; eapply LI_same; [apply same_goto | reflexivity | now rewrite P | easy]|].
    destruct (cap <=? i); [easy|]. destruct (_ && _); [easy|]. destruct k; [|destruct (hasTest _ _ _)]; inversion R; subst; (eapply LI_same; [apply same_goto | reflexivity | now rewrite P | easy]).
  - destruct (_ =? 0); inversion R; subst; (eapply LI_same; [apply same_goto | reflexivity | now rewrite P | easy]).
  - unfold at_ in R. destruct (ok s x) eqn:OK; [|easy]. destruct (s_lock s x) eqn:K; inversion R; subst; [eapply LI_same; [apply same_goto | reflexivity | now rewrite P | easy]|].
    intros l. cbn. intros N. destruct (Nat.eq_dec (s_head s l) x) as [-> | X]; [intros _; exists t; now rewrite fset_eq|]. rewrite fset_ne by easy. intro K'.
    destruct (OT l N K' N) as (u & U1 & U2). exists u. now rewrite fset_ne.
  - destruct Q as (A & B & LK & HD & _). cbn [holds_lock] in *. destruct (_ <=? cap).
    + destruct (z =? _).
      * unfold at_ in R. destruct (ok s x); [|easy]. inversion R; subst. intros l. cbn. intros N. destruct (Nat.eq_dec (s_head s l) (s_head s (fst (jth c j)))) as [-> | X]; [now rewrite fset_eq|]. rewrite fset_ne by easy. intro K'.
        destruct (OT l N K' X) as (u & U1 & U2). exists u. now rewrite fset_ne.
      * destruct (cap <=? _); [easy|]. unfold at_ in R. destruct (ok s x); [|easy]. inversion R; subst. intros l. cbn. intros N K'.
        destruct (Nat.eq_dec (s_head s l) (s_head s (fst (jth c j)))) as [X | X]; [exists t; rewrite fset_eq; now rewrite X|]. destruct (OT l N K' X) as (u & U1 & U2). exists u. now rewrite fset_ne.
    + inversion R; subst. apply NH; [apply hold_next | now right].
  - destruct (_ =? 0); inversion R; subst; [apply NH; [easy | now left]|]. eapply LI_same; [apply same_goto | reflexivity | now rewrite P | easy].
  - inversion R; subst. eapply LI_same; [apply same_goto | reflexivity | now rewrite P | easy].
  - inversion R; subst. eapply (LI_same s _ t Idle); [now repeat split | reflexivity | now rewrite P | easy].
Qed.
Lemma exec_LI tr s : exec m tr s -> LI s.
Proof.
  induction 1 as [|tr s e s' X IH ST]; [easy|]. destruct (exec_inv m tr s X) as (E & D & L & I).
  destruct ST as [t s' e T P R | t c T P W | t l T P | t l g b i n T P].
  - eapply LI_run; eauto.
  - eapply LI_same; [apply same_goto | reflexivity | now rewrite P | easy].
  - eapply (LI_same s _ t); [now repeat split | reflexivity | now rewrite P | easy].
  - eapply LI_same; [apply same_goto | reflexivity | now rewrite P | easy].
Qed.

Definition muK (k : purpose) : nat := match k with KProp _ => 0 | KHas _ => 400 end.
Definition mu (s : st) (p : pc) : nat :=
  match p with
  | Idle => 0
  | R0 l k => 16 * s_brk s + 1 + muK k
  | R1 l k b => 16 * b + 1 + muK k
  | R2 l k b i n => 16 * b - 13 + (n - i) + muK k
  | A0 c j => 100 * (3 - j) + (if s_head s (fst (jth c j)) =? 0 then 20 else 15)
  | A1 c j x => 100 * (3 - j) + (if s_lock s x then 22 else 14)
  | A2 c j x n z => 100 * (3 - j) + (10 - z)
  | A3 c j => 100 * (3 - j) + 18
  | S0 c => 2
  | S1 c v => 1
  end.
Lemma calls_le c : length (calls c) <= 3.
Proof. destruct c; cbn; lia. Qed.
Lemma mu_next s c j : j < length (calls c) -> mu s (nextCall c j) < 100 * (3 - j).
Proof. intro H. unfold nextCall. pose proof (calls_le c). destruct (Nat.ltb_spec (S j) (length (calls c))); cbn [mu]; [destruct (_ =? 0); lia | lia]. Qed.
Lemma mu_dec E D L tr s t s' e : Inv m E D L tr s -> LI s -> (forall u, u <> t -> holds_lock (s_pc s u) = 0) -> s_pc s t <> Idle -> run1 t s = Ok (s', e) ->
  mu s' (s_pc s' t) < mu s (s_pc s t) /\ forall u, u <> t -> s_pc s' u = s_pc s u.
Proof.
  intros I LL NO NI R. pose proof (iPc _ _ _ _ _ _ I t) as Q. pose proof (iCore _ _ _ _ _ _ I) as [C1 C2 C3 C4 C5].
  assert (HB : forall l, s_head s l < s_brk s) by (intro l; destruct (Nat.eq_dec (s_head s l) 0) as [Z | Z]; [lia | apply C2; easy]).
  assert (GO : forall s0 p, s_pc s0 = s_pc s -> mu s0 p < mu s (s_pc s t) -> mu (goto s0 t p) (s_pc (goto s0 t p) t) < mu s (s_pc s t) /\ forall u, u <> t -> s_pc (goto s0 t p) u = s_pc s u).
  { intros s0 p HS HM. cbn [goto s_pc]. rewrite fset_eq. split; [destruct p; exact HM|]. intros u U. rewrite fset_ne by easy. now rewrite HS. }
  unfold run1 in R. destruct (s_pc s t) as [|l k|l k b|l k b i n|c j|c j x|c j x n z|c j|c|c v] eqn:P; [easy | | | | | | | | |].
  - inversion R; subst. apply GO; [easy|]. cbn [mu]. specialize (HB l). lia.
  - destruct Q as (r & (B & _) & _). destruct (Nat.eqb_spec b 0) as [Z | Z].
    + destruct k as [g|c]; inversion R; subst; (apply GO; [easy|]); cbn [mu muK]; [lia|]. destruct (_ =? 0); lia.
    + unfold at_ in R. destruct (ok s b); [|easy]. inversion R; subst. apply GO; [easy|]. cbn [mu]. destruct (C4 b) as (_ & SZ & _); [destruct (B Z); lia|]. unfold cap in SZ. lia.
  - destruct Q as (r & (B & _ & E1 & E2 & E3 & HE & I1 & I2 & _) & _). destruct (negb (ok s b)); [easy|]. destruct (C3 b B) as [NX _]. destruct (Nat.eqb_spec i n) as [Z | Z]; [inversion R; subst; apply GO; [easy|]; cbn [mu]; lia|].
    destruct (cap <=? i); [easy|]. destruct (_ && _); [easy|].
    assert (DD : 16 * b - 13 + (n - (i + (if snd (s_data s b i) then 1 else 2))) + muK k < 16 * b - 13 + (n - i) + muK k) by (destruct (snd _); lia).
    destruct k as [g | c]; [|destruct (hasTest _ _ _)]; inversion R; subst; (apply GO; [easy|]); cbn [mu]; try exact DD; lia.
  - destruct (Nat.eqb_spec (s_head s (fst (jth c j))) 0) as [Z | Z]; inversion R; subst; (apply GO; [easy|]); cbn [mu].
    + rewrite Z. cbn [Nat.eqb]. lia.
    + apply Nat.eqb_neq in Z as Z'. rewrite Z'. destruct (s_lock s (s_head s (fst (jth c j)))) eqn:K; [|lia]. destruct (LL _ Z K) as [u U]. destruct (Nat.eq_dec u t) as [-> | N]; [rewrite P in U; cbn in U; lia | rewrite NO in U by easy; lia].
  - unfold at_ in R. destruct (ok s x) eqn:OK; [|easy]. destruct (s_lock s x) eqn:K; inversion R; subst; (apply GO; [easy|]); cbn [mu]; rewrite ?K; [destruct (_ =? 0); lia | lia].
  - destruct Q as ((W & J) & B & LK & HD & SZ & ZL & _). assert (N2 : length (nc (snd (jth c j))) <= 2) by (unfold nc; destruct (isSentinel _); cbn; lia). pose proof (calls_le c). destruct (_ <=? cap).
    + destruct (Nat.eqb_spec z (length (nc (snd (jth c j))))) as [Z | Z].
      * unfold at_ in R. destruct (ok s x); [|easy]. inversion R; subst. apply GO; [easy|]. cbn [mu]. pose proof (mu_next (w_size s (s_head s (fst (jth c j))) (s_size s (s_head s (fst (jth c j))) + length (nc (snd (jth c j)))) false) c j J). lia.
      * destruct (cap <=? _); [easy|]. unfold at_ in R. destruct (ok s x); [|easy]. inversion R; subst. apply GO; [easy|]. cbn [mu]. lia.
    + inversion R; subst. apply GO; [easy|]. cbn [mu]. match goal with |- mu ?s1 _ < _ => pose proof (mu_next s1 c j J) end. lia.
  - destruct (Nat.eqb_spec (s_head s (fst (jth c j))) 0) as [Z | Z]; inversion R; subst; (apply GO; [easy|]); cbn [mu].
    + cbn [newHead s_head]. rewrite lset_eq. replace (s_brk s =? 0) with false by (symmetry; apply Nat.eqb_neq; lia). lia.
    + apply Nat.eqb_neq in Z as Z'. rewrite Z'. lia.
  - inversion R; subst. apply GO; [easy|]. cbn [mu]. lia.
  - inversion R; subst. apply GO; [easy|]. cbn [mu]. lia.
Qed.

Lemma alone_ends k t : t < m -> forall tr s, exec m tr s -> (forall u, u <> t -> holds_lock (s_pc s u) = 0) -> mu s (s_pc s t) <= k ->
  exists s' e, alone k t s = Ok (s', e) /\ exec m (tr ++ e) s' /\ s_pc s' t = Idle.
Proof.
  intro T. induction k as [|k IH]; intros tr s X NO M.
  - exists s, []. rewrite app_nil_r. split; [easy|]. split; [easy|]. destruct (exec_inv m tr s X) as (E & D & L & I). pose proof (iPc _ _ _ _ _ _ I t) as Q.
    destruct (s_pc s t) as [|l kk|l kk b|l kk b i n|c j|c j x|c j x n z|c j|c|c v]; cbn [mu] in M; try easy; try lia.
    + destruct Q as (r & (B & _) & _). lia.
    + destruct Q as (_ & Q). pose proof (calls_le c). lia.
    + destruct Q as ((_ & Q) & _). pose proof (calls_le c). destruct (s_lock s x); lia.
    + destruct Q as ((_ & Q) & _). pose proof (calls_le c). lia.
  - destruct (exec_inv m tr s X) as (E & D & L & I). cbn [alone]. destruct (s_pc s t) eqn:P; [exists s, []; rewrite app_nil_r; auto | | | | | | | | |];
    (assert (NI : s_pc s t <> Idle) by (now rewrite P); destruct (run_ok m E D L tr s t I T NI) as (s1 & e1 & R & _); rewrite R; cbn [bind];
     destruct (mu_dec E D L tr s t s1 e1 I (exec_LI tr s X) NO NI R) as [M1 M2]; rewrite P in M1;
     destruct (IH (tr ++ e1) s1 (ES m _ _ _ _ X (Run m s t s1 e1 T NI R)) ltac:(intros u U; rewrite M2 by easy; auto) ltac:(lia)) as (s2 & e2 & R2 & X2 & P2);
     rewrite R2; exists s2, (e1 ++ e2); rewrite app_assoc; now auto).
Qed.
End P.
