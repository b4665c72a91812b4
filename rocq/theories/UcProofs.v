(** Core-guided optimisation: costs, potential, and steps that keep their sum. *)
From Coq Require Import List Bool Arith ZArith Lia.
Import ListNotations.
From Verif Require Import Base UcModel UcSpec.
Open Scope Z_scope.

Definition b2z (b : bool) : Z := if b then 1 else 0.
Definition viol (M : asg) (p : lit) : Z := b2z (negb (holds M p)).
Lemma b2z_range b : 0 <= b2z b <= 1. Proof. destruct b; cbn; lia. Qed.
Lemma viol_range M p : 0 <= viol M p <= 1. Proof. apply b2z_range. Qed.
Lemma viol_neg M p : viol M (neg p) = b2z (holds M p).
Proof. unfold viol. rewrite holds_neg. now destruct (holds M p). Qed.
Lemma count_nil M : count M [] = 0. Proof. reflexivity. Qed.
Lemma count_cons M p l : count M (p :: l) = b2z (holds M p) + count M l.
Proof. unfold count. cbn. destruct (holds M p); cbn [length b2z]; lia. Qed.
Lemma count_app M l l' : count M (l ++ l') = count M l + count M l'.
Proof. unfold count. rewrite filter_app, app_length. lia. Qed.
Lemma count_range M l : 0 <= count M l <= Z.of_nat (length l).
Proof. induction l as [|p l IH]; [cbn; lia|]. rewrite count_cons. cbn [length]. pose proof (b2z_range (holds M p)). lia. Qed.
Lemma count_neg M l : count M (map neg l) = Z.of_nat (length l) - count M l.
Proof. induction l as [|p l IH]; [reflexivity|]. cbn [map length]. rewrite !count_cons, IH, holds_neg. destruct (holds M p); cbn [b2z negb]; lia. Qed.
Lemma count_rev M l : count M (rev l) = count M l.
Proof. induction l as [|p l IH]; [reflexivity|]. cbn [rev]. rewrite count_app, IH, !count_cons, count_nil. lia. Qed.
Lemma count_pos M l : 1 <= count M l <-> exists p, In p l /\ holds M p = true.
Proof.
  induction l as [|p l IH]; [split; [cbn; lia|intros (p & [] & _)]|]. rewrite count_cons. pose proof (count_range M l). split.
  - intros Q. destruct (holds M p) eqn:E; [exists p; split; [now left|auto]|]. cbn in Q. destruct IH as [IH _]. destruct IH as (q & I & Q2); [lia|]. exists q. split; [now right|auto].
  - intros (q & [<-|I] & Q); [rewrite Q; cbn [b2z]; lia|]. pose proof (b2z_range (holds M p)). destruct IH as [_ IH]. assert (1 <= count M l) by (apply IH; eauto). lia.
Qed.

Lemma agree_refl n M : agree n M M. Proof. intros v _. reflexivity. Qed.
Lemma agree_trans n n' M M' M'' : (n <= n')%nat -> agree n M M' -> agree n' M' M'' -> agree n M M''.
Proof. intros L H H' v V. rewrite H; auto. apply H'. lia. Qed.
Lemma agree_sym n M M' : agree n M M' -> agree n M' M. Proof. intros H v V. symmetry. auto. Qed.
Lemma holds_agree n M M' p : agree n M M' -> (fst p < n)%nat -> holds M' p = holds M p.
Proof. intros H L. unfold holds. now rewrite (H _ L). Qed.
Lemma count_agree n M M' l : agree n M M' -> litsBelow n l -> count M' l = count M l.
Proof. intros H B. induction l as [|p l IH]; auto. rewrite !count_cons, IH, (holds_agree n M M'); auto; [apply B; now left|intros q I; apply B; now right]. Qed.

Definition conLits (c : con) : list lit := match c with Cls c => c | Card ls _ => ls | Tag _ w ls _ => w :: ls end.
Lemma satcl_count M c : sat_clause M c = (1 <=? count M c).
Proof.
  destruct (sat_clause M c) eqn:E; symmetry.
  - apply Z.leb_le. apply count_pos. apply existsb_exists in E as (p & I & H). eauto.
  - apply Z.leb_gt. destruct (Z.lt_ge_cases (count M c) 1) as [|H]; auto. exfalso. apply count_pos in H as (p & I & H). assert (sat_clause M c = true); [apply existsb_exists; eauto|congruence].
Qed.
Lemma satCon_agree n M M' c : agree n M M' -> litsBelow n (conLits c) -> satCon M' c = satCon M c.
Proof.
  intros H B. destruct c as [c|ls b|f w ls b]; cbn in *.
  - rewrite !satcl_count. now rewrite (count_agree n M M').
  - now rewrite (count_agree n M M').
  - rewrite (count_agree n M M' ls), (holds_agree n M M' w); auto; [apply B; now left|intros p I; apply B; now right].
Qed.

(** Remaining cost of an assumption *)
Definition corePot (M : asg) (c : option core) : Z := match c with None => 0 | Some c => c_weight c * Z.max 0 (count M (c_lits c) - c_bound c) end.
Definition dPot (M : asg) (d : ldat) : Z := d_w d * viol M (d_lit d) + corePot M (d_core d).
Definition potOf (M : asg) (l : list ldat) : Z := fold_right (fun d z => dPot M d + z) 0 l.
Definition pot (s : ust) (M : asg) : Z := potOf M (dat s).
Lemma potOf_cons M d l : potOf M (d :: l) = dPot M d + potOf M l. Proof. reflexivity. Qed.
Lemma potOf_app M l l' : potOf M (l ++ l') = potOf M l + potOf M l'.
Proof. induction l as [|d l IH]; [reflexivity|]. cbn [app]. rewrite !potOf_cons, IH. lia. Qed.

Definition dBelow (n : nat) (d : ldat) : Prop := (fst (d_lit d) < n)%nat /\ match d_core d with None => True | Some c => litsBelow n (c_lits c) end.
Definition dOk (cs : list con) (d : ldat) : Prop :=
  0 <= d_w d /\ (d_as d = true -> 0 < d_w d) /\
  match d_core d with None => True | Some c => 0 < c_weight c /\ exists f, In (Tag f (neg (d_lit d)) (c_lits c) (c_bound c)) cs end.
Definition hasCore (d : ldat) : bool := match d_core d with Some _ => true | None => false end.
Record wf (s : ust) : Prop := {
  w_con : forall c, In c (cons s) -> litsBelow (nv s) (conLits c);
  w_dat : forall d, In d (dat s) -> dBelow (nv s) d /\ dOk (cons s) d;
  w_top : forall p, In p (top s) -> In (Cls [p]) (cons s);
  w_tag : NoDup (map d_lit (filter hasCore (dat s)));
  w_uni : forall d c f ls b, In d (dat s) -> d_core d = Some c -> In (Tag f (neg (d_lit d)) ls b) (cons s) -> ls = c_lits c /\ b = c_bound c
}.
Definition noTag (c : con) : Prop := match c with Tag _ _ _ _ => False | _ => True end.

Section Sim.
Variables (G : asg -> Prop).
Notation sats := (sats G).
(** [sim f g s s']: what is added by [f] before is added by [g] afterwards *)
Definition sim (f g : asg -> Z) (s s' : ust) : Prop :=
  (nv s <= nv s')%nat /\ low s <= low s' /\ wf s' /\
  (forall M, sats M s' -> sats M s /\ low s + pot s M + f M <= low s' + pot s' M + g M) /\
  (forall M, sats M s -> exists M', agree (nv s) M M' /\ sats M' s' /\ low s' + pot s' M' + g M' <= low s + pot s M + f M).
Lemma sim_trans f g h s s1 s2 : sim f g s s1 -> sim g h s1 s2 -> sim f h s s2.
Proof.
  intros (A1 & A0 & A2 & A3 & A4) (B1 & B0 & B2 & B3 & B4). split; [lia|]. split; [lia|]. split; [auto|]. split.
  - intros M H. destruct (B3 M H) as (H1 & L1). destruct (A3 M H1) as (H2 & L2). split; [auto|lia].
  - intros M H. destruct (A4 M H) as (M1 & G1 & H1 & L1). destruct (B4 M1 H1) as (M2 & G2 & H2 & L2). exists M2. split; [apply agree_trans with (nv s1) M1; auto|]. split; [auto|lia].
Qed.
Lemma sim_refl f g s : wf s -> (forall M, sats M s -> f M = g M) -> sim f g s s.
Proof. intros W E. split; [lia|]. split; [lia|]. split; [auto|]. split; intros M H; [split; [auto|rewrite E; auto; lia]|exists M; split; [apply agree_refl|split; [auto|rewrite E; auto; lia]]]. Qed.
Lemma sim_ext f g f' g' s s' : sim f g s s' -> (forall M, sats M s -> f' M = f M) -> (forall M, sats M s' -> g' M = g M) -> sim f' g' s s'.
Proof.
  intros (A1 & A0 & A2 & A3 & A4) E E'. split; [auto|]. split; [auto|]. split; [auto|]. split.
  - intros M H. destruct (A3 M H) as (X & Y). split; auto. rewrite E, E'; auto.
  - intros M H. destruct (A4 M H) as (M' & X & Y & Z). exists M'. split; auto. split; auto. rewrite E, E'; auto.
Qed.
Lemma sats_cons M s : sats M s -> forall c, In c (cons s) -> satCon M c = true.
Proof. intros [_ H]. exact H. Qed.
(** adding a constraint that holds anyway *)
Lemma wf_addCon s c : noTag c -> wf s -> litsBelow (nv s) (conLits c) -> wf (addCon s c).
Proof.
  intros NT [A B C D U] L. constructor; cbn.
  - intros d I. apply in_app_or in I as [I|[<-|[]]]; auto.
  - intros d I. destruct (B d I) as (X & Y & Z & W). split; auto. split; auto. split; auto. destruct (d_core d); auto. destruct W as (W1 & f & W2). split; auto. exists f. apply in_or_app. now left.
  - intros p I. apply in_or_app. left. auto.
  - auto.
  - intros d c' f ls b I E J. apply in_app_or in J as [J|[->|[]]]; [eauto|destruct NT].
Qed.
Lemma sats_addCon M s c : sats M (addCon s c) <-> sats M s /\ satCon M c = true.
Proof.
  unfold UcModel.sats. cbn. split.
  - intros [A B]. split; [split; auto|]; intros; apply B; apply in_or_app; [now left|right; now left].
  - intros [[A B] C]. split; auto. intros d I. apply in_app_or in I as [I|[<-|[]]]; auto.
Qed.
Lemma sim_addCon f s c : noTag c -> wf s -> litsBelow (nv s) (conLits c) -> (forall M, sats M s -> satCon M c = true) -> sim f f s (addCon s c).
Proof.
  intros NT W L H. split; [cbn; lia|]. split; [cbn; lia|]. split; [now apply wf_addCon|]. split.
  - intros M S. apply sats_addCon in S as [S _]. split; auto. change (pot (addCon s c) M) with (pot s M). change (low (addCon s c)) with (low s). lia.
  - intros M S. exists M. split; [apply agree_refl|]. split; [apply sats_addCon; auto|]. change (pot (addCon s c) M) with (pot s M). change (low (addCon s c)) with (low s). lia.
Qed.
Lemma wf_addTop s p : wf s -> (fst p < nv s)%nat -> wf (addTop s p).
Proof.
  intros W L. pose proof (wf_addCon s (Cls [p]) I W) as H. destruct H as [A B C D U]; [intros q [<-|[]]; auto|]. constructor; auto. intros q [<-|I]; [cbn; apply in_or_app; right; now left|now apply C].
Qed.
Lemma wf_fixLit o s p : wf s -> (fst p < nv s)%nat -> wf (fixLit o s p).
Proof. intros W L. unfold fixLit. destruct (eroot o); [apply wf_addCon; auto; [exact I|intros q [<-|[]]; auto]|now apply wf_addTop]. Qed.
Lemma sats_fix o M s p : sats M (fixLit o s p) <-> sats M s /\ holds M p = true.
Proof.
  unfold fixLit. assert (X : satCon M (Cls [p]) = holds M p) by (cbn; now rewrite orb_false_r). destruct (eroot o).
  - now rewrite sats_addCon, X.
  - rewrite <- X, <- sats_addCon. reflexivity.
Qed.
Lemma fix_same o s p : low (fixLit o s p) = low s /\ dat (fixLit o s p) = dat s /\ nv (fixLit o s p) = nv s /\ up (fixLit o s p) = up s /\ disj (fixLit o s p) = disj s /\ todo (fixLit o s p) = todo s /\ shr (fixLit o s p) = shr s.
Proof. unfold fixLit. destruct (eroot o); cbn; auto 10. Qed.
Lemma sim_fixLit o f s p : wf s -> (fst p < nv s)%nat -> (forall M, sats M s -> holds M p = true) -> sim f f s (fixLit o s p).
Proof.
  intros W L H. destruct (fix_same o s p) as (E1 & E2 & E3 & _). split; [lia|]. split; [lia|]. split; [now apply wf_fixLit|]. unfold pot. rewrite E1, E2. split.
  - intros M S. apply sats_fix in S as [S _]. split; auto. lia.
  - intros M S. exists M. split; [apply agree_refl|]. split; [apply sats_fix; auto|]. lia.
Qed.

(** WCTemp::add *)
Lemma mem_in p l : mem p l = true <-> In p l.
Proof. unfold mem. rewrite existsb_exists. split; [intros (q & I & E); apply lit_eqb_eq in E; now subst q|intros I; exists p; split; auto; apply lit_eqb_refl]. Qed.
Lemma top_holds M s p : wf s -> sats M s -> In p (top s) -> holds M p = true.
Proof. intros W S I. apply (w_top s W) in I. apply (sats_cons M s S) in I. cbn in I. now rewrite orb_false_r in I. Qed.
Lemma tadd_one M tp t p : (forall p, In p tp -> holds M p = true) -> count M (snd (tadd tp t p)) - fst (tadd tp t p) = count M (snd t) - fst t + b2z (holds M p).
Proof.
  intros H. unfold tadd. destruct (mem p tp) eqn:E; [|destruct (mem (neg p) tp) eqn:E'].
  - apply mem_in, H in E. rewrite E. cbn [b2z fst snd]. lia.
  - apply mem_in, H in E'. rewrite holds_neg in E'. apply negb_true_iff in E'. rewrite E'. cbn [b2z]. lia.
  - cbn [fst snd]. rewrite count_app, count_cons, count_nil. lia.
Qed.
Lemma tadd_fold M tp ls : (forall p, In p tp -> holds M p = true) -> forall t, count M (snd (fold_left (tadd tp) ls t)) - fst (fold_left (tadd tp) ls t) = count M (snd t) + count M ls - fst t.
Proof.
  intros H. induction ls as [|p ls IH]; intros t; cbn [fold_left]; [rewrite count_nil; lia|]. rewrite IH, count_cons. pose proof (tadd_one M tp t p H). lia.
Qed.
Lemma temp_count M s b ls : wf s -> sats M s -> count M (snd (tempOf s b ls)) - fst (tempOf s b ls) = count M ls - b.
Proof. intros W S. pose proof (tadd_fold M (top s) ls (fun p => top_holds M s p W S) (b, [])) as H. unfold tempOf. rewrite H. cbn [fst snd]. rewrite count_nil. lia. Qed.
Lemma tadd_in tp ls p : forall t, In p (snd (fold_left (tadd tp) ls t)) -> In p (snd t) \/ In p ls.
Proof.
  induction ls as [|q ls IH]; intros t I; [now left|]. cbn in I. apply IH in I as [I|I]; [|right; now right]. unfold tadd in I. destruct (mem q tp); [left; auto|]. destruct (mem (neg q) tp); [left; auto|].
  cbn in I. apply in_app_or in I as [I|[<-|[]]]; [now left|right; now left].
Qed.
Lemma temp_in s b ls p : In p (snd (tempOf s b ls)) -> In p ls.
Proof. intros I. apply tadd_in in I as [[]|I]; auto. Qed.
Lemma tadd_le tp ls : forall t, fst (fold_left (tadd tp) ls t) <= fst t.
Proof. induction ls as [|q ls IH]; intros t; cbn; [lia|]. specialize (IH (tadd tp t q)). unfold tadd in *. destruct (mem q tp); [|destruct (mem (neg q) tp)]; cbn in *; lia. Qed.
Lemma temp_le s b ls : fst (tempOf s b ls) <= b.
Proof. apply (tadd_le (top s) ls (b, [])). Qed.
(** how much the bound goes down is how many literals are true on level 0 *)
Lemma temp_low M s b ls : wf s -> sats M s -> b - fst (tempOf s b ls) <= count M ls.
Proof. intros W S. pose proof (temp_count M s b ls W S). pose proof (count_range M (snd (tempOf s b ls))). lia. Qed.

(** Values for new variables *)
Definition updM (M : asg) (v : nat) (b : bool) : asg := fun x => if Nat.eqb x v then b else M x.
Lemma updM_agree M v b n : (n <= v)%nat -> agree n M (updM M v b).
Proof. intros L x X. unfold updM. destruct (Nat.eqb_spec x v); auto. lia. Qed.
Lemma updM_eq M v b : updM M v b v = b. Proof. unfold updM. now rewrite Nat.eqb_refl. Qed.
Lemma holds_upd M v b : holds (updM M v b) (pos v) = b. Proof. unfold holds, pos. cbn. rewrite updM_eq. now destruct b. Qed.

End Sim.
