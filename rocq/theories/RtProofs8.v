(** Rule transformation: shifting *)
From Coq Require Import List Bool Arith ZArith Lia.
Import ListNotations.
From Verif Require Import Base LpSpec LpProofs RtModel RtProofs RtProofs2 RtProofs5 RtProofs6.

Lemma ngt_all N M l : forallb (litT N M) (map ngt l) = true <-> forall a, In a l -> M a = false.
Proof.
  rewrite forallb_forall. split.
  - intros H a I. specialize (H (ngt a) (in_map _ _ _ I)). unfold litT in H. cbn in H. now apply negb_true_iff.
  - intros H p I. apply in_map_iff in I as (a & <- & I). unfold litT. cbn. rewrite H; auto.
Qed.
(** the disjunction entails its shifted rules in the reduct *)
Lemma shift_entailed N M hs ls : sub N M -> (forall h, In h hs -> h <> 0) -> progT N M [Rule false hs (Norm ls)] -> progT N M (shifted ls [] hs).
Proof.
  intros Hs Hz H r I. apply single_progT in H. apply shifted_in in I as (p & h & q & -> & ->). intros B. cbn [r_body bodyT app] in B. rewrite forallb_app in B. apply andb_true_iff in B as [B1 B2].
  rewrite ngt_all in B2. destruct (H B1) as (x & I & Nx). cbn [r_head r_choice] in *. assert (Ex : x = h).
  { apply in_app_iff in I as [I|[I|I]]; [|auto|]; exfalso; assert (X : M x = false) by (apply B2, in_app_iff; auto); rewrite (Hs x Nx) in X; discriminate. }
  subst x. exists h. split; [|auto]. rewrite hd1_pos; [now left|]. apply Hz. apply in_app_iff. right. now left.
Qed.
Lemma shift_model M hs ls : hs <> [] -> progT M M (shifted ls [] hs) -> progT M M [Rule false hs (Norm ls)].
Proof.
  intros Ne H. apply single_progT. intros B. cbn [r_body bodyT r_choice r_head] in *. destruct (existsb M hs) eqn:E; [apply existsb_exists in E as (h & I & E); eauto|]. exfalso.
  destruct hs as [|h q]; [easy|]. cbn [existsb] in E. apply orb_false_iff in E as [E1 E2].
  assert (Eq : forall a, In a q -> M a = false). { intros a I. destruct (M a) eqn:Ea; [|auto]. assert (X : existsb M q = true) by (apply existsb_exists; eauto). congruence. }
  destruct (H (Rule false (hd1 h) (Norm (ls ++ map ngt q)))) as (x & I & Mx).
  - apply shifted_in. exists [], h, q. auto.
  - cbn. rewrite forallb_app, B. cbn. apply ngt_all. auto.
  - apply hd1_in in I. subst x. congruence.
Qed.
Lemma shift_stable P M hs ls : hs <> [] -> (forall h, In h hs -> h <> 0) -> stable (P ++ shifted ls [] hs) M -> stable (P ++ [Rule false hs (Norm ls)]) M.
Proof.
  intros Ne Hz [T Mn]. apply progT_app in T as [T1 T2]. split.
  - apply progT_app. split; [auto|]. now apply shift_model.
  - intros N Hs TN. apply progT_app in TN as [N1 N2]. apply Mn; auto. apply progT_app. split; [auto|]. now apply shift_entailed.
Qed.
Lemma shift_redundant P M hs ls : (forall h, In h hs -> h <> 0) -> stable (P ++ [Rule false hs (Norm ls)]) M <-> stable (P ++ [Rule false hs (Norm ls)] ++ shifted ls [] hs) M.
Proof.
  intros Hz. apply stable_equiv. intros N M' Hs. rewrite !progT_app. split; [|tauto]. intros [A B]. split; [auto|]. split; [auto|]. now apply shift_entailed.
Qed.
(** the whole of [transform] on a disjunction *)
Lemma transform_disj fuel s hs cond x s' : transform fuel s (Rule false hs (Norm cond)) x = Ok s' -> 1 < length hs -> below (t_next s) [Rule false hs (Norm cond)] -> (forall h, In h hs -> h <> 0) -> t_next s <> 0 ->
  exists T, t_out s' = t_out s ++ T /\ (forall q, In q T -> normalR q)
    /\ forall P, below (t_next s) P -> forall M', stable (P ++ T) M' -> exists M, stable (P ++ [Rule false hs (Norm cond)]) M /\ agree (t_next s) M M'.
Proof.
  intros E L B Hz K. unfold transform in E. cbn [r_body r_choice r_head] in E. assert (Ne : hs <> []) by (destruct hs; [cbn in L; lia|discriminate]).
  apply Nat.ltb_lt in L. rewrite L in E.
  assert (Sn : forall ls q, In q (shifted ls [] hs) -> normalR q). { intros ls q I. apply shifted_in in I as (p & h & r & _ & ->). eexists; eexists; reflexivity. }
  destruct (_ && _).
  - cbn [newAtom] in E. apply transformDisjunction_ok in E. subst s'. cbn [t_out addNorm addRule]. rewrite hd1_pos by auto. rewrite <- app_assoc. eexists. split; [reflexivity|]. split.
    + intros q [<-|I]; [exists (t_next s), cond; now rewrite hd1_pos|eauto].
    + intros P BP M' H. change (Rule false [t_next s] (Norm cond) :: shifted [pos (t_next s)] [] hs) with ([Rule false [t_next s] (Norm cond)] ++ shifted [pos (t_next s)] [] hs) in H.
      rewrite app_assoc in H. apply shift_stable in H; auto. destruct (nameBody (t_next s) false hs (Norm cond) B I P BP) as (_ & X & _). apply X.
      revert H. apply stable_equiv. intros N M _. apply progT_In. intros q. rewrite !in_app_iff. cbn [In]. tauto.
  - apply transformDisjunction_ok in E. subst s'. cbn [t_out]. eexists. split; [reflexivity|]. split; [eauto|]. intros P BP M' H. exists M'. split; [|apply agree_refl]. now apply shift_stable.
Qed.
