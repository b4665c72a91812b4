(** C52: the counters of learnt clauses. *)
From Coq Require Import List Arith Bool Lia.
From Verif Require Import Base IgSpec IgModel.
Import ListNotations.

Definition ofLen (k : nat) (cs : list sclause) : nat := length (filter (fun c => length (lits c) =? k) cs).
Lemma added_app a b : added (a ++ b) = added a ++ added b.
Proof. induction a as [|e a IH]; [easy|]. destruct e as [t c|t c [|]|t g l|g e|g]; cbn [added app]; rewrite ?IH; easy. Qed.
Lemma ofLen_app k a b : ofLen k (a ++ b) = ofLen k a + ofLen k b.
Proof. unfold ofLen. rewrite filter_app, app_length. easy. Qed.
(** A step writes no counter, returns no added clause and reads no counter; or it reads it, or it writes it. *)
Lemma step_stat m s e s' : step m s e s' ->
  (exists t p, t < m /\ s_stat s' = s_stat s /\ added e = [] /\ s_pc s' = fset (s_pc s) t p /\ (forall c v, p = S1 c v -> v = s_stat s (length (lits c)))) \/
  (exists t c v, t < m /\ s_pc s t = S1 c v /\ s_stat s' = fset (s_stat s) (length (lits c)) (S v) /\ added e = [c] /\ s_pc s' = fset (s_pc s) t Idle).
Proof.
  intros [t s1 e1 T N R | t c T I W | t l T I | t l g b i n T I].
  - unfold run1 in R. destruct (s_pc s t) as [|l k|l k b|l k b i n|c j|c j x|c j x n z|c j|c|c v] eqn:P; [easy|..].
    9: { injection R as <- <-. right. exists t, c, v. auto. }
    8: { injection R as <- <-. left. exists t, (S1 c (s_stat s (length (lits c)))). split; [easy|]. split; [easy|]. split; [easy|]. split; [easy|]. intros c' v' [= <- <-]. easy. }
    all: left; exists t; cbn zeta in R; unfold at_, endOf, nextCall in R;
      repeat match type of R with
      | Ok (_, _) = Ok _ => fail 1
      | context[if ?b then _ else _] => destruct b; try discriminate R
      | context[match ?k with KProp _ => _ | KHas _ => _ end] => destruct k
      end; try discriminate R; injection R as <- <-; eexists; (split; [exact T|]); (split; [reflexivity|]); (split; [reflexivity|]); (split; [reflexivity|]); intros ? ? Q; try (match type of Q with (if ?b then _ else _) = _ => destruct b end); discriminate Q.
  - left. eexists t, _. split; [easy|]. split; [reflexivity|]. split; [easy|]. split; [reflexivity|]. easy.
  - left. eexists t, _. split; [easy|]. split; [reflexivity|]. split; [easy|]. split; [reflexivity|]. easy.
  - left. eexists t, _. split; [easy|]. split; [reflexivity|]. split; [easy|]. split; [reflexivity|]. easy.
Qed.
Lemma count_inv m tr s : exec m tr s ->
  (forall k, s_stat s k <= ofLen k (added tr)) /\ (forall k, 0 < ofLen k (added tr) -> 0 < s_stat s k) /\ (forall t c v, s_pc s t = S1 c v -> v <= ofLen (length (lits c)) (added tr)) /\
  (m = 1 -> (forall k, s_stat s k = ofLen k (added tr)) /\ (forall t c v, s_pc s t = S1 c v -> t < m /\ v = s_stat s (length (lits c)))).
Proof.
  induction 1 as [|tr s e s' H (I1 & I2 & I3 & I4) ST].
  - split; [easy|]. split; [cbn; intros; lia|]. split; [easy|]. split; easy.
  - rewrite added_app. destruct (step_stat m s e s' ST) as [(t & p & T & -> & -> & -> & P) | (t & c & v & T & P & -> & -> & ->)].
    + rewrite app_nil_r. split; [easy|]. split; [easy|]. split; [|intro M; destruct (I4 M) as [J1 J2]; split; [easy|]].
      * intros u c v. unfold fset. destruct (u =? t); [intro E; rewrite (P c v E); apply I1 | apply I3].
      * intros u c v. unfold fset. destruct (u =? t) eqn:U; [apply Nat.eqb_eq in U as ->; intro E; split; [easy | now apply P] | apply J2].
    + assert (OL : forall k, ofLen k (added tr ++ [c]) = ofLen k (added tr) + (if k =? length (lits c) then 1 else 0)).
      { intro k. rewrite ofLen_app. f_equal. unfold ofLen. cbn [filter]. rewrite (Nat.eqb_sym k). now destruct (length (lits c) =? k). }
      split; [|split; [|split]].
      * intro k. rewrite OL. unfold fset. destruct (k =? length (lits c)) eqn:K; [apply Nat.eqb_eq in K as ->; pose proof (I3 t c v P); lia | specialize (I1 k); lia].
      * intro k. rewrite OL. unfold fset. destruct (k =? length (lits c)); [lia | intro; apply I2; lia].
      * intros u c' v'. rewrite OL. unfold fset. destruct (u =? t); [easy|]. intro E. specialize (I3 u c' v' E). lia.
      * intro M. destruct (I4 M) as [J1 J2]. split.
        -- intro k. rewrite OL. unfold fset. destruct (k =? length (lits c)) eqn:K; [apply Nat.eqb_eq in K as ->; destruct (J2 t c v P) as [_ ->]; rewrite J1; lia | rewrite J1; lia].
        -- intros u c' v'. unfold fset. destruct (u =? t) eqn:U; [easy|]. intro E. exfalso. apply Nat.eqb_neq in U. destruct (J2 u c' v' E). lia.
Qed.
