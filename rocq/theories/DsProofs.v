(** Component-wise shifting keeps the answer sets *)
From Coq Require Import List Bool Arith ZArith Lia.
Import ListNotations.
From Verif Require Import Base LpSpec LpProofs RtModel RtProofs RtProofs2 RtProofs8 DsModel DsSpec.

Section D.
Context (sc : nat -> option nat) (ng : bool).
Lemma same_iff a b : sameScc sc a b = true <-> sc a = sc b /\ sc a <> None.
Proof.
  unfold sameScc. destruct (sc a) as [x|], (sc b) as [y|]; try (split; [discriminate|intros [A B]; congruence]). rewrite Nat.eqb_eq. split; [intros ->; split; congruence|intros [A _]; congruence].
Qed.
Lemma gamma_entailed N M h others ls : sub N M -> h <> 0 -> (forall o, In o others -> o <> 0) -> ruleT N M (compRule sc h others ls) -> progT N M (gammaRules sc ng h others ls).
Proof.
  intros Hs Hh Ho H. unfold gammaRules. destruct (_ && _); [|intros r []]. destruct (transformDisjunction _ _ _) as [s| |] eqn:E; try (intros r []). apply transformDisjunction_ok in E. subst s. cbn [t_out app].
  apply shift_entailed; auto.
  - intros x [<-|J]; [auto|]. apply filter_In in J as [J _]. auto.
  - intros r [<-|[]]. exact H.
Qed.
(** every rule belongs to a place in the head *)
Lemma loop_sound ls : forall hs pre flags hs0, hs0 = pre ++ hs -> forall N M,
  (forall p h q, hs0 = p ++ h :: q -> ruleT N M (compRule sc h (p ++ q) ls)) -> sub N M -> (forall h, In h hs0 -> h <> 0) -> progT N M (compLoop sc ng flags pre hs ls).
Proof.
  induction hs as [|h hs IH]; intros pre flags hs0 E N M H Hs Hz; [intros r []|]. cbn [compLoop].
  assert (R : forall fl, progT N M (compRule sc h (pre ++ hs) ls :: gammaRules sc ng h (pre ++ hs) ls ++ compLoop sc ng fl (pre ++ [h]) hs ls)).
  { intros fl. rewrite cons_progT, progT_app. assert (X : ruleT N M (compRule sc h (pre ++ hs) ls)) by now apply H. split; [auto|]. split.
    - apply gamma_entailed; auto; [apply Hz; rewrite E; apply in_app_iff; right; now left|]. intros o J. apply Hz. rewrite E. apply in_app_iff in J. apply in_app_iff. cbn. tauto.
    - apply IH with (hs0 := hs0); auto. rewrite E. now rewrite <- app_assoc. }
  destruct (sc h) as [c|]; [|apply R]. destruct (existsb (Nat.eqb c) flags); [apply R|]. apply IH with (hs0 := hs0); auto. rewrite E. now rewrite <- app_assoc.
Qed.
(** every head atom is in the head of some rule for its component *)
Lemma loop_complete ls : forall hs pre flags hs0, hs0 = pre ++ hs -> forall h, In h hs -> (forall c, sc h = Some c -> In c flags) ->
  exists h' p q, hs0 = p ++ h' :: q /\ In (compRule sc h' (p ++ q) ls) (compLoop sc ng flags pre hs ls) /\ (h' = h \/ sameScc sc h' h = true).
Proof.
  induction hs as [|x hs IH]; intros pre flags hs0 E h I F; [destruct I|]. cbn [compLoop].
  assert (E' : hs0 = (pre ++ [x]) ++ hs) by (rewrite E; now rewrite <- app_assoc).
  destruct (sc x) as [c|] eqn:Ex.
  - destruct (existsb (Nat.eqb c) flags) eqn:Ef.
    + destruct (sameScc sc x h) eqn:Es.
      * exists x, pre, hs. split; [auto|]. split; [now left|now right].
      * destruct I as [<-|I]; [exists x, pre, hs; split; [auto|]; split; [now left|now left]|].
        destruct (IH (pre ++ [x]) (filter (fun y => negb (y =? c)) flags) hs0 E' h I) as (h' & p & q & A & B & C).
        -- intros c' Ec. apply filter_In. split; [now apply F|]. apply negb_true_iff, Nat.eqb_neq. intros ->. assert (X : sameScc sc x h = true) by (apply same_iff; rewrite Ex, Ec; split; congruence). congruence.
        -- exists h', p, q. split; [auto|]. split; [right; apply in_app_iff; now right|auto].
    + destruct I as [<-|I].
      * exfalso. assert (X : existsb (Nat.eqb c) flags = true); [|congruence]. apply existsb_exists. exists c. split; [now apply F|apply Nat.eqb_refl].
      * apply (IH (pre ++ [x]) flags hs0 E' h I F).
  - destruct I as [<-|I]; [exists x, pre, hs; split; [auto|]; split; [now left|now left]|].
    destruct (IH (pre ++ [x]) flags hs0 E' h I F) as (h' & p & q & A & B & C). exists h', p, q. split; [auto|]. split; [right; apply in_app_iff; now right|auto].
Qed.
Lemma flags_all hs h c : In h hs -> sc h = Some c -> In c (sccsOf sc hs).
Proof. intros I E. unfold sccsOf. apply in_flat_map. exists h. rewrite E. split; [auto|now left]. Qed.

(** ** meaning of a rule of a component *)
Lemma comp_body N M ls h others : forallb (litT N M) (ls ++ map ngt (filter (fun o => negb (sameScc sc h o)) others)) = true <->
  forallb (litT N M) ls = true /\ forall o, In o others -> sameScc sc h o = false -> M o = false.
Proof.
  rewrite forallb_app, andb_true_iff. split; intros [A B]; (split; [auto|]).
  - intros o I E. rewrite forallb_forall in B. specialize (B (ngt o)). assert (X : litT N M (ngt o) = true) by (apply B, in_map, filter_In; rewrite E; auto). unfold litT in X. cbn in X. now apply negb_true_iff.
  - apply forallb_forall. intros p J. apply in_map_iff in J as (o & <- & J). apply filter_In in J as [J1 J2]. apply negb_true_iff in J2. unfold litT. cbn. rewrite (B o J1 J2). reflexivity.
Qed.
(** the disjunction implies its rules *)
Lemma disj_comp N M hs ls p h q : sub N M -> hs = p ++ h :: q -> ruleT N M (Rule false hs (Norm ls)) -> ruleT N M (compRule sc h (p ++ q) ls).
Proof.
  intros Hs E H B. cbn [compRule r_body bodyT] in B. apply comp_body in B as [B1 B2]. destruct (H B1) as (x & I & Nx). cbn in I. cbn [compRule r_choice r_head]. exists x. split; [|auto].
  rewrite E in I. apply in_app_iff in I. cbn in I. destruct I as [I|[I|I]]; [right|left; auto|right]; apply filter_In; (split; [apply in_app_iff; auto|]); (destruct (sameScc sc h x) eqn:Es; [auto|]); rewrite B2 in Nx || (assert (X : M x = false) by (apply B2; [apply in_app_iff; auto|auto]); apply Hs in Nx; congruence).
Qed.

(** ** programs *)
Lemma shift_rule_sound r N M : sub N M -> (forall h, In h (r_head r) -> h <> 0) -> ruleT N M r -> progT N M (shiftRule sc ng r).
Proof.
  intros Hs Hz H. unfold shiftRule. destruct r as [ch hs b]. cbn [r_choice r_head r_body] in *. destruct ch; [now rewrite single_progT|]. destruct b as [ls|]; [|now rewrite single_progT]. destruct (1 <? length hs); [|now rewrite single_progT].
  apply loop_sound with (hs0 := hs); auto. intros p h q E. now apply disj_comp with (hs := hs).
Qed.
Lemma shift_model P M : normalDisj P -> progT M M (finalizeDisjunctions sc ng P) -> progT M M P.
Proof.
  intros Hn H r J. assert (Hr : progT M M (shiftRule sc ng r)) by (intros x Jx; apply H; unfold finalizeDisjunctions; apply in_flat_map; eauto).
  unfold shiftRule in Hr. destruct r as [ch hs b]. cbn [r_choice r_head r_body] in *. destruct ch; [now rewrite single_progT in Hr|]. destruct b as [ls|]; [|now rewrite single_progT in Hr]. destruct (1 <? length hs) eqn:El; [|now rewrite single_progT in Hr].
  intros B. cbn [r_body bodyT] in B. cbn [r_choice r_head].
  destruct (existsb M hs) eqn:Ex; [apply existsb_exists in Ex; exact Ex|]. exfalso. assert (Nh : forall h, In h hs -> M h = false) by (intros h I; destruct (M h) eqn:X; [assert (existsb M hs = true) by (apply existsb_exists; eauto); congruence|auto]).
  apply Nat.ltb_lt in El. destruct hs as [|h0 hs]; [cbn in El; lia|].
  destruct (loop_complete ls (h0 :: hs) [] (sccsOf sc (h0 :: hs)) (h0 :: hs) eq_refl h0 (or_introl eq_refl)) as (h' & p & q & A & I & _); [intros c Ec; apply flags_all with h0; [now left|auto]|].
  destruct (Hr _ I) as (x & Jx & Mx).
  - cbn [compRule r_body bodyT]. apply comp_body. split; [auto|]. intros o Jo _. apply Nh. rewrite A. apply in_app_iff in Jo. apply in_app_iff. cbn. tauto.
  - rewrite Nh in Mx; [discriminate|]. rewrite A. apply in_app_iff. cbn [compRule r_head] in Jx. destruct Jx as [<-|Jx]; [right; now left|]. apply filter_In in Jx as [Jx _]. apply in_app_iff in Jx. cbn. tauto.
Qed.
Lemma litT_posAtoms N N' M b : (forall a, In a (posAtoms b) -> N' a = true -> N a = true) -> posB b -> bodyT N' M b = true -> bodyT N M b = true.
Proof.
  intros H Hp. destruct b as [ls|bd l]; cbn [bodyT posAtoms] in *.
  - rewrite !forallb_forall. intros A p J. specialize (A p J). unfold litT in *. destruct (snd p) eqn:Es; [auto|]. apply H; [|auto]. apply in_map, filter_In. now rewrite Es.
  - rewrite !Z.leb_le. intros A. cbn in Hp. assert (G : (sumT N' M l <= sumT N M l)%Z); [|lia]. clear A. induction l as [|x l IH]; [cbn; lia|]. cbn [sumT fold_right]. fold (sumT N' M l) (sumT N M l).
    assert (X : (sumT N' M l <= sumT N M l)%Z). { apply IH; [|intros y J; apply Hp; now right]. intros a J. apply H. cbn [map filter]. destruct (negb (snd (fst x))); [right; auto|auto]. }
    pose proof (Hp x (or_introl eq_refl)). destruct (litT N' M (fst x)) eqn:E; [|destruct (litT N M (fst x)); lia]. assert (Y : litT N M (fst x) = true); [|rewrite Y; lia].
    unfold litT in *. destruct (snd (fst x)) eqn:Es; [auto|]. apply H; [|auto]. cbn [map filter]. rewrite Es. cbn. now left.
Qed.
Lemma shift_stable P M : components P sc -> normalDisj P -> distinctHeads P -> posP P -> (forall r h, In r P -> In h (r_head r) -> h <> 0) -> stable P M <-> stable (finalizeDisjunctions sc ng P) M.
Proof.
  intros (rank & Hr1 & Hr2) Hn Hd Hp Hz.
  assert (Sound : forall N M, sub N M -> progT N M P -> progT N M (finalizeDisjunctions sc ng P)).
  { intros N M' Hs H x J. unfold finalizeDisjunctions in J. apply in_flat_map in J as (r & J1 & J2). revert x J2. change (progT N M' (shiftRule sc ng r)). apply shift_rule_sound; auto. intros h Jh. now apply (Hz r). }
  split.
  - intros [Hm Hmin]. split; [apply Sound; [apply sub_refl|auto]|]. intros N Hs HN.
    (* an atom of least rank that is in M but not in N *)
    assert (G : forall n x, rank x = n -> M x = true -> N x = false -> False).
    { induction n as [n IHn] using lt_wf_ind. intros x Rx Mx Nx.
      assert (Low : forall y, rank y < n -> M y = true -> N y = true) by (intros y Ry My; destruct (N y) eqn:Ny; [auto|]; destruct (IHn _ Ry y eq_refl My Ny)).
      set (K := fun a => M a && negb (N a) && ((a =? x) || sameScc sc x a)). set (N' := fun a => M a && negb (K a)).
      assert (Kiff : forall a, K a = true <-> M a = true /\ N a = false /\ (a = x \/ sameScc sc x a = true)) by (intros a; unfold K; rewrite !andb_true_iff, negb_true_iff, orb_true_iff, Nat.eqb_eq; tauto).
      assert (N'iff : forall a, N' a = true <-> M a = true /\ K a = false) by (intros a; unfold N'; rewrite andb_true_iff, negb_true_iff; tauto).
      assert (Kx : K x = true) by (apply Kiff; auto).
      assert (Rk : forall a, K a = true -> rank a = n). { intros a Ka. apply Kiff in Ka as (_ & _ & [->|Ka]); [auto|]. apply same_iff in Ka as [Ka1 Ka2]. rewrite <- Rx. symmetry. now apply Hr1. }
      assert (E : forall a, N' a = M a).
      { apply Hmin; [intros a Ha; now apply N'iff in Ha|]. intros r J Bt. pose proof (Hm r J) as Mr. assert (Bm : bodyT M M (r_body r) = true) by (apply (bodyT_mono N' M M); [intros a Ha; now apply N'iff in Ha|now apply Hp|auto]).
        (* if a head atom is in K, the body is true in N *)
        assert (Bn : forall h, In h (r_head r) -> K h = true -> bodyT N M (r_body r) = true).
        { intros h Jh Kh. apply (litT_posAtoms N N'); [|now apply Hp|auto]. intros b Jb Nb. apply N'iff in Nb as [Mb Kb]. destruct (Hr2 r h b J Jh Jb) as [Rb|[Sb Sn]]; [apply Low; [rewrite <- (Rk h Kh); auto|auto]|].
          destruct (N b) eqn:Nb; [auto|]. exfalso. assert (X : K b = true); [|congruence]. apply Kiff. split; [auto|]. split; [auto|]. right. apply Kiff in Kh as (_ & _ & [->|Kh]); [apply same_iff; split; congruence|].
          apply same_iff in Kh as [Kh1 Kh2]. apply same_iff. split; congruence. }
        assert (Rn : progT N M (shiftRule sc ng r)) by (intros y Jy; apply HN; unfold finalizeDisjunctions; apply in_flat_map; eauto).
        unfold shiftRule in Rn. specialize (Mr Bm).
        destruct (r_choice r) eqn:Ec.
        - intros h Jh Mh. apply N'iff. split; [auto|]. destruct (K h) eqn:Kh; [|auto]. exfalso. rewrite single_progT in Rn. specialize (Rn (Bn h Jh Kh)). rewrite Ec in Rn. specialize (Rn h Jh Mh). apply Kiff in Kh as (_ & Kh & _). congruence.
        - destruct Mr as (h & Jh & Mh). destruct (K h) eqn:Kh; [|exists h; split; [auto|]; now apply N'iff]. pose proof (Bn h Jh Kh) as Bh.
          destruct (existsb N' (r_head r)) eqn:En; [apply existsb_exists in En as (y & Y1 & Y2); exists y; auto|]. exfalso.
          assert (AllK : forall y, In y (r_head r) -> M y = true -> K y = true). { intros y Jy My. destruct (K y) eqn:Ky; [auto|]. assert (X : existsb N' (r_head r) = true); [|congruence]. apply existsb_exists. exists y. split; [auto|]. now apply N'iff. }
          assert (NoN : forall y, In y (r_head r) -> N y = false). { intros y Jy. destruct (N y) eqn:Ny; [|auto]. pose proof (AllK y Jy (Hs y Ny)) as Ky. apply Kiff in Ky as (_ & Ky & _). congruence. }
          destruct (r_body r) as [ls|bd l] eqn:Eb.
          2: { rewrite single_progT in Rn. unfold ruleT in Rn. rewrite Eb, Ec in Rn. destruct (Rn Bh) as (y & Jy & Ny). rewrite (NoN y Jy) in Ny. discriminate. }
          destruct (1 <? length (r_head r)) eqn:El.
          2: { rewrite single_progT in Rn. unfold ruleT in Rn. rewrite Eb, Ec in Rn. destruct (Rn Bh) as (y & Jy & Ny). rewrite (NoN y Jy) in Ny. discriminate. }
          destruct (loop_complete ls (r_head r) [] (sccsOf sc (r_head r)) (r_head r) eq_refl h Jh) as (h' & p & q & A & I & Hh'); [intros c Hc; now apply flags_all with h|].
          destruct (Rn _ I) as (y & Jy & Ny).
          + cbn [compRule r_body bodyT]. apply comp_body. split; [exact Bh|]. intros o Jo So. destruct (M o) eqn:Mo; [|auto]. exfalso.
            assert (Jo' : In o (r_head r)) by (rewrite A; apply in_app_iff; apply in_app_iff in Jo; cbn; tauto). pose proof (AllK o Jo' Mo) as Ko. apply Kiff in Ko as (_ & _ & Ko). apply Kiff in Kh as (_ & _ & Kh).
            (* o and h' are different atoms of one component *)
            assert (On : o <> h'). { pose proof (Hd r J) as Nd. rewrite A in Nd. apply NoDup_remove_2 in Nd. intros ->. auto. }
            assert (Oh : o = h \/ sameScc sc o h = true). { destruct Ko as [->|Ko], Kh as [->|Kh]; auto.
              - right. apply same_iff in Ko as [Ko1 Ko2]. apply same_iff. split; congruence.
              - apply same_iff in Ko as [Ko1 Ko2], Kh as [Kh1 Kh2]. right. apply same_iff. split; congruence. }
            assert (X : sameScc sc h' o = true); [|congruence].
            destruct Oh as [->|Oh], Hh' as [->|Hh']; try congruence; try auto.
            * apply same_iff in Oh as [O1 O2]. apply same_iff. split; congruence.
            * apply same_iff in Oh as [O1 O2], Hh' as [P1 P2]. apply same_iff. split; congruence.
          + rewrite NoN in Ny; [discriminate|]. rewrite A. cbn [compRule r_head] in Jy. apply in_app_iff. destruct Jy as [<-|Jy]; [right; now left|]. apply filter_In in Jy as [Jy _]. apply in_app_iff in Jy. cbn. tauto. }
      specialize (E x). assert (X : N' x = true) by (rewrite E; auto). apply N'iff in X as [_ X]. congruence. }
    intros a. destruct (N a) eqn:Na; [symmetry; now apply Hs|]. destruct (M a) eqn:Ma; [destruct (G (rank a) a eq_refl Ma Na)|auto].
  - intros [Hm Hmin]. split; [now apply shift_model|]. intros N Hs HN. apply Hmin; auto.
Qed.
End D.
