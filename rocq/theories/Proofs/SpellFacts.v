(** Comparing machines through the words they spell. *)
From Coq Require Import List Arith Bool Lia Permutation.
From Verif Require Import Base.Util Base.Semiring Base.Machine Base.PropSpec
  Proofs.ReverseDist Proofs.MinFacts Props.C38.
Import ListNotations.
Local Open Scope K_scope.

Section S.
  Context {K : SR} (L : lsr_laws K).
  Implicit Types (m : machine K).

  (** Two sums over lists without repeated labels agree if they agree label by label. *)
  Lemma pair_sum {K0 : SR} (G1 G2 : tr K0 -> K) : forall l1 l2 : list (tr K0), NoDup (map il l1) -> NoDup (map il l2) ->
    (forall t, In t l1 -> (exists u, In u l2 /\ il u = il t /\ G1 t = G2 u) \/ (~ In (il t) (map il l2) /\ G1 t = 0)) ->
    (forall u, In u l2 -> In (il u) (map il l1) \/ G2 u = 0) ->
    ksum (map G1 l1) = ksum (map G2 l2).
  Proof.
    induction l1 as [|t l1 IH]; intros l2 N1 N2 H1 H2; cbn [map ksum].
    - symmetry. apply (ksum_map_zero L). intros u Hu. destruct (H2 u Hu) as [[]|]; auto.
    - inversion N1 as [|? ? X1 N1']; subst. destruct (H1 t (or_introl eq_refl)) as [(u & Hu & Eu & E)|[No E]].
      + apply in_split in Hu as (a & b & ->).
        assert (P : Permutation (a ++ u :: b) (u :: a ++ b)) by (symmetry; apply Permutation_middle).
        assert (Q : ksum (map G2 (a ++ u :: b)) = G2 u + ksum (map G2 (a ++ b))).
        { rewrite (ksum_perm L _ _ (Permutation_map G2 P)). reflexivity. }
        rewrite Q, E. f_equal.
        assert (N2' : NoDup (il u :: map il (a ++ b))) by (eapply Permutation_NoDup; [apply (Permutation_map il P)|exact N2]).
        inversion N2' as [|? ? X2 N2'']; subst. apply IH; auto.
        * intros t' Ht'. assert (Ne : il t' <> il u). { intros Z. apply X1. rewrite <- Eu, <- Z. apply in_map; auto. }
          destruct (H1 t' (or_intror Ht')) as [(v & Hv & Ev & E')|[No E']].
          -- left. exists v. split; auto. apply (Permutation_in _ P) in Hv as [->|Hv]; auto. congruence.
          -- right. split; auto. intros Z. apply No. apply in_map_iff in Z as (z & Ez & Hz). apply in_map_iff. exists z. split; auto.
             apply (Permutation_in _ (Permutation_sym P)). right. auto.
        * intros v Hv. destruct (H2 v) as [Hv'|Hv']; auto.
          { apply (Permutation_in _ (Permutation_sym P)). right. auto. }
          left. cbn [map] in Hv'. destruct Hv' as [Z|Z]; auto. exfalso. apply X2. rewrite Eu, Z. apply in_map; auto.
      + rewrite E, (kplus_0_l _ L). apply IH; auto.
        * intros t' Ht'. apply H1. right. auto.
        * intros v Hv. destruct (H2 v Hv) as [[Z|Z]|Z]; auto. exfalso. apply No. rewrite Z. apply in_map; auto.
  Qed.

  (** What follows a label. *)
  Lemma label_dec m s a : {t | In t (mtrs m s) /\ il t = a} + {~ In a (map il (mtrs m s))}.
  Proof.
    induction (mtrs m s) as [|t l IH]; [right; intros []|]. destruct (Nat.eq_dec (il t) a) as [E|E]; [left; exists t; split; auto; left; auto|].
    destruct IH as [(u & Hu & Eu)|IH]; [left; exists u; split; auto; right; auto|]. right. intros [Z|Z]; auto.
  Qed.

  (** ** Decoding the labels of a plain acceptor *)
  Definition recode (A B : nat -> nat) (C : nat -> K) (t : tr K) : tr K := Tr (A (il t)) (B (il t)) (C (il t)) (ns t).
  Definition recoded A B C m m' : Prop := (forall s, mtrs m' s = map (recode A B C) (mtrs m s)) /\ (forall s, mfin m' s = mfin m s).

  Lemma recode_dead A B C m m' : deterministic m -> plain_acceptor m -> recoded A B C m m' ->
    forall n s x y, (forall u, spell m s u = 0) -> wt m' n s x y = 0.
  Proof.
    intros D [P _] [T F]. induction n as [|n IH]; intros s x y H; cbn [wt].
    - rewrite F. specialize (H []). cbn [spell] in H. rewrite H. destruct (_ && _); auto.
    - rewrite T, map_map. apply (ksum_map_zero L). intros t Ht. destruct (strip _ x); auto. destruct (strip _ y); auto. cbn [recode ns]. rewrite IH; [apply (ktimes_0_r _ L)|].
      intros u. specialize (H (il t :: u)). rewrite (spell_step L) in H by auto. rewrite (proj2 (P _ _ Ht)), (ktimes_1_l _ L) in H. auto.
  Qed.
  Lemma recode_equiv A B C m1 m1' m2 m2' : deterministic m1 -> plain_acceptor m1 -> recoded A B C m1 m1' ->
    deterministic m2 -> plain_acceptor m2 -> recoded A B C m2 m2' ->
    forall n s1 s2 x y, (forall u, spell m1 s1 u = spell m2 s2 u) -> wt m1' n s1 x y = wt m2' n s2 x y.
  Proof.
    intros D1 P1 R1 D2 P2 R2. pose proof R1 as [T1 F1]. pose proof R2 as [T2 F2].
    induction n as [|n IH]; intros s1 s2 x y H; cbn [wt].
    - rewrite F1, F2. specialize (H []). cbn [spell] in H. rewrite H. auto.
    - rewrite T1, T2, !map_map. cbn [recode il ol wgt ns].
      assert (St : forall m (Dm : deterministic m) (Pm : plain_acceptor m) s t u, In t (mtrs m s) -> spell m s (il t :: u) = spell m (ns t) u).
      { intros m Dm [Pm _] s t u Ht. rewrite (spell_step L) by auto. rewrite (proj2 (Pm _ _ Ht)). apply (ktimes_1_l _ L). }
      apply pair_sum; auto.
      + intros t Ht. destruct (label_dec m2 s2 (il t)) as [(u & Hu & Eu)|No].
        * left. exists u. split; auto. split; auto. rewrite Eu. destruct (strip _ x) as [x'|]; auto. destruct (strip _ y) as [y'|]; auto. f_equal. apply IH.
          intros w. rewrite <- (St m1 D1 P1 s1 t w Ht), <- (St m2 D2 P2 s2 u w Hu), Eu. auto.
        * right. split; auto. destruct (strip _ x); auto. destruct (strip _ y); auto. rewrite (recode_dead A B C m1 m1'); auto; [apply (ktimes_0_r _ L)|].
          intros w. rewrite <- (St m1 D1 P1 s1 t w Ht), H. apply (spell_none L); auto.
      + intros u Hu. destruct (label_dec m1 s1 (il u)) as [(t & Ht & Et)|No]; [left; rewrite <- Et; apply in_map; auto|].
        right. destruct (strip _ x); auto. destruct (strip _ y); auto. rewrite (recode_dead A B C m2 m2'); auto; [apply (ktimes_0_r _ L)|].
        intros w. rewrite <- (St m2 D2 P2 s2 u w Hu), <- H. apply (spell_none L); auto.
  Qed.

  (** Reading a word along a plain acceptor. *)
  Lemma run_plain m : deterministic m -> plain_acceptor m -> forall u v s, spell m s (u ++ v) <> 0 ->
    exists r, (forall w, spell m s (u ++ w) = spell m r w) /\ reach m s r.
  Proof.
    intros D P. pose proof P as [P' _]. induction u as [|x u IH]; intros v s H.
    - exists s. split; [auto|constructor].
    - cbn [app] in H. destruct (label_dec m s x) as [(t & Ht & <-)|No]; [|exfalso; apply H; apply (spell_none L); auto].
      rewrite (spell_step L), (proj2 (P' _ _ Ht)), (ktimes_1_l _ L) in H by auto. destruct (IH v (ns t) H) as (r & Hr & R). exists r. split; [|econstructor; eauto].
      intros w. cbn [app]. rewrite (spell_step L), (proj2 (P' _ _ Ht)), (ktimes_1_l _ L) by auto. auto.
  Qed.

  (** ** Sums over all words *)
  Lemma scale_dead m : deterministic m -> forall k s (a : K), (forall u, a * spell m s u = 0) -> a * back m k s = 0.
  Proof.
    intros D. induction k as [|k IH]; intros s a H.
    - rewrite (back_0 L). exact (H []).
    - rewrite (back_S L), (kdistr_l _ L), (ksum_times_l L), map_map, (ksum_map_zero L); [rewrite (kplus_0_r L); exact (H [])|].
      intros t Ht. rewrite (ktimes_assoc _ L). apply IH. intros u. rewrite <- (ktimes_assoc _ L), <- (spell_step L m s t u) by auto. auto.
  Qed.
  Lemma scale_back m1 m2 : deterministic m1 -> deterministic m2 -> forall k s1 s2 (a b : K),
    (forall u, a * spell m1 s1 u = b * spell m2 s2 u) -> a * back m1 k s1 = b * back m2 k s2.
  Proof.
    intros D1 D2. induction k as [|k IH]; intros s1 s2 a b H.
    - rewrite !(back_0 L). exact (H []).
    - rewrite !(back_S L), !(kdistr_l _ L), !(ksum_times_l L), !map_map. f_equal; [exact (H [])|]. apply pair_sum; auto.
      + intros t Ht. destruct (label_dec m2 s2 (il t)) as [(u & Hu & Eu)|No].
        * left. exists u. split; auto. split; auto. rewrite !(ktimes_assoc _ L). apply IH. intros w.
          rewrite <- !(ktimes_assoc _ L), <- (spell_step L m1 s1 t w), <- (spell_step L m2 s2 u w), Eu by auto. auto.
        * right. split; auto. rewrite (ktimes_assoc _ L). apply scale_dead; auto. intros w. rewrite <- (ktimes_assoc _ L), <- (spell_step L m1 s1 t w), H by auto.
          rewrite (spell_none L) by auto. apply (ktimes_0_r _ L).
      + intros u Hu. destruct (label_dec m1 s1 (il u)) as [(t & Ht & Et)|No]; [left; rewrite <- Et; apply in_map; auto|].
        right. rewrite (ktimes_assoc _ L). apply scale_dead; auto. intros w. rewrite <- (ktimes_assoc _ L), <- (spell_step L m2 s2 u w), <- H by auto.
        rewrite (spell_none L) by auto. apply (ktimes_0_r _ L).
  Qed.
End S.
