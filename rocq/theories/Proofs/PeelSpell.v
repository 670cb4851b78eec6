(** Words letter by letter, the epsilon included: what decoding and removing final epsilons do to them. *)
From Coq Require Import List Arith NArith Bool Lia.
From Verif Require Import Base.Util Base.Semiring Base.Machine Base.PathSum Base.PropSpec
  Model.Props Model.VectorFst Model.TrOps Model.Visitors Model.Rational Model.ShortestPath Model.BiMap Model.TrMap Model.Encode
  Proofs.PropsFacts Proofs.VectorFacts Proofs.DelStates Proofs.VectorProps Proofs.TrOpsFacts Proofs.HistoryFacts
  Proofs.OpFacts Proofs.ConnectFacts Proofs.RationalFacts Proofs.ReverseDist Proofs.RmEpsFacts Proofs.MinFacts Proofs.SpellFacts Proofs.FinalEps
  Props.C03 Props.C14 Props.C30 Props.C38.
Import ListNotations.
Local Open Scope K_scope.

Section S.
  Context {K : SR} (L : lsr_laws K).
  Implicit Types (f g h d : vfst K) (m : machine K).

  (** The words of a sealed machine end with the epsilon that is removed, state by state. *)
  Lemma peel_states d s0 r : sealed d s0 -> rm_final_epsilon d = Ok r -> exists sv,
    match vstart r with Some k => nth_error sv k = Some s0 | None => forall u, spell (mach d) s0 (u ++ [O]) = 0 end /\
    forall k q, nth_error sv k = Some q -> (q < num_states d)%nat /\ fin_of d q = None /\
      (forall u, spell (mach r) k u = spell (mach d) q (u ++ [O])) /\ (forall w, fin_of r k = Some w -> w <> 0) /\
      forall t', In t' (trs_of r k) -> exists t, In t (trs_of d q) /\ il t' = il t /\ ol t' = ol t /\ wgt t' = wgt t /\ nth_error sv (ns t') = Some (ns t).
  Proof.
    intros [C CL Es F0 F1 F2 F3] E.
    assert (DE : forall s, dead_end d s <-> fin_of d s <> None).
    { intros s. split; [intros [H _]; auto|]. intros H. split; auto. rewrite F2 by auto. intros t []. }
    destruct (rm_final_parts L d s0 C CL Es) as (D & h & HD & E1 & Ef & Ch & _ & T & F).
    pose proof Ef as (Fn & Fs & _ & _ & Fc). rewrite E1 in E.
    assert (DF : forall x, In x D -> fin_of d x <> None) by (intros x Hx; apply DE, HD; auto).
    assert (RS : forall s t, In t (trs_of d s) -> removable D t = seal d t).
    { intros s t Ht. unfold seal, removable. destruct (fin_of d (ns t)) as [w|] eqn:Ew.
      - destruct (F1 s t Ht) as [-> ->]; [congruence|]. rewrite !andb_true_r. apply existsb_exists. exists (ns t). rewrite Nat.eqb_refl. split; auto. apply HD, DE. congruence.
      - destruct (existsb (Nat.eqb (ns t)) D) eqn:Er; auto. exfalso. apply existsb_exists in Er as (x & Hx & Ex). apply Nat.eqb_eq in Ex. subst x. apply DF in Hx. congruence. }
    assert (FE : forall s v, fin_of d s <> None -> v <> [] -> spell (mach d) s v = 0).
    { intros s [|a v] Hs Nv; [congruence|]. cbn [spell mach mtrs]. rewrite F2 by auto. auto. }
    assert (HS : forall u s, fin_of d s = None -> spell (mach h) s u = spell (mach d) s (u ++ [O])).
    { induction u as [|a u IH]; intros s Hs; cbn [app spell].
      - cbn [mach mfin mtrs]. rewrite F, Hs. unfold new_fin. rewrite Hs. cbn [fw]. rewrite (kplus_0_l _ L).
        rewrite !(ksum_filter L). cbn [mach mtrs mfin spell].
        assert (X : ksum (map (fun t => if removable D t then fw (fin_of d (ns t)) * wgt t else 0) (trs_of d s)) =
                    ksum (map (fun t => if il t =? 0 then wgt t * fw (fin_of d (ns t)) else 0) (trs_of d s))).
        { apply ksum_map_ext. intros t Ht. rewrite (RS s t Ht). unfold seal. destruct (fin_of d (ns t)) as [w|] eqn:Ew; cbn [fw].
          - destruct (F1 s t Ht) as [-> _]; [congruence|]. cbn [Nat.eqb]. rewrite (F3 _ _ Ew), (ktimes_1_l _ L), (ktimes_1_r _ L). auto.
          - destruct (_ =? _); auto. symmetry. apply (ktimes_0_r _ L). }
        rewrite <- X. destruct (existsb (removable D) (trs_of d s)) eqn:Ex; cbn [andb].
        + match goal with |- context [keqb ?A 0] => destruct (keqbP L A 0) as [Z|Z] end; cbn [negb fw]; auto.
        + cbn [fw]. symmetry. apply (ksum_map_zero L). intros t Ht. destruct (removable D t) eqn:Er; auto. exfalso.
          assert (Y : existsb (removable D) (trs_of d s) = true) by (apply existsb_exists; eauto). congruence.
      - rewrite !(ksum_filter L). cbn [mach mtrs]. rewrite T, (ksum_filter L). apply ksum_map_ext. intros t Ht. rewrite (RS s t Ht). unfold seal.
        destruct (fin_of d (ns t)) as [w|] eqn:Ew; cbn [negb].
        + destruct (il t =? a); auto. rewrite FE; [symmetry; apply (ktimes_0_r _ L)|congruence|destruct u; discriminate].
        + destruct (il t =? a); auto. f_equal. apply IH. auto. }
    assert (HF : forall a b, reach (mach h) a b -> fin_of d a = None -> fin_of d b = None).
    { induction 1 as [|s t u Ht _ IH]; auto. intros _. apply IH. cbn [mach mtrs] in Ht. rewrite T in Ht. apply filter_In in Ht as [Ht X].
      rewrite (RS s t Ht) in X. unfold seal in X. destruct (fin_of d (ns t)); [discriminate|auto]. }
    destruct (connect_eq h Ch (Fc C)) as (dd & g0 & E' & Ed & S & U & _). rewrite E in E'.
    set (g1 := set_properties_with_mask g0 (mask [ACCESSIBLE; COACCESSIBLE]) (mask [ACCESSIBLE; COACCESSIBLE])) in *.
    assert (r = g1) by congruence. subst r. assert (Sg : is_submachine h dd g1) by exact S. clearbody g1. clear S g0 E' Ed E.
    exists (survivors (num_states h) dd). pose proof Sg as (_ & SS & St & _). replace (vstart h) with (Some s0) in St by congruence. split.
    - destruct St as [[A B]|[A (k & Ek & B)]]; rewrite B; auto. intros u. rewrite <- HS by auto. apply (spell_dead L). intros Co. destruct U as (_ & _ & U). apply (U s0 A).
      split; auto. exists s0. cbn [mach mstart]. split; [congruence|constructor].
    - intros k q Hk. destruct (surv_iff h dd k q U Hk) as [[Aq Cq] Hq]. rewrite Fn in Hq. split; auto.
      assert (Fq : fin_of d q = None).
      { destruct Aq as (s1 & A1 & A2). cbn [mach mstart] in A1. apply (HF s1 q A2). assert (s1 = s0) by congruence. subst. auto. }
      split; auto. split; [intros u; rewrite <- HS by auto; apply (sub_spell L h g1 dd); auto|]. destruct (SS k q Hk) as [Ff Ft]. split.
      + intros w. rewrite Ff, F, Fq. match goal with |- (if ?A && negb (keqb ?B 0) then _ else _) = _ -> _ => destruct A; cbn [andb]; [|discriminate]; destruct (keqbP L B 0); cbn [negb]; [discriminate|] end.
        intros [= <-]. auto.
      + intros t' Ht'. apply In_nth_error in Ht' as (i & Hi). destruct (C30.Forall2_nth _ _ _ _ _ Ft Hi) as (t & Hi' & X1 & X2 & X3 & X4).
        exists t. apply nth_error_In, filter_In in Hi' as [Hi' _]. rewrite T in Hi'. apply filter_In in Hi' as [Hi' _]. auto 10.
  Qed.
  Lemma peel_spelled d s0 r : sealed d s0 -> rm_final_epsilon d = Ok r -> forall u, C38.spelled (mach r) u = C38.spelled (mach d) (u ++ [O]).
  Proof.
    intros S E u. destruct (peel_states d s0 r S E) as (sv & St & H). unfold C38.spelled. cbn [mach mstart]. rewrite (se_start d s0 S).
    destruct (vstart r) as [k|]; [apply (H k s0 St)|symmetry; apply St].
  Qed.

  (** A machine whose final weights have become epsilon transitions to a new state [N]. *)
  Lemma seal_spelled g d (N : nat) : (forall s, (s < N)%nat -> trs_of d s = C30.spelled EncodeWeightsAndLabels g s) -> trs_of d N = [] -> fin_of d N = Some 1 ->
    (forall s, s <> N -> fin_of d s = None) -> num_states g = N -> closed g -> forall u s, (s < N)%nat -> spell (mach d) s (u ++ [O]) = spell (mach g) s u.
  Proof.
    intros T TN FN F Ng CL. induction u as [|a u IH]; intros s Hs; cbn [app spell]; rewrite ?(ksum_filter L); cbn [mach mtrs mfin].
    - rewrite (T s Hs). unfold C30.spelled. cbn [eweights]. rewrite map_app, (ksum_app L), (ksum_map_zero L), (kplus_0_l _ L).
      2: { intros t Ht. rewrite F; [cbn [fw]; rewrite (ktimes_0_r _ L); destruct (_ =? _); auto|]. pose proof (proj1 CL s t Ht). lia. }
      destruct (fin_of g s) as [w|]; cbn [map ksum fw]; auto. cbn [il Nat.eqb ns wgt]. rewrite Ng, FN. cbn [fw]. rewrite (ktimes_1_r _ L). apply (kplus_0_r L).
    - rewrite (T s Hs). unfold C30.spelled. cbn [eweights]. rewrite map_app, (ksum_app L).
      match goal with |- _ + ?B = _ => assert (Z : B = 0) end.
      { destruct (fin_of g s) as [w|]; cbn [map ksum]; auto. rewrite (kplus_0_r L). cbn [il ns wgt]. destruct (_ =? _); auto. rewrite Ng.
        assert (Y : spell (mach d) N (u ++ [O]) = 0) by (destruct u; cbn [app spell mach mtrs]; rewrite TN; auto). rewrite Y. apply (ktimes_0_r _ L). }
      rewrite Z, (kplus_0_r L). apply ksum_map_ext. intros t Ht. destruct (_ =? _); auto. f_equal. apply IH. rewrite <- Ng. apply (proj1 CL s t Ht).
  Qed.

  (** ** Decoding *)
  Lemma recode_spell_dead A B C m m' : deterministic m -> plain_acceptor m -> recoded A B C m m' ->
    forall v s, (forall u, spell m s u = 0) -> spell m' s v = 0.
  Proof.
    intros D [P _] [T F]. induction v as [|a v IH]; intros s H; cbn [spell].
    - rewrite F. exact (H []).
    - rewrite (ksum_filter L), T, map_map. apply (ksum_map_zero L). intros t Ht. destruct (_ =? _); auto. cbn [recode ns wgt]. rewrite IH; [apply (ktimes_0_r _ L)|].
      intros u. specialize (H (il t :: u)). rewrite (spell_step L) in H by auto. rewrite (proj2 (P _ _ Ht)), (ktimes_1_l _ L) in H. auto.
  Qed.
  Lemma recode_spell A B C m1 m1' m2 m2' : deterministic m1 -> plain_acceptor m1 -> recoded A B C m1 m1' ->
    deterministic m2 -> plain_acceptor m2 -> recoded A B C m2 m2' ->
    forall v s1 s2, (forall u, spell m1 s1 u = spell m2 s2 u) -> spell m1' s1 v = spell m2' s2 v.
  Proof.
    intros D1 P1 R1 D2 P2 R2. pose proof R1 as [T1 F1]. pose proof R2 as [T2 F2].
    induction v as [|a v IH]; intros s1 s2 H; cbn [spell].
    - rewrite F1, F2. exact (H []).
    - rewrite !(ksum_filter L), T1, T2, !map_map. cbn [recode il wgt ns].
      assert (St : forall m (Dm : deterministic m) (Pm : plain_acceptor m) s t u, In t (mtrs m s) -> spell m s (il t :: u) = spell m (ns t) u).
      { intros m Dm [Pm _] s t u Ht. rewrite (spell_step L) by auto. rewrite (proj2 (Pm _ _ Ht)). apply (ktimes_1_l _ L). }
      apply (pair_sum L); auto.
      + intros t Ht. destruct (label_dec m2 s2 (il t)) as [(u & Hu & Eu)|No].
        * left. exists u. split; auto. split; auto. rewrite Eu. destruct (_ =? _); auto. f_equal. apply IH.
          intros w. rewrite <- (St m1 D1 P1 s1 t w Ht), <- (St m2 D2 P2 s2 u w Hu), Eu. auto.
        * right. split; auto. destruct (_ =? _); auto. rewrite (recode_spell_dead A B C m1 m1'); auto; [apply (ktimes_0_r _ L)|].
          intros w. rewrite <- (St m1 D1 P1 s1 t w Ht), H. apply (spell_none L); auto.
      + intros u Hu. destruct (label_dec m1 s1 (il u)) as [(t & Ht & Et)|No]; [left; rewrite <- Et; apply in_map; auto|].
        right. destruct (_ =? _); auto. rewrite (recode_spell_dead A B C m2 m2'); auto; [apply (ktimes_0_r _ L)|].
        intros w. rewrite <- (St m2 D2 P2 s2 u w Hu), <- H. apply (spell_none L); auto.
  Qed.
End S.
