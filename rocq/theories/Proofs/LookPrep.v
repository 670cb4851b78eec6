(** Renumbering labels and reordering transitions: what it does to sums over pairs of paths, and
    to an index of the labels. *)
From Coq Require Import List Arith NArith Bool Lia Permutation Sorted.
From Verif Require Import Base.Util Base.Semiring Base.Machine Model.Props Model.VectorFst Model.TrOps Model.History Model.Rational Model.Matchers
  Model.BiMap Model.Lazy Model.AlgoProps Model.Visitors Model.Compose Model.IntervalSet Model.Reachable Model.LabelReach Model.LookAhead.
From Verif Require Import Proofs.PropsFacts Proofs.VectorFacts Proofs.TrOpsFacts Proofs.HistoryFacts Proofs.OpFacts Proofs.ConnectFacts
  Proofs.ComposeFacts Proofs.LabelFacts.
From Verif Require Import Props.C06 Props.C10 Props.C19 Props.C20 Props.C34 Props.C49 Props.C50 Props.C52 Props.C54 Props.C55.
Import ListNotations.
Local Open Scope K_scope.

Section Prep.
  Context {K : SR} (L : lsr_laws K).
  Implicit Types (f g : vfst K) (m : machine K).

  Lemma relabel_cnt d f ri d' g : cnt f -> numbering (ld_l2i d) -> relabel_fst d f ri = Ok (d', g) -> cnt g.
  Proof.
    intros C Nm. unfold relabel_fst. destruct (relabel_states_ok ri d f C Nm (num_states f) (le_n _)) as (d1 & h & -> & G & A & _). cbn [rbind snd fst].
    assert (Ch : cnt h) by (apply A; auto).
    assert (X : forall g0, (if ri then tr_sort_i h else tr_sort_o h) = Ok g0 -> cnt g0).
    { intros g0 E. destruct ri; [exact (step_cnt L h OSortI g0 Ch E)|exact (step_cnt L h OSortO g0 Ch E)]. }
    destruct (if ri then tr_sort_i h else tr_sort_o h) as [g0| |] eqn:E; cbn [rbind]; try discriminate.
    specialize (X g0 eq_refl). intros [= <- <-]. destruct ri; exact X.
  Qed.

  (** ** Paths *)
  Section Rel.
    Context (m m' : machine K) (R : tr K -> tr K -> Prop).
    Context (RN : forall t t', R t t' -> ns t' = ns t).
    Context (RT : forall s, exists l, Forall2 R (mtrs m s) l /\ Permutation (mtrs m' s) l).

    Lemma paths_perm n : forall s, exists l, Forall2 (Forall2 R) (paths m n s) l /\ Permutation (paths m' n s) l.
    Proof.
      induction n as [|n IH]; intros s; cbn [paths].
      - exists [[]]. split; auto.
      - destruct (RT s) as (l & F & P).
        assert (X : exists q, Forall2 (Forall2 R) (flat_map (fun t => map (cons t) (paths m n (ns t))) (mtrs m s)) q /\
                      Permutation (flat_map (fun t => map (cons t) (paths m' n (ns t))) l) q).
        { clear P. induction F as [|t t' a b Rt F IHF]; cbn [flat_map]; [exists []; auto|].
          destruct IHF as (q & F1 & P1). destruct (IH (ns t)) as (q2 & F2 & P2). exists (map (cons t') q2 ++ q). split.
          - apply Forall2_app; auto. clear - Rt F2. induction F2; cbn; constructor; auto.
          - apply Permutation_app; auto. rewrite (RN t t' Rt). apply Permutation_map. auto. }
        destruct X as (q & F1 & P1). exists q. split; auto. etransitivity; [|exact P1]. apply Permutation_flat_map. auto.
    Qed.
    Lemma paths_upto_perm k s : exists l, Forall2 (Forall2 R) (paths_upto m k s) l /\ Permutation (paths_upto m' k s) l.
    Proof.
      unfold paths_upto. induction (seq 0 (S k)) as [|n r IH]; cbn [flat_map]; [exists []; auto|].
      destruct IH as (q & F & P). destruct (paths_perm n s) as (q2 & F2 & P2). exists (q2 ++ q). split; [apply Forall2_app|apply Permutation_app]; auto.
    Qed.
    Lemma paths_sum k s (h h' : list (tr K) -> K) : (forall p p', Forall2 R p p' -> h' p' = h p) ->
      ksum (map h' (paths_upto m' k s)) = ksum (map h (paths_upto m k s)).
    Proof.
      intros H. destruct (paths_upto_perm k s) as (l & F & P). rewrite (ksum_perm_map L h' _ _ P). f_equal.
      clear P. induction F; cbn; auto. f_equal; auto.
    Qed.
    Lemma path_dst p p' : Forall2 R p p' -> forall s, dst s p' = dst s p.
    Proof. induction 1 as [|t t' a b Rt F IH]; intros s; cbn; auto. rewrite (RN _ _ Rt). auto. Qed.
  End Rel.

  (** ** Renumbered machines *)
  Definition prepared (mp : list (qlab * nat)) (ri : bool) f g : Prop :=
    num_states g = num_states f /\ vstart g = vstart f /\ (forall s, fin_of g s = fin_of f s) /\
    forall s, exists l, Forall2 (renumbered mp ri) (trs_of f s) l /\ Permutation (trs_of g s) l.
  Definition numbered (mp : list (qlab * nat)) (l x : nat) : Prop := qlookup mp (Lab l) = Some x.

  Lemma renumbered_path mp ri p p' : Forall2 (renumbered mp ri) p p' ->
    length p' = length p /\ pw p' = pw (p : list (tr K)) /\
    (if ri then olabs p' = olabs p else ilabs p' = ilabs p) /\
    (numbering mp -> if ri then Forall2 (numbered mp) (ilabs p) (ilabs p') else Forall2 (numbered mp) (olabs p) (olabs p')).
  Proof.
    induction 1 as [|t t' a b Rt F (I1 & I2 & I3 & I4)].
    { split; auto. split; auto. split; [destruct ri; auto|]. intros _. destruct ri; constructor. }
    destruct Rt as (W & N & O & Q). split; [cbn; congruence|]. split; [cbn; congruence|]. split.
    - destruct ri; cbn in O |- *; unfold olabs, ilabs in *; cbn [flat_map]; rewrite O; congruence.
    - intros Nm. specialize (I4 Nm). destruct ri; cbn [on_side negb] in *; unfold olabs, ilabs in *; cbn [flat_map]; apply Forall2_app; auto; unfold lab.
      + destruct (il t =? 0)%nat; [rewrite Q; constructor|]. destruct (Nat.eqb_spec (il t') 0) as [E|]; [|constructor; auto].
        exfalso. apply Nm in Q. lia.
      + destruct (ol t =? 0)%nat; [rewrite Q; constructor|]. destruct (Nat.eqb_spec (ol t') 0) as [E|]; [|constructor; auto].
        exfalso. apply Nm in Q. lia.
  Qed.
  Lemma numbered_leqb mp a a' : numbering mp -> Forall2 (numbered mp) a a' -> forall b b', Forall2 (numbered mp) b b' -> leqb a' b' = leqb a b.
  Proof.
    intros (_ & _ & N3) F. enough (X : forall b b', Forall2 (numbered mp) b b' -> (a' = b' <-> a = b)).
    { intros b b' Fb. specialize (X b b' Fb). destruct (leqb a b) eqn:E.
      - apply leqb_true in E. apply leqb_true. tauto.
      - destruct (leqb a' b') eqn:E'; auto. apply leqb_true in E'. apply X in E'. apply leqb_true in E'. congruence. }
    induction F as [|l x a a' Hl F IH]; intros b b' Fb; destruct Fb as [|l2 x2 b b' Hl2 Fb]; try (split; congruence).
    destruct (IH b b' Fb) as [I1 I2]. unfold numbered in *. split; intros [= E1 E2].
    - subst. f_equal; auto. assert (Lab l = Lab l2) by (eapply N3; eauto). congruence.
    - subst. f_equal; auto. congruence.
  Qed.

  Theorem prepared_sum mp f1 g1 f2 g2 : numbering mp -> prepared mp false f1 g1 -> prepared mp true f2 g2 ->
    forall k x z, sum_pairs g1 g2 k x z (once AltSequenceF k) = sum_pairs f1 f2 k x z (once AltSequenceF k).
  Proof.
    intros Nm (_ & S1 & F1 & T1) (_ & S2 & F2 & T2) k x z. unfold sum_pairs, both_starts. rewrite S1, S2.
    destruct (vstart f1) as [s1|]; auto. destruct (vstart f2) as [s2|]; auto.
    apply (paths_sum (mach f1) (mach g1) (renumbered mp false)); [intros t t' (_ & E & _); auto|exact T1|].
    intros p p' P. destruct (renumbered_path _ _ _ _ P) as (A1 & A2 & A3 & A4). specialize (A4 Nm). cbn in A3, A4.
    apply (paths_sum (mach f2) (mach g2) (renumbered mp true)); [intros t t' (_ & E & _); auto|exact T2|].
    intros q q' Q. destruct (renumbered_path _ _ _ _ Q) as (B1 & B2 & B3 & B4). specialize (B4 Nm). cbn in B3, B4.
    assert (D1 : dst s1 p' = dst s1 p) by (eapply path_dst; [|exact P]; intros t t' (_ & E & _); auto).
    assert (D2 : dst s2 q' = dst s2 q) by (eapply path_dst; [|exact Q]; intros t t' (_ & E & _); auto).
    rewrite A3, B3. unfold once, apw, span, seq_span. rewrite (numbered_leqb mp _ _ Nm A4 _ _ B4), A1, A2, B1, B2, D1, D2.
    cbn [mach mfin]. rewrite F1, F2. assert (E : length (olabs p') = length (olabs p)) by (clear - A4; induction A4; cbn; auto).
    rewrite E. auto.
  Qed.

  Lemma prepared_in mp ri f g s t' : prepared mp ri f g -> In t' (trs_of g s) -> exists t, In t (trs_of f s) /\ renumbered mp ri t t'.
  Proof.
    intros (_ & _ & _ & T) H. destruct (T s) as (l & F & P). apply (Permutation_in _ P) in H. clear P. induction F as [|t u a b R F IH]; [destruct H|].
    destruct H as [<-|H]; [exists t; split; [left|]; auto|]. destruct (IH H) as (t0 & A & B). exists t0. split; [right|]; auto.
  Qed.
  Lemma prepared_closed mp ri f g : prepared mp ri f g -> closed f -> closed g.
  Proof.
    intros P (D1 & D2). pose proof P as (N & S & _). split.
    - intros s t H. destruct (prepared_in _ _ _ _ _ _ P H) as (t0 & A & (_ & E & _)). cbn in *. rewrite E, N. apply (D1 s t0 A).
    - intros s H. rewrite N. apply D2. congruence.
  Qed.

  (** An index of the original machine serves the renumbered one. *)
  Lemma prepared_reach mp f g : numbering mp -> prepared mp false f g -> forall s u, reach (eps g false) s u -> reach (eps f false) s u.
  Proof.
    intros Nm P s u H. induction H as [s|s t u H _ IH]; [constructor|]. cbn in H. apply filter_In in H as [H E]. apply Nat.eqb_eq in E.
    destruct (prepared_in _ _ _ _ _ _ P H) as (t0 & A & (_ & En & _ & Q)). rewrite En in IH. eapply reach_step; [|exact IH]. cbn. apply filter_In. split; auto.
    cbn [on_side] in *. destruct (ol t0 =? 0)%nat eqn:E0; auto. exfalso. apply Nm in Q. lia.
  Qed.
  Theorem prepared_index f g d d' : label_index f false d -> grown d d' -> prepared (ld_l2i d') false f g -> complete_index g d'.
  Proof.
    intros Ix (_ & Gf & Gs & Gk & Nm) P. pose proof P as (N & _ & Fn & _).
    pose proof Ix as (_ & _ & _ & Oc & Rl & _ & Fi & _ & _).
    assert (RL : forall s x, reach_label d' s x = reach_label d s x) by (intros; unfold reach_label, interval_set; rewrite Gs; auto).
    assert (RF : forall s, reach_final d' s = reach_final d s) by (intros; unfold reach_final, interval_set; rewrite Gs, Gf; auto).
    assert (Beyond : forall s u, reach (eps f false) s u -> (num_states f <= s)%nat -> u = s).
    { intros s u H. inversion H; subst; auto. cbn in H0. apply filter_In in H0 as [H0 _]. intros Hs. rewrite trs_of_beyond in H0 by auto. destruct H0. }
    split; [|split].
    - intros s Hs. rewrite Gs. apply (index_sets f d Ix). congruence.
    - intros s x (Hx & u & t' & R & Ht & E). rewrite RL. apply (prepared_reach _ f g Nm P) in R.
      destruct (prepared_in _ _ _ _ _ _ P Ht) as (t & A & (_ & _ & _ & Q)). destruct (Nat.eqb_spec (on_side false t) 0) as [E0|E0]; [congruence|].
      assert (O : occurs f false (on_side false t)) by (split; auto; exists u, t; auto).
      destruct (qlookup (ld_l2i d) (Lab (on_side false t))) as [y|] eqn:Ey; [|apply Oc in O; congruence].
      assert (y = x) by (apply Gk in Ey; congruence). subst y.
      assert (Hs : (s < num_states f)%nat).
      { destruct (le_lt_dec (num_states f) s) as [H|H]; auto. pose proof (Beyond s u R H). subst u. rewrite trs_of_beyond in A by auto. destruct A. }
      destruct (Rl s _ x Hs Ey) as (b & -> & Hb). f_equal. apply Hb. split; auto. exists u, t. auto.
    - intros s (u & R & (w & Ew & Hw)). rewrite RF. apply (prepared_reach _ f g Nm P) in R. rewrite Fn in Ew.
      assert (Hs : (s < num_states f)%nat).
      { destruct (le_lt_dec (num_states f) s) as [H|H]; auto. pose proof (Beyond s u R H). subst u. rewrite fin_of_beyond in Ew by auto. discriminate. }
      destruct (Fi s Hs) as (b & -> & Hb). f_equal. apply Hb. exists u. split; auto. exists w. auto.
  Qed.
End Prep.
