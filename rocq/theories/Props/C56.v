(** C56: composing with look-ahead, from the original machines to the result. *)
From Coq Require Import List Arith NArith ZArith Bool Lia Permutation Sorted.
From Verif Require Import Base.Util Base.Semiring Base.Machine Base.PropSpec Base.Instances Base.TropZ
  Model.Props Model.VectorFst Model.TrOps Model.History Model.Rational Model.Matchers Model.IntervalSet Model.Reachable Model.LabelReach
  Model.BiMap Model.Lazy Model.Compose Model.LookAhead
  Proofs.PropsFacts Proofs.VectorFacts Proofs.HistoryFacts Proofs.TrOpsFacts Proofs.OpFacts Proofs.VectorProps Proofs.ConnectFacts Proofs.ComposeFacts
  Proofs.ClosedB Proofs.LookPrep
  Props.C06 Props.C10 Props.C19 Props.C20 Props.C34 Props.C38 Props.C50 Props.C52 Props.C55.
Import ListNotations.
Local Open Scope K_scope.

Section C56.
  Context {K : SR} (L : lsr_laws K) (comm : commutative_times K).
  Implicit Types (f g : vfst K).

  Lemma prepared_grown d d' ri f g : grown d d' -> prepared (ld_l2i d) ri f g -> prepared (ld_l2i d') ri f g.
  Proof.
    intros G (N & S & F & T). split; auto. split; auto. split; auto. intros s. destruct (T s) as (l & A & B). exists l. split; auto. eapply renumbered_grown; eauto.
  Qed.
  Lemma num_trs_all_prep mp ri f g : prepared mp ri f g -> num_trs_all g = num_trs_all f.
  Proof.
    intros (N & _ & _ & T). unfold num_trs_all. rewrite N. f_equal. apply map_ext. intros s. destruct (T s) as (l & A & B).
    rewrite (Permutation_length B). clear B. induction A; cbn; auto.
  Qed.
  Lemma contains_one p b : has p b = true -> contains p (mask [b]) = true.
  Proof. intros H. apply contains_mask. intros b' [<-|[]]; auto. Qed.

  Theorem C56_lookahead_compose :
    forall calls1 calls2 f1 f2 divide nolab fuel, run vnew calls1 = Ok f1 -> run vnew calls2 = Ok f2 ->
    closed f1 -> closed f2 -> bits_true f1 -> bits_true f2 -> vstart f1 <> None ->
    zero_sum_free (K := K) -> (1 : K) <> 0 -> divides divide ->
    (3 * (1 + num_states f1 * num_states f2) * (1 + num_trs_all f2) * num_states f1 * num_states f2 <= fuel)%nat ->
    (zero_final_cycle f1 false -> lookahead_compose divide nolab fuel f1 f2 = Some Err) /\
    (~ zero_final_cycle f1 false -> exists g, lookahead_compose divide nolab fuel f1 f2 = Some (Ok g) /\ closed g /\
       (forall k x z, rel (mach g) k x z = sum_pairs f1 f2 k x z (once AltSequenceF k)) /\
       (vstart f2 <> None -> visymt g = visymt f1 /\ vosymt g = vosymt f2)).
  Proof.
    intros calls1 calls2 f1 f2 divide nolab fuel R1 R2 D1 D2 B1 B2 Hs ZS N10 DV Hf.
    assert (C1 : cnt f1) by (refine (run_cnt L calls1 vnew f1 _ R1); constructor).
    assert (C2 : cnt f2) by (refine (run_cnt L calls2 vnew f2 _ R2); constructor).
    unfold lookahead_compose, matcher_fst_new_with_relabeling. cbn [lla_create_data mtype_eqb andb orb negb rbind].
    destruct (C50_compute_data L N10 f1 false nolab D1 B1 Hs) as [CZ CN]. split.
    { intros Z. rewrite (CZ Z). auto. }
    intros NZ. destruct (CN NZ) as (d & -> & Ix). cbn [rmap rbind]. pose proof Ix as (Inp & _ & Nm & _).
    unfold relabel_addon at 1. destruct (C52_relabel_fst L d f1 false C1 Nm) as (d1 & g1 & E1 & G1 & _ & A1 & A2 & A3 & A4 & A5 & A6).
    rewrite E1. cbn [rbind fst snd relabel_addon].
    pose proof (relabel_cnt L d f1 false d1 g1 C1 Nm E1) as Cg1.
    destruct (C52_relabel_fst L d1 f2 true C2 (proj2 (proj2 (proj2 (proj2 G1))))) as (d2 & g2 & E2 & G2 & _ & Q1 & Q2 & Q3 & Q4 & Q5 & Q6).
    rewrite E2. cbn [rbind fst snd]. pose proof (relabel_cnt L d1 f2 true d2 g2 C2 (proj2 (proj2 (proj2 (proj2 G1)))) E2) as Cg2.
    destruct (C10_tr_sort L g2) as [(g3 & E3 & (S1 & S2 & S3 & S4 & S5 & _) & S6) _]. rewrite E3. cbn [rbind addon_data mtype_eqb snd].
    assert (P1 : prepared (ld_l2i d2) false f1 g1).
    { apply (prepared_grown d1); auto. split; auto. split; auto. split; auto. intros s. destruct (A4 s) as (l & X & Y & _). eauto. }
    assert (P2 : prepared (ld_l2i d2) true f2 g3).
    { split; [congruence|]. split; [congruence|]. split; [intros; rewrite S3; auto|]. intros s. destruct (Q4 s) as (l & X & Y & _). exists l. split; auto.
      etransitivity; [apply S4|exact Y]. }
    pose proof (grown_trans _ _ _ G1 G2) as G. pose proof G as (Gi & _ & _ & _ & Nm2).
    assert (SY3 : visymt g3 = visymt g2 /\ vosymt g3 = vosymt g2).
    { unfold tr_sort_i in E3. rewrite tr_sort_eq in E3. injection E3 as <-. auto. }
    destruct (A6 B1) as [Bg1 Hg1]. destruct (Q6 B2) as [Bg2 Hg2]. cbn in Hg1, Hg2.
    assert (Bg3 : bits_true g3) by (eapply tr_sort_i_sound; eauto).
    unfold lla_new_with_data. cbn [orb mtype_eqb]. rewrite Gi, Inp. cbn [Bool.eqb rbind].
    assert (M1 : sm_match_type g1 MOutput false = Ok MOutput).
    { unfold sm_match_type. cbn [mtype_eqb rbind]. rewrite contains_one by auto. auto. }
    assert (M2 : sm_match_type g3 MInput false = Ok MInput).
    { unfold sm_match_type. cbn [mtype_eqb rbind]. rewrite contains_one by auto. auto. }
    unfold lla_init. rewrite M1. cbn [rbind mtype_eqb].
    assert (RI : reach_init g3 true = Ok true).
    { unfold reach_init. rewrite contains_one by auto. assert (X : knows (vprops g3) (mask [I_LABEL_SORTED]) = true) by (unfold knows; apply contains_mask; intros b [<-|[]]; rewrite has_known, S6; auto). rewrite X. auto. }
    rewrite RI. cbn [rbind].
    assert (MT : compose_match_type g1 g3 = Ok MBoth) by (unfold compose_match_type; rewrite M1, M2; auto).
    destruct (C55_push_labels L comm g1 g3 default_flags (Some (d2, true)) divide (stack_props g1 g3) fuel MBoth) as (g & Eg & Rg & Sg & Dg); auto.
    - split; [auto|]. split; [exact (step_cnt L g2 OSortI g3 Cg2 E3)|]. split; [eapply prepared_closed; eauto|]. split; [eapply prepared_closed; eauto|]. auto.
    - split; auto. apply (prepared_index f1 g1 d d2); auto.
    - rewrite A1, (proj1 P2), (num_trs_all_prep _ _ _ _ P2). auto.
    - exists g. split; [exact Eg|]. split; auto. split.
      + intros k x z. rewrite Rg. apply (prepared_sum L (ld_l2i d2)); auto.
      + intros H2. destruct (Sg) as [X Y]; [congruence|rewrite (proj1 (proj2 P2)); auto|]. destruct A5 as [A5 _]. destruct Q5 as [_ Q5]. split; [congruence|]. rewrite Y. destruct SY3. congruence.
  Qed.

  (** So the result is equivalent to the plain composition. *)
  Theorem C56_as_compose :
    forall calls1 calls2 f1 f2 divide nolab fuel conn fuel' g h, run vnew calls1 = Ok f1 -> run vnew calls2 = Ok f2 ->
    closed f1 -> closed f2 -> bits_true f1 -> bits_true f2 -> vstart f1 <> None ->
    zero_sum_free (K := K) -> (1 : K) <> 0 -> divides divide ->
    (3 * (1 + num_states f1 * num_states f2) * (1 + num_trs_all f2) * num_states f1 * num_states f2 <= fuel)%nat ->
    (3 * num_states f1 * num_states f2 <= fuel')%nat ->
    lookahead_compose divide nolab fuel f1 f2 = Some (Ok g) -> compose_with AltSequenceF conn fuel' f1 f2 = Some (Ok h) ->
    forall k x z, rel (mach g) k x z = rel (mach h) k x z.
  Proof.
    intros calls1 calls2 f1 f2 divide nolab fuel conn fuel' g h R1 R2 D1 D2 B1 B2 Hs ZS N10 DV Hf Hf' Eg Eh k x z.
    destruct (C56_lookahead_compose calls1 calls2 f1 f2 divide nolab fuel R1 R2 D1 D2 B1 B2 Hs ZS N10 DV Hf) as [CZ CN].
    pose proof (C19_compose L comm calls1 calls2 f1 f2 R1 R2 D1 D2 B1 B2 AltSequenceF conn fuel') as H. rewrite Eh in H.
    destruct H as (_ & H & _); [right; left; reflexivity|auto|]. rewrite H.
    destruct (C50_compute_data L N10 f1 false nolab D1 B1 Hs) as [Z1 Z2].
    assert (NZ : ~ zero_final_cycle f1 false) by (intros Z; rewrite (CZ Z) in Eg; discriminate).
    destruct (CN NZ) as (g' & Eg' & _ & Hg & _). assert (g' = g) by congruence. subst. auto.
  Qed.
End C56.
Print Assumptions C56_lookahead_compose.
Print Assumptions C56_as_compose.

(** Labels far apart, an input epsilon, an output epsilon, a dead branch, a label that only the
    second machine has; unsorted on both sides. *)
Definition c56_1 : list (op tropZ) :=
  [OAddStates 5; OSetStart 0; OSetFinal 3 (Some 1%Z : tropZ); OAddTr 0 (Tr 1 0 (Some 2%Z : tropZ) 1); OAddTr 1 (Tr 2 70 (Some 3%Z : tropZ) 3);
   OAddTr 0 (Tr 1 0 (Some 5%Z : tropZ) 2); OAddTr 2 (Tr 4 20 (Some 1%Z : tropZ) 3); OAddTr 2 (Tr 5 3 (Some 1%Z : tropZ) 3);
   OAddTr 0 (Tr 1 0 (Some 1%Z : tropZ) 4); OAddTr 4 (Tr 4 41 (Some 1%Z : tropZ) 3)].
Definition c56_2 : list (op tropZ) :=
  [OAddStates 3; OSetStart 0; OSetFinal 2 (Some 4%Z : tropZ); OAddTr 0 (Tr 0 9 (Some 1%Z : tropZ) 1); OAddTr 1 (Tr 70 6 (Some 7%Z : tropZ) 2);
   OAddTr 1 (Tr 20 8 (Some 2%Z : tropZ) 2); OAddTr 1 (Tr 3 7 (Some 9%Z : tropZ) 2); OAddTr 1 (Tr 1 7 (Some 8%Z : tropZ) 2)].
Definition c56_f1 : vfst tropZ := match run vnew c56_1 with Ok f => f | _ => vnew end.
Definition c56_f2 : vfst tropZ := match run vnew c56_2 with Ok f => f | _ => vnew end.
Example C56_witness :
  zero_sum_free (K := tropZ) /\ (1 : tropZ) <> 0 /\ divides trop_div /\
  run vnew c56_1 = Ok c56_f1 /\ run vnew c56_2 = Ok c56_f2 /\ closed c56_f1 /\ closed c56_f2 /\ bits_true c56_f1 /\ bits_true c56_f2 /\ vstart c56_f1 <> None /\
  ~ zero_final_cycle c56_f1 false /\
  (3 * (1 + num_states c56_f1 * num_states c56_f2) * (1 + num_trs_all c56_f2) * num_states c56_f1 * num_states c56_f2 = 4320)%nat /\
  compose_with AltSequenceF false 100 c56_f1 c56_f2 = Some Err /\
  exists g, lookahead_compose trop_div 1000 4320 c56_f1 c56_f2 = Some (Ok g) /\
    num_states g = 5%nat /\ rel (mach g) 3 [1; 2]%nat [9; 6]%nat = Some 18%Z /\ rel (mach g) 3 [1; 4]%nat [9; 8]%nat = Some 14%Z.
Proof.
  assert (E1 : run vnew c56_1 = Ok c56_f1) by (vm_compute; reflexivity).
  assert (E2 : run vnew c56_2 = Ok c56_f2) by (vm_compute; reflexivity).
  split; [exact c55_zero_sum|]. split; [discriminate|]. split; [exact c55_divides|]. split; [exact E1|]. split; [exact E2|].
  split; [apply closedb_ok; vm_compute; reflexivity|]. split; [apply closedb_ok; vm_compute; reflexivity|].
  split; [eapply (run_fsound tropZ_laws); [apply fsound_new| |exact E1]; vm_compute; tauto|].
  split; [eapply (run_fsound tropZ_laws); [apply fsound_new| |exact E2]; vm_compute; tauto|].
  split; [vm_compute; discriminate|]. split.
  { intros (s & u & _ & H & _). revert H. do 5 (destruct s as [|s]; [vm_compute; congruence|]). vm_compute. destruct s; congruence. }
  split; [vm_compute; reflexivity|]. split; [vm_compute; reflexivity|].
  eexists. split; [vm_compute; reflexivity|]. repeat split; vm_compute; reflexivity.
Qed.
