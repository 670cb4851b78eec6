(** C78: weight pushing over the side the filter chooses. *)
From Coq Require Import List Arith NArith ZArith Bool Lia Sorted.
From Verif Require Import Base.Util Base.Semiring Base.Machine Base.PropSpec Base.Instances Base.TropZ
  Model.Props Model.VectorFst Model.TrOps Model.History Model.Rational Model.Matchers
  Model.BiMap Model.Lazy Model.Compose Model.LookAhead Model.TrLookAhead Model.LookSelect
  Proofs.PropsFacts Proofs.VectorFacts Proofs.HistoryFacts Proofs.TrOpsFacts Proofs.OpFacts Proofs.VectorProps Proofs.TableFacts Proofs.ComposeFacts
  Proofs.LookFacts Proofs.LookAlt Proofs.LookSpec Proofs.LookStack Proofs.LookPush Proofs.LookBuild Proofs.ClosedB
  Props.C06 Props.C19 Props.C20 Props.C38 Props.C55 Props.C71 Props.C72 Props.C73 Props.C76 Model.Weights.
Import ListNotations.
Local Open Scope K_scope.

Section C78.
  Context {K : SR} (L : lsr_laws K) (comm : commutative_times K).
  Implicit Types (f g : vfst K).

  (** What the automatic choice guarantees. *)
  Lemma auto_side f1 f2 : bits_true f1 -> bits_true f2 ->
    match lookahead_type SMatchBoth f1 f2 with
    | Ok lt => (exists mt, compose_match_type f1 f2 = Ok mt) /\ looks (match selector MBoth lt with Fst2Matcher1 => true | Fst1Matcher2 => false end) f1 f2
    | Err => compose_match_type f1 f2 = Err
    | Panic => False
    end.
  Proof.
    intros B1 B2.
    pose proof (C20_match_type f1 MOutput false B1 (or_intror eq_refl)) as P1.
    pose proof (C20_match_type f2 MInput false B2 (or_introl eq_refl)) as P2.
    pose proof (C20_match_type f1 MOutput true B1 (or_intror eq_refl)) as P3.
    pose proof (C20_match_type f2 MInput true B2 (or_introl eq_refl)) as P4.
    unfold lookahead_type, lookahead_match_type, compose_match_type. cbn [smt_type mtype_eqb].
    destruct (sm_match_type f1 MOutput false) as [t1| |] eqn:E1; try contradiction; try discriminate.
    destruct (sm_match_type f2 MInput false) as [t2| |] eqn:E2; try contradiction; try discriminate. cbn [rbind] in *.
    destruct (mtype_eqb t1 MOutput) eqn:Q1.
    { cbn [rbind mtype_eqb selector andb]. assert (t1 = MOutput) by (destruct t1; try discriminate; auto). subst t1.
      split; [destruct (mtype_eqb t2 MInput); eauto|exact E1]. }
    destruct (mtype_eqb t2 MInput) eqn:Q2.
    { cbn [rbind mtype_eqb selector andb]. assert (t2 = MInput) by (destruct t2; try discriminate; auto). subst t2. split; [eauto|exact E2]. }
    cbn [andb]. destruct (sm_match_type f1 MOutput true) as [t3| |] eqn:E3; cbn [rbind] in *; auto.
    rewrite (mt_known f1 MOutput t1 (or_intror eq_refl) B1 E1 Q1 t3 E3).
    destruct (sm_match_type f2 MInput true) as [t4| |] eqn:E4; cbn [rbind] in *; auto.
    rewrite (mt_known f2 MInput t2 (or_introl eq_refl) B2 E2 Q2 t4 E4). cbn [rbind mtype_eqb]. auto.
  Qed.

  Theorem C78_push :
    forall f1 f2 flt fl divide props fuel, ready2 f1 f2 -> zero_sum_free (K := K) -> (1 : K) <> 0 -> divides divide ->
    (3 * (1 + num_states f1 * num_states f2) * num_states f1 * num_states f2 <= fuel)%nat ->
    match push_compose SMatchBoth divide flt fl props fuel f1 f2 with
    | Some (Ok g) => (forall conn, exists p, compose_with flt conn fuel f1 f2 = Some (Ok p) /\ forall k x z, rel (mach g) k x z = rel (mach p) k x z) /\
        (vstart f1 <> None -> vstart f2 <> None -> visymt g = visymt f1 /\ vosymt g = vosymt f2) /\ closed g
    | Some Err => (forall conn, compose_with flt conn fuel f1 f2 = Some Err) /\
        has (vprops f1) O_LABEL_SORTED = false /\ has (vprops f2) I_LABEL_SORTED = false
    | _ => False
    end.
  Proof.
    intros f1 f2 flt fl divide props fuel RD ZS N10 DV Hf. pose proof RD as (_ & _ & _ & _ & B1 & B2).
    pose proof (auto_side f1 f2 B1 B2) as A. unfold push_compose. cbn [smt_type].
    destruct (lookahead_type SMatchBoth f1 f2) as [lt| |]; auto.
    - destruct A as ((mt & EM) & LK).
      destruct (C73_push_weights L comm f1 f2 flt _ fl divide props fuel mt RD EM LK ZS N10 DV Hf) as (g & -> & H). exact H.
    - pose proof (compose_match_known f1 f2) as SK. rewrite A in SK. split; [intros conn; unfold compose_with; rewrite A; auto|].
      unfold sorted_known in SK. destruct (has (vprops f1) O_LABEL_SORTED); [exfalso; apply SK; auto|].
      destruct (has (vprops f2) I_LABEL_SORTED); [exfalso; apply SK; auto|]. auto.
  Qed.
End C78.
Print Assumptions C78_push.

(** On the machines of C76, with the second one not sorted, the first is chosen and no path is lost; on
    those of C72 weights are paid one transition earlier. *)
Example C78_witness :
  ready2 c76_f1 c76_f2 /\ ready2 c72_f1 c72_f2 /\ zero_sum_free (K := tropZ) /\ divides trop_div /\
  (exists g, push_compose SMatchBoth trop_div SequenceF fl_ahead 0%N 216 c76_f1 c76_f2 = Some (Ok g) /\
    rel (mach g) 2 [7]%nat [6; 9]%nat = Some 11%Z) /\
  exists g p, push_compose SMatchBoth trop_div AltSequenceF fl_ahead 0%N 1950 c72_f1 c72_f2 = Some (Ok g) /\
    compose_with AltSequenceF false 1950 c72_f1 c72_f2 = Some (Ok p) /\ trs_of g 0 <> trs_of p 0 /\
    map (fun m => rel (mach m) 3 [7; 8]%nat [6; 9; 8]%nat) [g; p] = repeat (Some 20%Z : tropZ) 2.
Proof.
  split; [exact c76_ready|]. split; [exact (proj1 C72_witness)|]. split; [exact c55_zero_sum|]. split; [exact c55_divides|].
  split; [eexists; split; [vm_compute; reflexivity|]; vm_compute; reflexivity|].
  do 2 eexists. split; [vm_compute; reflexivity|]. split; [vm_compute; reflexivity|]. split; [vm_compute; discriminate|]. vm_compute; reflexivity.
Qed.
