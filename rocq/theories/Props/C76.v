(** C76: letting the filter choose the side that looks ahead is always right; forcing it is not. *)
From Coq Require Import List Arith NArith ZArith Bool Lia Sorted.
From Verif Require Import Base.Util Base.Semiring Base.Machine Base.PropSpec Base.Instances Base.TropZ
  Model.Props Model.VectorFst Model.TrOps Model.History Model.Rational Model.Matchers
  Model.BiMap Model.Lazy Model.Compose Model.LookAhead Model.TrLookAhead Model.LookSelect
  Proofs.PropsFacts Proofs.VectorFacts Proofs.HistoryFacts Proofs.TrOpsFacts Proofs.OpFacts Proofs.VectorProps Proofs.TableFacts Proofs.ComposeFacts
  Proofs.LookFacts Proofs.LookAlt Proofs.LookBuild Proofs.ClosedB
  Props.C06 Props.C19 Props.C20 Props.C71 Props.C72.
Import ListNotations.
Local Open Scope K_scope.

(** The matcher that is asked belongs to the machine whose transitions are compared. *)
Theorem C76_selector : forall s lt, selector (smt_type s) lt = Fst2Matcher1 <-> lookahead_output s lt = true.
Proof. intros s lt. destruct s, lt; cbn; intuition discriminate. Qed.

Section C76.
  Context {K : SR} (L : lsr_laws K) (comm : commutative_times K).
  Implicit Types (f g : vfst K).

  Lemma mt_known f m t : m = MInput \/ m = MOutput -> bits_true f -> sm_match_type f m false = Ok t -> mtype_eqb t m = false ->
    forall t', sm_match_type f m true = Ok t' -> mtype_eqb t' m = false.
  Proof.
    intros Hm B E N t' E'. unfold sm_match_type in *. destruct (mtype_eqb m MNone); [congruence|]. cbn [rbind] in E.
    destruct (knows _ _); [|discriminate]. cbn [rbind] in E'. congruence.
  Qed.

  (** With SMatchBoth: composition succeeds exactly when the plain one does, with its weights. *)
  Theorem C76_both :
    forall f1 f2 flt fl props fuel, ready2 f1 f2 -> (3 * num_states f1 * num_states f2 <= fuel)%nat ->
    match look_compose SMatchBoth flt fl props fuel f1 f2 with
    | Some (Ok g) => (forall conn, exists p, compose_with flt conn fuel f1 f2 = Some (Ok p) /\ forall k x z, rel (mach g) k x z = rel (mach p) k x z) /\
        (vstart f1 <> None -> vstart f2 <> None -> visymt g = visymt f1 /\ vosymt g = vosymt f2)
    | Some Err => (forall conn, compose_with flt conn fuel f1 f2 = Some Err) /\
        has (vprops f1) O_LABEL_SORTED = false /\ has (vprops f2) I_LABEL_SORTED = false
    | _ => False
    end.
  Proof.
    intros f1 f2 flt fl props fuel RD Hf. pose proof RD as (C1 & C2 & D1 & D2 & B1 & B2).
    pose proof (C20_match_type f1 MOutput false B1 (or_intror eq_refl)) as P1.
    pose proof (C20_match_type f2 MInput false B2 (or_introl eq_refl)) as P2.
    pose proof (C20_match_type f1 MOutput true B1 (or_intror eq_refl)) as P3.
    pose proof (C20_match_type f2 MInput true B2 (or_introl eq_refl)) as P4.
    assert (OKC : forall out mt, looks out f1 f2 -> compose_match_type f1 f2 = Ok mt ->
      match gcompose (tla_cf out fl f1 f2 (base_cf flt f1 f2)) Nat.eqb props fuel f1 f2 with
      | Some (Ok g) => (forall conn, exists p, compose_with flt conn fuel f1 f2 = Some (Ok p) /\ forall k x z, rel (mach g) k x z = rel (mach p) k x z) /\
        (vstart f1 <> None -> vstart f2 <> None -> visymt g = visymt f1 /\ vosymt g = vosymt f2)
      | Some Err => (forall conn, compose_with flt conn fuel f1 f2 = Some Err) /\
        has (vprops f1) O_LABEL_SORTED = false /\ has (vprops f2) I_LABEL_SORTED = false
      | _ => False
      end).
    { intros out mt LK EM. destruct (C72_lookahead L comm f1 f2 flt out fl props fuel mt RD EM LK Hf) as (g & -> & Hp & SY & _). auto. }
    assert (NOK : compose_match_type f1 f2 = Err -> (forall conn, compose_with flt conn fuel f1 f2 = Some Err) /\
        has (vprops f1) O_LABEL_SORTED = false /\ has (vprops f2) I_LABEL_SORTED = false).
    { intros EM. pose proof (compose_match_known f1 f2) as SK. rewrite EM in SK. split; [intros conn; unfold compose_with; rewrite EM; auto|].
      unfold sorted_known in SK. destruct (has (vprops f1) O_LABEL_SORTED); [exfalso; apply SK; auto|].
      destruct (has (vprops f2) I_LABEL_SORTED); [exfalso; apply SK; auto|]. auto. }
    unfold look_compose, lookahead_type. cbn [smt_type mtype_eqb]. unfold lookahead_match_type.
    unfold compose_match_type in OKC, NOK.
    destruct (sm_match_type f1 MOutput false) as [t1| |] eqn:E1; try contradiction; try discriminate.
    destruct (sm_match_type f2 MInput false) as [t2| |] eqn:E2; try contradiction; try discriminate. cbn [rbind] in *.
    destruct (mtype_eqb t1 MOutput) eqn:Q1.
    { cbn [rbind mtype_eqb selector]. assert (t1 = MOutput) by (destruct t1; try discriminate; auto). subst t1. cbn [mtype_eqb andb] in OKC.
      destruct (mtype_eqb t2 MInput) eqn:Q2; eapply (OKC true); try reflexivity; exact E1. }
    destruct (mtype_eqb t2 MInput) eqn:Q2.
    { cbn [rbind mtype_eqb selector]. assert (t2 = MInput) by (destruct t2; try discriminate; auto). subst t2. cbn [mtype_eqb andb] in OKC.
      eapply (OKC false); try reflexivity; exact E2. }
    cbn [andb] in *. destruct (sm_match_type f1 MOutput true) as [t3| |] eqn:E3; cbn [rbind] in *; auto; try contradiction.
    rewrite (mt_known f1 MOutput t1 (or_intror eq_refl) B1 E1 Q1 t3 E3) in *.
    destruct (sm_match_type f2 MInput true) as [t4| |] eqn:E4; cbn [rbind] in *; auto; try contradiction.
    rewrite (mt_known f2 MInput t2 (or_introl eq_refl) B2 E2 Q2 t4 E4) in *. cbn [rbind mtype_eqb]. auto.
  Qed.

  (** With SMatchInput or SMatchOutput the same, if the machine on that side is known to be sorted. *)
  Theorem C76_forced :
    forall s f1 f2 flt fl props fuel mt, ready2 f1 f2 -> compose_match_type f1 f2 = Ok mt -> (3 * num_states f1 * num_states f2 <= fuel)%nat ->
    (s = SMatchOutput /\ has (vprops f1) O_LABEL_SORTED = true) \/ (s = SMatchInput \/ s = SMatchUnknown) /\ has (vprops f2) I_LABEL_SORTED = true ->
    exists g, look_compose s flt fl props fuel f1 f2 = Some (Ok g) /\
      forall conn, exists p, compose_with flt conn fuel f1 f2 = Some (Ok p) /\ forall k x z, rel (mach g) k x z = rel (mach p) k x z.
  Proof.
    intros s f1 f2 flt fl props fuel mt RD EM Hf HS.
    assert (LK : exists out lt, lookahead_type s f1 f2 = Ok lt /\ out = match selector (smt_type s) lt with Fst2Matcher1 => true | Fst1Matcher2 => false end /\ looks out f1 f2).
    { destruct HS as [[-> H]|[[-> | ->] H]]; do 2 eexists; (split; [reflexivity|]); (split; [reflexivity|]); cbn [smt_type selector looks mtype_eqb];
        unfold sm_match_type; cbn [mtype_eqb rbind]; rewrite contains_1, H; auto. }
    destruct LK as (out & lt & El & -> & LK). unfold look_compose. rewrite El.
    destruct (C72_lookahead L comm f1 f2 flt _ fl props fuel mt RD EM LK Hf) as (g & Eg & Hp & _). exists g. auto.
  Qed.
  Theorem C76_none : forall f1 f2 flt fl props fuel, look_compose SMatchNone flt fl props fuel f1 f2 = Some Err.
  Proof. reflexivity. Qed.
End C76.
Print Assumptions C76_selector.
Print Assumptions C76_both.
Print Assumptions C76_forced.
Print Assumptions C76_none.

(** The first machine writes 1 and stops; the second one reads 1 and then has 2 before epsilon. *)
Definition c76_1 : list (op tropZ) :=
  [OAddStates 2; OSetStart 0; OSetFinal 1 (Some 1%Z : tropZ); OAddTr 0 (Tr 7 1 (Some 2%Z : tropZ) 1)].
Definition c76_2 : list (op tropZ) :=
  [OAddStates 4; OSetStart 0; OSetFinal 2 (Some 4%Z : tropZ); OAddTr 0 (Tr 1 6 (Some 1%Z : tropZ) 1); OAddTr 1 (Tr 2 8 (Some 2%Z : tropZ) 3);
   OAddTr 1 (Tr 0 9 (Some 3%Z : tropZ) 2)].
Definition c76_f1 : vfst tropZ := match run vnew c76_1 with Ok f => f | _ => vnew end.
Definition c76_f2 : vfst tropZ := match run vnew c76_2 with Ok f => f | _ => vnew end.
Lemma c76_ready : ready2 c76_f1 c76_f2.
Proof.
  assert (E1 : run vnew c76_1 = Ok c76_f1) by (vm_compute; reflexivity).
  assert (E2 : run vnew c76_2 = Ok c76_f2) by (vm_compute; reflexivity).
  split; [refine (run_cnt tropZ_laws c76_1 vnew c76_f1 _ E1); constructor|].
  split; [refine (run_cnt tropZ_laws c76_2 vnew c76_f2 _ E2); constructor|].
  split; [apply closedb_ok; vm_compute; reflexivity|]. split; [apply closedb_ok; vm_compute; reflexivity|].
  split; [eapply (run_fsound tropZ_laws); [apply fsound_new| |exact E1]; vm_compute; tauto|].
  eapply (run_fsound tropZ_laws); [apply fsound_new| |exact E2]; vm_compute; tauto.
Qed.

(** C76_forced cannot drop its last hypothesis. Plain composition is allowed, because the first machine
    is sorted; SMatchInput looks ahead in the second, which is not; it misses the epsilon, and the
    only path is lost without an error. *)
Theorem C76_forced_refuted :
  ~ (forall (f1 f2 : vfst tropZ) flt fl props fuel mt, ready2 f1 f2 -> compose_match_type f1 f2 = Ok mt ->
      (3 * num_states f1 * num_states f2 <= fuel)%nat ->
      forall g p, look_compose SMatchInput flt fl props fuel f1 f2 = Some (Ok g) -> compose_with flt false fuel f1 f2 = Some (Ok p) ->
      forall k x z, rel (mach g) k x z = rel (mach p) k x z).
Proof.
  intros H.
  destruct (look_compose SMatchInput SequenceF fl_ahead 0%N 24 c76_f1 c76_f2) as [[g| |]|] eqn:E; try (vm_compute in E; discriminate E).
  destruct (compose_with SequenceF false 24 c76_f1 c76_f2) as [[p| |]|] eqn:E'; try (vm_compute in E'; discriminate E').
  assert (EM : compose_match_type c76_f1 c76_f2 = Ok MOutput) by (vm_compute; reflexivity).
  pose proof (H c76_f1 c76_f2 SequenceF fl_ahead 0%N 24%nat MOutput c76_ready EM (proj1 (Nat.leb_le (3 * num_states c76_f1 * num_states c76_f2) 24) eq_refl) g p E E' 2%nat [7]%nat [6;9]%nat) as Q.
  vm_compute in E. injection E as <-. vm_compute in E'. injection E' as <-. vm_compute in Q. discriminate Q.
Qed.
Print Assumptions C76_forced_refuted.

(** The same two machines under SMatchBoth and SMatchOutput, and, the other way round, refused. *)
Example C76_witness :
  ready2 c76_f1 c76_f2 /\ has (vprops c76_f1) O_LABEL_SORTED = true /\ has (vprops c76_f2) I_LABEL_SORTED = false /\
  exists g h, look_compose SMatchBoth SequenceF fl_ahead 0%N 24 c76_f1 c76_f2 = Some (Ok g) /\
    look_compose SMatchOutput SequenceF fl_ahead 0%N 24 c76_f1 c76_f2 = Some (Ok h) /\
    rel (mach g) 2 [7]%nat [6;9]%nat = Some 11%Z /\ rel (mach h) 2 [7]%nat [6;9]%nat = Some 11%Z /\
    (exists f, run vnew (c76_2 ++ [OAddTr 1 (Tr 5 4 (Some 1%Z : tropZ) 2); OAddTr 1 (Tr 5 3 (Some 1%Z : tropZ) 2)]) = Ok f /\
      look_compose SMatchBoth SequenceF fl_ahead 0%N 48 f f = Some Err).
Proof.
  split; [exact c76_ready|]. split; [vm_compute; reflexivity|]. split; [vm_compute; reflexivity|].
  do 2 eexists. split; [vm_compute; reflexivity|]. split; [vm_compute; reflexivity|].
  split; [vm_compute; reflexivity|]. split; [vm_compute; reflexivity|]. eexists. split; [vm_compute; reflexivity|]. vm_compute; reflexivity.
Qed.
