(** C53: converting a machine copies everything, unless it has no start state. *)
From Coq Require Import List Arith NArith ZArith Bool Lia.
From Verif Require Import Base.Util Base.Semiring Base.Machine Base.PropSpec Base.Instances
  Model.Props Model.VectorFst Model.TrOps Model.History Model.Rational Model.LabelReach
  Proofs.PropsFacts Proofs.VectorFacts Proofs.VectorProps Proofs.TrOpsFacts Proofs.HistoryFacts Proofs.OpFacts Proofs.LabelFacts Props.C06 Props.C10.
Import ListNotations.

Section C53.
  Context {K : SR} (L : lsr_laws K).
  Implicit Types (f g : vfst K).

  Definition same_content f g : Prop :=
    num_states g = num_states f /\ vstart g = vstart f /\ visymt g = visymt f /\ vosymt g = vosymt f /\
    (forall s, trs_of g s = trs_of f s) /\ (forall s, fin_of g s = fin_of f s).

  (** The copy has the same states, transitions in the same order, final weights, symbol tables
      and relation; its epsilon counters are exact whatever those of the source were. *)
  Theorem C53_fst_convert :
    forall f, vstart f <> None ->
    exists g, fst_convert_from_ref f = Ok g /\ same_content f g /\
      (forall s, s < num_states f ->
         num_input_epsilons g s = Ok (length (filter (fun t => il t =? 0) (trs_of f s))) /\
         num_output_epsilons g s = Ok (length (filter (fun t => ol t =? 0) (trs_of f s)))) /\
      (forall n x y, rel (mach g) n x y = rel (mach f) n x y) /\
      (bits_true f -> bits_true g).
  Proof.
    intros f Hs. destruct (convert_ok L f Hs) as (g & E & A1 & A2 & A3 & A4 & T & F & Cg & B). exists g. split; auto.
    split; [unfold same_content; auto 10|]. split; [|split; [|exact B]].
    - intros s Hn. unfold num_input_epsilons, num_output_epsilons, get_state. assert (Hg : s < num_states g) by lia.
      destruct (nth_state g s Hg) as (st & Es & E1 & _). rewrite Es. cbn [rbind].
      destruct (cnt_nth _ _ _ Cg Es) as [C1 C2]. rewrite T in E1. split; cbn [rmap rbind]; f_equal; [rewrite C1|rewrite C2]; unfold count; rewrite <- E1; auto.
    - intros n x y. unfold rel. cbn [mach mstart]. rewrite A2. destruct (vstart f) as [q|] eqn:Eq; auto. apply (mperm_wt L). split; [cbn; congruence|]. split; [intros s; cbn; rewrite T; auto|intros s; symmetry; apply F].
  Qed.

  (** The states exist but their transitions and final weights are gone. *)
  Theorem C53_no_start :
    forall f, vstart f = None ->
    exists g, fst_convert_from_ref f = Ok g /\ num_states g = num_states f /\ vstart g = None /\
      visymt g = visymt f /\ vosymt g = vosymt f /\ (forall s, trs_of g s = [] /\ fin_of g s = None).
  Proof.
    intros f Hs. unfold fst_convert_from_ref. rewrite Hs. cbn [rbind]. eexists. split; [reflexivity|].
    destruct (add_states_eff (@vnew K) (num_states f)) as (N0 & S0 & _ & _ & _ & T0 & F0).
    split; [exact N0|]. split; [exact S0|]. split; [reflexivity|]. split; [reflexivity|]. intros s. split.
    - transitivity (trs_of (add_states (@vnew K) (num_states f)) s); auto. rewrite T0. destruct s; auto.
    - transitivity (fin_of (add_states (@vnew K) (num_states f)) s); auto. rewrite F0. destruct s; auto.
  Qed.
End C53.

Print Assumptions C53_fst_convert.
Print Assumptions C53_no_start.

Definition c53_ops : list (op natSR) := [OAddStates 2; OAddTr 0 (Tr 1 2 3 1); OAddTr 0 (Tr 0 1 1 0); OSetFinal 1 5].
Definition c53_fst : vfst natSR := match run vnew c53_ops with Ok f => f | _ => vnew end.

(** Without a start state the copy loses the transitions but keeps the property bits, which
    then are wrong: it is said to have an input epsilon and not to be an acceptor. *)
Theorem C53_no_start_refuted :
  bits_true c53_fst /\
  exists g, fst_convert_from_ref c53_fst = Ok g /\ trs_of c53_fst 0 <> [] /\ trs_of g 0 = [] /\
    has (vprops g) NOT_ACCEPTOR = true /\ has (vprops g) I_EPSILONS = true /\ ~ bits_true g.
Proof.
  assert (E : run vnew c53_ops = Ok c53_fst) by (vm_compute; reflexivity). split.
  - eapply (run_fsound natSR_laws); [apply fsound_new| |exact E]. vm_compute; tauto.
  - eexists. split; [vm_compute; reflexivity|]. split; [vm_compute; discriminate|]. split; [reflexivity|]. split; [reflexivity|]. split; [reflexivity|].
    intros B. specialize (B NOT_ACCEPTOR eq_refl). destruct B as (s & t & H & _). vm_compute in H. do 2 (destruct s as [|s]; [destruct H|]). destruct s; destruct H.
Qed.
Print Assumptions C53_no_start_refuted.

Example C53_witness :
  exists f g, run vnew (c53_ops ++ [OSetStart 0]) = Ok f /\ vstart f <> None /\ fst_convert_from_ref f = Ok g /\
    trs_of g 0 = [Tr 1 2 3 1; Tr 0 1 1 0] /\ fin_of g 1 = Some 5 /\ num_input_epsilons g 0 = Ok 1.
Proof. eexists. eexists. split; [vm_compute; reflexivity|]. split; [discriminate|]. split; [vm_compute; reflexivity|]. repeat split. Qed.
