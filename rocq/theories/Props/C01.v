(** C01: cached property bits are sound over every mutation history. *)
From Coq Require Import List Arith NArith Bool.
From Verif Require Import Base.Util Base.Semiring Base.Machine Base.PropSpec Base.Instances
  Model.Props Model.VectorFst Model.TrOps Model.History
  Proofs.PropsFacts Proofs.VectorProps Proofs.HistoryFacts.
Import ListNotations.

(** The calls the guarantee covers: everything except the per-state sort/unique/sum calls,
    which leave the bits alone, and [set_trs_unchecked] on a state that has transitions. *)
Definition covered {K : SR} (f : vfst K) (o : op K) : Prop :=
  match o with
  | OSetTrs s l => trs_of f s = []
  | ORawSort _ _ | ORawUnique _ | ORawSum _ => False
  | _ => True
  end.

(** Machines reachable from the empty one by covered calls. *)
Inductive history {K : SR} : vfst K -> Prop :=
| h_new : history vnew
| h_call f o f' : history f -> covered f o -> step f o = Ok f' -> history f'.

(** Every reported bit holds ([holds], Base/PropSpec.v, is the meaning of a bit). *)
Theorem C01_property_bits_sound :
  forall (K : SR), lsr_laws K ->
  forall (f : vfst K), history f ->
  forall b, has (vprops f) b = true -> holds b (num_states f) (mach f).
Proof.
  intros K L f H. change (fsound f). induction H.
  - apply fsound_new.
  - eapply step_fsound; eauto.
Qed.
Print Assumptions C01_property_bits_sound.

(** Consequently a bit and its negation are never both reported. *)
Theorem C01_no_contradiction :
  forall (K : SR), lsr_laws K ->
  forall (f : vfst K), history f -> forall b, ~ (has (vprops f) b = true /\ has (vprops f) (opp b) = true).
Proof.
  intros K L f H b [H1 H2].
  pose proof (C01_property_bits_sound K L f H) as S.
  apply (holds_consistent L b (num_states f) (mach f)); auto.
Qed.
Print Assumptions C01_no_contradiction.

(** The exception: [set_trs_unchecked] on a state with transitions can leave a false bit. *)
Definition c01_pre : vfst natSR :=
  match run vnew [OAddState; OAddState; OSetStart 0; OAddTr 0 (Tr 0 3 2 1)] with
  | Ok f => f | _ => vnew end.
Theorem C01_set_trs_refuted :
  exists (f f' : vfst natSR) s l b,
    history f /\ set_trs f s l = Ok f' /\ has (vprops f') b = true /\
    ~ holds b (num_states f') (mach f').
Proof.
  exists c01_pre. eexists. exists 0, [], I_EPSILONS. split; [|split; [vm_compute; reflexivity|split]].
  - apply h_call with (o := OAddTr 0 (Tr 0 3 2 1))
      (f := match run (@vnew natSR) [OAddState; OAddState; OSetStart 0] with Ok f => f | _ => vnew end);
      [|exact I|vm_compute; reflexivity].
    apply h_call with (o := OSetStart 0)
      (f := match run (@vnew natSR) [OAddState; OAddState] with Ok f => f | _ => vnew end);
      [|exact I|vm_compute; reflexivity].
    apply h_call with (o := OAddState)
      (f := match run (@vnew natSR) [OAddState] with Ok f => f | _ => vnew end);
      [|exact I|vm_compute; reflexivity].
    apply h_call with (o := OAddState) (f := vnew); [constructor|exact I|vm_compute; reflexivity].
  - vm_compute. reflexivity.
  - intros (s & t & H & _). destruct s as [|[|s]]; simpl in H; try tauto.
    destruct s; exact H.
Qed.
Print Assumptions C01_set_trs_refuted.

(** A non-trivial history: two transitions are added out of label order, a state is deleted,
    a transition edited. *)
Definition c01_ops : list (op natSR) :=
  [OAddState; OAddStates 3; OSetStart 0; OAddTr 0 (Tr 5 5 1 1); OAddTr 0 (Tr 2 2 7 2);
   OAddTr 1 (Tr 1 1 1 3); OAddTr 3 (Tr 1 1 1 1); OSetFinal 1 4; ODelState 2; OIterLabels 1 0 0 9; OSortI].
Fixpoint hist_run {K : SR} (f : vfst K) (l : list (op K)) : Prop :=
  match l with
  | [] => True
  | o :: l' => covered f o /\ match step f o with Ok f' => hist_run f' l' | _ => False end
  end.
Lemma hist_run_ok {K : SR} (l : list (op K)) f f' :
  history f -> hist_run f l -> run f l = Ok f' -> history f'.
Proof.
  revert f; induction l as [|o l IH]; intros f H G E; simpl in *.
  - inversion E; subst; auto.
  - destruct G as [G1 G2]. destruct (step f o) eqn:Es; try tauto.
    apply (IH a); auto. eapply h_call; eauto.
Qed.
Definition c01_fst : vfst natSR := match run vnew c01_ops with Ok f => f | _ => vnew end.
Example C01_witness : history c01_fst /\ num_states c01_fst = 3 /\
  has (vprops c01_fst) NOT_ACCEPTOR = true /\ has (vprops c01_fst) I_EPSILONS = true /\
  has (vprops c01_fst) I_LABEL_SORTED = true /\ has (vprops c01_fst) ACYCLIC = false.
Proof.
  split.
  - apply (hist_run_ok c01_ops vnew); [constructor| |vm_compute; reflexivity].
    vm_compute; repeat split; reflexivity.
  - repeat split; vm_compute; reflexivity.
Qed.
