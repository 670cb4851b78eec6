(** C02: epsilon counters always equal the true counts, and are never decremented below 0. *)
From Coq Require Import List Arith NArith Bool Sorted Lia.
From Verif Require Import Base.Util Base.Semiring Base.Machine Base.Instances
  Model.Props Model.VectorFst Model.TrOps Model.History
  Proofs.VectorFacts Proofs.DelStates Proofs.TrOpsFacts Proofs.HistoryFacts.
Import ListNotations.

(** Every history of calls from the empty FST (all of [op], including the raw ones). *)
Theorem C02_counters_exact :
  forall (K : SR), lsr_laws K ->
  forall (calls : list (op K)) (f : vfst K), run vnew calls = Ok f ->
  forall s l, get_trs f s = Ok l ->
    num_input_epsilons f s = Ok (length (filter (fun t => Nat.eqb (il t) 0) l)) /\
    num_output_epsilons f s = Ok (length (filter (fun t => Nat.eqb (ol t) 0) l)) /\
    num_trs f s = Ok (length l).
Proof.
  intros K L calls f E s l H.
  assert (C : cnt f) by (eapply run_cnt; eauto; constructor).
  unfold get_trs, num_input_epsilons, num_output_epsilons, num_trs, get_state in *.
  destruct (nth_error (vstates f) s) as [st|] eqn:E1; simpl in *; inversion H; subst.
  destruct (cnt_nth _ _ _ C E1) as [A B]. rewrite A, B. auto.
Qed.
Print Assumptions C02_counters_exact.

(** When a call of a history panics (in particular, a counter underflow is a panic), its
    arguments were out of range: an unchecked call on a missing state, positions that are not
    strictly increasing in range, a missing state to delete, or a dangling transition/start. *)
Theorem C02_no_underflow :
  forall (K : SR), lsr_laws K ->
  forall (calls : list (op K)) (f : vfst K), run vnew calls = Ok f ->
  forall o, step f o = Panic ->
    match o with
    | ODelTrsId s ids => num_states f <= s \/
        ~ (StronglySorted lt ids /\ forall i, In i ids -> i < length (trs_of f s))
    | ODelState _ => ~ closed f
    | ODelStates d => (exists s, In s d /\ num_states f <= s) \/ ~ closed f
    | OSetTrs s _ | ORawSort _ s | ORawUnique s | ORawSum s => num_states f <= s
    | _ => False
    end.
Proof.
  intros K L calls f E o P.
  assert (C : cnt f) by (eapply run_cnt; eauto; constructor).
  pose proof (step_panic f o C P) as H. destruct o; exact H.
Qed.
Print Assumptions C02_no_underflow.

Definition c02_calls : list (op natSR) :=
  [OAddStates 2; OAddTr 0 (Tr 0 0 1 1); OAddTr 0 (Tr 0 4 2 1); OAddTr 0 (Tr 0 0 3 1);
   ORawSum 0; OIterLabels 0 0 7 0; OAddTr 0 (Tr 3 0 1 0); ODelTrsId 0 [1]].
Example C02_witness : exists f, run vnew c02_calls = Ok f /\
  num_input_epsilons f 0 = Ok 0 /\ num_output_epsilons f 0 = Ok 2 /\
  get_trs f 0 = Ok [Tr 7 0 4 1; Tr 3 0 1 0].
Proof. eexists. split; [vm_compute; reflexivity|]. repeat split; vm_compute; reflexivity. Qed.
