(** C04: connect keeps the weighted relation and leaves exactly the useful states. *)
From Coq Require Import List Arith NArith Bool Lia Permutation.
From Verif Require Import Base.Util Base.Semiring Base.Machine Base.PropSpec Base.Instances
  Model.Props Model.VectorFst Model.TrOps Model.Dfs Model.Visitors Model.History
  Proofs.PropsFacts Proofs.VectorFacts Proofs.DelStates Proofs.VectorProps Proofs.TrOpsFacts Proofs.HistoryFacts
  Proofs.ConnectFacts Props.C03.
Import ListNotations.
Local Open Scope K_scope.

Lemma rank_nil s : rank [] s = s.
Proof. induction s; auto. rewrite rank_S, IHs. simpl. lia. Qed.

Section C04.
  Context {K : SR} (L : lsr_laws K).
  Implicit Types (f g : vfst K).

  Lemma kept_trs_nil (l : list (tr K)) : kept_trs [] l = l.
  Proof.
    induction l as [|t l IH]; auto. rewrite kept_trs_cons, IH. simpl.
    destruct t; unfold ren; simpl. rewrite rank_nil. auto.
  Qed.

  Lemma del_states_nil g : closed g -> cnt g ->
    del_states g [] = Ok (VF (vstates g) (vstart g) (visymt g) (vosymt g) (delete_states_properties (vprops g))).
  Proof.
    intros Hc Hn. rewrite (del_states_ok g []); auto; [|intros s []]. repeat f_equal.
    - assert (X : forall (l : list (vstate K)) i, filteri (keepb []) i l = l).
      { induction l; intros i; simpl; auto. rewrite IHl. auto. }
      rewrite X. unfold cnt in Hn. clear X. induction Hn as [|st l (E1 & E2) _ IH]; simpl; auto. f_equal; auto.
      unfold kept_state. assert (Y : kept_trs [] (vtrs st) = vtrs st).
      { apply kept_trs_nil. }
      rewrite Y. destruct st; simpl in *. congruence.
    - unfold newid. destruct (vstart g); simpl; auto. rewrite rank_nil. auto.
  Qed.

  Lemma with_props_cnt g p : cnt g -> cnt (with_props g p).
  Proof. auto. Qed.

  (** Weighted relation kept for every path length; exactly the useful states survive, in
      order; symbol tables untouched. *)
  Theorem C04_connect :
    forall calls f, run vnew calls = Ok f -> closed f ->
    exists g, connect f = Ok g /\
      (forall n x y, rel (mach g) n x y = rel (mach f) n x y) /\
      (forall s, (s < num_states g)%nat -> accessible (mach g) s /\ coaccessible (mach g) s) /\
      (exists d, is_submachine f d g /\
         forall s, (s < num_states f)%nat ->
           (In s d -> ~ (accessible (mach f) s /\ coaccessible (mach f) s)) /\
           (~ In s d -> accessible (mach f) s /\ coaccessible (mach f) s)).
  Proof.
    intros calls f E Hc. assert (C : cnt f) by (eapply run_cnt; eauto; constructor).
    destruct (connect_eq f Hc C) as (d & g & Ec & Ed & S & U & _). eexists. split; [exact Ec|].
    set (g' := set_properties_with_mask _ _ _).
    assert (S' : is_submachine f d g') by exact S.
    split; [|split].
    - intros n x y. unfold rel. cbn [mach mstart]. pose proof S as (_ & _ & St & _).
      change (vstart g') with (vstart g).
      destruct (vstart f) as [s|] eqn:Es; [|rewrite St; auto].
      destruct St as [[H1 ->]|(H1 & k & H2 & ->)].
      + destruct U as (_ & _ & U). specialize (U s H1). symmetry. apply (wt_dead L). intros Hco. apply U.
        split; auto. exists s. split; auto. constructor.
      + apply (sub_wt L f d g' Hc U S'). auto.
    - apply (sub_useful f d g' Hc U S').
    - exists d. split; auto. destruct U as (U1 & U2 & U3). intros s Hs. split; [exact (U3 s)|]. intros H. apply U2; auto.
  Qed.

  (** A second call changes nothing at all. *)
  Theorem C04_connect_idempotent :
    forall calls f g, run vnew calls = Ok f -> closed f -> connect f = Ok g -> connect g = Ok g.
  Proof.
    intros calls f g E Hc Eg. assert (C : cnt f) by (eapply run_cnt; eauto; constructor).
    destruct (connect_eq f Hc C) as (d & h & Ec & Ed & S & U & _). rewrite Ec in Eg. inversion Eg as [Eg']. clear Eg.
    set (g' := set_properties_with_mask _ _ _) in *.
    assert (S' : is_submachine f d g') by exact S.
    assert (Cg : cnt g') by (apply (del_states_cnt f d h C Ed)).
    assert (Kg : closed g') by (eapply (sub_closed f d); eauto).
    assert (Ug := sub_useful f d g' Hc U S').
    destruct (connect_eq g' Kg Cg) as (d2 & h2 & Ec2 & Ed2 & _ & (W1 & _ & W3) & _).
    assert (d2 = []).
    { destruct d2 as [|s d2]; auto. exfalso. apply (W3 s (or_introl eq_refl)). apply Ug. apply W1. left; auto. }
    subst d2. rewrite (del_states_nil g' Kg Cg) in Ed2. inversion Ed2 as [Eh2]. subst h2. rewrite Ec2. f_equal.
    unfold g'. unfold set_properties_with_mask, with_props. cbn [vprops vstates vstart visymt vosymt]. f_equal.
    assert (Ep : vprops h = delete_states_properties (vprops f)).
    { rewrite (del_states_ok f d Hc C) in Ed; [inversion Ed; auto|]. apply U. }
    rewrite Ep. unfold delete_states_properties, pkeep.
    assert (Z : N.land (mask [ACCESSIBLE; COACCESSIBLE]) (mask pm_delete_states_properties) = 0%N) by (vm_compute; reflexivity).
    apply N.bits_inj. intros i. apply (f_equal (fun q => N.testbit q i)) in Z. rewrite N.land_spec, N.bits_0 in Z.
    repeat (rewrite N.lor_spec || rewrite N.land_spec).
    change 5497558138880%N with (mask [ACCESSIBLE; COACCESSIBLE]).
    clear - Z. revert Z. generalize (N.testbit (mask [ACCESSIBLE; COACCESSIBLE]) i), (N.testbit (mask pm_delete_states_properties) i),
      (N.testbit (vprops f) i), (N.testbit (pnot (mask [ACCESSIBLE; COACCESSIBLE])) i). intros [] [] [] [] Z; try discriminate; reflexivity.
  Qed.

  (** Sound property bits stay sound, and both accessibility bits are reported. *)
  Theorem C04_bits_sound :
    forall calls f g, run vnew calls = Ok f -> closed f -> connect f = Ok g ->
    (forall b, has (vprops f) b = true -> holds b (num_states f) (mach f)) ->
    (forall b, has (vprops g) b = true -> holds b (num_states g) (mach g)) /\
    has (vprops g) ACCESSIBLE = true /\ has (vprops g) COACCESSIBLE = true.
  Proof.
    intros calls f g E Hc Eg So. assert (C : cnt f) by (eapply run_cnt; eauto; constructor).
    destruct (connect_eq f Hc C) as (d & h & Ec & Ed & S & U & _). rewrite Ec in Eg. inversion Eg as [Eg']. clear Eg.
    set (g' := set_properties_with_mask _ _ _) in *.
    assert (S' : is_submachine f d g') by exact S.
    assert (Ug := sub_useful f d g' Hc U S').
    assert (Sh : fsound h) by (eapply fsound_del_states; eauto).
    assert (Hb : forall b, has (vprops g') b = (has (vprops h) b && negb (inb b [ACCESSIBLE; COACCESSIBLE])) || inb b [ACCESSIBLE; COACCESSIBLE]).
    { intros b. change (vprops g') with (N.lor (N.land (vprops h) (pnot (mask [ACCESSIBLE; COACCESSIBLE])))
        (N.land (mask [ACCESSIBLE; COACCESSIBLE]) (mask [ACCESSIBLE; COACCESSIBLE]))).
      rewrite has_lor, !has_land, has_pnot, !has_mask. destruct (inb b _); auto. }
    split; [|rewrite !Hb; split; apply orb_true_r].
    intros b H. rewrite Hb in H. apply orb_true_iff in H as [H|H].
    - apply andb_true_iff in H as [H _]. exact (Sh b H).
    - apply inb_In in H. destruct H as [<-|[<-|[]]]; simpl; intros s Hs; apply Ug; auto.
  Qed.
End C04.
Print Assumptions C04_connect.
Print Assumptions C04_connect_idempotent.
Print Assumptions C04_bits_sound.

(** State 1 lies on the accepting cycle 1 <-> 2, state 3 is unreachable, state 4 is a dead end. *)
Definition c04_calls : list (op natSR) :=
  [OAddStates 5; OSetStart 0; OAddTr 0 (Tr 1 1 2 4); OAddTr 0 (Tr 2 3 3 1); OAddTr 1 (Tr 4 4 5 2);
   OAddTr 2 (Tr 5 5 7 1); OAddTr 3 (Tr 6 6 1 1); OAddTr 4 (Tr 1 1 1 4); OSetFinal 2 1].
Example C04_witness : exists f g, run vnew c04_calls = Ok f /\ closed f /\ connect f = Ok g /\
  num_states f = 5 /\ num_states g = 3 /\
  rel (mach g) 2 [2; 4] [3; 4] = 15 /\ rel (mach g) 4 [2; 4; 5; 4] [3; 4; 5; 4] = 525 /\
  connect g = Ok g.
Proof.
  eexists. eexists. split; [vm_compute; reflexivity|]. split.
  - split.
    + intros s t. destruct s as [|[|[|[|[|s]]]]]; cbn; intuition; subst; cbn; try (vm_compute; lia).
      destruct s; simpl in *; tauto.
    + cbn. intros s H; inversion H. vm_compute. lia.
  - split; [vm_compute; reflexivity|]. repeat split; vm_compute; reflexivity.
Qed.
