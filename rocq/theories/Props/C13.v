(** C13: state_sort and top_sort only rename states. *)
From Coq Require Import List Arith NArith Bool Lia Permutation.
From Verif Require Import Base.Util Base.Semiring Base.Machine Base.PropSpec Base.Instances
  Model.Props Model.VectorFst Model.TrOps Model.Dfs Model.Visitors Model.History
  Proofs.PropsFacts Proofs.VectorFacts Proofs.DelStates Proofs.VectorProps Proofs.TrOpsFacts Proofs.HistoryFacts
  Proofs.DfsFacts Proofs.Tarjan Proofs.SccFacts Proofs.VisitFacts Proofs.ConnectFacts Proofs.OpFacts Proofs.SortFacts.
Import ListNotations.

Section C13.
  Context {K : SR} (L : lsr_laws K).
  Implicit Types (f g : vfst K).

  (** [g] is [f] with every state [s] renamed to [order[s]]: same transitions in the same order,
      targets renamed, same final weights, start renamed. *)
  Definition renamed f g (order : list nat) : Prop :=
    num_states g = num_states f /\ visymt g = visymt f /\ vosymt g = vosymt f /\
    vstart g = option_map (fun s => nth s order 0) (vstart f) /\
    forall s, s < num_states f ->
      fin_of g (nth s order 0) = fin_of f s /\
      trs_of g (nth s order 0) = map (fun t => Tr (il t) (ol t) (wgt t) (nth (ns t) order 0)) (trs_of f s).

  Lemma iso_renamed f g order : num_states g = num_states f -> visymt g = visymt f -> vosymt g = vosymt f ->
    iso (num_states f) (mach f) (mach g) (fun s => nth s order 0) -> renamed f g order.
  Proof.
    intros N I O Is. split; auto. split; auto. split; auto. split.
    - apply (is_start _ _ _ _ Is).
    - intros s Hs. split; [apply (is_fin _ _ _ _ Is s Hs)|apply (is_trs _ _ _ _ Is s Hs)].
  Qed.

  Theorem C13_state_sort :
    forall f order, closed f -> vstart f <> None -> Permutation order (seq 0 (num_states f)) ->
    exists g, state_sort f order = Ok g /\ renamed f g order /\
      (forall n x y, rel (mach g) n x y = rel (mach f) n x y) /\
      ((forall b, has (vprops f) b = true -> holds b (num_states f) (mach f)) ->
       (forall b, has (vprops g) b = true -> holds b (num_states g) (mach g))).
  Proof.
    intros f order Hc Hs P. destruct (state_sort_iso f order Hc P Hs) as (g & E & N & I & O & C & Is & Pr).
    exists g. split; auto. split; [apply iso_renamed; auto|]. split.
    - intros n x y. apply (iso_rel _ _ _ _ Is L).
    - intros So b Hb. rewrite Pr in Hb. apply andb_true_iff in Hb as [Hb Hi]. rewrite N.
      eapply iso_holds; eauto. apply inb_In; auto.
  Qed.

  (** A wrong length is refused; without a start state nothing happens whatever the order. *)
  Theorem C13_state_sort_refuses :
    forall f order, (length order <> num_states f -> state_sort f order = Err) /\
      (length order = num_states f -> vstart f = None -> state_sort f order = Ok f).
  Proof.
    intros f order. unfold state_sort. split.
    - intros H. apply Nat.eqb_neq in H. rewrite H. auto.
    - intros H E. apply Nat.eqb_eq in H. rewrite H, E. auto.
  Qed.

  Lemma top_sort_cases f s0 : closed f -> vstart f = Some s0 ->
    (exists order fl, visit_top f any_filter = Ok (TV order true fl) /\
        Permutation order (seq 0 (num_states f)) /\ (forall s, ~ on_cycle (mach f) s) /\
        (forall s t, In t (trs_of f s) -> nth s order 0 < nth (ns t) order 0)) \/
    (exists v, visit_top f any_filter = Ok v /\ tv_acyclic v = false /\ exists s, on_cycle (mach f) s).
  Proof.
    intros [C1 C2] Es. unfold visit_top. rewrite Es.
    assert (Cy : forall s, on_cycle (fm any_filter (trs_of f) (Some s0) (fin_of f)) s <-> on_cycle (mach f) s).
    { intros s. unfold on_cycle. split; intros (t & Ht & R); exists t.
      - rewrite fm_any in Ht. split; auto. apply (reach_any f) in R. auto.
      - rewrite fm_any. split; auto. apply reach_any. auto. }
    destruct (visit_top_inv any_filter (trs_of f) (num_states f) s0 (fin_of f) (fun s t _ => C1 s t) (C2 _ Es) (trs_of_beyond f))
      as (v & E & [(A1 & A2 & A3 & A4 & A5)|(A1 & s & A2)]); rewrite E; simpl; rewrite A1.
    - left. assert (Len : length (tv_finish v) = num_states f).
      { rewrite <- (seq_length (num_states f) 0). apply Permutation_length. apply NoDup_Permutation; auto using seq_NoDup.
        intros u. rewrite A3, in_seq. lia. }
      destruct (fill_order_ok (tv_finish v) 0 (repeat 0 (length (tv_finish v))) A2) as (o & Eo & Lo & No & _).
      { intros q Hq. rewrite repeat_length, Len. apply A3; auto. }
      rewrite Eo. simpl. rewrite repeat_length in Lo. exists o, (tv_finish v). split; auto. split; [|split].
      + symmetry. apply NoDup_Permutation_bis; auto using seq_NoDup.
        * rewrite seq_length. lia.
        * intros i Hi. apply in_seq in Hi. destruct (nth_error_ex (tv_finish v) i) as [q Eq]; [lia|].
          rewrite <- (No i q Eq : nth q o 0 = i). apply nth_In. rewrite Lo, Len. apply A3. eapply nth_error_In; eauto.
      + intros s H. apply (A5 s). apply Cy. auto.
      + intros s t Ht. destruct (A4 s (ns t)) as (a & b & Ef & Hz).
        { exists t. repeat split; auto. }
        apply In_nth_error in Hz as (j & Hj).
        rewrite (No (length a) s), (No (length a + S j) (ns t)).
        * lia.
        * rewrite Ef, nth_error_app2 by lia. replace (length a + S j - length a) with (S j) by lia. auto.
        * rewrite Ef, nth_error_app2, Nat.sub_diag by lia. auto.
    - right. exists v. split; auto. split; auto. exists s. apply Cy. auto.
  Qed.

  (** Acyclic: topologically sorted renaming, same relation, sound bits. *)
  Theorem C13_top_sort_acyclic :
    forall f, closed f -> vstart f <> None -> (forall s, ~ on_cycle (mach f) s) ->
    exists order g, top_sort f = Ok g /\ Permutation order (seq 0 (num_states f)) /\ renamed f g order /\
      (forall s t, In t (trs_of g s) -> s < ns t) /\
      (forall n x y, rel (mach g) n x y = rel (mach f) n x y) /\
      ((forall b, has (vprops f) b = true -> holds b (num_states f) (mach f)) ->
       (forall b, has (vprops g) b = true -> holds b (num_states g) (mach g))) /\
      has (vprops g) TOP_SORTED = true /\ has (vprops g) ACYCLIC = true.
  Proof.
    intros f Hc Hs Ha. destruct (vstart f) as [s0|] eqn:Es; [|congruence].
    destruct (top_sort_cases f s0 Hc Es) as [(order & v & E & P & _ & Ord)|(v & _ & _ & s & H)]; [|exfalso; eapply Ha; eauto].
    destruct (state_sort_iso f order Hc P) as (g & E2 & N & I & O & C & Is & Pr); [congruence|].
    assert (TS : forall s t, In t (trs_of g s) -> s < ns t).
    { intros s t Ht. destruct (iso_in' _ _ _ _ Is s t Ht) as (q & u & Hq & -> & -> & Hu). simpl. apply Ord. auto. }
    exists order. unfold top_sort. rewrite E. cbn [rbind tv_acyclic tv_order]. rewrite E2. cbn [rbind]. eexists. split; [reflexivity|].
    set (g' := set_properties_with_mask _ _ _). split; auto. split; [|split; [exact TS|split]].
    - apply (iso_renamed f g'); auto.
    - intros n x y. apply (iso_rel _ _ _ _ Is L).
    - assert (Hb : forall b, has (vprops g') b = (has (vprops g) b && negb (inb b [ACYCLIC; INITIAL_ACYCLIC; TOP_SORTED])) || inb b [ACYCLIC; INITIAL_ACYCLIC; TOP_SORTED]).
      { intros b. unfold g', set_properties_with_mask. cbn [vprops with_props].
        rewrite has_lor, !has_land, has_pnot, !has_mask. destruct (inb b _); auto. }
      split; [|rewrite !Hb; split; apply orb_true_r].
      intros So b H. rewrite Hb in H. apply orb_true_iff in H as [H|H].
      + apply andb_true_iff in H as [H _]. rewrite Pr in H. apply andb_true_iff in H as [H Hi].
        change (mach g') with (mach g). change (num_states g') with (num_states g). rewrite N.
        eapply iso_holds; eauto. apply inb_In; auto.
      + assert (AC : forall s, ~ on_cycle (mach g') s) by (apply top_sorted_acyclic; exact TS).
        apply inb_In in H. destruct H as [<-|[<-|[<-|[]]]]; simpl; auto.
  Qed.

  (** Cyclic: only the property bits change, and they stay sound. *)
  Theorem C13_top_sort_cyclic :
    forall f s, closed f -> vstart f <> None -> on_cycle (mach f) s ->
    exists g, top_sort f = Ok g /\ vstates g = vstates f /\ vstart g = vstart f /\ visymt g = visymt f /\ vosymt g = vosymt f /\
      has (vprops g) CYCLIC = true /\ has (vprops g) NOT_TOP_SORTED = true /\
      ((forall b, has (vprops f) b = true -> holds b (num_states f) (mach f)) ->
       (forall b, has (vprops g) b = true -> holds b (num_states g) (mach g))).
  Proof.
    intros f s Hc Hs Ha. destruct (vstart f) as [s0|] eqn:Es; [|congruence].
    destruct (top_sort_cases f s0 Hc Es) as [(order & v & E & P & No & Ord)|(v & E & Ea & _)]; [exfalso; eapply No; eauto|].
    unfold top_sort. rewrite E. cbn [rbind]. rewrite Ea. eexists. split; [reflexivity|].
    set (g' := set_properties_with_mask _ _ _).
    assert (Hb : forall b, has (vprops g') b = (has (vprops f) b && negb (inb b [CYCLIC; NOT_TOP_SORTED])) || inb b [CYCLIC; NOT_TOP_SORTED]).
    { intros b. unfold g', set_properties_with_mask. cbn [vprops with_props].
      rewrite has_lor, !has_land, has_pnot, !has_mask. destruct (inb b _); auto. }
    split; auto. split; auto. split; auto. split; auto. split; [rewrite Hb; apply orb_true_r|]. split; [rewrite Hb; apply orb_true_r|].
    intros So b H. rewrite Hb in H. apply orb_true_iff in H as [H|H].
    - apply andb_true_iff in H as [H _]. exact (So b H).
    - apply inb_In in H. destruct H as [<-|[<-|[]]].
      + simpl. exists s. exact Ha.
      + change (holds NOT_TOP_SORTED (num_states f) (mach f)). simpl.
        assert (D : forall a b, reach (mach f) a b -> (exists q t, In t (trs_of f q) /\ ns t <= q) \/ a <= b).
        { induction 1 as [|q t u Ht _ IH]; auto. destruct IH as [IH|IH]; auto.
          destruct (Nat.le_gt_cases (ns t) q); [left; exists q, t; auto|right; lia]. }
        destruct Ha as (t & Ht & R). destruct (D _ _ R) as [(q & u & H1 & H2)|H1]; [exists q, u; auto|].
        exists s, t. auto.
  Qed.

  (** Without a start state the visitor finishes no state, so a machine that has states is
      refused and only the empty one is accepted. *)
  Theorem C13_top_sort_no_start :
    forall f, vstart f = None ->
      (num_states f <> 0 -> top_sort f = Err) /\ (num_states f = 0 -> exists g, top_sort f = Ok g /\ vstates g = []).
  Proof.
    intros f Es. unfold top_sort, visit_top. rewrite Es. cbn. unfold state_sort. rewrite Es. simpl length. split.
    - intros H. assert (X : (0 =? num_states f) = false) by (apply Nat.eqb_neq; lia). rewrite X. auto.
    - intros H. rewrite H. simpl. eexists. split; [reflexivity|]. simpl. unfold num_states in H. destruct (vstates f); auto. discriminate.
  Qed.
End C13.
Print Assumptions C13_state_sort.
Print Assumptions C13_state_sort_refuses.
Print Assumptions C13_top_sort_acyclic.
Print Assumptions C13_top_sort_cyclic.
Print Assumptions C13_top_sort_no_start.

(** A 3-cycle and a 2-cycle of the permutation; a machine whose natural order is not topological. *)
Definition c13_calls : list (op natSR) :=
  [OAddStates 5; OSetStart 4; OAddTr 4 (Tr 1 1 2 2); OAddTr 2 (Tr 2 3 3 1); OAddTr 2 (Tr 0 4 5 3);
   OAddTr 3 (Tr 5 5 7 1); OAddTr 1 (Tr 6 6 1 0); OSetFinal 0 2; OSetFinal 3 3].
Example C13_witness : exists f g h, run vnew c13_calls = Ok f /\ closed f /\ vstart f = Some 4 /\
  state_sort f [1; 2; 0; 4; 3] = Ok g /\ vstart g = Some 3 /\ trs_of g 0 = [Tr 2 3 3 2; Tr 0 4 5 4] /\
  top_sort f = Ok h /\ vstart h = Some 0 /\ map (fun t => ns t) (trs_of h 0) = [1] /\
  rel (mach h) 3 [1; 2; 6] [1; 3; 6] = 12 /\ state_sort f [0] = Err.
Proof.
  eexists. eexists. eexists. split; [vm_compute; reflexivity|]. split.
  - split.
    + intros s t. destruct s as [|[|[|[|[|s]]]]]; cbn; intuition; subst; cbn; try (vm_compute; lia).
      destruct s; simpl in *; tauto.
    + cbn. intros s H; inversion H. vm_compute. lia.
  - split; [reflexivity|]. split; [vm_compute; reflexivity|]. split; [reflexivity|]. split; [reflexivity|].
    split; [vm_compute; reflexivity|]. repeat split; vm_compute; reflexivity.
Qed.
