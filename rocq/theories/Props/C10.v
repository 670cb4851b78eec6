(** C10: transition sorting permutes and sorts. *)
From Coq Require Import List Arith NArith Bool Sorted Permutation.
From Verif Require Import Base.Util Base.Semiring Base.Machine Base.PropSpec Base.Instances
  Model.Props Model.VectorFst Model.TrOps Model.History
  Proofs.VectorFacts Proofs.DelStates Proofs.VectorProps Proofs.TrOpsFacts Proofs.HistoryFacts.
Import ListNotations.
Local Open Scope K_scope.

Section C10.
  Context {K : SR} (L : psr_laws K).
  Implicit Types f : vfst K.

  Lemma mperm_wt (m1 m2 : machine K) : mperm m1 m2 ->
    forall n s x y, wt m2 n s x y = wt m1 n s x y.
  Proof.
    intros (A & B & C) n s x y.
    apply (wt_ren L m1 m2 (fun q => q) (fun _ => True)); auto.
    - intros q _. rewrite (B q). replace (map (ren (fun u => u)) (mtrs m2 q)) with (mtrs m2 q); auto.
      rewrite <- (map_id (mtrs m2 q)) at 1. apply map_ext. intros []; reflexivity.
    - intros q _. rewrite C. auto.
  Qed.

  (** Everything a caller can observe after sorting by [key]. *)
  Definition sorted_by (key : tr K -> nat) f f' : Prop :=
    num_states f' = num_states f /\ vstart f' = vstart f /\
    (forall s, fin_of f' s = fin_of f s) /\
    (forall s, Permutation (trs_of f' s) (trs_of f s)) /\
    (forall s, StronglySorted le (map key (trs_of f' s))) /\
    (* stability: transitions with equal keys keep their order *)
    (forall s k, filter (fun t => Nat.eqb (key t) k) (trs_of f' s) =
                 filter (fun t => Nat.eqb (key t) k) (trs_of f s)) /\
    (forall s, num_input_epsilons f' s = num_input_epsilons f s /\
               num_output_epsilons f' s = num_output_epsilons f s) /\
    (forall n x y, rel (mach f') n x y = rel (mach f) n x y).

  Lemma insert_filter (key : tr K -> nat) t l k :
    filter (fun u => Nat.eqb (key u) k) (insert (fun a b => Nat.leb (key a) (key b)) t l) =
    filter (fun u => Nat.eqb (key u) k) (t :: l).
  Proof.
    induction l as [|u l IH]; simpl; auto. destruct (Nat.leb_spec (key t) (key u)); simpl; auto.
    rewrite IH. simpl. destruct (Nat.eqb_spec (key t) k), (Nat.eqb_spec (key u) k); auto. subst.
    rewrite e0 in H. exfalso. apply (Nat.lt_irrefl _ H).
  Qed.
  Lemma isort_filter (key : tr K -> nat) l k :
    filter (fun u => Nat.eqb (key u) k) (isort (fun a b => Nat.leb (key a) (key b)) l) =
    filter (fun u => Nat.eqb (key u) k) l.
  Proof. induction l; simpl; auto. rewrite insert_filter. simpl. rewrite IHl. auto. Qed.

  Lemma tr_sort_by key pf f f' :
    tr_sort (fun a b => Nat.leb (key a) (key b)) pf f = Ok f' -> sorted_by key f f'.
  Proof.
    intros H. pose proof (tr_sort_mperm _ _ _ _ H) as E. rewrite tr_sort_eq in H. inversion H; subst; clear H.
    pose proof E as (E1 & E2 & E3). unfold sorted_by.
    split; [unfold num_states; simpl; apply map_length|]. split; [reflexivity|].
    split; [intros s; symmetry; apply E3|]. split; [intros s; symmetry; apply E2|].
    split; [|split; [|split]].
    - intros s. rewrite trs_of_map. destruct (nth_error (vstates f) s); [|constructor]. simpl.
      apply SSorted_map with (le := fun a b => Nat.leb (key a) (key b)).
      + intros a b. apply Nat.leb_le.
      + apply isort_sorted.
        * intros a b. rewrite !Nat.leb_le. apply Nat.le_ge_cases.
        * intros a b c. rewrite !Nat.leb_le. apply Nat.le_trans.
    - intros s k. rewrite trs_of_map. unfold trs_of. destruct (nth_error (vstates f) s); auto.
      simpl. apply isort_filter.
    - intros s. unfold num_input_epsilons, num_output_epsilons, get_state. simpl.
      rewrite nth_error_map. destruct (nth_error (vstates f) s); auto.
    - intros n x y. unfold rel. cbn [mach mstart]. simpl.
      destruct (vstart f); auto. apply mperm_wt; auto.
  Qed.

  Theorem C10_tr_sort :
    forall f,
      (exists f', tr_sort_i f = Ok f' /\ sorted_by il f f' /\ has (vprops f') I_LABEL_SORTED = true) /\
      (exists f', tr_sort_o f = Ok f' /\ sorted_by ol f f' /\ has (vprops f') O_LABEL_SORTED = true).
  Proof.
    intros f. split.
    - unfold tr_sort_i. rewrite tr_sort_eq. eexists. split; [reflexivity|]. split.
      + eapply tr_sort_by with (pf := ilabel_sort_properties). rewrite tr_sort_eq. reflexivity.
      + rewrite has_set_all. unfold ilabel_sort_properties.
        destruct (has (vprops f) ACCEPTOR); rewrite !PropsFacts.has_pset; simpl;
          rewrite ?Bool.orb_true_r; auto.
    - unfold tr_sort_o. rewrite tr_sort_eq. eexists. split; [reflexivity|]. split.
      + eapply tr_sort_by with (pf := olabel_sort_properties). rewrite tr_sort_eq. reflexivity.
      + rewrite has_set_all. unfold olabel_sort_properties.
        destruct (has (vprops f) ACCEPTOR); rewrite !PropsFacts.has_pset; simpl;
          rewrite ?Bool.orb_true_r; auto.
  Qed.

  (** All reported bits stay true (not only the sortedness bit). *)
  Theorem C10_bits_sound :
    forall f f', (forall b, has (vprops f) b = true -> holds b (num_states f) (mach f)) ->
      (tr_sort_i f = Ok f' \/ tr_sort_o f = Ok f') ->
      forall b, has (vprops f') b = true -> holds b (num_states f') (mach f').
  Proof.
    intros f f' S [E|E].
    - apply (tr_sort_i_sound f f' S E).
    - apply (tr_sort_o_sound f f' S E).
  Qed.
End C10.
Print Assumptions C10_tr_sort.
Print Assumptions C10_bits_sound.

Definition c10_calls : list (op natSR) :=
  [OAddStates 2; OSetStart 0; OAddTr 0 (Tr 3 1 2 1); OAddTr 0 (Tr 1 2 3 1); OAddTr 0 (Tr 3 0 1 0);
   OSetFinal 1 10].
Example C10_witness : exists f f', run vnew c10_calls = Ok f /\ tr_sort_i f = Ok f' /\
  has (vprops f) I_LABEL_SORTED = false /\
  trs_of f' 0 = [Tr 1 2 3 1; Tr 3 1 2 1; Tr 3 0 1 0] /\ rel (mach f') 2 [3; 1] [2] = 30.
Proof.
  eexists. eexists. split; [vm_compute; reflexivity|]. split; [vm_compute; reflexivity|].
  repeat split; vm_compute; reflexivity.
Qed.
