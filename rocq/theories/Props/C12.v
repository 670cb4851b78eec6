(** C12: tr_unique removes only duplicated transitions and keeps idempotent relations. *)
From Coq Require Import List Arith NArith Bool Sorted Permutation Lia.
From Verif Require Import Base.Util Base.Semiring Base.Machine Base.PropSpec Base.Instances
  Model.Props Model.VectorFst Model.TrOps Model.History
  Proofs.VectorFacts Proofs.DelStates Proofs.VectorProps Proofs.TrOpsFacts Proofs.HistoryFacts.
Import ListNotations.
Local Open Scope K_scope.

Section C12.
  Context {K : SR} (L : lsr_laws K).
  Implicit Types f : vfst K.

  Lemma ksum_absorb (I : idempotent_plus K) (x : K) l : In x l -> x + ksum l = ksum l.
  Proof.
    induction l as [|a l IH]; simpl; [tauto|]. intros [->|H].
    - rewrite (kplus_assoc _ L), I. auto.
    - rewrite (kplus_assoc _ L), (kplus_comm _ L x a), <- (kplus_assoc _ L), IH; auto.
  Qed.
  Lemma ksum_incl (I : idempotent_plus K) (l m : list K) : incl l m -> ksum l + ksum m = ksum m.
  Proof.
    induction l as [|a l IH]; intros H; simpl; [apply (kplus_0_l _ L)|].
    rewrite <- (kplus_assoc _ L), IH.
    - apply ksum_absorb; auto. apply H. simpl; auto.
    - intros x Hx. apply H. simpl; auto.
  Qed.
  Lemma ksum_set (I : idempotent_plus K) (l m : list K) : incl l m -> incl m l -> ksum l = ksum m.
  Proof.
    intros H1 H2. rewrite <- (ksum_incl I l m H1), (kplus_comm _ L). symmetry. apply ksum_incl; auto.
  Qed.

  (** The set of transitions is unchanged; nothing is duplicated that was not; every state,
      final weight and the start are kept. Over an idempotent semiring so is the relation. *)
  Theorem C12_tr_unique :
    forall f, exists f', tr_unique f = Ok f' /\
      num_states f' = num_states f /\ vstart f' = vstart f /\ (forall s, fin_of f' s = fin_of f s) /\
      (forall s t, In t (trs_of f' s) <-> In t (trs_of f s)) /\
      (forall s, exists l, Permutation (trs_of f s) (trs_of f' s ++ l)) /\
      (idempotent_plus K -> forall n x y, rel (mach f') n x y = rel (mach f) n x y).
  Proof.
    intros f. rewrite tr_unique_eq. eexists. split; [reflexivity|]. set (f' := set_all _ _).
    assert (T : forall s, trs_of f' s = dedup (isort tr_le (trs_of f s))).
    { intros s. unfold f'. rewrite trs_of_map. unfold trs_of. destruct (nth_error (vstates f) s); auto.
      unfold unique_state. destruct (_ && _); reflexivity. }
    assert (F : forall s, fin_of f' s = fin_of f s).
    { intros s. unfold f'. rewrite fin_of_map. unfold fin_of. destruct (nth_error (vstates f) s); auto.
      unfold unique_state. destruct (_ && _); reflexivity. }
    assert (I : forall s t, In t (trs_of f' s) <-> In t (trs_of f s)).
    { intros s t. rewrite T, (dedup_In L). split; apply Permutation_in; [|symmetry]; apply isort_perm. }
    split; [unfold num_states; simpl; apply map_length|]. split; [reflexivity|]. split; [exact F|].
    split; [exact I|]. split.
    - intros s. pose proof (dedup_sub L (isort tr_le (trs_of f s))) as S. rewrite <- T in S.
      assert (P : forall l m : list (tr K), sublist l m -> exists r, Permutation m (l ++ r)).
      { clear. induction 1 as [|x l m H (r & IH)|x l m H (r & IH)].
        - exists []. auto.
        - exists (x :: r). rewrite IH. apply Permutation_middle.
        - exists r. simpl. auto. }
      destruct (P _ _ S) as (r & Hr). exists r. rewrite <- Hr. symmetry. apply isort_perm.
    - intros Idem. assert (W : forall n s x y, wt (mach f') n s x y = wt (mach f) n s x y).
      { induction n; intros s x y; simpl.
        - rewrite F. auto.
        - transitivity (ksum (map (fun t => match strip (il t) x with
             | Some x' => match strip (ol t) y with
                          | Some y' => wgt t * wt (mach f) n (ns t) x' y' | None => 0 end
             | None => 0 end) (trs_of f' s))).
          + apply ksum_map_ext. intros t _. destruct (strip (il t) x), (strip (ol t) y); auto.
            rewrite IHn; auto.
          + apply (ksum_set Idem); intros z Hz; apply in_map_iff in Hz as (t & <- & Ht);
              apply in_map_iff; exists t; split; auto; apply I; auto. }
      intros n x y. unfold rel. cbn [mach mstart]. change (vstart f') with (vstart f).
      destruct (vstart f); auto.
  Qed.
End C12.
Print Assumptions C12_tr_unique.

(** Equal transitions separated by one that differs only in weight survive twice. *)
Definition c12_calls : list (op tropN) :=
  [OAddStates 2; OSetStart 0; OAddTr 0 (Tr 3 1 (Some 1) 1); OAddTr 0 (Tr 3 1 (Some 2) 1);
   OAddTr 0 (Tr 3 1 (Some 1) 1); OSetFinal 1 (Some 0)].
Theorem C12_duplicate_free_refuted :
  exists (f f' : vfst tropN) s, run vnew c12_calls = Ok f /\ tr_unique f = Ok f' /\ ~ NoDup (trs_of f' s).
Proof.
  eexists. eexists. exists 0%nat. split; [vm_compute; reflexivity|]. split; [vm_compute; reflexivity|].
  vm_compute. intros H. inversion H; subst. apply H2. simpl. auto.
Qed.
Print Assumptions C12_duplicate_free_refuted.

(** It does remove adjacent copies. *)
Example C12_witness : exists (f f' : vfst tropN),
  run vnew [OAddStates 2; OAddTr 0 (Tr 3 1 (Some 1) 1); OAddTr 0 (Tr 2 1 (Some 2) 1);
            OAddTr 0 (Tr 3 1 (Some 1) 1)] = Ok f /\ tr_unique f = Ok f' /\
  trs_of f' 0 = [Tr 2 1 (Some 2) 1; Tr 3 1 (Some 1) 1].
Proof.
  eexists. eexists. split; [vm_compute; reflexivity|]. split; [vm_compute; reflexivity|]. vm_compute. reflexivity.
Qed.
