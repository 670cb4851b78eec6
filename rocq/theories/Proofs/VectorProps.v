(** Soundness of the cached property bits under every mutation. *)
From Coq Require Import List Arith NArith Lia Bool Permutation Sorted.
From Verif Require Import Base.Util Base.Semiring Base.Machine Base.PropSpec
  Model.Props Model.VectorFst Proofs.PropsFacts Proofs.VectorFacts Proofs.DelStates.
Import ListNotations.

(** [sublist l m]: [l] is obtained from [m] by deleting elements. *)
Inductive sublist {A} : list A -> list A -> Prop :=
| sub_nil : sublist [] []
| sub_skip a l m : sublist l m -> sublist l (a :: m)
| sub_keep a l m : sublist l m -> sublist (a :: l) (a :: m).

Lemma sublist_refl {A} (l : list A) : sublist l l.
Proof. induction l; [constructor|]. apply sub_keep; auto. Qed.
Lemma sublist_nil {A} (l : list A) : sublist [] l.
Proof. induction l; [constructor|]. apply sub_skip; auto. Qed.
Lemma sublist_In {A} (l m : list A) x : sublist l m -> In x l -> In x m.
Proof. induction 1; simpl; intros; auto. destruct H0; auto. Qed.
Lemma sublist_trans {A} (a b c : list A) : sublist a b -> sublist b c -> sublist a c.
Proof.
  intros H1 H2; revert a H1; induction H2; intros a0 H1; auto.
  - apply sub_skip; auto.
  - inversion H1; subst; [apply sub_skip|apply sub_keep]; auto.
Qed.
Lemma sublist_map {A B} (g : A -> B) l m : sublist l m -> sublist (map g l) (map g m).
Proof.
  induction 1; simpl; [constructor|apply sub_skip|apply sub_keep]; auto.
Qed.
Lemma sublist_NoDup {A} (l m : list A) : sublist l m -> NoDup m -> NoDup l.
Proof.
  induction 1; intros Hn; auto; inversion Hn; subst; auto.
  constructor; auto. intros Hi. eapply sublist_In in Hi; eauto.
Qed.
Lemma sublist_Forall {A} (P : A -> Prop) l m : sublist l m -> Forall P m -> Forall P l.
Proof. induction 1; intros HF; auto; inversion HF; subst; auto. Qed.
Lemma sublist_SSorted {A} (R : A -> A -> Prop) l m :
  sublist l m -> StronglySorted R m -> StronglySorted R l.
Proof.
  induction 1; intros Hs; auto; inversion Hs; subst; auto.
  constructor; auto. eapply sublist_Forall; eauto.
Qed.
Lemma sublist_remove_at {A} (l : list A) i : sublist (remove_at l i) l.
Proof.
  revert i; induction l; destruct i; simpl; try apply sub_nil.
  - apply sub_skip, sublist_refl.
  - apply sub_keep; auto.
Qed.
Lemma sublist_filter {A} (p : A -> bool) l : sublist (filter p l) l.
Proof. induction l; simpl; [constructor|]. destruct (p a); [apply sub_keep|apply sub_skip]; auto. Qed.

Section P.
  Context {K : SR} (L : psr_laws K).
  Implicit Types (m : machine K) (f : vfst K).

  Lemma nontrivial_plain (w : K) : nontrivial w = true <-> ~ plain w.
  Proof.
    unfold nontrivial, plain. rewrite andb_true_iff, !negb_true_iff, !(keqb_false L). tauto.
  Qed.
  Lemma nontrivial_plain_f (w : K) : nontrivial w = false <-> plain w.
  Proof.
    unfold nontrivial, plain. rewrite andb_false_iff, !negb_false_iff, !(keqb_true L). tauto.
  Qed.

  (** ** Sanity of the meaning: a bit and its opposite are never both true. *)
  Lemma holds_consistent b n m : holds b n m -> holds (opp b) n m -> False.
  Proof.
    destruct b; simpl; intros H1 H2;
      repeat match goal with
             | H : exists _, _ |- _ => destruct H
             | H : _ /\ _ |- _ => destruct H
             end;
      try (firstorder; fail);
      try (match goal with H : _ |- _ => apply Nat.lt_nge in H; eauto end; fail).
    all: try (match goal with H : forall s t, In t _ -> (s < ns t)%nat, G : In _ _ |- _ => apply H in G; lia end).
  Qed.

  (** ** Machines with the same transitions and finals *)
  Lemma reach_same m1 m2 a b : (forall s, mtrs m1 s = mtrs m2 s) -> reach m1 a b -> reach m2 a b.
  Proof. intros E H; induction H; [constructor|]. econstructor; eauto. rewrite <- E; auto. Qed.

  (** ** A submachine morphism: every transition of [m'] is one of [m] seen through [g]. *)
  Record submach (m' m : machine K) (g : nat -> nat) : Prop := {
    sm_trs : forall s, exists l, sublist l (mtrs m (g s)) /\
        Forall2 (fun t' t => il t' = il t /\ ol t' = ol t /\ wgt t' = wgt t /\ g (ns t') = ns t)
                (mtrs m' s) l;
    sm_fin : forall s w, mfin m' s = Some w -> mfin m (g s) = Some w
  }.

  Lemma submach_In m' m g s t' : submach m' m g -> In t' (mtrs m' s) ->
    exists t, In t (mtrs m (g s)) /\ il t' = il t /\ ol t' = ol t /\ wgt t' = wgt t /\ g (ns t') = ns t.
  Proof.
    intros [H _] Hin. destruct (H s) as (l & Hs & HF).
    assert (exists t, In t l /\ il t' = il t /\ ol t' = ol t /\ wgt t' = wgt t /\ g (ns t') = ns t)
      as (t & Ht & R).
    { clear Hs. induction HF; simpl in Hin; [tauto|]. destruct Hin as [->|Hin].
      - exists y; simpl; auto.
      - destruct (IHHF Hin) as (t & Ht & R). exists t; simpl; auto. }
    exists t. split; auto. eapply sublist_In; eauto.
  Qed.

  Lemma submach_labels m' m g s : submach m' m g ->
    sublist (map il (mtrs m' s)) (map il (mtrs m (g s))) /\
    sublist (map ol (mtrs m' s)) (map ol (mtrs m (g s))).
  Proof.
    intros [H _]. destruct (H s) as (l & Hs & HF).
    assert (map il (mtrs m' s) = map il l /\ map ol (mtrs m' s) = map ol l) as [E1 E2].
    { clear Hs. induction HF; simpl; auto. destruct H0 as (a & b & _), IHHF as [c d].
      rewrite a, b, c, d. auto. }
    rewrite E1, E2. split; apply sublist_map; auto.
  Qed.

  Lemma submach_reach m' m g a b : submach m' m g -> reach m' a b -> reach m (g a) (g b).
  Proof.
    intros S H; induction H; [constructor|].
    destruct (submach_In _ _ _ _ _ S H) as (t0 & Ht & _ & _ & _ & E).
    econstructor; eauto. rewrite <- E. auto.
  Qed.

  Lemma submach_cycle m' m g s : submach m' m g -> on_cycle m' s -> on_cycle m (g s).
  Proof.
    intros S (t & Ht & Hr). destruct (submach_In _ _ _ _ _ S Ht) as (t0 & Ht0 & _ & _ & _ & E).
    exists t0; split; auto. rewrite <- E. eapply submach_reach; eauto.
  Qed.

  (** Universal bits pass to submachines. *)
  Lemma submach_bits m' m g n n' b :
    submach m' m g ->
    In b [ACCEPTOR; I_DETERMINISTIC; O_DETERMINISTIC; NO_EPSILONS; NO_I_EPSILONS; NO_O_EPSILONS;
          I_LABEL_SORTED; O_LABEL_SORTED; UNWEIGHTED; ACYCLIC; UNWEIGHTED_CYCLES] ->
    holds b n m -> holds b n' m'.
  Proof.
    intros S Hb H.
    simpl in Hb. repeat (destruct Hb as [<-|Hb]); try tauto; simpl in *.
    - intros s t Ht. destruct (submach_In _ _ _ _ _ S Ht) as (t0 & Ht0 & -> & -> & _). eauto.
    - intros s. eapply sublist_NoDup; [apply (submach_labels _ _ _ s S)|auto].
    - intros s. eapply sublist_NoDup; [apply (submach_labels _ _ _ s S)|auto].
    - intros s t Ht. destruct (submach_In _ _ _ _ _ S Ht) as (t0 & Ht0 & -> & -> & _). eauto.
    - intros s t Ht. destruct (submach_In _ _ _ _ _ S Ht) as (t0 & Ht0 & -> & _). eauto.
    - intros s t Ht. destruct (submach_In _ _ _ _ _ S Ht) as (t0 & Ht0 & _ & -> & _). eauto.
    - intros s. eapply sublist_SSorted; [apply (submach_labels _ _ _ s S)|auto].
    - intros s. eapply sublist_SSorted; [apply (submach_labels _ _ _ s S)|auto].
    - split.
      + intros s t Ht. destruct (submach_In _ _ _ _ _ S Ht) as (t0 & Ht0 & _ & _ & -> & _).
        destruct H; eauto.
      + intros s w Hw. apply (sm_fin _ _ _ S) in Hw. destruct H; eauto.
    - intros s Hc. eapply submach_cycle in Hc; eauto. eapply H; eauto.
    - intros s t Ht Hr. destruct (submach_In _ _ _ _ _ S Ht) as (t0 & Ht0 & _ & _ & -> & E).
      apply (H _ _ Ht0). rewrite <- E. eapply submach_reach; eauto.
  Qed.

  (** ** Preservation, operation by operation *)
  Definition fsound (f : vfst K) : Prop := sound (vprops f) (num_states f) (mach f).

  Ltac bits H :=
    rewrite ?has_pset, ?has_pclr, ?has_pkeep, ?has_if, ?inb_app in H.

  Lemma fsound_new : fsound vnew.
  Proof.
    intros b H. unfold vnew in H; cbn [vprops] in H. rewrite has_mask in H.
    assert (T : forall s, trs_of (@vnew K) s = []) by (intros [|s]; reflexivity).
    assert (F : forall s, fin_of (@vnew K) s = None) by (intros [|s]; reflexivity).
    assert (C : forall s, ~ on_cycle (mach (@vnew K)) s).
    { intros s (t & Ht & _). simpl in Ht. rewrite T in Ht. exact Ht. }
    destruct b; cbv in H; try discriminate; clear H; simpl; intros;
      rewrite ?T in *; simpl in *; try tauto; try lia; try constructor; auto; try discriminate.
    - intros; rewrite T in *; simpl in *; tauto.
    - intros; rewrite F in *; discriminate.
    - unfold num_states in *; simpl in *; lia.
    - unfold num_states in *; simpl in *; lia.
  Qed.

  Lemma holds_upto b n n' m :
    In b [ACCEPTOR; NOT_ACCEPTOR; I_DETERMINISTIC; NOT_I_DETERMINISTIC; O_DETERMINISTIC;
          NOT_O_DETERMINISTIC; EPSILONS; NO_EPSILONS; I_EPSILONS; NO_I_EPSILONS; O_EPSILONS;
          NO_O_EPSILONS; I_LABEL_SORTED; NOT_I_LABEL_SORTED; O_LABEL_SORTED; NOT_O_LABEL_SORTED;
          WEIGHTED; UNWEIGHTED; CYCLIC; ACYCLIC; INITIAL_CYCLIC; INITIAL_ACYCLIC; TOP_SORTED;
          NOT_TOP_SORTED; WEIGHTED_CYCLES; UNWEIGHTED_CYCLES] ->
    holds b n m -> holds b n' m.
  Proof. intros Hb H. simpl in Hb. repeat (destruct Hb as [<-|Hb]; [exact H|]). tauto. Qed.

  (** Bits depend on the machine only through its three components. *)
  Definition meq (m1 m2 : machine K) : Prop :=
    mstart m1 = mstart m2 /\ (forall s, mtrs m1 s = mtrs m2 s) /\ (forall s, mfin m1 s = mfin m2 s).

  Lemma meq_sym m1 m2 : meq m1 m2 -> meq m2 m1.
  Proof. intros (A & B & C); repeat split; intros; symmetry; auto. Qed.

  Lemma meq_reach m1 m2 a b : meq m1 m2 -> reach m1 a b -> reach m2 a b.
  Proof. intros (_ & E & _). apply reach_same; auto. Qed.

  Lemma meq_cycle m1 m2 s : meq m1 m2 -> on_cycle m1 s -> on_cycle m2 s.
  Proof.
    intros E (t & Ht & Hr). exists t. split.
    - destruct E as (_ & E & _). rewrite <- E; auto.
    - eapply meq_reach; eauto.
  Qed.

  Lemma submach_id_trs m s l :
    sublist l (mtrs m s) -> submach (with_trs m s l) m (fun q => q).
  Proof.
    intros H. split; simpl.
    - intros q. destruct (Nat.eqb_spec q s).
      + subst. exists l. split; auto. clear H. induction l; constructor; auto.
      + exists (mtrs m q). split; [apply sublist_refl|]. induction (mtrs m q); constructor; auto.
    - auto.
  Qed.

  (** Existential bits pass to supermachines on the same states. *)
  Lemma supermach_bits m' m n b :
    submach m' m (fun q => q) -> mstart m' = mstart m ->
    In b [NOT_ACCEPTOR; NOT_I_DETERMINISTIC; NOT_O_DETERMINISTIC; EPSILONS; I_EPSILONS; O_EPSILONS;
          NOT_I_LABEL_SORTED; NOT_O_LABEL_SORTED; WEIGHTED; CYCLIC; INITIAL_CYCLIC; NOT_TOP_SORTED;
          ACCESSIBLE; COACCESSIBLE; WEIGHTED_CYCLES] ->
    holds b n m' -> holds b n m.
  Proof.
    intros S E Hb H.
    assert (I : forall s t', In t' (mtrs m' s) -> exists t, In t (mtrs m s) /\ il t' = il t /\
              ol t' = ol t /\ wgt t' = wgt t /\ ns t' = ns t).
    { intros s t' Ht. apply (submach_In _ _ _ _ _ S Ht). }
    simpl in Hb. repeat (destruct Hb as [<-|Hb]); try tauto; simpl in *.
    - destruct H as (s & t & Ht & H). destruct (I s t Ht) as (t0 & Ht0 & E1 & E2 & _).
      exists s, t0. rewrite <- E1, <- E2. auto.
    - destruct H as (s & H). exists s. intros G. apply H.
      eapply sublist_NoDup; [apply (submach_labels _ _ _ s S)|auto].
    - destruct H as (s & H). exists s. intros G. apply H.
      eapply sublist_NoDup; [apply (submach_labels _ _ _ s S)|auto].
    - destruct H as (s & t & Ht & H). destruct (I s t Ht) as (t0 & Ht0 & E1 & E2 & _).
      exists s, t0. rewrite <- E1, <- E2. auto.
    - destruct H as (s & t & Ht & H). destruct (I s t Ht) as (t0 & Ht0 & E1 & E2 & _).
      exists s, t0. rewrite <- E1. auto.
    - destruct H as (s & t & Ht & H). destruct (I s t Ht) as (t0 & Ht0 & E1 & E2 & _).
      exists s, t0. rewrite <- E2. auto.
    - destruct H as (s & H). exists s. intros G. apply H.
      eapply sublist_SSorted; [apply (submach_labels _ _ _ s S)|auto].
    - destruct H as (s & H). exists s. intros G. apply H.
      eapply sublist_SSorted; [apply (submach_labels _ _ _ s S)|auto].
    - destruct H as [(s & t & Ht & H)|(s & w & Hw & H)].
      + left. destruct (I s t Ht) as (t0 & Ht0 & E1 & E2 & E3 & _).
        exists s, t0. rewrite <- E3. auto.
      + right. exists s, w. split; auto. apply (sm_fin _ _ _ S); auto.
    - destruct H as (s & H). exists s. exact (submach_cycle _ _ _ _ S H).
    - destruct H as (s & Hs & H). exists s. split; [congruence|]. exact (submach_cycle _ _ _ _ S H).
    - destruct H as (s & t & Ht & H). destruct (I s t Ht) as (t0 & Ht0 & E1 & E2 & E3 & E4).
      exists s, t0. rewrite <- E4. auto.
    - intros s Hs. destruct (H s Hs) as (q & Hq & Hr). exists q. split; [congruence|].
      exact (submach_reach _ _ _ _ _ S Hr).
    - intros s Hs. destruct (H s Hs) as (q & Hr & Hq). exists q. split.
      + exact (submach_reach _ _ _ _ _ S Hr).
      + destruct (mfin m' q) eqn:Ef; [|congruence]. rewrite (sm_fin _ _ _ S _ _ Ef). discriminate.
    - destruct H as (s & t & Ht & Hr & H). destruct (I s t Ht) as (t0 & Ht0 & E1 & E2 & E3 & E4).
      exists s, t0. rewrite <- E3, <- E4. repeat split; auto. exact (submach_reach _ _ _ _ _ S Hr).
  Qed.

  Lemma meq_submach m1 m2 : meq m1 m2 -> submach m1 m2 (fun q => q).
  Proof.
    intros (_ & ET & EF). split.
    - intros s. exists (mtrs m1 s). rewrite ET. split; [apply sublist_refl|].
      induction (mtrs m2 s); constructor; auto.
    - intros s w. rewrite EF. auto.
  Qed.

  Lemma meq_string n m1 m2 : meq m1 m2 -> is_string n m1 -> is_string n m2.
  Proof.
    intros (ES & ET & EF) [H|[H1 H2]]; [left; auto|right]. split; [congruence|].
    intros s Hs. specialize (H2 s Hs). rewrite ET, EF in H2. exact H2.
  Qed.

  Lemma holds_meq b n m1 m2 : meq m1 m2 -> holds b n m1 -> holds b n m2.
  Proof.
    intros E H. pose proof (meq_sym _ _ E) as E'. pose proof E as (ES & ET & EF).
    destruct b;
      try (apply (submach_bits m2 m1 (fun q => q) n n);
           [apply meq_submach; auto|simpl; tauto|exact H]; fail);
      try (apply (supermach_bits m1 m2 n);
           [apply meq_submach; auto|auto|simpl; tauto|exact H]; fail);
      simpl in *.
    - intros s Hs Hc. apply (H s); [congruence|]. eapply meq_cycle; eauto.
    - intros s t Ht. apply H. rewrite ET. auto.
    - destruct H as (s & Hs & H). exists s. split; auto. intros (q & Hq & Hr). apply H.
      exists q. split; [congruence|]. eapply meq_reach; eauto.
    - destruct H as (s & Hs & H). exists s. split; auto. intros (q & Hr & Hq). apply H.
      exists q. split; [|congruence]. eapply meq_reach; eauto.
    - eapply meq_string; eauto.
    - intros G. apply H. eapply meq_string; eauto.
  Qed.

  Lemma top_sorted_reach m a b :
    (forall s t, In t (mtrs m s) -> s < ns t) -> reach m a b -> a <= b.
  Proof. intros H R; induction R; auto. apply H in H0. lia. Qed.

  Lemma top_sorted_acyclic m :
    (forall s t, In t (mtrs m s) -> s < ns t) -> forall s, ~ on_cycle m s.
  Proof.
    intros H s (t & Ht & Hr). apply top_sorted_reach in Hr; auto. apply H in Ht. lia.
  Qed.

  Lemma SSorted_snoc (l : list nat) x :
    StronglySorted le (l ++ [x]) <-> StronglySorted le l /\ Forall (fun y => y <= x) l.
  Proof.
    induction l; simpl.
    - split; intros; [split; constructor|repeat constructor].
    - split.
      + intros H. inversion H; subst. apply IHl in H2 as [H2 H4]. rewrite Forall_app in H3.
        destruct H3 as [H3 H5]. inversion H5; subst. split; constructor; auto.
      + intros [H1 H2]. inversion H1; inversion H2; subst. constructor.
        * apply IHl; auto.
        * apply Forall_app; split; auto.
  Qed.

  Lemma SSorted_last (l : list nat) y x :
    StronglySorted le l -> nth_error l (length l - 1) = Some y -> y <= x -> Forall (fun z => z <= x) l.
  Proof.
    induction l as [|a l IH]; intros Hs Hn Hx; [constructor|].
    inversion Hs; subst. destruct l as [|b l].
    - simpl in Hn. inversion Hn; subst. repeat constructor; auto.
    - replace (length (a :: b :: l) - 1) with (S (length (b :: l) - 1)) in Hn by (simpl; lia).
      change (nth_error (b :: l) (length (b :: l) - 1) = Some y) in Hn.
      constructor; auto. rewrite Forall_forall in H2.
      apply nth_error_In in Hn. apply H2 in Hn. lia.
  Qed.

  Lemma nth_last_map {A B} (g : A -> B) (l : list A) :
    nth_error (map g l) (length (map g l) - 1) = option_map g (nth_error l (length l - 1)).
  Proof.
    rewrite map_length. generalize (length l - 1). induction l; intros [|n]; simpl; auto.
  Qed.

  (** *** Start state *)
  Lemma holds_start b n m s :
    In b pm_set_start_properties -> holds b n m -> holds b n (Mach s (mtrs m) (mfin m)).
  Proof.
    intros Hb H.
    assert (R : forall a c, reach (Mach s (mtrs m) (mfin m)) a c <-> reach m a c).
    { intros; split; apply reach_same; auto. }
    simpl in Hb. repeat (destruct Hb as [<-|Hb]); try tauto; simpl in *;
      unfold on_cycle, coaccessible in *; simpl; try setoid_rewrite R; auto.
  Qed.

  Lemma set_start_sound f s : fsound f -> fsound (set_start_unchecked f s).
  Proof.
    intros Hf b Hb. unfold set_start_unchecked, set_start_properties in Hb; simpl in Hb.
    unfold mach, num_states; simpl.
    change (trs_of (set_start_unchecked f s)) with (trs_of f).
    change (fin_of (set_start_unchecked f s)) with (fin_of f).
    destruct (has (vprops f) ACYCLIC) eqn:EA.
    - rewrite has_pset, has_pkeep in Hb. apply orb_true_iff in Hb as [Hb|Hb].
      + apply andb_true_iff in Hb as [Hb Hi]. apply inb_In in Hi.
        apply (holds_start b _ (mach f) (Some s) Hi). apply Hf; auto.
      + apply inb_In in Hb. simpl in Hb. destruct Hb as [<-|[]].
        pose proof (Hf _ EA) as HA. simpl in HA.
        simpl. intros q _ Hc. apply (HA q). destruct Hc as (t & Ht & Hr).
        exists t. split; auto. eapply reach_same; [|exact Hr]. reflexivity.
    - rewrite has_pkeep in Hb. apply andb_true_iff in Hb as [Hb Hi]. apply inb_In in Hi.
      apply (holds_start b _ (mach f) (Some s) Hi). apply Hf; auto.
  Qed.

  (** *** Final weights *)
  Lemma holds_fin b n m s w :
    In b pm_set_final_properties -> holds b n m -> holds b n (with_fin m s w).
  Proof.
    intros Hb H.
    assert (R : forall a c, reach (with_fin m s w) a c <-> reach m a c).
    { intros; split; apply reach_same; auto. }
    simpl in Hb. repeat (destruct Hb as [<-|Hb]); try tauto; simpl in *;
      unfold on_cycle, accessible in *; simpl; try setoid_rewrite R; auto.
  Qed.

  Lemma onontrivial_true (o : option K) : onontrivial o = true <-> exists w, o = Some w /\ ~ plain w.
  Proof.
    destruct o as [w|]; simpl.
    - rewrite nontrivial_plain. split; [eauto|]. intros (w' & E & H). congruence.
    - split; [discriminate|]. intros (w & E & _). discriminate.
  Qed.
  Lemma onontrivial_false (o : option K) : onontrivial o = false <-> forall w, o = Some w -> plain w.
  Proof.
    destruct o as [w|]; simpl.
    - rewrite nontrivial_plain_f. split; [congruence|]. intros H; apply H; auto.
    - split; auto. discriminate.
  Qed.

  Lemma set_final_sound_m p n m s w :
    sound p n m -> sound (set_final_properties p (mfin m s) w) n (with_fin m s w).
  Proof.
    intros Hs b Hb. unfold set_final_properties in Hb.
    rewrite has_pkeep, inb_app in Hb. apply andb_true_iff in Hb as [Hb Hi].
    destruct (inb b pm_set_final_properties) eqn:Ei.
    - assert (N1 : inb b [WEIGHTED] = false) by (destruct b; try reflexivity; discriminate Ei).
      assert (N2 : inb b [UNWEIGHTED] = false) by (destruct b; try reflexivity; discriminate Ei).
      apply inb_In in Ei. apply holds_fin; auto. apply Hs.
      destruct (onontrivial w), (onontrivial (mfin m s));
        rewrite ?has_pclr, ?has_pset, ?has_pclr, ?N1, ?N2 in Hb; simpl in Hb;
        rewrite ?andb_true_r, ?orb_false_r, ?andb_true_r in Hb; auto.
    - rewrite orb_false_l in Hi. apply inb_In in Hi. destruct Hi as [<-|[<-|[]]].
      + (* WEIGHTED *)
        destruct (onontrivial w) eqn:Ew.
        * apply onontrivial_true in Ew as (w0 & -> & Hp). simpl. right. exists s, w0.
          simpl. rewrite Nat.eqb_refl. auto.
        * destruct (onontrivial (mfin m s)) eqn:Eo.
          -- rewrite has_pclr in Hb. cbn in Hb. rewrite andb_false_r in Hb. discriminate.
          -- specialize (Hs _ Hb). simpl in Hs. simpl. destruct Hs as [Hs|(q & w0 & Hq & Hp)]; auto.
             right. exists q, w0. split; auto. destruct (Nat.eqb_spec q s); auto. subst q.
             apply onontrivial_false with (w := w0) in Eo; auto. contradiction.
      + (* UNWEIGHTED *)
        destruct (onontrivial w) eqn:Ew.
        * rewrite has_pclr in Hb. cbn in Hb. rewrite andb_false_r in Hb. discriminate.
        * assert (Hu : has p UNWEIGHTED = true).
          { destruct (onontrivial (mfin m s)); auto. rewrite has_pclr in Hb.
            apply andb_true_iff in Hb. tauto. }
          destruct (Hs _ Hu) as [H1 H2]. simpl. split; auto.
          intros q w0. destruct (Nat.eqb_spec q s); [|apply H2].
          intros ->. apply onontrivial_false with (w := w0) in Ew; auto.
  Qed.

  Lemma fsound_final f s st w :
    nth_error (vstates f) s = Some st -> fsound f ->
    fsound (upd_state f s (VS w (vtrs st) (vnie st) (vnoe st))
              (set_final_properties (vprops f) (vfin st) w)).
  Proof.
    intros Hst Hf. pose proof (nth_error_lt _ _ _ Hst) as Hlt.
    unfold fsound. rewrite num_states_upd. cbn [vprops upd_state].
    pose proof (set_final_sound_m _ _ _ s w Hf) as H.
    intros b Hb. eapply holds_meq; [|apply H].
    - split; [reflexivity|]. split; intros q; simpl.
      + rewrite trs_of_upd by auto. simpl. destruct (Nat.eqb_spec q s); auto.
        subst. unfold trs_of. rewrite Hst. reflexivity.
      + rewrite fin_of_upd by auto. reflexivity.
    - simpl. unfold fin_of. rewrite Hst. exact Hb.
  Qed.

  (** *** Adding states *)
  Lemma fsound_add_states f n : fsound f -> fsound (add_states f n).
  Proof.
    intros Hf b Hb. unfold add_states in Hb; cbn [vprops] in Hb.
    unfold add_state_properties in Hb. rewrite has_pkeep in Hb.
    apply andb_true_iff in Hb as [Hb Hi]. apply inb_In in Hi.
    assert (E : meq (mach f) (mach (add_states f n))).
    { split; [reflexivity|]. split; intros q; simpl.
      - rewrite trs_of_add_states; auto.
      - rewrite fin_of_add_states; auto. }
    rewrite num_states_add_states. specialize (Hf _ Hb).
    apply (holds_meq _ _ (mach f) _ E).
    simpl in Hi. repeat (destruct Hi as [<-|Hi]); try tauto; simpl in *; auto.
    - destruct Hf as (s & Hs & H). exists s. split; auto. lia.
    - destruct Hf as (s & Hs & H). exists s. split; auto. lia.
    - (* NOT_STRING: adding isolated states never makes a string *)
      destruct n as [|n]; [rewrite Nat.add_0_r; exact Hf|].
      intros [H|[H1 H2]]; [lia|].
      specialize (H2 (num_states f + S n - 1) ltac:(lia)).
      replace (S (num_states f + S n - 1)) with (num_states f + S n) in H2 by lia.
      rewrite Nat.eqb_refl in H2. destruct H2 as [_ H2]. apply H2. simpl.
      apply fin_of_oob. lia.
  Qed.

  (** *** Adding a transition *)
  Lemma has_setclr (k : bool) p x y b :
    has (if k then pclr (pset p [x]) [y] else p) b =
    (has p b || (k && pbit_eqb b x)) && negb (k && pbit_eqb b y).
  Proof.
    destruct k; rewrite ?has_pclr, ?has_pset; simpl; rewrite ?orb_false_r, ?andb_true_r; auto.
  Qed.

  Lemma add_tr_sound_m p n m s t :
    sound p n m ->
    sound (add_tr_properties p s t (nth_error (mtrs m s) (length (mtrs m s) - 1))) n
          (with_trs m s (mtrs m s ++ [t])).
  Proof.
    intros Hs.
    set (prev := nth_error (mtrs m s) (length (mtrs m s) - 1)).
    set (m' := with_trs m s (mtrs m s ++ [t])).
    assert (Hsub : submach m m' (fun q => q)).
    { split; simpl; auto. intros q. exists (mtrs m q). split.
      - destruct (Nat.eqb_spec q s); [|apply sublist_refl]. subst.
        clear. induction (mtrs m s); simpl.
        + apply sublist_nil.
        + apply sub_keep; auto.
      - induction (mtrs m q); constructor; auto. }
    assert (Hin : In t (mtrs m' s)).
    { simpl. rewrite Nat.eqb_refl. apply in_or_app; simpl; auto. }
    assert (Hcase : forall q u, In u (mtrs m' q) -> In u (mtrs m q) \/ (q = s /\ u = t)).
    { intros q u. simpl. destruct (Nat.eqb_spec q s); auto. subst.
      rewrite in_app_iff. simpl. intuition. }
    (* last-element facts *)
    assert (Hil : forall q, prev = Some q -> il t < il q -> ~ StronglySorted le (map il (mtrs m' s))).
    { intros q Hq Hlt. simpl. rewrite Nat.eqb_refl, map_app. simpl. rewrite SSorted_snoc.
      intros [_ H]. rewrite Forall_forall in H. apply nth_error_In in Hq.
      apply (in_map il) in Hq. apply H in Hq. lia. }
    assert (Hol : forall q, prev = Some q -> ol t < ol q -> ~ StronglySorted le (map ol (mtrs m' s))).
    { intros q Hq Hlt. simpl. rewrite Nat.eqb_refl, map_app. simpl. rewrite SSorted_snoc.
      intros [_ H]. rewrite Forall_forall in H. apply nth_error_In in Hq.
      apply (in_map ol) in Hq. apply H in Hq. lia. }
    assert (Sil : (forall q, prev = Some q -> il q <= il t) ->
                  StronglySorted le (map il (mtrs m s)) -> StronglySorted le (map il (mtrs m' s))).
    { intros Hq Hss. simpl. rewrite Nat.eqb_refl, map_app. simpl. apply SSorted_snoc. split; auto.
      destruct prev as [q|] eqn:Ep.
      - eapply SSorted_last; [exact Hss| |apply Hq; reflexivity]. rewrite nth_last_map.
        fold prev. rewrite Ep. reflexivity.
      - unfold prev in Ep. apply nth_error_None in Ep.
        destruct (mtrs m s); simpl in *; [constructor|lia]. }
    assert (Sol : (forall q, prev = Some q -> ol q <= ol t) ->
                  StronglySorted le (map ol (mtrs m s)) -> StronglySorted le (map ol (mtrs m' s))).
    { intros Hq Hss. simpl. rewrite Nat.eqb_refl, map_app. simpl. apply SSorted_snoc. split; auto.
      destruct prev as [q|] eqn:Ep.
      - eapply SSorted_last; [exact Hss| |apply Hq; reflexivity]. rewrite nth_last_map.
        fold prev. rewrite Ep. reflexivity.
      - unfold prev in Ep. apply nth_error_None in Ep.
        destruct (mtrs m s); simpl in *; [constructor|lia]. }
    assert (Hother : forall q, q <> s -> mtrs m' q = mtrs m q).
    { intros q Hq. simpl. apply Nat.eqb_neq in Hq. rewrite Hq. auto. }
    (* reduce the transfer function to a per-bit statement *)
    intros b Hb. unfold add_tr_properties in Hb.
    set (k1 := negb (il t =? ol t)) in Hb.
    set (k2 := il t =? 0) in Hb. set (k3 := ol t =? 0) in Hb.
    set (k4 := match prev with Some q => il t <? il q | None => false end).
    set (k5 := match prev with Some q => ol t <? ol q | None => false end).
    set (k6 := nontrivial (wgt t)) in Hb. set (k7 := ns t <=? s) in Hb.
    assert (Hb' : has (let out := p in
       let out := if k1 then pclr (pset out [NOT_ACCEPTOR]) [ACCEPTOR] else out in
       let out := if k2 then pclr (pset out [I_EPSILONS]) [NO_I_EPSILONS] else out in
       let out := if k2 && k3 then pclr (pset out [EPSILONS]) [NO_EPSILONS] else out in
       let out := if k3 then pclr (pset out [O_EPSILONS]) [NO_O_EPSILONS] else out in
       let out := if k4 then pclr (pset out [NOT_I_LABEL_SORTED]) [I_LABEL_SORTED] else out in
       let out := if k5 then pclr (pset out [NOT_O_LABEL_SORTED]) [O_LABEL_SORTED] else out in
       let out := if k6 then pclr (pset out [WEIGHTED]) [UNWEIGHTED] else out in
       let out := if k7 then pclr (pset out [NOT_TOP_SORTED]) [TOP_SORTED] else out in
       let out := pkeep out (pm_add_arc_properties ++
                 [ACCEPTOR; NO_EPSILONS; NO_I_EPSILONS; NO_O_EPSILONS;
                  I_LABEL_SORTED; O_LABEL_SORTED; UNWEIGHTED; TOP_SORTED]) in
       if has out TOP_SORTED then pset out [ACYCLIC; INITIAL_ACYCLIC] else out) b = true).
    { rewrite <- Hb. unfold k4, k5. fold prev. destruct prev, k2, k3; reflexivity. }
    clear Hb. cbv zeta in Hb'.
    assert (Hmono : forall c, In c [NOT_ACCEPTOR; NOT_I_DETERMINISTIC; NOT_O_DETERMINISTIC; EPSILONS;
          I_EPSILONS; O_EPSILONS; NOT_I_LABEL_SORTED; NOT_O_LABEL_SORTED; WEIGHTED; CYCLIC;
          INITIAL_CYCLIC; NOT_TOP_SORTED; ACCESSIBLE; COACCESSIBLE; WEIGHTED_CYCLES] ->
          has p c = true -> holds c n m').
    { intros c Hc Hp. eapply supermach_bits; eauto. }
    assert (HT : has p TOP_SORTED = true -> k7 = false -> holds TOP_SORTED n m').
    { intros Hp Hk q u Hu. apply Hcase in Hu as [Hu|[-> ->]].
      - apply (Hs _ Hp) in Hu. auto.
      - unfold k7 in Hk. apply Nat.leb_gt in Hk. auto. }
    assert (Hk4 : k4 = true -> exists q, prev = Some q /\ il t < il q).
    { unfold k4. destruct prev; [|discriminate]. rewrite Nat.ltb_lt. eauto. }
    assert (Hk5 : k5 = true -> exists q, prev = Some q /\ ol t < ol q).
    { unfold k5. destruct prev; [|discriminate]. rewrite Nat.ltb_lt. eauto. }
    assert (Hk4f : k4 = false -> forall q, prev = Some q -> il q <= il t).
    { unfold k4. intros H q ->. apply Nat.ltb_ge in H. auto. }
    assert (Hk5f : k5 = false -> forall q, prev = Some q -> ol q <= ol t).
    { unfold k5. intros H q ->. apply Nat.ltb_ge in H. auto. }
    assert (Hk1 : if k1 then il t <> ol t else il t = ol t).
    { unfold k1. destruct (Nat.eqb_spec (il t) (ol t)); simpl; auto. }
    assert (Hk2 : if k2 then il t = 0 else il t <> 0).
    { unfold k2. destruct (Nat.eqb_spec (il t) 0); simpl; auto. }
    assert (Hk3 : if k3 then ol t = 0 else ol t <> 0).
    { unfold k3. destruct (Nat.eqb_spec (ol t) 0); simpl; auto. }
    assert (Hk6 : if k6 then ~ plain (wgt t) else plain (wgt t)).
    { destruct k6 eqn:E; unfold k6 in E; [apply nontrivial_plain|apply nontrivial_plain_f]; auto. }
    assert (Hk7 : if k7 then ns t <= s else s < ns t).
    { unfold k7. destruct (Nat.leb_spec (ns t) s); simpl; auto. }
    clearbody k1 k2 k3 k4 k5 k6 k7.
    match type of Hb' with has (if has ?o TOP_SORTED then _ else _) b = true =>
      assert (Ho : forall c, has o c =
        ((((((((((((((((has p c || (k1 && pbit_eqb c NOT_ACCEPTOR)) && negb (k1 && pbit_eqb c ACCEPTOR))
        || (k2 && pbit_eqb c I_EPSILONS)) && negb (k2 && pbit_eqb c NO_I_EPSILONS))
        || (k2 && k3 && pbit_eqb c EPSILONS)) && negb (k2 && k3 && pbit_eqb c NO_EPSILONS))
        || (k3 && pbit_eqb c O_EPSILONS)) && negb (k3 && pbit_eqb c NO_O_EPSILONS))
        || (k4 && pbit_eqb c NOT_I_LABEL_SORTED)) && negb (k4 && pbit_eqb c I_LABEL_SORTED))
        || (k5 && pbit_eqb c NOT_O_LABEL_SORTED)) && negb (k5 && pbit_eqb c O_LABEL_SORTED))
        || (k6 && pbit_eqb c WEIGHTED)) && negb (k6 && pbit_eqb c UNWEIGHTED))
        || (k7 && pbit_eqb c NOT_TOP_SORTED)) && negb (k7 && pbit_eqb c TOP_SORTED))
        && inb c (pm_add_arc_properties ++ [ACCEPTOR; NO_EPSILONS; NO_I_EPSILONS; NO_O_EPSILONS;
                  I_LABEL_SORTED; O_LABEL_SORTED; UNWEIGHTED; TOP_SORTED]))
        by (intros c; rewrite has_pkeep, !has_setclr; reflexivity);
      assert (Hb2 : has o b = true \/
                    (has o TOP_SORTED = true /\ (b = ACYCLIC \/ b = INITIAL_ACYCLIC)))
    end.
    { revert Hb'. generalize Ho. clear. intros _. destruct (has _ TOP_SORTED); auto.
      rewrite has_pset. intros H. apply orb_true_iff in H as [H|H]; auto.
      right. split; auto. apply inb_In in H. simpl in H. intuition. }
    clear Hb'. rewrite !Ho in Hb2. clear Ho.
    destruct Hb2 as [Hb|[Hb Hc]].
    2: { cbn in Hb. rewrite ?andb_false_r, ?andb_true_r, ?orb_false_r in Hb.
         apply andb_true_iff in Hb as [Hp Hk]. rewrite ?negb_true_iff in Hk.
         pose proof (top_sorted_acyclic _ (HT Hp Hk)) as HA.
         destruct Hc as [->| ->]; simpl; intros; apply HA. }
    destruct b; cbn in Hb;
      rewrite ?andb_false_r, ?andb_true_r, ?orb_false_r, ?orb_true_r in Hb; try discriminate.
    all: try (apply Hmono; [simpl; tauto|exact Hb]).
    all: try (apply orb_true_iff in Hb as [Hb|Hk]; [apply Hmono; [simpl; tauto|exact Hb]|]).
    all: try (apply andb_true_iff in Hb as [Hb Hk]; rewrite ?negb_true_iff in Hk).
    all: simpl.
    - intros q u Hu. apply Hcase in Hu as [Hu|[-> ->]]; [apply (Hs _ Hb _ _ Hu)|].
      rewrite Hk in Hk1. auto.
    - exists s, t. rewrite Hk in Hk1. auto.
    - exists s, t. apply andb_true_iff in Hk as [-> ->]. auto.
    - intros q u Hu. apply Hcase in Hu as [Hu|[-> ->]]; [apply (Hs _ Hb _ _ Hu)|].
      apply andb_false_iff in Hk as [-> | ->]; tauto.
    - exists s, t. rewrite Hk in Hk2. auto.
    - intros q u Hu. apply Hcase in Hu as [Hu|[-> ->]]; [apply (Hs _ Hb _ _ Hu)|].
      rewrite Hk in Hk2. auto.
    - exists s, t. rewrite Hk in Hk3. auto.
    - intros q u Hu. apply Hcase in Hu as [Hu|[-> ->]]; [apply (Hs _ Hb _ _ Hu)|].
      rewrite Hk in Hk3. auto.
    - intros q. destruct (Nat.eq_dec q s) as [->|Hq].
      + apply Sil; auto. apply (Hs _ Hb).
      + apply Hother in Hq. simpl in Hq. rewrite Hq. apply (Hs _ Hb).
    - destruct (Hk4 Hk) as (q & Hq & Hlt). exists s. eapply Hil; eauto.
    - intros q. destruct (Nat.eq_dec q s) as [->|Hq].
      + apply Sol; auto. apply (Hs _ Hb).
      + apply Hother in Hq. simpl in Hq. rewrite Hq. apply (Hs _ Hb).
    - destruct (Hk5 Hk) as (q & Hq & Hlt). exists s. eapply Hol; eauto.
    - left. exists s, t. rewrite Hk in Hk6. auto.
    - destruct (Hs _ Hb) as [U1 U2]. split; [|exact U2].
      intros q u Hu. apply Hcase in Hu as [Hu|[-> ->]]; [eauto|].
      rewrite Hk in Hk6. auto.
    - exact (HT Hb Hk).
    - exists s, t. rewrite Hk in Hk7. auto.
  Qed.

  Lemma fsound_view f f' p m' :
    vprops f' = p -> num_states f' = num_states f -> meq m' (mach f') ->
    sound p (num_states f) m' -> fsound f'.
  Proof.
    intros Hp Hn Hm Hs b Hb. rewrite Hn. rewrite Hp in Hb.
    eapply holds_meq; [exact Hm|]. apply Hs; auto.
  Qed.

  Lemma meq_upd_trs f s st l ni no p :
    nth_error (vstates f) s = Some st ->
    meq (with_trs (mach f) s l) (mach (upd_state f s (VS (vfin st) l ni no) p)).
  Proof.
    intros Hst. pose proof (nth_error_lt _ _ _ Hst) as Hlt.
    split; [reflexivity|]. split; intros q; simpl.
    - rewrite trs_of_upd by auto. reflexivity.
    - rewrite fin_of_upd by auto. simpl. destruct (Nat.eqb_spec q s); auto.
      subst. unfold fin_of. rewrite Hst. reflexivity.
  Qed.

  Lemma trs_of_nth f s st : nth_error (vstates f) s = Some st -> trs_of f s = vtrs st.
  Proof. intros H. unfold trs_of. rewrite H. reflexivity. Qed.

  Lemma fsound_add_tr f s t f' : fsound f -> add_tr f s t = Ok f' -> fsound f'.
  Proof.
    intros Hf H. unfold add_tr in H. destruct (nth_error (vstates f) s) as [st|] eqn:Est; inversion H.
    eapply fsound_view; [reflexivity|apply num_states_upd|apply meq_upd_trs; exact Est|].
    pose proof (add_tr_sound_m _ _ _ s t Hf) as A. simpl in A.
    rewrite (trs_of_nth _ _ _ Est) in A. exact A.
  Qed.

  (** *** Deleting transitions *)
  Lemma submach_delete_arcs m' m n b :
    submach m' m (fun q => q) -> mstart m' = mstart m ->
    In b pm_delete_arcs_properties -> holds b n m -> holds b n m'.
  Proof.
    intros S E Hb H.
    assert (Hu : In b [ACCEPTOR; I_DETERMINISTIC; O_DETERMINISTIC; NO_EPSILONS; NO_I_EPSILONS;
       NO_O_EPSILONS; I_LABEL_SORTED; O_LABEL_SORTED; UNWEIGHTED; ACYCLIC; UNWEIGHTED_CYCLES] \/
       In b [INITIAL_ACYCLIC; TOP_SORTED; NOT_ACCESSIBLE; NOT_COACCESSIBLE]).
    { simpl in Hb. simpl. tauto. }
    destruct Hu as [Hu|Hu]; [eapply submach_bits; eauto|].
    simpl in Hu. repeat (destruct Hu as [<-|Hu]); try tauto; simpl in *.
    - intros s Hs Hc. apply (H s); [congruence|]. exact (submach_cycle _ _ _ _ S Hc).
    - intros s t Ht. destruct (submach_In _ _ _ _ _ S Ht) as (t0 & Ht0 & _ & _ & _ & E').
      simpl in E'. rewrite E'. auto.
    - destruct H as (s & Hs & H). exists s. split; auto. intros (q & Hq & Hr). apply H.
      exists q. split; [congruence|]. exact (submach_reach _ _ _ _ _ S Hr).
    - destruct H as (s & Hs & H). exists s. split; auto. intros (q & Hr & Hq). apply H.
      exists q. split; [exact (submach_reach _ _ _ _ _ S Hr)|].
      destruct (mfin m' q) eqn:Ef; [|congruence]. rewrite (sm_fin _ _ _ S _ _ Ef). discriminate.
  Qed.

  Lemma fsound_sub_trs f s st l ni no bits :
    nth_error (vstates f) s = Some st -> sublist l (vtrs st) ->
    incl bits pm_delete_arcs_properties -> fsound f ->
    fsound (upd_state f s (VS (vfin st) l ni no) (pkeep (vprops f) bits)).
  Proof.
    intros Hst Hl Hi Hf.
    eapply fsound_view; [reflexivity|apply num_states_upd|apply meq_upd_trs; exact Hst|].
    intros b Hb. cbn [vprops upd_state] in Hb.
    rewrite has_pkeep in Hb. apply andb_true_iff in Hb as [Hb Hin].
    apply inb_In in Hin. apply (submach_delete_arcs _ (mach f)); auto.
    apply submach_id_trs. simpl. rewrite (trs_of_nth _ _ _ Hst). auto.
  Qed.

  Lemma fsound_delete_trs f s f' : fsound f -> delete_trs f s = Ok f' -> fsound f'.
  Proof.
    intros Hf H. unfold delete_trs in H. destruct (nth_error (vstates f) s) as [st|] eqn:Est; inversion H.
    apply fsound_sub_trs; auto using sublist_nil, incl_refl.
  Qed.
  Lemma fsound_pop_trs f s f' l : fsound f -> pop_trs f s = Ok (f', l) -> fsound f'.
  Proof.
    intros Hf H. unfold pop_trs in H. destruct (nth_error (vstates f) s) as [st|] eqn:Est; inversion H.
    apply fsound_sub_trs; auto using sublist_nil, incl_refl.
  Qed.

  Lemma del_one_sub (ids : list nat) (r : res (vstate K)) st' :
    fold_left del_one ids r = Ok st' ->
    exists st, r = Ok st /\ vfin st' = vfin st /\ sublist (vtrs st') (vtrs st).
  Proof.
    revert r; induction ids as [|i ids IH]; intros r H; simpl in H.
    - exists st'. repeat split; auto. apply sublist_refl.
    - apply IH in H as (st1 & H1 & H2 & H3). unfold del_one in H1.
      destruct r as [st| |]; simpl in H1; try discriminate.
      destruct (nth_error (vtrs st) i) as [t|]; try discriminate.
      destruct (dec_if (il t =? 0) (vnie st)); simpl in H1; try discriminate.
      destruct (dec_if (ol t =? 0) (vnoe st)); simpl in H1; try discriminate.
      inversion H1; subst; simpl in *. exists st. repeat split; auto.
      eapply sublist_trans; [exact H3|]. apply sublist_remove_at.
  Qed.

  Lemma fsound_del_trs_id f s ids f' : fsound f -> del_trs_id_sorted f s ids = Ok f' -> fsound f'.
  Proof.
    intros Hf H. unfold del_trs_id_sorted in H.
    destruct (nth_error (vstates f) s) as [st|] eqn:Est; try discriminate.
    destruct (fold_left del_one (rev ids) (Ok st)) as [st'| |] eqn:E; simpl in H; inversion H.
    apply del_one_sub in E as (st0 & E0 & E1 & E2). inversion E0; subst st0.
    destruct st' as [w l ni no]; simpl in *. subst w.
    assert (D : incl pm_del_some pm_delete_arcs_properties) by (intros b Hb; simpl in *; tauto).
    destruct l; apply fsound_sub_trs; auto using incl_refl.
  Qed.

  (** *** Setting all transitions of a state that has none *)
  Lemma set_trs_props_sound m n s l1 l0 p :
    sound p n (with_trs m s l0) ->
    sound (set_trs_props p s (nth_error l0 (length l0 - 1)) l1) n (with_trs m s (l0 ++ l1)).
  Proof.
    revert l0 p; induction l1 as [|t l1 IH]; intros l0 p Hs; simpl.
    - rewrite app_nil_r. auto.
    - pose proof (add_tr_sound_m _ _ _ s t Hs) as A. simpl in A. rewrite Nat.eqb_refl in A.
      specialize (IH (l0 ++ [t]) (add_tr_properties p s t (nth_error l0 (length l0 - 1)))).
      rewrite <- app_assoc in IH. simpl in IH.
      assert (E : nth_error (l0 ++ [t]) (length (l0 ++ [t]) - 1) = Some t).
      { rewrite app_length. simpl. replace (length l0 + 1 - 1) with (length l0) by lia.
        rewrite nth_error_app2 by lia. rewrite Nat.sub_diag. reflexivity. }
      rewrite E in IH. apply IH.
      intros b Hb. eapply holds_meq; [|apply A; exact Hb].
      split; [reflexivity|]. split; intros q; simpl; auto.
      destruct (Nat.eqb q s); auto.
  Qed.

  Lemma fsound_set_trs f s l f' :
    fsound f -> trs_of f s = [] -> set_trs f s l = Ok f' -> fsound f'.
  Proof.
    intros Hf Hnil H. unfold set_trs in H.
    destruct (nth_error (vstates f) s) as [st|] eqn:Est; inversion H.
    eapply fsound_view; [reflexivity|apply num_states_upd|apply meq_upd_trs; exact Est|].
    apply (set_trs_props_sound (mach f) (num_states f) s l []).
    intros b Hb. eapply holds_meq; [|apply Hf; exact Hb].
    split; [reflexivity|]. split; intros q; simpl; auto.
    destruct (Nat.eqb_spec q s); auto. subst. auto.
  Qed.

  (** *** Deleting states *)
  Lemma del_states_submach f d f' :
    del_states f d = Ok f' ->
    exists g, submach (mach f') (mach f) g /\
      (forall s s', newid d s = Some s' -> s < num_states f -> g s' = s) /\
      (forall s t, In t (trs_of f' s) -> g s < g (ns t) -> s < ns t).
  Proof.
    intros H. apply del_states_inv in H as (H1 & H2 & H3 & _).
    set (n := num_states f) in *.
    set (g := fun i => nth i (filteri (keepb d) 0 (seq 0 n)) 0).
    assert (G : forall s, s < n -> keepb d s = true -> g (rank d s) = s).
    { intros s Hs Hk. unfold g. apply nth_error_nth.
      pose proof (filteri_nth d (seq 0 n) 0 s) as F. simpl in F.
      change (rank d 0) with 0 in F. rewrite Nat.sub_0_r in F.
      rewrite F; auto; rewrite nth_error_seq; auto. discriminate. }
    assert (V : forall s' st', nth_error (vstates f') s' = Some st' ->
              exists s st, s < n /\ keepb d s = true /\ rank d s = s' /\ nth_error (vstates f) s = Some st /\
              vfin st' = vfin st /\ vtrs st' = kept_trs d (vtrs st) /\
              (forall t, In t (vtrs st) -> ns t < n)).
    { intros s' st' Hst'. pose proof (Forall2_nth _ _ _ s' H2) as F. rewrite Hst' in F.
      destruct (nth_error (filteri (keepb d) 0 (vstates f)) s') as [st|] eqn:E; [|tauto].
      assert (s' < rank d n).
      { apply nth_error_lt in E. rewrite filteri_length in E. change (rank d 0) with 0 in E.
        rewrite Nat.sub_0_r in E. exact E. }
      destruct (rank_surj d n s' H) as (s & Hs & Hk & Hr).
      exists s, st. repeat split; auto; try tauto.
      pose proof (filteri_nth d (vstates f) 0 s) as F2. simpl in F2.
      change (rank d 0) with 0 in F2. rewrite Nat.sub_0_r, Hr in F2.
      rewrite <- F2; auto. apply nth_error_Some. exact Hs. }
    exists g. split; [split|split].
    - intros s'. simpl. unfold trs_of at 2.
      destruct (nth_error (vstates f') s') as [st'|] eqn:Est'.
      + destruct (V _ _ Est') as (s & st & Hs & Hk & Hr & Hst & Hf & Ht & Hb).
        exists (filter (fun t => keepb d (ns t)) (vtrs st)). split.
        * subst s'. rewrite G by auto. rewrite (trs_of_nth _ _ _ Hst). apply sublist_filter.
        * rewrite Ht. unfold kept_trs. clear Ht Hst.
          induction (vtrs st) as [|t l IH]; simpl; [constructor|].
          destruct (keepb d (ns t)) eqn:Ek; simpl.
          -- constructor; [|apply IH; intros; apply Hb; simpl; auto]. simpl.
             repeat split; auto. apply G; auto. apply Hb; simpl; auto.
          -- apply IH; intros; apply Hb; simpl; auto.
      + exists []. split; [apply sublist_nil|constructor].
    - intros s' w. simpl. unfold fin_of at 1.
      destruct (nth_error (vstates f') s') as [st'|] eqn:Est'; [|discriminate].
      destruct (V _ _ Est') as (s & st & Hs & Hk & Hr & Hst & Hf & Ht & Hb).
      subst s'. rewrite G by auto. unfold fin_of. rewrite Hst. congruence.
    - intros s s' E Hs. unfold newid in E. destruct (keepb d s) eqn:Ek; inversion E. apply G; auto.
    - intros s' t'. unfold trs_of.
      destruct (nth_error (vstates f') s') as [st'|] eqn:Est'; [|simpl; tauto].
      destruct (V _ _ Est') as (s & st & Hs & Hk & Hr & Hst & Hf & Ht & Hb).
      rewrite Ht. unfold kept_trs. rewrite in_map_iff. intros (t & <- & Hin).
      apply filter_In in Hin as [Hin Hkt]. simpl. subst s'.
      rewrite !G; auto. intros Hlt. apply rank_lt; auto.
  Qed.

  Lemma fsound_del_states f d f' : fsound f -> del_states f d = Ok f' -> fsound f'.
  Proof.
    intros Hf H. pose proof (del_states_inv _ _ _ H) as (_ & _ & I3 & _ & _ & I6).
    pose proof (del_states_submach _ _ _ H) as (g & S & G1 & G2).
    intros b Hb. rewrite I6 in Hb. unfold delete_states_properties in Hb. rewrite has_pkeep in Hb.
    apply andb_true_iff in Hb as [Hb Hin]. apply inb_In in Hin. specialize (Hf _ Hb).
    assert (Hu : In b [ACCEPTOR; I_DETERMINISTIC; O_DETERMINISTIC; NO_EPSILONS; NO_I_EPSILONS;
       NO_O_EPSILONS; I_LABEL_SORTED; O_LABEL_SORTED; UNWEIGHTED; ACYCLIC; UNWEIGHTED_CYCLES] \/
       In b [INITIAL_ACYCLIC; TOP_SORTED]).
    { simpl in Hin. simpl. tauto. }
    destruct Hu as [Hu|Hu]; [eapply submach_bits; eauto|].
    simpl in Hu. repeat (destruct Hu as [<-|Hu]); try tauto; simpl in *.
    - intros s Hs Hc. rewrite I3 in Hs. destruct (vstart f) as [s0|] eqn:Es; simpl in Hs; [|discriminate].
      apply (submach_cycle _ _ _ _ S) in Hc.
      destruct (Nat.ltb_spec s0 (num_states f)).
      + rewrite (G1 s0 s) in Hc by auto. apply (Hf s0); auto.
      + exfalso. clear Hc. revert H. unfold del_states.
        pose proof (mark_deleted_spec (repeat (Some 0) (length (vstates f))) d) as M.
        destruct (mark_deleted (repeat (Some 0) (length (vstates f))) d) as [nid| |]; simpl; try discriminate.
        destruct M as (M1 & M2 & M3). rewrite repeat_length in *.
        pose proof (compact_spec d (vstates f) (length (vstates f)) 0 nid (vstates f) 0) as C.
        destruct (compact (length (vstates f)) 0 nid (vstates f) 0) as [[nid' sts'] nst'].
        destruct C as (C1 & _); auto.
        { intros i Hi. rewrite M3. destruct (keepb d i).
          - rewrite nth_error_repeat; auto; lia.
          - assert (E : i <? length (vstates f) = true) by (apply Nat.ltb_lt; lia). rewrite E. auto. }
        { intros; lia. }
        { intros; lia. }
        destruct (map_res (remap_state nid') (firstn nst' sts')); simpl; try discriminate.
        rewrite Es, (proj2 (nth_error_None nid' s0)); [discriminate|].
        unfold num_states in *. lia.
    - intros s t Ht. apply G2; auto.
      destruct (submach_In _ _ _ _ _ S Ht) as (t0 & Ht0 & _ & _ & _ & E'). rewrite E'. auto.
  Qed.

  (** *** In-place edition of one transition *)
  Lemma In_upd {A} (l : list A) i x y : In y (upd l i x) -> In y l \/ y = x.
  Proof.
    revert i; induction l as [|a l IH]; intros [|i]; simpl; try tauto.
    - intuition.
    - intros [H|H]; auto. apply IH in H. tauto.
  Qed.
  Lemma In_upd_new {A} (l : list A) i x : i < length l -> In x (upd l i x).
  Proof.
    revert i; induction l as [|a l IH]; intros [|i]; simpl; try lia; auto.
    intros H. right. apply IH. lia.
  Qed.
  Lemma In_upd_keep {A} (l : list A) i x o y :
    nth_error l i = Some o -> In y l -> y <> o -> In y (upd l i x).
  Proof.
    revert i; induction l as [|a l IH]; intros [|i]; simpl; try tauto.
    - intros E [H|H] N; [congruence|auto].
    - intros E [H|H] N; eauto.
  Qed.

  Definition label_bits : list pbit :=
    [ACCEPTOR; NOT_ACCEPTOR; EPSILONS; NO_EPSILONS; I_EPSILONS; NO_I_EPSILONS; O_EPSILONS; NO_O_EPSILONS].
  Definition weight_bits : list pbit := [WEIGHTED; UNWEIGHTED].

  Section Edit.
    Context (m : machine K) (n s idx : nat) (o t : tr K) (p : N).
    Hypothesis Ho : nth_error (mtrs m s) idx = Some o.
    Hypothesis Hs : sound p n m.
    Let m' := with_trs m s (upd (mtrs m s) idx t).

    Lemma edit_in q u : In u (mtrs m' q) -> In u (mtrs m q) \/ (q = s /\ u = t).
    Proof.
      simpl. destruct (Nat.eqb_spec q s); auto. subst. intros H. apply In_upd in H. tauto.
    Qed.
    Lemma edit_new : In t (mtrs m' s).
    Proof. simpl. rewrite Nat.eqb_refl. apply In_upd_new. eapply nth_error_lt; eauto. Qed.
    Lemma edit_keep q u : In u (mtrs m q) -> (q = s -> u <> o) -> In u (mtrs m' q).
    Proof.
      intros H N. simpl. destruct (Nat.eqb_spec q s); auto. subst. eapply In_upd_keep; eauto.
    Qed.
    (** A transition of the old machine satisfying [Q], which the edited one does not. *)
    Lemma edit_ex (Q : tr K -> Prop) :
      (exists q u, In u (mtrs m q) /\ Q u) -> (Q o -> Q t) -> exists q u, In u (mtrs m' q) /\ Q u.
    Proof.
      intros (q & u & Hu & HQ) Hot.
      destruct (Nat.eq_dec q s) as [->|N].
      - apply In_nth_error in Hu as (i & Hi). destruct (Nat.eq_dec i idx) as [->|N].
        + assert (E : u = o) by congruence. exists s, t. split; [apply edit_new|]. rewrite E in HQ. auto.
        + exists s, u. split; auto. simpl. rewrite Nat.eqb_refl.
          eapply nth_error_In with (n := i). rewrite nth_error_upd_ne; auto.
      - exists q, u. split; auto. apply edit_keep; [exact Hu|]. intros; contradiction.
    Qed.
    Lemma edit_all (Q : tr K -> Prop) :
      (forall q u, In u (mtrs m q) -> Q u) -> Q t -> forall q u, In u (mtrs m' q) -> Q u.
    Proof. intros H Ht q u Hu. apply edit_in in Hu as [Hu|[_ ->]]; eauto. Qed.

    Lemma edit_same_labels b :
      il t = il o -> ol t = ol o -> In b label_bits -> has p b = true -> holds b n m'.
    Proof.
      intros E1 E2 Hb Hp. specialize (Hs _ Hp).
      assert (Hino : In o (mtrs m s)) by (eapply nth_error_In; eauto).
      simpl in Hb. repeat (destruct Hb as [<-|Hb]); try tauto; cbn [holds] in *.
      all: try (apply edit_ex; [exact Hs|rewrite ?E1, ?E2; auto]).
      all: try (apply edit_all; [exact Hs|rewrite ?E1, ?E2; eauto]).
    Qed.

    Lemma edit_same_weight b :
      wgt t = wgt o -> In b weight_bits -> has p b = true -> holds b n m'.
    Proof.
      intros E1 Hb Hp. specialize (Hs _ Hp).
      assert (Hino : In o (mtrs m s)) by (eapply nth_error_In; eauto).
      simpl in Hb. repeat (destruct Hb as [<-|Hb]); try tauto; cbn [holds] in *.
      - destruct Hs as [H|H]; [left|right; exact H].
        apply edit_ex; [exact H|rewrite E1; auto].
      - destruct Hs as [H1 H2]. split; [|exact H2].
        apply edit_all; [exact H1|rewrite E1; eauto].
    Qed.

    Lemma edit_labels b :
      In b label_bits -> has (update_properties_labels p (il o) (ol o) (il t) (ol t)) b = true ->
      holds b n m'.
    Proof.
      intros Hb Hp. unfold update_properties_labels in Hp.
      destruct (Nat.eqb_spec (il o) (ol o)), (Nat.eqb_spec (il o) 0), (Nat.eqb_spec (ol o) 0),
        (Nat.eqb_spec (il t) (ol t)), (Nat.eqb_spec (il t) 0), (Nat.eqb_spec (ol t) 0);
        try lia; cbn [negb] in Hp; simpl in Hb;
        repeat (destruct Hb as [<-|Hb]); try tauto;
        repeat (rewrite ?has_pclr, ?has_pset in Hp); cbn in Hp;
        rewrite ?andb_false_r, ?andb_true_r, ?orb_false_r, ?orb_true_r in Hp; try discriminate;
        cbn [holds];
        first [ exists s, t; split; [apply edit_new|tauto]
              | exists s, t; split; [apply edit_new|assumption]
              | apply edit_ex; [exact (Hs _ Hp)|tauto]
              | apply edit_ex; [exact (Hs _ Hp)|intros; contradiction]
              | apply edit_all; [exact (Hs _ Hp)|tauto]
              | apply edit_all; [exact (Hs _ Hp)|congruence]
              | apply edit_ex; [exact (Hs _ Hp)|lia] ].
    Qed.

    Lemma edit_weights b :
      In b weight_bits -> has (update_properties_weights p (wgt o) (wgt t)) b = true -> holds b n m'.
    Proof.
      intros Hb Hp. unfold update_properties_weights in Hp.
      assert (Ko : if nontrivial (wgt o) then ~ plain (wgt o) else plain (wgt o)).
      { destruct (nontrivial (wgt o)) eqn:E; [apply nontrivial_plain|apply nontrivial_plain_f]; auto. }
      assert (Kt : if nontrivial (wgt t) then ~ plain (wgt t) else plain (wgt t)).
      { destruct (nontrivial (wgt t)) eqn:E; [apply nontrivial_plain|apply nontrivial_plain_f]; auto. }
      destruct (nontrivial (wgt o)), (nontrivial (wgt t)); simpl in Hb;
        repeat (destruct Hb as [<-|Hb]); try tauto;
        repeat (rewrite ?has_pclr, ?has_pset in Hp); cbn in Hp;
        rewrite ?andb_false_r, ?andb_true_r, ?orb_false_r, ?orb_true_r in Hp; try discriminate;
        cbn [holds].
      - left. exists s, t. split; auto. apply edit_new.
      - destruct (Hs _ Hp) as [H1 H2]. split; [|exact H2]. apply edit_all; auto.
      - left. exists s, t. split; auto. apply edit_new.
      - destruct (Hs _ Hp) as [H|H]; [left|right; exact H].
        apply edit_ex; [exact H|]. contradiction.
      - destruct (Hs _ Hp) as [H1 H2]. split; [|exact H2]. apply edit_all; auto.
    Qed.

    Lemma upd_labels_weight_bits b a1 a2 a3 a4 :
      In b weight_bits -> has (update_properties_labels p a1 a2 a3 a4) b = has p b.
    Proof.
      unfold update_properties_labels. intros Hb. simpl in Hb.
      destruct (a1 =? a2), (a1 =? 0), (a2 =? 0), (a3 =? a4), (a3 =? 0), (a4 =? 0);
        cbn [negb]; repeat (destruct Hb as [<-|Hb]); try tauto;
        repeat (rewrite ?has_pclr, ?has_pset); cbn;
        rewrite ?andb_false_r, ?andb_true_r, ?orb_false_r, ?orb_true_r; auto.
    Qed.
    Lemma upd_weights_label_bits b (w1 w2 : K) p' :
      In b label_bits -> has (update_properties_weights p' w1 w2) b = has p' b.
    Proof.
      unfold update_properties_weights. intros Hb. simpl in Hb.
      destruct (nontrivial w1), (nontrivial w2);
        repeat (destruct Hb as [<-|Hb]); try tauto;
        repeat (rewrite ?has_pclr, ?has_pset); cbn;
        rewrite ?andb_false_r, ?andb_true_r, ?orb_false_r, ?orb_true_r; auto.
    Qed.
    Lemma upd_weights_ext (w1 w2 : K) p1 p2 b :
      (forall c, In c weight_bits -> has p1 c = has p2 c) -> In b weight_bits ->
      has (update_properties_weights p1 w1 w2) b = has (update_properties_weights p2 w1 w2) b.
    Proof.
      unfold update_properties_weights. intros H Hb.
      destruct (nontrivial w1), (nontrivial w2);
        repeat (rewrite ?has_pclr, ?has_pset); rewrite ?H by auto; auto.
    Qed.

    Lemma keep_relevant p' b : has (keep_only_relevant_properties p') b = true ->
      has p' b = true /\ (In b label_bits \/ In b weight_bits).
    Proof.
      unfold keep_only_relevant_properties. rewrite has_pkeep. intros H.
      apply andb_true_iff in H as [H1 H2]. apply inb_In in H2. split; auto.
      simpl in *. tauto.
    Qed.

    Lemma edit_sound_all : sound (compute_new_properties_all p o t) n m'.
    Proof.
      intros b Hb. apply keep_relevant in Hb as [Hb [Hl|Hw]].
      - rewrite upd_weights_label_bits in Hb by auto. apply edit_labels; auto.
      - apply edit_weights; auto. rewrite <- Hb. apply upd_weights_ext; auto.
        intros c Hc. symmetry. apply upd_labels_weight_bits; auto.
    Qed.
    Lemma edit_sound_labels :
      wgt t = wgt o ->
      sound (compute_new_properties_labels p (il o) (ol o) (il t) (ol t)) n m'.
    Proof.
      intros E b Hb. apply keep_relevant in Hb as [Hb [Hl|Hw]].
      - apply edit_labels; auto.
      - apply edit_same_weight; auto. rewrite upd_labels_weight_bits in Hb; auto.
    Qed.
    Lemma edit_sound_weights :
      il t = il o -> ol t = ol o ->
      sound (compute_new_properties_weights p (wgt o) (wgt t)) n m'.
    Proof.
      intros E1 E2 b Hb. apply keep_relevant in Hb as [Hb [Hl|Hw]].
      - apply edit_same_labels; auto. rewrite upd_weights_label_bits in Hb; auto.
      - apply edit_weights; auto.
    Qed.
    Lemma edit_sound_next :
      il t = il o -> ol t = ol o -> wgt t = wgt o ->
      sound (keep_only_relevant_properties p) n m'.
    Proof.
      intros E1 E2 E3 b Hb. apply keep_relevant in Hb as [Hb [Hl|Hw]].
      - apply edit_same_labels; auto.
      - apply edit_same_weight; auto.
    Qed.
  End Edit.

  Lemma fsound_iter_tr f s i t f' : fsound f -> iter_set_tr f s i t = Ok f' -> fsound f'.
  Proof.
    intros Hf H. unfold iter_set_tr, get_state in H.
    destruct (nth_error (vstates f) s) as [st|] eqn:Est; simpl in H; [|discriminate].
    destruct (nth_error (vtrs st) i) as [o|] eqn:Eo; [|discriminate].
    destruct (updt_eps (vnie st) (il o) (il t)); simpl in H; try discriminate.
    destruct (updt_eps (vnoe st) (ol o) (ol t)); simpl in H; try discriminate. inversion H.
    eapply fsound_view; [reflexivity|apply num_states_upd|apply meq_upd_trs; exact Est|].
    rewrite <- (trs_of_nth _ _ _ Est) in *.
    apply (edit_sound_all (mach f)); auto.
  Qed.
  Lemma fsound_iter_labels f s i a b f' : fsound f -> iter_set_labels f s i a b = Ok f' -> fsound f'.
  Proof.
    intros Hf H. unfold iter_set_labels, get_state in H.
    destruct (nth_error (vstates f) s) as [st|] eqn:Est; simpl in H; [|discriminate].
    destruct (nth_error (vtrs st) i) as [o|] eqn:Eo; [|discriminate].
    destruct (updt_eps (vnie st) (il o) a); simpl in H; try discriminate.
    destruct (updt_eps (vnoe st) (ol o) b); simpl in H; try discriminate. inversion H.
    eapply fsound_view; [reflexivity|apply num_states_upd|apply meq_upd_trs; exact Est|].
    rewrite <- (trs_of_nth _ _ _ Est) in *.
    apply (edit_sound_labels (mach f) (num_states f) s i o (Tr a b (wgt o) (ns o))); auto.
  Qed.
  Lemma fsound_iter_weight f s i w f' : fsound f -> iter_set_weight f s i w = Ok f' -> fsound f'.
  Proof.
    intros Hf H. unfold iter_set_weight, get_state in H.
    destruct (nth_error (vstates f) s) as [st|] eqn:Est; simpl in H; [|discriminate].
    destruct (nth_error (vtrs st) i) as [o|] eqn:Eo; [|discriminate]. inversion H.
    eapply fsound_view; [reflexivity|apply num_states_upd|apply meq_upd_trs; exact Est|].
    rewrite <- (trs_of_nth _ _ _ Est) in *.
    apply (edit_sound_weights (mach f) (num_states f) s i o (Tr (il o) (ol o) w (ns o))); auto.
  Qed.
  Lemma fsound_iter_next f s i q f' : fsound f -> iter_set_nextstate f s i q = Ok f' -> fsound f'.
  Proof.
    intros Hf H. unfold iter_set_nextstate, get_state in H.
    destruct (nth_error (vstates f) s) as [st|] eqn:Est; simpl in H; [|discriminate].
    destruct (nth_error (vtrs st) i) as [o|] eqn:Eo; [|discriminate]. inversion H.
    eapply fsound_view; [reflexivity|apply num_states_upd|apply meq_upd_trs; exact Est|].
    rewrite <- (trs_of_nth _ _ _ Est) in *.
    apply (edit_sound_next (mach f) (num_states f) s i o (Tr (il o) (ol o) (wgt o) q)); auto.
  Qed.
End P.
