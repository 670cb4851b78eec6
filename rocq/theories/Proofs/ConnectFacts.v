(** [connect] removes exactly the useless states. *)
From Coq Require Import List Arith NArith ZArith Lia Bool.
From Verif Require Import Base.Util Base.Semiring Base.Machine Base.PropSpec Model.Props Model.VectorFst
  Model.Dfs Model.Visitors Model.TrOps Model.History
  Proofs.PropsFacts Proofs.VectorFacts Proofs.DelStates Proofs.VectorProps Proofs.TrOpsFacts Proofs.HistoryFacts
  Proofs.DfsFacts Proofs.Tarjan Proofs.SccFacts Proofs.VisitFacts Props.C03.
Import ListNotations.
Local Open Scope K_scope.

Section S.
  Context {K : SR}.
  Implicit Types (f : vfst K).

  Lemma Forall2_in_r {A B} (R : A -> B -> Prop) l m y : Forall2 R l m -> In y m -> exists x, In x l /\ R x y.
  Proof. induction 1; simpl; [tauto|]. intros [<-|Hy]; eauto. destruct (IHForall2 Hy) as (z & ? & ?). eauto. Qed.

  Lemma reach_mono (m1 m2 : machine K) a b : (forall s, incl (mtrs m1 s) (mtrs m2 s)) -> reach m1 a b -> reach m2 a b.
  Proof. intros H. induction 1; [constructor|]. econstructor; eauto. apply H; auto. Qed.

  Lemma fm_any trs start fin s : mtrs (fm (K := K) any_filter trs start fin) s = trs s.
  Proof. simpl. induction (trs s) as [|t l IH]; simpl; auto. rewrite IH; auto. Qed.

  Lemma reach_any f start fin a b : reach (fm any_filter (trs_of f) start fin) a b <-> reach (mach f) a b.
  Proof.
    split; apply reach_mono; intros s; rewrite fm_any; apply incl_refl.
  Qed.
  Lemma coacc_any f start a : coaccessible (fm any_filter (trs_of f) start (fin_of f)) a <-> coaccessible (mach f) a.
  Proof. unfold coaccessible. split; intros (u & A & B); exists u; (split; [apply (reach_any f start (fin_of f) a u) in A|]); auto; apply reach_any; auto. Qed.

  Lemma trs_of_beyond f s : (num_states f <= s)%nat -> trs_of f s = [].
  Proof. intros H. unfold trs_of. rewrite (proj2 (nth_error_None _ _) H). auto. Qed.
  Lemma fin_of_beyond f s : (num_states f <= s)%nat -> fin_of f s = None.
  Proof. intros H. unfold fin_of. rewrite (proj2 (nth_error_None _ _) H). auto. Qed.

  (** What the visit computes. *)
  Lemma visit_connect_ok f : closed f ->
    exists v, visit_connect f = Ok v /\
      forall s, (s < num_states f)%nat ->
        (nth s (cv_access v) false = true /\ co (cv_core v) s = true <-> accessible (mach f) s /\ coaccessible (mach f) s).
  Proof.
    intros [C1 C2]. unfold visit_connect. destruct (vstart f) as [s0|] eqn:Es.
    - destruct (visit_connect_inv any_filter (trs_of f) (num_states f) s0 (fin_of f)
        (fun s t _ => C1 s t) (C2 _ eq_refl) f eq_refl eq_refl Es) as (v & E & _ & A & B).
      exists v. split; auto. intros s Hs. rewrite A, B, reach_any, coacc_any by auto.
      unfold accessible. simpl. rewrite Es. split; intros [H1 H2]; split; auto.
      + exists s0; auto.
      + destruct H1 as (x & Ex & H1). congruence.
    - eexists. split; [reflexivity|]. intros s Hs. simpl. rewrite nth_repeat. split; [intros []; discriminate|].
      intros [(x & Ex & _) _]. simpl in Ex. congruence.
  Qed.

  Definition useful f s := accessible (mach f) s /\ coaccessible (mach f) s.

  (** [d] is exactly the set of useless states of [f]. *)
  Definition useless f (d : list nat) : Prop :=
    (forall s, In s d -> (s < num_states f)%nat) /\
    (forall s, (s < num_states f)%nat -> ~ In s d -> useful f s) /\
    (forall s, In s d -> ~ useful f s).

  Lemma connect_eq f : closed f -> cnt f ->
    exists d g, connect f = Ok (set_properties_with_mask g (mask [ACCESSIBLE; COACCESSIBLE]) (mask [ACCESSIBLE; COACCESSIBLE])) /\
      del_states f d = Ok g /\ is_submachine f d g /\ useless f d /\
      d = filter (fun s => dead d s) (seq 0 (num_states f)).
  Proof.
    intros Hc Hn. destruct (visit_connect_ok f Hc) as (v & E & V). unfold connect. rewrite E.
    cbn [rbind]. set (d := filter (fun s => negb (nth s (cv_access v) false) || negb (co (cv_core v) s)) (seq 0 (num_states f))).
    assert (Hi : forall s, In s d <-> (s < num_states f)%nat /\ ~ (nth s (cv_access v) false = true /\ co (cv_core v) s = true)).
    { intros s. unfold d. rewrite filter_In, in_seq.
      destruct (nth s (cv_access v) false), (co (cv_core v) s); simpl; split; intros [A B]; split; try lia; intuition congruence. }
    assert (Hd : useless f d).
    { split; [intros s H; apply Hi in H; tauto|]. split.
      - intros s Hs Hx. apply V; auto. rewrite Hi in Hx.
        destruct (nth s (cv_access v) false), (co (cv_core v) s); auto; exfalso; apply Hx; split; auto; intros []; congruence.
      - intros s H Hu. apply Hi in H as [Hs H]. apply V in Hu; auto. }
    destruct (del_states_sub f d Hc Hn) as (g & Eg & Sg); [exact (proj1 Hd)|].
    exists d, g. rewrite Eg. cbn [rbind]. split; auto. split; auto. split; auto. split; auto.
    assert (Hdd : forall s, (s < num_states f)%nat ->
      (negb (nth s (cv_access v) false) || negb (co (cv_core v) s)) = dead d s).
    { intros s Hs. apply eq_true_iff_eq. unfold dead. rewrite existsb_exists. split.
      - intros H. exists s. split; [|apply Nat.eqb_refl]. unfold d. apply filter_In. split; auto. apply in_seq. lia.
      - intros (x & Hx & Ex). apply Nat.eqb_eq in Ex. subst x. unfold d in Hx. apply filter_In in Hx. tauto. }
    unfold d at 1. apply filter_ext_in. intros s Hs. apply Hdd. apply in_seq in Hs. lia.
  Qed.

  Lemma dead_In d s : dead d s = true <-> In s d.
  Proof.
    unfold dead. rewrite existsb_exists. split; [intros (x & A & B); apply Nat.eqb_eq in B; subst; auto|].
    intros H. exists s. split; auto. apply Nat.eqb_refl.
  Qed.

  Lemma surv_iff f d k s : useless f d -> nth_error (survivors (num_states f) d) k = Some s -> useful f s /\ (s < num_states f)%nat.
  Proof.
    intros (U1 & U2 & U3) H. apply nth_error_In in H. unfold survivors in H. apply filter_In in H as [A B].
    apply in_seq in A. split; [|lia]. apply U2; [lia|]. intros H. apply dead_In in H. rewrite H in B. discriminate.
  Qed.
  Lemma surv_ex f d s : useless f d -> useful f s -> (s < num_states f)%nat ->
    exists k, nth_error (survivors (num_states f) d) k = Some s.
  Proof.
    intros (U1 & U2 & U3) H Hs. apply In_nth_error. unfold survivors. apply filter_In. split; [apply in_seq; lia|].
    destruct (dead d s) eqn:E; auto. apply dead_In in E. exfalso. eapply U3; eauto.
  Qed.

  Lemma reach_lt f a b : closed f -> reach (mach f) a b -> (a < num_states f)%nat -> (b < num_states f)%nat.
  Proof. intros [C _]. induction 1; auto. intros _. apply IHreach. exact (C s t H). Qed.

  (** Weights through the surviving states. *)
  Lemma sub_wt (L : lsr_laws K) f d g : closed f -> useless f d -> is_submachine f d g ->
    forall n k s x y, nth_error (survivors (num_states f) d) k = Some s ->
      wt (mach g) n k x y = wt (mach f) n s x y.
  Proof.
    intros Hc U (_ & HS & _). induction n; intros k s x y H; simpl.
    - destruct (HS k s H) as [-> _]. auto.
    - destruct (HS k s H) as [_ F]. destruct (surv_iff f d k s U H) as [Us Hs].
      assert (Sub : incl (trs_of f s) (trs_of f s)) by apply incl_refl. revert F Sub.
      generalize (trs_of f s) at 1 2 4. generalize (trs_of g k). intros l' l. revert l'.
      induction l as [|t l IH]; intros l' F Sub; simpl in *.
      + inversion F; auto.
      + assert (Ht : In t (trs_of f s)) by (apply Sub; simpl; auto).
        assert (Sub' : incl l (trs_of f s)) by (intros z Hz; apply Sub; simpl; auto).
        destruct (dead d (ns t)) eqn:Ed; simpl in F.
        * rewrite (IH l' F Sub').
          assert (Z : forall x' y', wt (mach f) n (ns t) x' y' = 0).
          { intros x' y'. apply (wt_dead L). intros Hco. apply dead_In in Ed. destruct U as (_ & _ & U3).
            apply (U3 _ Ed). split; auto. destruct Us as [(s0 & E0 & R) _]. exists s0. split; auto.
            eapply reach_trans; eauto. econstructor; [exact Ht|constructor]. }
          destruct (strip (il t) x), (strip (ol t) y); rewrite ?Z, ?(ktimes_0_r _ L); symmetry; apply (kplus_0_l _ L).
        * inversion F as [|t' ? l2 ? (E1 & E2 & E3 & E4) F']; subst. simpl. rewrite (IH l2 F' Sub'), E1, E2, E3. f_equal.
          destruct (strip (il t) x), (strip (ol t) y); auto. rewrite (IHn _ _ _ _ E4). auto.
  Qed.

  (** Reachability through the surviving states. *)
  Lemma sub_reach f d g : closed f -> useless f d -> is_submachine f d g ->
    forall a b, reach (mach f) a b -> forall k, nth_error (survivors (num_states f) d) k = Some a -> useful f b ->
    exists k', nth_error (survivors (num_states f) d) k' = Some b /\ reach (mach g) k k'.
  Proof.
    intros Hc U (_ & HS & _) a b R. induction R as [a|a t b Ht R IH]; intros k Hk Ub.
    - exists k. split; auto. constructor.
    - destruct (surv_iff f d k a U Hk) as [[(s0 & E0 & R0) _] Ha].
      assert (Ut : useful f (ns t)).
      { split.
        - exists s0. split; auto. eapply reach_trans; eauto. econstructor; [exact Ht|constructor].
        - destruct Ub as [_ (u & A & B)]. exists u. split; auto. eapply reach_trans; eauto. }
      assert (Hd : dead d (ns t) = false).
      { destruct (dead d (ns t)) eqn:E; auto. apply dead_In in E. destruct U as (_ & _ & U3). exfalso. eapply U3; eauto. }
      destruct (HS k a Hk) as [_ F].
      assert (Hin : In t (filter (fun t => negb (dead d (ns t))) (trs_of f a))).
      { apply filter_In. split; auto. rewrite Hd. auto. }
      destruct (Forall2_in_r _ _ _ _ F Hin) as (t' & Ht' & E1 & E2 & E3 & E4).
      destruct (IH (ns t') E4 Ub) as (k' & A & B). exists k'. split; auto. econstructor; [exact Ht'|exact B].
  Qed.

  Lemma sub_useful f d g : closed f -> useless f d -> is_submachine f d g ->
    forall k, (k < num_states g)%nat -> accessible (mach g) k /\ coaccessible (mach g) k.
  Proof.
    intros Hc U S k Hk. pose proof S as (N & HS & St & _). rewrite N in Hk. apply nth_error_Some in Hk.
    destruct (nth_error (survivors (num_states f) d) k) as [s|] eqn:E; [clear Hk|congruence].
    destruct (surv_iff f d k s U E) as [Us Hs]. split.
    - destruct Us as [(s0 & E0 & R) Co]. simpl in E0. rewrite E0 in St.
      assert (U0 : useful f s0).
      { split; [exists s0; split; auto; constructor|]. destruct Co as (u & A & B). exists u. split; auto. eapply reach_trans; eauto. }
      destruct St as [[H _]|(_ & k0 & Ek & Eg)].
      + destruct U as (_ & _ & U3). exfalso. eapply U3; eauto.
      + destruct (sub_reach f d g Hc U S s0 s R k0 Ek) as (k' & A & B); [split; auto; exists s0; auto|].
        exists k0. split; auto. replace k with k'; auto.
        apply survivors_nth in A as (_ & _ & <-). apply survivors_nth in E as (_ & _ & <-). auto.
    - destruct Us as [(s0 & E0 & R) (u & A & B)].
      assert (Uu : useful f u).
      { split; [exists s0; split; auto; eapply reach_trans; eauto|]. exists u. split; auto. constructor. }
      destruct (sub_reach f d g Hc U S s u A k E Uu) as (k' & A' & B'). exists k'. split; auto.
      simpl. destruct (HS k' u A') as [-> _]. exact B.
  Qed.

  Lemma sub_closed f d g : closed f -> is_submachine f d g -> closed g.
  Proof.
    intros Hc (N & HS & St & _). split.
    - intros k t Ht. destruct (Nat.ltb_spec k (num_states g)).
      + rewrite N in *. apply nth_error_Some in H. destruct (nth_error (survivors (num_states f) d) k) as [s|] eqn:E; [|congruence].
        destruct (HS k s E) as [_ F]. destruct (Forall2_in_l _ _ _ _ F Ht) as (t' & _ & _ & _ & _ & E4).
        apply nth_error_Some. congruence.
      + rewrite trs_of_beyond in Ht by auto. destruct Ht.
    - intros k Ek. rewrite N. destruct (vstart f) as [s|]; [|congruence].
      destruct St as [[_ H]|(_ & k0 & H1 & H2)]; [congruence|].
      apply nth_error_Some. congruence.
  Qed.
End S.
