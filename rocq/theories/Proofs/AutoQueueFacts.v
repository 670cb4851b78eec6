(** The queues built by [AutoQueue::new] meet what their clients need. *)
From Coq Require Import List Arith NArith ZArith Bool Lia Permutation.
From Verif Require Import Base.Util Base.Semiring Base.Machine Base.PropSpec
  Model.Props Model.VectorFst Model.Dfs Model.Visitors Model.Queues Model.ShortestDistance
  Proofs.PropsFacts Proofs.VectorFacts Proofs.DfsFacts Proofs.SccFacts Proofs.VisitFacts Proofs.ConnectFacts Proofs.SortFacts Proofs.QueueFacts Proofs.SdFacts
  Props.C28 Props.C36.
Import ListNotations.

Section Auto.
  Context {K : SR}.
  Implicit Types f : vfst K.

  Lemma graph_sub f keep s u : reach (graph f keep) s u -> reach (mach f) s u.
  Proof.
    induction 1 as [|s t u Ht R IH]; [constructor|]. cbn in Ht. apply filter_In in Ht as [Ht _]. eapply reach_step; eauto.
  Qed.

  Lemma visit_top_keep f keep s0 : closed f -> vstart f = Some s0 -> (forall s, ~ on_cycle (mach f) s) ->
    exists order fl, visit_top f keep = Ok (TV order true fl) /\ Permutation order (seq 0 (num_states f)).
  Proof.
    intros [C1 C2] Es Ac. unfold visit_top. rewrite Es.
    destruct (visit_top_inv keep (trs_of f) (num_states f) s0 (fin_of f) (fun s t _ => C1 s t) (C2 _ Es) (trs_of_beyond f))
      as (v & E & [(A1 & A2 & A3 & A4 & A5)|(A1 & s & A2)]); rewrite E; simpl; rewrite A1.
    - assert (Len : length (tv_finish v) = num_states f).
      { rewrite <- (seq_length (num_states f) 0). apply Permutation_length. apply NoDup_Permutation; auto using seq_NoDup.
        intros u. rewrite A3, in_seq. lia. }
      destruct (fill_order_ok (tv_finish v) 0 (repeat 0 (length (tv_finish v))) A2) as (o & Eo & Lo & No & _).
      { intros q Hq. rewrite repeat_length, Len. apply A3; auto. }
      rewrite Eo. simpl. rewrite repeat_length in Lo. exists o, (tv_finish v). split; auto.
      symmetry. apply NoDup_Permutation_bis; auto using seq_NoDup.
      + rewrite seq_length. lia.
      + intros i Hi. apply in_seq in Hi. destruct (nth_error_ex (tv_finish v) i) as [q Eq]; [lia|].
        rewrite <- (No i q Eq : nth q o 0 = i). apply nth_In. rewrite Lo, Len. apply A3. eapply nth_error_In; eauto.
    - exfalso. apply (Ac s). destruct A2 as (t & Ht & R). exists t. cbn in Ht. apply filter_In in Ht as [Ht _].
      split; auto. apply (graph_sub f keep). rewrite <- Es in R. exact R.
  Qed.

  (** Queue types without a comparator: a component is trivial only if no kept transition stays inside. *)
  Section Types.
    Variables (idem : bool) (keep : tr K -> bool) (f : vfst K) (sccs : list nat) (n : nat).
    Hypothesis Hf : closed f.
    Hypothesis Hl : length sccs = num_states f.
    Hypothesis Hn : Forall (fun c => c < n) sccs.

    Definition tinv (D : nat -> tr K -> Prop) (x : list qtype * bool * bool) : Prop :=
      let '(qt, allt, _) := x in
      length qt = n /\ Forall (fun q => q = TTrivial \/ q = TFifo) qt /\
      (forall s t, D s t -> keep t = true -> nth_error sccs s = nth_error sccs (ns t) ->
         forall c, nth_error sccs s = Some c -> nth_error qt c = Some TFifo) /\
      (allt = true -> Forall (fun q => q = TTrivial) qt).

    Let step := fun (s : nat) (r : res (list qtype * bool * bool)) (t : tr K) =>
        x <-- r ;;
        let '(qt, allt, unw) := x in
        if keep t then
          match nth_error sccs s, nth_error sccs (ns t) with
          | Some a, Some b =>
              let heavy := negb idem || (negb (is_zero_k (wgt t)) && negb (is_one_k (wgt t))) in
              r1 <-- (if Nat.eqb a b then
                        match nth_error qt a with
                        | None => Panic
                        | Some q =>
                            let q' := if negb false || natural_less (wgt t) kone then TFifo
                                      else if qtype_eqb q TTrivial || qtype_eqb q TLifo
                                           then if heavy then TShortest else TLifo
                                           else q in
                            Ok (upd qt a q', if qtype_eqb q' TTrivial then allt else false)
                        end
                      else Ok (qt, allt)) ;;
              Ok (fst r1, snd r1, if heavy then false else unw)
          | _, _ => Panic
          end
        else Ok x.

    Lemma step_ok s t D x : s < num_states f -> In t (trs_of f s) -> tinv D x ->
      exists x', step s (Ok x) t = Ok x' /\ tinv (fun s' t' => D s' t' \/ (s' = s /\ t' = t)) x'.
    Proof.
      intros Hs Ht I. destruct x as [[qt allt] unw]. destruct I as (I1 & I2 & I3 & I4). unfold step. cbn [rbind].
      destruct (keep t) eqn:Ek.
      2:{ eexists. split; [reflexivity|]. split; auto. split; auto. split; auto. intros s' t' [H|[-> ->]]; eauto. congruence. }
      pose proof (proj1 Hf s t Ht) as Hns.
      destruct (nth_error_ex sccs s) as (a & Ea); [lia|]. destruct (nth_error_ex sccs (ns t)) as (b & Eb); [lia|].
      rewrite Ea, Eb. cbn [negb orb qtype_eqb].
      destruct (Nat.eqb_spec a b) as [<-|Hab].
      - assert (Ha : a < n) by (rewrite Forall_forall in Hn; apply Hn; eapply nth_error_In; eauto).
        destruct (nth_error_ex qt a) as (q & Eq); [lia|]. rewrite Eq. cbn [rbind fst snd].
        eexists. split; [reflexivity|]. split; [rewrite upd_length; auto|]. split; [apply Forall_upd; auto|].
        split; [|discriminate].
        intros s' t' [H|[-> ->]] Hk E c Ec.
        + destruct (Nat.eq_dec a c) as [->|Hc]; [apply nth_error_upd_eq; lia|]. rewrite nth_error_upd_ne by auto. eapply I3; eauto.
        + replace c with a by congruence. apply nth_error_upd_eq. lia.
      - cbn [rbind fst snd]. eexists. split; [reflexivity|]. split; auto. split; auto. split; auto.
        intros s' t' [H|[-> ->]] Hk E c Ec; [eapply I3; eauto|]. congruence.
    Qed.

    Lemma steps_ok s l : s < num_states f -> incl l (trs_of f s) -> forall D x, tinv D x ->
      exists x', fold_left (step s) l (Ok x) = Ok x' /\ tinv (fun s' t' => D s' t' \/ (s' = s /\ In t' l)) x'.
    Proof.
      intros Hs. induction l as [|t l IH]; intros Inc D x I.
      - exists x. split; auto. destruct x as [[qt allt] unw]. destruct I as (I1 & I2 & I3 & I4). split; auto. split; auto. split; auto.
        intros s' t' [H|[_ []]]; eauto.
      - cbn [fold_left]. destruct (step_ok s t D x Hs (Inc t (or_introl eq_refl)) I) as (x1 & -> & I1).
        destruct (IH (fun u Hu => Inc u (or_intror Hu)) _ x1 I1) as (x2 & E & I2). exists x2. split; auto.
        destruct x2 as [[qt allt] unw]. destruct I2 as (J1 & J2 & J3 & J4). split; auto. split; auto. split; auto.
        intros s' t' H. apply J3. destruct H as [H|[-> [<-|H]]]; auto.
    Qed.

    Lemma types_ok : exists x, scc_queue_types idem false keep f sccs n = Ok x /\ tinv (fun s t => In t (trs_of f s)) x.
    Proof.
      unfold scc_queue_types.
      assert (G : forall k l D x, (forall s, In s l -> s < num_states f) -> l = seq k (length l) -> tinv D x ->
        exists x', fold_left (fun r s => fold_left (step s) (trs_of f s) r) l (Ok x) = Ok x' /\
          tinv (fun s t => D s t \/ (In s l /\ In t (trs_of f s))) x').
      { intros k l. revert k. induction l as [|s l IH]; intros k D x Hs El I.
        - exists x. split; auto. destruct x as [[qt allt] unw]. destruct I as (I1 & I2 & I3 & I4). split; auto. split; auto. split; auto.
          intros s' t' [H|[[] _]]; eauto.
        - cbn [fold_left]. destruct (steps_ok s (trs_of f s) (Hs s (or_introl eq_refl)) (incl_refl _) D x I) as (x1 & -> & I1).
          assert (El' : l = seq (S k) (length l)) by (cbn in El; congruence).
          destruct (IH (S k) _ x1 (fun u Hu => Hs u (or_intror Hu)) El' I1) as (x2 & E & I2).
          exists x2. split; auto. destruct x2 as [[qt allt] unw]. destruct I2 as (J1 & J2 & J3 & J4). split; auto. split; auto. split; auto.
          intros s' t' H. apply J3. destruct H as [H|[[<-|H] H']]; auto. }
      destruct (G 0 (seq 0 (num_states f)) (fun _ _ => False) (repeat TTrivial n, true, true)) as (x & E & I).
      - intros s Hs. apply in_seq in Hs. lia.
      - rewrite seq_length. auto.
      - split; [apply repeat_length|]. split; [apply Forall_forall; intros q Hq; left; eapply repeat_spec; eauto|].
        split; [intros s t []|]. intros _. apply Forall_forall. intros q Hq. eapply repeat_spec; eauto.
      - exists x. split; [exact E|]. destruct x as [[qt allt] unw]. destruct I as (J1 & J2 & J3 & J4). split; auto. split; auto. split; auto.
        intros s t Ht. apply J3. right. split; auto. apply in_seq.
        assert (s < num_states f); [|lia]. destruct (Nat.lt_ge_cases s (num_states f)); auto. rewrite trs_of_beyond in Ht by auto. destruct Ht.
    Qed.
  End Types.

  (** Two distinct states of one component have a kept transition inside it. *)
  Lemma inside f keep (sc : nat -> Z) s u : (forall a b, reach (graph f keep) a b -> reach (graph f keep) s a -> reach (graph f keep) b u -> sc a = sc b) ->
    reach (graph f keep) s u -> s <> u -> exists t, In t (trs_of f s) /\ keep t = true /\ sc (ns t) = sc s.
  Proof.
    intros H R Hne. destruct R as [s|s t u Ht R]; [congruence|]. exists t. pose proof Ht as Ht'. cbn in Ht'. apply filter_In in Ht' as [Hi Hk].
    split; auto. split; auto. symmetry. apply H; auto; [|constructor]. eapply reach_step; [exact Ht|constructor].
  Qed.

  Theorem auto_queue_fresh idem pathp f keep : closed f ->
    (has (vprops f) ACYCLIC = true -> forall s, ~ on_cycle (mach f) s) ->
    exists q sccs, auto_queue_new idem pathp f None keep = Ok q /\ fresh (fun s => s < num_states f) q sccs /\
      forall s t c d, In t (filter keep (trs_of f s)) -> nth_error sccs s = Some c -> nth_error sccs (ns t) = Some d -> c <= d.
  Proof.
    intros C Sound. unfold auto_queue_new.
    assert (NIL : forall q : sq, simple_fresh (fun s => s < num_states f) q ->
       exists q' sccs, Ok (QS q) = Ok q' /\ fresh (fun s => s < num_states f) q' sccs /\
        forall s t c d, In t (filter keep (trs_of f s)) -> nth_error sccs s = Some c -> nth_error sccs (ns t) = Some d -> c <= d).
    { intros q F. exists (QS q), []. split; auto. split; [constructor; auto|]. intros s t c d _ H. destruct s; discriminate. }
    destruct (vstart f) as [s0|] eqn:Es.
    2:{ rewrite orb_true_r. apply NIL. constructor. }
    rewrite orb_false_r. destruct (has (vprops f) TOP_SORTED); [apply NIL; constructor|].
    destruct (has (vprops f) ACYCLIC).
    { destruct (visit_top_keep f keep s0 C Es (Sound eq_refl)) as (o & fl & -> & P). cbn [rbind tv_acyclic tv_order].
      apply NIL. assert (Lo : length o = num_states f) by (rewrite (Permutation_length P); apply seq_length).
      constructor.
      - intros s Hs. destruct (nth_error_ex o s) as (x & Ex); [lia|]. exists x. split; auto. rewrite Lo.
        apply nth_error_In in Ex. apply (Permutation_in _ P) in Ex. apply in_seq in Ex. lia.
      - intros s s' Hs Hs' E. assert (ND : NoDup o) by (eapply Permutation_NoDup; [symmetry; exact P|apply seq_NoDup]).
        eapply NoDup_nth_error; eauto. lia. }
    destruct (has (vprops f) UNWEIGHTED && idem); [apply NIL; constructor|].
    destruct (C36_scc f keep C) as (v & E & A1 & A2 & A3 & A4 & A5 & _); [congruence|]. rewrite E. cbn [rbind].
    set (sccs := map Z.to_nat (sv_scc v)). set (n := sv_nscc v).
    assert (Ls : length sccs = num_states f) by (unfold sccs; rewrite map_length; auto).
    assert (Nth : forall s, s < num_states f -> exists j, j < n /\ nth_error sccs s = Some j /\ nth s (sv_scc v) (-1)%Z = Z.of_nat j).
    { intros s Hs. destruct (A2 s Hs) as (j & Hj & Ej). exists j. split; auto. split; auto.
      unfold sccs. rewrite nth_error_map, (nth_error_nth' _ (-1)%Z) by lia. cbn. rewrite Ej, Nat2Z.id. auto. }
    assert (Fn : Forall (fun c => c < n) sccs).
    { apply Forall_forall. intros c Hc. apply In_nth_error in Hc as (s & Ec).
      assert (Hs : s < num_states f) by (rewrite <- Ls; apply nth_error_Some; congruence).
      destruct (Nth s Hs) as (j & Hj & Ej & _). congruence. }
    destruct (types_ok idem keep f sccs n C Ls Fn) as ([[qt allt] unw] & Et & T1 & T2 & T3 & T4). rewrite Et. cbn [rbind].
    assert (Mono : forall s t c d, In t (filter keep (trs_of f s)) -> nth_error sccs s = Some c -> nth_error sccs (ns t) = Some d -> c <= d).
    { intros s t c d Ht Ec Ed. assert (Hs : s < num_states f) by (rewrite <- Ls; apply nth_error_Some; congruence).
      assert (Hu : ns t < num_states f) by (rewrite <- Ls; apply nth_error_Some; congruence).
      destruct (Nth s Hs) as (j & _ & Ej & Zj). destruct (Nth (ns t) Hu) as (k & _ & Ek & Zk).
      assert (R : reach (graph f keep) s (ns t)) by (eapply reach_step; [exact Ht|constructor]).
      apply A4 in R; auto. rewrite Zj, Zk in R. assert (c = j) by congruence. assert (d = k) by congruence. lia. }
    (* a trivial component has one state *)
    assert (Uni : forall c, nth_error qt c = Some TTrivial -> forall s s', s < num_states f -> s' < num_states f ->
       nth_error sccs s = Some c -> nth_error sccs s' = Some c -> s = s').
    { intros c Ec s s' Hs Hs' E1 E2. destruct (Nat.eq_dec s s') as [|Hne]; auto. exfalso.
      destruct (Nth s Hs) as (j & _ & Ej & Zj). destruct (Nth s' Hs') as (k & _ & Ek & Zk).
      assert (j = c) by congruence. assert (k = c) by congruence. subst j k.
      assert (R : reach (graph f keep) s s' /\ reach (graph f keep) s' s) by (apply A3; congruence).
      destruct R as [R1 R2].
      destruct R1 as [|s t s' Ht R1]; [congruence|]. cbn in Ht. apply filter_In in Ht as [Ht Hk].
      pose proof (proj1 C s t Ht) as Hu. destruct (Nth (ns t) Hu) as (k & _ & Eu & Zu).
      assert (X : nth s (sv_scc v) (-1)%Z = nth (ns t) (sv_scc v) (-1)%Z).
      { apply A3; auto. split; [eapply reach_step; [cbn; apply filter_In; split; [exact Ht|exact Hk]|constructor]|].
        eapply reach_trans; eauto. }
      assert (k = c) by (rewrite Zj, Zu in X; lia). subst k.
      specialize (T3 s t Ht Hk (eq_trans Ej (eq_sym Eu)) c Ej). congruence. }
    destruct unw; [apply NIL; constructor|].
    destruct allt.
    { apply NIL. specialize (T4 eq_refl). rewrite Forall_forall in T4. constructor.
      - intros s Hs. destruct (Nth s Hs) as (j & Hj & Ej & _). exists j. split; auto. rewrite Ls.
        (* as many components as states *)
        assert (n <= num_states f); [|lia].
        assert (incl (seq 0 n) sccs).
        { intros x Hx. apply in_seq in Hx. destruct (A5 x) as (u & Hu & Zu); [unfold n in *; lia|].
          destruct (Nth u Hu) as (k & _ & Ek & Zk). rewrite Zu in Zk. apply Nat2Z.inj in Zk. subst k. eapply nth_error_In; eauto. }
        rewrite <- Ls, <- (seq_length n 0). apply NoDup_incl_length; auto. apply seq_NoDup.
      - intros s s' Hs Hs' Ee. destruct (Nth s Hs) as (j & Hj & Ej & _). destruct (Nth s' Hs') as (k & Hk & Ek & _).
        destruct (nth_error_ex qt j) as (q & Eq); [lia|]. assert (q = TTrivial) by (apply T4; eapply nth_error_In; eauto). subst q.
        eapply Uni; eauto. congruence. }
    do 2 eexists. split; [reflexivity|]. split; [|exact Mono]. apply fresh_scc.
    - intros s Hs. destruct (Nth s Hs) as (j & Hj & Ej & _). exists j. split; auto. rewrite map_length. lia.
    - intros c q Eq. rewrite nth_error_map in Eq. destruct (nth_error qt c) as [x|] eqn:Ex; [|discriminate].
      injection Eq as <-. rewrite Forall_forall in T2. destruct (T2 x (nth_error_In _ _ Ex)) as [->| ->]; [|constructor].
      constructor. intros s s' [Hs Es1] [Hs' Es2]. eapply Uni; eauto.
  Qed.

  (** A queue as its constructor leaves it serves the clients that follow transitions. *)
  Definition cq_ok (f : vfst K) (keep : tr K -> bool) (q : queue) (M : nat -> nat) (last : option nat) : Prop :=
    qwf (fun s => s < num_states f) q /\ qinv q M last /\ (forall s, M s > 0 -> s < num_states f) /\
    match q with QS _ => True | QScc _ _ _ sccs =>
      forall s t c d, In t (filter keep (trs_of f s)) -> nth_error sccs s = Some c -> nth_error sccs (ns t) = Some d -> c <= d end.

  Lemma code_queue_spec f keep : qspec code_queue (kmach f keep) (num_states f) (cq_ok f keep).
  Proof.
    split; cbn [code_queue qo_clear qo_enqueue qo_dequeue].
    - intros q M last (W & I & D & Mo). destruct (q_clear_ok _ q M last W I D) as (q' & E & Kq & I'). exists q'. split; auto.
      split; [eapply qkind_wf; eauto|]. split; auto. split; [intros; lia|].
      destruct q, q'; simpl in Kq; try contradiction; auto. destruct Kq as [-> _]. auto.
    - intros q M last s (W & I & D & Mo) Hs Hl.
      destruct (q_enqueue_ok _ q M last s W I D Hs) as (q' & E & Kq & I').
      { destruct q as [|a b qs sccs], last as [u|]; simpl; auto. intros c d Ec Ed. destruct (Hl u eq_refl) as (t & Ht & <-). exact (Mo u t c d Ht Ec Ed). }
      exists q', (addM (qmerges q s) M s). split; auto. split; [|split].
      + split; [eapply qkind_wf; eauto|]. split; auto. split.
        * intros x. unfold addM. destruct (Nat.eqb_spec x s) as [->|]; auto.
        * destruct q, q'; simpl in Kq; try contradiction; auto. destruct Kq as [-> _]. auto.
      + unfold addM. rewrite Nat.eqb_refl. destruct (qmerges q s); lia.
      + intros x Hx. unfold addM. rewrite (proj2 (Nat.eqb_neq _ _)) by auto. auto.
    - intros q M last (W & I & D & Mo). destruct (q_dequeue_ok _ q M last W I D) as (o & q' & E & Kq & H).
      exists o, q'. split; auto. destruct o as [s|].
      2:{ destruct H as [H I']. split; auto. split; [eapply qkind_wf; eauto|]. split; auto. split; auto.
          destruct q, q'; simpl in Kq; try contradiction; auto. destruct Kq as [-> _]. auto. }
      destruct H as (P & I' & _). exists (subM M s). split; [|split].
      + split; [eapply qkind_wf; eauto|]. split; auto. split.
        * intros x. unfold subM. destruct (Nat.eqb_spec x s) as [->|]; auto.
        * destruct q, q'; simpl in Kq; try contradiction; auto. destruct Kq as [-> _]. auto.
      + unfold subM. rewrite Nat.eqb_refl. lia.
      + intros x Hx. unfold subM. rewrite (proj2 (Nat.eqb_neq _ _)) by auto. auto.
  Qed.

  Lemma fresh_cq_ok f keep q sccs : fresh (fun s => s < num_states f) q sccs ->
    (forall s t c d, In t (filter keep (trs_of f s)) -> nth_error sccs s = Some c -> nth_error sccs (ns t) = Some d -> c <= d) ->
    cq_ok f keep q (fun _ => 0) None.
  Proof.
    intros F Mo. destruct (fresh_ok _ _ _ F) as [W I]. split; auto. split; auto. split; [intros; lia|].
    destruct q; auto. inversion F; subst. auto.
  Qed.
End Auto.
