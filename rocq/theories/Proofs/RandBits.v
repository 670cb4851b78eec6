(** Shape of the expansion of random generation: a tree, with one shared final state when the
    weights are not kept. *)
From Coq Require Import List Arith NArith Lia Bool Sorted.
From Verif Require Import Base.Util Base.Semiring Base.Machine Base.PropSpec Model.Props Model.VectorFst Model.Dfs Model.RandGen
  Proofs.PropsFacts Proofs.VectorFacts Proofs.VectorProps Proofs.TrOpsFacts Proofs.RandFacts Proofs.RandTree.
Import ListNotations.

Lemma filter_all {A} (p : A -> bool) l : (forall x, In x l -> p x = true) -> filter p l = l.
Proof.
  induction l as [|x l IH]; cbn; intros H; auto. rewrite (H x) by auto. f_equal. apply IH. intros. apply H. auto.
Qed.

Section B.
  Context {K : SR}.
  Variable nlog : nat -> nat -> K.
  Variable cfg : rconfig.
  Variable f : vfst K.
  Variable a : nat.
  Hypothesis C : closed f.
  Hypothesis Ha : vstart f = Some a.
  Let wd := rc_weighted cfg.
  Variable nds : list gnode.
  Variable o : rop.
  Variable g : vfst K.
  Hypothesis IV : inv nlog cfg f a nds o g.
  Hypothesis LN : length nds = length (ro_table o).
  Let tbl := ro_table o.
  Let n := num_states g.
  Lemma NO i q m l : nth_error tbl i = Some (RS (Some q) m l) ->
    exists m1 cf b, nth_error nds i = Some (m1, cf, b) /\ node nlog cfg f tbl (ro_super o) g i q m l m1 cf b.
  Proof. apply (node_of nlog cfg f a nds o g IV LN). Qed.
  Lemma KE i q m l m1 cf b pc j : node nlog cfg f tbl (ro_super o) g i q m l m1 cf b ->
    In (pc, j) (combine m1 (seq b (length m1))) ->
    nth_error tbl j = Some (RS (Some (ns (att f q (fst pc)))) (snd pc) (S l)) /\ i < j /\ 0 < snd pc /\
    nth_error (trs_of f q) (fst pc) = Some (att f q (fst pc)).
  Proof. apply (kid_entry nlog cfg f nds o g LN). Qed.

  Lemma n_tbl : n = length tbl. Proof. apply IV. Qed.

  (** Every transition goes to a fresh table entry or to the superfinal state. *)
  Lemma tr_cases s t : In t (trs_of g s) -> exists q m l m1 cf b, nth_error tbl s = Some (RS (Some q) m l) /\
    nth_error nds s = Some (m1, cf, b) /\ node nlog cfg f tbl (ro_super o) g s q m l m1 cf b /\
    ((exists pc j, In (pc, j) (combine m1 (seq b (length m1))) /\ t = ktr nlog cfg f q m (pc, j)) \/
     (wd = false /\ exists z, ro_super o = Some z /\ t = Tr 0 0 kone z /\ 0 < cf)).
  Proof.
    intros H. destruct (Nat.lt_ge_cases s (length tbl)) as [Hs|Hs].
    2: { rewrite (trs_of_oob g) in H by (fold n; rewrite n_tbl; auto). destruct H. }
    destruct (nth_error_ex tbl s Hs) as ([[q|] m l] & Es).
    - destruct (NO s q m l Es) as (m1 & cf & b & E & N). exists q, m, l, m1, cf, b. split; auto. split; auto. split; auto.
      rewrite (nd_trs _ _ _ _ _ _ _ _ _ _ _ _ _ N) in H. apply in_app_or in H as [H|H].
      + left. rewrite kids_ktr in H. apply in_map_iff in H as ([pc j] & <- & H). exists pc, j. auto.
      + right. fold wd in H. destruct wd; [destruct H|]. split; auto. destruct (ro_super o) as [z|]; [|destruct H].
        exists z. split; auto. unfold stops in H. split; [eapply repeat_spec; eauto|]. destruct cf; [destruct H|lia].
    - assert (Hn : s < length nds) by (rewrite LN; auto). destruct (nth_error_ex nds s Hn) as ([[m1 cf] b] & En).
      destruct (iv_snode _ _ _ _ _ _ _ IV s m1 cf b m l En Es) as (_ & _ & E & _). rewrite E in H. destruct H.
  Qed.

  Lemma g_closed s t : In t (trs_of g s) -> ns t < n.
  Proof.
    intros H. rewrite n_tbl. destruct (tr_cases s t H) as (q & m & l & m1 & cf & b & E1 & E2 & N & [(pc & j & X & ->)|(_ & z & Z & -> & _)]).
    - destruct (KE _ _ _ _ _ _ _ _ _ N X) as (K1 & _). cbn. eapply nth_error_lt; eauto.
    - destruct (iv_super _ _ _ _ _ _ _ IV z Z) as [Y _]. cbn. eapply nth_error_lt; eauto.
  Qed.

  Lemma g_cov j : 0 < j < n -> exists s t, In t (trs_of g s) /\ ns t = j.
  Proof.
    intros H. rewrite n_tbl in H. destruct (iv_cov _ _ _ _ _ _ _ IV j H) as [Z|(i & m1 & cf & b & E & Hb)].
    - destruct (iv_sreach _ _ _ _ _ _ _ IV j Z) as (i & m1 & cf & b & E & Hc).
      pose proof (nth_error_lt _ _ _ E) as Hi. rewrite LN in Hi. destruct (nth_error_ex tbl i Hi) as ([[q|] m l] & Ei).
      + destruct (NO i q m l Ei) as (m1' & cf' & b' & E' & N). rewrite E in E'. injection E' as <- <- <-.
        exists i, (Tr 0 0 kone j). split; auto. rewrite (nd_trs _ _ _ _ _ _ _ _ _ _ _ _ _ N). apply in_or_app. right.
        destruct (iv_super _ _ _ _ _ _ _ IV j Z) as [_ W]. rewrite W, Z. unfold stops. destruct cf; [lia|left; auto].
      + destruct (iv_snode _ _ _ _ _ _ _ IV i m1 cf b m l E Ei) as (_ & -> & _). lia.
    - pose proof (nth_error_lt _ _ _ E) as Hi. rewrite LN in Hi. destruct (nth_error_ex tbl i Hi) as ([[q|] m l] & Ei).
      + destruct (NO i q m l Ei) as (m1' & cf' & b' & E' & N). rewrite E in E'. injection E' as <- <- <-.
        destruct (nth_error_ex m1 (j - b)) as (pc & Hpc); [lia|].
        exists i, (ktr nlog cfg f q m (pc, j)). split; auto. rewrite (nd_trs _ _ _ _ _ _ _ _ _ _ _ _ _ N). apply in_or_app. left.
        rewrite kids_ktr. apply in_map. apply (in_kids cfg nds o LN). exists (j - b). split; auto. lia.
      + destruct (iv_snode _ _ _ _ _ _ _ IV i m1 cf b m l E Ei) as (-> & _). cbn in Hb. lia.
  Qed.

  Section Unweighted.
    Hypothesis W : wd = false.
    Lemma RN i q m l : nth_error tbl i = Some (RS (Some q) m l) -> isf g i = false.
    Proof. apply (reg_nonfinal nlog cfg f a nds o g IV LN W). Qed.

    Lemma g_root : isf g 0 = false.
    Proof. eapply RN. apply (iv_root _ _ _ _ _ _ _ IV). Qed.
    Lemma g_leaf z : isf g z = true -> trs_of g z = [].
    Proof.
      intros H. eapply (super_final nlog cfg f a nds o g IV LN). eapply (final_super nlog cfg f a nds o g IV LN W); auto.
    Qed.
    Lemma g_nonf s t : In t (trs_of g s) -> isf g (ns t) = false -> exists q m l m1 cf b pc, nth_error tbl s = Some (RS (Some q) m l) /\
      nth_error nds s = Some (m1, cf, b) /\ node nlog cfg f tbl (ro_super o) g s q m l m1 cf b /\
      In (pc, ns t) (combine m1 (seq b (length m1))).
    Proof.
      intros H F. destruct (tr_cases s t H) as (q & m & l & m1 & cf & b & E1 & E2 & N & [(pc & j & X & ->)|(_ & z & Z & -> & _)]).
      - exists q, m, l, m1, cf, b, pc. auto.
      - cbn in F. destruct (super_final nlog cfg f a nds o g IV LN z Z) as [Y _]. congruence.
    Qed.
    Lemma g_up s t : In t (trs_of g s) -> isf g (ns t) = false -> s < ns t.
    Proof. intros H F. destruct (g_nonf s t H F) as (q & m & l & m1 & cf & b & pc & E1 & E2 & N & X). apply (KE _ _ _ _ _ _ _ _ _ N X). Qed.
    Lemma g_uniqS s t s' t' : In t (trs_of g s) -> In t' (trs_of g s') -> ns t = ns t' -> isf g (ns t) = false -> s = s'.
    Proof.
      intros H H' E F. destruct (g_nonf s t H F) as (q & m & l & m1 & cf & b & pc & E1 & E2 & N & X). rewrite E in F.
      destruct (g_nonf s' t' H' F) as (q' & m' & l' & m1' & cf' & b' & pc' & E1' & E2' & N' & X').
      apply (in_kids cfg nds o LN) in X as (k & Hk & J). apply (in_kids cfg nds o LN) in X' as (k' & Hk' & J'). apply nth_error_lt in Hk. apply nth_error_lt in Hk'.
      destruct (Nat.lt_trichotomy s s') as [S|[S|S]]; auto; exfalso.
      - pose proof (iv_ord _ _ _ _ _ _ _ IV _ _ _ _ _ _ _ _ E2 E2' S). lia.
      - pose proof (iv_ord _ _ _ _ _ _ _ IV _ _ _ _ _ _ _ _ E2' E2 S). lia.
    Qed.
    Lemma g_uniqP s pre t r t' : trs_of g s = pre ++ t :: r -> isf g (ns t) = false -> In t' r -> ns t' <> ns t.
    Proof.
      intros E F Hr X.
      assert (H : In t (trs_of g s)) by (rewrite E; apply in_or_app; right; left; auto).
      destruct (g_nonf s t H F) as (q & m & l & m1 & cf & b & pc & E1 & E2 & N & _).
      pose proof (nd_trs _ _ _ _ _ _ _ _ _ _ _ _ _ N) as Et. fold wd in Et. rewrite W in Et.
      set (nf := fun t : tr K => negb (isf g (ns t))).
      assert (E3 : filter nf (trs_of g s) = kids nlog cfg f q m b m1).
      { rewrite Et, filter_app. transitivity (kids nlog cfg f q m b m1 ++ []); [|apply app_nil_r]. f_equal.
        - rewrite kids_ktr. apply filter_all. intros x Hx. apply in_map_iff in Hx as ([pc' j] & <- & Hx).
          destruct (KE _ _ _ _ _ _ _ _ _ N Hx) as (K1 & _). unfold nf. cbn [ktr ns snd]. rewrite (RN _ _ _ _ K1). auto.
        - destruct (ro_super o) as [z|] eqn:Z; auto. destruct (super_final nlog cfg f a nds o g IV LN z Z) as [Y _].
          unfold stops. clear - Y. induction cf; cbn; auto. unfold nf at 1. cbn. rewrite Y. auto. }
      rewrite E, filter_app in E3. cbn [filter] in E3. assert (Ft : nf t = true) by (unfold nf; rewrite F; auto). rewrite Ft in E3.
      assert (ND : NoDup (map ns (filter nf pre ++ t :: filter nf r))).
      { rewrite E3, kids_ktr, map_map. cbn [ktr ns].
        assert (Es : forall b, map (fun x : nat * nat * nat => snd x) (combine m1 (seq b (length m1))) = seq b (length m1)).
        { clear. induction m1 as [|x m1 IH]; intros b'; cbn; auto. rewrite IH. auto. }
        rewrite Es. apply seq_NoDup. }
      rewrite map_app in ND. apply NoDup_remove_2 in ND. apply ND. apply in_or_app. right. rewrite <- X. apply in_map. apply filter_In. split; auto.
      unfold nf. rewrite X, F. auto.
    Qed.
  End Unweighted.

  (** ** Bits of the weighted expansion *)
  Section Weighted.
    Hypothesis W : wd = true.

    Lemma w_up s t : In t (trs_of g s) -> s < ns t.
    Proof.
      intros H. destruct (tr_cases s t H) as (q & m & l & m1 & cf & b & E1 & E2 & N & [(pc & j & X & ->)|(X & _)]); [|congruence].
      apply (KE _ _ _ _ _ _ _ _ _ N X).
    Qed.
    Lemma w_reach s s' : reach (mach g) s s' -> s <= s'.
    Proof. induction 1 as [|s t s' Ht _ IH]; auto. apply w_up in Ht. lia. Qed.
    Lemma w_access j : j < n -> accessible (mach g) j.
    Proof.
      induction j as [j IH] using lt_wf_ind. intros Hj. exists 0. split; [apply (iv_grow _ _ _ _ _ _ _ IV)|].
      destruct (Nat.eq_dec j 0) as [->|Nj]; [constructor|]. destruct (g_cov j) as (s & t & Ht & <-); [lia|].
      pose proof (w_up s t Ht). destruct (IH s) as (s0 & S1 & S2); [lia|lia|].
      cbn in S1. rewrite (proj1 (iv_grow _ _ _ _ _ _ _ IV)) in S1. injection S1 as <-.
      eapply reach_trans; [exact S2|]. econstructor; [exact Ht|constructor].
    Qed.

    Lemma pick_sub (l : list (tr K)) d : forall (m : list (nat * nat)) lo, asc lo m -> below (length l) m ->
      sublist (map (fun pc => nth (fst pc) l d) m) (skipn lo l).
    Proof.
      induction m as [|[p c] m IH]; intros lo A B; cbn [map].
      - clear. induction (skipn lo l); constructor; auto.
      - destruct A as (A1 & _ & A2). inversion B as [|? ? B1 B2]. subst. cbn [fst] in *. specialize (IH (S p) A2 B2).
        assert (E : skipn p l = nth p l d :: skipn (S p) l).
        { clear - B1. revert p B1. induction l as [|x l IHl]; intros [|p] H; cbn in *; try lia; auto. apply IHl. lia. }
        assert (G : forall k, lo + k = p -> sublist (nth p l d :: map (fun pc => nth (fst pc) l d) m) (skipn lo l)).
        { intros k. revert lo A1. induction k as [|k IHk]; intros lo A1 Hk.
          - assert (lo = p) by lia. subst lo. rewrite E. apply sub_keep. exact IH.
          - assert (Hlo : lo < length l) by lia. assert (E' : skipn lo l = nth lo l d :: skipn (S lo) l).
            { clear - Hlo. revert lo Hlo. induction l as [|x l IHl]; intros [|p] H; cbn in *; try lia; auto. apply IHl. lia. }
            rewrite E'. apply sub_skip. apply IHk; lia. }
        apply (G (p - lo)). lia.
    Qed.

    (** The labels at a state of the expansion are some of those at the state it stands for. *)
    Lemma w_labels s : exists q, sublist (map (fun t => (il t, ol t)) (trs_of g s)) (map (fun t => (il t, ol t)) (trs_of f q)).
    Proof.
      destruct (trs_of g s) as [|t0 r0] eqn:Es.
      { exists 0. cbn. induction (map _ _); constructor; auto. }
      rewrite <- Es. destruct (tr_cases s t0) as (q & m & l & m1 & cf & b & E1 & E2 & N & _); [rewrite Es; left; auto|].
      exists q. rewrite (nd_trs _ _ _ _ _ _ _ _ _ _ _ _ _ N). fold wd. rewrite W, app_nil_r, kids_ktr, map_map.
      pose proof (pick_sub (trs_of f q) (@RandFacts.t0 K) m1 0 (nd_asc _ _ _ _ _ _ _ _ _ _ _ _ _ N) (nd_pos _ _ _ _ _ _ _ _ _ _ _ _ _ N)) as P.
      cbn [skipn] in P. apply (sublist_map (fun t => (il t, ol t))) in P. rewrite map_map in P.
      assert (X : forall b, map (fun x => (il (ktr nlog cfg f q m x), ol (ktr nlog cfg f q m x))) (combine m1 (seq b (length m1))) =
                map (fun pc => (il (nth (fst pc) (trs_of f q) (@RandFacts.t0 K)), ol (nth (fst pc) (trs_of f q) (@RandFacts.t0 K)))) m1).
      { clear. induction m1 as [|pc m1 IH]; intros b; cbn [combine seq length map]; auto. rewrite IH. reflexivity. }
      rewrite X. exact P.
    Qed.
    Lemma w_il s : exists q, sublist (map il (trs_of g s)) (map il (trs_of f q)) /\ sublist (map ol (trs_of g s)) (map ol (trs_of f q)).
    Proof.
      destruct (w_labels s) as (q & P). exists q. pose proof (sublist_map fst _ _ P) as P1. pose proof (sublist_map snd _ _ P) as P2.
      rewrite !map_map in P1, P2. auto.
    Qed.
    Lemma w_tr s t : In t (trs_of g s) -> exists q u, In u (trs_of f q) /\ il u = il t /\ ol u = ol t.
    Proof.
      intros H. destruct (w_labels s) as (q & P). exists q. apply (in_map (fun t => (il t, ol t))) in H. eapply sublist_In in H; [|exact P].
      apply in_map_iff in H as (u & [= E1 E2] & Hu). exists u. auto.
    Qed.

    Theorem w_sound : fsound f -> vprops g = N.land (rand_gen_properties (vprops f) true) (mask pm_copy_properties) -> fsound g.
    Proof.
      intros S E b H. rewrite E in H. rewrite has_land in H. apply andb_prop in H as [H _]. unfold rand_gen_properties in H.
      rewrite !has_lor, has_land, !has_mask in H.
      assert (D : (b = ACYCLIC \/ b = INITIAL_ACYCLIC \/ b = ACCESSIBLE \/ b = UNWEIGHTED_CYCLES \/ b = TOP_SORTED) \/
        (In b [ACCEPTOR; NO_EPSILONS; NO_I_EPSILONS; NO_O_EPSILONS; I_DETERMINISTIC; O_DETERMINISTIC; I_LABEL_SORTED; O_LABEL_SORTED] /\ has (vprops f) b = true)).
      { destruct b; cbn in H; rewrite ?orb_false_r in H; try discriminate H; cbn; auto 15. }
      clear H. assert (NC : forall s, ~ on_cycle (mach g) s).
      { intros s (t & Ht & R). apply w_up in Ht. apply w_reach in R. lia. }
      destruct D as [D|[D Hb]].
      - destruct D as [->|[->|[->|[->| ->]]]]; cbn [holds].
        + auto.
        + auto.
        + intros s Hs. apply w_access; auto.
        + intros s t Ht R. exfalso. apply (NC s). exists t. auto.
        + intros s t Ht. apply w_up; auto.
      - specialize (S b Hb). cbn [In] in D.
        destruct D as [<-|[<-|[<-|[<-|[<-|[<-|[<-|[<-|[]]]]]]]]]; cbn [holds mach mtrs] in *.
        + intros s t Ht. destruct (w_tr s t Ht) as (q & u & Hu & E1 & E2). rewrite <- E1, <- E2. eapply S; eauto.
        + intros s t Ht. destruct (w_tr s t Ht) as (q & u & Hu & E1 & E2). rewrite <- E1, <- E2. eapply S; eauto.
        + intros s t Ht. destruct (w_tr s t Ht) as (q & u & Hu & E1 & E2). rewrite <- E1. eapply S; eauto.
        + intros s t Ht. destruct (w_tr s t Ht) as (q & u & Hu & E1 & E2). rewrite <- E2. eapply S; eauto.
        + intros s. destruct (w_il s) as (q & P1 & P2). eapply sublist_NoDup; eauto.
        + intros s. destruct (w_il s) as (q & P1 & P2). eapply sublist_NoDup; eauto.
        + intros s. destruct (w_il s) as (q & P1 & P2). eapply sublist_SSorted; eauto.
        + intros s. destruct (w_il s) as (q & P1 & P2). eapply sublist_SSorted; eauto.
    Qed.
  End Weighted.
End B.
