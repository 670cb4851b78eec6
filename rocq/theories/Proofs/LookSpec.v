(** The answer of the look-ahead matcher. *)
From Coq Require Import List Arith NArith Bool Lia Sorted.
From Verif Require Import Base.Util Base.Semiring Base.Machine Model.Props Model.VectorFst Model.TrOps Model.Rational Model.Matchers
  Model.BiMap Model.Lazy Model.AlgoProps Model.Visitors Model.Compose Model.IntervalSet Model.Reachable Model.LabelReach Model.LookAhead.
From Verif Require Import Proofs.PropsFacts Proofs.VectorFacts Proofs.TrOpsFacts Proofs.HistoryFacts Proofs.OpFacts
  Proofs.BiMapFacts Proofs.LazyFacts Proofs.TableFacts Proofs.ComposeFacts Proofs.LookFacts Proofs.LookAlt Proofs.LabelFacts.
From Verif Require Import Props.C06 Props.C20 Props.C34 Props.C50 Props.C51.
Import ListNotations.

Lemma ss_lt_unique (a b : list nat) : StronglySorted lt a -> StronglySorted lt b -> (forall x, In x a <-> In x b) -> a = b.
Proof.
  revert b. induction a as [|x a IH]; intros b Sa Sb H.
  - destruct b as [|y b]; auto. destruct (proj2 (H y) (or_introl eq_refl)).
  - destruct b as [|y b]; [destruct (proj1 (H x) (or_introl eq_refl))|].
    inversion Sa; inversion Sb; subst.
    assert (x = y).
    { destruct (proj1 (H x) (or_introl eq_refl)) as [->|Hx]; auto. destruct (proj2 (H y) (or_introl eq_refl)) as [->|Hy]; auto.
      eapply Forall_forall in H3; [|exact Hy]. eapply Forall_forall in H7; [|exact Hx]. lia. }
    subst y. f_equal. apply IH; auto. intros z. split; intros Hz.
    + destruct (proj1 (H z) (or_intror Hz)) as [->|]; auto. eapply Forall_forall in H3; [|exact Hz]. lia.
    + destruct (proj2 (H z) (or_intror Hz)) as [->|]; auto. eapply Forall_forall in H7; [|exact Hz]. lia.
Qed.

Local Open Scope K_scope.
Section S.
  Context {K : SR} (L : lsr_laws K).
  Implicit Types (f : vfst K) (l : list (tr K)).

  Definition covb (d : lrdata) (s x : nat) : bool := match reach_label d s x with Ok b => b | _ => false end.
  Definition rfin (d : lrdata) (s : nat) : bool := match reach_final d s with Ok b => b | _ => false end.

  Definition at_b (p : tr K -> bool) l (i : nat) : bool := match nth_error l i with Some t => p t | None => false end.
  Lemma sel_map (p : tr K -> bool) l : map (nth_error l) (filter (at_b p l) (seq 0 (length l))) = map Some (filter p l).
  Proof.
    induction l as [|t l IH]; auto. cbn [length seq filter]. rewrite <- seq_shift.
    assert (X : forall r, map (nth_error (t :: l)) (filter (at_b p (t :: l)) (map S r)) = map (nth_error l) (filter (at_b p l) r)).
    { induction r as [|i r IHr]; auto. cbn [map filter]. change (at_b p (t :: l) (S i)) with (at_b p l i). destruct (at_b p l i); cbn [map]; rewrite IHr; auto. }
    change (at_b p (t :: l) 0) with (p t). destruct (p t); cbn [map]; rewrite X, IH; auto.
  Qed.

  Lemma fold_ksum (r : list K) a : fold_left kplus r a = a + ksum r.
  Proof.
    revert a. induction r as [|x r IH]; intros a; cbn [fold_left ksum]; [symmetry; apply (kplus_0_r L)|].
    rewrite IH. symmetry. apply (kplus_assoc _ L).
  Qed.

  (** Scanning against a set: in terms of the transitions selected. *)
  Definition span_of (cw : bool) (pos : list nat) (r : list (tr K)) : option (nat * nat * K) :=
    match pos with [] => None | p :: _ => Some (p, S (last pos p), if cw then ksum (map wgt r) else 0) end.
  Lemma reach_filter d s l cw a : nth_error (ld_sets d) s = Some a ->
    Forall nonempty (ivals a) -> separated (ivals a) -> ~ covered (ivals a) O -> StronglySorted le (map il l) ->
    exists pos, let r := filter (fun t => covb d s (il t)) l in
      map (nth_error l) pos = map Some r /\ StronglySorted lt pos /\
      lr_reach d true s l 0 (length l) cw = Ok (span_of cw pos r).
  Proof.
    intros Ea NE SP NZ St.
    destruct (C51_reach d true s l 0 (length l) cw a Ea NE SP NZ ltac:(lia) St) as (pos & (Sp & Ip) & E).
    assert (Cv : forall x, covb d s x = true <-> covered (ivals a) x).
    { intros x. unfold covb, reach_label, interval_set. destruct (Nat.eqb_spec x 0) as [->|]; [split; [discriminate|contradiction]|].
      rewrite Ea. cbn [rbind]. apply (mem_iff a); auto. }
    set (p := fun t => covb d s (il t)).
    assert (Ep : pos = filter (at_b p l) (seq 0 (length l))).
    { apply ss_lt_unique; auto; [apply filter_sorted|]. intros i. rewrite Ip, filter_In, in_seq. unfold at_b. split.
      - intros [Hi (t & Et & H)]. rewrite Et. split; [lia|]. apply Cv. auto.
      - intros [Hi H]. split; [lia|]. destruct (nth_error l i) as [t|]; [|discriminate]. exists t. split; auto. apply Cv. auto. }
    exists pos. cbv zeta. fold p. assert (Em : map (nth_error l) pos = map Some (filter p l)) by (rewrite Ep; apply sel_map).
    split; auto. split; auto. rewrite E. unfold summary, span_of. destruct pos as [|q pos]; auto. f_equal. f_equal. f_equal. destruct cw; auto.
    rewrite fold_ksum, (kplus_0_l _ L). f_equal.
    transitivity (map (fun o : option (tr K) => match o with Some t => wgt t | None => 0 end) (map (nth_error l) (q :: pos))).
    - rewrite map_map. auto.
    - rewrite Em, map_map. auto.
  Qed.

  (** The answer, in terms of the transitions of the other machine that the matcher's state can
      follow and of whether both can end. *)
  Definition look_weight (fl : laflags) (r : list (tr K)) (rf : bool) (w : option K) : K :=
    if fl_weight fl then ksum (map wgt r) + (if rf then fw w else 0) else 0.
  Definition look_ans (fl : laflags) (r : list (tr K)) (rf : bool) (w : option K) : option (lamd K) :=
    match r with
    | [] => if rf then Some (LMD (if fl_weight fl then fw w else 1) None) else None
    | [t] => if fl_prefix fl && negb rf then Some (LMD 1 (Some t)) else Some (LMD (look_weight fl r rf w) None)
    | _ => Some (LMD (look_weight fl r rf w) None)
    end.

  Lemma look_fst_eq fl d ms f2 s2 a : nth_error (ld_sets d) ms = Some a ->
    Forall nonempty (ivals a) -> separated (ivals a) -> ~ covered (ivals a) O -> StronglySorted le (map il (trs_of f2 s2)) ->
    (s2 < num_states f2)%nat ->
    lookahead_fst fl (Some (d, true)) ms f2 s2 =
    Ok (look_ans fl (filter (fun t => covb d ms (il t)) (trs_of f2 s2)) (live_w (fin_of f2 s2) && rfin d ms) (fin_of f2 s2)).
  Proof.
    intros Ea NE SP NZ St H2. unfold lookahead_fst. rewrite get_trs_in, num_trs_in, final_in by auto. cbn [rbind].
    destruct (reach_filter d ms (trs_of f2 s2) (fl_weight fl) a Ea NE SP NZ St) as (pos & Em & Sp & ->). cbn [rbind].
    set (r := filter _ _) in *.
    assert (Erf : (if live_w (fin_of f2 s2) then reach_final d ms else Ok false) = Ok (live_w (fin_of f2 s2) && rfin d ms)).
    { destruct (live_w (fin_of f2 s2)); auto. unfold rfin, reach_final, interval_set. rewrite Ea. auto. }
    rewrite Erf. cbn [rbind]. clear Erf. destruct (live_w (fin_of f2 s2) && rfin d ms) eqn:Rf.
    - apply andb_true_iff in Rf as [Lw _]. destruct (fin_of f2 s2) as [lw|]; [|discriminate].
      destruct r as [|t [|t' r]]; destruct pos as [|p [|q pos]]; try discriminate; cbn [span_of].
      + cbn [rbind fst snd andb orb]. destruct (fl_weight fl) eqn:Ew; cbn [look_ans fw lm_prefix lamd_default]; rewrite Ew; auto.
      + rewrite andb_false_r. cbn [rbind fst snd andb orb look_ans]. unfold look_weight. rewrite andb_false_r.
        destruct (fl_weight fl) eqn:Ew; cbn [lm_weight lm_prefix fw]; auto.
      + rewrite andb_false_r. cbn [rbind fst snd andb orb look_ans]. unfold look_weight.
        destruct (fl_weight fl) eqn:Ew; cbn [lm_weight lm_prefix fw]; auto.
    - destruct r as [|t [|t' r]]; destruct pos as [|p [|q pos]]; try discriminate; cbn [span_of].
      + cbn [rbind fst snd andb orb look_ans]. auto.
      + cbn [last]. replace (S p - p =? 1) with true by (symmetry; apply Nat.eqb_eq; lia). rewrite !andb_true_r.
        cbn [map] in Em. injection Em as Em. cbn [look_ans negb andb]. rewrite andb_true_r. destruct (fl_prefix fl).
        * rewrite Em. auto.
        * cbn [rbind fst snd andb orb]. unfold look_weight. destruct (fl_weight fl); auto. rewrite (kplus_0_r L). auto.
      + assert (Lt : (p < last (p :: q :: pos) p)%nat).
        { rewrite (last_indep _ p q) by discriminate. inversion Sp; subst. eapply Forall_forall in H3; [exact H3|].
          change (last (p :: q :: pos) q) with (last (q :: pos) q). clear. revert q. induction pos as [|a pos IH]; intros q; [left; auto|].
          change (last (q :: a :: pos) q) with (last (a :: pos) q). rewrite (last_indep _ q a) by discriminate. right. apply IH. }
        replace (S (last (p :: q :: pos) p) - p =? 1) with false by (symmetry; apply Nat.eqb_neq; lia). rewrite andb_false_r. cbn [andb rbind fst snd orb look_ans].
        unfold look_weight. destruct (fl_weight fl); auto. rewrite (kplus_0_r L). auto.
  Qed.
End S.
