(** C43: compute_fst_properties reports only true bits and decides every bit it is asked for. *)
From Coq Require Import List Arith NArith ZArith Bool Lia.
From Verif Require Import Base.Util Base.Semiring Base.Machine Base.PropSpec Base.Instances
  Model.Props Model.VectorFst Model.TrOps Model.Dfs Model.Visitors Model.History Model.ComputeProps
  Proofs.PropsFacts Proofs.VectorFacts Proofs.VectorProps Proofs.DfsFacts Proofs.Tarjan Proofs.SccFacts Proofs.VisitFacts Proofs.ConnectFacts
  Proofs.ComputeFacts.
Import ListNotations.

Lemma posb_cases b : In b dfs_props \/ In b posb \/ In (opp b) posb.
Proof. destruct b; unfold dfs_props, posb; simpl; tauto. Qed.

Section C43.
  Context {K : SR} (L : lsr_laws K).
  Implicit Types (f : vfst K).

  (** No final weight is the semiring zero. *)
  Definition no_zero_final f : Prop := forall s w, fin_of f s = Some w -> w <> kzero.

  (** The bits that do not look at labels or weights. *)
  Definition shape_only (m : N) : Prop := forall b, has m b = true ->
    In b [ACYCLIC; CYCLIC; INITIAL_ACYCLIC; INITIAL_CYCLIC; ACCESSIBLE; NOT_ACCESSIBLE; COACCESSIBLE; NOT_COACCESSIBLE].

  Theorem C43_compute_fst_properties :
    forall f m use_stored, closed f -> vstart f <> None -> no_zero_final f \/ shape_only m ->
    (use_stored = true -> forall b, has (vprops f) b = true -> holds b (num_states f) (mach f)) ->
    exists p k, compute_fst_properties f m use_stored = Ok (p, k) /\
      (forall b, has p b = true -> holds b (num_states f) (mach f)) /\
      (forall b, has m b = true -> has p b = true \/ has p (opp b) = true) /\
      (forall b, has k b = true <-> has p b = true \/ has p (opp b) = true).
  Proof.
    intros f m us Hc Hs Hz Hst. unfold compute_fst_properties.
    assert (KN : forall p b, has (known_properties p) b = true <-> has p b = true \/ has p (opp b) = true).
    { intros p b. rewrite has_known. apply orb_true_iff. }
    destruct (us && N.eqb (N.land (known_properties (vprops f)) m) m) eqn:E.
    { apply andb_true_iff in E as [-> E]. apply N.eqb_eq in E. eexists. eexists. split; [reflexivity|].
      split; auto. split; [|apply KN]. intros b Hb. apply KN. rewrite <- E, has_land in Hb.
      apply andb_true_iff in Hb. tauto. }
    clear E. set (n := num_states f) in *.
    change (pset (pset (mask dfs_props) [WEIGHTED_CYCLES]) [UNWEIGHTED_CYCLES]) with
           (pset (mask dfs_props) [WEIGHTED_CYCLES; UNWEIGHTED_CYCLES]).
    set (ucy := intersects m (pset (mask dfs_props) [WEIGHTED_CYCLES; UNWEIGHTED_CYCLES])).
    assert (DFS : exists p sc, (if ucy then v <-- visit_scc f any_filter ;;
               Ok (N.lor (N.land (vprops f) binary_properties) (N.land (mask dfs_props) (sv_props v)), sv_scc v)
             else Ok (N.land (vprops f) binary_properties, [])) = Ok (p, sc) /\
       (forall b, has p b = true -> In b dfs_props /\ holds b n (mach f)) /\
       (ucy = true -> forall b, In b dfs_props -> has p b = true \/ has p (opp b) = true) /\
       (ucy = true -> length sc = n) /\
       (ucy = true -> forall s u, s < n -> u < n -> (nth s sc 0%Z = nth u sc 0%Z <-> reach (mach f) s u /\ reach (mach f) u s))).
    { destruct ucy.
      - destruct (vstart f) as [s0|] eqn:Es; [clear Hs|congruence]. unfold visit_scc. rewrite Es.
        destruct Hc as [C1 C2].
        destruct (visit_scc_inv any_filter (trs_of f) (num_states f) s0 (fin_of f) (fun s t _ => C1 s t) (C2 _ Es)
                (trs_of_beyond f)) as (v & E & A1 & A2 & A3 & A4 & A5 & A6 & A7 & A8 & B1 & B2 & B3 & B4).
        fold n in A1, A2, A3, A4, A5, A6, A7, A8. cbv zeta. fold n. fold n in E. rewrite E. cbn [rbind]. eexists. eexists. split; [reflexivity|].
        assert (HB : forall b, has (N.lor (N.land (vprops f) binary_properties) (N.land (mask dfs_props) (sv_props v))) b =
                 inb b dfs_props && has (sv_props v) b).
        { intros b. rewrite has_lor, !has_land, has_mask. unfold binary_properties. rewrite has_0, andb_false_r. auto. }
        assert (MEQ : meq (fm any_filter (trs_of f) (Some s0) (fin_of f)) (mach f)).
        { split; [symmetry; exact Es|]. split; [|reflexivity]. intros s. rewrite fm_any. reflexivity. }
        split; [|split; [|split]].
        + intros b Hb. rewrite HB in Hb. apply andb_true_iff in Hb as [H1 H2]. apply inb_In in H1. split; auto.
          apply A8 in H2. apply (holds_meq b n _ _ MEQ). apply H2.
        + intros _ b Hb. rewrite !HB. apply inb_In in Hb. 
          assert (OP : inb (opp b) dfs_props = true) by (destruct b; try discriminate; reflexivity).
          rewrite Hb, OP. simpl.
          apply inb_In in Hb. unfold dfs_props in Hb.
          repeat (destruct Hb as [<-|Hb]); try (destruct Hb; fail); simpl opp; rewrite ?B1, ?B2, ?B3, ?B4;
          match goal with |- context [negb ?x] => destruct x; auto end.
        + intros _. auto.
        + intros _ s u Hs Hu. rewrite <- (reach_any f (Some s0) (fin_of f) s u), <- (reach_any f (Some s0) (fin_of f) u s).
          rewrite <- A3 by auto.
          rewrite (nth_indep _ 0%Z (-1)%Z) by (rewrite A1; auto). rewrite (nth_indep _ 0%Z (-1)%Z (n := u)) by (rewrite A1; auto). tauto.
      - eexists. eexists. split; [reflexivity|]. split; [|repeat split; discriminate].
        intros b Hb. rewrite has_land in Hb. unfold binary_properties in Hb. rewrite has_0, andb_false_r in Hb. discriminate. }
    destruct DFS as (p0 & sc & E0 & D1 & D2 & D3 & D4). rewrite E0. cbn [rbind].
    assert (D5 : forall b, In b posb -> has p0 b = false /\ has p0 (opp b) = false).
    { intros b Hb. assert (N1 : forall c, ~ In c dfs_props -> has p0 c = false).
      { intros c H. destruct (has p0 c) eqn:E; auto. apply D1 in E. tauto. }
      split; apply N1; intros H; unfold posb in Hb;
      repeat (destruct Hb as [<-|Hb]); try (destruct Hb; fail); unfold dfs_props in H; simpl in H;
      repeat (destruct H as [H|H]; [discriminate|]); auto. }
    assert (D6 : forall b, In b dfs_props -> has m b = true -> ucy = true).
    { intros b Hb Hm. unfold ucy. apply intersects_has with b; auto. rewrite has_pset, has_mask.
      apply inb_In in Hb. rewrite Hb. auto. }
    destruct (intersects m (pnot (N.lor binary_properties (mask dfs_props)))) eqn:EI.
    - assert (Hz' : no_zero_final f).
      { destruct Hz as [Hz|Hz]; auto. exfalso.
        change (pnot (N.lor binary_properties (mask dfs_props))) with
          (mask (filter (fun b => negb (inb b dfs_props)) all_bits)) in EI.
        rewrite intersects_mask in EI. apply existsb_exists in EI as (b & Hb & Hm).
        apply filter_In in Hb as [_ Hb]. apply Hz in Hm. apply negb_true_iff in Hb.
        apply inb_In in Hm. unfold dfs_props in Hb. congruence. }
      clear Hz. rename Hz' into Hz.
      match goal with |- context [fold_left _ _ (Ok (?c, 0))] => set (c0 := c) end.
      set (idet := intersects m (mask [I_DETERMINISTIC; NOT_I_DETERMINISTIC])) in *.
      set (odet := intersects m (mask [O_DETERMINISTIC; NOT_O_DETERMINISTIC])) in *.
      assert (T0 : forall b, In b posb -> tracks idet odet ucy b c0 false).
      { intros b Hb. destruct (D5 b Hb) as [X1 X2]. unfold c0, tracks. unfold posb in Hb.
        repeat (destruct Hb as [<-|Hb]); try (destruct Hb; fail); cbn [opp en] in *;
        destruct idet, odet, ucy; rewrite ?has_pset, ?X1, ?X2; cbn; auto. }
      assert (T1 : forall b, In b dfs_props -> has c0 b = has p0 b).
      { intros b Hb. unfold c0. unfold dfs_props in Hb.
        repeat (destruct Hb as [<-|Hb]); try (destruct Hb; fail);
        destruct idet, odet, ucy; rewrite ?has_pset; cbn; rewrite ?orb_false_r; auto. }
      destruct (cfp_states_ok (K := K) idet odet ucy sc f D3 Hc n 0 c0 eq_refl) as (p' & E & T & D).
      { destruct (T0 UNWEIGHTED_CYCLES) as [X _]; [unfold posb; simpl; tauto|]. simpl in X. rewrite X.
        destruct ucy; auto. }
      change (nfin f 0) with 0 in E.
      match goal with |- context [fold_left ?g ?l ?z] => replace (fold_left g l z) with (Ok (p', nfin f n)) by (symmetry; exact E) end.
      cbn [rbind fst]. eexists. eexists. split; [reflexivity|].
      set (st := match vstart f with Some s => negb (Nat.eqb s 0) | None => false end).
      assert (HP : forall b, In b posb -> b <> STRING ->
         has (mark st NOT_STRING STRING p') b = en idet odet ucy b && negb (viol sc f b) /\
         has (mark st NOT_STRING STRING p') (opp b) = en idet odet ucy b && viol sc f b).
      { intros b Hb Hn. destruct (T b false Hb (T0 b Hb)) as [X1 X2]. simpl in X1, X2. fold n in X1, X2.
        change (existsb (bads sc f b) (seq 0 n)) with (viol sc f b) in X1, X2. rewrite !has_mark.
        unfold posb in Hb. clear - X1 X2 Hb Hn. generalize dependent (viol sc f b). intros v X1 X2.
        repeat (destruct Hb as [<-|Hb]); try (destruct Hb; fail); try congruence; cbn [opp] in *; rewrite X1, X2; cbn;
        rewrite ?andb_false_r, ?orb_false_r, ?andb_true_r, ?orb_false_r, ?andb_true_r; auto. }
      assert (HS : has (mark st NOT_STRING STRING p') STRING = negb (viol sc f STRING || st) /\
                   has (mark st NOT_STRING STRING p') NOT_STRING = viol sc f STRING || st).
      { assert (Hb : In STRING posb) by (unfold posb; simpl; tauto).
        destruct (T STRING false Hb (T0 STRING Hb)) as [X1 X2]. cbn [opp en] in X1, X2. simpl in X1, X2.
        change (existsb (bads sc f STRING) (seq 0 n)) with (viol sc f STRING) in X1, X2.
        rewrite !has_mark, X1, X2. cbn. destruct (viol sc f STRING), st; auto. }
      assert (HD : forall b, In b dfs_props -> has (mark st NOT_STRING STRING p') b = has p0 b).
      { intros b Hb. rewrite <- T1, <- D by auto. rewrite has_mark. unfold dfs_props in Hb.
        repeat (destruct Hb as [<-|Hb]); try (destruct Hb; fail); cbn;
        rewrite ?andb_false_r, ?orb_false_r, ?andb_true_r; auto. }
      assert (SV : viol sc f STRING || st = false <-> is_string n (mach f)).
      { destruct (vstart f) as [s0|] eqn:Es; [|congruence].
        pose proof (string_viol f s0 Hc Es) as SVV. fold n in SVV. rewrite <- SVV, string_scc.
        unfold st. rewrite orb_false_iff, negb_false_iff, Nat.eqb_eq. tauto. }
      assert (VS : forall b, In b posb -> b <> STRING -> en idet odet ucy b = true ->
         (viol sc f b = false -> holds b n (mach f)) /\ (viol sc f b = true -> holds (opp b) n (mach f))).
      { intros b Hb Hn He. apply (viol_spec L); auto. intros -> . apply D4. exact He. }
      assert (OO : forall b, opp (opp b) = b) by (intros []; reflexivity).
      split; [|split; [|apply KN]].
      + intros b Hb. destruct (posb_cases b) as [HH|[HH|HH]].
        * rewrite HD in Hb by auto. apply D1 in Hb. tauto.
        * destruct (pbit_eq_dec b STRING) as [->|Hn].
          { destruct HS as [HS _]. rewrite HS in Hb. apply negb_true_iff in Hb. apply SV in Hb. exact Hb. }
          destruct (HP b HH Hn) as [X _]. rewrite X in Hb. apply andb_true_iff in Hb as [H1 H2].
          apply negb_true_iff in H2. apply (VS b); auto.
        * destruct (pbit_eq_dec (opp b) STRING) as [Hn|Hn].
          { assert (b = NOT_STRING) as -> by (rewrite <- (OO b), Hn; reflexivity).
            destruct HS as [_ HS]. rewrite HS in Hb. simpl. intros HX. apply SV in HX. congruence. }
          destruct (HP (opp b) HH Hn) as [_ X]. rewrite OO in X. rewrite X in Hb. apply andb_true_iff in Hb as [H1 H2].
          rewrite <- (OO b). apply (VS (opp b)); auto.
      + intros b Hm. destruct (posb_cases b) as [HH|[HH|HH]].
        * rewrite !HD; auto. { apply D2; eauto. } clear - HH. unfold dfs_props in *. destruct b; simpl in *; tauto || intuition discriminate.
        * destruct (pbit_eq_dec b STRING) as [->|Hn].
          { cbn [opp]. destruct HS as [-> ->]. destruct (viol sc f STRING || st); auto. }
          destruct (HP b HH Hn) as [-> ->].
          assert (He : en idet odet ucy b = true).
          { destruct b; auto; cbn [en]; (eapply intersects_has; [exact Hm|]); rewrite ?has_pset, ?has_mask; reflexivity. }
          rewrite He. destruct (viol sc f b); auto.
        * destruct (pbit_eq_dec (opp b) STRING) as [Hn|Hn].
          { assert (b = NOT_STRING) as -> by (rewrite <- (OO b), Hn; reflexivity).
            cbn [opp]. destruct HS as [-> ->]. destruct (viol sc f STRING || st); auto. }
          destruct (HP (opp b) HH Hn) as [X1 X2]. rewrite OO in X2. rewrite X1, X2.
          assert (He : en idet odet ucy (opp b) = true).
          { destruct b; auto; cbn [opp en]; (eapply intersects_has; [exact Hm|]); rewrite ?has_pset, ?has_mask; reflexivity. }
          rewrite He. destruct (viol sc f (opp b)); auto.
    - eexists. eexists. split; [reflexivity|]. split; [|split; [|apply KN]].
      + intros b Hb. apply D1 in Hb. tauto.
      + intros b Hm. assert (Hb : In b dfs_props).
        { apply inb_In. destruct (inb b dfs_props) eqn:E; auto. exfalso.
          rewrite (intersects_has m _ b Hm) in EI; [discriminate|].
          rewrite has_pnot, has_lor, has_mask, E. unfold binary_properties. rewrite has_0. auto. }
        eauto.
  Qed.

  (** compute_and_update_properties changes nothing but the stored bits; these stay true, and
      the answer has exactly one bit of every requested pair. *)
  Theorem C43_compute_and_update :
    forall f m, closed f -> vstart f <> None -> no_zero_final f \/ shape_only m ->
    (forall b, has (vprops f) b = true -> holds b (num_states f) (mach f)) ->
    exists g q, compute_and_update_properties f m = Ok (g, q) /\
      vstates g = vstates f /\ vstart g = vstart f /\ visymt g = visymt f /\ vosymt g = vosymt f /\
      (forall b, has (vprops g) b = true -> holds b (num_states f) (mach f)) /\
      (forall b, has q b = true <-> has m b = true /\ holds b (num_states f) (mach f)).
  Proof.
    intros f m Hc Hs Hz Hst. unfold compute_and_update_properties.
    destruct (C43_compute_fst_properties f m true Hc Hs Hz (fun _ => Hst)) as (p & k & E & A & B & C).
    rewrite E. cbn [rbind fst snd]. eexists. eexists. split; [reflexivity|]. split; [reflexivity|].
    split; [reflexivity|]. split; [reflexivity|]. split; [reflexivity|].
    assert (X : forall b, ~ (holds b (num_states f) (mach f) /\ holds (opp b) (num_states f) (mach f))).
    { intros b [H1 H2]. exact (holds_consistent L b _ _ H1 H2). }
    split.
    - intros b. simpl. rewrite has_lor, !has_land. intros H. apply orb_true_iff in H as [H|H].
      + apply andb_true_iff in H as [H _]. auto.
      + apply andb_true_iff in H as [H _]. auto.
    - intros b. rewrite has_land. split.
      + intros H. apply andb_true_iff in H as [H1 H2]. auto.
      + intros [H1 H2]. rewrite H1, andb_true_r. destruct (B b H1) as [H|H]; auto.
        exfalso. apply (X b). auto.
  Qed.

  (** The answer is also stored: every requested bit that is true is set afterwards. *)
  Theorem C43_stored :
    forall f m g q, closed f -> vstart f <> None -> no_zero_final f \/ shape_only m ->
    (forall b, has (vprops f) b = true -> holds b (num_states f) (mach f)) ->
    compute_and_update_properties f m = Ok (g, q) ->
    forall b, has m b = true -> holds b (num_states f) (mach f) -> has (vprops g) b = true.
  Proof.
    intros f m g q Hc Hs Hz Hst H b Hm Hb. unfold compute_and_update_properties in H.
    destruct (C43_compute_fst_properties f m true Hc Hs Hz (fun _ => Hst)) as (p & k & E & A & B & C).
    rewrite E in H. cbn [rbind fst snd] in H. injection H as <- _. cbn [set_properties_with_mask with_props vprops].
    rewrite has_lor, !has_land. apply orb_true_iff. right. apply andb_true_iff.
    assert (P : has p b = true).
    { destruct (B b Hm) as [X|X]; auto. exfalso. apply (holds_consistent L b (num_states f) (mach f)); auto. }
    split; auto. apply C. auto.
  Qed.

  (** Every requested pair is decided afterwards. *)
  Theorem C43_decided :
    forall f m g q, closed f -> vstart f <> None -> no_zero_final f \/ shape_only m ->
    (forall b, has (vprops f) b = true -> holds b (num_states f) (mach f)) ->
    compute_and_update_properties f m = Ok (g, q) ->
    forall b, has m b = true -> has (vprops g) b = true \/ has (vprops g) (opp b) = true.
  Proof.
    intros f m g q Hc Hs Hz Hst H b Hm. unfold compute_and_update_properties in H.
    destruct (C43_compute_fst_properties f m true Hc Hs Hz (fun _ => Hst)) as (p & k & E & A & B & C).
    rewrite E in H. cbn [rbind fst snd] in H. injection H as <- _. cbn [set_properties_with_mask with_props vprops].
    rewrite !has_lor, !has_land. destruct (B b Hm) as [X|X]; [left|right]; rewrite X.
    - replace (has k b) with true; [apply orb_true_r|]. symmetry. apply C. auto.
    - replace (has k (opp b)) with true; [apply orb_true_r|]. symmetry. apply C. auto.
  Qed.
End C43.

(** Outside the guards the answer is wrong: an explicit zero final weight makes the machine
    "weighted" although all its weights are zero or one ... *)
Theorem C43_zero_final_refuted :
  exists (calls : list (op natSR)) f p k, run vnew calls = Ok f /\ closed f /\ vstart f <> None /\
    compute_fst_properties f (mask [WEIGHTED]) false = Ok (p, k) /\
    has p WEIGHTED = true /\ ~ holds WEIGHTED (num_states f) (mach f).
Proof.
  exists [OAddState; OSetStart 0; OSetFinal 0 (0%nat : natSR)].
  eexists. eexists. eexists. split; [vm_compute; reflexivity|]. split.
  { split; [|cbn; intros s H; inversion H; vm_compute; lia].
    intros s t. destruct s as [|s]; cbn; [tauto|]. destruct s; simpl; tauto. }
  split; [discriminate|]. split; [vm_compute; reflexivity|]. split; [reflexivity|].
  cbn. intros [(s & t & H & _)|(s & w & H & N)].
  - destruct s as [|[|s]]; simpl in H; tauto.
  - destruct s as [|[|s]]; simpl in H; try discriminate. inversion H; subst. apply N. left. reflexivity.
Qed.

(** ... and without a start state a cyclic machine is called acyclic, and a one-state machine a string. *)
Theorem C43_no_start_refuted :
  exists (calls : list (op natSR)) f p k, run vnew calls = Ok f /\ closed f /\ vstart f = None /\
    compute_fst_properties f (mask [ACYCLIC]) false = Ok (p, k) /\
    has p ACYCLIC = true /\ ~ holds ACYCLIC (num_states f) (mach f).
Proof.
  exists [OAddState; OAddTr 0 (Tr 1 1 (1%nat : natSR) 0)].
  eexists. eexists. eexists. split; [vm_compute; reflexivity|]. split.
  { split; [|cbn; intros s H; discriminate].
    intros s t. destruct s as [|s]; cbn; [|destruct s; simpl; tauto]. intros [<-|[]]. vm_compute. lia. }
  split; [reflexivity|]. split; [vm_compute; reflexivity|]. split; [reflexivity|].
  cbn. intros H. apply (H 0). eexists. split; [left; reflexivity|]. constructor.
Qed.
Theorem C43_no_start_string_refuted :
  exists (calls : list (op natSR)) f p k, run vnew calls = Ok f /\ closed f /\ vstart f = None /\
    compute_fst_properties f (mask [STRING]) false = Ok (p, k) /\
    has p STRING = true /\ ~ holds STRING (num_states f) (mach f).
Proof.
  exists [OAddState; OSetFinal 0 (1%nat : natSR)].
  eexists. eexists. eexists. split; [vm_compute; reflexivity|]. split.
  { split; [|cbn; intros s H; discriminate].
    intros s t. destruct s as [|s]; cbn; [|destruct s; simpl]; tauto. }
  split; [reflexivity|]. split; [vm_compute; reflexivity|]. split; [reflexivity|].
  cbn. intros [H|[H _]]; discriminate.
Qed.
Print Assumptions C43_compute_fst_properties.
Print Assumptions C43_compute_and_update.
Print Assumptions C43_stored.
Print Assumptions C43_decided.
Print Assumptions C43_zero_final_refuted.
Print Assumptions C43_no_start_refuted.
Print Assumptions C43_no_start_string_refuted.

(** A cyclic weighted transducer meeting the hypotheses, with the answer for every bit. *)
Example C43_witness :
  exists f : vfst natSR,
    run vnew [OAddStates 3; OSetStart 0; OSetFinal 2 5%nat; OAddTr 0 (Tr 1 2 3%nat 1); OAddTr 1 (Tr 0 0 1%nat 0);
              OAddTr 1 (Tr 1 1 2%nat 2)] = Ok f /\
    closed f /\ vstart f <> None /\ no_zero_final f /\
    exists p k, compute_fst_properties f all_properties false = Ok (p, k) /\
      filter (has p) all_bits =
        [NOT_ACCEPTOR; I_DETERMINISTIC; O_DETERMINISTIC; EPSILONS; I_EPSILONS; O_EPSILONS;
          I_LABEL_SORTED; O_LABEL_SORTED; WEIGHTED; CYCLIC; INITIAL_CYCLIC; NOT_TOP_SORTED; ACCESSIBLE; COACCESSIBLE;
          NOT_STRING; WEIGHTED_CYCLES].
Proof.
  eexists. split; [vm_compute; reflexivity|]. split.
  { split; [|cbn; intros s H; inversion H; vm_compute; lia].
    intros s t. destruct s as [|[|[|s]]]; cbn; intuition; subst; cbn; try (vm_compute; lia).
    destruct s; simpl in *; tauto. }
  split; [discriminate|]. split.
  { intros s w. destruct s as [|[|[|s]]]; cbn; try discriminate; [intros H; inversion H; discriminate|].
    destruct s; discriminate. }
  eexists. eexists. split; [vm_compute; reflexivity|]. vm_compute. reflexivity.
Qed.
