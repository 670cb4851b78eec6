(** C54: looking ahead says which transitions of the other machine can be followed, and their
    weight. *)
From Coq Require Import List Arith NArith ZArith Bool Lia Sorted.
From Verif Require Import Base.Util Base.Semiring Base.Machine Base.PropSpec Base.Instances Base.TropZ
  Model.Props Model.VectorFst Model.TrOps Model.History Model.Rational Model.Matchers Model.IntervalSet Model.Reachable Model.LabelReach
  Model.BiMap Model.Lazy Model.Compose Model.LookAhead
  Proofs.PropsFacts Proofs.VectorFacts Proofs.HistoryFacts Proofs.TrOpsFacts Proofs.OpFacts Proofs.VectorProps Proofs.ConnectFacts Proofs.ComposeFacts Proofs.LabelFacts Proofs.ClosedB Proofs.LookAlt Proofs.LookSpec Props.C06 Props.C34 Props.C43 Props.C49 Props.C50.
Import ListNotations.
Local Open Scope K_scope.

Section C54.
  Context {K : SR} (L : lsr_laws K).
  Implicit Types (f lf : vfst K).

  (** The matcher's machine can write, after epsilons, the label whose number is on [t]. *)
  Definition followed f (d : lrdata) (s : nat) (t : tr K) : Prop :=
    exists l, qlookup (ld_l2i d) (Lab l) = Some (il t) /\ can_read f false s l.
  Definition both_end f (s : nat) lf (ls : nat) : Prop := can_end f false s /\ live_final lf ls.
  (** The only transition ahead, when it is worth writing its label now. *)
  Definition single (fl : laflags) (ts : list (tr K)) (be : bool) (t : tr K) : Prop := fl_prefix fl = true /\ ts = [t] /\ be = false.

  Lemma index_sets f d : label_index f false d -> forall s, (s < num_states f)%nat -> exists a, nth_error (ld_sets d) s = Some a /\
    Forall nonempty (ivals a) /\ separated (ivals a) /\ ~ covered (ivals a) O.
  Proof.
    intros (_ & _ & (_ & N2 & _) & _ & _ & _ & Fi & _ & Se) s Hs. destruct (Fi s Hs) as (b & E & _). unfold reach_final, interval_set in E.
    destruct (nth_error (ld_sets d) s) as [a|] eqn:Ea; [|discriminate]. exists a. destruct (Se s a Ea) as (A1 & A2 & A3). repeat split; auto.
    intros H. destruct (A3 _ H) as (k & Hk). apply N2 in Hk. lia.
  Qed.

  Theorem C54_lookahead_fst :
    forall f d lf fl s ls, label_index f false d -> (s < num_states f)%nat -> (ls < num_states lf)%nat ->
    StronglySorted le (map il (trs_of lf ls)) -> (forall t, In t (trs_of lf ls) -> ld_final d <> Some (il t)) ->
    exists (sel : tr K -> bool) (be : bool) a,
      (forall t, In t (trs_of lf ls) -> (sel t = true <-> followed f d s t)) /\ (be = true <-> both_end f s lf ls) /\
      lookahead_fst fl (Some (d, true)) s lf ls = Ok a /\
      let ts := filter sel (trs_of lf ls) in
      (a = None <-> ts = [] /\ be = false) /\
      forall m, a = Some m ->
        (forall t, single fl ts be t -> lm_prefix m = Some t /\ lm_weight m = 1) /\
        ((forall t, ~ single fl ts be t) -> lm_prefix m = None /\
           (fl_weight fl = true -> lm_weight m = ksum (map wgt ts) + (if be then fw (fin_of lf ls) else 0)) /\
           (fl_weight fl = false -> lm_weight m = match ts with [] => 1 | _ => 0 end)).
  Proof.
    intros f d lf fl s ls Ix Hs Hl So Nf. destruct (index_sets f d Ix s Hs) as (a & Ea & A1 & A2 & A3).
    pose proof Ix as (_ & Ef & _ & _ & Rl & Rk & Fi & _ & _). destruct (Fi s Hs) as (b & Eb & Hb).
    exists (fun t => covb d s (il t)), (live_w (fin_of lf ls) && rfin d s). eexists. split; [|split; [|split; [eapply look_fst_eq; eauto|]]].
    - intros t Ht. unfold covb, followed. split.
      + intros H. destruct (reach_label d s (il t)) as [b'| |] eqn:E; try discriminate. subst b'. destruct (Rk s _ E) as ([|l] & Hk).
        * exfalso. apply (Nf t Ht). congruence.
        * exists l. split; auto. destruct (Rl s l _ Hs Hk) as (b' & E' & Hb'). apply Hb'. congruence.
      + intros (l & Hk & Hc). destruct (Rl s l _ Hs Hk) as (b' & E' & Hb'). rewrite E'. apply Hb'. auto.
    - unfold both_end, rfin. rewrite Eb. rewrite andb_true_iff, Hb. unfold live_w, live_final. split.
      + intros [H1 H2]. split; auto. destruct (fin_of lf ls) as [w|]; [|discriminate]. exists w. split; auto.
        intros ->. replace (keqb 0 0) with true in H1 by (symmetry; apply (keqb_spec _ L); auto). discriminate.
      + intros [H2 (w & -> & Hw)]. split; auto. destruct (keqb w 0) eqn:E; auto. apply (keqb_spec _ L) in E. contradiction.
    - cbv zeta. set (ts := filter _ _). set (be := live_w _ && _). unfold single. split.
      + destruct ts as [|t [|t' ts]]; destruct be; cbn [look_ans negb]; rewrite ?andb_false_r, ?andb_true_r; split; try discriminate; auto;
          try (destruct (fl_prefix fl); discriminate); intros [H H']; discriminate.
      + intros m E. split.
        * intros t (Pf & Et & Eb'). rewrite Et, Eb' in E. cbn [look_ans negb] in E. rewrite Pf in E. injection E as <-. auto.
        * intros N. destruct ts as [|t [|t' ts]]; cbn [look_ans] in E.
          -- destruct be; [|discriminate]. injection E as <-. cbn [lm_prefix lm_weight]. split; auto. split; intros ->; auto. cbn. symmetry. apply (kplus_0_l _ L).
          -- destruct (fl_prefix fl && negb be) eqn:X.
             { exfalso. apply andb_true_iff in X as [X1 X2]. apply negb_true_iff in X2. apply (N t). auto. }
             injection E as <-. cbn [lm_prefix lm_weight]. split; auto. unfold look_weight. split; intros ->; auto.
          -- injection E as <-. cbn [lm_prefix lm_weight]. split; auto. unfold look_weight. split; intros ->; auto.
  Qed.

  Theorem C54_lookahead_label :
    forall f d b s l x, label_index f false d -> (s < num_states f)%nat -> qlookup (ld_l2i d) (Lab l) = Some x ->
    exists r, lookahead_label (Some (d, b)) s x = Ok r /\ (r = true <-> can_read f false s l).
  Proof.
    intros f d b s l x (_ & _ & (_ & N2 & _) & _ & Rl & _) Hs Hk. unfold lookahead_label. pose proof (N2 _ _ Hk).
    destruct (Nat.eqb_spec x 0); [lia|]. apply Rl; auto.
  Qed.
  (** Without reachability data nothing is ruled out. *)
  Theorem C54_no_data : forall fl s lf ls l, lookahead_fst fl None s lf ls = Ok (Some lamd_default) /\ lookahead_label None s l = Ok true.
  Proof. intros. split; auto. unfold lookahead_label. destruct (_ =? _)%nat; auto. Qed.
End C54.
Print Assumptions C54_lookahead_fst.
Print Assumptions C54_lookahead_label.
Print Assumptions C54_no_data.

(** State 0 can write 7 or 5 (numbers 1 and 2) after an epsilon; state 2 can end or write 8
    (number 3). The state looked at reads the three numbers and is final. *)
Definition c54_1 : list (op natSR) :=
  [OAddStates 3; OSetStart 0; OSetFinal 2 (1 : natSR); OAddTr 0 (Tr 1 0 (2 : natSR) 1); OAddTr 1 (Tr 2 7 (3 : natSR) 2); OAddTr 1 (Tr 3 5 (1 : natSR) 2);
   OAddTr 2 (Tr 3 8 (1 : natSR) 0)].
Definition c54_2 : list (op natSR) :=
  [OAddStates 3; OSetStart 0; OSetFinal 0 (6 : natSR); OAddTr 0 (Tr 1 1 (10 : natSR) 1); OAddTr 0 (Tr 2 1 (20 : natSR) 1); OAddTr 0 (Tr 3 1 (40 : natSR) 1);
   OAddTr 2 (Tr 4 1 (40 : natSR) 1)].
Definition c54_f : vfst natSR := match run vnew c54_1 with Ok f => f | _ => vnew end.
Definition c54_lf : vfst natSR := match run vnew c54_2 with Ok f => f | _ => vnew end.
Definition c54_d : lrdata := match compute_data c54_f false 1000 with Ok d => d | _ => LD false None [] [] end.
Lemma c54_index : label_index c54_f false c54_d.
Proof.
  assert (E : run vnew c54_1 = Ok c54_f) by (vm_compute; reflexivity).
  destruct (C50_compute_data natSR_laws ltac:(vm_compute; discriminate) c54_f false 1000) as [_ H].
  - apply closedb_ok; vm_compute; reflexivity.
  - eapply (run_fsound natSR_laws); [apply fsound_new| |exact E]; vm_compute; tauto.
  - vm_compute; discriminate.
  - destruct H as (d & Ed & H).
    { intros (s & u & _ & H & _). revert H. do 3 (destruct s as [|s]; [vm_compute; congruence|]). vm_compute. destruct s; congruence. }
    replace c54_d with d; auto. unfold c54_d. rewrite Ed. auto.
Qed.
Example C54_witness :
  label_index c54_f false c54_d /\ StronglySorted le (map il (trs_of c54_lf 0)) /\
  (forall t, In t (trs_of c54_lf 0) -> ld_final c54_d <> Some (il t)) /\
  lookahead_fst default_flags (Some (c54_d, true)) 0 c54_lf 0 = Ok (Some (LMD (30 : natSR) None)) /\
  lookahead_fst default_flags (Some (c54_d, true)) 2 c54_lf 0 = Ok (Some (LMD (46 : natSR) None)) /\
  lookahead_fst no_flags (Some (c54_d, true)) 2 c54_lf 0 = Ok (Some (LMD (0 : natSR) None)) /\
  lookahead_fst default_flags (Some (c54_d, true)) 0 c54_lf 1 = Ok None.
Proof.
  split; [exact c54_index|]. split; [vm_compute; repeat constructor|].
  split; [intros t [<-|[<-|[<-|[]]]]; vm_compute; discriminate|]. repeat split; vm_compute; reflexivity.
Qed.

(** The hypothesis on the number of "can end" is needed: a transition that carries it (4 here) is
    reported as followable, though no label has that number. *)
Theorem C54_final_label_refuted :
  ~ (forall f d (lf : vfst natSR) fl s ls, label_index f false d -> (s < num_states f)%nat -> (ls < num_states lf)%nat ->
     StronglySorted le (map il (trs_of lf ls)) -> ~ live_final lf ls ->
     (forall t, In t (trs_of lf ls) -> ~ followed f d s t) -> lookahead_fst fl (Some (d, true)) s lf ls = Ok None).
Proof.
  intros H. specialize (H c54_f c54_d c54_lf default_flags 2%nat 2%nat c54_index).
  assert (X : lookahead_fst default_flags (Some (c54_d, true)) 2 c54_lf 2 = Ok (Some (LMD (1 : natSR) (Some (Tr 4 1 (40 : natSR) 1))))) by (vm_compute; reflexivity).
  rewrite H in X; [discriminate X| | | | |].
  - vm_compute; lia.
  - vm_compute; lia.
  - vm_compute; repeat constructor.
  - intros (w & Ew & _). vm_compute in Ew. discriminate.
  - intros t Ht (l & E & _). replace (trs_of c54_lf 2) with [Tr 4 1 (40 : natSR) 1] in Ht by (vm_compute; reflexivity). destruct Ht as [<-|[]].
    replace (ld_l2i c54_d) with [(Lab 7, 1%nat); (Lab 5, 2%nat); (Lab 8, 3%nat); (NoLab, 4%nat)] in E by (vm_compute; reflexivity).
    clear H X. unfold qlookup in E. cbn [find fst snd qlab_eqb] in E. destruct (Nat.eqb 7 l), (Nat.eqb 5 l), (Nat.eqb 8 l); discriminate E.
Qed.
