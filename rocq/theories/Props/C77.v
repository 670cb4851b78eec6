(** C77: the trivial look-ahead matcher changes nothing. *)
From Coq Require Import List Arith NArith ZArith Bool Lia Sorted.
From Verif Require Import Base.Util Base.Semiring Base.Machine Base.PropSpec Base.Instances Base.TropZ
  Model.Props Model.VectorFst Model.TrOps Model.History Model.Rational Model.Matchers
  Model.BiMap Model.Lazy Model.Compose Model.LookAhead Model.TrLookAhead Model.LookSelect
  Proofs.PropsFacts Proofs.VectorFacts Proofs.HistoryFacts Proofs.TrOpsFacts Proofs.OpFacts Proofs.VectorProps Proofs.TableFacts Proofs.ComposeFacts
  Proofs.LookFacts Proofs.LookAlt Proofs.LookBuild Proofs.ClosedB
  Props.C06 Props.C19 Props.C20 Props.C71 Props.C72 Props.C76.
Import ListNotations.
Local Open Scope K_scope.

(** Expanding two operations that answer alike gives the same machine. *)
Section Ext.
  Context {K : SR} {O C : Type} (p q : fst_op K O) (X : fst_cache K C).
  Hypothesis Es : forall o, compute_start p o = compute_start q o.
  Hypothesis Et : forall i o, compute_trs p i o = compute_trs q i o.
  Hypothesis Ef : forall i o, compute_final_weight p i o = compute_final_weight q i o.
  Hypothesis Ep : op_properties p = op_properties q.
  Lemma bfs_ext fuel : forall queue vis g z, bfs p X fuel queue vis g z = bfs q X fuel queue vis g z.
  Proof.
    assert (A : forall i z, l_get_trs p X i z = l_get_trs q X i z) by (intros; unfold l_get_trs; rewrite Et; auto).
    assert (B : forall i z, l_final_weight p X i z = l_final_weight q X i z) by (intros; unfold l_final_weight; rewrite Ef; auto).
    induction fuel as [|n IH]; intros queue vis g z; destruct queue as [|s queue]; cbn [bfs]; auto.
    rewrite A. destruct (l_get_trs q X s z) as [[l z']| |]; auto.
    destruct (fold_left _ l _) as [[qu vi] g']. destruct (set_trs g' s l) as [g2| |]; auto.
    rewrite B. destruct (l_final_weight q X s z') as [[[w|] z2]| |]; auto. destruct (set_final g2 s w); auto.
  Qed.
  Lemma compute_ext fuel i o z : compute p X fuel i o z = compute q X fuel i o z.
  Proof.
    unfold compute. replace (l_start p X z) with (l_start q X z) by (unfold l_start; rewrite Es; auto).
    destruct (l_start q X z) as [[[s|] z']| |]; auto. destruct (set_start _ _); auto. rewrite bfs_ext, Ep. auto.
  Qed.
End Ext.

Section C77.
  Context {K : SR} (L : lsr_laws K) (comm : commutative_times K).
  Implicit Types (f g : vfst K).

  (** What a filter says, without the look-ahead data it found. *)
  Definition verdict {FS} (r : res (option (FS * qtr K * qtr K * option (@lamd K)))) : res (option (FS * qtr K * qtr K)) :=
    match r with Ok (Some (fs, a1, a2, _)) => Ok (Some (fs, a1, a2)) | Ok None => Ok None | Err => Err | Panic => Panic end.

  Section Same.
    Context {FS E : Type} (F G : cflt K FS E).
    Hypothesis S0 : cf_start F = cf_start G.
    Hypothesis S1 : forall s1 s2 fs, cf_set F s1 s2 fs = cf_set G s1 s2 fs.
    Hypothesis S2 : forall e a1 a2, verdict (cf_filter F e a1 a2) = verdict (cf_filter G e a1 a2).
    Hypothesis S3 : forall e a b, cf_final F e a b = cf_final G e a b.
    Hypothesis S4 : forall e s l, cf_items1 F e s l = cf_items1 G e s l.
    Hypothesis S5 : forall e s l, cf_items2 F e s l = cf_items2 G e s l.
    Lemma gselected_same e sa t mi its : gselected F e sa t mi its = gselected G e sa t mi its.
    Proof.
      induction its as [|x its IH]; auto. cbn [gselected]. destruct (into_tr _ _ _) as [a| |]; cbn [rbind]; auto.
      pose proof (S2 e (if mi then t else a) (if mi then a else t)) as Q.
      destruct (cf_filter F e _ _) as [[[[[u v] w] x1]|]| |], (cf_filter G e _ _) as [[[[[u' v'] w'] x2]|]| |]; cbn in Q; try discriminate; cbn [rbind]; auto.
      injection Q as -> -> ->. rewrite IH. auto.
    Qed.
    Lemma gcompose_same eqb props fuel f1 f2 : gcompose F eqb props fuel f1 f2 = gcompose G eqb props fuel f1 f2.
    Proof.
      assert (M : forall e sa ts mi, gmatch_trs F e sa ts mi = gmatch_trs G e sa ts mi).
      { intros e sa ts mi. induction ts as [|t ts IH]; auto. cbn [gmatch_trs]. rewrite IH. unfold gmatch_tr. rewrite S4, S5.
        destruct (if mi then _ else _) as [its| |]; cbn [rbind]; auto. rewrite gselected_same. auto. }
      assert (T : forall mt t, gcompute_trs F mt f1 f2 t = gcompute_trs G mt f1 f2 t).
      { intros mt [[fs s1] s2]. unfold gcompute_trs, gexpand. rewrite S1. destruct (cf_set G s1 s2 fs) as [e| |]; cbn [rbind]; auto.
        destruct (match_input mt f1 f2 s1 s2) as [[]| |]; cbn [rbind]; auto; destruct (get_trs _ _); cbn [rbind]; auto. }
      assert (W : forall t, gcompute_final F f1 f2 t = gcompute_final G f1 f2 t).
      { intros [[fs s1] s2]. unfold gcompute_final. destruct (final_weight f1 s1) as [[w1|]| |]; cbn [rbind]; auto.
        destruct (final_weight f2 s2) as [[w2|]| |]; cbn [rbind]; auto. rewrite S1. destruct (cf_set G s1 s2 fs); cbn [rbind]; auto. rewrite S3. auto. }
      unfold gcompose. destruct (compose_match_type f1 f2) as [mt| |]; auto.
      rewrite (compute_ext (gcompose_op F eqb props mt f1 f2) (gcompose_op G eqb props mt f1 f2)); auto.
      - intros o. unfold gcompose_op, table_op; cbn [compute_start]. unfold gcompute_start. rewrite S0. auto.
      - intros i o. unfold gcompose_op, table_op; cbn [compute_trs]. destruct (find_tuple o i); cbn [rbind]; auto. rewrite T. auto.
      - intros i o. unfold gcompose_op, table_op; cbn [compute_final_weight]. destruct (find_tuple o i); cbn [rbind]; auto. rewrite W. auto.
    Qed.
  End Same.

  (** Over any filter, on either side, with any flags: the same machine, state by state, or the same failure. *)
  Theorem C77_trivial : forall (FS E : Type) (F : cflt K FS E) out fl eqb props fuel f1 f2,
    gcompose (triv_cf out fl F) eqb props fuel f1 f2 = gcompose F eqb props fuel f1 f2.
  Proof.
    intros. apply gcompose_same; auto. intros e a1 a2. cbn [triv_cf cf_filter].
    destruct (cf_filter F e a1 a2) as [[[[[u v] w] x]|]| |]; cbn [rbind]; auto. cbn zeta.
    destruct (_ && _); auto. destruct (_ && _); auto.
  Qed.

  (** Through [LookAheadComposeFilter], whatever the match type: the weights of plain composition, even
      when a forced side is not sorted; refused when plain composition is, or under SMatchNone. *)
  Theorem C77_compose :
    forall s f1 f2 flt fl props fuel, ready2 f1 f2 -> (3 * num_states f1 * num_states f2 <= fuel)%nat ->
    match triv_compose s flt fl props fuel f1 f2 with
    | Some (Ok g) => forall conn, exists p, compose_with flt conn fuel f1 f2 = Some (Ok p) /\ forall k x z, rel (mach g) k x z = rel (mach p) k x z
    | Some Err => s = SMatchNone \/ forall conn, compose_with flt conn fuel f1 f2 = Some Err
    | _ => False
    end.
  Proof.
    intros s f1 f2 flt fl props fuel RD Hf.
    assert (ALL : match gcompose (base_cf flt f1 f2) Nat.eqb props fuel f1 f2 with
      | Some (Ok g) => forall conn, exists p, compose_with flt conn fuel f1 f2 = Some (Ok p) /\ forall k x z, rel (mach g) k x z = rel (mach p) k x z
      | Some Err => forall conn, compose_with flt conn fuel f1 f2 = Some Err
      | _ => False end).
    { pose proof (C76_both L comm f1 f2 flt no_flags props fuel RD Hf) as H. unfold look_compose in H.
      destruct (lookahead_type SMatchBoth f1 f2) as [lt| |] eqn:El; [| |contradiction].
      - rewrite (gcompose_same (tla_cf _ no_flags f1 f2 (base_cf flt f1 f2)) (base_cf flt f1 f2)) in H; auto.
        + destruct (gcompose _ _ _ _ _ _) as [[g| |]|]; tauto.
        + intros e a1 a2. cbn [tla_cf cf_filter]. destruct (cf_filter (base_cf flt f1 f2) e a1 a2) as [[[[[u v] w] x]|]| |]; cbn [rbind]; auto.
          cbn [no_flags fl_noneps fl_eps negb]. rewrite !andb_true_r. destruct (is_eps _); auto.
      - destruct H as (H & _). unfold gcompose. pose proof (H false) as H0. unfold compose_with in H0.
        destruct (compose_match_type f1 f2) as [mt| |] eqn:EM; try discriminate; auto.
        exfalso. revert El EM. clear. unfold lookahead_type, lookahead_match_type, compose_match_type. cbn [smt_type mtype_eqb].
        destruct (sm_match_type f1 MOutput false) as [t1| |]; cbn [rbind]; try discriminate.
        destruct (sm_match_type f2 MInput false) as [t2| |]; cbn [rbind]; try discriminate.
        destruct (mtype_eqb t1 MOutput); cbn [andb rbind mtype_eqb]; [discriminate|].
        destruct (mtype_eqb t2 MInput); cbn [rbind mtype_eqb]; [discriminate|].
        destruct (sm_match_type f1 MOutput true) as [t3| |]; cbn [rbind]; try discriminate.
        destruct (mtype_eqb t3 MOutput); cbn [rbind mtype_eqb]; [discriminate|].
        destruct (sm_match_type f2 MInput true) as [t4| |]; cbn [rbind]; try discriminate.
        destruct (mtype_eqb t4 MInput); cbn [rbind mtype_eqb]; discriminate. }
    unfold triv_compose. destruct (lookahead_type s f1 f2) as [lt| |] eqn:El.
    - rewrite C77_trivial. destruct (gcompose _ _ _ _ _ _) as [[g| |]|]; auto.
    - destruct s; try discriminate El; auto. right. pose proof (C76_both L comm f1 f2 flt no_flags props fuel RD Hf) as H. unfold look_compose in H.
      rewrite El in H. apply H.
    - destruct s; try discriminate El. pose proof (C76_both L comm f1 f2 flt no_flags props fuel RD Hf) as H. unfold look_compose in H. rewrite El in H. exact H.
  Qed.
End C77.
Print Assumptions C77_trivial.
Print Assumptions C77_compose.

(** The machines on which forced one-transition look-ahead loses its path (C76_forced_refuted). *)
Example C77_witness :
  ready2 c76_f1 c76_f2 /\
  exists g h, triv_compose SMatchInput SequenceF fl_ahead 0%N 24 c76_f1 c76_f2 = Some (Ok g) /\
    look_compose SMatchInput SequenceF fl_ahead 0%N 24 c76_f1 c76_f2 = Some (Ok h) /\
    rel (mach g) 2 [7]%nat [6;9]%nat = Some 11%Z /\ rel (mach h) 2 [7]%nat [6;9]%nat = None.
Proof.
  split; [exact c76_ready|]. do 2 eexists. split; [vm_compute; reflexivity|]. split; [vm_compute; reflexivity|].
  split; vm_compute; reflexivity.
Qed.
