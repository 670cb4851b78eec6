(** C24: the const FST holds the same machine, in memory and in its file. *)
From Coq Require Import List Arith NArith ZArith Bool String Lia.
From Verif Require Import Base.Util Base.Semiring Base.Machine Base.PropSpec Base.Instances
  Model.Props Model.VectorFst Model.ComputeProps Model.BiMap Model.Codec Model.SymbolTable Model.BinFst Model.History
  Proofs.VectorFacts Proofs.CodecFacts Proofs.SymtFacts Proofs.DelStates Proofs.TrOpsFacts Proofs.HistoryFacts Proofs.BinFacts
  Props.C23 Props.C43.
Import ListNotations.

Section C24.
  Context {K : SR} (L : lsr_laws K).
  Implicit Types (f : vfst K) (c : cfst K).

  (** What an accessor-only reader of [c] sees is what it sees of [f]. *)
  Definition same_machine f c : Prop :=
    length (cstates c) = num_states f /\ cstart c = vstart f /\ cisymt c = visymt f /\ cosymt c = vosymt f /\
    (forall s, c_final_weight c s = final_weight f s) /\
    (forall s, c_num_trs c s = num_trs f s) /\
    (forall s, c_num_ieps c s = num_input_epsilons f s) /\
    (forall s, c_num_oeps c s = num_output_epsilons f s) /\
    (forall s, (t <-- c_get_trs c s ;; tc_slice t) = rmap vtrs (get_state f s)).

  Lemma caup_same f m g q : compute_and_update_properties f m = Ok (g, q) ->
    vstates g = vstates f /\ vstart g = vstart f /\ visymt g = visymt f /\ vosymt g = vosymt f /\ N.land q m = q.
  Proof.
    unfold compute_and_update_properties. destruct (compute_fst_properties f m true) as [[p k]| |]; try discriminate.
    cbn [rbind fst snd]. intros [= <- <-]. repeat split. rewrite <- N.land_assoc, N.land_diag. auto.
  Qed.

  Lemma const_from_ok f c : const_from f = Ok c ->
    cstates c = fst (lay_out 0 (vstates f)) /\ ctrs c = snd (lay_out 0 (vstates f)) /\
    cstart c = vstart f /\ cisymt c = visymt f /\ cosymt c = vosymt f /\
    (exists g, compute_and_update_properties f all_properties = Ok (g, cprops c)) /\
    N.land (cprops c) all_properties = cprops c.
  Proof.
    unfold const_from. destruct (compute_and_update_properties f all_properties) as [[g q]| |] eqn:E; try discriminate.
    destruct (caup_same _ _ _ _ E) as (A & B & D & F & G). rewrite A, B, D, F.
    destruct (lay_out 0 (vstates f)) as [cs ts]. intros [= <-]. repeat split; eauto.
  Qed.

  (** Converting keeps every state with its final weight, counts and transitions in order; for a
      closed machine with a start and true stored bits it succeeds and reports exactly the true bits. *)
  Theorem C24_conversion :
    forall f,
    (forall c, const_from f = Ok c -> same_machine f c) /\
    (closed f -> vstart f <> None -> no_zero_final f ->
     (forall b, has (vprops f) b = true -> holds b (num_states f) (mach f)) ->
     exists c, const_from f = Ok c /\ forall b, has (cprops c) b = true <-> holds b (num_states f) (mach f)).
  Proof.
    intros f. split.
    - intros c H. destruct (const_from_ok f c H) as (A & B & D & E & F & _ & _).
      assert (LN : length (cstates c) = num_states f) by (rewrite A; apply lay_out_length).
      unfold same_machine. repeat (split; [assumption|]).
      assert (G : forall s, cget c s = rmap (fun st => CState (vfin st) (length (flat_map vtrs (firstn s (vstates f)))) (length (vtrs st)) (vnie st) (vnoe st)) (get_state f s)).
      { intros s. unfold cget, get_state. destruct (nth_error (vstates f) s) as [st|] eqn:Es; simpl.
        - rewrite A, (lay_out_nth _ 0 s st Es). reflexivity.
        - rewrite (proj2 (nth_error_None (cstates c) s)); auto. rewrite LN. apply nth_error_None. auto. }
      unfold c_final_weight, c_num_trs, c_num_ieps, c_num_oeps, c_get_trs, final_weight, num_trs, num_input_epsilons, num_output_epsilons.
      repeat split; intros s; rewrite G; unfold get_state; destruct (nth_error (vstates f) s) as [st|] eqn:Es; auto.
      cbn [rmap rbind cpos cntrs]. unfold tc_slice. cbn [tc_trs tc_pos tc_n]. rewrite B, lay_out_trs.
      apply nth_error_split in Es as (l1 & l2 & -> & <-).
      rewrite firstn_app, Nat.sub_diag, firstn_all. simpl firstn. rewrite app_nil_r.
      rewrite flat_map_app. cbn [flat_map]. rewrite !app_length.
      match goal with |- context [Nat.ltb ?a ?b] => destruct (Nat.ltb_spec a b); [lia|] end.
      rewrite skipn_app, skipn_all, Nat.sub_diag. cbn [app skipn].
      rewrite firstn_app, Nat.sub_diag, firstn_all. simpl firstn. now rewrite app_nil_r.
    - intros CL S Z BT.
      destruct (C43_compute_and_update L f all_properties CL S (or_introl Z) BT) as (g & q & E & A1 & A2 & A3 & A4 & A5 & A6).
      unfold const_from. rewrite E, A1. destruct (lay_out 0 (vstates f)) as [cs ts]. eexists. split; [reflexivity|].
      cbn [cprops]. intros b. rewrite A6. split; [tauto|]. intros H. split; auto. now destruct b.
  Qed.

  Lemma const_fits f c : const_from f = Ok c -> storable f -> cnt f ->
    (N.of_nat (length (flat_map vtrs (vstates f))) < 2 ^ 31)%N -> cfits c.
  Proof.
    intros H S CN T. destruct (const_from_ok f c H) as (A & B & D & E & F & _ & G).
    pose proof (storable_fits f S) as FT.
    assert (VT : Forall tr_fits (flat_map vtrs (vstates f))).
    { apply Forall_flat_map. eapply Forall_impl; [|apply (ft_states f FT)]. intros st X. apply X. }
    split.
    - apply Forall_forall. intros st I. apply In_nth_error in I as [s I].
      assert (LT : s < length (vstates f)).
      { rewrite <- (lay_out_length (vstates f) 0), <- A. apply nth_error_Some. congruence. }
      destruct (nth_error (vstates f) s) as [v|] eqn:Es; [|apply nth_error_None in Es; lia].
      rewrite A, (lay_out_nth _ 0 s v Es) in I. injection I as <-.
      assert (CV : cnt_ok v) by (eapply Forall_forall; [exact CN|eapply nth_error_In; eauto]).
      apply nth_error_split in Es as (l1 & l2 & E1 & <-). rewrite E1 in T |- *.
      rewrite firstn_app, Nat.sub_diag, firstn_all. simpl firstn. rewrite app_nil_r.
      rewrite flat_map_app in T. cbn [flat_map] in T. rewrite !app_length in T.
      assert (CC : forall p, count p (vtrs v) <= length (vtrs v)).
      { intros p. unfold count. clear. induction (vtrs v); simpl; auto. destruct (p a); simpl; lia. }
      destruct CV as [C1 C2]. pose proof (CC ieps). pose proof (CC oeps).
      unfold cstate_fits. cbn [cpos cntrs cnie cnoe]. rewrite C1, C2.
      change 2147483648%N with (2 ^ 31)%N. lia.
    - rewrite A, lay_out_length. apply (ft_num f FT).
    - rewrite B, lay_out_trs. auto.
    - rewrite B, lay_out_trs. change (2 ^ 31)%N with 2147483648%N in T. lia.
    - rewrite D. apply (ft_start f FT).
    - rewrite E. apply (ft_isymt f FT).
    - rewrite F. apply (ft_osymt f FT).
    - exact G.
  Qed.

  (** The file of a converted machine (fewer than 2^31 transitions) loads as a const FST and as a
      vector FST, whatever follows it; both are the machine it was converted from, with zero final
      weights dropped; and no proper prefix of it is accepted. *)
  Theorem C24_roundtrip (C : wcodec K) (calls : list (op K)) f c :
    wcodec_ok C -> run vnew calls = Ok f -> storable f ->
    (N.of_nat (length (flat_map vtrs (vstates f))) < 2 ^ 31)%N ->
    const_from f = Ok c ->
    exists c' g,
      (forall rest, load_const C (store_const C c ++ rest) = Ok c') /\
      (forall rest, read_from_const C (store_const C c ++ rest) = Ok g) /\
      same_machine g c' /\ vprops g = cprops c /\ cprops c' = cprops c /\
      num_states g = num_states f /\ vstart g = vstart f /\ visymt g = visymt f /\ vosymt g = vosymt f /\
      (forall s, trs_of g s = trs_of f s) /\
      (forall s, fin_of g s = match fin_of f s with
                              | Some w => if keqb w kzero then None else Some w
                              | None => None
                              end) /\
      (forall n s x y, wt (mach g) n s x y = wt (mach f) n s x y) /\
      ((forall s, fin_of f s <> Some kzero) -> c' = c) /\
      (forall n, n < length (store_const C c) ->
         load_const C (firstn n (store_const C c)) = Err /\ read_from_const C (firstn n (store_const C c)) = Err).
  Proof.
    intros W R S T H.
    assert (CN : cnt f) by (eapply run_cnt; eauto; constructor).
    assert (KE : @keqb K kzero kzero = true) by (apply (keqb_spec K L); auto).
    pose proof (const_fits f c H S CN T) as CF.
    destruct (const_from_ok f c H) as (A & B & D & E & F & _ & G).
    pose proof (rt_const C W KE c CF) as R1.
    pose proof (rt_const_vector C W KE c (vstates f) CF (ft_states f (storable_fits f S)) A B) as R2.
    rewrite D, E, F in R2. set (g := VF (map norm_state (vstates f)) (vstart f) (visymt f) (vosymt f) (cprops c)) in *.
    exists (norm_cfst c), g.
    assert (Tg : forall s, trs_of g s = trs_of f s).
    { intros s. unfold trs_of. simpl. rewrite nth_error_map. now destruct (nth_error (vstates f) s). }
    assert (Fg : forall s, fin_of g s = norm_fin (fin_of f s)).
    { intros s. unfold fin_of. simpl. rewrite nth_error_map. now destruct (nth_error (vstates f) s). }
    assert (SM := proj1 (C24_conversion f) c H).
    split; [intros rest; unfold load_const; now rewrite R1|].
    split; [intros rest; unfold read_from_const; now rewrite R2|].
    split.
    { destruct SM as (M1 & M2 & M3 & M4 & M5 & M6 & M7 & M8 & M9).
      unfold same_machine. split; [simpl; rewrite map_length, M1; unfold num_states; simpl; now rewrite map_length|].
      split; [exact M2|]. split; [exact M3|]. split; [exact M4|].
      assert (GG : forall s, get_state g s = rmap norm_state (get_state f s)).
      { intros s. unfold get_state. simpl. rewrite nth_error_map. now destruct (nth_error (vstates f) s). }
      assert (CG : forall s, cget (norm_cfst c) s = rmap norm_cstate (cget c s)).
      { intros s. unfold cget. simpl. rewrite nth_error_map. now destruct (nth_error (cstates c) s). }
      unfold c_final_weight, c_num_trs, c_num_ieps, c_num_oeps, c_get_trs, final_weight, num_trs, num_input_epsilons, num_output_epsilons in *.
      repeat split; intros s; rewrite CG, GG; specialize (M5 s); specialize (M6 s); specialize (M7 s); specialize (M8 s); specialize (M9 s);
        destruct (cget c s), (get_state f s); simpl in *; try congruence; auto.
      all: try (now injection M5 as ->). }
    split; [reflexivity|]. split; [reflexivity|]. split; [apply map_length|].
    split; [reflexivity|]. split; [reflexivity|]. split; [reflexivity|].
    split; [exact Tg|]. split; [exact Fg|].
    split.
    { intros n s x y. apply wt_ext; [exact Tg|]. intros q. change (mfin (mach g) q) with (fin_of g q).
      rewrite Fg. change (mfin (mach f) q) with (fin_of f q). destruct (fin_of f q) as [w|]; auto. simpl.
      destruct (keqb w kzero) eqn:X; auto. apply (keqb_spec K L) in X. now subst. }
    split.
    { intros Z. unfold norm_cfst. destruct c as [cs ts st is os p]. simpl in *. f_equal.
      rewrite (map_ext_in _ (fun x => x)); [apply map_id|]. intros v I. unfold norm_cstate.
      assert (X : norm_fin (cfin v) = cfin v).
      { apply In_nth_error in I as [s I]. specialize (Z s). unfold fin_of in Z.
        assert (LT : s < length (vstates f)).
        { rewrite <- (lay_out_length (vstates f) 0), <- A. apply nth_error_Some. congruence. }
        destruct (nth_error (vstates f) s) as [v'|] eqn:Es; [|apply nth_error_None in Es; lia].
        rewrite A, (lay_out_nth _ 0 s v' Es) in I. injection I as <-. cbn [cfin].
        destruct (vfin v') as [w|]; auto. simpl. destruct (keqb w kzero) eqn:Y; auto. apply (keqb_spec K L) in Y. congruence. }
      rewrite X. now destruct v. }
    intros n N. destruct (local_const C W KE c CF) as [P1 P2]. unfold load_const, read_from_const.
    rewrite P1, P2; auto. exists g. replace (store_const C c) with (store_const C c ++ []) by apply app_nil_r. apply R2.
  Qed.
End C24.
Print Assumptions C24_conversion.
Print Assumptions C24_roundtrip.

(** [to_trs_vec] on the transitions of one state returns those of the whole machine. *)
Theorem C24_to_trs_vec_refuted :
  exists (f : vfst natSR) c t,
    run vnew [OAddStates 2; OSetStart 0; OSetFinal 1 1%nat; OAddTr 0 (Tr 1 1 1%nat 1); OAddTr 1 (Tr 2 2 1%nat 1)] = Ok f /\
    const_from f = Ok c /\ c_get_trs c 0 = Ok t /\
    tc_slice t = Ok [Tr 1 1 1%nat 1] /\ tc_to_trs_vec t = [Tr 1 1 1%nat 1; Tr 2 2 1%nat 1].
Proof. eexists. eexists. eexists. split; [vm_compute; reflexivity|]. split; [vm_compute; reflexivity|]. vm_compute. auto. Qed.
Print Assumptions C24_to_trs_vec_refuted.

(** A machine with transitions before and after the state looked at. *)
Example C24_witness :
  exists (f : vfst tropN) c,
    run vnew [OAddStates 3; OSetStart 0; OSetFinal 2 (Some 4); OAddTr 0 (Tr 1 2 (Some 1) 1); OAddTr 0 (Tr 0 2 (Some 1) 2);
              OAddTr 1 (Tr 3 0 (Some 2) 2); OAddTr 2 (Tr 4 4 (Some 0) 0)] = Ok f /\
    const_from f = Ok c /\ map (@cpos tropN) (cstates c) = [0; 2; 3] /\
    (t <-- c_get_trs c 1 ;; tc_slice t) = Ok [Tr 3 0 (Some 2) 2] /\
    load_const nat_codec (store_const nat_codec c) = Ok c /\
    rmap (@vstates tropN) (read_from_const nat_codec (store_const nat_codec c)) = Ok (vstates f).
Proof.
  eexists. eexists. split; [vm_compute; reflexivity|]. split; [vm_compute; reflexivity|].
  repeat (split; [vm_compute; reflexivity|]). vm_compute. reflexivity.
Qed.
