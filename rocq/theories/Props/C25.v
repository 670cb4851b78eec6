(** C25: the text form reads back, up to what it cannot express. *)
From Coq Require Import List Arith NArith ZArith Bool Lia.
From Verif Require Import Base.Util Base.Semiring Base.Machine Base.PropSpec Base.Instances
  Model.Props Model.VectorFst Model.ComputeProps Model.Codec Model.TextFst Model.History
  Proofs.PropsFacts Proofs.VectorFacts Proofs.VectorProps Proofs.DelStates Proofs.TrOpsFacts Proofs.HistoryFacts
  Proofs.OpFacts Proofs.CodecFacts Proofs.TextFacts Props.C43.
Import ListNotations.

Section C25.
  Context {K : SR} (L : lsr_laws K).
  Implicit Types (f g : vfst K).

  (** State [s] has a transition, is the target of one, or is final. *)
  Definition mentioned f (s : nat) : Prop :=
    trs_of f s <> [] \/ (exists q t, In t (trs_of f q) /\ ns t = s) \/ fin_of f s <> None.

  (** Labels and states are [u32]. *)
  Definition u32_fields f : Prop :=
    (N.of_nat (num_states f) <= 2 ^ 32)%N /\
    forall s t, In t (trs_of f s) -> (N.of_nat (il t) < 2 ^ 32 /\ N.of_nat (ol t) < 2 ^ 32)%N.

  Lemma least (P : nat -> Prop) (dec : forall s, {P s} + {~ P s}) n :
    (exists s, s < n /\ P s /\ forall q, q < s -> ~ P q) \/ (forall s, s < n -> ~ P s).
  Proof.
    induction n as [|n [(s & A & B & D)|IH]].
    - right. lia.
    - left. exists s. auto.
    - destruct (dec n) as [H|H].
      + left. exists n. auto.
      + right. intros s A. assert (s < n \/ s = n) as [?| ->] by lia; auto.
  Qed.

  (** For every machine with a start and every weight printer that reads back, the text of the
      machine parses to one with the same transitions in the same order, the same final weights
      and exact counts and true property bits.  States are kept up to the last one mentioned.
      The start is the state of the first line: the start itself if it has a transition, else the
      first state with a transition, else the first final state, else none. *)
  Theorem C25_roundtrip (C : tcodec K) f s0 :
    tcodec_ok C -> closed f -> vstart f = Some s0 -> no_zero_final f -> u32_fields f ->
    exists g, from_text C (text C f) = Ok g /\
      (forall s, trs_of g s = trs_of f s) /\ (forall s, fin_of g s = fin_of f s) /\
      (forall n s x y, wt (mach g) n s x y = wt (mach f) n s x y) /\
      closed g /\ cnt g /\ visymt g = None /\ vosymt g = None /\
      (vstart g <> None -> forall b, has (vprops g) b = true -> holds b (num_states g) (mach g)) /\
      num_states g <= num_states f /\ (forall s, mentioned f s -> s < num_states g) /\
      (forall n, num_states g = S n -> mentioned f n) /\
      (trs_of f s0 <> [] -> vstart g = Some s0) /\
      (trs_of f s0 = [] -> forall s, trs_of f s <> [] -> (forall q, q < s -> trs_of f q = []) -> vstart g = Some s) /\
      ((forall q, trs_of f q = []) -> forall s, fin_of f s <> None -> (forall q, q < s -> fin_of f q = None) -> vstart g = Some s) /\
      ((forall q, trs_of f q = [] /\ fin_of f q = None) -> vstart g = None).
  Proof.
    intros W CL S0 Z [U1 U2]. assert (LT : s0 < num_states f) by exact (proj2 CL s0 S0).
    set (l := rows f s0).
    assert (RO : Forall row_ok l).
    { apply Forall_forall. intros r I. unfold l, rows in I. apply in_app_iff in I as [I|I]; apply in_flat_map in I as (s & I & J).
      - unfold trows in J. apply in_map_iff in J as (t & <- & J). pose proof (U2 _ _ J). pose proof (trs_of_in _ _ _ J).
        assert (ns t < num_states f) by (eapply (proj1 CL); eauto). split; [|discriminate].
        change u32_max with (2 ^ 32 - 1)%N. lia.
      - unfold frows in J. destruct (fin_of f s) as [w|] eqn:E; simpl in J; [|tauto]. destruct J as [<-|[]].
        apply fin_of_some in E. split; [|discriminate]. change u32_max with (2 ^ 32 - 1)%N. lia. }
    assert (NI : Forall (fun r => match r with RInf _ => False | _ => True end) l).
    { eapply Forall_impl; [|exact RO]. intros [] X; auto. }
    destruct (parsed_num_bound l NI) as [B1 B2].
    destruct (read_rows C W l RO) as [rest ER].
    unfold from_text. rewrite (text_rows C f s0 S0). fold l. rewrite ER. cbn [pbind]. unfold from_rows.
    set (f0 := VF (repeat new_state (parsed_num_states l)) (match l with r :: _ => Some (N.to_nat (row_state r)) | [] => None end) None None 0).
    assert (N0 : num_states f0 = parsed_num_states l) by (unfold num_states; simpl; apply repeat_length).
    assert (IS : Forall (in_states (parsed_num_states l)) l).
    { apply Forall_forall. intros r I. destruct r as [s a b w n|s w|s]; simpl; auto; apply B1; unfold mentions; rewrite N2Nat.id; eauto 9. }
    assert (NS : forall s st, nth_error (vstates f0) s = Some st -> st = new_state).
    { intros s st E. apply nth_error_In, repeat_spec in E. auto. }
    assert (T0 : forall s, trs_of f0 s = []).
    { intros s. unfold trs_of. destruct (nth_error (vstates f0) s) eqn:E; auto. apply NS in E. now subst. }
    assert (F0 : forall s, fin_of f0 s = None).
    { intros s. unfold fin_of. destruct (nth_error (vstates f0) s) eqn:E; auto. apply NS in E. now subst. }
    assert (C0 : cnt f0).
    { apply Forall_forall. intros st I. apply repeat_spec in I. subst. split; reflexivity. }
    assert (SD0 : fsound f0) by (intros b Hb; change (has 0 b = true) in Hb; rewrite has_0 in Hb; discriminate).
    destruct (add_rows_eff L l f0) as (f1 & E1 & EF1 & T1 & F1 & SD1); [rewrite N0; auto|].
    rewrite E1. cbn [rbind].
    destruct (add_finals_eff L l f1) as (f2 & E2 & EF2 & T2 & F2 & SD2); [rewrite (proj1 EF1), N0; auto|].
    rewrite E2. cbn [rbind].
    assert (T : forall s, trs_of f2 s = trs_of f s).
    { intros s. rewrite T2, T1, T0. apply tr_at_rows; auto. }
    assert (F : forall s, fin_of f2 s = fin_of f s).
    { intros s. rewrite F2, F1, F0. apply fin_at_rows; auto. }
    assert (NN : num_states f2 = parsed_num_states l).
    { rewrite (proj1 EF2), (proj1 EF1). exact N0. }
    assert (ME : forall s, mentions l s <-> mentioned f s) by (intros s; apply rows_mention; auto).
    assert (ST : vstart f2 = first_state l).
    { transitivity (vstart f1); [apply EF2|]. transitivity (vstart f0); [apply EF1|]. reflexivity. }
    assert (CL2 : closed f2).
    { split.
      - intros s t I. rewrite NN. apply B1, ME. rewrite T in I. right. left. eauto.
      - intros s E. rewrite ST in E. rewrite NN. destruct l as [|r l']; [discriminate|]. injection E as <-.
        apply Forall_inv in NI. destruct r as [s a b w n|s w|s]; [| |tauto]; apply B1; unfold mentions; simpl; rewrite N2Nat.id; eauto 9. }
    assert (Z2 : no_zero_final f2) by (intros s w; rewrite F; apply Z).
    assert (CC : exists g q, compute_and_update_properties f2 all_properties = Ok (g, q) /\
       vstates g = vstates f2 /\ vstart g = vstart f2 /\ visymt g = visymt f2 /\ vosymt g = vosymt f2 /\
       (vstart f2 <> None -> forall b, has (vprops g) b = true -> holds b (num_states f2) (mach f2))).
    { destruct (vstart f2) as [s|] eqn:Es.
      - destruct (C43_compute_and_update L f2 all_properties) as (g & q & E & A1 & A2 & A3 & A4 & A5 & A6);
          [exact CL2|congruence|left; exact Z2|apply SD2, SD1, SD0|].
        exists g, q. rewrite A2. auto 8.
      - assert (L0 : l = []) by (destruct l; auto; discriminate).
        assert (V : vstates f2 = []).
        { destruct (vstates f2) eqn:V; auto. exfalso. unfold num_states in NN. rewrite V, L0 in NN. discriminate. }
        assert (P : vprops f2 = 0%N).
        { rewrite L0 in E1, E2. simpl in E1, E2. injection E1 as <-. injection E2 as <-. reflexivity. }
        destruct f2 as [vs st is os p]. simpl in *. subst. eexists. eexists. split; [reflexivity|].
        repeat split; auto. congruence. }
    destruct CC as (g & q & E & A1 & A2 & A3 & A4 & A5). rewrite E. cbn [rmap rbind fst].
    exists g. split; [reflexivity|].
    assert (TG : forall s, trs_of g s = trs_of f s) by (intros s; rewrite <- T; unfold trs_of; now rewrite A1).
    assert (FG : forall s, fin_of g s = fin_of f s) by (intros s; rewrite <- F; unfold fin_of; now rewrite A1).
    assert (NG : num_states g = num_states f2) by (unfold num_states; now rewrite A1).
    assert (MG : meq (mach f2) (mach g)).
    { split; [symmetry; exact A2|]. split; [intros s; simpl; now rewrite T, TG|intros s; simpl; now rewrite F, FG]. }
    split; [exact TG|]. split; [exact FG|].
    split. { intros n s x y. apply wt_ext; simpl; intros; rewrite ?TG, ?FG; auto. }
    split. { split; intros s; [intros t; rewrite NG, TG, <- T|rewrite A2, NG]; apply CL2. }
    split. { unfold cnt. rewrite A1. apply EF2, EF1. exact C0. }
    split. { rewrite A3. transitivity (visymt f1); [apply EF2|]. transitivity (visymt f0); [apply EF1|reflexivity]. }
    split. { rewrite A4. transitivity (vosymt f1); [apply EF2|]. transitivity (vosymt f0); [apply EF1|reflexivity]. }
    split. { rewrite A2, NG. intros X b Hb. apply (holds_meq b (num_states f2) _ _ MG). auto. }
    rewrite NG, NN. split.
    { destruct (parsed_num_states l) as [|n] eqn:EN; [lia|]. destruct (proj1 (ME n) (B2 n eq_refl)) as [H|[(p & t & H & <-)|H]].
      - destruct (trs_of f n) eqn:X; [congruence|]. destruct (le_lt_dec (num_states f) n) as [Y|Y]; [|lia].
        rewrite (trs_of_oob f n Y) in X. discriminate.
      - apply (proj1 CL) in H. lia.
      - destruct (fin_of f n) eqn:X; [|congruence]. apply fin_of_some in X. lia. }
    split. { intros s M. apply B1, ME, M. }
    split. { intros n H. apply ME, B2, H. }
    rewrite A2, ST. unfold l, rows. cbn [order flat_map].
    assert (FS : forall (h : nat -> list (row K)) (P : nat -> Prop) ls s,
       (forall s, P s -> first_state (h s) = Some s) -> (forall s, ~ P s -> first_state (h s) = None) ->
       P s -> In s ls -> (forall a b, ls = a ++ s :: b -> ~ In s a -> forall q, In q a -> ~ P q) -> first_state (flat_map h ls) = Some s).
    { intros h P. induction ls as [|x ls IH]; intros s H1 H2 Ps I NP; [destruct I|]. cbn [flat_map]. rewrite first_state_app.
      destruct (Nat.eq_dec x s) as [->|NE].
      - now rewrite (H1 s Ps).
      - destruct I as [->|I]; [congruence|]. apply in_split in I as (a & b & E').
        assert (exists a b, ls = a ++ s :: b /\ ~ In s a) as (a' & b' & Ea & Nb).
        { assert (J : In s ls) by (rewrite E'; apply in_elt). clear - J. induction ls as [|y ls IHl]; [destruct J|].
          destruct (Nat.eq_dec y s) as [->|NE]; [exists [], ls; auto|]. destruct J as [->|J]; [congruence|].
          destruct (IHl J) as (p & q & -> & N). exists (y :: p), q. split; auto. simpl. tauto. }
        rewrite H2.
        + apply IH; auto. { rewrite Ea. apply in_elt. }
          intros a0 b0 E0 N0' q' Iq. apply (NP (x :: a0) b0); [simpl; now rewrite E0|simpl; tauto|simpl; auto].
        + apply (NP (x :: a') b'); [simpl; now rewrite Ea|simpl; tauto|simpl; auto]. }
    assert (FN : forall (h : nat -> list (row K)) ls, (forall s, In s ls -> first_state (h s) = None) -> first_state (flat_map h ls) = None).
    { intros h. induction ls as [|x ls IH]; intros H; auto. cbn [flat_map]. rewrite first_state_app, H, IH; simpl; auto.
      intros s I. apply H. simpl. auto. }
    assert (SQ : forall a b s n, seq 0 n = a ++ s :: b -> forall q, In q a -> q < s).
    { intros a b s n E' q' Iq. assert (length a = s).
      { pose proof (f_equal (fun l => nth_error l (length a)) E') as X. simpl in X. rewrite nth_error_app2, Nat.sub_diag in X by auto.
        simpl in X. rewrite (nth_error_nth' _ 0) in X.
        - rewrite seq_nth in X; [injection X; auto|]. pose proof (f_equal (@length nat) E') as Y. rewrite seq_length, app_length in Y. simpl in Y. lia.
        - rewrite E', app_length. simpl. lia. }
      apply In_nth with (d := 0) in Iq as (i & Li & <-).
      assert (X : nth i (seq 0 n) 0 = nth i a 0) by (rewrite E', app_nth1; auto).
      rewrite seq_nth in X; [simpl in X; lia|]. pose proof (f_equal (@length nat) E') as Y. rewrite seq_length, app_length in Y. simpl in Y. lia. }
    assert (H1 : forall s, trs_of f s <> [] -> first_state (trows f s) = Some s).
    { intros s H. rewrite first_trows. now destruct (trs_of f s). }
    assert (H2 : forall s, trs_of f s = [] -> first_state (trows f s) = None).
    { intros s H. rewrite first_trows. now rewrite H. }
    assert (H2' : forall s, ~ trs_of f s <> [] -> first_state (trows f s) = None).
    { intros s H. apply H2. destruct (trs_of f s); auto. exfalso. apply H. discriminate. }
    assert (H3 : forall s, fin_of f s <> None -> first_state (frows f s) = Some s).
    { intros s H. rewrite first_frows. now destruct (fin_of f s). }
    assert (H4 : forall s, ~ fin_of f s <> None -> first_state (frows f s) = None).
    { intros s H. rewrite first_frows. destruct (fin_of f s); auto. exfalso. apply H. discriminate. }
    rewrite !first_state_app. split; [|split; [|split]].
    - intros H. now rewrite H1.
    - intros H s X Y. rewrite H2 by auto.
      rewrite (FS (trows f) (fun s => trs_of f s <> []) (filter (fun s => negb (Nat.eqb s s0)) (seq 0 (num_states f))) s); auto.
      + apply filter_In. split.
        * apply in_seq. destruct (trs_of f s) eqn:Q; [congruence|]. destruct (le_lt_dec (num_states f) s) as [V|V]; [|lia].
          rewrite (trs_of_oob f s V) in Q. discriminate.
        * apply negb_true_iff, Nat.eqb_neq. congruence.
      + intros a b E' _ q' Iq. enough (q' < s) by (rewrite Y; auto).
        assert (FF : forall (p : nat -> bool) n a b, filter p (seq 0 n) = a ++ s :: b -> forall q, In q a -> q < s).
        { clear. intros p n a b E q Iq.
          assert (SS : forall l, Sorted.StronglySorted lt l -> Sorted.StronglySorted lt (filter p l)).
          { induction l as [|x l IH]; intros SSl; simpl; auto. apply Sorted.StronglySorted_inv in SSl as [A B].
            destruct (p x); auto. constructor; auto. apply Forall_forall. intros y Iy. apply filter_In in Iy as [Iy _].
            rewrite Forall_forall in B. auto. }
          assert (SQ : forall n k, Sorted.StronglySorted lt (seq k n)).
          { induction n0; intros k; simpl; constructor; auto. apply Forall_forall. intros y Iy. apply in_seq in Iy. lia. }
          specialize (SS _ (SQ n 0)). rewrite E in SS. clear - SS Iq. induction a as [|x a IH]; [destruct Iq|].
          simpl in SS. apply Sorted.StronglySorted_inv in SS as [A B]. destruct Iq as [->|Iq]; auto.
          rewrite Forall_forall in B. apply B. apply in_elt. }
        eapply FF; eauto.
    - intros H s X Y. rewrite H2 by auto. rewrite FN by (intros; apply H2; auto).
      apply (FS (frows f) (fun s => fin_of f s <> None)); auto.
      + apply in_seq. destruct (fin_of f s) eqn:Q; [|congruence]. apply fin_of_some in Q. lia.
      + intros a b E' _ q' Iq. rewrite Y; auto. eapply SQ; eauto.
    - intros H. rewrite H2 by apply H. rewrite FN by (intros; apply H2, H). apply FN. intros s _. rewrite first_frows. now rewrite (proj2 (H s)).
  Qed.

  (** So the relation survives whenever the start has a transition, or nothing has one and the
      start is the first final state. *)
  Theorem C25_same_relation (C : tcodec K) f s0 :
    tcodec_ok C -> closed f -> vstart f = Some s0 -> no_zero_final f -> u32_fields f ->
    trs_of f s0 <> [] \/
      ((forall q, trs_of f q = []) /\ fin_of f s0 <> None /\ forall q, q < s0 -> fin_of f q = None) ->
    exists g, from_text C (text C f) = Ok g /\ vstart g = Some s0 /\ forall n x y, rel (mach g) n x y = rel (mach f) n x y.
  Proof.
    intros W CL S0 Z U H.
    destruct (C25_roundtrip C f s0 W CL S0 Z U) as (g & E & _ & _ & WT & _ & _ & _ & _ & _ & _ & _ & _ & A1 & A2 & A3 & A4).
    exists g. split; auto. assert (ST : vstart g = Some s0).
    { destruct H as [H|(H1 & H2 & H3)]; auto. }
    split; auto. intros n x y. unfold rel. simpl. rewrite ST, S0. apply WT.
  Qed.
End C25.
Print Assumptions C25_roundtrip.
Print Assumptions C25_same_relation.

(** The example semiring prints as a decimal number or "inf". *)
Definition trop_text : tcodec tropN :=
  {| tc_show := fun w => match w with None => [105; 110; 102]%N | Some n => dec (N.of_nat n) end;
     tc_read := fun i =>
       match i with
       | (105 :: 110 :: 102 :: r)%N => Ok (None, r)
       | _ => match take_while is_digit i with
              | ([], _) => Err
              | (ds, r) => Ok (Some (N.to_nat (dec_val ds)), r)
              end
       end |}.
Lemma dec_head n : exists d r, dec n = d :: r /\ is_digit d = true.
Proof.
  pose proof (dec_nonempty n). pose proof (dec_digits n) as D. destruct (dec n) as [|d r]; [congruence|].
  exists d, r. split; auto. exact (Forall_inv D).
Qed.
Lemma trop_text_ok : tcodec_ok trop_text.
Proof.
  split.
  - intros [n|] r; [|reflexivity]. cbn [tc_show tc_read trop_text].
    destruct (dec_head (N.of_nat n)) as (d & u & E & D).
    assert (X : take_while is_digit (dec (N.of_nat n) ++ NL :: r) = (dec (N.of_nat n), NL :: r)).
    { apply take_while_all; [apply dec_digits|intros ? ? [= <- _]; reflexivity]. }
    rewrite E in *. rewrite X. cbn [app].
    assert (DV : dec_val (d :: u) = N.of_nat n) by (rewrite <- E; apply dec_val_dec).
    rewrite DV, Nnat.Nat2N.id.
    destruct (N.eqb_spec d 105) as [->|ND]; [discriminate|].
    destruct d as [|p]; auto. repeat (destruct p as [p|p|]; auto; try congruence).
  - intros [n|]; cbn [tc_show trop_text].
    + intros I. pose proof (dec_digits (N.of_nat n)) as D. rewrite Forall_forall in D. apply D in I. discriminate.
    + simpl. intuition discriminate.
  - intros [n|] v; cbn [tc_show trop_text]; [|discriminate].
    destruct (dec_head (N.of_nat n)) as (d & u & -> & D). intros [= -> _]. discriminate.
Qed.

(** Otherwise the start moves and the machine read back accepts something else. *)
Theorem C25_start_lost_refuted :
  exists (f g : vfst tropN) n x y,
    run vnew [OAddStates 2; OSetStart 1; OSetFinal 1 (Some 0); OAddTr 0 (Tr 5 5 (Some 0) 1)] = Ok f /\
    from_text trop_text (text trop_text f) = Ok g /\ vstart g = Some 0 /\
    rel (mach g) n x y <> rel (mach f) n x y.
Proof.
  eexists. eexists. exists 1, [5], [5]. split; [vm_compute; reflexivity|]. split; [vm_compute; reflexivity|].
  split; [reflexivity|]. vm_compute. discriminate.
Qed.
Print Assumptions C25_start_lost_refuted.

(** A malformed line is not an error: the transition "0 1 x 1" is read as "state 0 is final with
    weight 1" and every later line is dropped. *)
Theorem C25_malformed_line_refuted :
  exists g : vfst tropN,
    from_text trop_text ([48; TAB; 49; TAB; 120; TAB; 49; NL; 49; NL])%N = Ok g /\
    num_states g = 1 /\ fin_of g 0 = Some (Some 1).
Proof. eexists. split; [vm_compute; reflexivity|]. vm_compute. auto. Qed.
Print Assumptions C25_malformed_line_refuted.

Example C25_witness :
  exists f : vfst tropN,
    run vnew [OAddStates 4; OSetStart 1; OSetFinal 2 (Some 5); OAddTr 1 (Tr 0 7 (Some 3) 2); OAddTr 0 (Tr 1 1 (Some 12) 0);
              OAddTr 2 (Tr 1 0 None 1)] = Ok f /\
    closed f /\ no_zero_final f /\ u32_fields f /\
    exists g, from_text trop_text (text trop_text f) = Ok g /\ vstart g = Some 1 /\ num_states g = 3 /\
      trs_of g 2 = [Tr 1 0 None 1].
Proof.
  eexists. split; [vm_compute; reflexivity|].
  split.
  { split; [|cbn; intros s H; inversion H; vm_compute; lia].
    intros s t. destruct s as [|[|[|s]]]; cbn; intuition; subst; cbn; try (vm_compute; lia).
    destruct s as [|[|s]]; simpl in *; tauto. }
  split.
  { intros s w. destruct s as [|[|[|s]]]; cbn; try discriminate; [intros H; inversion H; discriminate|].
    destruct s as [|[|s]]; discriminate. }
  split.
  { split; [vm_compute; discriminate|]. intros s t. destruct s as [|[|[|s]]]; cbn; intuition; subst; cbn; try lia;
    destruct s as [|[|s]]; simpl in *; tauto. }
  eexists. split; [vm_compute; reflexivity|]. vm_compute. auto.
Qed.
