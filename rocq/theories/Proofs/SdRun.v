(** One call of the shortest-distance state, from its start. *)
From Coq Require Import List Arith NArith Bool Lia.
From Verif Require Import Base.Util Base.Semiring Base.Machine Base.PathSum
  Model.Props Model.VectorFst Model.Queues Model.ShortestDistance
  Proofs.VectorFacts Proofs.SdFacts.
Import ListNotations.
Local Open Scope K_scope.
Local Coercion rsr_psr : rsr_laws >-> psr_laws.

Section Run.
  Context {K : SR} (L : rsr_laws K) (Q : qops) (f : vfst K) (keep : tr K -> bool) (retain : bool).
  Let n := num_states f.
  Hypothesis C : closed f.
  Variable ok : Q -> (nat -> nat) -> option nat -> Prop.
  Hypothesis QS : qspec Q (kmach f keep) n ok.
  Implicit Types st : sdst K Q.
  Notation dq := (dq Q retain).
  Notation live := (live Q retain).

  (** Tags of earlier sources only, and vectors within the machine. *)
  Definition tagged st : Prop :=
    (length (sd_cells _ st) <= n)%nat /\ forall q j, nth q (sd_src _ st) None = Some j -> (j < sd_id _ st)%nat.
  Definition tagged' st : Prop :=
    (length (sd_cells _ st) <= n)%nat /\ forall q j, nth q (sd_src _ st) None = Some j -> (j <= sd_id _ st)%nat.

  Lemma ensure_le (l : list (cell K)) i : (i < n)%nat -> (length l <= n)%nat -> (length (ensure_cells l i) <= n)%nat.
  Proof. intros. unfold ensure_cells. rewrite app_length, repeat_length. lia. Qed.

  Lemma nth_upd_case {A} (l : list A) i q x d : nth q (upd l i x) d = nth q l d \/ nth q (upd l i x) d = x.
  Proof.
    destruct (Nat.eq_dec i q) as [->|H]; [|left; apply nth_upd_ne; auto].
    destruct (Nat.lt_ge_cases q (length l)); [right; apply nth_upd_eq; auto|].
    left. rewrite !nth_overflow; auto. rewrite upd_length. auto.
  Qed.

  Lemma sd_tr_tagged s r st t st' : (ns t < n)%nat -> tagged' st -> sd_tr Q retain keep s r st t = Ok st' ->
    tagged' st' /\ sd_id _ st' = sd_id _ st.
  Proof.
    intros Ht [T1 T2]. unfold sd_tr. destruct (keep t); cbn [negb]; [|intros H; injection H as <-; repeat split; auto].
    set (cells := if retain && _ then upd _ _ _ else _). set (src := if retain && _ then upd _ _ _ else _).
    assert (A : (length cells <= n)%nat).
    { unfold cells. destruct (_ && _); rewrite ?upd_length; apply ensure_le; auto. }
    assert (B : forall q j, nth q src None = Some j -> (j <= sd_id _ st)%nat).
    { intros q j. unfold src. destruct retain; [|apply T2]. destruct (_ && _).
      - destruct (nth_upd_case (ensure_src (sd_src Q st) (ns t)) (ns t) q (Some (sd_id Q st)) None) as [->| ->];
          [rewrite nth_ensure_src; apply T2|]. intros H; injection H as <-; auto.
      - rewrite nth_ensure_src. apply T2. }
    clearbody cells src. destruct (nth_error cells (ns t)) as [c|]; [|discriminate]. cbv zeta.
    destruct (keqb _ _); [intros H; injection H as <-; repeat split; auto|].
    destruct (nth_error _ s) as [cs|]; [|discriminate].
    destruct (negb (c_enq cs)).
    - destruct (qo_enqueue Q _ _); try discriminate. intros H; injection H as <-. cbn. repeat split; cbn; rewrite ?upd_length; auto.
    - destruct (qo_update Q _ _); try discriminate. intros H; injection H as <-. cbn. repeat split; cbn; rewrite ?upd_length; auto.
  Qed.

  Lemma sd_trs_tagged s r l : (forall t, In t l -> ns t < n)%nat -> forall st st', tagged' st -> sd_trs Q retain keep s r l st = Ok st' ->
    tagged' st' /\ sd_id _ st' = sd_id _ st.
  Proof.
    induction l as [|t l IH]; intros Hl st st' T; cbn [sd_trs]; [intros H; injection H as <-; auto|].
    destruct (sd_tr Q retain keep s r st t) as [st1| |] eqn:E; try discriminate. cbn [rbind]. intros E2.
    destruct (sd_tr_tagged s r st t st1 (Hl t (or_introl eq_refl)) T E) as [T1 I1].
    destruct (IH (fun u Hu => Hl u (or_intror Hu)) st1 st' T1 E2) as [T2 I2]. split; auto. congruence.
  Qed.

  Lemma sd_loop_tagged fp fuel : forall st st', tagged' st -> sd_loop Q fp retain keep fuel f st = Some (Ok st') ->
    tagged' st' /\ sd_id _ st' = sd_id _ st.
  Proof.
    induction fuel as [|fuel IH]; intros st st' T; cbn [sd_loop]; [discriminate|].
    destruct (qo_dequeue Q (sd_queue _ st)) as [[[s|] q]| |]; try discriminate; [|intros H; injection H as <-; split; auto].
    destruct (if fp then _ else _) as [[w|]| |]; try discriminate; [intros H; injection H as <-; split; auto|].
    destruct (nth_error (sd_cells _ st) s) as [c|]; [|discriminate].
    destruct (get_trs f s) as [tl| |] eqn:Eg; try discriminate. unfold get_trs, get_state in Eg.
    destruct (nth_error (vstates f) s) as [x|] eqn:Ex; [|discriminate]. cbn in Eg. injection Eg as <-.
    destruct (sd_trs Q retain keep s _ _ _) as [st2| |] eqn:E; try discriminate. intros E2.
    assert (Hl : forall t, In t (vtrs x) -> (ns t < n)%nat).
    { intros t Ht. apply (proj1 C s t). unfold trs_of. rewrite Ex. auto. }
    apply sd_trs_tagged in E as [T2 I2]; auto; [|split; cbn; rewrite ?upd_length; apply T].
    destruct (IH st2 st' T2 E2) as [T3 I3]. split; auto. cbn in I2. congruence.
  Qed.

  Lemma sd_loop_longer fp fuel : forall st st', sd_loop Q fp retain keep fuel f st = Some (Ok st') ->
    (length (sd_cells _ st) <= length (sd_cells _ st'))%nat.
  Proof.
    induction fuel as [|fuel IH]; intros st st'; cbn [sd_loop]; [discriminate|].
    destruct (qo_dequeue Q (sd_queue _ st)) as [[[s|] q]| |]; try discriminate; [|intros H; injection H as <-; auto].
    destruct (if fp then _ else _) as [[w|]| |]; try discriminate; [intros H; injection H as <-; auto|].
    destruct (nth_error (sd_cells _ st) s) as [c|]; [|discriminate].
    destruct (get_trs f s) as [tl| |] eqn:Eg; try discriminate.
    destruct (sd_trs Q retain keep s _ _ _) as [st2| |] eqn:E; try discriminate. intros E2.
    apply IH in E2. etransitivity; [|exact E2]. clear - E.
    assert (X : (length (sd_cells _ (SD Q q (upd (sd_cells _ st) s (Cell (c_dist c) (c_add c) 0%K false)) (sd_src _ st) (sd_id _ st))) <= length (sd_cells _ st2))%nat).
    { revert E. generalize (SD Q q (upd (sd_cells _ st) s (Cell (c_dist c) (c_add c) 0%K false)) (sd_src _ st) (sd_id _ st)) as sta.
      generalize (c_radd c) as r. clear. induction tl as [|t l IH]; intros r sta; cbn [sd_trs]; [intros H; injection H as <-; auto|].
      destruct (sd_tr Q retain keep s r sta t) as [st1| |] eqn:E; try discriminate. cbn [rbind]. intros E2. apply IH in E2.
      etransitivity; [|exact E2]. clear - E. revert E. unfold sd_tr. destruct (keep t); cbn [negb]; [|intros H; injection H as <-; auto].
      set (cells := if retain && _ then upd _ _ _ else _). set (src := if retain && _ then upd _ _ _ else _).
      assert (A : (length (sd_cells _ sta) <= length cells)%nat).
      { unfold cells. destruct (_ && _); rewrite ?upd_length; unfold ensure_cells; rewrite app_length; lia. }
      clearbody cells src. destruct (nth_error cells (ns t)) as [c'|]; [|discriminate]. cbv zeta.
      destruct (keqb _ _); [intros H; injection H as <-; auto|].
      destruct (nth_error _ s) as [cs|]; [|discriminate].
      destruct (negb (c_enq cs)).
      - destruct (qo_enqueue Q _ _); try discriminate. intros H; injection H as <-. cbn. rewrite ?upd_length; auto.
      - destruct (qo_update Q _ _); try discriminate. intros H; injection H as <-. cbn. rewrite ?upd_length; auto. }
    cbn [sd_cells] in X. rewrite upd_length in X. auto.
  Qed.

  Lemma ensure_len1 (l : list (cell K)) i : (i < length (ensure_cells l i))%nat.
  Proof. unfold ensure_cells. rewrite app_length, repeat_length. lia. Qed.

  Lemma ensure_src_len1 (l : list (option nat)) i : (i < length (ensure_src l i))%nat.
  Proof. unfold ensure_src. rewrite app_length, repeat_length. lia. Qed.

  Definition the_source (source : option nat) (start : nat) : nat := match source with Some s => s | None => start end.

  Lemma run_start source start st M last : vstart f = Some start -> (the_source source start < n)%nat ->
    ok (sd_queue _ st) M last -> (retain = true -> tagged st) ->
    exists q1 q2 M2, qo_clear Q (sd_queue _ st) = Ok q1 /\ qo_enqueue Q q1 (the_source source start) = Ok q2 /\
      let s := the_source source start in
      let cells := if retain then sd_cells _ st else [] in
      let src := if retain then upd (ensure_src (sd_src _ st) s) s (Some (sd_id _ st)) else sd_src _ st in
      loop_inv Q f keep retain ok s (SD Q q2 (upd (ensure_cells cells s) s (Cell 1 1 1 true)) src (sd_id _ st)) M2 None (fun _ => 0).
  Proof.
    intros Es Hs O Tg. set (s := the_source source start) in *.
    destruct (qs_clear _ _ _ _ QS _ _ _ O) as (q1 & E1 & O1).
    destruct (qs_enqueue _ _ _ _ QS _ _ _ s O1 Hs) as (q2 & M2 & E2 & O2 & Ms & Mx); [discriminate|].
    exists q1, q2, M2. split; auto. split; auto. cbv zeta.
    set (cells := if retain then sd_cells _ st else []).
    set (src := if retain then upd (ensure_src (sd_src _ st) s) s (Some (sd_id _ st)) else sd_src _ st).
    set (st0 := SD Q q2 (upd (ensure_cells cells s) s (Cell 1 1 1 true)) src (sd_id _ st)).
    assert (Cs : cellq Q st0 s = Cell 1 1 1 true).
    { unfold cellq. cbn [sd_cells st0]. apply nth_upd_eq. apply ensure_len1. }
    assert (Ls : live st0 s = true).
    { unfold SdFacts.live. destruct retain eqn:Er; auto. cbn. unfold src. rewrite nth_upd_eq by apply ensure_src_len1. apply src_is_refl. }
    assert (Z : forall q, q <> s -> live st0 q = true -> cellq Q st0 q = cell0).
    { intros q Hq Hl. unfold SdFacts.live in Hl. unfold cellq. cbn. rewrite nth_upd_ne by auto. rewrite nth_ensure.
      unfold cells. destruct retain eqn:Er; [|destruct q; auto]. exfalso. cbn in Hl. unfold src in Hl.
      rewrite nth_upd_ne in Hl by auto. rewrite nth_ensure_src in Hl. destruct (nth q (sd_src _ st) None) as [j|] eqn:Ej; [|discriminate].
      apply Nat.eqb_eq in Hl. pose proof (proj2 (Tg eq_refl) q j Ej). lia. }
    assert (Dq : forall q, dq st0 q = unit_at s q).
    { intros q. unfold SdFacts.dq, unit_at. destruct (Nat.eqb_spec s q) as [<-|Hq]; [rewrite Ls, Cs; auto|].
      destruct (live st0 q) eqn:El; auto. rewrite Z; auto. }
    assert (Rq : forall q, rq Q retain st0 q = unit_at s q).
    { intros q. unfold SdFacts.rq, unit_at. destruct (Nat.eqb_spec s q) as [<-|Hq]; [rewrite Ls, Cs; auto|].
      destruct (live st0 q) eqn:El; auto. rewrite Z; auto. }
    unfold loop_inv. split; [|split; [exact O2|split; [|split; [|split]]]].
    - intros q Hl. destruct (Nat.eq_dec q s) as [->|Hq]; [rewrite Cs; auto|rewrite Z; auto].
    - intros q. rewrite Dq, Rq, (kplus_0_l _ L). auto.
    - intros q. rewrite Dq, (adj_0 L), (kplus_0_r L). auto.
    - split.
      + intros q Hq. rewrite Rq in Hq. destruct (Nat.eq_dec q s) as [e|ne]; [rewrite e; lia|].
        exfalso. apply Hq. unfold unit_at. destruct (Nat.eqb_spec s q); congruence.
      + intros q Hq. destruct (Nat.eq_dec q s) as [->|Hqs]; [|rewrite Mx in Hq by auto; lia].
        split; auto. split; auto. cbn [sd_cells st0]. rewrite upd_length. apply ensure_len1.
    - intros Id. exists 0%nat. intros q. rewrite Dq, (upto_0 L). apply Id.
  Qed.

  (** What a call returns, whenever it does. *)
  Theorem run_correct pathp source start st M last fuel R : vstart f = Some start -> (the_source source start < n)%nat ->
    ok (sd_queue _ st) M last -> (retain = true -> tagged st) -> calm f keep ->
    sd_run Q true pathp false retain keep fuel source f st = Some R ->
    exists D st' M' last', R = Ok (D, st') /\ ok (sd_queue _ st') M' last' /\
      sd_id _ st' = S (sd_id _ st) /\ (retain = true -> tagged st') /\ (the_source source start < length D <= n)%nat /\ D = map c_dist (sd_cells _ st') /\
      let d q := if retain then if src_is (nth q (sd_src _ st') None) (sd_id _ st) then nth q D 0 else 0 else nth q D 0 in
      fixed (kmach f keep) n (the_source source start) d /\
      (idempotent_plus K -> exists k, forall q, upto (kmach f keep) k (the_source source start) q + d q =
         upto (kmach f keep) k (the_source source start) q).
  Proof.
    intros Es Hs O Tg Ca. destruct (run_start source start st M last Es Hs O Tg) as (q1 & q2 & M2 & E1 & E2 & I).
    unfold sd_run. rewrite Es. cbn [negb andb]. rewrite E1. fold (the_source source start). rewrite E2.
    cbv zeta in I. set (st0 := SD Q q2 _ _ _) in *. fold st0.
    destruct (sd_loop Q false retain keep fuel f st0) as [R0|] eqn:E; [|discriminate].
    destruct (loop_correct L Q f keep retain C ok QS _ Hs Ca fuel st0 M2 None _ I R0 E) as (st' & M' & last' & -> & W & Oq & Id & F & B).
    assert (T0 : tagged' st0 \/ retain = false).
    { destruct retain eqn:Er; auto. left. destruct (Tg eq_refl) as [T1 T2]. split; cbn.
      - rewrite upd_length. apply ensure_le; auto.
      - intros q j. destruct (nth_upd_case (ensure_src (sd_src Q st) (the_source source start)) (the_source source start) q (Some (sd_id Q st)) None) as [->| ->].
        + rewrite nth_ensure_src. intros H. apply T2 in H. lia.
        + intros H; injection H as <-; auto. }
    assert (T1 : (length (sd_cells _ st') <= n)%nat /\ (retain = true -> tagged' st')).
    { destruct T0 as [T0|Er].
      - apply sd_loop_tagged in E as [T1 _]; auto. split; auto. apply T1.
      - rewrite Er in *. split; [|discriminate].
        (* drop the tags *)
        clear - E C Hs Er. subst st0. revert E. generalize (sd_src Q st) (sd_id Q st). intros src id E. rewrite Er in E.
        assert (Lt : (length (upd (ensure_cells [] (the_source source start)) (the_source source start) (@Cell K 1%K 1%K 1%K true)) <= n)%nat).
        { rewrite upd_length. apply ensure_le; auto. simpl. lia. }
        revert E Lt. generalize (upd (ensure_cells [] (the_source source start)) (the_source source start) (@Cell K 1%K 1%K 1%K true)).
        intros cells. revert q2 cells src id. induction fuel as [|fuel IH]; intros q2 cells src id; cbn [sd_loop]; [discriminate|].
        cbn [sd_queue sd_cells sd_src sd_id].
        destruct (qo_dequeue Q q2) as [[[s|] q]| |]; try discriminate; [|intros H; injection H as <-; auto].
        destruct (nth_error cells s) as [c|]; [|discriminate].
        destruct (get_trs f s) as [tl| |] eqn:Eg; try discriminate. unfold get_trs, get_state in Eg.
    destruct (nth_error (vstates f) s) as [x|] eqn:Ex; [|discriminate]. cbn in Eg. injection Eg as <-.
        assert (Hl : forall t, In t (vtrs x) -> (ns t < n)%nat).
        { intros t Ht. apply (proj1 C s t). unfold trs_of. rewrite Ex. auto. }
        destruct (sd_trs Q false keep s (c_radd c) (vtrs x) _) as [st2| |] eqn:E; try discriminate. intros E2 Lt.
        destruct st2 as [q3 cells3 src3 id3]. apply (IH _ _ _ _ E2).
        assert (Lt' : (length (sd_cells _ (SD Q q (upd cells s (Cell (c_dist c) (c_add c) 0%K false)) src id)) <= n)%nat)
          by (cbn; rewrite upd_length; auto). clear Lt E2 IH.
        change cells3 with (sd_cells _ (SD Q q3 cells3 src3 id3)). revert E Lt' Hl. generalize (c_radd c) as r.
        generalize (SD Q q (upd cells s (Cell (c_dist c) (c_add c) 0%K false)) src id) as sta. generalize (SD Q q3 cells3 src3 id3) as stb.
        clear. induction (vtrs x) as [|t l IH]; intros stb sta r; cbn [sd_trs]; [intros H; injection H as <-; auto|].
        destruct (sd_tr Q false keep s r sta t) as [st1| |] eqn:E; try discriminate. cbn [rbind]. intros E2 Lt Hl. apply (IH _ _ _ E2).
        2:{ intros u Hu. apply Hl. right. auto. }
        revert E. unfold sd_tr. destruct (keep t); cbn [negb andb]; [|intros H; injection H as <-; auto].
        pose proof (ensure_le (sd_cells _ sta) (ns t) (Hl t (or_introl eq_refl)) Lt) as A.
        destruct (nth_error _ (ns t)) as [c'|]; [|discriminate]. cbv zeta.
        destruct (keqb _ _); [intros H; injection H as <-; auto|].
        destruct (nth_error _ s) as [cs|]; [|discriminate].
        destruct (negb (c_enq cs)).
        + destruct (qo_enqueue Q _ _); try discriminate. intros H; injection H as <-. cbn. rewrite ?upd_length; auto.
        + destruct (qo_update Q _ _); try discriminate. intros H; injection H as <-. cbn. rewrite ?upd_length; auto. }
    intros H; injection H as <-. do 4 eexists. split; [reflexivity|]. cbn [sd_queue sd_cells sd_src sd_id].
    split; [exact Oq|]. cbn in Id. rewrite Id. split; auto. split; [|split; [|split; auto]].
    { intros Er. destruct (proj2 T1 Er) as [X1 X2]. split; auto. cbn. intros q j Hj. apply X2 in Hj. lia. }
    { rewrite map_length. split; [|exact (proj1 T1)]. apply sd_loop_longer in E. cbn [sd_cells st0] in E. rewrite upd_length in E.
      eapply Nat.lt_le_trans; [|exact E]. apply ensure_len1. }
    assert (De : forall q, dq st' q = (if retain then if src_is (nth q (sd_src _ st') None) (sd_id _ st) then nth q (map c_dist (sd_cells _ st')) 0 else 0 else nth q (map c_dist (sd_cells _ st')) 0)).
    { intros q. unfold SdFacts.dq, SdFacts.live, cellq. rewrite Id.
      assert (X : nth q (map c_dist (sd_cells _ st')) 0 = c_dist (nth q (sd_cells _ st') cell0)) by exact (map_nth c_dist (sd_cells _ st') cell0 q).
      rewrite X. destruct retain; reflexivity. }
    cbv zeta. split.
    - intros q. rewrite <- De, (F q). f_equal. apply adj_ext. intros p _. apply De.
    - intros Ip. destruct (B Ip) as (k & Hk). exists k. intros q. rewrite <- De. apply Hk.
  Qed.

  (** A call returns if sums cannot grow for ever, or if there is no kept cycle. *)
  Theorem run_terminates pathp source start st M last : vstart f = Some start -> (the_source source start < n)%nat ->
    ok (sd_queue _ st) M last -> (retain = true -> tagged st) -> calm f keep ->
    well_founded (@kup K) \/ acyclic (kmach f keep) ->
    exists fuel R, sd_run Q true pathp false retain keep fuel source f st = Some R.
  Proof.
    intros Es Hs O Tg Ca Wf. destruct (run_start source start st M last Es Hs O Tg) as (q1 & q2 & M2 & E1 & E2 & I).
    assert (X : exists fuel R, sd_loop Q false retain keep fuel f (SD Q q2
      (upd (ensure_cells (if retain then sd_cells _ st else []) (the_source source start)) (the_source source start) (Cell 1 1 1 true))
      (if retain then upd (ensure_src (sd_src _ st) (the_source source start)) (the_source source start) (Some (sd_id _ st)) else sd_src _ st) (sd_id _ st)) = Some R).
    { destruct Wf as [Wf|Ac].
      - eapply loop_terminates; eauto.
      - exists (S (cost f keep M2)). eapply loop_terminates_acyclic; eauto. }
    destruct X as (fuel & R & E). exists fuel. unfold sd_run. rewrite Es. cbn [negb andb]. rewrite E1. fold (the_source source start). rewrite E2, E.
    destruct R; eauto.
  Qed.
End Run.
