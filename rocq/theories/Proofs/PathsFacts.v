(** The paths iterator lists the paths level by level. *)
From Coq Require Import List Arith NArith Bool Lia.
From Verif Require Import Base.Util Base.Semiring Base.Machine Base.PathSum
  Model.VectorFst Model.FstPath Model.Rational Model.Paths
  Proofs.VectorFacts Proofs.OpFacts Proofs.RationalFacts.
Import ListNotations.

Section P.
  Context {K : SR} (L : lsr_laws K).
  Variable f : vfst K.
  Hypothesis C : closed f.
  Variable s0 : nat.
  Hypothesis S0 : vstart f = Some s0.
  Let m := mach f.

  (** The paths of length below [k], shortest first. *)
  Definition levels (k : nat) : list (list (tr K)) := flat_map (fun i => paths m i s0) (seq 0 k).
  Definition half (p : list (tr K)) : nat * fpath K := (dst s0 p, FP (ilabs p) (olabs p) (pw p)).
  Definition ext (p : list (tr K)) : list (list (tr K)) := map (fun t => p ++ [t]) (mtrs m (dst s0 p)).
  Definition outs (l : list (list (tr K))) : list (fpath K) :=
    flat_map (fun p => match mfin m (dst s0 p) with Some w => [FP (ilabs p) (olabs p) (ktimes (pw p) w)] | None => [] end) l.

  Lemma levels_S k : levels (S k) = levels k ++ paths m k s0.
  Proof. unfold levels. rewrite seq_S, flat_map_app. cbn. rewrite app_nil_r. auto. Qed.
  Lemma levels_add k d : exists Y, levels (k + d) = levels k ++ Y.
  Proof.
    induction d as [|d [Y IH]].
    - exists []. rewrite Nat.add_0_r, app_nil_r. auto.
    - exists (Y ++ paths m (k + d) s0). rewrite Nat.add_succ_r, levels_S, IH, app_assoc. auto.
  Qed.
  Lemma paths_ext k : paths m (S k) s0 = flat_map ext (paths m k s0).
  Proof. apply paths_snoc. Qed.
  Lemma paths_none k d : paths m k s0 = [] -> paths m (k + d) s0 = [].
  Proof.
    intros H. induction d; [rewrite Nat.add_0_r; auto|]. rewrite Nat.add_succ_r, paths_ext, IHd. auto.
  Qed.
  Lemma levels_none k d : paths m k s0 = [] -> levels (k + d) = levels k.
  Proof.
    intros H. induction d; [rewrite Nat.add_0_r; auto|].
    rewrite Nat.add_succ_r, levels_S, (paths_none k d H), app_nil_r. auto.
  Qed.

  Lemma pw_snoc (p : list (tr K)) (t : tr K) : pw (p ++ [t]) = ktimes (pw p) (wgt t).
  Proof.
    induction p as [|u p IH]; cbn [app pw].
    - rewrite (ktimes_1_r K L), (ktimes_1_l K L). auto.
    - rewrite IH, (ktimes_assoc K L). auto.
  Qed.
  Lemma half_ext p : map half (ext p) =
    map (fun t => (ns t, add_to_path (snd (half p)) (il t) (ol t) (wgt t))) (trs_of f (dst s0 p)).
  Proof.
    unfold ext. rewrite map_map. apply map_ext. intros t. unfold half, add_to_path. cbn [fst snd pil pol pwgt].
    rewrite dst_app, pw_snoc. unfold ilabs, olabs. rewrite !flat_map_app. cbn [flat_map dst]. rewrite !app_nil_r. f_equal.
    unfold lab. destruct (il t =? 0), (ol t =? 0); rewrite ?app_nil_r; auto.
  Qed.

  (** [P] has been taken from the queue and [q] is left. *)
  Definition pinv (P : list (list (tr K))) (q : list (nat * fpath K)) : Prop :=
    exists k A B, levels k ++ B = P /\ paths m k s0 = B ++ A /\ q = map half (A ++ flat_map ext B).

  Lemma pinv_new : pinv [] (pi_new f).
  Proof.
    exists 0, [[]], []. split; [reflexivity|]. split; [reflexivity|]. unfold pi_new. rewrite S0. reflexivity.
  Qed.
  Lemma dst_in p : forall s, s < num_states f -> is_path m s p -> dst s p < num_states f.
  Proof.
    induction p as [|t p IH]; cbn [dst is_path]; intros s Hs H; auto. apply IH; [|apply H]. apply (proj1 C s). apply H.
  Qed.
  Lemma pinv_cons P x q : pinv P (x :: q) -> exists p, x = half p /\ fst x < num_states f /\
    pinv (P ++ [p]) (q ++ map half (ext p)) /\
    (forall X, (exists k Y, levels k = P ++ X ++ Y) -> X <> [] -> exists X', X = p :: X').
  Proof.
    assert (G : forall k A B, levels k ++ B = P -> paths m k s0 = B ++ A -> A <> [] -> x :: q = map half (A ++ flat_map ext B) ->
      exists p, x = half p /\ fst x < num_states f /\ pinv (P ++ [p]) (q ++ map half (ext p)) /\
      (forall X, (exists k Y, levels k = P ++ X ++ Y) -> X <> [] -> exists X', X = p :: X')).
    { intros k A B E1 E2 HA E3. destruct A as [|p A]; [congruence|]. cbn [app map] in E3. injection E3 as -> ->. exists p.
      split; auto. split; [|split].
      - assert (I : In p (paths m k s0)) by (rewrite E2; apply in_app_iff; right; left; auto).
        apply paths_is_path in I as [I _]. apply dst_in; auto. apply (proj2 C). auto.
      - exists k, A, (B ++ [p]). split; [rewrite app_assoc, E1; auto|]. split; [rewrite E2, <- app_assoc; auto|].
        rewrite <- map_app. rewrite flat_map_app. cbn [flat_map]. rewrite app_nil_r, app_assoc. auto.
      - intros X (k2 & Y & E) HX.
        assert (E4 : levels (S k) = P ++ p :: A) by (rewrite levels_S, E2, app_assoc, E1; auto).
        assert (HH : exists Z, P ++ p :: A ++ Z = P ++ X ++ Y \/ P ++ p :: A = (P ++ X ++ Y) ++ Z).
        { destruct (le_ge_dec (S k) k2).
          - destruct (levels_add (S k) (k2 - S k)) as [Z EZ]. replace (S k + (k2 - S k)) with k2 in EZ by lia.
            exists Z. left. rewrite <- E, EZ, E4, <- app_assoc. auto.
          - destruct (levels_add k2 (S k - k2)) as [Z EZ]. replace (k2 + (S k - k2)) with (S k) in EZ by lia.
            exists Z. right. rewrite <- E4, EZ, E. auto. }
        destruct HH as [Z [H|H]].
        + apply app_inv_head in H. destruct X as [|a X]; [congruence|]. injection H as -> _. eauto.
        + rewrite <- app_assoc in H. apply app_inv_head in H. destruct X as [|a X]; [congruence|]. injection H as -> _. eauto. }
    intros (k & A & B & E1 & E2 & E3). destruct A as [|a A].
    - apply (G (S k) (flat_map ext B) []).
      + rewrite app_nil_r, levels_S, E2, app_nil_r. auto.
      + rewrite paths_ext, E2, app_nil_r. auto.
      + intros H. cbn [app] in E3. rewrite H in E3. discriminate.
      + cbn [flat_map]. rewrite app_nil_r. auto.
    - apply (G k (a :: A) B); auto. discriminate.
  Qed.
  Lemma pinv_nil P : pinv P [] -> exists k, paths m k s0 = [] /\ forall d, levels (k + d) = P.
  Proof.
    intros (k & A & B & E1 & E2 & E3). symmetry in E3. apply map_eq_nil in E3. apply app_eq_nil in E3 as [-> E3].
    rewrite app_nil_r in E2. exists (S k). assert (N : paths m (S k) s0 = []) by (rewrite paths_ext, E2; auto).
    split; auto. intros d. rewrite (levels_none _ d N), levels_S, E2, E1. auto.
  Qed.
  Lemma pinv_prefix P q : pinv P q -> exists k, forall d, exists Y, levels (k + d) = P ++ Y.
  Proof.
    intros (k & A & B & E1 & E2 & E3). exists (S k). intros d. destruct (levels_add (S k) d) as [Y E].
    exists (A ++ Y). rewrite E, levels_S, E2, <- E1, <- !app_assoc. auto.
  Qed.

  Lemma outs_app l l' : outs (l ++ l') = outs l ++ outs l'.
  Proof. apply flat_map_app. Qed.

  (** What one call of [next] gives. *)
  Lemma next_ok fuel : forall P q r, pinv P q -> pi_next fuel f q = Some r ->
    exists o q' X, r = Ok (o, q') /\ pinv (P ++ X) q' /\
      outs X = match o with Some p => [p] | None => [] end /\ (o = None -> q' = []).
  Proof.
    induction fuel as [|fuel IH]; intros P q r H E.
    - destruct q as [|[s p] q]; [|discriminate]. injection E as <-. exists None, [], []. rewrite app_nil_r. repeat split; auto.
    - destruct q as [|[s p] q]; [injection E as <-; exists None, [], []; rewrite app_nil_r; repeat split; auto|].
      destruct (pinv_cons _ _ _ H) as (pp & E1 & Hs & H2 & _). cbn [fst] in Hs. cbn [pi_next] in E.
      destruct (Nat.leb_spec (num_states f) s); [lia|].
      rewrite half_ext in H2. rewrite <- E1 in H2. cbn [snd] in H2. unfold half in E1. injection E1 as -> ->.
      destruct (fin_of f (dst s0 pp)) as [w|] eqn:F.
      + injection E as <-. eexists _, _, [pp]. split; [reflexivity|]. split; auto. split; [|discriminate].
        unfold outs. cbn [flat_map]. change (mfin m (dst s0 pp)) with (fin_of f (dst s0 pp)). rewrite F, app_nil_r. reflexivity.
      + destruct (IH _ _ _ H2 E) as (o & q' & X & -> & H3 & H4 & H5). exists o, q', (pp :: X). split; auto.
        split; [rewrite <- app_assoc in H3; auto|]. split; auto.
        unfold outs in *. cbn [flat_map]. change (mfin m (dst s0 pp)) with (fin_of f (dst s0 pp)). rewrite F. auto.
  Qed.

  (** A further accepting path is found. *)
  Lemma next_finds X : forall fuel P q k Y, pinv P q -> levels k = P ++ X ++ Y -> outs X <> [] -> length X <= fuel ->
    pi_next fuel f q <> None.
  Proof.
    induction X as [|p X IH]; intros fuel P q k Y H E N Hf; [cbn in N; congruence|].
    destruct q as [|[s pp] q]; [destruct fuel; discriminate|].
    destruct (pinv_cons _ _ _ H) as (p1 & E1 & Hs & H2 & H3). cbn [fst] in Hs.
    destruct (H3 (p :: X)) as [X' EX]; [eauto|discriminate|]. injection EX as -> _.
    destruct fuel as [|fuel]; [cbn in Hf; lia|]. cbn [pi_next]. destruct (Nat.leb_spec (num_states f) s); [lia|].
    rewrite half_ext in H2. rewrite <- E1 in H2. cbn [snd] in H2. unfold half in E1. injection E1 as -> ->.
    destruct (fin_of f (dst s0 p1)) as [w|] eqn:F; [discriminate|].
    eapply IH with (P := P ++ [p1]) (k := k) (Y := Y); eauto.
    - rewrite <- app_assoc. auto.
    - unfold outs in *. cbn [flat_map] in N. change (mfin m (dst s0 p1)) with (fin_of f (dst s0 p1)) in N. rewrite F in N. auto.
    - cbn in Hf. lia.
  Qed.
  (** If the paths are finitely many the end is found too. *)
  Lemma next_ends X : forall fuel P q k, pinv P q -> paths m k s0 = [] -> levels k = P ++ X -> length X <= fuel ->
    pi_next fuel f q <> None.
  Proof.
    induction X as [|p X IH]; intros fuel P q k H N E Hf.
    - destruct q as [|x q]; [destruct fuel; discriminate|]. exfalso.
      destruct (pinv_cons _ _ _ H) as (p1 & E1 & Hs & H2 & H3).
      destruct (pinv_prefix _ _ H2) as [k2 H4]. destruct (H4 k) as [Y H5]. rewrite Nat.add_comm, levels_none in H5 by auto.
      rewrite E, app_nil_r, <- app_assoc in H5. apply (f_equal (@length _)) in H5. rewrite !app_length in H5. cbn in H5. lia.
    - destruct q as [|[s pp] q]; [destruct fuel; discriminate|].
      destruct (pinv_cons _ _ _ H) as (p1 & E1 & Hs & H2 & H3). cbn [fst] in Hs.
      destruct (H3 (p :: X)) as [X' EX]; [exists k, []; rewrite app_nil_r; auto|discriminate|]. injection EX as -> _.
      destruct fuel as [|fuel]; [cbn in Hf; lia|]. cbn [pi_next]. destruct (Nat.leb_spec (num_states f) s); [lia|].
      rewrite half_ext in H2. rewrite <- E1 in H2. cbn [snd] in H2. unfold half in E1. injection E1 as -> ->.
      destruct (fin_of f (dst s0 p1)) as [w|] eqn:F; [discriminate|].
      eapply IH with (P := P ++ [p1]) (k := k); eauto.
      + rewrite <- app_assoc. auto.
      + cbn in Hf. lia.
  Qed.

  Lemma pad_app {A} (a b : list A) n : firstn n (map Some (a ++ b) ++ repeat None n) =
    firstn n (map Some a) ++ firstn (n - length a) (map Some b ++ repeat None (n - length a)).
  Proof.
    rewrite map_app, <- app_assoc, firstn_app, map_length. f_equal.
    rewrite !firstn_app, !map_length. f_equal.
    assert (X : forall i j, i <= j -> firstn i (repeat (@None A) j) = repeat None i).
    { induction i; intros j Hj; cbn; auto. destruct j; [lia|]. cbn. f_equal. apply IHi. lia. }
    rewrite !X by lia. auto.
  Qed.

  (** [n] calls: what they give. *)
  Lemma calls_ok fuel n : forall P q r, pinv P q -> pi_calls fuel f n q = Some r ->
    exists rs, r = Ok rs /\ (In None rs -> exists k, paths m k s0 = []) /\
      exists k0, forall k, k0 <= k -> exists Q, levels k = P ++ Q /\ rs = firstn n (map Some (outs Q) ++ repeat None n).
  Proof.
    induction n as [|n IH]; intros P q r H E; cbn [pi_calls] in E.
    - injection E as <-. exists []. split; auto. split; [intros []|]. destruct (pinv_prefix _ _ H) as [k Hk].
      exists k. intros k2 Hk2. destruct (Hk (k2 - k)) as [Y HY]. replace (k + (k2 - k)) with k2 in HY by lia.
      exists Y. split; auto.
    - destruct (pi_next fuel f q) as [r1|] eqn:E1; [|discriminate].
      destruct (next_ok _ _ _ _ H E1) as (o & q' & X & -> & H1 & H2 & H3).
      destruct (pi_calls fuel f n q') as [r2|] eqn:E2; [|discriminate].
      destruct (IH _ _ _ H1 E2) as (rs & -> & H4 & k0 & H5). injection E as <-. exists (o :: rs). split; auto. split.
      + intros [->|I]; auto. rewrite (H3 eq_refl) in H1. destruct (pinv_nil _ H1) as [k [Hk _]]. eauto.
      + destruct o as [p|].
        * exists k0. intros k Hk. destruct (H5 k Hk) as (Q & E3 & E4). exists (X ++ Q). split; [rewrite E3, app_assoc; auto|].
          rewrite outs_app, H2. cbn [app map firstn]. f_equal. rewrite E4.
          pose proof (pad_app (outs Q) [] n) as Y. cbn [map] in Y. rewrite app_nil_r in Y.
          rewrite !firstn_app, !map_length. f_equal.
          assert (XX : forall i j, i <= j -> firstn i (repeat (@None (fpath K)) j) = repeat None i).
          { induction i; intros j Hj; cbn; auto. destruct j; [lia|]. cbn. f_equal. apply IHi. lia. }
          rewrite !XX by lia. auto.
        * rewrite (H3 eq_refl) in H1. destruct (pinv_nil _ H1) as (k1 & Hk1 & Hl).
          exists (Nat.max k0 k1). intros k Hk. exists X. split.
          -- rewrite <- (Hl (k - k1)). f_equal. lia.
          -- rewrite H2. cbn [map app repeat firstn]. f_equal. destruct (H5 k ltac:(lia)) as (Q & E3 & E4).
             rewrite E4. replace k with (k1 + (k - k1)) in E3 by lia. rewrite Hl in E3.
             rewrite <- (app_nil_r (P ++ X)) in E3 at 1. apply app_inv_head in E3. subst Q. reflexivity.
  Qed.

  Lemma outs_split l : forall n, n < length (outs l) -> exists a b, l = a ++ b /\ length (outs a) = S n.
  Proof.
    induction l as [|p l IH]; intros n Hn; [cbn in Hn; lia|].
    assert (E : outs (p :: l) = outs [p] ++ outs l) by (unfold outs; cbn [flat_map]; rewrite app_nil_r; auto).
    destruct (outs [p]) as [|x [|y z]] eqn:E1.
    - rewrite E in Hn. destruct (IH n Hn) as (a & b & -> & H). exists (p :: a), b. split; auto.
      change (p :: a) with ([p] ++ a). rewrite outs_app, E1. auto.
    - destruct n as [|n]; [exists [p], l; split; auto; rewrite E1; auto|].
      rewrite E in Hn. cbn in Hn. destruct (IH n ltac:(lia)) as (a & b & -> & H). exists (p :: a), b. split; auto.
      change (p :: a) with ([p] ++ a). rewrite outs_app, E1. cbn. auto.
    - exfalso. unfold outs in E1. cbn [flat_map] in E1. destruct (mfin m (dst s0 p)); discriminate.
  Qed.

  Lemma calls_find n : forall fuel P q k Q, pinv P q -> levels k = P ++ Q -> n <= length (outs Q) -> length Q <= fuel ->
    pi_calls fuel f n q <> None.
  Proof.
    induction n as [|n IH]; intros fuel P q k Q H E Hn Hf; [discriminate|]. cbn [pi_calls].
    destruct (pi_next fuel f q) as [r|] eqn:E1.
    2:{ exfalso. apply (next_finds Q fuel P q k [] H); auto.
        - rewrite app_nil_r; auto.
        - intros X. rewrite X in Hn. cbn in Hn. lia. }
    destruct (next_ok _ _ _ _ H E1) as (o & q' & X & -> & H1 & H2 & H3).
    assert (HX : exists Q', Q = X ++ Q' \/ X = Q ++ Q').
    { destruct (pinv_prefix _ _ H1) as [k2 H4]. destruct (H4 k) as [Y HY]. destruct (levels_add k k2) as [Z HZ].
      rewrite Nat.add_comm in HZ. rewrite HZ, E, <- !app_assoc in HY. apply app_inv_head in HY.
      clear - HY. revert X HY. induction Q as [|a Q IHQ]; intros X HY; [exists X; right; auto|].
      destruct X as [|b X]; [exists (a :: Q); left; auto|]. cbn [app] in HY. injection HY as <- HY.
      destruct (IHQ _ HY) as [Q' [->| ->]]; exists Q'; [left|right]; auto. }
    destruct HX as [Q' HX].
    destruct o as [p|].
    - destruct HX as [->| ->].
      + assert (pi_calls fuel f n q' <> None) as N.
        { apply (IH fuel (P ++ X) q' k Q' H1); auto.
          - rewrite <- app_assoc; auto.
          - rewrite outs_app, H2 in Hn. cbn in Hn. lia.
          - rewrite app_length in Hf. lia. }
        destruct (pi_calls fuel f n q') as [[l| |]|]; congruence.
      + assert (n = 0) as ->.
        { rewrite outs_app in H2. apply (f_equal (@length _)) in H2. rewrite app_length in H2. cbn in H2. lia. }
        discriminate.
    - exfalso. rewrite (H3 eq_refl) in H1. destruct (pinv_nil _ H1) as (k1 & Hk1 & Hl). destruct HX as [->| ->].
      + specialize (Hl k). destruct (levels_add k k1) as [Z HZ]. rewrite Nat.add_comm in HZ.
        rewrite HZ, E, <- !app_assoc in Hl. apply app_inv_head in Hl. rewrite <- (app_nil_r X) in Hl at 2. apply app_inv_head in Hl.
        apply app_eq_nil in Hl as [-> _]. rewrite app_nil_r, H2 in Hn. cbn in Hn. lia.
      + rewrite outs_app in H2. apply app_eq_nil in H2 as [H2 _]. rewrite H2 in Hn. cbn in Hn. lia.
  Qed.

  Lemma calls_end n : forall fuel P q k Q, pinv P q -> paths m k s0 = [] -> levels k = P ++ Q -> length Q <= fuel ->
    pi_calls fuel f n q <> None.
  Proof.
    induction n as [|n IH]; intros fuel P q k Q H N E Hf; [discriminate|]. cbn [pi_calls].
    pose proof (next_ends Q fuel P q k H N E Hf) as X.
    destruct (pi_next fuel f q) as [r|] eqn:E1; [|congruence].
    destruct (next_ok _ _ _ _ H E1) as (o & q' & Y & -> & H1 & H2 & H3).
    destruct (pinv_prefix _ _ H1) as [k2 H4]. destruct (H4 k) as [Z HZ]. rewrite Nat.add_comm, levels_none, E, <- app_assoc in HZ by auto.
    apply app_inv_head in HZ. subst Q.
    assert (pi_calls fuel f n q' <> None) as NN.
    { apply (IH fuel (P ++ Y) q' k Z H1 N); auto.
      - rewrite <- app_assoc; auto.
      - rewrite app_length in Hf. lia. }
    destruct (pi_calls fuel f n q') as [[l| |]|]; congruence.
  Qed.
End P.
