(** C59: random generation of paths ([randgen], [randgen_with_config], [RandGenFst]). *)
From Coq Require Import List Arith NArith ZArith Lia Bool Sorted.
From Verif Require Import Base.Util Base.Semiring Base.Machine Base.PropSpec Base.Instances Base.TropZ Model.Props Model.VectorFst Model.Lazy Model.Dfs Model.RandGen
  Proofs.PropsFacts Proofs.VectorFacts Proofs.VectorProps Proofs.ClosedB Proofs.TrOpsFacts Proofs.RandFacts Proofs.RandTree Proofs.RandBits Proofs.RandChain
  Proofs.RandVisit Proofs.RandOne.
Import ListNotations.

Section S.
  Context {K : SR}.
  Implicit Types (f g : vfst K) (p d : list (tr K)).

  (** A successful path, by its transitions. *)
  Definition success f (s : nat) p : Prop := is_path (mach f) s p /\ fin_of f (dst s p) <> None.
  Definition labels p : list (nat * nat) := map (fun t => (il t, ol t)) p.
  Definition is_nil p : bool := match p with [] => true | _ => false end.
  (** The path that takes the transition at the given position, state after state. *)
  Fixpoint walk f (s : nat) (ps : list nat) : option (list (tr K)) :=
    match ps with
    | [] => Some []
    | i :: ps => match nth_error (trs_of f s) i with
                 | Some t => option_map (cons t) (walk f (ns t) ps)
                 | None => None
                 end
    end.
  Definition no_dead_end f (s : nat) : Prop := forall q, reach (mach f) s q -> trs_of f q <> [] \/ fin_of f q <> None.
  Definition all_shorter f (s m : nat) : Prop := forall p, is_path (mach f) s p -> length p < m.

  (** [g] is the unweighted union of the paths [ds]: its successful paths are those of [ds], one
      for one, except that drawing the empty path several times shows only once. *)
  Record union_of (ds : list (list (tr K))) g : Prop := {
    u_start : vstart g = match ds with [] => None | _ => Some 0 end;
    u_size : num_states g = match ds with [] => 0 | _ => 1 + list_sum (map (@length _) ds) end;
    u_closed : closed g;
    u_empty : success g 0 [] <-> In [] ds;
    u_paths : exists P, NoDup P /\ (forall p, In p P <-> p <> [] /\ success g 0 p) /\
                map labels P = map labels (filter (fun p => negb (is_nil p)) ds);
    u_trs : forall s t, In t (trs_of g s) -> wgt t = kone;
    u_fin : forall s w, fin_of g s = Some w -> w = kone
  }.

  Definition enough (cfg : rconfig) (fuel : nat) : Prop := Nat.max 1 (rc_npath cfg * (rc_max cfg + 1)) <= fuel.

  Lemma walk_follow f ps : forall s, walk f s ps = follow f s ps.
  Proof. induction ps as [|i ps IH]; intros s; cbn; auto. destruct (nth_error _ _); auto. rewrite IH. auto. Qed.
  Lemma walk_path f : closed f -> forall ps s p, walk f s ps = Some p -> is_path (mach f) s p /\ length p = length ps.
  Proof.
    intros C. induction ps as [|i ps IH]; intros s p; cbn.
    - intros [= <-]. cbn. auto.
    - destruct (nth_error (trs_of f s) i) as [t|] eqn:E; [|discriminate]. destruct (walk f (ns t) ps) as [q|] eqn:W; [|discriminate].
      intros [= <-]. destruct (IH _ _ W) as [A B]. cbn. split; auto. split; auto. eapply nth_error_In; eauto.
  Qed.
  Lemma path_walk f p : forall s, is_path (mach f) s p -> exists ps, walk f s ps = Some p.
  Proof.
    induction p as [|t p IH]; intros s; cbn.
    - intros _. exists []. auto.
    - intros [H1 H2]. apply In_nth_error in H1 as (i & Ei). destruct (IH _ H2) as (ps & E). exists (i :: ps). cbn. rewrite Ei, E. auto.
  Qed.

  Variable L : lsr_laws K.

  (** The visit of the expanded machine. *)
  Lemma visit_union nlog rng cfg f a : closed f -> vstart f = Some a -> rc_weighted cfg = false -> forall nds o g fuel,
    randgen_fst nlog rng cfg f fuel = Some (Ok g) -> inv nlog cfg f a nds o (VF (vstates g) (vstart g) None None (vprops g)) -> length nds = length (ro_table o) ->
    visymt g = visymt f -> vosymt g = vosymt f ->
    exists h E, randgen_with_config nlog rng cfg f fuel = Some (Ok h) /\ outs E h /\ E = gpaths nlog cfg f nds o (fun c => c) (length (ro_table o)) 0 /\
      visymt h = visymt f /\ vosymt h = vosymt f /\ fsound h.
  Proof.
    intros C Ha W nds o g fuel E IV LN V1 V2. unfold randgen_with_config. rewrite E, W. set (g0 := VF (vstates g) (vstart g) None None (vprops g)) in *.
    assert (Hn : num_states g = length (ro_table o)) by apply IV.
    assert (Hs : vstart g = Some 0) by apply IV. rewrite Hs.
    destruct (visit_ok g) as (v & Es & Ev & O & EE & S1 & S2 & FS); auto.
    - intros *. apply (g_closed nlog cfg f a nds o g0); auto.
    - rewrite Hn. pose proof (iv_root _ _ _ _ _ _ _ IV) as R. apply nth_error_lt in R. auto.
    - intros *. apply (g_root nlog cfg f a nds o g0); auto.
    - intros *. apply (g_leaf nlog cfg f a nds o g0); auto.
    - intros *. apply (g_up nlog cfg f a nds o g0); auto.
    - intros *. apply (g_uniqS nlog cfg f a nds o g0); auto.
    - intros *. apply (g_uniqP nlog cfg f a nds o g0); auto.
    - intros *. apply (g_cov nlog cfg f a nds o g0); auto.
    - assert (Z : forall q, trs_of (rv_ofst (rv_begin g)) q = [] /\ fin_of (rv_ofst (rv_begin g)) q = None) by (intros [|q]; split; reflexivity).
      constructor; auto.
      + split; [|discriminate]. intros s t H. rewrite (proj1 (Z s)) in H. destruct H.
      + constructor.
      + intros s t H. rewrite (proj1 (Z s)) in H. destruct H.
      + intros s w H. rewrite (proj2 (Z s)) in H. discriminate.
      + rewrite (proj2 (Z 0)). split; [congruence|intros []].
      + exists []. split; [constructor|]. split; auto. intros p. split; [intros []|]. intros [H [H1 _]]. destruct p as [|t p]; [congruence|].
        destruct H1 as [H1 _]. cbn [mach mtrs] in H1. rewrite (proj1 (Z 0)) in H1. destruct H1.
    - apply fsound_new.
    - rewrite Ev. cbn [rbind]. exists (rv_ofst v), Es. split; auto. split; auto. split; [|split; [congruence|split; [congruence|auto]]].
      rewrite EE, Hn. change (gl g (length (ro_table o)) 0) with (gl g0 (length (ro_table o)) 0).
      eapply (gl_gpaths nlog cfg f a nds o g0 IV LN W). apply (iv_root _ _ _ _ _ _ _ IV).
  Qed.

  Lemma outs_union E g ds : outs E g -> map labels E = map labels ds -> union_of ds g.
  Proof.
    intros O M. assert (LE : length E = length ds) by (rewrite <- (map_length labels E), M, map_length; auto).
    assert (M2 : map (@length _) E = map (@length _) ds).
    { clear - M. revert ds M. induction E as [|e E IH]; intros [|d ds] M; try discriminate; auto. injection M as M1 M2. cbn. f_equal; auto.
      apply (f_equal (@length _)) in M1. unfold labels in M1. rewrite !map_length in M1. auto. }
    constructor.
    - rewrite (o_start _ _ O). destruct E, ds; try discriminate; auto.
    - rewrite (o_size _ _ O). unfold plen. rewrite M2. destruct E, ds; try discriminate; auto.
    - apply O.
    - unfold success. cbn [is_path dst].
      assert (X : In [] E <-> In [] ds).
      { clear - M. revert ds M. induction E as [|e E IH]; intros [|d ds] M; try discriminate; [tauto|]. injection M as M1 M2. cbn. rewrite (IH ds M2).
        destruct e, d; try discriminate; split; intros [H|H]; auto; discriminate. }
      rewrite <- X. rewrite (o_empty _ _ O). tauto.
    - destruct (o_paths _ _ O) as (P & P1 & P2 & P3). exists P. split; auto. split; auto.
      change glabs with labels in P3. rewrite P3. clear - M. revert ds M.
      induction E as [|e E IH]; intros [|d ds] M; try discriminate; auto. injection M as M1 M2. destruct e, d; try discriminate; cbn [filter nonempty is_nil negb]; auto.
      cbn [map]. f_equal; auto.
    - intros s t H. apply (o_trs _ _ O s t H).
    - apply O.
  Qed.

  (** Without [weighted]: the result is the union of at most [npath] drawn paths, each successful
      in the input and shorter than [max_length]; there are exactly [npath] of them unless a draw
      ran into a dead end or became too long. The call never fails, whatever the random numbers. *)
  Theorem C59_unweighted f a cfg : closed f -> vstart f = Some a -> rc_weighted cfg = false -> forall nlog rng fuel, enough cfg fuel ->
    exists g ds, randgen_with_config nlog rng cfg f fuel = Some (Ok g) /\
      union_of ds g /\
      length ds <= rc_npath cfg /\
      (forall d, In d ds -> success f a d /\ length d < rc_max cfg) /\
      (no_dead_end f a -> all_shorter f a (rc_max cfg) -> length ds = rc_npath cfg) /\
      visymt g = visymt f /\ vosymt g = vosymt f /\ fsound g.
  Proof.
    intros C Ha W nlog rng fuel Hf.
    destruct (expand_ok nlog rng cfg f a C Ha (fun _ _ => True) Logic.I ltac:(auto) fuel) as [(nds & o & g & E & IV & _ & LN & V1 & V2 & _)|[_ X]]; [|unfold enough in Hf; lia].
    destruct (visit_union nlog rng cfg f a C Ha W nds o g fuel E IV LN V1 V2) as (h & Es & Eh & O & EE & S1 & S2 & FS).
    set (g0 := VF (vstates g) (vstart g) None None (vprops g)) in *. set (T := length (ro_table o)) in *.
    pose proof (iv_root _ _ _ _ _ _ _ IV) as R.
    pose proof (gpaths_expand nlog cfg f a nds o g0 IV LN T 0 _ _ _ R) as G. rewrite <- EE in G.
    assert (X : exists ds, length ds = length Es /\ map labels Es = map labels ds /\ forall d, In d ds -> exists ps, In ps (expand (leaves nds T 0)) /\ follow f a ps = Some d).
    { clear - G. induction G as [|ps p l l' (p' & F1 & F2) _ (ds & D1 & D2 & D3)].
      - exists []. split; auto. split; auto. intros d [].
      - exists (p' :: ds). split; [cbn; auto|]. split; [cbn; f_equal; auto|]. intros d [<-|H]; [exists ps; split; [left; auto|auto]|].
        destruct (D3 d H) as (q & Q1 & Q2). exists q. split; [right; auto|auto]. }
    destruct X as (ds & D1 & D2 & D3). exists h, ds. split; auto. split; [eapply outs_union; eauto|].
    assert (LD : length ds = amount (leaves nds T 0)).
    { rewrite D1, <- expand_length. symmetry. clear - G. induction G; cbn; auto. }
    split; [|split; [|split; [|auto]]].
    - rewrite LD. eapply (leaves_le nlog cfg f a nds o g0 IV LN); eauto.
    - intros d Hd. destruct (D3 d Hd) as (ps & Q1 & Q2). unfold expand in Q1. apply in_flat_map in Q1 as ([ps' c] & Q1 & Q3). cbn [fst snd] in Q3. apply repeat_spec in Q3. subst ps'.
      pose proof (leaves_drawn nlog cfg f a nds o g0 IV LN T 0 _ _ _ R) as LDR. rewrite Forall_forall in LDR. destruct (LDR _ Q1) as (_ & B1 & d' & B2 & B3).
      cbn [fst] in *. rewrite Q2 in B2. injection B2 as <-. rewrite <- walk_follow in Q2. destruct (walk_path f C _ _ _ Q2) as [A1 A2]. split; [split; auto|]. rewrite A2. auto.
    - intros H1 H2. rewrite LD. eapply (leaves_eq nlog cfg f a nds o g0 IV LN T); eauto.
  Qed.
  (** Any successful path shorter than [max_length] is the one that some random numbers draw. *)
  Theorem C59_unweighted_any f a cfg p : closed f -> vstart f = Some a -> rc_weighted cfg = false -> rc_npath cfg = 1 ->
    success f a p -> length p < rc_max cfg -> forall nlog, exists rng, forall fuel, enough cfg fuel ->
    exists g, randgen_with_config nlog rng cfg f fuel = Some (Ok g) /\ union_of [p] g.
  Proof.
    intros C Ha W N1 [P1 P2] Hlen nlog. destruct (path_walk f p a P1) as (ps & Ep). pose proof (proj2 (walk_path f C _ _ _ Ep)) as El.
    rewrite walk_follow in Ep. exists (steer f a ps p). intros fuel Hf. rewrite El in Hlen.
    destruct (expand_ok nlog (steer f a ps p) cfg f a C Ha (good f a ps p)) with (fuel := fuel)
      as [(nds & o & g & E & IV & Q & LN & V1 & V2 & _)|[_ X]]; [| |  |unfold enough in Hf; lia].
    - apply good_init; auto.
    - intros. eapply (good_step cfg nlog); eauto.
    - destruct (visit_union nlog _ cfg f a C Ha W nds o g fuel E IV LN V1 V2) as (h & Es & Eh & O & EE & S1 & S2 & FS).
      set (g0 := VF (vstates g) (vstart g) None None (vprops g)) in *. pose proof (iv_root _ _ _ _ _ _ _ IV) as R.
      pose proof (gpaths_expand nlog cfg f a nds o g0 IV LN (length (ro_table o)) 0 _ _ _ R) as G. rewrite <- EE in G.
      clear EE. erewrite good_leaves in G by eauto. cbn [expand flat_map fst snd repeat app] in G.
      inversion G as [|x y l l' (p' & F1 & F2) G']. subst. inversion G'. subst.
      exists h. split; auto. eapply outs_union; eauto. rewrite Ep in F1. injection F1 as <-. cbn. f_equal. exact F2.
  Qed.

  (** With [weighted]: the result is a tree whose successful paths are the drawn paths, each once,
      with the weight of its share: [count] of [npath] draws, or [count] itself when the total
      weight is kept. The only thing asked of the weights is that shares multiply. *)
  Theorem C59_weighted f a cfg : closed f -> vstart f = Some a -> rc_weighted cfg = true -> 0 < rc_npath cfg -> forall nlog rng fuel, enough cfg fuel ->
    (forall x y z, 0 < x -> 0 < y -> 0 < z -> (nlog y z * nlog x y)%K = nlog x z) ->
    exists g (ds : list (list nat * nat)) P, randgen_with_config nlog rng cfg f fuel = Some (Ok g) /\
      vstart g = Some 0 /\ closed g /\
      NoDup P /\ (forall p, In p P <-> success g 0 p) /\ NoDup (map fst ds) /\
      Forall2 (fun (d : list nat * nat) p => exists q, walk f a (fst d) = Some q /\ success f a q /\ length q < rc_max cfg /\ 0 < snd d /\ labels p = labels q /\
                 apw (mach g) 0 p = nlog (if rc_remove cfg then snd d else snd d * rc_npath cfg) (rc_npath cfg)) ds P /\
      list_sum (map snd ds) <= rc_npath cfg /\
      (no_dead_end f a -> all_shorter f a (rc_max cfg) -> list_sum (map snd ds) = rc_npath cfg) /\
      visymt g = visymt f /\ vosymt g = vosymt f /\ (fsound f -> fsound g).
  Proof.
    intros C Ha W Np nlog rng fuel Hf Hlog.
    destruct (expand_ok nlog rng cfg f a C Ha (fun _ _ => True) Logic.I ltac:(auto) fuel) as [(nds & o & g & E & IV & _ & LN & V1 & V2 & V3)|[_ X]]; [|unfold enough in Hf; lia].
    set (g0 := VF (vstates g) (vstart g) None None (vprops g)) in *. set (T := length (ro_table o)) in *.
    pose proof (iv_root _ _ _ _ _ _ _ IV) as R. set (reps := fun cf => if cf =? 0 then 0 else 1).
    exists g, (leaves nds T 0), (gpaths nlog cfg f nds o reps T 0). unfold randgen_with_config. rewrite E, W. split; auto.
    assert (Hs : vstart g = Some 0) by apply IV. split; auto.
    split. { split; [apply (g_closed nlog cfg f a nds o g0 IV LN)|]. intros s H. rewrite Hs in H. injection H as <-.
             assert (Hn : num_states g = length (ro_table o)) by apply IV. rewrite Hn. apply nth_error_lt in R. auto. }
    split; [eapply (gpaths_nodup nlog cfg f a nds o g0 IV LN); eauto|].
    split; [eapply (gpaths_in nlog cfg f a nds o g0 IV LN W T 0); eauto; lia|].
    split; [eapply (leaves_nodup nlog cfg f a nds o g0 IV LN); eauto|].
    split; [|split; [|split; [|split; [|split]]]]; auto.
    - pose proof (gpaths_drawn nlog cfg f a nds o g0 IV LN W L Hlog Np T 0 _ _ _ R Np) as G.
      pose proof (leaves_drawn nlog cfg f a nds o g0 IV LN T 0 _ _ _ R) as D. fold reps in G. revert D.
      induction G as [|d p l l' [(q & F1 & F2) F3] _ IH]; intros D; constructor.
      + apply Forall_inv in D as (D1 & D2 & q' & D3 & D4). rewrite F1 in D3. injection D3 as <-. exists q. rewrite walk_follow. split; auto.
        rewrite <- walk_follow in F1. destruct (walk_path f C _ _ _ F1) as [A1 A2]. split; [split; auto|]. split; [rewrite A2; auto|]. auto.
      + apply IH. apply Forall_inv_tail in D. auto.
    - eapply (leaves_le nlog cfg f a nds o g0 IV LN); eauto.
    - intros H1 H2. eapply (leaves_eq nlog cfg f a nds o g0 IV LN T); eauto.
    - intros FS. apply (w_sound nlog cfg f a nds o g0 IV LN W FS). rewrite <- W. exact V3.
  Qed.
End S.

(** Without a start state the result is empty; even the symbol tables are left out. *)
Theorem C59_no_start {K : SR} (f : vfst K) cfg nlog rng fuel : vstart f = None ->
  exists g, randgen_with_config nlog rng cfg f fuel = Some (Ok g) /\ num_states g = 0 /\ vstart g = None /\ visymt g = None /\ vosymt g = None.
Proof.
  intros H. unfold randgen_with_config, randgen_fst, compute2, l2_start. cbn [c_get_start map_cache_ops map_cache_new mc_start fst snd randgen_op compute_start2].
  rewrite H. cbn [rmap rbind fst vstart vnew]. destruct (rc_weighted cfg).
  - exists vnew. auto.
  - cbn. eexists. split; [reflexivity|]. cbn. auto.
Qed.

(** [max_length] is documented as the maximal length of a path, but a path of exactly that length
    is never drawn. *)
Theorem C59_max_length_refuted : ~ (forall (f : vfst boolSR) a cfg nlog p, closed f -> vstart f = Some a -> rc_weighted cfg = false -> rc_npath cfg = 1 ->
  success f a p -> length p <= rc_max cfg -> exists rng, forall fuel, enough cfg fuel ->
  exists g, randgen_with_config nlog rng cfg f fuel = Some (Ok g) /\ union_of [p] g).
Proof.
  intros H. set (f := VF [VS (K := boolSR) None [Tr 1 1 true 1] 0 0; VS (Some true) [] 0 0] (Some 0) None None 0%N).
  assert (C : closed f) by (apply closedb_ok; vm_compute; reflexivity).
  destruct (H f 0 (RC 1 1 false false) (fun _ _ => true) [Tr 1 1 true 1] C eq_refl eq_refl eq_refl) as (rng & R).
  - split; cbn; auto. discriminate.
  - cbn. lia.
  - assert (F : enough (RC 1 1 false false) 2) by (unfold enough; cbn; lia). destruct (R 2 F) as (g & E & U).
    destruct (C59_unweighted boolSR_laws f 0 (RC 1 1 false false) C eq_refl eq_refl (fun _ _ => true) rng 2 F) as (g' & ds & E' & U' & _ & D & _).
    rewrite E in E'. injection E' as <-. destruct ds as [|d ds].
    + pose proof (u_start _ _ U) as X. rewrite (u_start _ _ U') in X. discriminate.
    + destruct (D d (or_introl eq_refl)) as [[_ X] Y]. destruct d; [|cbn in Y; lia]. apply X. reflexivity.
Qed.

(** Without [weighted] the delayed machine's property bits may be wrong: the transitions to the
    final state have no labels but come last. *)
Theorem C59_delayed_bits_refuted : ~ (forall (f g : vfst boolSR) cfg nlog rng fuel, closed f -> fsound f -> rc_weighted cfg = false ->
  randgen_fst nlog rng cfg f fuel = Some (Ok g) -> fsound g).
Proof.
  intros H. set (f := VF [VS (K := boolSR) (Some true) [Tr 1 1 true 1] 0 0; VS (Some true) [] 0 0] (Some 0) None None (mask [I_LABEL_SORTED])).
  assert (C : closed f) by (apply closedb_ok; vm_compute; reflexivity).
  assert (S : fsound f).
  { intros b Hb. destruct b; vm_compute in Hb; try discriminate Hb. intros [|[|[|s]]]; cbn; repeat constructor. }
  assert (E : exists g, randgen_fst (fun _ _ => true) (fun i => i) (RC 5 2 false false) f 20 = Some (Ok g) /\ has (vprops g) I_LABEL_SORTED = true /\ map il (trs_of g 0) = [1; 0]).
  { eexists. split; [vm_compute; reflexivity|]. split; vm_compute; reflexivity. }
  destruct E as (g & E & B & T). specialize (H f g (RC 5 2 false false) _ _ _ C S eq_refl E I_LABEL_SORTED B 0). cbn [mach mtrs] in H. rewrite T in H.
  apply StronglySorted_inv in H as [_ H]. apply Forall_inv in H. lia.
Qed.

Print Assumptions C59_unweighted.
Print Assumptions C59_unweighted_any.
Print Assumptions C59_weighted.
Print Assumptions C59_no_start.
Print Assumptions C59_max_length_refuted.
Print Assumptions C59_delayed_bits_refuted.

(** Witness: state 0 is final, has a transition to itself and two to state 1, state 2 is a dead
    end. Four draws with [max_length] 4 and the random numbers 0, 1, 2, ...:
    one of them ends in the dead end and is lost. *)
Definition rand_f : vfst tropZ :=
  VF [VS (K := tropZ) (Some (Some 7%Z)) [Tr 1 2 (Some 1%Z) 0; Tr 3 4 (Some 2%Z) 1; Tr 5 6 (Some 3%Z) 1] 0 0;
      VS (K := tropZ) (Some (Some 0%Z)) [Tr 9 9 (Some 0%Z) 2] 0 0; VS None [] 0 0] (Some 0) None None 0%N.
(** Shares: any difference of potentials is multiplicative, like the logarithm. *)
Definition rand_log (x y : nat) : tropZ := Some (Z.of_nat (Nat.log2 y) - Z.of_nat (Nat.log2 x))%Z.
Example C59_witness :
  closed rand_f /\ (forall x y z, 0 < x -> 0 < y -> 0 < z -> (rand_log y z * rand_log x y)%K = rand_log x z) /\
  (exists g, randgen_with_config rand_log (fun i => i) (RC 4 4 false false) rand_f 20 = Some (Ok g) /\ num_states g = 4 /\
     map (fun t => (il t, ol t, ns t)) (trs_of g 0) = [(1, 2, 1); (3, 4, 3)] /\ fin_of g 0 = Some kone) /\
  (exists g, randgen_with_config rand_log (fun i => i) (RC 4 4 true true) rand_f 20 = Some (Ok g) /\ num_states g = 6 /\
     fin_of g 0 = Some (Some 2%Z)) /\
  success rand_f 0 [Tr 1 2 (Some 1%Z) 0; Tr 5 6 (Some 3%Z) 1].
Proof.
  split; [apply closedb_ok; vm_compute; reflexivity|]. split.
  { intros x y z _ _ _. unfold rand_log. cbn. f_equal. lia. }
  split; [eexists; split; [vm_compute; reflexivity|]; repeat split; vm_compute; reflexivity|].
  split; [eexists; split; [vm_compute; reflexivity|]; repeat split; vm_compute; reflexivity|].
  split; [|discriminate]. cbn. auto 10.
Qed.
