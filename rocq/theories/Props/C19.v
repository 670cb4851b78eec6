(** C19: composition pairs every two matching paths exactly once. *)
From Coq Require Import List Arith NArith Bool Lia Sorted.
From Verif Require Import Base.Util Base.Semiring Base.Machine Base.PropSpec Base.Instances
  Model.Props Model.VectorFst Model.Matchers Model.BiMap Model.Lazy Model.History Model.Visitors Model.Compose
  Proofs.PropsFacts Proofs.VectorFacts Proofs.TrOpsFacts Proofs.HistoryFacts Proofs.OpFacts Proofs.ConnectFacts
  Proofs.BiMapFacts Proofs.LazyFacts Proofs.TableFacts Proofs.ComposeFacts.
From Verif Require Import Props.C01 Props.C03 Props.C04 Props.C06 Props.C14 Props.C20.
Import ListNotations.
Local Open Scope K_scope.

Section C19.
  Context {K : SR} (L : lsr_laws K) (comm : commutative_times K).

  (** ** Specification *)
  (** Paths of at most [k] transitions, with repetition when parallel transitions are equal. *)
  Definition paths_upto (m : machine K) (k s : nat) : list (list (tr K)) :=
    flat_map (fun n => paths m n s) (seq 0 (S k)).
  Definition both_starts {A} (f1 f2 : vfst K) (d : A) (F : nat -> nat -> A) : A :=
    match vstart f1, vstart f2 with Some s1, Some s2 => F s1 s2 | _, _ => d end.
  (** Sum over all pairs of paths from the two starts reading [x] and writing [z]. *)
  Definition sum_pairs (f1 f2 : vfst K) (k : nat) (x z : list nat) (W : list (tr K) -> list (tr K) -> K -> K) : K :=
    both_starts f1 f2 0 (fun s1 s2 =>
      ksum (map (fun p1 => ksum (map (fun p2 =>
        if leqb (ilabs p1) x && leqb (olabs p2) z then W p1 p2 (apw (mach f1) s1 p1 * apw (mach f2) s2 p2) else 0)
        (paths_upto (mach f2) k s2))) (paths_upto (mach f1) k s1))).

  (** Number of transitions of the composed path: with the sequence filters a matched label is one
      transition and every epsilon is one; with the match filter epsilons standing between the same
      two labels are paired. *)
  Definition span (flt : cfilter) : list (tr K) -> list (tr K) -> nat :=
    match flt with MatchF => match_span | _ => seq_span end.

  (** Each matching pair counts once, at the length of its composed path. *)
  Definition once (flt : cfilter) (k : nat) (p1 p2 : list (tr K)) (w : K) : K :=
    if leqb (olabs p1) (ilabs p2) && Nat.eqb (span flt p1 p2) k then w else 0.

  (** A pair is met at a length that bounds both of its paths, so the bounded sums miss none. *)
  Theorem C19_span flt p1 p2 : olabs p1 = ilabs p2 ->
    (length p1 <= span flt p1 p2 /\ length p2 <= span flt p1 p2 /\ span flt p1 p2 <= length p1 + length p2)%nat.
  Proof.
    intros E. assert (S1 : (length p1 <= seq_span p1 p2 /\ length p2 <= seq_span p1 p2 /\ seq_span p1 p2 <= length p1 + length p2)%nat).
    { unfold seq_span. pose proof (olabs_len p1). pose proof (ilabs_len p2). rewrite <- E in *. lia. }
    destruct flt; auto. cbn [span]. clear S1. remember (length p1 + length p2)%nat as n eqn:Hn.
    revert p1 p2 E Hn. induction n as [n IH] using lt_wf_ind. intros p1 p2 E ->.
    destruct (heads oeps p1) eqn:H1.
    - destruct p1 as [|t1 p1]; [discriminate|]. cbn in H1. rewrite olabs_eps in E by auto. destruct (heads ieps p2) eqn:H2.
      + destruct p2 as [|t2 p2]; [discriminate|]. cbn in H2. rewrite ilabs_eps in E by auto. rewrite mspan_b by auto.
        destruct (IH (length p1 + length p2)%nat ltac:(simpl; lia) p1 p2 E eq_refl) as (A & B & D). simpl. lia.
      + rewrite mspan_1 by auto.
        destruct (IH (length p1 + length p2)%nat ltac:(simpl; lia) p1 p2 E eq_refl) as (A & B & D). simpl. lia.
    - destruct (heads ieps p2) eqn:H2.
      + destruct p2 as [|t2 p2]; [discriminate|]. cbn in H2. rewrite ilabs_eps in E by auto. rewrite mspan_2 by auto.
        destruct (IH (length p1 + length p2)%nat ltac:(simpl; lia) p1 p2 E eq_refl) as (A & B & D). simpl. lia.
      + destruct p1 as [|t1 p1]; destruct p2 as [|t2 p2]; cbn in H1, H2.
        * cbn. lia.
        * rewrite ilabs_lab in E by auto. discriminate.
        * rewrite olabs_lab in E by auto. discriminate.
        * rewrite olabs_lab, ilabs_lab in E by auto. injection E as _ E. rewrite mspan_3 by auto.
          destruct (IH (length p1 + length p2)%nat ltac:(simpl; lia) p1 p2 E eq_refl) as (A & B & D). simpl. lia.
  Qed.

  (** ** The machine built *)
  Lemma upto_sum m k s (F : list (tr K) -> K) :
    ksum (map F (paths_upto m k s)) = ksum (map F (upaths m (S k) s)).
  Proof.
    unfold paths_upto. rewrite (ksum_fm L). revert s F. induction k as [|k IH]; intros s F.
    - cbn. rewrite (kplus_0_r L). f_equal. induction (mtrs m s); auto.
    - rewrite (upaths_sum L). change (seq 0 (S (S k))) with (O :: seq 1 (S k)). cbn [map ksum]. f_equal; [cbn; apply (kplus_0_r L)|].
      transitivity (ksum (map (fun n => ksum (map (fun t => ksum (map (fun p => F (t :: p)) (paths m n (ns t)))) (mtrs m s))) (seq 0 (S k)))).
      { rewrite <- (seq_shift (S k) 0), map_map. apply ksum_map_ext. intros n _. cbn [paths]. rewrite (ksum_fm L).
        apply ksum_map_ext. intros t _. rewrite map_map. auto. }
      rewrite (ksum_swap L). apply ksum_map_ext. intros t _. apply (IH (ns t) (fun p => F (t :: p))).
  Qed.

  Lemma ctuple_eqb_spec a b : reflect (a = b) (ctuple_eqb a b).
  Proof.
    destruct a as [[a1 a2] a3], b as [[b1 b2] b3]. unfold ctuple_eqb. cbn [fst snd].
    destruct (Nat.eqb_spec a1 b1); destruct (Nat.eqb_spec a2 b2); destruct (Nat.eqb_spec a3 b3); cbn; constructor; congruence.
  Qed.

  Section Two.
    Context (f1 f2 : vfst K) (flt : cfilter).
    Context (C1 : cnt f1) (C2 : cnt f2) (D1 : closed f1) (D2 : closed f2) (B1 : bits_true f1) (B2 : bits_true f2).

    Definition valid (t : ctuple) : Prop :=
      (fst (fst t) < 3 /\ snd (fst t) < num_states f1 /\ snd t < num_states f2)%nat.

    Lemma cstart_valid t : ccompute_start f1 f2 = Ok (Some t) -> valid t.
    Proof.
      unfold ccompute_start. destruct (vstart f1) as [s1|] eqn:E1; [|discriminate].
      destruct (vstart f2) as [s2|] eqn:E2; [|discriminate]. intros [= <-]. split; [simpl; lia|]. simpl. split; [apply D1|apply D2]; auto.
    Qed.
    Lemma ctrs_valid mt : mt_ok mt f1 f2 -> forall t l u, valid t -> ccompute_trs flt mt f1 f2 t = Ok l -> In u l -> valid (tn u).
    Proof.
      intros M [[fs s1] s2] l u (V0 & V1 & V2) E Hu. cbn [fst snd] in *.
      assert (G : In u (moves_in flt (env flt f1 f2 fs s1 s2) f1 f2 s1 s2) \/ In u (moves_out flt (env flt f1 f2 fs s1 s2) f1 f2 s1 s2)).
      { destruct (ctrs_eq flt mt f1 f2 fs s1 s2 C1 C2 M V1 V2) as [E'|E']; rewrite E' in E; injection E as <-; auto. }
      apply moves_targets in G as (q1 & q2 & fs' & t1 & t2 & -> & F & G1 & G2). apply fstep_bound in F.
      split; [auto|]. cbn [fst snd]. split.
      - destruct G1 as [->|(t & I & <-)]; auto. apply (proj1 D1 s1); auto.
      - destruct G2 as [->|(t & I & <-)]; auto. apply (proj1 D2 s2); auto.
    Qed.
    Lemma ctrs_live mt : mt_ok mt f1 f2 -> forall t, valid t -> exists l, ccompute_trs flt mt f1 f2 t = Ok l.
    Proof.
      intros M [[fs s1] s2] (_ & V1 & V2). cbn [fst snd] in *.
      destruct (ctrs_eq flt mt f1 f2 fs s1 s2 C1 C2 M V1 V2) as [E'|E']; eauto.
    Qed.
    Lemma cfin_live t : valid t -> exists w, ccompute_final flt f1 f2 t = Ok w.
    Proof.
      destruct t as [[fs s1] s2]. intros (_ & V1 & V2). cbn [fst snd] in *. unfold ccompute_final.
      rewrite !final_in by auto. cbn [rbind]. destruct (fin_of f1 s1); [|eauto]. destruct (fin_of f2 s2); [|eauto].
      rewrite set_state_eq by auto. cbn [rbind]. eauto.
    Qed.
    Definition all_tuples : list ctuple :=
      list_prod (list_prod (seq 0 3) (seq 0 (num_states f1))) (seq 0 (num_states f2)).
    Lemma all_tuples_len : length all_tuples = (3 * num_states f1 * num_states f2)%nat.
    Proof. unfold all_tuples. etransitivity; [exact (prod_length _ _)|]. rewrite prod_length, !seq_length. auto. Qed.
    Lemma all_tuples_in t : valid t -> In t all_tuples.
    Proof.
      destruct t as [[fs s1] s2]. intros (V0 & V1 & V2). cbn [fst snd] in *. unfold all_tuples.
      apply in_prod; [apply in_prod|]; apply in_seq; lia.
    Qed.

    Definition sorted_known : Prop :=
      has (vprops f1) O_LABEL_SORTED = true \/ has (vprops f2) I_LABEL_SORTED = true.

    Lemma contains_1 p b : contains p (mask [b]) = has p b.
    Proof.
      destruct (has p b) eqn:E.
      - apply contains_mask. intros b' [<-|[]]; auto.
      - destruct (contains p (mask [b])) eqn:E2; auto. rewrite contains_mask in E2. rewrite (E2 b) in E; [discriminate|left; auto].
    Qed.

    Lemma sm_known (f : vfst K) mt test : mt = MInput \/ mt = MOutput ->
      let b := has (vprops f) (if mtype_eqb mt MInput then I_LABEL_SORTED else O_LABEL_SORTED) in
      match sm_match_type f mt test with
      | Ok r => mtype_eqb r mt = b
      | Err => b = false /\ test = true
      | Panic => False
      end.
    Proof.
      intros Hm. unfold sm_match_type.
      assert (Kn : forall tp fp, opp fp = tp -> opp tp = fp -> knows (vprops f) (mask [tp; fp]) = false -> has (vprops f) tp = false).
      { intros tp fp O1 O2 H. destruct (has (vprops f) tp) eqn:E; auto. rewrite <- H. symmetry. unfold knows.
        apply contains_mask. intros b [<-|[<-|[]]]; rewrite has_known, ?O1, ?O2, ?E; auto using orb_true_r. }
      destruct Hm as [->| ->]; cbn [mtype_eqb].
      - destruct test; cbn [rbind]; [destruct (knows _ _) eqn:Ek; cbn [rbind]; [|split; auto; apply (Kn I_LABEL_SORTED NOT_I_LABEL_SORTED eq_refl eq_refl Ek)]|];
          rewrite !contains_1; destruct (has (vprops f) I_LABEL_SORTED); auto; destruct (has _ _); auto.
      - destruct test; cbn [rbind]; [destruct (knows _ _) eqn:Ek; cbn [rbind]; [|split; auto; apply (Kn O_LABEL_SORTED NOT_O_LABEL_SORTED eq_refl eq_refl Ek)]|];
          rewrite !contains_1; destruct (has (vprops f) O_LABEL_SORTED); auto; destruct (has _ _); auto.
    Qed.

    Lemma compose_match_known :
      match compose_match_type f1 f2 with Ok _ => sorted_known | Err => ~ sorted_known | Panic => False end.
    Proof.
      unfold compose_match_type, sorted_known.
      pose proof (sm_known f1 MOutput false (or_intror eq_refl)) as P1.
      pose proof (sm_known f2 MInput false (or_introl eq_refl)) as P2.
      pose proof (sm_known f1 MOutput true (or_intror eq_refl)) as P3.
      pose proof (sm_known f2 MInput true (or_introl eq_refl)) as P4.
      cbn [mtype_eqb] in *.
      destruct (has (vprops f1) O_LABEL_SORTED) eqn:E1; destruct (has (vprops f2) I_LABEL_SORTED) eqn:E2;
      destruct (sm_match_type f1 MOutput false) as [t1| |]; try (destruct P1; discriminate); try contradiction; cbn [rbind];
      destruct (sm_match_type f2 MInput false) as [t2| |]; try (destruct P2; discriminate); try contradiction; cbn [rbind];
      rewrite P1, P2; cbn [andb]; auto.
      destruct (sm_match_type f1 MOutput true) as [t3| |]; cbn [rbind]; try contradiction; [|intros [H|H]; discriminate].
      rewrite P3. destruct (sm_match_type f2 MInput true) as [t4| |]; cbn [rbind]; try contradiction; [|intros [H|H]; discriminate].
      rewrite P4. intros [H|H]; discriminate.
    Qed.

    Theorem compose_gen conn fuel : (3 * num_states f1 * num_states f2 <= fuel)%nat ->
      match compose_with flt conn fuel f1 f2 with
      | Some (Ok g) =>
          sorted_known /\
          (forall k x z, rel (mach g) k x z = sum_pairs f1 f2 k x z (fun p1 p2 =>
             both_starts f1 f2 (fun w => w) (fun s1 s2 => nmul (ways flt f1 f2 k 0 s1 s2 p1 p2)))) /\
          (conn = true -> forall s, (s < num_states g)%nat -> accessible (mach g) s /\ coaccessible (mach g) s) /\
          (vstart f1 <> None -> vstart f2 <> None -> visymt g = visymt f1 /\ vosymt g = vosymt f2) /\
          cnt g /\ closed g
      | Some Err => ~ sorted_known
      | _ => False
      end.
    Proof.
      intros Hf. unfold compose_with. pose proof compose_match_known as MK.
      destruct (compose_match_type f1 f2) as [mt| |] eqn:EM; auto.
      pose proof (match_type_ok f1 f2 mt B1 B2 EM) as M.
      pose proof (table_spec ctuple_eqb ctuple_eqb_spec (ccompute_start f1 f2) (ccompute_trs flt mt f1 f2)
        (ccompute_final flt f1 f2) (AlgoProps.compose_properties (vprops f1) (vprops f2)) valid cstart_valid (ctrs_valid mt M)) as SP.
      assert (LS : exists o, ccompute_start f1 f2 = Ok o).
      { unfold ccompute_start. destruct (vstart f1); [|eauto]. destruct (vstart f2); eauto. }
      pose proof (table_live ctuple_eqb (ccompute_start f1 f2) (ccompute_trs flt mt f1 f2)
        (ccompute_final flt f1 f2) (AlgoProps.compose_properties (vprops f1) (vprops f2)) valid cstart_valid LS (ctrs_live mt M) cfin_live) as LV.
      fold (compose_op flt mt f1 f2) in SP, LV.
      assert (Z : zok vec_cache_ops vec_inv (tI ctuple_eqb valid) (tS (ccompute_start f1 f2)) (tT (ccompute_trs flt mt f1 f2))
        (tF (ccompute_final flt f1 f2)) (bm_new, vec_cache_new)).
      { apply zok_empty; [apply tI_new|apply vec_cache_empty]. }
      destruct (compute_total (compose_op flt mt f1 f2) vec_cache_ops vec_inv (tI ctuple_eqb valid) tle
        (tS (ccompute_start f1 f2)) (tT (ccompute_trs flt mt f1 f2)) (tF (ccompute_final flt f1 f2)) vec_cache_laws SP tV LV
        (length all_tuples) (table_bound ctuple_eqb valid all_tuples all_tuples_in) fuel (visymt f1) (vosymt f2) _ Z)
        as ((g & z') & E).
      { rewrite all_tuples_len. auto. }
      rewrite E.
      destruct (compute_ok (compose_op flt mt f1 f2) vec_cache_ops vec_inv (tI ctuple_eqb valid) tle
        (tS (ccompute_start f1 f2)) (tT (ccompute_trs flt mt f1 f2)) (tF (ccompute_final flt f1 f2)) vec_cache_laws SP
        fuel (visymt f1) (vosymt f2) _ g z' Z E) as (_ & _ & BU & SY).
      pose proof BU as (Cg & Dg & BS).
      assert (R : forall k x z, rel (mach g) k x z = sum_pairs f1 f2 k x z (fun p1 p2 =>
             both_starts f1 f2 (fun w => w) (fun s1 s2 => nmul (ways flt f1 f2 k 0 s1 s2 p1 p2)))).
      { intros k x z. rewrite (built_rel _ _ _ _ g BU). unfold grel, sum_pairs, both_starts, ccompute_start.
        destruct (vstart f1) as [s1|] eqn:E1; auto. destruct (vstart f2) as [s2|] eqn:E2; auto.
        rewrite (gwt_pairs L flt f1 f2 comm mt C1 C2 D1 D2 M k (S k) (S k)); [|lia|lia|apply D1; auto|apply D2; auto].
        rewrite upto_sum. apply ksum_map_ext. intros p1 _. rewrite upto_sum. apply ksum_map_ext. intros p2 _. reflexivity. }
      assert (SY' : vstart f1 <> None -> vstart f2 <> None -> visymt g = visymt f1 /\ vosymt g = vosymt f2).
      { intros N1 N2. assert (vstart g <> None).
        { intros N. rewrite N in BS. destruct BS as [_ BS]. cbn in BS. unfold ccompute_start in BS.
          destruct (vstart f1); [|congruence]. destruct (vstart f2); [|congruence]. discriminate. }
        destruct (SY H) as (A & B & _). auto. }
      destruct conn.
      - destruct (connect_rel L g Cg Dg) as (h & Eh & Rh & Uh). rewrite Eh.
        split; auto. split; [intros; rewrite Rh; apply R|]. split; [auto|].
        destruct (connect_eq g Dg Cg) as (d & g1 & Ec & Ed & S & _). rewrite Ec in Eh. injection Eh as Eh.
        assert (S' : is_submachine g d h) by (rewrite <- Eh; exact S).
        split; [|split].
        + intros N1 N2. destruct S' as (_ & _ & _ & -> & ->). auto.
        + rewrite <- Eh. apply (del_states_cnt g d g1 Cg Ed).
        + eapply (sub_closed g d); eauto.
      - split; auto. split; auto. split; [discriminate|]. auto.
    Qed.
  End Two.

  Lemma nmul_1 (w : K) : nmul 1 w = w.
  Proof. apply (kplus_0_r L). Qed.
  Lemma nmul_zero n : nmul n (0 : K) = 0.
  Proof. unfold nmul. induction n; simpl; auto. rewrite IHn. apply (kplus_0_l _ L). Qed.
  Lemma nmul_b2n b (w : K) : nmul (b2n b) w = if b then w else 0.
  Proof. destruct b; [apply nmul_1|reflexivity]. Qed.

  Lemma sum_pairs_ext (f1 f2 : vfst K) k x z W W' :
    (forall s1 s2 p1 p2, vstart f1 = Some s1 -> vstart f2 = Some s2 -> is_path (mach f1) s1 p1 -> is_path (mach f2) s2 p2 ->
       W p1 p2 (apw (mach f1) s1 p1 * apw (mach f2) s2 p2) = W' p1 p2 (apw (mach f1) s1 p1 * apw (mach f2) s2 p2)) ->
    sum_pairs f1 f2 k x z W = sum_pairs f1 f2 k x z W'.
  Proof.
    intros H. unfold sum_pairs, both_starts. destruct (vstart f1) as [s1|]; auto. destruct (vstart f2) as [s2|]; auto.
    assert (P : forall m s p, In p (paths_upto m k s) -> is_path m s p).
    { intros m s p I. apply in_flat_map in I as (n & _ & I). apply paths_is_path in I. tauto. }
    apply ksum_map_ext. intros p1 I1. apply ksum_map_ext. intros p2 I2.
    destruct (_ && _); auto.
  Qed.

  (** Only accepting paths matter. *)
  Lemma accepting (f1 f2 : vfst K) s1 s2 p1 p2 n m : is_path (mach f1) s1 p1 -> is_path (mach f2) s2 p2 ->
    (accepts f1 s1 p1 -> accepts f2 s2 p2 -> n = m) ->
    nmul n (apw (mach f1) s1 p1 * apw (mach f2) s2 p2) = nmul m (apw (mach f1) s1 p1 * apw (mach f2) s2 p2).
  Proof.
    intros P1 P2 H.
    destruct (fin_of f1 (dst s1 p1)) as [w1|] eqn:F1.
    - destruct (fin_of f2 (dst s2 p2)) as [w2|] eqn:F2.
      + rewrite H; auto; split; auto; congruence.
      + unfold apw at 2 4. cbn [mach mfin]. rewrite F2. cbn [fw]. rewrite !(ktimes_0_r _ L), !nmul_zero. auto.
    - unfold apw at 1 3. cbn [mach mfin]. rewrite F1. cbn [fw]. rewrite !(ktimes_0_r _ L), !(ktimes_0_l _ L), !nmul_zero. auto.
  Qed.

  Definition once_filter (flt : cfilter) : Prop := flt = SequenceF \/ flt = AltSequenceF \/ flt = MatchF.

  (** Composition with one of the three epsilon filters, with or without the final connection:
      it succeeds exactly when one of the two machines is known to be sorted on the side that is
      looked up, it terminates, and the weight of [(x, z)] over paths of [k] transitions is the
      sum over the pairs of matching paths whose composed path has [k] transitions. *)
  Theorem C19_compose :
    forall calls1 calls2 f1 f2, run vnew calls1 = Ok f1 -> run vnew calls2 = Ok f2 ->
    closed f1 -> closed f2 -> bits_true f1 -> bits_true f2 ->
    forall flt conn fuel, once_filter flt -> (3 * num_states f1 * num_states f2 <= fuel)%nat ->
      match compose_with flt conn fuel f1 f2 with
      | Some (Ok g) =>
          (has (vprops f1) O_LABEL_SORTED = true \/ has (vprops f2) I_LABEL_SORTED = true) /\
          (forall k x z, rel (mach g) k x z = sum_pairs f1 f2 k x z (once flt k)) /\
          (conn = true -> forall s, (s < num_states g)%nat -> accessible (mach g) s /\ coaccessible (mach g) s) /\
          (vstart f1 <> None -> vstart f2 <> None -> visymt g = visymt f1 /\ vosymt g = vosymt f2)
      | Some Err => has (vprops f1) O_LABEL_SORTED = false /\ has (vprops f2) I_LABEL_SORTED = false
      | _ => False
      end.
  Proof.
    intros calls1 calls2 f1 f2 R1 R2 D1 D2 B1 B2 flt conn fuel F Hf.
    assert (C1 : cnt f1) by (refine (run_cnt L calls1 vnew f1 _ R1); constructor).
    assert (C2 : cnt f2) by (refine (run_cnt L calls2 vnew f2 _ R2); constructor).
    pose proof (compose_gen f1 f2 flt C1 C2 D1 D2 B1 B2 conn fuel Hf) as G.
    destruct (compose_with flt conn fuel f1 f2) as [[g| |]|]; auto.
    - destruct G as (G1 & G2 & G3 & G4 & _). split; [exact G1|]. split; auto.
      intros k x z. rewrite G2. apply sum_pairs_ext. intros s1 s2 p1 p2 E1 E2 P1 P2.
      unfold both_starts. rewrite E1, E2. unfold once.
      transitivity (nmul (b2n (leqb (olabs p1) (ilabs p2) && Nat.eqb (span flt p1 p2) k)) (apw (mach f1) s1 p1 * apw (mach f2) s2 p2)).
      + apply accepting; auto. intros A1 A2. destruct F as [->|[->| ->]]; cbn [span]; rewrite (Nat.eqb_sym _ k).
        * rewrite ways_seq by (auto; lia). unfold seq_ok. cbn [Nat.eqb orb]. rewrite andb_true_r. auto.
        * rewrite ways_alt by (auto; lia). unfold alt_ok. cbn [Nat.eqb orb]. rewrite andb_true_r. auto.
        * rewrite ways_match by (auto; lia). cbn [match_ok]. rewrite andb_true_r. auto.
      + apply nmul_b2n.
    - unfold sorted_known in G. destruct (has (vprops f1) O_LABEL_SORTED); [exfalso; apply G; auto|].
      destruct (has (vprops f2) I_LABEL_SORTED); [exfalso; apply G; auto|]. auto.
  Qed.

  (** The null filter pairs only paths whose labels agree one by one, epsilons included. *)
  Theorem C19_compose_null :
    forall calls1 calls2 f1 f2, run vnew calls1 = Ok f1 -> run vnew calls2 = Ok f2 ->
    closed f1 -> closed f2 -> bits_true f1 -> bits_true f2 ->
    forall conn fuel g, (3 * num_states f1 * num_states f2 <= fuel)%nat ->
      compose_with NullF conn fuel f1 f2 = Some (Ok g) ->
      forall k x z, rel (mach g) k x z =
        sum_pairs f1 f2 k x z (fun p1 p2 w => if leqb (map ol p1) (map il p2) && Nat.eqb k (length p1) then w else 0).
  Proof.
    intros calls1 calls2 f1 f2 R1 R2 D1 D2 B1 B2 conn fuel g Hf E k x z.
    assert (C1 : cnt f1) by (refine (run_cnt L calls1 vnew f1 _ R1); constructor).
    assert (C2 : cnt f2) by (refine (run_cnt L calls2 vnew f2 _ R2); constructor).
    pose proof (compose_gen f1 f2 NullF C1 C2 D1 D2 B1 B2 conn fuel Hf) as G. rewrite E in G. destruct G as (_ & G & _).
    rewrite G. apply sum_pairs_ext. intros s1 s2 p1 p2 E1 E2 P1 P2. unfold both_starts. rewrite E1, E2, ways_null. apply nmul_b2n.
  Qed.

  (** The trivial and no-match filters pair the same paths, but possibly several times. *)
  Theorem C19_compose_trivial :
    forall calls1 calls2 f1 f2, run vnew calls1 = Ok f1 -> run vnew calls2 = Ok f2 ->
    closed f1 -> closed f2 -> bits_true f1 -> bits_true f2 ->
    forall flt conn fuel g, flt = TrivialF \/ flt = NoMatchF -> (3 * num_states f1 * num_states f2 <= fuel)%nat ->
      compose_with flt conn fuel f1 f2 = Some (Ok g) ->
      exists mult : nat -> list (tr K) -> list (tr K) -> nat,
        (forall k p1 p2, mult k p1 p2 <> O -> olabs p1 = ilabs p2) /\
        (forall p1 p2, olabs p1 = ilabs p2 -> mult (seq_span p1 p2) p1 p2 <> O) /\
        forall k x z, rel (mach g) k x z = sum_pairs f1 f2 k x z (fun p1 p2 w => ksum (repeat w (mult k p1 p2))).
  Proof.
    intros calls1 calls2 f1 f2 R1 R2 D1 D2 B1 B2 flt conn fuel g F Hf E.
    assert (C1 : cnt f1) by (refine (run_cnt L calls1 vnew f1 _ R1); constructor).
    assert (C2 : cnt f2) by (refine (run_cnt L calls2 vnew f2 _ R2); constructor).
    pose proof (compose_gen f1 f2 flt C1 C2 D1 D2 B1 B2 conn fuel Hf) as G. rewrite E in G. destruct G as (_ & G & _).
    exists (fun k p1 p2 => ways flt f1 f2 k 0 (match vstart f1 with Some s => s | None => O end)
                             (match vstart f2 with Some s => s | None => O end) p1 p2).
    split; [|split].
    - intros k p1 p2. apply ways_sound.
    - intros p1 p2 H. apply ways_some; auto.
    - intros k x z. rewrite G. apply sum_pairs_ext. intros s1 s2 p1 p2 E1 E2 _ _. unfold both_starts. rewrite E1, E2. reflexivity.
  Qed.
End C19.
Print Assumptions C19_span.
Print Assumptions C19_compose.
Print Assumptions C19_compose_null.
Print Assumptions C19_compose_trivial.

(** ** The multiplicity of the trivial and no-match filters *)
Local Close Scope K_scope.
Definition c19_a : list (op natSR) := [OAddStates 2; OSetStart 0; OSetFinal 1 (1 : natSR); OAddTr 0 (Tr 1 0 (2 : natSR) 1)].
Definition c19_b : list (op natSR) := [OAddStates 2; OSetStart 0; OSetFinal 1 (1 : natSR); OAddTr 0 (Tr 0 2 (5 : natSR) 1)].

(** One transition writing nothing composed with one reading nothing: one pair, of weight 10, found
    three times by the trivial filter and twice by the no-match filter. *)
Theorem C19_trivial_once_refuted :
  exists f1 f2 g h, run vnew c19_a = Ok f1 /\ run vnew c19_b = Ok f2 /\ closed f1 /\ closed f2 /\
    compose_with TrivialF true 12 f1 f2 = Some (Ok g) /\ compose_with NoMatchF true 12 f1 f2 = Some (Ok h) /\
    paths (mach f1) 1 0 = [[Tr 1 0 2 1]] /\ paths (mach f2) 1 0 = [[Tr 0 2 5 1]] /\
    rel (mach g) 1 [1] [2] = 10 /\ rel (mach g) 2 [1] [2] = 20 /\
    rel (mach h) 1 [1] [2] = 0 /\ rel (mach h) 2 [1] [2] = 20.
Proof.
  do 4 eexists. split; [vm_compute; reflexivity|]. split; [vm_compute; reflexivity|].
  split; [|split].
  1, 2: (split; [|cbn; intros s H; inversion H; vm_compute; lia];
    intros s t; destruct s as [|[|s]]; cbn; [intros [<-|[]]; vm_compute; lia|tauto|]; destruct s; simpl; tauto).
  repeat (split; [vm_compute; reflexivity|]). vm_compute; reflexivity.
Qed.
Print Assumptions C19_trivial_once_refuted.

(** Two cyclic machines with epsilons on both sides. *)
Definition c19_1 : list (op natSR) :=
  [OAddStates 2; OSetStart 0; OSetFinal 1 (3 : natSR); OAddTr 0 (Tr 1 0 (2 : natSR) 0); OAddTr 0 (Tr 2 5 (1 : natSR) 1);
   OAddTr 1 (Tr 4 0 (7 : natSR) 1)].
Definition c19_2 : list (op natSR) :=
  [OAddStates 2; OSetStart 0; OSetFinal 1 (1 : natSR); OAddTr 0 (Tr 0 8 (3 : natSR) 0); OAddTr 0 (Tr 5 9 (2 : natSR) 1);
   OAddTr 1 (Tr 0 6 (5 : natSR) 1)].

Example C19_witness :
  commutative_times natSR /\
  exists f1 f2 g h, run vnew c19_1 = Ok f1 /\ run vnew c19_2 = Ok f2 /\ closed f1 /\ closed f2 /\ bits_true f1 /\ bits_true f2 /\
    compose 12 f1 f2 = Some (Ok g) /\ compose_with MatchF true 12 f1 f2 = Some (Ok h) /\
    num_states g = 4 /\
    rel (mach g) 4 [1; 1; 2] [8; 9] = 2 * 2 * 1 * 3 * (3 * 2 * 1) /\
    rel (mach h) 4 [1; 1; 2] [8; 9] = 0 /\ rel (mach h) 3 [1; 1; 2] [8; 9] = 72 /\
    sum_pairs f1 f2 4 [1; 1; 2] [8; 9] (once SequenceF 4) = 72 /\
    sum_pairs f1 f2 3 [1; 1; 2] [8; 9] (once MatchF 3) = 72.
Proof.
  split; [exact natSR_comm|].
  assert (B : forall l (f : vfst natSR), Forall (fun o => match o with OSetTrs _ _ | ORawSort _ _ | ORawUnique _ | ORawSum _ => False | _ => True end) l ->
    run (K := natSR) vnew l = Ok f -> bits_true f).
  { intros l f F R. refine (C01_property_bits_sound natSR natSR_laws f _). exact (run_history _ vnew f h_new F R). }
  do 4 eexists. split; [vm_compute; reflexivity|]. split; [vm_compute; reflexivity|].
  split; [|split; [|split; [|split]]].
  1, 2: (split; [|cbn; intros s H; inversion H; vm_compute; lia];
    intros s t; destruct s as [|[|s]]; cbn; try (destruct s; simpl; tauto); intros H; repeat destruct H as [<-|H]; try destruct H; vm_compute; lia).
  - apply (B c19_1); [repeat constructor|vm_compute; reflexivity].
  - apply (B c19_2); [repeat constructor|vm_compute; reflexivity].
  - repeat (split; [vm_compute; reflexivity|]). vm_compute; reflexivity.
Qed.
