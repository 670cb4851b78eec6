(** C73: pushing the weights that looking one transition ahead finds changes no weight of a composition. *)
From Coq Require Import List Arith NArith ZArith Bool Lia Sorted.
From Verif Require Import Base.Util Base.Semiring Base.Machine Base.PropSpec Base.Instances Base.TropZ
  Model.Props Model.VectorFst Model.TrOps Model.History Model.Rational Model.Matchers Model.IntervalSet Model.Reachable Model.LabelReach
  Model.BiMap Model.Lazy Model.Compose Model.LookAhead Model.TrLookAhead
  Proofs.PropsFacts Proofs.VectorFacts Proofs.HistoryFacts Proofs.TrOpsFacts Proofs.OpFacts Proofs.VectorProps Proofs.TableFacts Proofs.ComposeFacts
  Proofs.LookFacts Proofs.LookAlt Proofs.LookSpec Proofs.LookStack Proofs.LookPush Proofs.LookBuild Proofs.ClosedB
  Props.C06 Props.C19 Props.C20 Props.C38 Props.C55 Props.C71 Props.C72 Model.Weights.
Import ListNotations.
Local Open Scope K_scope.

Section C73.
  Context {K : SR} (L : lsr_laws K) (comm : commutative_times K).
  Implicit Types (f g : vfst K).

  Section One.
    Context (f1 f2 : vfst K) (mt : mtype) (flt : cfilter) (out : bool) (fl : laflags).
    Context (C1 : cnt f1) (C2 : cnt f2) (D1 : closed f1) (D2 : closed f2) (B1 : bits_true f1) (B2 : bits_true f2).
    Context (M : mt_ok mt f1 f2) (LK : looks out f1 f2).
    Context (divide : K -> K -> res K) (ZS : zero_sum_free (K := K)) (N10 : (1 : K) <> 0) (DV : divides divide).
    Notation BF := (base_cf flt f1 f2).
    Notation TF := (tla_cf out fl f1 f2 BF).
    Notation PF := (pushw_cf divide TF).
    Notation ev fs s1 s2 := (env flt f1 f2 fs s1 s2).

    Definition answer (s1 s2 : nat) : res (option (lamd K)) :=
      if out then tla_lookahead_fst fl f1 MOutput s1 f2 s2 else tla_lookahead_fst fl f2 MInput s2 f1 s1.
    Definition pending : list K :=
      1 :: flat_map (fun s1 => flat_map (fun s2 => match answer s1 s2 with Ok (Some m) => [lm_weight m] | _ => [] end) (seq 0 (num_states f2))) (seq 0 (num_states f1)).
    Lemma pending_len : (length pending <= 1 + num_states f1 * num_states f2)%nat.
    Proof.
      unfold pending. cbn [length]. match goal with |- (S ?x <= _)%nat => assert (x <= num_states f1 * num_states f2)%nat; [|lia] end.
      etransitivity; [apply (flat_len _ (num_states f2))|rewrite seq_length; auto].
      intros s1 _. etransitivity; [apply (flat_len _ 1)|rewrite seq_length; lia]. intros s2 _. destruct (answer s1 s2) as [[|]| |]; cbn; lia.
    Qed.
    (** The weight found is never zero: it is one, or one and more. *)
    Lemma answer_weight s1 s2 m : (s1 < num_states f1)%nat -> (s2 < num_states f2)%nat -> answer s1 s2 = Ok (Some m) -> lm_weight m <> 0 /\ In (lm_weight m) pending.
    Proof.
      intros H1 H2 E. split.
      - assert (X : lm_weight m = 1 \/ exists v, lm_weight m = 1 + v).
        { unfold answer in E. unfold looks in LK.
          assert (Y : forall mt' f ms lf ls, mt' = MInput \/ mt' = MOutput -> bits_true f -> sm_match_type f mt' false = Ok mt' -> (ms < num_states f)%nat -> (ls < num_states lf)%nat ->
                    tla_lookahead_fst fl f mt' ms lf ls = Ok (Some m) -> lm_weight m = 1 \/ exists v, lm_weight m = 1 + v).
          { intros mt' f ms lf ls Hm B Mt G1 G2 E'. destruct (C71_lookahead_fst L fl f mt' ms lf ls Hm B Mt G1 G2) as (a & Ea & _ & Q). rewrite E' in Ea. injection Ea as <-.
            destruct (Q m eq_refl) as (Q1 & Q2). destruct (fl_weight fl && fl_prefix fl); [|left; rewrite Q1; auto]. specialize (Q2 eq_refl). cbv zeta in Q2.
            match type of Q2 with (?n = _ -> _) /\ _ => destruct (Nat.eq_dec n 1) as [En|Nn] end; [left; apply Q2; auto|right]. destruct Q2 as [_ Q2]. destruct (Q2 Nn) as (_ & ->). eauto. }
          destruct out; [apply (Y MOutput f1 s1 f2 s2); auto|apply (Y MInput f2 s2 f1 s1); auto]. }
        destruct X as [->|(v & ->)]; auto. intros Z. apply ZS in Z as [Z _]. auto.
      - right. apply in_flat_map. exists s1. split; [apply in_seq; lia|]. apply in_flat_map. exists s2. split; [apply in_seq; lia|]. rewrite E. left. auto.
    Qed.

    Definition wt_ok (w : K) : Prop := w <> 0 /\ (fl_weight fl = false -> w = 1).
    Lemma push_cases fs w s1 s2 p : (s1 < num_states f1)%nat -> (s2 < num_states f2)%nat -> wt_ok w -> pair_kind f1 f2 s1 s2 p ->
      (cf_filter TF (ev fs s1 s2) (fst p) (snd p) = Ok None /\ cf_filter PF (ev fs s1 s2, w) (fst p) (snd p) = Ok None) \/
      exists fs' la lw q, cf_filter TF (ev fs s1 s2) (fst p) (snd p) = Ok (Some (fs', fst p, snd p, la)) /\ (fs' < 3)%nat /\
        cf_filter PF (ev fs s1 s2, w) (fst p) (snd p) = Ok (Some (fs', lw, fst p, QT (qil (snd p)) (qol (snd p)) q (qns (snd p)), la)) /\
        w * q = qw (snd p) * lw /\ wt_ok lw /\ In lw pending.
    Proof.
      intros H1 H2 [W0 W1] Hp. destruct (next_ok f1 f2 D1 D2 s1 s2 p H1 H2 Hp) as (_ & N1 & N2).
      assert (X : cf_filter TF (ev fs s1 s2) (fst p) (snd p) = Ok None \/
                  exists fs' la, cf_filter TF (ev fs s1 s2) (fst p) (snd p) = Ok (Some (fs', fst p, snd p, la)) /\ (fs' < 3)%nat /\
                    forall m, la = Some m -> answer (qns (fst p)) (qns (snd p)) = Ok (Some m)).
      { pose proof (filter_lt f1 f2 flt fs s1 s2 p) as FL. cbn [tla_cf cf_filter base_cf]. destruct (filter_tr flt _ _ _) as [fs'|]; [|left; reflexivity]. cbn [rbind].
        destruct (negb _ && negb _); [right; do 2 eexists; split; [reflexivity|]; split; [auto|discriminate]|].
        destruct (is_eps _ && negb _); [right; do 2 eexists; split; [reflexivity|]; split; [auto|discriminate]|].
        change (if out then tla_lookahead_fst fl f1 MOutput (qns (fst p)) f2 (qns (snd p)) else tla_lookahead_fst fl f2 MInput (qns (snd p)) f1 (qns (fst p)))
          with (answer (qns (fst p)) (qns (snd p))).
        destruct (tla_answer L f1 f2 out fl B1 B2 LK (qns (fst p)) (qns (snd p)) N1 N2) as (a & Ea & _). change (answer (qns (fst p)) (qns (snd p)) = Ok a) in Ea.
        rewrite Ea. cbn [rbind]. destruct a as [d|]; [|left; reflexivity]. right. do 2 eexists. split; [reflexivity|]. split; auto. intros m [= <-]. reflexivity. }
      destruct X as [E|(fs' & la & E & Hf & A)].
      - left. split; auto. cbn [pushw_cf cf_filter fst snd]. cbn [tla_cf cf_filter base_cf] in E. cbn [tla_cf cf_filter base_cf]. rewrite E. reflexivity.
      - right. cbn [pushw_cf cf_filter fst snd]. rewrite E. cbn [rbind]. change (cf_flags TF) with fl. destruct (fl_weight fl) eqn:Fw; cbn [negb].
        + set (lw := match la with Some d => lm_weight d | None => 1 end).
          assert (Z : lw <> 0 /\ In lw pending).
          { subst lw. destruct la as [m|]; [apply (answer_weight _ _ m N1 N2); auto|]. split; auto. left. auto. }
          destruct Z as [Z1 Z2]. destruct (keqb lw 0) eqn:Ez; [apply (keqb_spec _ L) in Ez; contradiction|].
          destruct (DV (qw (snd p) * lw) w W0) as (q & Eq & Ew). rewrite Eq. cbn [rbind]. exists fs', la, lw, q. split; auto. split; auto. split; auto. split; auto. split; auto.
          split; auto. congruence.
        + exists fs', la, 1, (qw (snd p)). split; auto. split; auto. split; [destruct (snd p); auto|]. rewrite W1 by auto.
          split; [rewrite (ktimes_1_l _ L), (ktimes_1_r _ L); auto|]. split; [split; auto|left; auto].
    Qed.

    Lemma push_set fs w s1 s2 : (s1 < num_states f1)%nat -> (s2 < num_states f2)%nat -> cf_set PF s1 s2 (fs, w) = Ok (ev fs s1 s2, w).
    Proof. intros H1 H2. cbn [pushw_cf cf_set fst snd tla_cf base_cf]. rewrite set_state_eq by auto. auto. Qed.
    Lemma push_trs fs w s1 s2 : (s1 < num_states f1)%nat -> (s2 < num_states f2)%nat ->
      gcompute_trs PF mt f1 f2 (fs, w, s1, s2) = gouts PF (ev fs s1 s2, w) (pairs mt f1 f2 s1 s2).
    Proof. intros H1 H2. apply gtrs_eq; auto. apply push_set; auto. Qed.
    Definition pvalid (t : gtuple (nat * K)) : Prop :=
      let '(fs, w, s1, s2) := t in (fs < 3)%nat /\ wt_ok w /\ In w pending /\ (s1 < num_states f1)%nat /\ (s2 < num_states f2)%nat.
    Lemma push_out fs w s1 s2 p : (s1 < num_states f1)%nat -> (s2 < num_states f2)%nat -> wt_ok w -> pair_kind f1 f2 s1 s2 p ->
      exists o, gout PF (ev fs s1 s2, w) p = Ok o /\ forall u, o = Some u -> pvalid (tn u).
    Proof.
      intros H1 H2 W Hp. unfold gout. destruct (next_ok f1 f2 D1 D2 s1 s2 p H1 H2 Hp) as ((i & o & Ei & Eo) & N1 & N2).
      destruct (push_cases fs w s1 s2 p H1 H2 W Hp) as [[_ ->]|(fs' & la & lw & q & _ & Hf & -> & _ & Wl & Il)].
      - exists None. split; [auto|discriminate].
      - cbn [rbind]. unfold gadd_tr. cbn [qol qns qw]. rewrite Ei, Eo. cbn [rbind rmap proper]. eexists. split; [reflexivity|].
        intros u [= <-]. cbn [tn]. repeat split; auto; apply Wl.
    Qed.
    Lemma push_fin fs w s1 s2 : (s1 < num_states f1)%nat -> (s2 < num_states f2)%nat -> wt_ok w ->
      exists v, gcompute_final PF f1 f2 (fs, w, s1, s2) = Ok v /\ w * fw v = fw (fin_of f1 s1) * fw (fin_of f2 s2).
    Proof.
      intros H1 H2 [W0 W1]. unfold gcompute_final. rewrite !final_in by auto. cbn [rbind].
      destruct (fin_of f1 s1) as [w1|]; cbn [fw]. 2:{ exists None. split; auto. cbn. rewrite (ktimes_0_r _ L), (ktimes_0_l _ L). auto. }
      destruct (fin_of f2 s2) as [w2|]; cbn [fw rbind]. 2:{ exists None. split; auto. cbn. rewrite !(ktimes_0_r _ L). auto. }
      rewrite push_set by auto. cbn [rbind pushw_cf cf_final fst snd tla_cf base_cf cf_flags].
      assert (PFn : exists q, (if negb (fl_weight fl) || keqb w1 0 then Ok (w1, w2) else v <-- divide w1 w ;; Ok (v, w2)) = Ok (q, w2) /\ w * q = w1).
      { destruct (fl_weight fl); cbn [negb orb].
        - destruct (keqb w1 0) eqn:E.
          + apply (keqb_spec _ L) in E. subst. exists 0. split; auto. apply (ktimes_0_r _ L).
          + destruct (DV w1 w W0) as (q & -> & Eq). exists q. auto.
        - exists w1. split; auto. rewrite W1 by auto. apply (ktimes_1_l _ L). }
      destruct PFn as (q & Eq & Ew). rewrite Eq. cbn [rbind fst snd].
      eexists. split; [reflexivity|]. destruct (keqb (q * w2) 0) eqn:Ez; cbn [fw].
      - apply (keqb_spec _ L) in Ez. rewrite <- Ew, <- (ktimes_assoc _ L), Ez. auto.
      - rewrite (ktimes_assoc _ L), Ew. auto.
    Qed.

    Lemma push_value k : forall fs w s1 s2 x z, (s1 < num_states f1)%nat -> (s2 < num_states f2)%nat -> wt_ok w ->
      w * G f1 f2 PF mt k (fs, w, s1, s2) x z = G f1 f2 TF mt k (fs, s1, s2) x z.
    Proof.
      induction k as [|k IH]; intros fs w s1 s2 x z H1 H2 W.
      - unfold G. cbn [gwt]. destruct (isnil x && isnil z); [|apply (ktimes_0_r _ L)].
        unfold fin_at. destruct (push_fin fs w s1 s2 H1 H2 W) as (v & -> & ->).
        unfold gcompute_final. rewrite !final_in by auto. cbn [rbind]. destruct (fin_of f1 s1) as [w1|]; cbn [fw]; [|rewrite (ktimes_0_l _ L); auto].
        destruct (fin_of f2 s2) as [w2|]; cbn [fw rbind]; [|rewrite (ktimes_0_r _ L); auto]. cbn [tla_cf cf_set base_cf]. rewrite set_state_eq by auto. cbn [rbind cf_final fst snd].
        cbn [tla_cf cf_final base_cf rbind fst snd]. destruct (keqb (w1 * w2) 0) eqn:Ez; cbn [fw]; auto. apply (keqb_spec _ L) in Ez. auto.
      - rewrite (G_step L f1 f2 PF mt (fs, w) s1 s2 (ev fs s1 s2, w)); [|apply push_trs; auto|intros p Hp; destruct (push_out fs w s1 s2 p H1 H2 W Hp) as (o & E & _); eauto].
        rewrite (G_step L f1 f2 TF mt fs s1 s2 (ev fs s1 s2)); [|apply tla_trs; auto|intros p Hp; destruct (tla_out L f1 f2 flt out fl D1 D2 B1 B2 LK fs s1 s2 p H1 H2 Hp) as (o & E & _); eauto].
        rewrite (ksum_times_l L), map_map. apply ksum_map_ext. intros p Hp. apply pairs_kind in Hp. destruct (next_ok f1 f2 D1 D2 s1 s2 p H1 H2 Hp) as ((i & o & Ei & Eo) & N1 & N2).
        unfold gval, gout. destruct (push_cases fs w s1 s2 p H1 H2 W Hp) as [[-> ->]|(fs' & la & lw & q & -> & Hf & -> & Eq & Wl & Il)]; [apply (ktimes_0_r _ L)|].
        cbn [rbind]. unfold gadd_tr. cbn [qol qns qw]. rewrite Ei, Eo. cbn [rbind rmap proper]. unfold gterm. cbn [ti to tw tn].
        destruct (strip i x) as [x'|]; [|apply (ktimes_0_r _ L)]. destruct (strip o z) as [z'|]; [|apply (ktimes_0_r _ L)].
        apply (push_term L comm w (qw (fst p)) (qw (snd p)) q lw); auto.
    Qed.
  End One.

  Theorem C73_push_weights :
    forall f1 f2 flt out fl divide props fuel mt, ready2 f1 f2 -> compose_match_type f1 f2 = Ok mt -> looks out f1 f2 ->
    zero_sum_free (K := K) -> (1 : K) <> 0 -> divides divide ->
    (3 * (1 + num_states f1 * num_states f2) * num_states f1 * num_states f2 <= fuel)%nat ->
    exists g, gcompose (pushw_cf divide (tla_cf out fl f1 f2 (base_cf flt f1 f2))) fsw_eqb props fuel f1 f2 = Some (Ok g) /\
      (forall conn, exists p, compose_with flt conn fuel f1 f2 = Some (Ok p) /\ forall k x z, rel (mach g) k x z = rel (mach p) k x z) /\
      (vstart f1 <> None -> vstart f2 <> None -> visymt g = visymt f1 /\ vosymt g = vosymt f2) /\ closed g.
  Proof.
    intros f1 f2 flt out fl divide props fuel mt (C1 & C2 & D1 & D2 & B1 & B2) EM LK ZS N10 DV Hf. pose proof (match_type_ok f1 f2 mt B1 B2 EM) as M.
    assert (Hf' : (3 * num_states f1 * num_states f2 <= fuel)%nat).
    { etransitivity; [|exact Hf]. apply Nat.mul_le_mono_r. apply Nat.mul_le_mono_r. lia. }
    set (univ := list_prod (list_prod (list_prod (seq 0 3) (pending f1 f2 out fl)) (seq 0 (num_states f1))) (seq 0 (num_states f2))).
    set (PF := pushw_cf divide (tla_cf out fl f1 f2 (base_cf flt f1 f2))).
    destruct (gcompose_gen PF fsw_eqb (fsw_eqb_spec L) f1 f2 mt EM (pvalid f1 f2 out fl)) with (univ := univ) (props := props) (fuel := fuel)
      as (g & Eg & _ & Dg & R & SY).
    - intros s1 s2 E1 E2. cbn. split; [lia|]. split; [split; auto|]. split; [left; auto|]. split; [apply D1; auto|apply D2; auto].
    - intros [[[fs w] s1] s2] (Hfs & W & Iw & H1 & H2). unfold PF. rewrite push_trs by auto. fold PF.
      assert (X : forall p, In p (pairs mt f1 f2 s1 s2) -> exists o, gout PF (env flt f1 f2 fs s1 s2, w) p = Ok o /\ forall u, o = Some u -> pvalid f1 f2 out fl (tn u)).
      { intros p Hp. apply pairs_kind in Hp. apply (push_out f1 f2 flt out fl D1 D2 B1 B2 LK divide ZS N10 DV fs w s1 s2 p H1 H2 W Hp). }
      rewrite gouts_ok by (intros p Hp; destruct (X p Hp) as (o & E & _); eauto). eexists. split; [reflexivity|]. intros u Hu.
      apply in_flat_map in Hu as (p & Hp & Hu). unfold gone in Hu. destruct (X p Hp) as (o & E & Q). rewrite E in Hu. destruct o; [|destruct Hu]. destruct Hu as [<-|[]]. auto.
    - intros [[[fs w] s1] s2] (Hfs & W & Iw & H1 & H2). destruct (push_fin f1 f2 flt out fl C1 C2 divide DV fs w s1 s2 H1 H2 W) as (v & E & _). eauto.
    - intros [[[fs w] s1] s2] (Hfs & W & Iw & H1 & H2). unfold univ. apply in_prod; [apply in_prod; [apply in_prod|]|]; auto; apply in_seq; lia.
    - unfold univ. etransitivity; [apply Nat.eq_le_incl; exact (prod_length _ _)|]. rewrite !prod_length, !seq_length. etransitivity; [|exact Hf].
      pose proof (pending_len f1 f2 out fl). apply Nat.mul_le_mono_r. apply Nat.mul_le_mono_r. apply Nat.mul_le_mono_l. auto.
    - exists g. split; auto. split; [|split; auto]. intros conn.
      destruct (plain_value L comm f1 f2 flt mt fuel conn) as (p & Ep & Hp); auto; [unfold ready2; auto 7|]. exists p. split; auto. intros k x z. rewrite R, <- Hp.
      unfold both_starts. destruct (vstart f1) as [s1|] eqn:E1; auto. destruct (vstart f2) as [s2|] eqn:E2; auto.
      assert (H1 : (s1 < num_states f1)%nat) by (apply D1; auto). assert (H2 : (s2 < num_states f2)%nat) by (apply D2; auto).
      rewrite <- (tla_value L f1 f2 mt flt out fl C1 C2 D1 D2 B1 B2 M LK k O s1 s2 x z H1 H2).
      rewrite <- (push_value f1 f2 mt flt out fl C1 C2 D1 D2 B1 B2 M LK divide ZS N10 DV k O 1 s1 s2 x z H1 H2) by (split; auto).
      symmetry. apply (ktimes_1_l _ L).
  Qed.
End C73.
Print Assumptions C73_push_weights.

(** The machines of C72: weights are paid one transition earlier. *)
Example C73_witness :
  ready2 c72_f1 c72_f2 /\ compose_match_type c72_f1 c72_f2 = Ok MBoth /\ looks true c72_f1 c72_f2 /\
  zero_sum_free (K := tropZ) /\ divides trop_div /\
  exists g p, gcompose (pushw_cf trop_div (tla_cf true fl_ahead c72_f1 c72_f2 (base_cf AltSequenceF c72_f1 c72_f2))) fsw_eqb 0%N 1950 c72_f1 c72_f2 = Some (Ok g) /\
    compose_with AltSequenceF false 1950 c72_f1 c72_f2 = Some (Ok p) /\
    map num_states [g; p] = [5; 7]%nat /\ trs_of g 0 <> trs_of p 0 /\
    map (fun m => rel (mach m) 3 [7; 8]%nat [6; 9; 8]%nat) [g; p] = repeat (Some 20%Z : tropZ) 2.
Proof.
  destruct C72_witness as (R & E & L1 & _). split; [exact R|]. split; [exact E|]. split; [exact L1|]. split; [exact c55_zero_sum|]. split; [exact c55_divides|].
  do 2 eexists. split; [vm_compute; reflexivity|]. split; [vm_compute; reflexivity|]. split; [vm_compute; reflexivity|]. split; [|vm_compute; reflexivity].
  vm_compute. discriminate.
Qed.
