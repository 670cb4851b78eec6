(** C58: minimization of deterministic transducers. *)
From Coq Require Import List Arith NArith ZArith Bool Lia.
From Verif Require Import Base.Util Base.Semiring Base.Machine Base.PathSum Base.PropSpec Base.Instances Base.TropZ Model.Props Model.AlgoProps Model.VectorFst Model.History
  Model.TrOps Model.Rational Model.TrMap Model.Encode Model.Weights Model.FactorWeight Model.Queues Model.ShortestDistance Model.Reweight Model.ComputeProps Model.Minimize Model.Gallic Model.MinTransducer.
From Verif Require Proofs.PushShape Props.C46.
From Verif Require Import Proofs.PropsFacts Proofs.VectorFacts Proofs.VectorProps Proofs.HistoryFacts Proofs.TrOpsFacts Proofs.OpFacts Proofs.ConnectFacts Proofs.RationalFacts
  Proofs.ReverseDist Proofs.ReweightFacts Proofs.LazyFacts Proofs.LabelFacts Proofs.EncMin Proofs.GallicFacts Proofs.LabelPot Proofs.GallicPath Proofs.PushPath Proofs.LabelPush Proofs.PushLabels Proofs.MinTrans
  Props.C01 Props.C06 Props.C16 Props.C18 Props.C27 Props.C31 Props.C38 Props.C39 Props.C43 Props.C45 Props.C53 Props.C57.
Import ListNotations.
Local Open Scope K_scope.

(** Weights and labels are pushed, nothing is removed. *)
Definition min_push : push_type := PT true true false false.

(** Putting the factor in front of the start keeps the shape, one new state apart. *)
Lemma front_shape {K : SR} (c : K) a (h g : vfst K) : vstart h = Some a -> same_mach h g \/ started c a h g ->
  is_acceptor (mach h) -> deterministic (mach h) -> final_no_eps h ->
  is_acceptor (mach g) /\ deterministic (mach g) /\ final_no_eps g /\ (num_states g <= num_states h + 1)%nat.
Proof.
  intros Vh Cs Ah Dh Nh.
  assert (S1 : PushShape.same_shape h g -> is_acceptor (mach g) /\ deterministic (mach g) /\ final_no_eps g).
  { intros S. split; [apply (PushShape.shape_acc h); auto|]. split; [apply (PushShape.shape_det h); auto|apply (C46.shape_noeps h); auto]. }
  destruct Cs as [(E1 & E2 & E3 & E4)|[(E1 & E2 & _ & T & F & Tq & Fq)|(E1 & E2 & _ & T & F & Tq & Fq)]].
  - destruct S1 as (X1 & X2 & X3); [intros s; rewrite E3, E4; split; auto; tauto|]. do 3 (split; auto). lia.
  - destruct S1 as (X1 & X2 & X3); [apply (C46.scaled_shape (fun n => n) c a); auto|]. do 3 (split; auto). lia.
  - set (n := num_states h) in *. split; [|split; [|split; [|lia]]].
    + intros s t Ht. cbn [mach mtrs] in Ht. destruct (Nat.eq_dec s n) as [->|Ne]; [rewrite T in Ht; destruct Ht as [<-|[]]; auto|rewrite Tq in Ht by auto; apply (Ah s t Ht)].
    + intros s. cbn [mach mtrs]. destruct (Nat.eq_dec s n) as [->|Ne]; [rewrite T; repeat constructor; auto|rewrite Tq by auto; apply Dh].
    + intros s t Hf Ht. destruct (Nat.eq_dec s n) as [->|Ne]; [congruence|]. rewrite Tq in Ht by auto. rewrite Fq in Hf by auto. apply (Nh s t); auto.
Qed.

(** The loops keep it as well. *)
Lemma loops_shape {K : SR} (divide : K -> K -> Reweight.divide_type -> res K) (D : list K) (f h : vfst K) :
  (forall q, trs_of h q = trs_after divide D ToInitial f q) -> (forall q, fin_of h q = fin_after divide D ToInitial f q) ->
  is_acceptor (mach f) -> deterministic (mach f) -> final_no_eps f ->
  is_acceptor (mach h) /\ deterministic (mach h) /\ final_no_eps h.
Proof.
  intros T F A De N.
  assert (TI : forall s t, In t (trs_of h s) -> exists u, In u (trs_of f s) /\ t = rho divide D s u).
  { intros s t. rewrite T, trs_rho. intros H. apply in_map_iff in H as (u & <- & Hu). eauto. }
  split; [|split].
  - intros s t Ht. destruct (TI s t Ht) as (u & Hu & ->). destruct (rho_ns divide D s u) as (_ & -> & ->). apply (A s u Hu).
  - intros s. cbn [mach mtrs]. rewrite T, trs_rho, map_map. specialize (De s). cbn [mach mtrs] in De. erewrite map_ext; [exact De|]. intros u. apply rho_ns.
  - intros s t Hf Ht. destruct (TI s t Ht) as (u & Hu & ->). destruct (rho_ns divide D s u) as (_ & -> & _). apply (N s u); auto.
    rewrite F in Hf. unfold fin_after in Hf. intros E. apply Hf. rewrite E. destruct (is_zero (pot D s)); auto.
Qed.

(** And so does moving the labels into the weights. *)
Lemma gallic_shape {K : SR} (f : vfst K) (gf : vfst (gallicSR K)) : mapped gtr gfin f gf -> deterministic (mach f) -> final_no_eps f ->
  is_acceptor (mach gf) /\ deterministic (mach gf) /\ final_no_eps gf.
Proof.
  intros (_ & _ & _ & _ & _ & M) De N. split; [|split].
  - intros s t Ht. cbn [mach mtrs] in Ht. rewrite (proj1 (M s)) in Ht. apply in_map_iff in Ht as (u & <- & _). auto.
  - intros s. cbn [mach mtrs]. rewrite (proj1 (M s)), map_map. apply De.
  - intros s t Hf Ht. rewrite (proj1 (M s)) in Ht. apply in_map_iff in Ht as (u & <- & Hu). apply (N s u); auto.
    rewrite (proj2 (M s)) in Hf. intros E. apply Hf. rewrite E. auto.
Qed.

Section C58.
  Context {K K' : SR} (L : lsr_laws K) (L' : rsr_laws K').
  Variables (rv : K -> K') (rb : K' -> K).
  Hypothesis rv_0 : rv 0 = 0.
  Hypothesis rv_1 : rv 1 = 1.
  Hypothesis rv_plus : forall a b, rv (a + b) = rv a + rv b.
  Hypothesis rv_times : forall a b, rv (a * b) = rv b * rv a.
  Hypothesis rb_rv : forall a, rb (rv a) = a.
  Hypothesis rv_rb : forall a, rv (rb a) = a.
  Variable divide : K -> K -> Reweight.divide_type -> res K.
  Hypothesis Dv : divides_exactly divide.
  Hypothesis Wd : weakly_divisible K.
  Hypothesis Zf : zero_sum_free K.
  Hypothesis Zd : no_zero_divisors K.
  Variables (wlt : K -> K -> bool) (orc : nat -> nat) (quant : K -> K).
  Hypothesis W : tells_apart wlt.
  Hypothesis quant_id : forall w, quant w = w.
  Notation G := (gallicSR K).
  Implicit Types (f r : vfst K).

  Let LG : lsr_laws G := gallicSR_laws K L.
  Let LG' : psr_laws (gallicRSR K') := rsr_psr _ (gallicRSR_laws K' L').

  Lemma gallic_tells : tells_apart (gallic_lt wlt : G -> G -> bool).
  Proof. destruct W as (A & B & _). repeat split; auto. Qed.

  (** What is pushed and what it is minimized to. *)
  Record minimized_gallic f a (gf : vfst G) (D : list G) (g : vfst G) (b d : nat) (psi : list (tr G) -> list (tr G)) (m : vfst G) : Prop := MinimizedGallic {
    mg_map : mapped gtr gfin f gf; mg_facts : two_facts min_push f a D; mg_push : ok_result divide min_push f gf a D g b d psi;
    mg_det : deterministic (mach g); mg_size : (num_states g <= num_states f + 1)%nat; mg_red : reduced g m }.

  Lemma gallic_parts f a idem det : pushable min_push f a -> deterministic (mach f) -> final_no_eps f ->
    (forall fuel R, idempotent_plus K \/ (forall s, ~ on_cycle (mach f) s) ->
       minimize_gallic rv rb wlt orc divide quant idem det fuel f = Some R ->
       exists gf D g b d psi m, R = Ok m /\ minimized_gallic f a gf D g b d psi m) /\
    (no_endless_growth K \/ (forall s, ~ on_cycle (mach f) s) -> exists fuel0 R, forall fuel, (fuel0 <= fuel)%nat ->
       minimize_gallic rv rb wlt orc divide quant idem det fuel f = Some R).
  Proof.
    intros (C & Cn & B & Ea & NZ & SL & DV & LV) De NE.
    destruct (two_dist L L' rv rb rv_0 rv_1 rv_plus rv_times rb_rv rv_rb Zf Zd Wd min_push f a C Cn B Ea NZ SL DV) as (gf & Eg & M & Cg & Sg & DI & DS).
    unfold push_distance in DI, DS. cbn [min_push pt_weights to_initial] in DI, DS.
    unfold minimize_gallic, push_weights. rewrite Eg. cbn [obind fst]. split.
    - intros fuel R IA E. specialize (DI idem fuel). change (gallic_of sl_plus K) with G in *. change (gallic_of sr_plus K') with (gallicRSR K') in *.
      match type of DI with forall R, _ -> ?X = _ -> _ => destruct X as [R0|] eqn:E0 end; [|cbn [obind] in E; discriminate].
      destruct (DI R0 IA eq_refl) as (D & -> & TF). cbn [obind rbind] in E. pose proof TF as (GD & _).
      destruct (LabelPush.pushed_ok L divide Dv min_push f gf a D M Cg Sg Ea GD ltac:(left; reflexivity)) as (g & b & d & psi & Ep & OK).
      cbn [min_push pt_rm_affix pt_rm_total orb] in Ep. change (gallic_of sl_plus K) with G in *. rewrite Ep in E. cbn [obind] in E.
      pose proof M as (CnG & NG & VG & _).
      destruct (reweight_paths LG (gallic_divide divide true) D gf a Cg Sg ltac:(transitivity (vstart f); [exact VG|exact Ea]) (good_divides divide Dv f gf M D GD) (good_dead f gf M D GD))
        as (h & g' & b' & d' & psi' & Eg' & _ & Sg' & _ & _ & _ & _ & _ & _ & Vh & Nh & T & F & CS).
      change (gallic_of sl_plus K) with G in *. rewrite Ep in Eg'. injection Eg' as <-. clear b' d' psi'.
      destruct (gallic_shape f gf M De NE) as (A1 & D1 & N1). destruct (loops_shape (K := G) _ D gf h T F A1 D1 N1) as (A2 & D2 & N2).
      destruct (front_shape (K := G) (pot D a) a h g Vh) as (A3 & D3 & N3 & Sz); auto; [destruct CS as [(_ & X)|(_ & _ & X)]; auto|].
      pose proof OK as (Cg' & Sp & Cng & I1 & I2 & Vg & _).
      (* quantization does nothing *)
      destruct (C31_pure_mapper (quantize_mapper (gallic_quant quant)) (set_w (gallic_quant quant)) (gallic_quant quant) g Cng ltac:(congruence) (weight_pure (gallic_quant quant) _ g))
        as (x & Ex & Mx & _).
      assert (Sx : fsound x) by (apply (C31_weight_bits (fun w => Ok (gallic_quant quant w)) g x tt Cng Sg' ltac:(eauto) ltac:(eauto) Ex)).
      destruct Mx as (X1 & X2 & X3 & X4 & X5 & X6).
      assert (QI : forall w : G, gallic_quant quant w = w) by (intros [z w]; unfold gallic_quant; cbn; rewrite quant_id; auto).
      assert (Tx : forall s, trs_of x s = trs_of g s).
      { intros s. rewrite (proj1 (X6 s)). rewrite <- (map_id (trs_of g s)) at 2. apply map_ext. intros []. unfold set_w. cbn. rewrite QI. auto. }
      assert (Fx : forall s, fin_of x s = fin_of g s).
      { intros s. rewrite (proj2 (X6 s)). destruct (fin_of g s); cbn; rewrite ?QI; auto. }
      rewrite Ex in E. cbn [obind fst] in E.
      assert (Cx : closed x). { split; [intros s t; rewrite Tx, X2; apply Cg'|intros s; rewrite X2, X3; apply Cg']. }
      assert (Ax : is_acceptor (mach x)) by (intros s t; cbn [mach mtrs]; rewrite Tx; apply A3).
      assert (Dx : deterministic (mach x)) by (intros s; cbn [mach mtrs]; rewrite Tx; apply D3).
      assert (NEx : final_no_eps x) by (intros s t; rewrite Fx, Tx; apply N3).
      destruct (encmin_ok LG LG' (gallic_reverse rv) (gallic_lt wlt) orc gallic_tells ltac:(discriminate) x b det Cx X1 ltac:(congruence) Sx Ax Dx NEx) as (m & e & TT & Er & Rd & _ & _).
      unfold encmin in Er. destruct (encode x EncodeWeightsAndLabels) as [y| |] eqn:Ey; cbn [rbind] in Er; try discriminate. cbn [obind] in E.
      destruct (acceptor_minimize _ _ _ (fst y) det) as [k| |] eqn:Ek; cbn [rbind] in Er; try discriminate. cbn [obind] in E. rewrite Er in E. injection E as <-.
      exists gf, D, g, b, d, psi, m. split; auto. split; auto; [lia|].
      destruct Rd as [R1 R2 R3 R4 R5 R6 R7 R8 R9 R10 R11]. split; auto.
      + intros j u v. rewrite R6. apply (same_rel g x). repeat split; auto; congruence.
      + destruct R8 as [-> ->]. auto.
      + lia.
      + intros u. rewrite R10. unfold C38.spelled. cbn [mach mstart]. rewrite X3. destruct (vstart g) as [s|]; auto. apply (C46.same_spell g x Tx Fx).
      + destruct R11 as (RR & Q1 & Q2). exists RR. split; [intros j Hk; rewrite <- X3; auto|]. intros j q Hk. destruct (Q2 j q Hk) as (Y1 & Y2).
        split; [intros w Hw; rewrite <- Fx; auto|]. intros t Ht. destruct (Y2 t Ht) as (u & Hu & Y3). exists u. rewrite <- Tx. auto.
    - intros NA. destruct (DS idem NA) as (fuel0 & R & E). exists fuel0.
      change (gallic_of sl_plus K) with G in *. change (gallic_of sr_plus K') with (gallicRSR K') in *.
      assert (OB : forall A B (x : res A) (k : A -> option (res B)), (forall a, exists y, k a = Some y) -> exists y, obind (Some x) k = Some y).
      { intros A B0 [x| |] k H; cbn; eauto. }
      match goal with |- exists R0, forall fuel, _ -> obind (match _ with Some r => Some (@?F r) | None => None end) ?k = _ =>
        assert (X : exists R0, obind (Some (F R)) k = Some R0) end.
      { apply OB. intros g. apply OB. intros x. apply OB. intros y. apply OB. intros z. eauto. }
      destruct X as (R0 & X). exists R0. intros fuel H. rewrite (E fuel H). exact X.
  Qed.

  (** The result of a run of the transducer part. *)
  Lemma transducer_parts f a idem det fuel r : pushable min_push f a -> deterministic (mach f) -> final_no_eps f ->
    idempotent_plus K \/ (forall s, ~ on_cycle (mach f) s) ->
    minimize_transducer rv rb wlt orc divide quant idem det fuel f = Some (Ok r) ->
    closed r /\ cnt r /\
    ((exists q, is_path (mach f) a q /\ success f a q = true) -> vstart r <> None /\ visymt r = visymt f /\ vosymt r = vosymt f) /\
    exists delay, forall k x y, rel (mach r) k x y = ksum (map (fun i => ksum (map (fun q =>
       if Nat.eqb (length q + delay q) k && reads x y q then apw (mach f) a q else 0) (paths (mach f) i a))) (seq 0 (S k))).
  Proof.
    intros PU De NE IA. unfold minimize_transducer. destruct (minimize_gallic _ _ _ _ _ _ _ _ _ _) as [R|] eqn:E; [|discriminate].
    destruct (proj1 (gallic_parts f a idem det PU De NE) fuel R IA E) as (gf & D & g & b & d & psi & m & -> & MG). cbn [obind]. intros U.
    destruct MG as [M TF OK Dg Sz [R1 R2 R3 R4 R5 R6 R7 R8 R9 R10 R11]]. pose proof OK as (Cg & Sp & Cng & I1 & I2 & Vg & (P1 & P2 & P3) & _).
    destruct (kept_rel L g m b Vg Dg Sp R1 R4 R5 (fun s Hs => proj1 (R7 s Hs)) R10 R11 fuel r U) as (A1 & A2 & A3 & A4 & tau & A5).
    destruct (removed_some min_push f a D TF) as (cs & cv & RE & B1 & B2 & _). rewrite (B1 eq_refl), (B2 eq_refl) in RE. clear B1 B2 cs cv.
    split; auto. split; auto. split.
    - intros (q & Hq & Sq). assert (Vm : vstart m <> None).
      { intros Z. destruct (P3 _ (gis_path f gf M q a Hq)) as [_ X]. rewrite (gapw L f gf M q a), RE in X.
        assert (Y : is_path (mach g) b (psi (map gtr q))).
        { assert (I : In (psi (map gtr q)) (paths (mach g) (length q + d) b)).
          { rewrite P1. apply in_map. apply paths_is_path. split; [apply (gis_path f gf M q a Hq)|apply map_length]. }
          apply paths_is_path in I. tauto. }
        rewrite (apw_spell LG (mach g) Dg _ b Y) in X. specialize (R10 (map il (psi (map gtr q)))). unfold C38.spelled in R10. cbn [mach mstart] in R10.
        rewrite Z, Vg in R10. fold (mach g) in R10. rewrite <- R10 in X. unfold success in Sq. destruct (fin_of f (dst a q)); [|discriminate]. discriminate X. }
      destruct (A3 Vm) as (Y1 & Y2 & Y3). destruct R8 as [Z1 Z2]. split; auto. split; congruence.
    - destruct (back_sum L divide min_push f gf a D M [] 1 RE g b d psi OK tau (mach r) A5) as (delay & val & B6 & B7). exists delay.
      intros k x y. rewrite B6. f_equal. apply map_ext. intros i. f_equal. apply map_ext_in. intros q Hq.
      apply paths_is_path in Hq as [Hq _]. cbn [app]. destruct (success f a q) eqn:Sq.
      + destruct (B7 q Hq Sq) as (X & _). rewrite (ktimes_1_l _ L) in X. rewrite X. auto.
      + cbn [andb]. destruct (_ && _); auto. unfold apw. unfold success in Sq. cbn [mach mfin]. destruct (fin_of f (dst a q)); [discriminate|]. symmetry. apply (ktimes_0_r _ L).
  Qed.

  Lemma transducer_completes f a idem det : pushable min_push f a -> deterministic (mach f) -> final_no_eps f ->
    idempotent_plus K \/ (forall s, ~ on_cycle (mach f) s) -> no_endless_growth K \/ (forall s, ~ on_cycle (mach f) s) ->
    exists fuel0, forall fuel, (fuel0 <= fuel)%nat -> exists r, minimize_transducer rv rb wlt orc divide quant idem det fuel f = Some (Ok r).
  Proof.
    intros PU De NE IA NA. destruct (gallic_parts f a idem det PU De NE) as (A & T). destruct (T NA) as (f0 & R & E).
    destruct (A f0 R IA (E f0 (le_n _))) as (gf & D & g & b & d & psi & m & -> & MG).
    destruct MG as [M TF OK Dg Sz [R1 R2 R3 R4 R5 R6 R7 R8 R9 R10 R11]]. pose proof OK as (Cg & Sp & _ & _ & _ & _ & _ & (Bd & HB) & _).
    destruct (kept_total L g m Sp Cg R1 R5 (fun s Hs => proj1 (R7 s Hs)) R11 Bd HB) as (f1 & U).
    exists (Nat.max f0 f1). intros fuel H. unfold minimize_transducer. rewrite (E fuel ltac:(lia)). cbn [obind]. apply U. lia.
  Qed.

  (** ** What [minimize] does *)
  (** A deterministic machine that writes something other than what it reads. *)
  Definition transducer f : Prop := deterministic (mach f) /\ final_no_eps f /\ exists s t, In t (trs_of f s) /\ il t <> ol t.

  Lemma minimize_eq f a idem pathp rightp nondet : pushable min_push f a -> transducer f ->
    exists f1, vstates f1 = vstates f /\ vstart f1 = vstart f /\ visymt f1 = visymt f /\ vosymt f1 = vosymt f /\ pushable min_push f1 a /\
      forall fuel, minimize rv rb wlt orc divide quant idem pathp rightp nondet fuel f = minimize_transducer rv rb wlt orc divide quant idem true fuel f1.
  Proof.
    intros (C & Cn & B & Ea & NZ & SL & DV & LV) (De & NE & NA).
    destruct (C43_compute_and_update L f (mask [ACCEPTOR; I_DETERMINISTIC; WEIGHTED; UNWEIGHTED]) C) as (f1 & q & Ef & E1 & E2 & E3 & E4 & E5 & Q);
      [congruence|left; intros s w Hw; apply NZ in Hw; auto|auto|].
    assert (QA : has q ACCEPTOR = false).
    { destruct (has q ACCEPTOR) eqn:X; auto. apply Q in X as [_ X]. destruct NA as (s & t & Ht & N). destruct (N (X s t Ht)). }
    assert (QD : has q I_DETERMINISTIC = true) by (apply Q; split; [reflexivity|exact De]).
    exists f1. do 4 (split; auto). split; [|intros fuel; unfold minimize; rewrite Ef, QA, QD; auto].
    assert (M1 : mach f1 = mach f) by (unfold mach, trs_of, fin_of; rewrite E1, E2; auto).
    assert (T1 : forall s, trs_of f1 s = trs_of f s) by (intros s; unfold trs_of; rewrite E1; auto).
    assert (F1 : forall s, fin_of f1 s = fin_of f s) by (intros s; unfold fin_of; rewrite E1; auto).
    assert (N1 : num_states f1 = num_states f) by (unfold num_states; rewrite E1; auto).
    split; [split; [intros s t; rewrite T1, N1; apply C|intros s; rewrite N1, E2; apply C]|].
    split; [unfold cnt; rewrite E1; auto|]. split; [intros b Hb; rewrite M1, N1; auto|]. split; [congruence|].
    split; [split; [intros s t; rewrite T1; apply NZ|intros s w; rewrite F1; apply NZ]|].
    split; [intros s t; rewrite T1; apply SL|]. split; auto.
  Qed.

  (** Every successful path keeps what it reads, what it writes and its weight; it only gets longer. *)
  Theorem C58_minimize :
    forall f a idem pathp rightp nondet fuel r,
    pushable min_push f a -> transducer f -> idempotent_plus K \/ (forall s, ~ on_cycle (mach f) s) ->
    minimize rv rb wlt orc divide quant idem pathp rightp nondet fuel f = Some (Ok r) ->
    closed r /\ cnt r /\
    ((exists q, is_path (mach f) a q /\ success f a q = true) -> vstart r <> None /\ visymt r = visymt f /\ vosymt r = vosymt f) /\
    exists delay, forall k x y, rel (mach r) k x y = ksum (map (fun i => ksum (map (fun q =>
       if Nat.eqb (length q + delay q) k && reads x y q then apw (mach f) a q else 0) (paths (mach f) i a))) (seq 0 (S k))).
  Proof.
    intros f a idem pathp rightp nondet fuel r PU TR IA E.
    destruct (minimize_eq f a idem pathp rightp nondet PU TR) as (f1 & E1 & E2 & E3 & E4 & P1 & Em). rewrite Em in E. destruct TR as (De & NE & _).
    assert (M1 : mach f1 = mach f) by (unfold mach, trs_of, fin_of; rewrite E1, E2; auto).
    assert (NE1 : final_no_eps f1) by (intros s t; unfold fin_of, trs_of; rewrite E1; apply NE).
    destruct (transducer_parts f1 a idem true fuel r P1 ltac:(rewrite M1; auto) NE1 ltac:(rewrite M1; auto) E) as (A1 & A2 & A3 & A4).
    rewrite M1 in *. split; auto. split; auto. split; auto. intros (q & Hq & Sq). rewrite <- E3, <- E4. apply A3. exists q. split; auto.
    unfold success, fin_of in *. rewrite E1. auto.
  Qed.

  (** So what a pair of strings weighs in all is unchanged, where finitely many paths carry it. *)
  Theorem C58_totals :
    forall f a idem pathp rightp nondet fuel r x y n,
    pushable min_push f a -> transducer f -> idempotent_plus K \/ (forall s, ~ on_cycle (mach f) s) ->
    minimize rv rb wlt orc divide quant idem pathp rightp nondet fuel f = Some (Ok r) ->
    (forall q, is_path (mach f) a q -> success f a q = true -> reads x y q = true -> (length q <= n)%nat) ->
    exists m, forall j, (m <= j)%nat -> total_upto (mach r) x y j = total_upto (mach f) x y n.
  Proof.
    intros f a idem pathp rightp nondet fuel r x y n PU TR IA E FIN.
    destruct (C58_minimize f a idem pathp rightp nondet fuel r PU TR IA E) as (_ & _ & _ & delay & RE).
    apply (delayed_totals L f r a delay x y n); auto. apply PU.
  Qed.

  (** The run ends well as soon as the fuel is large enough. *)
  Theorem C58_completes :
    forall f a idem pathp rightp nondet,
    pushable min_push f a -> transducer f -> idempotent_plus K \/ (forall s, ~ on_cycle (mach f) s) ->
    no_endless_growth K \/ (forall s, ~ on_cycle (mach f) s) ->
    exists fuel0, forall fuel, (fuel0 <= fuel)%nat -> exists r, minimize rv rb wlt orc divide quant idem pathp rightp nondet fuel f = Some (Ok r).
  Proof.
    intros f a idem pathp rightp nondet PU TR IA NA.
    destruct (minimize_eq f a idem pathp rightp nondet PU TR) as (f1 & E1 & E2 & E3 & E4 & P1 & Em). pose proof TR as (De & NE & _).
    assert (M1 : mach f1 = mach f) by (unfold mach, trs_of, fin_of; rewrite E1, E2; auto).
    assert (NE1 : final_no_eps f1) by (intros s t; unfold fin_of, trs_of; rewrite E1; apply NE).
    destruct (transducer_completes f1 a idem true P1 ltac:(rewrite M1; auto) NE1 ltac:(rewrite M1; auto) ltac:(rewrite M1; auto)) as (f0 & U).
    exists f0. intros fuel H. rewrite Em. auto.
  Qed.

  (** The machine with labels in the weights that is turned back into a transducer at the end:
      deterministic, trim, at most one state more than the input. *)
  Theorem C58_states :
    forall f a idem det fuel m,
    pushable min_push f a -> transducer f -> idempotent_plus K \/ (forall s, ~ on_cycle (mach f) s) ->
    minimize_gallic rv rb wlt orc divide quant idem det fuel f = Some (Ok m) ->
    closed m /\ cnt m /\ (forall b, has (vprops m) b = true -> holds b (num_states m) (mach m)) /\ deterministic (mach m) /\ is_acceptor (mach m) /\
    (forall s, (s < num_states m)%nat -> accessible (mach m) s /\ coaccessible (mach m) s) /\
    (num_states m <= num_states f + 1)%nat.
  Proof.
    intros f a idem det fuel m PU (De & NE & _) IA E.
    destruct (proj1 (gallic_parts f a idem det PU De NE) fuel (Ok m) IA E) as (gf & D & g & b & d & psi & m' & X & MG). injection X as <-.
    destruct MG as [M TF OK Dg Sz [R1 R2 R3 R4 R5 R6 R7 R8 R9 R10 R11]]. do 6 (split; auto). lia.
  Qed.

  (** Acceptors are left to the minimization of acceptors (C45, C46); what is not deterministic is refused,
      unless sums are idempotent and the caller asks for it. *)
  Theorem C58_dispatch :
    forall f idem pathp rightp nondet fuel,
    closed f -> vstart f <> None -> no_zero_final f -> bits_true f ->
    (is_acceptor (mach f) -> minimize rv rb wlt orc divide quant idem pathp rightp nondet fuel f =
       minimize_acceptor rv wlt orc divide quant idem pathp rightp rb nondet fuel f) /\
    (~ deterministic (mach f) -> idem = false \/ nondet = false -> minimize rv rb wlt orc divide quant idem pathp rightp nondet fuel f = Some Err).
  Proof.
    intros f idem pathp rightp nondet fuel C V NZ B.
    destruct (C43_compute_and_update L f (mask [ACCEPTOR; I_DETERMINISTIC; WEIGHTED; UNWEIGHTED]) C V (or_introl NZ) B) as (f1 & q & Ef & _ & _ & _ & _ & _ & Q).
    unfold minimize. rewrite Ef. split.
    - intros A. assert (QA : has q ACCEPTOR = true) by (apply Q; split; [reflexivity|]; intros s t Ht; symmetry; apply (A s t Ht)).
      rewrite QA. unfold minimize_acceptor. rewrite Ef. destruct (negb (has q I_DETERMINISTIC) && (negb idem || negb nondet)); auto.
    - intros ND X. assert (QD : has q I_DETERMINISTIC = false).
      { destruct (has q I_DETERMINISTIC) eqn:Y; auto. apply Q in Y as [_ Y]. destruct (ND Y). }
      rewrite QD. destruct X as [-> | ->]; cbn; rewrite ?orb_true_r; auto.
  Qed.
End C58.
Print Assumptions C58_minimize.
Print Assumptions C58_totals.
Print Assumptions C58_completes.
Print Assumptions C58_states.
Print Assumptions C58_dispatch.

(** Min-plus over numbers again. Two branches that differ in where they write 7 and where they
    pay: pushed, states 1 and 2 are the same. A cycle behind them. *)
Local Close Scope K_scope.
Definition c58_ops : list (op tropN) :=
  [OAddStates 4; OSetStart 0; OAddTr 0 (t57 1 0 2 1); OAddTr 1 (t57 3 7 3 3); OAddTr 0 (t57 2 7 4 2); OAddTr 2 (t57 3 0 1 3);
   OAddTr 3 (t57 5 8 1 2); OAddTr 3 (t57 6 0 2 3); OSetFinal 3 (Some 5)].
Definition c58_f : vfst tropN := match run vnew c58_ops with Ok f => f | _ => vnew end.
Definition min58 (fuel : nat) (f : vfst tropN) : option (res (vfst tropN)) :=
  minimize (fun w : tropN => w) (fun w : tropN => w) C46.c46_wlt (fun n => n) tdiv (fun w : tropN => w) true true true false fuel f.
Definition out58 (ops : list (op tropN)) : vfst tropN :=
  match run vnew ops with Ok f => match min58 80 f with Some (Ok r) => r | _ => vnew end | _ => vnew end.

Lemma c58_pushable : pushable min_push c58_f 0 /\ transducer c58_f.
Proof.
  assert (E : run vnew c58_ops = Ok c58_f) by (vm_compute; reflexivity).
  assert (IN : forall P : nat -> tr tropN -> Prop, (forall s t, In (s, t) [(0, t57 1 0 2 1); (1, t57 3 7 3 3); (0, t57 2 7 4 2); (2, t57 3 0 1 3); (3, t57 5 8 1 2); (3, t57 6 0 2 3)] -> P s t) ->
     forall s t, In t (trs_of c58_f s) -> P s t).
  { intros P H s t Ht. apply H. do 4 (destruct s as [|s]; [vm_compute in Ht; repeat destruct Ht as [<-|Ht]; try destruct Ht; vm_compute; tauto|]).
    vm_compute in Ht. destruct s; destruct Ht. }
  split; [split; [|split; [|split; [|split; [|split; [|split; [|split]]]]]]|split; [|split]].
  - split; [|intros s H; vm_compute in H; injection H as <-; vm_compute; lia].
    apply (IN (fun s t => (ns t < num_states c58_f))). intros s t H. repeat destruct H as [H|H]; try (injection H as <- <-; vm_compute; lia). destruct H.
  - vm_compute. repeat constructor.
  - eapply (run_fsound tropN_laws); [apply fsound_new| |exact E]; vm_compute; tauto.
  - reflexivity.
  - split.
    + apply (IN (fun s t => wgt t <> @kzero tropN)). intros s t H. repeat destruct H as [H|H]; try (injection H as <- <-; discriminate). destruct H.
    + intros s w. do 4 (destruct s as [|s]; [vm_compute; congruence|]). vm_compute. destruct s; congruence.
  - intros s t Ht Hn. revert s t Ht Hn. apply (IN (fun s t => ns t = s -> ol t = 0 /\ _)). intros s t H Hn.
    assert (X : forall v w : tropN, (v + w * v)%K = v).
    { intros [v|] [w|]; cbn; auto. f_equal. lia. }
    repeat destruct H as [H|H]; try (injection H as <- <-; first [discriminate Hn|split; [reflexivity|intros v; apply X]]). destruct H.
  - left. reflexivity.
  - left. reflexivity.
  - intros [|[|[|[|[|s]]]]]; vm_compute; repeat constructor; simpl; intuition discriminate.
  - intros s t _ Ht. revert s t Ht. apply (IN (fun s t => il t <> 0)). intros s t H. repeat destruct H as [H|H]; try (injection H as <- <-; discriminate). destruct H.
  - exists 0, (t57 1 0 2 1). split; [vm_compute; tauto|discriminate].
Qed.

Example C58_witness :
  pushable min_push c58_f 0 /\ transducer c58_f /\ divides_exactly tdiv /\ no_endless_growth tropN /\ idempotent_plus tropN /\ tells_apart C46.c46_wlt /\
  on_cycle (mach c58_f) 3 /\
  (let r := out58 c58_ops in
   min58 80 c58_f = Some (Ok r) /\ num_states c58_f = 4 /\ num_states r = 3 /\
   rel (mach c58_f) 2 [1; 3] [7] = Some 10 /\ rel (mach r) 2 [1; 3] [7] = Some 10 /\
   rel (mach c58_f) 4 [2; 3; 5; 3] [7; 8] = Some 12 /\ rel (mach r) 4 [2; 3; 5; 3] [7; 8] = Some 12).
Proof.
  split; [apply c58_pushable|]. split; [apply c58_pushable|]. split; [apply C18_weights|]. split; [apply C16_growth|]. split; [apply C18_weights|].
  split; [repeat split|].
  split; [exists (t57 6 0 2 3); split; [vm_compute; tauto|constructor]|].
  cbv zeta; repeat (split; [vm_compute; reflexivity|]); vm_compute; reflexivity.
Qed.

(** Spreading long strings over transitions again can need more states than the input has. *)
Definition c58_grow : list (op tropN) :=
  [OAddStates 4; OSetStart 0; OAddTr 0 (t57 1 0 0 1); OAddTr 0 (t57 2 9 0 1); OAddTr 1 (t57 3 7 0 2); OAddTr 2 (t57 4 8 0 3); OSetFinal 3 (Some 0)].
Theorem C58_more_states_refuted :
  exists f r : vfst tropN, run vnew c58_grow = Ok f /\ transducer f /\ min58 80 f = Some (Ok r) /\ num_states f = 4 /\ num_states r = 6.
Proof.
  do 2 eexists. split; [vm_compute; reflexivity|]. split; [split; [|split]|].
  - intros [|[|[|[|[|s]]]]]; vm_compute; repeat constructor; simpl; intuition discriminate.
  - intros [|[|[|[|[|s]]]]] t; vm_compute; intuition (subst; discriminate).
  - exists 0, (t57 1 0 0 1). split; [vm_compute; tauto|discriminate].
  - split; [vm_compute; reflexivity|]. split; vm_compute; reflexivity.
Qed.
Print Assumptions C58_more_states_refuted.
