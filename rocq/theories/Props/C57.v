(** C57: pushing labels (and weights) towards the start keeps every successful path. *)
From Coq Require Import List Arith NArith ZArith Bool Lia.
From Verif Require Import Base.Util Base.Semiring Base.Machine Base.PathSum Base.PropSpec Base.Instances Base.TropZ Model.Props Model.AlgoProps Model.VectorFst Model.History
  Model.Rational Model.TrMap Model.Weights Model.FactorWeight Model.Queues Model.ShortestDistance Model.Reweight Model.LabelReach Model.Gallic.
From Verif Require Import Proofs.PropsFacts Proofs.VectorFacts Proofs.VectorProps Proofs.HistoryFacts Proofs.TrOpsFacts Proofs.OpFacts Proofs.ConnectFacts Proofs.RationalFacts
  Proofs.ReverseDist Proofs.ReweightFacts Proofs.LazyFacts Proofs.LabelFacts Proofs.GallicFacts Proofs.LabelPot Proofs.GallicPath Proofs.PushPath Proofs.LabelPush Proofs.PushLabels
  Props.C01 Props.C06 Props.C16 Props.C18 Props.C27 Props.C31 Props.C39 Props.C53.
Import ListNotations.
Local Open Scope K_scope.

(** [success f a q]: the path [q] from [a] ends in a final state ([Proofs/PushLabels.v]).
    [common f a z]: every successful path from [a] writes [z] first.
    [r] is [f] with the output [cs] and the weight [cv] taken away in front: a path of length [n] is
    matched by [n + delay] steps that read the same, write what follows [cs] and weigh what
    follows [cv]. *)
Definition stripped {K : SR} (f r : vfst K) (a : nat) (cs : list nat) (cv : K) : Prop :=
  exists delay val,
    (forall k x y, rel (mach r) k x y = ksum (map (fun i => ksum (map (fun q =>
       if success f a q && Nat.eqb (length q + delay q) k && reads x (cs ++ y) q then val q else 0) (paths (mach f) i a))) (seq 0 (S k)))) /\
    (forall q, is_path (mach f) a q -> success f a q = true -> cv * val q = apw (mach f) a q /\ exists z, (olabs q = cs ++ z)%list).

(** The weights of [x] against [y], all lengths up to [n]. *)
Definition total_upto {K : SR} (m : machine K) (x y : list nat) (n : nat) : K := ksum (map (fun k => rel m k x y) (seq 0 (S n))).

Section C57.
  Context {K K' : SR} (L : lsr_laws K) (L' : rsr_laws K').
  Variables (rv : K -> K') (rb : K' -> K).
  Hypothesis rv_0 : rv 0 = 0.
  Hypothesis rv_1 : rv 1 = 1.
  Hypothesis rv_plus : forall a b, rv (a + b) = rv a + rv b.
  Hypothesis rv_times : forall a b, rv (a * b) = rv b * rv a.
  Hypothesis rb_rv : forall a, rb (rv a) = a.
  Hypothesis rv_rb : forall a, rv (rb a) = a.
  Variable divide : K -> K -> Reweight.divide_type -> res K.
  Hypothesis Dv : divides_exactly divide.
  Hypothesis Wd : weakly_divisible K.
  Hypothesis Zf : zero_sum_free K.
  Hypothesis Zd : no_zero_divisors K.

  (** What is asked of the machine: no weight is zero, and a transition from a state to itself
      writes nothing and adds nothing. *)
  Definition pushable (p : push_type) (f : vfst K) (a : nat) : Prop :=
    closed f /\ cnt f /\ bits_true f /\ vstart f = Some a /\ no_zeros f /\
    (forall s t, In t (trs_of f s) -> ns t = s -> ol t = O /\ forall v : K, v + (if pt_weights p then wgt t else 1) * v = v) /\
    (pt_weights p = true \/ (1 + 1 : K) = 1 \/ forall v b : K, v <> 0 -> exists c, v * c = b) /\
    (pt_rm_affix p = pt_rm_total p \/ exists q, is_path (mach f) a q /\ success f a q = true).

  Lemma push_gallic_ok p f a idem : pushable p f a ->
    (forall fuel R, idempotent_plus K \/ (forall s, ~ on_cycle (mach f) s) ->
       push_gallic divide idem rv rb sl_plus sr_plus ToInitial p fuel f = Some R ->
       exists gf D g b d psi, R = Ok g /\ mapped gtr gfin f gf /\ two_facts p f a D /\ ok_result divide p f gf a D g b d psi) /\
    (no_endless_growth K \/ (forall s, ~ on_cycle (mach f) s) -> exists fuel0 R, forall fuel, (fuel0 <= fuel)%nat ->
       push_gallic divide idem rv rb sl_plus sr_plus ToInitial p fuel f = Some R).
  Proof.
    intros (C & Cn & B & Ea & NZ & SL & DV & LV).
    destruct (two_dist L L' rv rb rv_0 rv_1 rv_plus rv_times rb_rv rv_rb Zf Zd Wd p f a C Cn B Ea NZ SL DV) as (gf & Eg & M & Cg & Sg & DI & DS).
    unfold push_gallic. rewrite Eg. cbn [obind fst]. split.
    - intros fuel R IA E. match type of E with obind ?X _ = _ => destruct X as [R0|] eqn:E0 end; [|discriminate].
      destruct (DI idem fuel R0 IA E0) as (D & -> & TF). cbn [obind] in E. pose proof TF as (GD & _).
      assert (LV' : pt_rm_affix p = pt_rm_total p \/ pot D a <> (0 : gallicSR K)).
      { destruct LV as [X|(q & Hq & Sq)]; [left; auto|right; apply (good_live D f GD q a); auto]. }
      destruct (pushed_ok L divide Dv p f gf a D M Cg Sg Ea GD LV') as (g & b & d & psi & Ep & OK).
      exists gf, D, g, b, d, psi. split; [|auto]. cbn [to_initial compute_total_weight negb] in E.
      assert (Vg : vstart (K := gallicSR K) gf = Some a) by (transitivity (vstart f); [exact (proj1 (proj2 (proj2 M)))|exact Ea]). change (gallic_of sl_plus K) with (gallicSR K) in E. unfold compute_total_weight in E. rewrite ?Vg in E.
      destruct (pt_rm_affix p || pt_rm_total p); [|injection E as <-; exact Ep].
      change (gallic_of sl_plus K) with (gallicSR K) in *. destruct (reweight _ gf D ToInitial) as [h| |]; cbn [rbind obind] in Ep, E; congruence.
    - intros NA. destruct (DS idem NA) as (fuel0 & R & E). exists fuel0.
      match goal with |- exists R0, forall fuel, _ -> obind _ ?k = _ => assert (X : exists R0, obind (Some R) k = Some R0) end.
      { destruct R as [D| |]; cbn [obind]; eauto. destruct (pt_rm_affix p || pt_rm_total p); eauto. destruct (reweight _ _ _ _); cbn [obind]; eauto. }
      destruct X as (R0 & X). exists R0. intros fuel H. rewrite (E fuel H). exact X.
  Qed.

  Lemma removed_some p f a D : two_facts p f a D -> exists cs cv, removed p a D = ((Some cs, cv) : gallicSR K) /\
    (pt_rm_affix p = false -> cs = []) /\ (pt_rm_total p = false -> cv = 1) /\
    ((exists q, is_path (mach f) a q /\ success f a q = true) ->
       (pt_rm_affix p = true -> forall z, common f a z -> exists r, (cs = z ++ r)%list) /\
       (pt_rm_total p = true -> pt_weights p = true -> settles (fun k => back (mach f) k a) cv) /\
       (pt_weights p = false -> (1 + 1 : K) = 1 -> cv = 1)).
  Proof.
    intros (GD & T1 & T2 & T3). unfold removed. destruct (pot D a) as [[u|] v] eqn:E; cbn [fst snd].
    - unfold push_total. cbn [fst snd]. exists (if pt_rm_affix p then u else []), (if pt_rm_total p then v else 1). split; [destruct (pt_rm_affix p); auto|].
      split; [intros ->; auto|]. split; [intros ->; auto|]. intros (q & Hq & Sq). split; [|split].
      + intros -> z. apply (T1 a u v z). auto.
      + intros -> W. cbn [snd] in T2. auto.
      + intros W P. destruct (T3 W P) as [X|X]; cbn [snd] in X; [|destruct (pt_rm_total p); auto].
        destruct (gd_reg D f GD a) as [Z|(u' & v' & Z & N)]; rewrite Z in E; [discriminate|]. injection E as _ <-. contradiction.
    - exists [], 1. split; auto. split; auto. split; auto. intros (q & Hq & Sq). exfalso.
      destruct (gd_reg D f GD a) as [Z|(u' & v' & Z & N)]; [|congruence]. exact (good_live D f GD q a Hq Sq Z).
  Qed.

  (** The result, whichever of the options are set along with label pushing. *)
  Theorem C57_push_labels :
    forall p f a idem pathp fuel r,
    pt_labels p = true -> pushable p f a -> idempotent_plus K \/ (forall s, ~ on_cycle (mach f) s) ->
    push divide idem pathp rv rb ToInitial p fuel f = Some (Ok r) ->
    closed r /\ cnt r /\ vstart r <> None /\ visymt r = visymt f /\ vosymt r = vosymt f /\
    exists cs cv, stripped f r a cs cv /\
      (pt_rm_affix p = false -> cs = []) /\ (pt_rm_total p = false -> cv = 1) /\
      ((exists q, is_path (mach f) a q /\ success f a q = true) ->
         (pt_rm_affix p = true -> common f a cs /\ forall z, common f a z -> exists r, (cs = z ++ r)%list) /\
         (pt_rm_total p = true -> pt_weights p = true -> settles (fun k => back (mach f) k a) cv) /\
         (pt_weights p = false -> (1 + 1 : K) = 1 -> cv = 1)).
  Proof.
    intros p f a idem pathp fuel r EL PU IA. unfold push. rewrite EL. cbn [negb]. rewrite andb_false_r. unfold push_labels.
    match goal with |- obind ?X _ = _ -> _ => destruct X as [R|] eqn:E end; [|discriminate].
    destruct (proj1 (push_gallic_ok p f a idem PU) fuel R IA E) as (gf & D & g & b & d & psi & -> & M & TF & OK). cbn [obind]. intros U.
    destruct (removed_some p f a D TF) as (cs & cv & RE & A1 & A2 & A3).
    destruct (back_rel L divide p f gf a D M cs cv RE g b d psi OK fuel r U) as (B1 & B2 & B3 & B4 & B5 & delay & val & B6 & B7).
    do 5 (split; auto). exists cs, cv. split; [exists delay, val; auto|]. split; auto. split; auto. intros S. destruct (A3 S) as (X1 & X2 & X3).
    split; [|split; auto]. intros Y. split; auto. intros q Hq Sq. apply (B7 q Hq Sq).
  Qed.

  (** The labels are pushed: in the machine with labels in the weights, whatever leaves a state
      that can end has no common first label left, the start apart. *)
  Theorem C57_pushed :
    forall p f a idem fuel g s q,
    pushable p f a -> idempotent_plus K \/ (forall s, ~ on_cycle (mach f) s) ->
    push_gallic divide idem rv rb sl_plus sr_plus ToInitial p fuel f = Some (Ok g) ->
    vstart g <> Some s -> is_path (mach f) s q -> success f s q = true ->
    exists v, fw (fin_of g s) + ksum (map (@wgt _) (trs_of g s)) = ((Some [], v) : gallicSR K).
  Proof.
    intros p f a idem fuel g s q PU IA E Ns Hq Sq.
    destruct (proj1 (push_gallic_ok p f a idem PU) fuel (Ok g) IA E) as (gf & D & g' & b & d & psi & Eg & M & TF & OK). injection Eg as <-.
    destruct OK as (_ & _ & _ & _ & _ & Vg & _ & _ & TG). destruct TF as (GD & LONG & _).
    destruct (TG s) as (T & F); [intros X; apply Ns; rewrite X; exact Vg|]. change (gallic_of sl_plus K) with (gallicSR K). rewrite T, F.
    apply (pushed_strings L divide Dv D f gf M GD LONG s). apply (good_live D f GD q s Hq Sq).
  Qed.

  (** The run ends well as soon as the fuel is large enough. *)
  Theorem C57_completes :
    forall p f a idem pathp,
    pt_labels p = true -> pushable p f a -> idempotent_plus K \/ (forall s, ~ on_cycle (mach f) s) ->
    no_endless_growth K \/ (forall s, ~ on_cycle (mach f) s) ->
    exists fuel0, forall fuel, (fuel0 <= fuel)%nat -> exists r, push divide idem pathp rv rb ToInitial p fuel f = Some (Ok r).
  Proof.
    intros p f a idem pathp EL PU IA NA. destruct (push_gallic_ok p f a idem PU) as (A & T). destruct (T NA) as (f0 & R & E).
    destruct (A f0 R IA (E f0 (le_n _))) as (gf & D & g & b & d & psi & -> & M & TF & OK).
    pose proof OK as (Cg & Sp & _ & _ & _ & _ & _ & (Bd & HB) & _).
    destruct (ungallic_total L sl_plus (gallicSR_laws K L) g Bd Sp Cg HB) as (f1 & U).
    exists (Nat.max f0 f1). intros fuel H. unfold push. rewrite EL. cbn [negb]. rewrite andb_false_r. unfold push_labels.
    rewrite (E fuel ltac:(lia)). cbn [obind]. apply U. lia.
  Qed.

  (** Without removal every successful path keeps its weight; it only gets longer. *)
  Theorem C57_relation :
    forall p f a idem pathp fuel r,
    pt_labels p = true -> pt_rm_total p = false -> pt_rm_affix p = false -> pushable p f a ->
    idempotent_plus K \/ (forall s, ~ on_cycle (mach f) s) ->
    push divide idem pathp rv rb ToInitial p fuel f = Some (Ok r) ->
    exists delay, forall k x y, rel (mach r) k x y = ksum (map (fun i => ksum (map (fun q =>
       if Nat.eqb (length q + delay q) k && reads x y q then apw (mach f) a q else 0) (paths (mach f) i a))) (seq 0 (S k))).
  Proof.
    intros p f a idem pathp fuel r EL E1 E2 PU IA E.
    destruct (C57_push_labels p f a idem pathp fuel r EL PU IA E) as (_ & _ & _ & _ & _ & cs & cv & (delay & val & B6 & B7) & A1 & A2 & _).
    rewrite (A1 E2) in *. rewrite (A2 E1) in *. exists delay. intros k x y. rewrite B6. f_equal. apply map_ext. intros i. f_equal. apply map_ext_in. intros q Hq.
    apply paths_is_path in Hq as [Hq _]. cbn [app]. destruct (success f a q) eqn:Sq.
    - destruct (B7 q Hq Sq) as (X & _). rewrite (ktimes_1_l _ L) in X. rewrite X. auto.
    - cbn [andb]. destruct (_ && _); auto. unfold apw. unfold success in Sq. cbn [mach mfin]. destruct (fin_of f (dst a q)); [discriminate|]. symmetry. apply (ktimes_0_r _ L).
  Qed.

  (** So what a pair of strings weighs in all is unchanged, where finitely many paths carry it. *)
  Lemma delayed_totals (f r : vfst K) a delay x y n : vstart f = Some a ->
    (forall k x y, rel (mach r) k x y = ksum (map (fun i => ksum (map (fun q =>
       if Nat.eqb (length q + delay q) k && reads x y q then apw (mach f) a q else 0) (paths (mach f) i a))) (seq 0 (S k)))) ->
    (forall q, is_path (mach f) a q -> success f a q = true -> reads x y q = true -> (length q <= n)%nat) ->
    exists m, forall j, (m <= j)%nat -> total_upto (mach r) x y j = total_upto (mach f) x y n.
  Proof.
    intros Ea RE FIN.
    set (F := fun q => if reads x y q then apw (mach f) a q else 0).
    set (size := fun q => (length q + delay q)%nat).
    pose (m := list_max (map size (flat_map (fun i => paths (mach f) i a) (seq 0 (S n))))).
    assert (SZ : forall i q, (i <= n)%nat -> In q (paths (mach f) i a) -> (size q <= m)%nat).
    { intros i q Hi Hq. pose proof (proj1 (list_max_le (map size (flat_map (fun i => paths (mach f) i a) (seq 0 (S n)))) _) (le_n _)) as A.
      rewrite Forall_map, Forall_forall in A. apply A. apply in_flat_map. exists i. split; auto. apply in_seq. lia. }
    assert (HI : forall i q, In q (paths (mach f) i a) -> (n < i)%nat -> F q = 0).
    { intros i q Hq Hi. apply paths_is_path in Hq as [Hq Hl]. unfold F. destruct (reads x y q) eqn:Rq; auto. unfold apw. cbn [mach mfin].
      destruct (fin_of f (dst a q)) as [w|] eqn:Ew; [|apply (ktimes_0_r _ L)]. specialize (FIN q Hq). unfold success in FIN. rewrite Ew in FIN. specialize (FIN eq_refl Rq). lia. }
    assert (RF : total_upto (mach f) x y n = ksum (map (fun i => ksum (map F (paths (mach f) i a))) (seq 0 (S n)))).
    { unfold total_upto. f_equal. apply map_ext. intros i. unfold rel. cbn [mach mstart]. rewrite Ea. fold (mach f). rewrite (wt_psum L). auto. }
    exists (Nat.max m n). intros j Hj. rewrite RF. unfold total_upto.
    (* exchange the sums *)
    assert (X1 : forall k, (k <= j)%nat -> rel (mach r) k x y =
      ksum (map (fun i => ksum (map (fun q => if Nat.eqb (size q) k then F q else 0) (paths (mach f) i a))) (seq 0 (S j)))).
    { intros k Hk. rewrite RE. replace (S j) with (S k + (j - k))%nat by lia. rewrite seq_app, map_app, (ksum_app L).
      match goal with |- _ = _ + ?B => assert (Z : B = 0) end.
      { apply (ksum_map_zero L). intros i Hi. apply in_seq in Hi. apply (ksum_map_zero L). intros q Hq. apply paths_is_path in Hq as [_ Hq].
        destruct (Nat.eqb_spec (size q) k); auto. unfold size in *. lia. }
      rewrite Z, (kplus_0_r L). f_equal. apply map_ext. intros i. f_equal. apply map_ext. intros q. unfold F, size. destruct (Nat.eqb _ k); auto. }
    transitivity (ksum (map (fun k => ksum (map (fun i => ksum (map (fun q => if Nat.eqb (size q) k then F q else 0) (paths (mach f) i a))) (seq 0 (S j)))) (seq 0 (S j)))).
    { f_equal. apply map_ext_in. intros k Hk. apply in_seq in Hk. apply X1. lia. }
    rewrite (ksum_swap L).
    transitivity (ksum (map (fun i => ksum (map F (paths (mach f) i a))) (seq 0 (S j)))).
    2: { replace (S j) with (S n + (j - n))%nat by lia. rewrite seq_app, map_app, (ksum_app L).
      match goal with |- _ + ?B = _ => assert (Z : B = 0) end.
      { apply (ksum_map_zero L). intros i Hi. apply in_seq in Hi. apply (ksum_map_zero L). intros q Hq. apply (HI i); auto. lia. }
      rewrite Z. apply (kplus_0_r L). }
    f_equal. apply map_ext_in. intros i Hi. rewrite (ksum_swap L). f_equal. apply map_ext_in. intros q Hq.
    destruct (Nat.le_gt_cases i n) as [Hn|Hn].
    - pose proof (SZ i q Hn Hq) as Sq. transitivity (ksum (map (fun k => if Nat.eqb k (size q) then F q else 0) (seq 0 (S j)))).
      { f_equal. apply map_ext. intros k. rewrite Nat.eqb_sym. auto. }
      replace (S j) with (size q + S (j - size q))%nat by lia. rewrite seq_app, map_app, (ksum_app L). cbn [seq map ksum Nat.add]. rewrite Nat.eqb_refl.
      assert (Z1 : ksum (map (fun k => if Nat.eqb k (size q) then F q else 0) (seq 0 (size q))) = 0).
      { apply (ksum_map_zero L). intros k Hk. apply in_seq in Hk. destruct (Nat.eqb_spec k (size q)); auto. lia. }
      assert (Z2 : ksum (map (fun k => if Nat.eqb k (size q) then F q else 0) (seq (S (size q)) (j - size q))) = 0).
      { apply (ksum_map_zero L). intros k Hk. apply in_seq in Hk. destruct (Nat.eqb_spec k (size q)); auto. lia. }
      rewrite Z1, Z2, (kplus_0_l _ L), (kplus_0_r L). auto.
    - rewrite (HI i q Hq Hn). apply (ksum_map_zero L). intros k _. destruct (Nat.eqb _ _); auto.
  Qed.

  Theorem C57_totals :
    forall p f a idem pathp fuel r x y n,
    pt_labels p = true -> pt_rm_total p = false -> pt_rm_affix p = false -> pushable p f a ->
    idempotent_plus K \/ (forall s, ~ on_cycle (mach f) s) ->
    push divide idem pathp rv rb ToInitial p fuel f = Some (Ok r) ->
    (forall q, is_path (mach f) a q -> success f a q = true -> reads x y q = true -> (length q <= n)%nat) ->
    exists m, forall j, (m <= j)%nat -> total_upto (mach r) x y j = total_upto (mach f) x y n.
  Proof.
    intros p f a idem pathp fuel r x y n EL E1 E2 PU IA E FIN.
    destruct (C57_relation p f a idem pathp fuel r EL E1 E2 PU IA E) as (delay & RE).
    apply (delayed_totals f r a delay x y n); auto. apply PU.
  Qed.

  (** Neither labels nor weights: a copy. Weights only: weight pushing of the copy. *)
  Theorem C57_other_modes :
    forall p f rt idem pathp fuel, vstart f <> None -> pt_labels p = false ->
    exists o, same_content f o /\ cnt o /\ (bits_true f -> bits_true o) /\
      push divide idem pathp rv rb rt p fuel f =
        if pt_weights p then push_weights divide idem pathp true rv rb fuel o rt (pt_rm_total p) else Some (Ok o).
  Proof.
    intros p f rt idem pathp fuel V E. destruct (convert_ok L f V) as (o & Eo & N & S & I1 & I2 & T & F & C & B). exists o.
    split; [unfold same_content; auto 10|]. split; auto. split; [exact B|]. unfold push. rewrite E. cbn [negb]. rewrite andb_true_r, Eo. destruct (pt_weights p); auto.
  Qed.
End C57.
Print Assumptions C57_push_labels.
Print Assumptions C57_pushed.
Print Assumptions C57_completes.
Print Assumptions C57_relation.
Print Assumptions C57_totals.
Print Assumptions C57_other_modes.

(** Min-plus over numbers meets every hypothesis on the weights ([C18_weights], [C16_growth]).
    Two ways out of the start, both write nothing and then 7; a cycle behind them. *)
Local Close Scope K_scope.
Definition t57 (i o w n : nat) : tr tropN := Tr (W := tropN) i o (Some w) n.
Definition c57_ops : list (op tropN) :=
  [OAddStates 4; OSetStart 0; OAddTr 0 (t57 1 0 2 1); OAddTr 1 (t57 2 7 3 2); OAddTr 0 (t57 2 0 1 3); OAddTr 3 (t57 3 7 4 2);
   OAddTr 2 (t57 5 8 1 3); OAddTr 2 (t57 6 0 2 2); OSetFinal 2 (Some 5)].
Definition c57_f : vfst tropN := match run vnew c57_ops with Ok f => f | _ => vnew end.
Definition push57 (p : push_type) (fuel : nat) (f : vfst tropN) : option (res (vfst tropN)) :=
  push tdiv true true (fun w : tropN => w) (fun w : tropN => w) ToInitial p fuel f.
Definition out57 (p : push_type) (ops : list (op tropN)) : vfst tropN :=
  match run vnew ops with Ok f => match push57 p 60 f with Some (Ok r) => r | _ => vnew end | _ => vnew end.

Lemma c57_pushable (p : push_type) : pushable p c57_f 0.
Proof.
  assert (E : run vnew c57_ops = Ok c57_f) by (vm_compute; reflexivity).
  assert (IN : forall P : nat -> tr tropN -> Prop, (forall s t, In (s, t) [(0, t57 1 0 2 1); (0, t57 2 0 1 3); (1, t57 2 7 3 2); (2, t57 5 8 1 3); (2, t57 6 0 2 2); (3, t57 3 7 4 2)] -> P s t) ->
     forall s t, In t (trs_of c57_f s) -> P s t).
  { intros P H s t Ht. apply H. do 4 (destruct s as [|s]; [vm_compute in Ht; repeat destruct Ht as [<-|Ht]; try destruct Ht; vm_compute; tauto|]).
    vm_compute in Ht. destruct s; destruct Ht. }
  split; [|split; [|split; [|split; [|split; [|split; [|split]]]]]].
  - split; [|intros s H; vm_compute in H; injection H as <-; vm_compute; lia].
    apply (IN (fun s t => (ns t < num_states c57_f))). intros s t H. repeat destruct H as [H|H]; try (injection H as <- <-; vm_compute; lia). destruct H.
  - vm_compute. repeat constructor.
  - eapply (run_fsound tropN_laws); [apply fsound_new| |exact E]; vm_compute; tauto.
  - reflexivity.
  - split.
    + apply (IN (fun s t => wgt t <> @kzero tropN)). intros s t H. repeat destruct H as [H|H]; try (injection H as <- <-; discriminate). destruct H.
    + intros s w. do 4 (destruct s as [|s]; [vm_compute; congruence|]). vm_compute. destruct s; congruence.
  - intros s t Ht Hn. revert s t Ht Hn. apply (IN (fun s t => ns t = s -> ol t = 0 /\ _)). intros s t H Hn.
    assert (X : forall v w : tropN, (v + w * v)%K = v).
    { intros [v|] [w|]; cbn; auto. f_equal. lia. }
    repeat destruct H as [H|H]; try (injection H as <- <-; first [discriminate Hn|split; [reflexivity|intros v; apply X]]). destruct H.
  - right. left. reflexivity.
  - right. exists [t57 1 0 2 1; t57 2 7 3 2]. split; [vm_compute; tauto|reflexivity].
Qed.

Example C57_witness :
  (forall p, pushable p c57_f 0) /\ divides_exactly tdiv /\ no_endless_growth tropN /\ idempotent_plus tropN /\ on_cycle (mach c57_f) 2 /\
  (let r := out57 (PT true true false false) c57_ops in
   push57 (PT true true false false) 60 c57_f = Some (Ok r) /\
   map (fun t => (il t, ol t, wgt t)) (trs_of r 0) = [(1, 7, Some 10); (2, 7, Some 10)] /\
   rel (mach c57_f) 2 [1; 2] [7] = Some 10 /\ rel (mach r) 2 [1; 2] [7] = Some 10 /\
   rel (mach c57_f) 4 [1; 2; 5; 3] [7; 8; 7] = Some 15 /\ rel (mach r) 4 [1; 2; 5; 3] [7; 8; 7] = Some 15) /\
  (let r := out57 (PT true true true true) c57_ops in
   push57 (PT true true true true) 60 c57_f = Some (Ok r) /\
   rel (mach r) 2 [1; 2] [] = Some 0 /\ rel (mach r) 4 [1; 2; 5; 3] [8; 7] = Some 5) /\
  (let r := out57 (PT false true false true) c57_ops in
   push57 (PT false true false true) 60 c57_f = Some (Ok r) /\ rel (mach r) 4 [1; 2; 5; 3] [8; 7] = Some 15).
Proof.
  split; [exact c57_pushable|]. split; [apply C18_weights|]. split; [apply C16_growth|]. split; [apply C18_weights|].
  split; [exists (t57 6 0 2 2); split; [vm_compute; tauto|constructor]|].
  split; [|split]; cbv zeta; repeat (split; [vm_compute; reflexivity|]); vm_compute; reflexivity.
Qed.

(** A self-loop that writes is not harmless: here state 4 is left with a stale distance (7 9 instead
    of 7), and what the machine writes for 5 4 2 3 changes from 7 8 to 7 9 8. *)
Definition c57_loop : list (op tropN) :=
  [OAddStates 7; OSetStart 4; OAddTr 0 (t57 1 7 0 0); OAddTr 0 (t57 2 7 0 1); OAddTr 1 (t57 3 8 0 2); OSetFinal 2 (Some 0);
   OAddTr 3 (t57 4 0 0 0); OAddTr 3 (t57 8 7 0 5); OAddTr 5 (t57 9 9 0 2); OAddTr 4 (t57 5 0 0 3); OAddTr 0 (t57 6 7 0 6); OAddTr 6 (t57 7 8 0 3)].
Theorem C57_self_loop_refuted :
  exists f r : vfst tropN, run vnew c57_loop = Ok f /\ push57 (PT true true false false) 60 f = Some (Ok r) /\
    rel (mach f) 4 [5; 4; 2; 3] [7; 8] = Some 0 /\ (forall k, k < 12 -> rel (mach r) k [5; 4; 2; 3] [7; 8] = None) /\
    rel (mach r) 4 [5; 4; 2; 3] [7; 9; 8] = Some 0 /\ (forall k, k < 12 -> rel (mach f) k [5; 4; 2; 3] [7; 9; 8] = None).
Proof.
  do 2 eexists. split; [vm_compute; reflexivity|]. split; [vm_compute; reflexivity|]. split; [vm_compute; reflexivity|]. split.
  - intros k Hk. do 12 (destruct k as [|k]; [vm_compute; reflexivity|]). lia.
  - split; [vm_compute; reflexivity|]. intros k Hk. do 12 (destruct k as [|k]; [vm_compute; reflexivity|]). lia.
Qed.

(** With no successful path, removing the common affix alone panics and removing the total weight
    alone is an error; with both options, or none, the machine is given back. *)
Definition c57_dead : list (op tropN) := [OAddStates 2; OSetStart 0; OAddTr 0 (t57 1 7 0 1)].
Theorem C57_no_path_refuted :
  exists f : vfst tropN, run vnew c57_dead = Ok f /\ vstart f = Some 0 /\ push57 (PT true true false true) 60 f = Some Panic /\ push57 (PT true true true false) 60 f = Some Err /\
    exists r, push57 (PT true true true true) 60 f = Some (Ok r) /\ num_states r = 2.
Proof. eexists. repeat (split; [vm_compute; reflexivity|]). eexists. split; vm_compute; reflexivity. Qed.
Print Assumptions C57_self_loop_refuted.
Print Assumptions C57_no_path_refuted.
