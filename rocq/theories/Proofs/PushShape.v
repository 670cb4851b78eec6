(** What weight pushing towards the start leaves of an acceptor, state by state. *)
From Coq Require Import List Arith NArith Bool Lia.
From Verif Require Import Base.Util Base.Semiring Base.Machine Base.PathSum Base.PropSpec
  Model.Props Model.VectorFst Model.Rational Model.ShortestDistance Model.Reweight
  Proofs.PropsFacts Proofs.VectorFacts Proofs.DelStates Proofs.VectorProps Proofs.TrOpsFacts Proofs.HistoryFacts
  Proofs.OpFacts Proofs.ConnectFacts Proofs.RationalFacts Proofs.SdFacts Proofs.ReverseDist Proofs.ReweightFacts
  Proofs.MinFacts Props.C01 Props.C06 Props.C16 Props.C18 Props.C38.
Import ListNotations.
Local Open Scope K_scope.

Section P.
  Context {K K' : SR} (L : sr_laws K) (LK' : sr_laws K').
  Variables (rv : K -> K') (rb : K' -> K).
  Hypothesis rv_0 : rv 0 = 0.
  Hypothesis rv_1 : rv 1 = 1.
  Hypothesis rv_plus : forall a b, rv (a + b) = rv a + rv b.
  Hypothesis rv_times : forall a b, rv (a * b) = rv b * rv a.
  Hypothesis rb_rv : forall a, rb (rv a) = a.
  Hypothesis rv_rb : forall a, rv (rb a) = a.
  Variable divide : K -> K -> divide_type -> res K.
  Hypothesis Dv : divides_exactly divide.
  Hypothesis Wd : weakly_divisible K.
  Hypothesis Zf : zero_sum_free K.
  Hypothesis Zd : no_zero_divisors K.
  Implicit Types (f g h : vfst K).

  (** Same transitions and final states, other weights. *)
  Definition same_shape f h : Prop := forall s,
    map (fun t => (il t, ol t, ns t)) (trs_of h s) = map (fun t => (il t, ol t, ns t)) (trs_of f s) /\ (fin_of h s = None <-> fin_of f s = None).

  Lemma shape_map {B} (F : nat * nat * nat -> B) f h s : same_shape f h ->
    map (fun t => F (il t, ol t, ns t)) (trs_of h s) = map (fun t => F (il t, ol t, ns t)) (trs_of f s).
  Proof. intros S. destruct (S s) as [S1 _]. apply (f_equal (map F)) in S1. rewrite !map_map in S1. exact S1. Qed.
  Lemma shape_in f h s t : same_shape f h -> In t (trs_of h s) -> exists t0, In t0 (trs_of f s) /\ il t0 = il t /\ ol t0 = ol t /\ ns t0 = ns t.
  Proof.
    intros S Ht. destruct (S s) as [S1 _]. apply (in_map (fun t => (il t, ol t, ns t))) in Ht. rewrite S1 in Ht. apply in_map_iff in Ht as (t0 & E & Ht0).
    injection E as E1 E2 E3. exists t0. auto.
  Qed.
  Lemma shape_sym f h : same_shape f h -> same_shape h f.
  Proof. intros S s. destruct (S s) as [A B]. split; auto. tauto. Qed.
  Lemma shape_trans f g h : same_shape f g -> same_shape g h -> same_shape f h.
  Proof. intros S1 S2 s. destruct (S1 s) as [A B], (S2 s) as [C D]. split; [congruence|tauto]. Qed.
  Lemma shape_det f h : same_shape f h -> deterministic (mach f) -> deterministic (mach h).
  Proof. intros S D s. cbn [mach mtrs]. pose proof (shape_map (fun x => fst (fst x)) f h s S) as E. cbn [fst] in E. change (map il (trs_of h s) = map il (trs_of f s)) in E. rewrite E. apply D. Qed.
  Lemma shape_acc f h : same_shape f h -> is_acceptor (mach f) -> is_acceptor (mach h).
  Proof. intros S A s t Ht. destruct (shape_in f h s t S Ht) as (t0 & H0 & E1 & E2 & _). rewrite <- E1, <- E2. apply (A s t0 H0). Qed.
  Lemma shape_reach f h a b : same_shape f h -> reach (mach h) a b -> reach (mach f) a b.
  Proof.
    intros S. induction 1 as [|s t u Ht R IH]; [constructor|]. destruct (shape_in f h s t S Ht) as (t0 & H0 & _ & _ & E3).
    apply (reach_step (mach f) s t0 u H0). rewrite E3. auto.
  Qed.

  Record pushed f (a : nat) (D : list K) h g : Prop := Pushed {
    pu_sums : forall s, (s < num_states f)%nat -> settles (fun k => back (mach f) k s) (nth s D 0);
    pu_shape : same_shape f h; pu_start : vstart h = Some a; pu_num : num_states h = num_states f; pu_closed : closed h;
    pu_spell : forall u s, (nth s D 0 = 0 -> spell (mach h) s u = 0 /\ spell (mach f) s u = 0) /\
                           (nth s D 0 <> 0 -> nth s D 0 * spell (mach h) s u = spell (mach f) s u);
    pu_wt : forall k s x y, (nth s D 0 = 0 -> wt (mach h) k s x y = 0 /\ wt (mach f) k s x y = 0) /\
                            (nth s D 0 <> 0 -> nth s D 0 * wt (mach h) k s x y = wt (mach f) k s x y);
    pu_back : forall k s, nth s D 0 <> 0 -> nth s D 0 * back (mach h) k s = back (mach f) k s;
    pu_trs : forall s t, In t (trs_of h s) -> (forall t, In t (trs_of f s) -> wgt t <> 0) -> wgt t <> 0;
    pu_fin : forall s w, fin_of h s = Some w -> (forall w, fin_of f s = Some w -> w <> 0) -> w <> 0;
    pu_top : (same_mach h g /\ (nth a D 0 = 1 \/ nth a D 0 = 0)) \/ (nth a D 0 <> 0 /\ started (nth a D 0) a h g) }.

  Lemma push_parts f a idem pathp fuel R : closed f -> bits_true f -> vstart f = Some a ->
    loops_idle f (fun _ => true) -> idempotent_plus K \/ (forall s, ~ on_cycle (mach f) s) ->
    push_weights divide idem pathp true rv rb fuel f ToInitial false = Some R ->
    exists g h D, R = Ok g /\ pushed f a D h g.
  Proof.
    intros C B Ea Li Hi E. unfold push_weights in E.
    destruct (shortest_distance idem pathp true rv rb fuel f true) as [R0|] eqn:E0; [|discriminate]. injection E as <-.
    assert (Ac : has (vprops f) ACYCLIC = true -> forall s, ~ on_cycle (mach f) s).
    { intros Hb. apply B in Hb. exact Hb. }
    destruct (C16_reverse L LK' rv rb rv_0 rv_1 rv_plus rv_times rb_rv rv_rb f idem pathp fuel R0 C Ac Li Hi E0) as (D & -> & Ln & Se & Eq).
    cbn [rbind]. pose proof Dv as [Dl Dr].
    assert (Hd : forall s, nth s D 0 <> 0 ->
       (forall w, fin_of f s = Some w -> exists c, nth s D 0 * c = w) /\
       (forall t, In t (trs_of f s) -> exists c, nth s D 0 * c = wgt t * nth (ns t) D 0)) by (intros s; apply (back_divides L Wd Zf Zd f D s); auto).
    assert (Hz : dead_out D f) by (intros s; apply (back_divides L Wd Zf Zd f D s); auto).
    assert (DL : divides_left divide D f).
    { split; intros; apply Dl; auto; eapply Hd; eauto. }
    destruct (reweight_all L divide D ToInitial f C B) as (h & g & Eg & Ef & Ch & T & F & Cg & Sg & Cn & I1 & I2 & Cs).
    { intros s t Ht N Nt. unfold new_weight. destruct (is_zero (pot D (ns t))) eqn:Z; [apply (is_zero_spec L) in Z; congruence|].
      destruct (proj1 DL s t Ht N Nt) as (c & -> & _). eauto. }
    { intros _ s w Hw N. destruct (proj2 DL s w Hw N) as (c & -> & _). eauto. }
    { intros b _ _ _. cbn. eauto. }
    exists g, h, D. split; auto.
    (* one transition after reweighting *)
    assert (NW : forall s t, In t (trs_of f s) -> pot D s <> 0 ->
      (pot D (ns t) = 0 /\ rewt (new_weight divide D ToInitial s) t = t) \/
      (pot D (ns t) <> 0 /\ exists c, rewt (new_weight divide D ToInitial s) t = set_wgt t c /\ pot D s * c = wgt t * pot D (ns t))).
    { intros s t Ht N. unfold rewt, new_weight. destruct (is_zero (pot D (ns t))) eqn:Z; [apply (is_zero_spec L) in Z; left; auto|].
      assert (N' : pot D (ns t) <> 0) by (intros X; apply (is_zero_spec L) in X; congruence). right. split; auto.
      destruct (proj1 DL s t Ht N N') as (c & -> & Hc). exists c. auto. }
    assert (NF : forall s, pot D s <> 0 -> match fin_of f s with None => fin_of h s = None | Some w => exists c, fin_of h s = Some c /\ pot D s * c = w end).
    { intros s N. rewrite F. unfold fin_after. destruct (is_zero (pot D s)) eqn:Z; [apply (is_zero_spec L) in Z; contradiction|].
      destruct (fin_of f s) as [w|] eqn:Ew; auto. destruct (proj2 DL s w Ew N) as (c & -> & Hc). eauto. }
    assert (DE : forall s, {pot D s = 0} + {pot D s <> 0}).
    { intros s. destruct (keqb (pot D s) 0) eqn:Z; [left; apply (keqb_true L)|right; apply (keqb_false L)]; auto. }
    assert (ZT : forall s, pot D s = 0 -> trs_of h s = trs_of f s /\ fin_of h s = fin_of f s).
    { intros s Z. rewrite T, F. unfold trs_after, fin_after. rewrite (proj2 (is_zero_spec L _) Z). auto. }
    assert (NT : forall s, pot D s <> 0 -> trs_of h s = map (rewt (new_weight divide D ToInitial s)) (trs_of f s)).
    { intros s N. rewrite T. unfold trs_after. destruct (is_zero (pot D s)) eqn:Z; [apply (is_zero_spec L) in Z; contradiction|auto]. }
    assert (RW : forall w (t : tr K), il (rewt w t) = il t /\ ol (rewt w t) = ol t /\ ns (rewt w t) = ns t) by (intros w t; unfold rewt; destruct (w t) as [[| |]|]; auto).
    split; auto.
    - intros s. destruct (DE s) as [Z|N].
      + destruct (ZT s Z) as [-> ->]. split; [auto|tauto].
      + rewrite (NT s N), map_map. split; [apply map_ext; intros t; destruct (RW (new_weight divide D ToInitial s) t) as (-> & -> & ->); auto|].
        specialize (NF s N). destruct (fin_of f s) as [v0|]; [destruct NF as (c & -> & _)|rewrite NF]; split; congruence.
    - destruct Ef as (_ & E2 & _). congruence.
    - apply Ef.
    - induction u as [|l u IH]; intros s; cbn [spell mach mfin mtrs]; split; intros N.
      + destruct (ZT s N) as [_ ->]. split; apply (Hz s N).
      + specialize (NF s N). destruct (fin_of f s) as [v0|]; [destruct NF as (c & -> & <-); auto|rewrite NF; apply (ktimes_0_r _ L)].
      + destruct (ZT s N) as [-> _]. assert (X : forall h', (forall q, pot D q = 0 -> spell (mach h') q u = 0) -> ksum (map (fun t => wgt t * spell (mach h') (ns t) u) (filter (fun t => il t =? l) (trs_of f s))) = 0).
        { intros h' H. apply (ksum_map_zero L). intros t Ht. apply filter_In in Ht as [Ht _]. destruct (proj2 (Hz s N) t Ht) as [-> |Z]; [apply (ktimes_0_l _ L)|].
          rewrite H by auto. apply (ktimes_0_r _ L). }
        split; apply X; intros q Z; apply (IH q); auto.
      + rewrite (NT s N), (ksum_times_l L), map_map. set (W := rewt (new_weight divide D ToInitial s)).
        assert (X : filter (fun t => il t =? l) (map W (trs_of f s)) = map W (filter (fun t => il t =? l) (trs_of f s))).
        { induction (trs_of f s) as [|t r IHr]; auto. cbn [map filter]. unfold W at 1. rewrite (proj1 (RW _ t)). destruct (il t =? l); cbn [map]; rewrite IHr; auto. }
        rewrite X, map_map. apply ksum_map_ext. intros t Ht. apply filter_In in Ht as [Ht _]. unfold W. rewrite (proj2 (proj2 (RW (new_weight divide D ToInitial s) t))).
        destruct (NW s t Ht N) as [[Z ->]|(N' & c & -> & Hc)].
        * destruct (proj1 (IH (ns t)) Z) as [-> ->]. rewrite !(ktimes_0_r _ L). auto.
        * cbn [set_wgt wgt]. change (nth s D 0) with (pot D s). rewrite (ktimes_assoc _ L), Hc, <- (ktimes_assoc _ L). f_equal. apply (IH (ns t)); auto.
    - apply (initial_wt L divide D f h); auto.
    - assert (BZ : forall h', (forall s, pot D s = 0 -> fw (fin_of h' s) = 0 /\ forall t, In t (trs_of h' s) -> wgt t = 0 \/ pot D (ns t) = 0) -> forall k s, pot D s = 0 -> back (mach h') k s = 0).
      { intros h' H. induction k as [|k IH]; intros s Z.
        - rewrite (back_0 L). apply (H s Z).
        - rewrite (back_S L). cbn [mach mfin mtrs]. rewrite (proj1 (H s Z)), (ksum_map_zero L); [apply (kplus_0_l _ L)|].
          intros t Ht. destruct (proj2 (H s Z) t Ht) as [-> |Z']; [apply (ktimes_0_l _ L)|]. rewrite IH by auto. apply (ktimes_0_r _ L). }
      assert (BF : forall k s, pot D s = 0 -> back (mach f) k s = 0) by (apply BZ; exact Hz).
      assert (BH : forall k s, pot D s = 0 -> back (mach h) k s = 0).
      { apply BZ. intros s Z. destruct (ZT s Z) as [-> ->]. apply (Hz s Z). }
      assert (FF : forall s, pot D s <> 0 -> pot D s * fw (fin_of h s) = fw (fin_of f s)).
      { intros s N. specialize (NF s N). destruct (fin_of f s) as [v0|]; [destruct NF as (c & -> & <-); auto|rewrite NF; apply (ktimes_0_r _ L)]. }
      induction k as [|k IH]; intros s N.
      + rewrite !(back_0 L). apply FF; auto.
      + rewrite !(back_S L), (kdistr_l _ L), (ksum_times_l L), map_map. cbn [mach mfin mtrs]. f_equal; [apply FF; auto|].
        rewrite (NT s N), map_map. apply ksum_map_ext. intros t Ht. rewrite (proj2 (proj2 (RW (new_weight divide D ToInitial s) t))).
        destruct (NW s t Ht N) as [[Z ->]|(N' & c & -> & Hc)].
        * rewrite BH, BF by auto. rewrite !(ktimes_0_r _ L). auto.
        * cbn [set_wgt wgt]. change (nth s D 0) with (pot D s). rewrite (ktimes_assoc _ L), Hc, <- (ktimes_assoc _ L). f_equal. apply IH; auto.
    - intros s t Ht H. destruct (DE s) as [Z|N]; [destruct (ZT s Z) as [X _]; rewrite X in Ht; auto|].
      rewrite (NT s N) in Ht. apply in_map_iff in Ht as (u & <- & Hu). destruct (NW s u Hu N) as [[Z ->]|(N' & c & -> & Hc)]; [auto|].
      cbn [set_wgt wgt]. intros ->. rewrite (ktimes_0_r _ L) in Hc. symmetry in Hc. apply Zd in Hc as [Hc|Hc]; [apply (H u Hu Hc)|contradiction].
    - intros s w Hw H. destruct (DE s) as [Z|N]; [destruct (ZT s Z) as [_ X]; rewrite X in Hw; auto|].
      specialize (NF s N). destruct (fin_of f s) as [v|] eqn:Ev; [|congruence]. destruct NF as (c & Ec & Hc). assert (w = c) by congruence. subst w.
      intros ->. rewrite (ktimes_0_r _ L) in Hc. apply (H v); auto.
    - destruct Cs as [[Ha Sm]|(b & c & Eb & N0 & N1 & Ec & St)]; [left; split; auto; apply (Ha a Ea)|].
      assert (b = a) by congruence. subst b. cbn in Ec. injection Ec as <-. right. auto.
  Qed.
End P.
