(** C46: minimization of deterministic weighted acceptors. *)
From Coq Require Import List Arith NArith ZArith Bool Lia.
From Verif Require Import Base.Util Base.Semiring Base.Machine Base.PathSum Base.PropSpec Base.Instances Base.TropZ
  Model.Props Model.VectorFst Model.TrOps Model.AlgoProps Model.History Model.Visitors Model.Relabel Model.Rational Model.ShortestPath Model.ShortestDistance
  Model.BiMap Model.TrMap Model.Encode Model.Weights Model.Partition Model.Reweight Model.ComputeProps Model.Minimize
  Proofs.PropsFacts Proofs.VectorFacts Proofs.DelStates Proofs.VectorProps Proofs.TrOpsFacts Proofs.HistoryFacts Proofs.ClosedB
  Proofs.OpFacts Proofs.ConnectFacts Proofs.RationalFacts Proofs.SdFacts Proofs.ReverseDist Proofs.ReweightFacts Proofs.MinFacts Proofs.SpellFacts
  Proofs.FinalEps Proofs.EncMin Proofs.PushShape Proofs.WMin
  Props.C01 Props.C06 Props.C16 Props.C18 Props.C30 Props.C31 Props.C38 Props.C43 Props.C45.
Import ListNotations.
Local Open Scope K_scope.

Section C46.
  Context {K K' : SR} (L : sr_laws K) (LK' : sr_laws K').
  Variables (rv : K -> K') (rb : K' -> K).
  Hypothesis rv_0 : rv 0 = 0.
  Hypothesis rv_1 : rv 1 = 1.
  Hypothesis rv_plus : forall a b, rv (a + b) = rv a + rv b.
  Hypothesis rv_times : forall a b, rv (a * b) = rv b * rv a.
  Hypothesis rb_rv : forall a, rb (rv a) = a.
  Hypothesis rv_rb : forall a, rv (rb a) = a.
  Variable divide : K -> K -> divide_type -> res K.
  Hypothesis Dv : divides_exactly divide.
  Hypothesis Wd : weakly_divisible K.
  Hypothesis Zf : zero_sum_free K.
  Hypothesis Zd : no_zero_divisors K.
  Variables (wlt : K -> K -> bool) (orc : nat -> nat) (quant : K -> K).
  Hypothesis W : tells_apart wlt.
  Hypothesis H01 : (kone : K) <> kzero.
  Hypothesis quant_id : forall w, quant w = w.
  Implicit Types (f g h r : vfst K).

  (** What a caller gets. *)
  Record minimized_weights f r : Prop := MinimizedWeights {
    mw_closed : closed r; mw_cnt : cnt r; mw_bits : forall b, has (vprops r) b = true -> holds b (num_states r) (mach r);
    mw_det : deterministic (mach r); mw_acc : is_acceptor (mach r);
    mw_rel : delayed (fun w => w) (mach f) (mach r);
    mw_trim : forall s, (s < num_states r)%nat -> accessible (mach r) s /\ coaccessible (mach r) s;
    mw_tabs : visymt r = visymt f /\ vosymt r = vosymt f;
    mw_size : (num_states r <= num_states f + 1)%nat }.

  (** The pushed machine. *)
  Lemma scaled_shape (c : K) a h g : vstart h = Some a -> trs_of g a = map (scale c) (trs_of h a) -> fin_of g a = option_map (ktimes c) (fin_of h a) ->
    (forall q, q <> a -> trs_of g q = trs_of h q) -> (forall q, q <> a -> fin_of g q = fin_of h q) -> same_shape h g.
  Proof.
    intros _ T F Tq Fq s. destruct (Nat.eq_dec s a) as [->|Ne]; [rewrite T, F|rewrite Tq, Fq by auto; split; auto; tauto].
    rewrite map_map. split; [auto|]. destruct (fin_of h a); cbn; split; congruence.
  Qed.
  Lemma shape_noeps f h : same_shape f h -> final_no_eps f -> final_no_eps h.
  Proof.
    intros S NE s t Hf Ht. destruct (shape_in f h s t S Ht) as (t0 & H0 & E1 & _). rewrite <- E1. apply (NE s t0); auto.
    intros X. apply Hf. apply (proj2 (S s)). auto.
  Qed.

  Lemma pushed_ok f a D h g : closed f -> is_acceptor (mach f) -> deterministic (mach f) -> final_no_eps f -> pushed f a D h g ->
    is_acceptor (mach g) /\ deterministic (mach g) /\ final_no_eps g /\ vstart g <> None /\ (num_states g <= num_states f + 1)%nat.
  Proof.
    intros C Ac De NE P. pose proof (pu_shape _ _ _ _ _ P) as Sh.
    pose proof (shape_acc f h Sh Ac) as Ah. pose proof (shape_det f h Sh De) as Dh. pose proof (shape_noeps f h Sh NE) as Nh. pose proof (pu_num _ _ _ _ _ P) as Nm.
    assert (S1 : forall g', same_shape h g' -> is_acceptor (mach g') /\ deterministic (mach g') /\ final_no_eps g').
    { intros g' S. split; [apply (shape_acc h); auto|]. split; [apply (shape_det h); auto|apply (shape_noeps h); auto]. }
    destruct (pu_top _ _ _ _ _ P) as [[(E1 & E2 & E3 & E4) _]|[_ [(E1 & E2 & _ & T & F & Tq & Fq)|(E1 & E2 & _ & T & F & Tq & Fq)]]].
    - destruct (S1 g) as (X1 & X2 & X3); [intros s; rewrite E3, E4; split; auto; tauto|].
      split; auto. split; auto. split; auto. split; [rewrite E1, (pu_start _ _ _ _ _ P); discriminate|lia].
    - destruct (S1 g) as (X1 & X2 & X3); [apply (scaled_shape (nth a D 0) a); auto; apply P|].
      split; auto. split; auto. split; auto. split; [congruence|lia].
    - set (n := num_states h) in *. split; [|split; [|split; [|split; [congruence|lia]]]].
      + intros s t Ht. cbn [mach mtrs] in Ht. destruct (Nat.eq_dec s n) as [->|Ne]; [rewrite T in Ht; destruct Ht as [<-|[]]; auto|rewrite Tq in Ht by auto; apply (Ah s t Ht)].
      + intros s. cbn [mach mtrs]. destruct (Nat.eq_dec s n) as [->|Ne]; [rewrite T; repeat constructor; auto|rewrite Tq by auto; apply Dh].
      + intros s t Hf Ht. destruct (Nat.eq_dec s n) as [->|Ne]; [congruence|]. rewrite Tq in Ht by auto. rewrite Fq in Hf by auto. apply (Nh s t); auto.
  Qed.

  (** Without cycles the factor goes to the transitions of the start state. *)
  Definition topped (c : K) a h g : Prop := c <> 0 /\ vstart g = Some a /\ num_states g = num_states h /\
    trs_of g a = map (scale c) (trs_of h a) /\ fin_of g a = option_map (ktimes c) (fin_of h a) /\
    (forall q, q <> a -> trs_of g q = trs_of h q) /\ (forall q, q <> a -> fin_of g q = fin_of h q).
  Lemma acyclic_top f a D h g : (forall s, ~ on_cycle (mach f) s) -> pushed f a D h g ->
    exists c, topped c a h g /\ ((nth a D 0 <> 0 /\ c = nth a D 0) \/ (nth a D 0 = 0 /\ c = 1)).
  Proof.
    intros Ac P. pose proof (pu_start _ _ _ _ _ P) as Ea.
    destruct (pu_top _ _ _ _ _ P) as [[(E1 & E2 & E3 & E4) E]|[NZ [(E1 & E2 & _ & T & F & Tq & Fq)|(_ & _ & X & _)]]].
    - exists 1. split; [|destruct E as [->|E]; auto]. split; auto. split; [congruence|]. split; auto. rewrite E3, E4. split; [|split; [|auto]].
      + rewrite <- (map_id (trs_of h a)) at 1. apply map_ext. intros []. unfold scale. cbn. rewrite (ktimes_1_l _ L). auto.
      + destruct (fin_of h a); cbn; auto. rewrite (ktimes_1_l _ L). auto.
    - exists (nth a D 0). split; auto. split; auto. split; auto.
    - exfalso. apply X. intros (t & Ht & R). pose proof (pu_shape _ _ _ _ _ P) as Sh. cbn [mach mtrs] in Ht.
      destruct (shape_in f h a t Sh Ht) as (t0 & H0 & _ & _ & E0). apply (Ac a). exists t0. split; auto. rewrite E0. apply (shape_reach f h); auto.
  Qed.
  Lemma topped_shape c a h g : topped c a h g -> vstart h = Some a -> same_shape h g.
  Proof. intros (_ & _ & _ & T & F & Tq & Fq) E. apply (scaled_shape c a); auto. Qed.
  (** States from which [a] cannot be reached are left alone. *)
  Lemma below_spell c a h g : topped c a h g -> forall u s, ~ reach (mach h) s a -> spell (mach g) s u = spell (mach h) s u.
  Proof.
    intros (_ & _ & _ & _ & _ & Tq & Fq). induction u as [|l u IH]; intros s N; (assert (Ne : s <> a) by (intros ->; apply N; constructor)); cbn [spell mach mtrs mfin].
    - rewrite Fq; auto.
    - rewrite Tq by auto. apply ksum_map_ext. intros t Ht. apply filter_In in Ht as [Ht _]. f_equal. apply IH. intros R. apply N. econstructor; eauto.
  Qed.
  Lemma below_back c a h g : topped c a h g -> forall k s, ~ reach (mach h) s a -> back (mach g) k s = back (mach h) k s.
  Proof.
    intros (_ & _ & _ & _ & _ & Tq & Fq). induction k as [|k IH]; intros s N; (assert (Ne : s <> a) by (intros ->; apply N; constructor)).
    - rewrite !(back_0 L). cbn [mach mfin]. rewrite Fq; auto.
    - rewrite !(back_S L). cbn [mach mtrs mfin]. rewrite Tq, Fq by auto. f_equal. apply ksum_map_ext. intros t Ht. f_equal. apply IH. intros R. apply N. econstructor; eauto.
  Qed.
  Lemma top_spell c a h g : topped c a h g -> ~ on_cycle (mach h) a -> forall u, spell (mach g) a u = c * spell (mach h) a u.
  Proof.
    intros Tp NC u. pose proof Tp as (_ & _ & _ & T & F & Tq & Fq). destruct u as [|l u]; cbn [spell mach mtrs mfin].
    - rewrite F. destruct (fin_of h a); cbn [option_map fw]; auto. symmetry. apply (ktimes_0_r _ L).
    - rewrite T, (ksum_times_l L), map_map.
      assert (X : forall l0 : list (tr K), filter (fun t => il t =? l) (map (scale c) l0) = map (scale c) (filter (fun t => il t =? l) l0)).
      { intros l0. induction l0 as [|t q IHr]; auto. cbn [map filter]. change (il (scale c t)) with (il t). destruct (il t =? l); cbn [map]; rewrite IHr; auto. }
      rewrite X, map_map. apply ksum_map_ext. intros t Ht. apply filter_In in Ht as [Ht _]. cbn [scale wgt ns]. rewrite (ktimes_assoc _ L). f_equal.
      apply (below_spell c a); auto. intros R. apply NC. exists t. auto.
  Qed.
  Lemma same_spell g x : (forall s, trs_of x s = trs_of g s) -> (forall s, fin_of x s = fin_of g s) -> forall u s, spell (mach x) s u = spell (mach g) s u.
  Proof.
    intros T F. induction u as [|l u IH]; intros s; cbn [spell mach mtrs mfin]; [rewrite F; auto|]. rewrite T. apply ksum_map_ext. intros t _. f_equal. apply IH.
  Qed.
  Lemma same_back g x : (forall s, trs_of x s = trs_of g s) -> (forall s, fin_of x s = fin_of g s) -> forall k s, back (mach x) k s = back (mach g) k s.
  Proof.
    intros T F. induction k as [|k IH]; intros s; [rewrite !(back_0 L)|rewrite !(back_S L)]; cbn [mach mtrs mfin]; rewrite ?T, F; auto.
    f_equal. apply ksum_map_ext. intros t _. f_equal. apply IH.
  Qed.
  Lemma reach_cycle (m : machine K) a p : reach m a p -> p <> a -> reach m p a -> on_cycle m a.
  Proof.
    intros R Ne R'. destruct R as [s|s t q Ht R]; [congruence|]. exists t. split; auto.
    apply (reach_trans _ _ _ _ R R').
  Qed.

  (** Distinct states of the result need distinct states of any other machine. *)
  Section Least.
    Hypothesis Comm : forall a b : K, a * b = b * a.
    Hypothesis Can : forall a b c : K, a <> 0 -> a * b = a * c -> b = c.
    Variables (f h g x e : vfst K) (a : nat) (D : list K) (c : K) (T : @etable K) (N : nat) (st : nat -> nat).
    Hypothesis Cf : closed f.
    Hypothesis Ea : vstart f = Some a.
    Hypothesis Df : deterministic (mach f).
    Hypothesis Ayf : forall s, ~ on_cycle (mach f) s.
    Hypothesis Zt : forall s t, In t (trs_of f s) -> wgt t <> 0.
    Hypothesis Zw : forall s w, fin_of f s = Some w -> w <> 0.
    Hypothesis P : pushed f a D h g.
    Hypothesis Tp : topped c a h g.
    Hypothesis Hc : (nth a D 0 <> 0 /\ c = nth a D 0) \/ (nth a D 0 = 0 /\ c = 1).
    Hypothesis Tx : forall s, trs_of x s = trs_of g s.
    Hypothesis Fx : forall s, fin_of x s = fin_of g s.
    Hypothesis Cx : closed x.
    Hypothesis Nx : num_states x = num_states g.
    Hypothesis Ax : is_acceptor (mach x).
    Hypothesis Dx : deterministic (mach x).
    Hypothesis EN : encoded x a e T.
    Hypothesis S1 : forall q, (q < N)%nat -> (st q < num_states x)%nat /\ reach (mach x) a (st q) /\ exists w, spell (mach e) (st q) w = 1.
    Hypothesis S2 : forall q q', (q < N)%nat -> (q' < N)%nat -> q <> q' -> exists w, spell (mach e) (st q) w <> spell (mach e) (st q') w.

    Let Sh := pu_shape _ _ _ _ _ P.
    Lemma reach_hf p q : reach (mach h) p q -> reach (mach f) p q.
    Proof. apply shape_reach; auto. Qed.
    Lemma reach_fh p q : reach (mach f) p q -> reach (mach h) p q.
    Proof. apply shape_reach, shape_sym; auto. Qed.
    Lemma shape_fg : same_shape f g.
    Proof. apply (shape_trans f h); auto. apply (topped_shape c a); auto. apply P. Qed.
    Lemma shape_fx : same_shape f x.
    Proof. intros s. rewrite Tx, Fx. apply shape_fg. Qed.
    Lemma h_top : ~ on_cycle (mach h) a.
    Proof. intros (t & Ht & R). destruct (shape_in f h a t Sh Ht) as (t0 & H0 & _ & _ & E0). apply (Ayf a). exists t0. split; auto. rewrite E0. apply reach_hf; auto. Qed.
    Lemma f_top u : spell (mach x) a u = spell (mach f) a u.
    Proof.
      rewrite (same_spell g x Tx Fx), (top_spell c a h g Tp h_top). destruct Hc as [[NZ ->]|[Z ->]].
      - apply (pu_spell _ _ _ _ _ P); auto.
      - destruct (proj1 (pu_spell _ _ _ _ _ P u a) Z) as [-> ->]. apply (ktimes_0_r _ L).
    Qed.
    Lemma h_low p u : ~ reach (mach f) p a -> spell (mach x) p u = spell (mach h) p u.
    Proof. intros R. rewrite (same_spell g x Tx Fx). apply (below_spell c a); auto. intros X. apply R, reach_hf; auto. Qed.
    Lemma b_low p k : ~ reach (mach f) p a -> back (mach x) k p = back (mach h) k p.
    Proof. intros R. rewrite (same_back g x Tx Fx). apply (below_back c a); auto. intros X. apply R, reach_hf; auto. Qed.
    Lemma h_one s : (s < num_states f)%nat -> nth s D 0 <> 0 -> settles (fun k => back (mach h) k s) 1.
    Proof.
      intros Hs NZ. destruct (pu_sums _ _ _ _ _ P s Hs) as (k & Hk). exists k. intros j Hj. apply (Can (nth s D 0)); auto.
      rewrite (pu_back _ _ _ _ _ P j s NZ), Hk, (ktimes_1_r _ L) by auto. auto.
    Qed.
    Lemma x_trs s t : In t (trs_of x s) -> wgt t <> 0.
    Proof.
      rewrite Tx. destruct Tp as (NC & _ & _ & Ta & _ & Tq & _). destruct (Nat.eq_dec s a) as [->|Ne].
      - rewrite Ta. intros Ht. apply in_map_iff in Ht as (u & <- & Hu). cbn [scale wgt]. intros X. apply Zd in X as [X|X]; auto.
        revert X. apply (pu_trs _ _ _ _ _ P a u Hu). intros; eapply Zt; eauto.
      - rewrite Tq by auto. intros Ht. apply (pu_trs _ _ _ _ _ P s t Ht). intros; eapply Zt; eauto.
    Qed.
    Lemma x_fin s w : fin_of x s = Some w -> w <> 0.
    Proof.
      rewrite Fx. destruct Tp as (NC & _ & _ & _ & Fa & _ & Fq). destruct (Nat.eq_dec s a) as [->|Ne].
      - rewrite Fa. destruct (fin_of h a) as [v|] eqn:Ev; [|discriminate]. intros X. cbn in X. injection X as <-. intros X. apply Zd in X as [X|X]; auto.
        revert X. apply (pu_fin _ _ _ _ _ P a v Ev). intros; eapply Zw; eauto.
      - rewrite Fq by auto. intros Ht. apply (pu_fin _ _ _ _ _ P s w Ht). intros; eapply Zw; eauto.
    Qed.
    Lemma num_xf : num_states x = num_states f.
    Proof. rewrite Nx, <- (pu_num _ _ _ _ _ P). apply Tp. Qed.
    Lemma st_reach q : (q < N)%nat -> reach (mach f) a (st q).
    Proof. intros Hq. apply (shape_reach f x); [apply shape_fx|]. apply S1; auto. Qed.
    Lemma st_low q : (q < N)%nat -> st q <> a -> ~ reach (mach f) (st q) a.
    Proof. intros Hq Ne R. apply (Ayf a). apply (reach_cycle _ a (st q)); auto. apply st_reach; auto. Qed.
    Lemma st_live q : (q < N)%nat -> exists z, spell (mach f) (st q) z <> 0 /\ (st q <> a -> nth (st q) D 0 <> 0).
    Proof.
      intros Hq. destruct (S1 q Hq) as (Hs & _ & w & Hw).
      destruct (live L H01 Zd x e T a Cx EN Dx x_trs x_fin w (st q) Hw ltac:(lia)) as (z & Hz). exists z.
      destruct (Nat.eq_dec (st q) a) as [E|Ne].
      - rewrite E in *. rewrite f_top in Hz. split; [auto|congruence].
      - rewrite h_low in Hz by (apply st_low; auto).
        assert (NZ : nth (st q) D 0 <> 0) by (intros Z; apply Hz; apply (proj1 (pu_spell _ _ _ _ _ P z (st q)) Z)).
        split; auto. rewrite <- (proj2 (pu_spell _ _ _ _ _ P z (st q)) NZ). intros X. apply Zd in X as [X|X]; auto.
    Qed.
    (** Proportional residuals of two such states make their codes equal. *)
    Lemma proportional q q' (X Y : K) : (q < N)%nat -> (q' < N)%nat -> st q <> a -> st q' <> a -> X <> 0 -> Y <> 0 ->
      (forall w, X * spell (mach f) (st q) w = Y * spell (mach f) (st q') w) -> q = q'.
    Proof.
      intros Hq Hq' Na Na' NX NY H. destruct (Nat.eq_dec q q') as [|Ne]; auto. exfalso. destruct (S2 q q' Hq Hq' Ne) as (w & Hw). apply Hw. clear Hw Ne.
      set (p := st q) in *. set (p' := st q') in *.
      destruct (st_live q Hq) as (_ & _ & Np). destruct (st_live q' Hq') as (_ & _ & Np'). specialize (Np Na). specialize (Np' Na'). fold p p' in Np, Np'.
      assert (Hp : (p < num_states x)%nat) by (apply S1; auto). assert (Hp' : (p' < num_states x)%nat) by (apply S1; auto). pose proof num_xf as NF.
      assert (Dh : deterministic (mach h)) by (apply (shape_det f); auto).
      assert (Hh : forall w, (X * nth p D 0) * spell (mach h) p w = (Y * nth p' D 0) * spell (mach h) p' w).
      { intros v. rewrite <- !(ktimes_assoc _ L). rewrite (proj2 (pu_spell _ _ _ _ _ P v p) Np), (proj2 (pu_spell _ _ _ _ _ P v p') Np'). apply H. }
      assert (Ed : X * nth p D 0 = Y * nth p' D 0).
      { destruct (h_one p ltac:(lia) Np) as (k & Hk), (h_one p' ltac:(lia) Np') as (k' & Hk').
        pose proof (scale_back L (mach h) (mach h) Dh Dh (Nat.max k k') p p' _ _ Hh) as S. rewrite Hk, Hk', !(ktimes_1_r _ L) in S by lia. auto. }
      assert (Lp : ~ reach (mach f) p a) by (apply st_low; auto). assert (Lp' : ~ reach (mach f) p' a) by (apply st_low; auto).
      apply (norm_codes L H01 Zd Can x e T a (fun s => ~ reach (mach f) s a) Cx EN Ax Dx x_trs x_fin); auto.
      - intros s t R Ht R'. destruct (shape_in f x s t shape_fx Ht) as (t0 & H0 & _ & _ & E0). apply R. apply (reach_step (mach f) s t0); auto. rewrite E0. auto.
      - intros s R Hs. destruct (keqb (nth s D 0) 0) eqn:Z; [apply (keqb_true L) in Z; right|apply (keqb_false L) in Z; left].
        + intros u. rewrite h_low by auto. apply (proj1 (pu_spell _ _ _ _ _ P u s) Z).
        + destruct (h_one s ltac:(lia) Z) as (k & Hk). exists k. intros j Hj. rewrite b_low by auto. auto.
      - intros u. rewrite !h_low by auto. apply (Can (X * nth p D 0)); [|rewrite Hh, Ed; auto]. intros Z. apply Zd in Z as [Z|Z]; auto.
    Qed.

    Lemma least (m : machine K) n : has_states m n -> deterministic m -> (forall u, spelled m u = spelled (mach f) u) -> (N <= n)%nat.
    Proof.
      intros [M1 M2] Dm Em.
      assert (Ef : forall u, spelled (mach f) u = spell (mach f) a u) by (intros u; unfold spelled; cbn [mach mstart]; rewrite Ea; auto).
      destruct (mstart m) as [r0|] eqn:E0.
      2: { destruct (Nat.eq_dec N O) as [Z0|Z0]; [lia|]. exfalso. destruct (st_live O ltac:(lia)) as (z & Hz & _).
           destruct (reach_letters L H01 Zd (mach f) Df Zt a (st O) (st_reach O ltac:(lia))) as (u & A & NA & Hu & _).
           specialize (Em (u ++ z)). rewrite Ef, Hu in Em. unfold spelled in Em. rewrite E0 in Em. symmetry in Em. apply Zd in Em as [|]; auto. }
      assert (Em' : forall u, spell m r0 u = spell (mach f) a u) by (intros u; rewrite <- Ef, <- Em; unfold spelled; rewrite E0; auto).
      apply (choose_injective (fun q (r : nat) => exists u (A B : K), A <> 0 /\ B <> 0 /\ (forall w, spell (mach f) a (u ++ w) = A * spell (mach f) (st q) w) /\
        (forall w, spell m r0 (u ++ w) = B * spell m r w) /\ (u = [] -> st q = a) /\ (st q = a -> u = [] /\ r = r0))).
      - intros q Hq. destruct (Nat.eq_dec (st q) a) as [Es|Ns].
        + exists r0. split; [auto|]. exists [], 1, 1. rewrite Es. split; auto. split; auto. split; [intros w; symmetry; apply (ktimes_1_l _ L)|].
          split; [intros w; symmetry; apply (ktimes_1_l _ L)|]. auto.
        + destruct (reach_letters L H01 Zd (mach f) Df Zt a (st q) (st_reach q Hq)) as (u & A & NA & Hu & Nu). destruct (st_live q Hq) as (z & Hz & _).
          assert (Nz : spell m r0 (u ++ z) <> 0). { rewrite Em', Hu. intros Z. apply Zd in Z as [|]; auto. }
          destruct (run_word L m Dm u z r0 Nz) as (B & r & HB & R). exists r. split.
          { assert (G : forall y y', reach m y y' -> (y < n)%nat -> (y' < n)%nat) by (induction 1; intros; eauto). apply (G r0 r R). auto. }
          exists u, A, B. split; auto. split; [|split; auto; split; auto; split; [auto|congruence]]. intros ->. apply Nz. rewrite HB. apply (ktimes_0_l _ L).
      - assert (Pump : forall q q' (r : nat), (q < N)%nat -> (q' < N)%nat -> st q = a -> st q' <> a ->
          (exists u (A B : K), A <> 0 /\ B <> 0 /\ (forall w, spell (mach f) a (u ++ w) = A * spell (mach f) (st q) w) /\
           (forall w, spell m r0 (u ++ w) = B * spell m r w) /\ (u = [] -> st q = a) /\ (st q = a -> u = [] /\ r = r0)) ->
          (exists u (A B : K), A <> 0 /\ B <> 0 /\ (forall w, spell (mach f) a (u ++ w) = A * spell (mach f) (st q') w) /\
           (forall w, spell m r0 (u ++ w) = B * spell m r w) /\ (u = [] -> st q' = a) /\ (st q' = a -> u = [] /\ r = r0)) -> False).
        { intros q q' r Hq Hq' Es Ns (u1 & A1 & B1 & _ & _ & _ & _ & _ & Hr) (u & A & B & NA & NB & HA & HB & Nu & _). destruct (Hr Es) as [_ ->].
          destruct (st_live q Hq) as (z & Hz & _). rewrite Es in Hz.
          assert (Hu : forall w, spell (mach f) a (u ++ w) = B * spell (mach f) a w) by (intros w; rewrite <- !Em'; apply HB).
          pose proof (pump Zd (spell (mach f) a) u B Hu NB z Hz (num_states f)) as Z.
          apply (long_zero L f a _ Cf Df Ayf (proj2 Cf a Ea)) in Z. rewrite app_length, pump_length in Z.
          destruct u as [|l u]; [apply Ns; auto|]. cbn [length] in Z. nia. }
        intros q q' r Hq Hq' R R'. destruct (Nat.eq_dec (st q) a) as [Es|Ns], (Nat.eq_dec (st q') a) as [Es'|Ns'].
        + destruct (Nat.eq_dec q q') as [|Ne]; auto. destruct (S2 q q' Hq Hq' Ne) as (w & Hw). rewrite Es, Es' in Hw. congruence.
        + exfalso. apply (Pump q q' r); auto.
        + exfalso. apply (Pump q' q r); auto.
        + destruct R as (u & A & B & NA & NB & HA & HB & _), R' as (u' & A' & B' & NA' & NB' & HA' & HB' & _).
          apply (proportional q q' (B' * A) (B * A')); auto; try (intros Z; apply Zd in Z as [|]; auto; fail).
          intros w. rewrite <- !(ktimes_assoc _ L), <- HA, <- HA', <- !Em', HB, HB', !(ktimes_assoc _ L), (Comm B' B). auto.
    Qed.
  End Least.

  Theorem C46_minimize_weighted idem pathp nondet fuel f out : closed f -> cnt f -> vstart f <> None ->
    (forall b, has (vprops f) b = true -> holds b (num_states f) (mach f)) ->
    is_acceptor (mach f) -> deterministic (mach f) -> final_no_eps f -> no_zero_final f -> holds WEIGHTED (num_states f) (mach f) ->
    loops_idle f (fun _ => true) -> idempotent_plus K \/ (forall s, ~ on_cycle (mach f) s) ->
    minimize_acceptor rv wlt orc divide quant idem pathp true rb nondet fuel f = Some out ->
    exists r, out = Ok r /\ minimized_weights f r /\
      ((forall s, ~ on_cycle (mach f) s) ->
       (forall k x y, rel (mach f) k x y = rel (mach r) k x y) /\ (num_states r <= num_states f)%nat /\
       (* no deterministic machine with the same weighted language has fewer states *)
       ((forall a b : K, a * b = b * a) -> (forall a b c : K, a <> 0 -> a * b = a * c -> b = c) ->
        (forall s t, In t (trs_of f s) -> wgt t <> 0) ->
        forall m n, has_states m n -> deterministic m -> (forall u, spelled m u = spelled (mach f) u) -> (num_states r <= n)%nat)).
  Proof.
    intros C N St So Ac De NE Zw We Li Hi E.
    destruct (vstart f) as [a|] eqn:Ea; [clear St|congruence].
    destruct (C43_compute_and_update L f (mask [ACCEPTOR; I_DETERMINISTIC; WEIGHTED; UNWEIGHTED]) C) as (f1 & q & Ef & E1 & E2 & E3 & E4 & E5 & Q);
      [congruence|auto|auto|]. unfold minimize_acceptor in E. rewrite Ef in E.
    assert (QA : has q ACCEPTOR = true).
    { apply Q. split; [reflexivity|]. intros s t Ht. symmetry. apply (Ac s t Ht). }
    assert (QD : has q I_DETERMINISTIC = true) by (apply Q; split; [reflexivity|exact De]).
    assert (QW : has q WEIGHTED = true) by (apply Q; split; [reflexivity|exact We]).
    rewrite QA, QD, QW in E. cbn [negb andb] in E.
    assert (M1 : mach f1 = mach f) by (unfold mach, trs_of, fin_of; rewrite E1, E2; auto).
    assert (T1 : forall s, trs_of f1 s = trs_of f s) by (intros s; unfold trs_of; rewrite E1; auto).
    assert (F1 : forall s, fin_of f1 s = fin_of f s) by (intros s; unfold fin_of; rewrite E1; auto).
    assert (N1 : num_states f1 = num_states f) by (unfold num_states; rewrite E1; auto).
    assert (C1 : closed f1). { split; [intros s t; rewrite T1, N1; apply C|intros s; rewrite N1, E2; apply C]. }
    assert (Cn : cnt f1) by (unfold cnt; rewrite E1; auto).
    assert (B1 : bits_true f1) by (intros b Hb; rewrite M1, N1; auto).
    assert (A1 : vstart f1 = Some a) by congruence.
    assert (Li1 : loops_idle f1 (fun _ => true)) by (intros s t; rewrite T1; apply Li).
    assert (Hi1 : idempotent_plus K \/ (forall s, ~ on_cycle (mach f1) s)) by (rewrite M1; auto).
    assert (NE1 : final_no_eps f1) by (intros s t; rewrite F1, T1; apply NE).
    destruct (push_weights divide idem pathp true rv rb fuel f1 ToInitial false) as [R|] eqn:Ep; [|discriminate]. injection E as <-.
    destruct (push_parts L LK' rv rb rv_0 rv_1 rv_plus rv_times rb_rv rv_rb divide Dv Wd Zf Zd f1 a idem pathp fuel R C1 B1 A1 Li1 Hi1 Ep) as (g & h & D & -> & P).
    destruct (C18_push_initial L LK' rv rb rv_0 rv_1 rv_plus rv_times rb_rv rv_rb divide Dv Wd Zf Zd f1 idem pathp fuel false (Ok g) C1 B1 Li1 Hi1 Ep)
      as (g' & Eg' & Dl & _ & _ & Cg & Bg & Ng & Y1 & Y2). injection Eg' as <-.
    specialize (Dl a (nth a D 0) A1 (pu_sums _ _ _ _ _ P a (proj2 C1 a A1))). cbn beta iota in Dl. specialize (Ng Cn).
    destruct (pushed_ok f1 a D h g C1) as (Ag & Dg & NEg & Vg & Szg); auto; try (rewrite M1; auto).
    destruct (vstart g) as [b|] eqn:Eb; [clear Vg|congruence].
    (* quantization does nothing *)
    destruct (C31_pure_mapper (quantize_mapper quant) (set_w quant) quant g Ng ltac:(congruence) (weight_pure quant _ g)) as (x & Ex & Mx & _).
    assert (Sx : fsound x) by (apply (C31_weight_bits (fun w => Ok (quant w)) g x tt Ng Bg ltac:(eauto) ltac:(eauto) Ex)).
    destruct Mx as (X1 & X2 & X3 & X4 & X5 & X6).
    assert (Tx : forall s, trs_of x s = trs_of g s).
    { intros s. rewrite (proj1 (X6 s)). rewrite <- (map_id (trs_of g s)) at 2. apply map_ext. intros []. unfold set_w. cbn. rewrite quant_id. auto. }
    assert (Fx : forall s, fin_of x s = fin_of g s).
    { intros s. rewrite (proj2 (X6 s)). destruct (fin_of g s); cbn; rewrite ?quant_id; auto. }
    cbn [rbind]. rewrite Ex. cbn [rbind fst].
    assert (Cx : closed x). { split; [intros s t; rewrite Tx, X2; apply Cg|intros s; rewrite X2, X3; apply Cg]. }
    assert (Ax : is_acceptor (mach x)) by (intros s t; cbn [mach mtrs]; rewrite Tx; apply Ag).
    assert (Dx : deterministic (mach x)) by (intros s; cbn [mach mtrs]; rewrite Tx; apply Dg).
    assert (NEx : final_no_eps x) by (intros s t; rewrite Fx, Tx; apply NEg).
    assert (Rx : forall k u v, rel (mach x) k u v = rel (mach g) k u v) by (apply same_rel; repeat split; auto; congruence).
    destruct (encmin_ok L LK' rv wlt orc W H01 x b true Cx X1 ltac:(congruence) Sx Ax Dx NEx) as (r & e & T & Er & Rd & EN & Mi).
    unfold encmin in Er. exists r. split; [exact Er|].
    assert (DR : delayed (fun w => w) (mach f) (mach r)).
    { rewrite <- M1. destruct Dl as [Dl|[D0 Dl]]; [left; intros; rewrite (rd_rel _ _ Rd), Rx; auto|right].
      split; [intros; rewrite (rd_rel _ _ Rd), Rx; auto|intros; rewrite (rd_rel _ _ Rd), Rx; auto]. }
    split.
    { split; try apply Rd; auto.
      - destruct (rd_tabs _ _ Rd) as [-> ->]. split; congruence.
      - pose proof (rd_size _ _ Rd) as Sz. lia. }
    intros Hc.
    rewrite <- M1 in Hc. destruct (acyclic_top f1 a D h g Hc P) as (c & Tp & Ec). pose proof Tp as (Nc & G1 & G2 & G3 & G4 & G5 & G6).
    assert (b = a) by congruence. subst b.
    assert (NCh : ~ on_cycle (mach h) a) by (apply (h_top f1 h g a D Hc P)).
    split; [|split].
    - intros k u v. rewrite (rd_rel _ _ Rd), Rx, <- M1, (start_scale L (mach h) (mach g) a c); auto; [|apply P].
      unfold rel. cbn [mach mstart]. rewrite A1, (pu_start _ _ _ _ _ P). destruct Ec as [[NZ ->]|[Z ->]].
      + symmetry. apply (pu_wt _ _ _ _ _ P); auto.
      + destruct (proj1 (pu_wt _ _ _ _ _ P k a u v) Z) as [X Y]. cbn [mach] in X, Y. rewrite X, Y. symmetry. apply (ktimes_0_r _ L).
    - pose proof (rd_size _ _ Rd) as Sz. rewrite X2, G2, (pu_num _ _ _ _ _ P) in Sz. lia.
    - intros Comm Can Zt m n Hm Dm Em.
      assert (Acx : forall s, ~ on_cycle (mach x) s).
      { intros s (t & Ht & R). pose proof (shape_fx f1 h g x a D c P Tp Tx Fx) as Sx'.
        destruct (shape_in f1 x s t Sx' Ht) as (t0 & H0 & _ & _ & E0). apply (Hc s). exists t0. split; auto. rewrite E0. apply (shape_reach f1 x); auto. }
      destruct (Mi eq_refl Acx) as (st & S1 & S2).
      apply (least Comm Can f1 h g x e a D c T (num_states r) st) with (m := m); auto; try (rewrite M1; auto).
      + intros s t. rewrite T1. apply Zt.
      + intros s w. rewrite F1. apply Zw.
  Qed.
End C46.

(** ** Concrete cases *)
Local Close Scope K_scope.
Definition c46_wlt (a b : tropN) : bool :=
  match a, b with Some x, Some y => x <? y | Some _, None => true | None, _ => false end.
Lemma c46_tells : tells_apart c46_wlt.
Proof. repeat split. Qed.
Definition c46_min (f : vfst tropN) : option (res (vfst tropN)) :=
  minimize_acceptor (K' := tropN) (fun w => w) c46_wlt (fun _ => O) tdiv (fun w => w) true true true (fun w => w) false 30 f.
Definition c46_get (o : option (res (vfst tropN))) : vfst tropN := match o with Some (Ok f) => f | _ => vnew end.
Definition c46_run (l : list (op tropN)) : vfst tropN := match run vnew l with Ok f => f | _ => vnew end.
Definition c46_t (a w q : nat) : tr tropN := @Tr tropN a a (Some w) q.

(** States 1 and 2 differ only by a factor; state 4 leads nowhere. *)
Definition c46_calls : list (op tropN) :=
  [OAddStates 5; OSetStart 0; OAddTr 0 (c46_t 1 1 1); OAddTr 0 (c46_t 2 1 2); OAddTr 1 (c46_t 3 2 3); OAddTr 2 (c46_t 3 5 3); OAddTr 2 (c46_t 4 5 4);
   @OSetFinal tropN 3 (Some 1)].
(** A final start state with a loop. *)
Definition c46_loop : list (op tropN) := [OAddStates 1; OSetStart 0; OAddTr 0 (c46_t 1 2 0); @OSetFinal tropN 0 (Some 3)].

Example C46_witness : let f := c46_run c46_calls in
  closed f /\ cnt f /\ vstart f <> None /\ (forall b, has (vprops f) b = true -> holds b (num_states f) (mach f)) /\
  is_acceptor (mach f) /\ deterministic (mach f) /\ final_no_eps f /\ no_zero_final f /\ holds WEIGHTED (num_states f) (mach f) /\
  loops_idle f (fun _ => true) /\ (forall s t, In t (trs_of f s) -> wgt t <> (0 : tropN)%K) /\
  let r := c46_get (c46_min f) in
  num_states f = 5 /\ num_states r = 3 /\ spelled (mach f) [2; 3] = Some 7 /\ spelled (mach r) [2; 3] = Some 7 /\ spelled (mach r) [1; 3] = Some 4.
Proof.
  cbv zeta. split; [apply closedb_ok; vm_compute; reflexivity|].
  split; [repeat constructor|]. split; [vm_compute; discriminate|].
  split; [refine (C01_property_bits_sound tropN tropN_laws _ _); refine (run_history c46_calls vnew _ h_new _ _); [repeat constructor|vm_compute; reflexivity]|].
  split; [intros [|[|[|[|[|[|s]]]]]]; vm_compute; intuition (subst; auto)|].
  split; [intros [|[|[|[|[|[|s]]]]]]; vm_compute; repeat constructor; simpl; intuition discriminate|].
  split; [intros [|[|[|[|[|[|s]]]]]] t; vm_compute; intuition (subst; try discriminate; try congruence)|].
  split; [intros [|[|[|[|[|[|s]]]]]] w; vm_compute; intros H; inversion H; subst; discriminate|].
  split; [left; exists 0, (c46_t 1 1 1); split; [left; reflexivity|intros [X|X]; discriminate X]|].
  split; [intros s t _ _ _; apply tropN_bounded|].
  split; [intros [|[|[|[|[|[|s]]]]]] t; vm_compute; intuition (subst; discriminate)|].
  vm_compute. repeat split.
Qed.

(** On a cycle the weight taken out of the start needs a new state: the result has more states than the input. *)
Theorem C46_more_states_refuted : exists f r, run vnew c46_loop = Ok f /\ closed f /\ is_acceptor (mach f) /\ deterministic (mach f) /\
  c46_min f = Some (Ok r) /\ num_states f = 1 /\ num_states r = 2.
Proof.
  exists (c46_run c46_loop), (c46_get (c46_min (c46_run c46_loop))).
  split; [vm_compute; reflexivity|]. split; [apply closedb_ok; vm_compute; reflexivity|].
  split; [intros [|[|s]]; vm_compute; intuition (subst; auto)|].
  split; [intros [|[|s]]; vm_compute; repeat constructor; simpl; intuition discriminate|].
  vm_compute. repeat split.
Qed.

(** Cyclic, no weight left to take out of the start, but transitions in different orders: states 1 and 2 stay apart. *)
Definition c46_order : list (op tropN) :=
  [OAddStates 3; OSetStart 0; OAddTr 0 (c46_t 1 2 1); OAddTr 0 (c46_t 2 0 2); OAddTr 1 (c46_t 1 4 1); OAddTr 1 (c46_t 2 3 2);
   OAddTr 2 (c46_t 2 3 2); OAddTr 2 (c46_t 1 4 2); @OSetFinal tropN 1 (Some 0); @OSetFinal tropN 2 (Some 0)].
Definition c46_two : machine tropN := Mach (Some 0)
  (fun s => match s with 0 => [c46_t 1 2 1; c46_t 2 0 1] | 1 => [c46_t 1 4 1; c46_t 2 3 1] | _ => [] end)
  (fun s => match s with 1 => Some (Some 0 : tropN) | _ => None end).
Theorem C46_unsorted_refuted : exists f r, run vnew c46_order = Ok f /\ closed f /\ is_acceptor (mach f) /\ deterministic (mach f) /\
  c46_min f = Some (Ok r) /\ num_states r = 3 /\ has_states c46_two 2 /\ deterministic c46_two /\
  forall u, spelled c46_two u = spelled (mach f) u.
Proof.
  exists (c46_run c46_order), (c46_get (c46_min (c46_run c46_order))).
  split; [vm_compute; reflexivity|]. split; [apply closedb_ok; vm_compute; reflexivity|].
  split; [intros [|[|[|[|s]]]]; vm_compute; intuition (subst; auto)|].
  split; [intros [|[|[|[|s]]]]; vm_compute; repeat constructor; simpl; intuition discriminate|].
  split; [vm_compute; reflexivity|]. split; [vm_compute; reflexivity|].
  split; [split; [intros [|[|s]] t; vm_compute; intuition (subst; auto)|intros s; vm_compute; intros [= <-]; auto]|].
  split; [intros [|[|s]]; vm_compute; repeat constructor; simpl; intuition discriminate|].
  assert (F0 : trs_of (c46_run c46_order) 0 = [c46_t 1 2 1; c46_t 2 0 2]) by reflexivity.
  assert (F1 : trs_of (c46_run c46_order) 1 = [c46_t 1 4 1; c46_t 2 3 2]) by reflexivity.
  assert (F2 : trs_of (c46_run c46_order) 2 = [c46_t 2 3 2; c46_t 1 4 2]) by reflexivity.
  assert (G0 : fin_of (c46_run c46_order) 0 = None) by reflexivity.
  assert (G1 : fin_of (c46_run c46_order) 1 = Some (Some 0 : tropN)) by reflexivity.
  assert (G2 : fin_of (c46_run c46_order) 2 = Some (Some 0 : tropN)) by reflexivity.
  assert (St : vstart (c46_run c46_order) = Some 0) by reflexivity.
  set (f := c46_run c46_order) in *. clearbody f.
  assert (X : forall u, spell c46_two 1 u = spell (mach f) 1 u /\ spell c46_two 1 u = spell (mach f) 2 u).
  { induction u as [|a u [IH1 IH2]]; cbn [spell c46_two mtrs mfin mach]; [rewrite G1, G2; auto|]. rewrite F1, F2. unfold c46_t. cbn [filter il].
    destruct (Nat.eqb_spec 1 a) as [<-|Na].
    - cbn [Nat.eqb map ksum wgt ns]. rewrite <- IH1, <- IH2. auto.
    - destruct (Nat.eqb 2 a); cbn [map ksum wgt ns]; rewrite <- ?IH1, <- ?IH2; auto. }
  intros u. unfold spelled. cbn [mach mstart c46_two]. rewrite St. destruct u as [|a u]; cbn [spell c46_two mtrs mfin mach]; [rewrite G0; auto|].
  rewrite F0. unfold c46_t. cbn [filter il]. destruct (X u) as [X1 X2].
  destruct (Nat.eqb_spec 1 a) as [<-|Na]; [cbn [Nat.eqb map ksum wgt ns]; rewrite <- X1; auto|].
  destruct (Nat.eqb 2 a); cbn [map ksum wgt ns]; rewrite <- ?X2; auto.
Qed.

Print Assumptions C46_minimize_weighted.
Print Assumptions C46_more_states_refuted.
Print Assumptions C46_unsorted_refuted.
