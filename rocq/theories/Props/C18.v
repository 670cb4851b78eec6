(** C18: reweighting by potentials and pushing weights keep the relation. *)
From Coq Require Import List Arith NArith ZArith Bool Lia Permutation.
From Verif Require Import Base.Util Base.Semiring Base.Machine Base.PathSum Base.PropSpec Base.Instances Base.TropZ
  Model.Props Model.VectorFst Model.TrOps Model.AlgoProps Model.History Model.Dfs Model.Visitors Model.ComputeProps Model.Rational
  Model.Queues Model.ShortestDistance Model.Reweight
  Proofs.PropsFacts Proofs.VectorFacts Proofs.DelStates Proofs.VectorProps Proofs.TrOpsFacts Proofs.HistoryFacts
  Proofs.OpFacts Proofs.ConnectFacts Proofs.RationalFacts Proofs.SdFacts Proofs.ReverseDist Proofs.ReweightFacts
  Props.C01 Props.C43 Props.C06 Props.C16.
Import ListNotations.
Local Open Scope K_scope.

(** The first machine computes [G] of what the second computes, path length by path length; the
    second may have one more epsilon transition in front. *)
Definition delayed {K : SR} (G : K -> K) (m1 m2 : machine K) : Prop :=
  (forall k x y, rel m1 k x y = G (rel m2 k x y)) \/
  ((forall x y, rel m2 O x y = 0) /\ forall k x y, rel m1 k x y = G (rel m2 (S k) x y)).

(** [divide] finds a quotient whenever there is one. *)
Definition divides_exactly {K : SR} (divide : K -> K -> divide_type -> res K) : Prop :=
  (forall a b : K, b <> 0 -> (exists c, b * c = a) -> exists c, divide a b DivideLeft = Ok c /\ b * c = a) /\
  (forall a b : K, b <> 0 -> (exists c, c * b = a) -> exists c, divide a b DivideRight = Ok c /\ c * b = a).
(** A nonzero sum divides its summands. *)
Definition weakly_divisible (K : SR) : Prop :=
  forall a b : K, a + b <> 0 -> (exists c, (a + b) * c = a) /\ (exists c, c * (a + b) = a).
Definition zero_sum_free (K : SR) : Prop := forall a b : K, a + b = 0 -> a = 0.
Definition no_zero_divisors (K : SR) : Prop := forall a b : K, a * b = 0 -> a = 0 \/ b = 0.

Section C18.
  Context {K : SR} (L : lsr_laws K).
  Variable divide : K -> K -> divide_type -> res K.
  Implicit Types (f g h : vfst K).

  (** Towards the start: no commutativity, and any potentials that divide what is found behind. *)
  Theorem C18_reweight_initial :
    divides_exactly divide ->
    forall f (d : list K), closed f -> bits_true f ->
    (forall s, nth s d 0 <> 0 ->
       (forall w, fin_of f s = Some w -> exists c, nth s d 0 * c = w) /\
       (forall t, In t (trs_of f s) -> exists c, nth s d 0 * c = wgt t * nth (ns t) d 0)) ->
    (forall s, nth s d 0 = 0 -> fw (fin_of f s) = 0 /\ forall t, In t (trs_of f s) -> wgt t = 0 \/ nth (ns t) d 0 = 0) ->
    exists g, reweight divide f d ToInitial = Ok g /\
      delayed (fun w => w) (mach f) (mach g) /\ closed g /\ bits_true g /\ (cnt f -> cnt g) /\
      visymt g = visymt f /\ vosymt g = vosymt f.
  Proof.
    intros [Dv _] f d C B Hd Hz.
    assert (DL : divides_left divide d f).
    { split.
      - intros s t Ht N _. apply Dv; auto. apply (Hd s N); auto.
      - intros s w Hw N. apply Dv; auto. apply (Hd s N); auto. }
    destruct (reweight_all L divide d ToInitial f C B) as (h & g & Eg & Ef & Ch & T & F & Cg & Sg & Cn & I1 & I2 & Cs).
    { intros s t Ht N Nt. unfold new_weight. destruct (is_zero (pot d (ns t))) eqn:Z; [apply (is_zero_spec L) in Z; congruence|].
      destruct (proj1 DL s t Ht N Nt) as (c & -> & _). eauto. }
    { intros _ s w Hw N. destruct (proj2 DL s w Hw N) as (c & -> & _). eauto. }
    { intros a _ _ _. cbn. eauto. }
    exists g. split; auto. split; [|auto 8].
    pose proof (initial_wt L divide d f h DL Hz T F) as W.
    destruct Cs as [[Ha Sm]|(a & c & Ea & N0 & N1 & Ec & St)].
    - left. intros k x y. rewrite (same_rel _ _ Sm). unfold rel. cbn [mach mstart]. rewrite (proj1 (proj2 Ef)).
      destruct (vstart f) as [a|]; auto. destruct (W k a x y) as [W0 W1]. destruct (Ha a eq_refl) as [E|E].
      + destruct (keqb (pot d a) 0) eqn:Z; [apply (keqb_true L) in Z|apply (keqb_false L) in Z].
        * destruct (W0 Z) as [-> ->]. auto.
        * rewrite <- (W1 Z), E. apply (ktimes_1_l _ L).
      + destruct (W0 E) as [-> ->]. auto.
    - cbn in Ec. injection Ec as <-.
      assert (R : forall k x y, pot d a * rel (mach h) k x y = rel (mach f) k x y).
      { intros k x y. unfold rel. cbn [mach mstart]. rewrite (proj1 (proj2 Ef)), Ea. apply W; auto. }
      destruct (started_rel L (pot d a) a h g Ch) with (2 := St) as [X|[X Y]]; [rewrite (proj1 (proj2 Ef)); auto| |].
      + left. intros. rewrite X, R. auto.
      + right. split; auto. intros. rewrite Y, R. auto.
  Qed.

  (** Towards the final states. The final weight is multiplied on the right, so it must commute with
      the potential of its state. *)
  Theorem C18_reweight_final :
    divides_exactly divide ->
    forall f (d : list K), closed f -> bits_true f ->
    (forall s t, In t (trs_of f s) -> nth s d 0 <> 0 ->
       (nth (ns t) d 0 = 0 -> wgt t = 0) /\ (exists c, c * nth (ns t) d 0 = nth s d 0 * wgt t)) ->
    (forall s w, fin_of f s = Some w -> nth s d 0 * w = w * nth s d 0) ->
    (forall a, vstart f = Some a -> nth a d 0 <> 0 /\ exists c, c * nth a d 0 = 1) ->
    exists g, reweight divide f d ToFinal = Ok g /\
      delayed (fun w => w) (mach f) (mach g) /\ closed g /\ bits_true g /\ (cnt f -> cnt g) /\
      visymt g = visymt f /\ vosymt g = vosymt f.
  Proof.
    intros [_ Dv] f d C B Hd Hc Ha.
    assert (DR : divides_right divide d f).
    { intros s t Ht N Nt. apply Dv; auto. apply (Hd s t); auto. }
    assert (DI : dead_in d f) by (intros s t Ht N Z; apply (Hd s t); auto).
    destruct (reweight_all L divide d ToFinal f C B) as (h & g & Eg & Ef & Ch & T & F & Cg & Sg & Cn & I1 & I2 & Cs).
    { intros s t Ht N Nt. unfold new_weight. destruct (is_zero (pot d (ns t))) eqn:Z; [apply (is_zero_spec L) in Z; congruence|].
      destruct (DR s t Ht N Nt) as (c & -> & _). eauto. }
    { discriminate. }
    { intros a Ea N0 _. cbn. destruct (Ha a Ea) as [_ X]. destruct (Dv 1 (pot d a) N0 X) as (c & -> & _). eauto. }
    exists g. split; auto. split; [|auto 8].
    pose proof (final_wt L divide d f h DR DI Hc T F) as W.
    destruct Cs as [[H1 Sm]|(a & c & Ea & N0 & N1 & Ec & St)].
    - left. intros k x y. rewrite (same_rel _ _ Sm). unfold rel. cbn [mach mstart]. rewrite (proj1 (proj2 Ef)).
      destruct (vstart f) as [a|] eqn:Ea; auto. destruct (Ha a eq_refl) as [N _]. rewrite (W k a x y N).
      destruct (H1 a eq_refl) as [E|E]; [|contradiction]. rewrite E. symmetry. apply (ktimes_1_l _ L).
    - cbn in Ec. destruct (Ha a Ea) as [_ X]. destruct (Dv 1 (pot d a) N0 X) as (c' & Ec' & Hc'). rewrite Ec' in Ec. injection Ec as <-.
      assert (R : forall k x y, c' * rel (mach h) k x y = rel (mach f) k x y).
      { intros k x y. unfold rel. cbn [mach mstart]. rewrite (proj1 (proj2 Ef)), Ea, (W k a x y N0), (ktimes_assoc _ L), Hc'. apply (ktimes_1_l _ L). }
      destruct (started_rel L c' a h g Ch) with (2 := St) as [Y|[Y Z]]; [rewrite (proj1 (proj2 Ef)); auto| |].
      + left. intros. rewrite Y, R. auto.
      + right. split; auto. intros. rewrite Z, R. auto.
  Qed.
End C18.

(** ** Pushing *)
Section Sums.
  Context {K : SR} (L : sr_laws K).
  Implicit Types (f g h : vfst K).

  Lemma ksum_in (x : K) l : In x l -> exists r, ksum l = x + r.
  Proof.
    induction l as [|y l IH]; [intros []|]. intros [->|H]; [simpl; eauto|]. destruct (IH H) as (r & E). exists (y + r).
    simpl. rewrite E, !(kplus_assoc _ L), (kplus_comm _ L y). auto.
  Qed.

  Lemma settles_all (S : nat -> nat -> K) (D : nat -> K) n : (forall s, (s < n)%nat -> settles (fun k => S k s) (D s)) ->
    exists k, forall j s, (k <= j)%nat -> (s < n)%nat -> S j s = D s.
  Proof.
    induction n as [|n IH]; intros H; [exists O; intros; lia|]. destruct IH as (k & Hk); [intros; apply H; lia|].
    destruct (H n) as (k' & Hk'); [lia|]. exists (Nat.max k k'). intros j s Hj Hs. destruct (Nat.eq_dec s n) as [->|]; [apply Hk'; lia|apply Hk; lia].
  Qed.
  Lemma settles_det (S : nat -> K) v w : settles S v -> settles S w -> v = w.
  Proof. intros (k & H) (k' & H'). rewrite <- (H (Nat.max k k')), <- (H' (Nat.max k k')) by lia. auto. Qed.

  Lemma back_upto (m : machine K) n a k : (forall s t, In t (mtrs m s) -> (ns t < n)%nat) -> (a < n)%nat ->
    back m k a = ksum (map (fun s => upto m k a s * fw (mfin m s)) (seq O n)).
  Proof.
    intros B Ha. unfold back, upto.
    transitivity (ksum (map (fun s => ksum (map (fun i => to_sum m i a s * fw (mfin m s)) (seq O (S k)))) (seq O n))).
    2:{ apply ksum_map_ext. intros s _. rewrite (ksum_times_r L), map_map. auto. }
    rewrite (ksum_swap L). apply ksum_map_ext. intros i _. unfold to_sum.
    transitivity (psum m i a (fun p => ksum (map (fun s => if Nat.eqb (dst a p) s then pw p * fw (mfin m s) else 0) (seq O n)))).
    - apply psum_ext. intros p Hp. apply paths_is_path in Hp as [Hp _].
      rewrite (ksum_pick L (fun s => pw p * fw (mfin m s))); auto. eapply dst_below; eauto.
    - unfold psum. rewrite (ksum_swap L). apply ksum_map_ext. intros s _. rewrite (ksum_times_r L), map_map. apply ksum_map_ext. intros p _.
      destruct (Nat.eqb (dst a p) s); auto. symmetry. apply (ktimes_0_l _ L).
  Qed.

  (** The forward equation. *)
  Lemma forward_fixed f a (D : list K) : closed f -> vstart f = Some a -> (length D <= num_states f)%nat ->
    (forall s, settles (fun k => upto (mach f) k a s) (nth s D 0)) ->
    forall q, nth q D 0 = unit_at a q + adj (mach f) (num_states f) (fun p => nth p D 0) q.
  Proof.
    intros C Ea Ln H q.
    destruct (settles_all (fun k s => upto (mach f) k a s) (fun s => nth s D 0) (Datatypes.S (num_states f + q))) as (k & Hk); [intros; apply H|].
    rewrite <- (Hk (Datatypes.S k) q) by lia.
    rewrite (upto_S L (mach f) (num_states f)); [|exact (proj1 C)|apply (proj2 C _ Ea)].
    f_equal. apply adj_ext. intros p Hp. apply Hk; lia.
  Qed.

  Lemma unreached (m : machine K) a q k : ~ reach m a q -> upto m k a q = 0.
  Proof.
    intros N. unfold upto. apply (ksum_map_zero L). intros i _. unfold to_sum, psum. apply (ksum_map_zero L). intros p Hp.
    apply paths_is_path in Hp as [Hp _]. destruct (Nat.eqb_spec (dst a p) q) as [E|]; auto. destruct N. subst q.
    clear - Hp. revert a Hp. induction p as [|t p IH]; intros a; simpl; [constructor|]. intros [Ht Hp]. econstructor; eauto.
  Qed.
End Sums.

Lemma closes_cycle {K : SR} (m : machine K) a p t : In t (mtrs m p) -> ns t = a -> reach m a p -> on_cycle m a.
Proof.
  intros Ht E R. inversion R as [|s u v Hu Ru]; subst.
  - exists t. split; auto using reach_refl.
  - exists u. split; auto. eapply reach_trans; [exact Ru|]. econstructor; [exact Ht|constructor].
Qed.

Section Push.
  Context {K K' : SR} (L : sr_laws K) (LK' : sr_laws K').
  Variables (rv : K -> K') (rb : K' -> K).
  Hypothesis rv_0 : rv 0 = 0.
  Hypothesis rv_1 : rv 1 = 1.
  Hypothesis rv_plus : forall a b, rv (a + b) = rv a + rv b.
  Hypothesis rv_times : forall a b, rv (a * b) = rv b * rv a.
  Hypothesis rb_rv : forall a, rb (rv a) = a.
  Hypothesis rv_rb : forall a, rv (rb a) = a.
  Variable divide : K -> K -> divide_type -> res K.
  Hypothesis Dv : divides_exactly divide.
  Hypothesis Wd : weakly_divisible K.
  Hypothesis Zf : zero_sum_free K.
  Hypothesis Zd : no_zero_divisors K.
  Implicit Types (f g h : vfst K).

  Lemma started_no_cycle (c : K) a h g b : closed h -> vstart h = Some a -> started c a h g -> vstart g = Some b -> ~ on_cycle (mach g) b.
  Proof.
    intros [C1 C2] Ea [(S1 & N & NC & T & F & Tq & Fq)|(S1 & N & _ & T & F & Tq & Fq)] Eb (t & Ht & R); rewrite S1 in Eb; injection Eb as <-.
    - assert (Re : forall p q, reach (mach g) p q -> reach (mach h) p q).
      { induction 1 as [|s u q X _ IH]; [constructor|]. cbn [mach mtrs] in X. destruct (Nat.eq_dec s a) as [->|Ne].
        - rewrite T in X. apply in_map_iff in X as (v & <- & Hv). econstructor; eauto.
        - rewrite Tq in X by auto. econstructor; eauto. }
      cbn [mach mtrs] in Ht. rewrite T in Ht. apply in_map_iff in Ht as (v & <- & Hv). apply NC. exists v. split; auto.
    - assert (Re : forall p q, reach (mach g) p q -> (p < num_states h)%nat -> (q < num_states h)%nat).
      { induction 1 as [|s u q X _ IH]; auto. intros Hs. apply IH. cbn [mach mtrs] in X. rewrite Tq in X by lia. eapply C1; eauto. }
      cbn [mach mtrs] in Ht. rewrite T in Ht. destruct Ht as [<-|[]]. cbn [ns] in R. apply Re in R; [lia|]. apply C2; auto.
  Qed.
  Lemma started_multiple (c : K) a h g b : started c a h g -> vstart g = Some b ->
    (forall t, In t (trs_of g b) -> exists u, c * u = wgt t) /\ (forall v, fin_of g b = Some v -> exists u, c * u = v).
  Proof.
    intros [(S1 & N & NC & T & F & Tq & Fq)|(S1 & N & _ & T & F & Tq & Fq)] Eb; rewrite S1 in Eb; injection Eb as <-; rewrite T, F; split.
    - intros t Ht. apply in_map_iff in Ht as (v & <- & Hv). exists (wgt v). auto.
    - intros v Hv. destruct (fin_of h a); [|discriminate]. injection Hv as <-. eauto.
    - intros t [<-|[]]. exists 1. apply (ktimes_1_r _ L).
    - discriminate.
  Qed.

  (** The distances to the final states divide what is behind them. *)
  Lemma back_divides f (D : list K) s : closed f -> (length D <= num_states f)%nat ->
    (forall s, (s < num_states f)%nat -> nth s D 0 = fw (fin_of f s) + ksum (map (fun t => wgt t * nth (ns t) D 0) (trs_of f s))) ->
    (nth s D 0 <> 0 ->
       (forall w, fin_of f s = Some w -> exists c, nth s D 0 * c = w) /\
       (forall t, In t (trs_of f s) -> exists c, nth s D 0 * c = wgt t * nth (ns t) D 0)) /\
    (nth s D 0 = 0 -> fw (fin_of f s) = 0 /\ forall t, In t (trs_of f s) -> wgt t = 0 \/ nth (ns t) D 0 = 0).
  Proof.
    intros C Ln Eq. destruct (Nat.lt_ge_cases s (num_states f)) as [Hs|Hs].
    - rewrite !(Eq s Hs). split; intros N; split.
      + intros w Ew. rewrite Ew in N |- *. cbn [fw] in *. apply (Wd w). auto.
      + intros t Ht. destruct (ksum_in L (wgt t * nth (ns t) D 0) (map (fun t => wgt t * nth (ns t) D 0) (trs_of f s))) as (r & Er);
          [apply in_map_iff; eauto|]. rewrite Er in *.
        assert (X : fw (fin_of f s) + (wgt t * nth (ns t) D 0 + r) = wgt t * nth (ns t) D 0 + (fw (fin_of f s) + r))
          by (rewrite !(kplus_assoc _ L), (kplus_comm _ L (fw _)); auto).
        rewrite X in *. apply Wd; auto.
      + apply (Zf _ _ N).
      + intros t Ht. apply Zd. rewrite (kplus_comm _ L) in N. apply Zf in N.
        destruct (ksum_in L (wgt t * nth (ns t) D 0) (map (fun t => wgt t * nth (ns t) D 0) (trs_of f s))) as (r & Er);
          [apply in_map_iff; eauto|]. rewrite Er in N. apply (Zf _ _ N).
    - rewrite nth_overflow by lia. split; [congruence|]. intros _. rewrite fin_of_beyond, trs_of_oob by auto. split; auto. intros t [].
  Qed.

  (** Pushing towards the start. With [rm] the total weight is taken out; otherwise the relation is
      kept. If products can be cancelled, every state but the start that reaches a final state,
      and whose successors all do, is left with outgoing and final weights that sum to one. *)
  Theorem C18_push_initial :
    forall f idem pathp fuel (rm : bool) R, closed f -> bits_true f ->
    loops_idle f (fun _ => true) -> idempotent_plus K \/ (forall s, ~ on_cycle (mach f) s) ->
    push_weights divide idem pathp true rv rb fuel f ToInitial rm = Some R ->
    exists g, R = Ok g /\
      (forall a total, vstart f = Some a -> settles (fun k => back (mach f) k a) total ->
         delayed (fun w => if rm then total * w else w) (mach f) (mach g)) /\
      (vstart f = None -> vstart g = None) /\
      ((forall a b c : K, a <> 0 -> a * b = a * c -> b = c) ->
       forall s, (s < num_states f)%nat -> vstart g <> Some s ->
       ~ settles (fun k => back (mach f) k s) 0 ->
       (forall t, In t (trs_of f s) -> ~ settles (fun k => back (mach f) k (ns t)) 0) ->
       fw (fin_of g s) + ksum (map (@wgt K) (trs_of g s)) = 1) /\
      closed g /\ bits_true g /\ (cnt f -> cnt g) /\ visymt g = visymt f /\ vosymt g = vosymt f.
  Proof.
    intros f idem pathp fuel rm R C B Li Hi E. unfold push_weights in E.
    destruct (shortest_distance idem pathp true rv rb fuel f true) as [R0|] eqn:E0; [|discriminate]. injection E as <-.
    assert (Ac : has (vprops f) ACYCLIC = true -> forall s, ~ on_cycle (mach f) s).
    { intros Hb. apply B in Hb. exact Hb. }
    destruct (C16_reverse L LK' rv rb rv_0 rv_1 rv_plus rv_times rb_rv rv_rb f idem pathp fuel R0 C Ac Li Hi E0) as (D & -> & Ln & Se & Eq).
    cbn [rbind]. pose proof Dv as [Dl Dr].
    assert (Hd : forall s, nth s D 0 <> 0 ->
       (forall w, fin_of f s = Some w -> exists c, nth s D 0 * c = w) /\
       (forall t, In t (trs_of f s) -> exists c, nth s D 0 * c = wgt t * nth (ns t) D 0)) by (intros s; apply (back_divides f D s); auto).
    assert (Hz : dead_out D f) by (intros s; apply (back_divides f D s); auto).
    assert (DL : divides_left divide D f).
    { split; intros; apply Dl; auto; eapply Hd; eauto. }
    destruct (reweight_all L divide D ToInitial f C B) as (h & g & Eg & Ef & Ch & T & F & Cg & Sg & Cn & I1 & I2 & Cs).
    { intros s t Ht N Nt. unfold new_weight. destruct (is_zero (pot D (ns t))) eqn:Z; [apply (is_zero_spec L) in Z; congruence|].
      destruct (proj1 DL s t Ht N Nt) as (c & -> & _). eauto. }
    { intros _ s w Hw N. destruct (proj2 DL s w Hw N) as (c & -> & _). eauto. }
    { intros a _ _ _. cbn. eauto. }
    rewrite Eg. cbn [rbind].
    pose proof (initial_wt L divide D f h DL Hz T F) as W.
    (* the state sums after reweighting *)
    assert (Nm : (forall a b c : K, a <> 0 -> a * b = a * c -> b = c) -> forall s, (s < num_states f)%nat ->
        ~ settles (fun k => back (mach f) k s) 0 -> (forall t, In t (trs_of f s) -> ~ settles (fun k => back (mach f) k (ns t)) 0) ->
        fw (fin_of h s) + ksum (map (@wgt K) (trs_of h s)) = 1).
    { intros Can s Hs Ns Nt.
      assert (N : nth s D 0 <> 0) by (intros X; apply Ns; rewrite <- X; auto).
      apply (Can (nth s D 0)); auto. rewrite (ktimes_1_r _ L), (kdistr_l _ L), (ksum_times_l L), map_map. symmetry. rewrite (Eq s Hs) at 1. symmetry.
      rewrite T, F. unfold trs_after, fin_after. destruct (is_zero (pot D s)) eqn:Z; [apply (is_zero_spec L) in Z; contradiction|].
      f_equal.
      - destruct (fin_of f s) as [w|] eqn:Ew; [|apply (ktimes_0_r _ L)]. destruct (proj2 DL s w Ew N) as (c & -> & Ec). exact Ec.
      - rewrite map_map. apply ksum_map_ext. intros t Ht.
        assert (N' : nth (ns t) D 0 <> 0).
        { intros X. apply (Nt t Ht). rewrite <- X. apply Se. eapply (proj1 C); eauto. }
        destruct (proj1 DL s t Ht N N') as (c & Ec & Hc). unfold rewt, new_weight.
        destruct (is_zero (pot D (ns t))) eqn:Z'; [apply (is_zero_spec L) in Z'; contradiction|]. rewrite Ec. exact Hc. }
    destruct Cs as [[Ha Sm]|(a & c & Ea & N0 & N1 & Ec & St)].
    - (* the start potential is one or zero *)
      assert (Rm : remove_weight divide g (compute_total_weight f D true) false = Ok g).
      { unfold remove_weight, compute_total_weight. destruct (vstart f) as [a|]; [destruct (Ha a eq_refl) as [-> | ->]|];
          unfold is_one, is_zero; rewrite (keqb_refl L), ?orb_true_r; auto. }
      exists g. split; [destruct rm; auto|]. split; [|split; [|split; [|auto 8]]].
      + intros a total Ea St. assert (total = pot D a) as ->.
        { eapply settles_det; eauto. apply Se. apply C; auto. }
        left. intros k x y. rewrite (same_rel _ _ Sm). unfold rel. cbn [mach mstart]. rewrite (proj1 (proj2 Ef)), Ea.
        destruct (W k a x y) as [W0 W1]. destruct (keqb (pot D a) 0) eqn:Z; [apply (keqb_true L) in Z|apply (keqb_false L) in Z].
        * destruct (W0 Z) as [-> ->]. rewrite (ktimes_0_r _ L). destruct rm; auto.
        * rewrite <- (W1 Z). destruct rm; auto. destruct (Ha a Ea) as [E|]; [|contradiction]. rewrite E. apply (ktimes_1_l _ L).
      + intros E. rewrite (proj1 Sm), (proj1 (proj2 Ef)). auto.
      + intros Can s Hs Ns H1 H2. destruct Sm as (_ & _ & Tg & Fg). rewrite Tg, Fg. auto.
    - cbn in Ec. injection Ec as <-.
      assert (Eh : vstart h = Some a) by (rewrite (proj1 (proj2 Ef)); auto).
      assert (R : forall k x y, pot D a * rel (mach h) k x y = rel (mach f) k x y).
      { intros k x y. unfold rel. cbn [mach mstart]. rewrite Eh, Ea. apply W; auto. }
      assert (R' : delayed (fun w => w) (mach f) (mach g)).
      { destruct (started_rel L (pot D a) a h g Ch Eh St) as [X|[X Y]].
        - left. intros. rewrite X, R. auto.
        - right. split; auto. intros. rewrite Y, R. auto. }
      assert (Nm' : (forall a b c : K, a <> 0 -> a * b = a * c -> b = c) -> forall s, (s < num_states f)%nat -> vstart g <> Some s ->
        ~ settles (fun k => back (mach f) k s) 0 -> (forall t, In t (trs_of f s) -> ~ settles (fun k => back (mach f) k (ns t)) 0) ->
        fw (fin_of g s) + ksum (map (@wgt K) (trs_of g s)) = 1).
      { intros Can s Hs Ns H1 H2. rewrite <- (Nm Can s Hs H1 H2).
        destruct St as [(S1 & _ & _ & _ & _ & Tq & Fq)|(S1 & _ & _ & _ & _ & Tq & Fq)].
        - rewrite Tq, Fq by congruence. auto.
        - rewrite (proj1 Ef) in *. rewrite Tq, Fq by lia. auto. }
      destruct rm.
      + assert (Et : compute_total_weight f D true = pot D a) by (unfold compute_total_weight; rewrite Ea; auto).
        assert (exists b, vstart g = Some b) as (b & Eb) by (destruct St as [(S1 & _)|(S1 & _)]; eauto).
        destruct (started_multiple _ a h g b St Eb) as [M1 M2].
        destruct (remove_initial L divide g b (pot D a) Cg Eb N1 N0) as (g' & Eg' & Ef' & Cg' & Sg' & Rg' & Tq & Fq).
        { exact (started_no_cycle (pot D a) a h g b Ch Eh St Eb). } { intros; apply Dl; auto. } { intros; apply Dl; auto. }
        exists g'. split; [change (remove_weight divide g (compute_total_weight f D true) false = Ok g'); rewrite Et; exact Eg'|]. destruct Ef' as (F1 & F2 & F3 & F4 & F5).
        split; [|split; [congruence|split; [|split; [auto|split; [apply Sg'; auto|split; [auto|split; congruence]]]]]].
        * intros a' total Ea' St'. assert (total = pot D a) as ->.
          { rewrite Ea in Ea'. injection Ea' as <-. eapply settles_det; eauto. apply Se. apply C; auto. }
          destruct R' as [R'|[R1 R2]].
          -- left. intros. rewrite R'. apply Rg'.
          -- right. split; [|intros; rewrite R2; apply Rg']. intros x y. specialize (Rg' O x y). rewrite R1 in Rg'.
             destruct (Zd _ _ (eq_sym Rg')) as [Y|Y]; auto. contradiction.
        * intros Can s Hs Ns H1 H2. rewrite F2 in Ns. rewrite Tq, Fq by congruence. auto.
      + exists g. split; auto. split; [intros; exact R'|]. split; [congruence|]. auto 8.
  Qed.

  Lemma total_sum f (D : list K) : (length D <= num_states f)%nat ->
    compute_total_weight f D false = ksum (map (fun s => nth s D 0 * fw (fin_of f s)) (seq O (num_states f))).
  Proof.
    intros Ln. unfold compute_total_weight.
    assert (G : forall l i (x : K), fold_left (fun a p => a + snd p * fw (fin_of f (fst p))) (combine (seq i (length l)) l) x =
       x + ksum (map (fun s => nth (s - i)%nat l 0 * fw (fin_of f s)) (seq i (length l)))).
    { induction l as [|y l IH]; intros i x; cbn [length seq combine fold_left map ksum]; [symmetry; apply (kplus_0_r L)|].
      rewrite IH. cbn [fst snd]. rewrite Nat.sub_diag, <- (kplus_assoc _ L). cbn [nth]. f_equal. f_equal. apply ksum_map_ext. intros s Hs. apply in_seq in Hs.
      replace (s - i)%nat with (Datatypes.S (s - Datatypes.S i)) by lia. auto. }
    rewrite G, (kplus_0_l _ L). replace (num_states f) with (length D + (num_states f - length D))%nat by lia.
    rewrite seq_app, map_app, (ksum_app L). cbn [Nat.add]. rewrite (ksum_map_zero L _ (seq (length D) _)).
    - rewrite (kplus_0_r L). apply ksum_map_ext. intros s _. rewrite Nat.sub_0_r. auto.
    - intros s Hs. apply in_seq in Hs. rewrite nth_overflow by lia. apply (ktimes_0_l _ L).
  Qed.

  (** The distances from the start divide what is in front of them. *)
  Lemma front_divides f a (D : list K) : closed f ->
    (forall q, nth q D 0 = unit_at a q + adj (mach f) (num_states f) (fun p => nth p D 0) q) ->
    forall s t, In t (trs_of f s) -> exists r, nth (ns t) D 0 = nth s D 0 * wgt t + r.
  Proof.
    intros C Eq s t Ht. rewrite (Eq (ns t)). unfold adj.
    assert (Hs : (s < num_states f)%nat).
    { destruct (Nat.lt_ge_cases s (num_states f)); auto. rewrite trs_of_oob in Ht by auto. destruct Ht. }
    destruct (ksum_in L (ksum (map (fun u => if Nat.eqb (ns u) (ns t) then nth s D 0 * wgt u else 0) (trs_of f s)))
      (map (fun p => ksum (map (fun u => if Nat.eqb (ns u) (ns t) then nth p D 0 * wgt u else 0) (mtrs (mach f) p))) (seq O (num_states f)))) as (r & ->).
    { apply in_map_iff. exists s. split; auto. apply in_seq. lia. }
    destruct (ksum_in L (nth s D 0 * wgt t) (map (fun u => if Nat.eqb (ns u) (ns t) then nth s D 0 * wgt u else 0) (trs_of f s))) as (r' & ->).
    { apply in_map_iff. exists t. rewrite Nat.eqb_refl. auto. }
    exists (unit_at a (ns t) + (r' + r)). rewrite !(kplus_assoc _ L), (kplus_comm _ L (unit_at _ _)). auto.
  Qed.

  (** Pushing towards the final states. The second part says that the reversed result is normal:
      what enters a state, counting one for the start, sums to one. *)
  Theorem C18_push_final : commutative_times K -> (1 : K) <> 0 ->
    forall f idem pathp fuel (rm : bool) R, closed f -> bits_true f ->
    loops_idle f (fun _ => true) -> idempotent_plus K \/ (forall s, ~ on_cycle (mach f) s) ->
    push_weights divide idem pathp true rv rb fuel f ToFinal rm = Some R ->
    exists g, R = Ok g /\
      (forall a total, vstart f = Some a -> settles (fun k => back (mach f) k a) total ->
         delayed (fun w => if rm then w * total else w) (mach f) (mach g)) /\
      (vstart f = None -> vstart g = None) /\
      ((forall a b c : K, a <> 0 -> b * a = c * a -> b = c) ->
       forall a q, vstart f = Some a -> (q < num_states f)%nat ->
       ~ settles (fun k => upto (mach f) k a q) 0 ->
       (forall s t, In t (trs_of f s) -> ns t = q -> ~ settles (fun k => upto (mach f) k a s) 0) ->
       (if match vstart g with Some b => Nat.eqb b q | None => false end then 1 else 0) +
       ksum (map (fun s => ksum (map (@wgt K) (filter (fun t => Nat.eqb (ns t) q) (trs_of g s)))) (seq O (num_states g))) = 1) /\
      closed g /\ bits_true g /\ (cnt f -> cnt g) /\ visymt g = visymt f /\ vosymt g = vosymt f.
  Proof.
    intros Cm N10 f idem pathp fuel rm R C B Li Hi E. unfold push_weights in E.
    destruct (shortest_distance idem pathp true rv rb fuel f false) as [R0|] eqn:E0; [|discriminate]. injection E as <-.
    assert (Ac : has (vprops f) ACYCLIC = true -> forall s, ~ on_cycle (mach f) s).
    { intros Hb. apply B in Hb. exact Hb. }
    destruct (C16_shortest_distance L K' rv rb f idem pathp fuel R0 C Ac Li Hi E0) as (D & -> & Ln & Se).
    cbn [rbind]. pose proof Dv as [Dl Dr].
    assert (Eq : forall a, vstart f = Some a -> forall q, nth q D 0 = unit_at a q + adj (mach f) (num_states f) (fun p => nth p D 0) q).
    { intros a Ea. rewrite Ea in Se. apply forward_fixed; auto. }
    assert (Ns : forall s, nth s D 0 <> 0 -> exists a, vstart f = Some a).
    { intros s N. destruct (vstart f) as [a|]; [eauto|]. subst D. destruct N. destruct s; auto. }
    assert (DR : divides_right divide D f).
    { intros s t Ht N Nt. apply Dr; auto. destruct (Ns s N) as (a & Ea). destruct (front_divides f a D C (Eq a Ea) s t Ht) as (r & Er).
      unfold pot in *. rewrite Er in *. apply Wd. auto. }
    assert (DI : dead_in D f).
    { intros s t Ht N Z. destruct (Ns s N) as (a & Ea). destruct (front_divides f a D C (Eq a Ea) s t Ht) as (r & Er).
      unfold pot in *. rewrite Er in Z. apply Zf in Z. apply Zd in Z as [Z|Z]; auto. contradiction. }
    assert (Pa : forall a, vstart f = Some a -> pot D a <> 0 /\ exists c, c * pot D a = 1).
    { intros a Ea. unfold pot. rewrite (Eq a Ea a). unfold unit_at. rewrite Nat.eqb_refl.
      assert (N : 1 + adj (mach f) (num_states f) (fun p => nth p D 0) a <> 0) by (intros X; apply N10; eapply Zf; eauto).
      split; auto. apply Wd; auto. }
    assert (Hc : forall s w, fin_of f s = Some w -> pot D s * w = w * pot D s) by (intros; apply Cm).
    destruct (reweight_all L divide D ToFinal f C B) as (h & g & Eg & Ef & Ch & T & F & Cg & Sg & Cn & I1 & I2 & Cs).
    { intros s t Ht N Nt. unfold new_weight. destruct (is_zero (pot D (ns t))) eqn:Z; [apply (is_zero_spec L) in Z; congruence|].
      destruct (DR s t Ht N Nt) as (c & -> & _). eauto. }
    { discriminate. }
    { intros a Ea N0 _. cbn. destruct (Pa a Ea) as [_ X]. destruct (Dr 1 (pot D a) N0 X) as (c & -> & _). eauto. }
    rewrite Eg. cbn [rbind].
    pose proof (final_wt L divide D f h DR DI Hc T F) as W.
    (* a start that is on no cycle has potential one *)
    assert (Acy : forall a, vstart f = Some a -> ~ on_cycle (mach h) a -> pot D a = 1).
    { intros a Ea NC. unfold pot. rewrite (Eq a Ea a). unfold unit_at. rewrite Nat.eqb_refl. rewrite <- (kplus_0_r L 1) at 2. f_equal.
      unfold adj. apply (ksum_map_zero L). intros p _. apply (ksum_map_zero L). intros t Ht. destruct (Nat.eqb_spec (ns t) a) as [Et|]; auto.
      assert (nth p D 0 = 0) as ->; [|apply (ktimes_0_l _ L)]. rewrite Ea in Se. eapply settles_det; [apply Se|].
      exists O. intros j _. apply (unreached L). intros Re. apply NC.
      assert (Rh : forall u v, reach (mach f) u v -> reach (mach h) u v).
      { induction 1 as [|u w v X _ IH]; [constructor|]. cbn [mach mtrs] in X.
        assert (exists w', In w' (trs_of h u) /\ ns w' = ns w) as (w' & Hw & Ew).
        { rewrite T. unfold trs_after. destruct (is_zero _); [eauto|].
          exists (rewt (new_weight divide D ToFinal u) w). split; [apply in_map; auto|apply rewt_ns]. }
        econstructor; [exact Hw|]. rewrite Ew. auto. }
      assert (exists w', In w' (trs_of h p) /\ ns w' = a) as (w' & Hw & Ew).
      { rewrite <- Et, T. unfold trs_after. destruct (is_zero _); [eauto|].
        exists (rewt (new_weight divide D ToFinal p) t). split; [apply in_map; auto|apply rewt_ns]. }
      apply closes_cycle with p w'; auto. }
    (* what enters a state after reweighting *)
    assert (Nm : forall a q, vstart f = Some a -> ~ settles (fun k => upto (mach f) k a q) 0 ->
       (forall s t, In t (trs_of f s) -> ns t = q -> ~ settles (fun k => upto (mach f) k a s) 0) ->
       nth q D 0 <> 0 /\
       ksum (map (fun s => ksum (map (@wgt K) (filter (fun t => Nat.eqb (ns t) q) (trs_of h s)))) (seq O (num_states f))) * nth q D 0 =
       adj (mach f) (num_states f) (fun p => nth p D 0) q).
    { intros a q Ea Nq Np. rewrite Ea in Se.
      assert (N : nth q D 0 <> 0) by (intros X; apply Nq; rewrite <- X; auto). split; auto.
      rewrite (ksum_times_r L), map_map. unfold adj. apply ksum_map_ext. intros s _. cbn [mach mtrs].
      rewrite T. unfold trs_after. rewrite (ksum_times_r L), map_map.
      assert (X : forall l, (forall t, In t l -> In t (trs_of f s)) ->
        ksum (map (fun t => wgt t * nth q D 0) (filter (fun t => Nat.eqb (ns t) q) (if is_zero (pot D s) then l else map (rewt (new_weight divide D ToFinal s)) l))) =
        ksum (map (fun t => if Nat.eqb (ns t) q then nth s D 0 * wgt t else 0) l)); [|apply X; auto].
      induction l as [|t l IH]; intros Hl; [destruct (is_zero _); auto|].
      assert (Nn : Nat.eqb (ns t) q = true -> nth s D 0 <> 0).
      { intros Et. apply Nat.eqb_eq in Et. intros X. apply (Np s t); auto; [apply Hl; left; auto|]. rewrite <- X. auto. }
      cbn [map ksum]. rewrite <- IH by (intros; apply Hl; right; auto).
      destruct (Nat.eqb_spec (ns t) q) as [Et|Et].
      + specialize (Nn eq_refl). destruct (is_zero (pot D s)) eqn:Z; [apply (is_zero_spec L) in Z; contradiction|].
        cbn [map filter]. rewrite rewt_ns, (proj2 (Nat.eqb_eq _ _) Et). cbn [map ksum]. f_equal.
        destruct (DR s t) as (c & Ec & Hc'); auto; [apply Hl; left; auto|unfold pot; congruence|].
        unfold rewt, new_weight. destruct (is_zero (pot D (ns t))) eqn:Z'; [apply (is_zero_spec L) in Z'; unfold pot in Z'; congruence|].
        rewrite Ec. cbn [set_wgt wgt]. unfold pot in Hc'. rewrite Et in Hc'. auto.
      + rewrite (kplus_0_l _ L). destruct (is_zero (pot D s)); cbn [map filter]; rewrite ?rewt_ns, (proj2 (Nat.eqb_neq _ _) Et); auto. }
    (* the machine before the total weight is removed *)
    assert (G : (vstart f = None -> vstart g = None) /\ (forall a, vstart f = Some a -> delayed (fun w => w) (mach f) (mach g)) /\
      ((forall a b c : K, a <> 0 -> b * a = c * a -> b = c) ->
       forall a q, vstart f = Some a -> (q < num_states f)%nat ->
       ~ settles (fun k => upto (mach f) k a q) 0 ->
       (forall s t, In t (trs_of f s) -> ns t = q -> ~ settles (fun k => upto (mach f) k a s) 0) ->
       (if match vstart g with Some b => Nat.eqb b q | None => false end then 1 else 0) +
       ksum (map (fun s => ksum (map (@wgt K) (filter (fun t => Nat.eqb (ns t) q) (trs_of g s)))) (seq O (num_states g))) = 1) /\
      (forall s, fin_of g s = option_map (fun w => w * nth s D 0) (fin_of f s))).
    { assert (Fh : forall s, fin_of h s = option_map (fun w => w * nth s D 0) (fin_of f s)).
      { intros s. rewrite F. unfold fin_after, pot. destruct (fin_of f s) as [w|]; auto. cbn. f_equal.
        destruct (Nat.leb_spec (length D) s); auto. rewrite nth_overflow, !(ktimes_0_r _ L) by auto. auto. }
      destruct Cs as [[H1 Sm]|(a & c & Ea & N0 & N1 & Ec & St)].
      - destruct Sm as (S1 & S2 & S3 & S4). split; [rewrite S1, (proj1 (proj2 Ef)); auto|]. split; [|split].
        + intros a Ea. left. intros k x y. rewrite (same_rel h g) by (repeat split; auto). unfold rel. cbn [mach mstart]. rewrite (proj1 (proj2 Ef)), Ea.
          destruct (Pa a Ea) as [N _]. rewrite (W k a x y N).
          destruct (H1 a Ea) as [E|E]; [|contradiction]. rewrite E. symmetry. apply (ktimes_1_l _ L).
        + intros Can a q Ea Hq Nq Np. destruct (Nm a q Ea Nq Np) as [N X]. apply (Can (nth q D 0)); auto.
          rewrite S1, S2, (proj1 Ef), (proj1 (proj2 Ef)), Ea. rewrite (kdistr_r _ L).
          rewrite (ksum_map_ext _ (fun s => ksum (map (@wgt K) (filter (fun t => Nat.eqb (ns t) q) (trs_of h s))))) by (intros; rewrite S3; auto).
          rewrite X, (ktimes_1_l _ L). rewrite (Eq a Ea q) at 2. f_equal. unfold unit_at. destruct (Nat.eqb_spec a q) as [<-|]; [|apply (ktimes_0_l _ L)].
          rewrite (ktimes_1_l _ L). destruct (H1 a Ea); auto. contradiction.
        + intros s. rewrite S4. auto.
      - cbn in Ec. destruct (Pa a Ea) as [_ X]. destruct (Dr 1 (pot D a) N0 X) as (c' & Ec' & Hc'). rewrite Ec' in Ec. injection Ec as <-.
        assert (Eh : vstart h = Some a) by (rewrite (proj1 (proj2 Ef)); auto).
        assert (R : forall k x y, c' * rel (mach h) k x y = rel (mach f) k x y).
        { intros k x y. unfold rel. cbn [mach mstart]. rewrite Eh, Ea, (W k a x y N0), (ktimes_assoc _ L), Hc'. apply (ktimes_1_l _ L). }
        split; [congruence|]. split.
        { intros _ _. destruct (started_rel L c' a h g Ch Eh St) as [Y|[Y Z]].
          - left. intros. rewrite Y, R. auto.
          - right. split; auto. intros. rewrite Z, R. auto. }
        destruct St as [(_ & _ & NC & _)|(S1 & S2 & _ & S3 & S4 & S5 & S6)]; [destruct N1; apply Acy; auto|].
        rewrite (proj1 Ef) in *. split.
        + intros Can a' q Ea' Hq Nq Np. rewrite Ea in Ea'. injection Ea' as <-. destruct (Nm a q Ea Nq Np) as [N Y]. apply (Can (nth q D 0)); auto.
          rewrite S1, S2. rewrite (proj2 (Nat.eqb_neq _ _)), (kplus_0_l _ L) by lia.
          rewrite seq_S, map_app, (ksum_app L), (kdistr_r _ L). cbn [Nat.add map ksum].
          rewrite (ksum_map_ext _ (fun s => ksum (map (@wgt K) (filter (fun t => Nat.eqb (ns t) q) (trs_of h s))))).
          2:{ intros s Hs. apply in_seq in Hs. rewrite S5 by lia. auto. }
          rewrite Y, (ktimes_1_l _ L), S3, (kplus_0_r L). rewrite (Eq a Ea q) at 2. rewrite (kplus_comm _ L). f_equal.
          unfold unit_at. cbn [filter map ns]. destruct (Nat.eqb_spec a q) as [<-|]; cbn [map ksum wgt].
          * rewrite (kplus_0_r L). exact Hc'.
          * apply (ktimes_0_l _ L).
        + intros s. destruct (Nat.eq_dec s (num_states f)) as [->|Ne].
          * rewrite S4, fin_of_beyond; auto.
          * rewrite S6 by auto. auto. }
    destruct G as (G1 & G2 & G3 & G4).
    destruct rm; [|exists g; split; [reflexivity|]; split; [intros a total Ea _; exact (G2 a Ea)|auto 8]].
    change (exists g0, remove_weight divide g (compute_total_weight f D false) true = Ok g0 /\
      (forall a total, vstart f = Some a -> settles (fun k => back (mach f) k a) total ->
         delayed (fun w => w * total) (mach f) (mach g0)) /\
      (vstart f = None -> vstart g0 = None) /\
      ((forall a b c : K, a <> 0 -> b * a = c * a -> b = c) ->
       forall a q, vstart f = Some a -> (q < num_states f)%nat ->
       ~ settles (fun k => upto (mach f) k a q) 0 ->
       (forall s t, In t (trs_of f s) -> ns t = q -> ~ settles (fun k => upto (mach f) k a s) 0) ->
       (if match vstart g0 with Some b => Nat.eqb b q | None => false end then 1 else 0) +
       ksum (map (fun s => ksum (map (@wgt K) (filter (fun t => Nat.eqb (ns t) q) (trs_of g0 s)))) (seq O (num_states g0))) = 1) /\
      closed g0 /\ bits_true g0 /\ (cnt f -> cnt g0) /\ visymt g0 = visymt f /\ vosymt g0 = vosymt f).
    rewrite total_sum by auto. set (tot := ksum _).
    assert (Tt : forall a total, vstart f = Some a -> settles (fun k => back (mach f) k a) total -> total = tot).
    { intros a total Ea St. eapply settles_det; [exact St|]. rewrite Ea in Se.
      destruct (settles_all (fun k s => upto (mach f) k a s) (fun s => nth s D 0) (num_states f)) as (k & Hk); [intros; apply Se|].
      exists k. intros j Hj. rewrite (back_upto L (mach f) (num_states f)); [|exact (proj1 C)|apply C; auto].
      unfold tot. apply ksum_map_ext. intros s Hs. apply in_seq in Hs. rewrite Hk by lia. auto. }
    destruct (keqb tot 1) eqn:Z1; [apply (keqb_true L) in Z1|apply (keqb_false L) in Z1];
      [|destruct (keqb tot 0) eqn:Z0; [apply (keqb_true L) in Z0|apply (keqb_false L) in Z0]].
    - exists g. split; [unfold remove_weight, is_one; rewrite Z1, (keqb_refl L); auto|].
      split; [|auto 8]. intros a total Ea St. rewrite (Tt a total Ea St), Z1. destruct (G2 a Ea) as [X|[X Y]].
      + left. intros. rewrite (ktimes_1_r _ L). auto.
      + right. split; auto. intros. rewrite (ktimes_1_r _ L). auto.
    - exists g. split; [unfold remove_weight, is_zero; rewrite Z0, (keqb_refl L), orb_true_r; auto|].
      split; [|auto 8]. intros a total Ea St. rewrite (Tt a total Ea St), Z0.
      (* nothing is accepted *)
      assert (Wz : forall k s x y, wt (mach g) k s x y = 0).
      { assert (Fz : forall s, fw (fin_of g s) = 0).
        { intros s. rewrite G4. destruct (fin_of f s) as [w|] eqn:Ew; auto. cbn [option_map fw].
          destruct (ksum_in L (nth s D 0 * w) (map (fun s => nth s D 0 * fw (fin_of f s)) (seq O (num_states f)))) as (r & Er).
          { apply in_map_iff. exists s. rewrite Ew. split; auto. apply in_seq. destruct (Nat.lt_ge_cases s (num_states f)); [lia|].
            rewrite fin_of_beyond in Ew by auto. discriminate. }
          fold tot in Er. rewrite Z0 in Er. rewrite Cm. eapply Zf. eauto. }
        induction k as [|k IH]; intros s x y; cbn [wt mach mtrs mfin].
        - rewrite Fz. destruct (isnil x && isnil y); auto.
        - apply (ksum_map_zero L). intros t _. destruct (strip (il t) x); auto. destruct (strip (ol t) y); auto.
          rewrite <- (ktimes_0_r _ L (wgt t)). f_equal. apply IH. }
      assert (Rz : forall k x y, rel (mach g) k x y = 0) by (intros; unfold rel; destruct (mstart (mach g)); auto).
      destruct (G2 a Ea) as [X|[X Y]].
      + left. intros. rewrite (ktimes_0_r _ L), X. auto.
      + right. split; auto. intros. rewrite (ktimes_0_r _ L), Y. auto.
    - destruct (remove_final L divide g tot Cg Z1 Z0) as (g' & Eg' & Ef' & Cg' & Sg' & Rg' & Tq).
      { intros s v Hv. apply Dr; auto. rewrite G4 in Hv. destruct (fin_of f s) as [w|] eqn:Ew; [|discriminate]. injection Hv as <-.
        destruct (ksum_in L (nth s D 0 * w) (map (fun s => nth s D 0 * fw (fin_of f s)) (seq O (num_states f)))) as (r & Er).
        { apply in_map_iff. exists s. rewrite Ew. split; auto. apply in_seq. destruct (Nat.lt_ge_cases s (num_states f)); [lia|].
          rewrite fin_of_beyond in Ew by auto. discriminate. }
        fold tot in Er. rewrite (Cm w). rewrite Er in *. apply Wd. auto. }
      exists g'. split; auto. destruct Ef' as (F1 & F2 & F3 & F4 & F5).
      split; [|split; [rewrite F2; auto|split; [|split; [auto|split; [apply Sg'; auto|split; [auto|split; congruence]]]]]].
      + intros a total Ea St. rewrite (Tt a total Ea St). destruct (G2 a Ea) as [X|[X Y]].
        * left. intros. rewrite X. auto.
        * right. split; [|intros; rewrite Y; auto]. intros x y. specialize (Rg' O x y). rewrite X in Rg'.
          destruct (Zd _ _ (eq_sym Rg')) as [V|V]; auto. contradiction.
      + intros Can a q Ea Hq Nq Np. rewrite F1, F2.
        rewrite (ksum_map_ext _ (fun s => ksum (map (@wgt K) (filter (fun t => Nat.eqb (ns t) q) (trs_of g s))))) by (intros; rewrite Tq; auto).
        eauto.
  Qed.
End Push.
Print Assumptions C18_reweight_initial.
Print Assumptions C18_reweight_final.
Print Assumptions C18_push_initial.
Print Assumptions C18_push_final.

(** Min-plus meets every hypothesis on the weights, cancellation included. *)
Local Close Scope K_scope.
Definition tdiv (a b : tropN) (_ : divide_type) : res tropN :=
  match a, b with
  | _, None => Err
  | None, Some _ => Ok None
  | Some x, Some y => Ok (Some (x - y))
  end.
Theorem C18_weights : divides_exactly tdiv /\ weakly_divisible tropN /\ zero_sum_free tropN /\ no_zero_divisors tropN /\
  (forall a b c : tropN, a <> 0%K -> (a * b = a * c)%K -> b = c) /\ (forall a b c : tropN, a <> 0%K -> (b * a = c * a)%K -> b = c) /\
  commutative_times tropN /\ idempotent_plus tropN.
Proof.
  assert (A : forall a b c : tropN, a <> 0%K -> (a * b = a * c)%K -> b = c).
  { intros [a|] [b|] [c|] N E; cbn in *; try congruence. injection E as E. f_equal. lia. }
  split; [|split; [|split; [|split; [|split; [exact A|split; [|split; [exact tropN_comm|exact tropN_idem]]]]]]].
  - split; intros [a|] [b|] N ([c|] & E); cbn in *; try congruence; try discriminate E; try (injection E as <-);
      eexists; (split; [reflexivity|]); cbn; try reflexivity; f_equal; lia.
  - intros [a|] [b|] N; cbn in *; try congruence; split;
      first [exists (Some (a - Nat.min a b)); cbn; f_equal; lia|exists (Some 0); cbn; f_equal; lia|exists None; reflexivity].
  - intros [a|] [b|] E; cbn in *; congruence.
  - intros [a|] [b|] E; cbn in *; auto; congruence.
  - intros a b c N E. rewrite (tropN_comm b), (tropN_comm c) in E. eapply A; eauto.
Qed.
Print Assumptions C18_weights.

(** A start on a cycle gets a fresh start; a start on no cycle keeps its place. *)
Definition c18_calls (back_edge : bool) : list (op tropN) :=
  [OAddStates 3; OSetStart 0; OAddTr 0 (Tr 1 1 (Some 2) 1); OAddTr 0 (Tr 2 2 (Some 7) 2); OAddTr 1 (Tr 3 3 (Some 4) 2);
   OSetFinal 2 (Some 5)] ++ if back_edge then [OAddTr 1 (Tr 1 1 (Some 1) 0)] else [].
Example C18_instance : forall e : bool,
  exists f g g' h, run vnew (c18_calls e) = Ok f /\ closed f /\ bits_true f /\ loops_idle f (fun _ => true) /\
    push_weights tdiv true true true (fun w => w) (fun w => w) 30 f ToInitial false = Some (Ok g) /\
    push_weights tdiv true true true (fun w => w) (fun w => w) 30 f ToInitial true = Some (Ok g') /\
    push_weights tdiv true true true (fun w => w) (fun w => w) 30 f ToFinal true = Some (Ok h) /\
    num_states g = (if e then 4 else 3) /\ fin_of f 2 = Some (Some 5) /\ fin_of g 2 = Some (Some 0) /\
    rel (mach f) 2 [1; 3] [1; 3] = Some 11 /\ rel (mach g) (if e then 3 else 2) [1; 3] [1; 3] = Some 11 /\
    rel (mach g') (if e then 3 else 2) [1; 3] [1; 3] = Some 0 /\
    rel (mach h) 2 [2] [2] = None /\ rel (mach h) 1 [2] [2] = Some 1.
Proof.
  assert (B : forall e f, run vnew (c18_calls e) = Ok f -> bits_true f).
  { intros e f R. refine (C01_property_bits_sound tropN tropN_laws f _). refine (run_history (c18_calls e) vnew f h_new _ R).
    destruct e; repeat constructor. }
  intros [|]; [pose proof (B true) as B'|pose proof (B false) as B']; do 4 eexists;
  (split; [vm_compute; reflexivity|]); 
  (split; [split; [|cbn; intros s H; inversion H; vm_compute; lia];
    intros s t; destruct s as [|[|[|[|s]]]]; cbn; try tauto; try (destruct s; simpl; tauto);
    intros H; repeat destruct H as [<-|H]; try destruct H; vm_compute; lia|]);
  (split; [apply B'; vm_compute; reflexivity|]);
  (split; [intros s t _ _ _; apply tropN_bounded|]);
  repeat (split; [vm_compute; reflexivity|]); vm_compute; reflexivity.
Qed.

(** The guard on the successors is needed: a transition into a state with no way to a final state
    keeps its weight, so state 1 is left with a sum of -5, not one (0 in numbers). *)
Definition zdiv (a b : tropZ) (_ : divide_type) : res tropZ :=
  match a, b with
  | _, None => Err
  | None, Some _ => Ok None
  | Some x, Some y => Ok (Some (x - y)%Z)
  end.
Definition zt (i : nat) (w : Z) (n : nat) : tr tropZ := @Tr tropZ i i (Some w) n.
Definition c18_dead : list (op tropZ) :=
  [OAddStates 4; OSetStart 0; OAddTr 0 (zt 1 2 1); OAddTr 1 (zt 2 1 2); OAddTr 1 (zt 3 (-5) 3); @OSetFinal tropZ 2 (Some 0%Z)].
Theorem C18_dead_successor_refuted :
  exists f g : vfst tropZ, run vnew c18_dead = Ok f /\
    push_weights zdiv true true true (fun w => w) (fun w => w) 30 f ToInitial false = Some (Ok g) /\
    vstart g = Some 0 /\ ksum (map (@wgt tropZ) (trs_of g 1)) = Some (-5)%Z /\ fin_of g 1 = None /\ @kone tropZ = Some 0%Z.
Proof. do 2 eexists. repeat (split; [vm_compute; reflexivity|]). vm_compute; reflexivity. Qed.
Print Assumptions C18_dead_successor_refuted.
