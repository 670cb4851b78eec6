(** C16: generic shortest distance is correct for every queue discipline. *)
From Coq Require Import List Arith NArith ZArith Bool Lia.
From Verif Require Import Base.Util Base.Semiring Base.Machine Base.PathSum Base.PropSpec Base.Instances
  Model.Props Model.VectorFst Model.History Model.Rational Model.Queues Model.ShortestDistance
  Proofs.PropsFacts Proofs.VectorFacts Proofs.VectorProps Proofs.ConnectFacts Proofs.SdFacts Proofs.SdRun Proofs.AutoQueueFacts Proofs.ReverseDist
  Props.C05 Props.C28.
Import ListNotations.
Local Open Scope K_scope.
Local Coercion rsr_psr : rsr_laws >-> psr_laws.

(** [v] is the sum over all paths: adding longer paths changes nothing from some length on. *)
Definition settles {K : SR} (sums : nat -> K) (v : K) : Prop := exists k, forall j, (k <= j)%nat -> sums j = v.

(** A value can only grow finitely often. *)
Definition no_endless_growth (K : SR) : Prop := well_founded (fun a b : K => a <> b /\ exists c, a = b + c).

Section C16Defs.
  Context {K : SR} (L : rsr_laws K).
  Implicit Types f : vfst K.

  (** A self-loop adds nothing to the empty path. *)
  Definition loops_idle f (keep : tr K -> bool) : Prop :=
    forall s t, In t (trs_of f s) -> keep t = true -> ns t = s -> 1 + wgt t = 1.
  Definition kept_acyclic f keep : Prop := forall s, ~ on_cycle (kmach f keep) s.

  Lemma any_acyclic f : kept_acyclic f (fun _ => true) <-> forall s, ~ on_cycle (mach f) s.
  Proof.
    assert (E : forall s, filter (fun _ => true) (trs_of f s) = trs_of f s) by (intros s; induction (trs_of f s); simpl; congruence).
    assert (R : forall a b, reach (kmach f (fun _ => true)) a b <-> reach (mach f) a b).
    { intros a b. split; apply reach_mono; intros s; cbn; rewrite E; apply incl_refl. }
    split; intros H s (t & Ht & Hr); apply (H s); exists t; (split; [|apply R; auto]); cbn in *; rewrite ?E in *; auto.
  Qed.

  Lemma fixed_settles f keep a D : closed f -> (a < num_states f)%nat ->
    idempotent_plus K \/ kept_acyclic f keep ->
    fixed (kmach f keep) (num_states f) a D ->
    (idempotent_plus K -> exists k, forall q, upto (kmach f keep) k a q + D q = upto (kmach f keep) k a q) ->
    exists k, forall q j, (k <= j)%nat -> upto (kmach f keep) j a q = D q.
  Proof.
    intros C Ha H F B.
    assert (Be : forall s t, In t (mtrs (kmach f keep) s) -> (ns t < num_states f)%nat) by (apply kbelow; auto).
    destruct H as [Id|Ac].
    - destruct (B Id) as (k & Hk). exists k. intros q j Hj.
      pose proof (fixed_above L _ _ Be a D Id Ha F j q) as X.
      pose proof (upto_mono L (kmach f keep) a k j q Id Hj) as Y. specialize (Hk q). revert X Y Hk.
      generalize (upto (kmach f keep) j a q) (upto (kmach f keep) k a q) (D q). intros u v d X Y Hk.
      rewrite <- X, <- Y, <- Hk. rewrite (kplus_assoc _ L u), Y, (kplus_comm _ L d), <- (kplus_assoc _ L), (Id d). auto.
    - exists (num_states f). intros q j Hj. eapply (fixed_acyclic L); eauto. apply no_cycle_acyclic. auto.
  Qed.
End C16Defs.

Section C16.
  Context {K : SR} (L : sr_laws K).
  Implicit Types f : vfst K.


  Lemma idle_calm f keep : loops_idle f keep -> calm f keep.
  Proof.
    intros H s t Ht En r. cbn in Ht. apply filter_In in Ht as [H1 H2].
    rewrite <- (ktimes_1_r _ L r) at 1. rewrite <- (kdistr_l _ L), (H s t); auto. apply (ktimes_1_r _ L).
  Qed.

  (** Whatever the queue discipline: if the loop stops, every entry is the sum over all paths
      from the source to that state. *)
  Theorem C16_any_queue :
    forall (Q : qops) (ok : Q -> (nat -> nat) -> option nat -> Prop) f keep q source start pathp fuel R,
    closed f -> qspec Q (kmach f keep) (num_states f) ok -> ok q (fun _ => O) None ->
    vstart f = Some start -> (the_source source start < num_states f)%nat ->
    loops_idle f keep ->
    idempotent_plus K \/ kept_acyclic f keep ->
    sd_internal Q true pathp false keep fuel source f q = Some R ->
    exists D, R = Ok D /\ (length D <= num_states f)%nat /\
      forall s, settles (fun k => upto (kmach f keep) k (the_source source start) s) (nth s D 0).
  Proof.
    intros Q ok f keep q source start pathp fuel R C QS O Es Hs Ca H E. unfold sd_internal in E.
    destruct (sd_run Q true pathp false false keep fuel source f (SD Q q [] [] 0%nat)) as [R0|] eqn:E0; [|discriminate].
    destruct (run_correct L Q f keep false C ok QS pathp source start (SD Q q [] [] 0%nat) (fun _ => 0%nat) None fuel R0 Es Hs O) with (3 := E0)
      as (D & st' & M' & last' & -> & _ & _ & _ & [_ Ln] & _ & F & B); [discriminate|apply idle_calm; auto|].
    injection E as <-. cbn [fst]. exists D. split; auto. split; auto. intros s.
    destruct (fixed_settles L f keep _ (fun q => nth q D 0) C Hs H F B) as (k & Hk). exists k. intros j Hj. apply Hk. auto.
  Qed.

  Theorem C16_any_queue_stops :
    forall (Q : qops) (ok : Q -> (nat -> nat) -> option nat -> Prop) f keep q source start pathp,
    closed f -> qspec Q (kmach f keep) (num_states f) ok -> ok q (fun _ => O) None ->
    vstart f = Some start -> (the_source source start < num_states f)%nat ->
    loops_idle f keep ->
    no_endless_growth K \/ kept_acyclic f keep ->
    exists fuel R, sd_internal Q true pathp false keep fuel source f q = Some R.
  Proof.
    intros Q ok f keep q source start pathp C QS O Es Hs Ca H.
    destruct (run_terminates L Q f keep false C ok QS pathp source start (SD Q q [] [] 0%nat) (fun _ => 0%nat) None Es Hs O) as (fuel & R & E).
    - discriminate.
    - apply idle_calm; auto.
    - destruct H as [H|H]; [left; exact H|right; apply no_cycle_acyclic; auto].
    - exists fuel. unfold sd_internal. rewrite E. destruct R; eauto.
  Qed.

  (** Every queue of the library, as its constructor leaves it, is such a discipline; a
      component queue needs component numbers that do not decrease along transitions. *)
  Theorem C16_library_queues :
    forall f keep q sccs, fresh (fun s => s < num_states f)%nat q sccs ->
    (forall s t c d, In t (trs_of f s) -> keep t = true -> nth_error sccs s = Some c -> nth_error sccs (ns t) = Some d -> (c <= d)%nat) ->
    qspec code_queue (kmach f keep) (num_states f) (cq_ok f keep) /\ cq_ok f keep q (fun _ => O) None.
  Proof.
    intros f keep q sccs F Mo. split; [apply code_queue_spec|]. eapply fresh_cq_ok; eauto.
    intros s t c d Ht. apply filter_In in Ht as [H1 H2]. eauto.
  Qed.

  (** The public function, forward. *)
  Theorem C16_shortest_distance :
    forall (K' : SR) (rv : K -> K') (rb : K' -> K) f idem pathp fuel R,
    closed f -> (has (vprops f) ACYCLIC = true -> forall s, ~ on_cycle (mach f) s) ->
    loops_idle f (fun _ => true) ->
    idempotent_plus K \/ (forall s, ~ on_cycle (mach f) s) ->
    shortest_distance idem pathp true rv rb fuel f false = Some R ->
    exists D, R = Ok D /\ (length D <= num_states f)%nat /\
      match vstart f with
      | None => D = []
      | Some a => forall s, settles (fun k => upto (mach f) k a s) (nth s D 0)
      end.
  Proof.
    intros K' rv rb f idem pathp fuel R C Sn Ca H. unfold shortest_distance. cbn [negb].
    destruct (auto_queue_fresh idem pathp f (fun _ => true) C Sn) as (q & sccs & -> & Fr & Mo). intros E.
    destruct (vstart f) as [a|] eqn:Es.
    - destruct (C16_any_queue code_queue (cq_ok f (fun _ => true)) f (fun _ => true) q None a pathp fuel R C) as (D & -> & Ln & Hd); auto.
      + apply code_queue_spec.
      + eapply fresh_cq_ok; eauto.
      + apply (proj2 C a Es).
      + destruct H as [H|H]; auto. right. apply any_acyclic. auto.
      + exists D. split; auto. split; auto. intros s. destruct (Hd s) as (k & Hk). exists k. intros j Hj. rewrite <- (Hk j Hj).
        symmetry. apply kmach_any_upto.
    - unfold sd_internal, sd_run in E. rewrite Es in E. injection E as <-. exists []. split; auto. cbn. split; auto. lia.
  Qed.

  Theorem C16_shortest_distance_stops :
    forall (K' : SR) (rv : K -> K') (rb : K' -> K) f idem pathp,
    closed f -> (has (vprops f) ACYCLIC = true -> forall s, ~ on_cycle (mach f) s) ->
    loops_idle f (fun _ => true) ->
    no_endless_growth K \/ (forall s, ~ on_cycle (mach f) s) ->
    exists fuel R, shortest_distance idem pathp true rv rb fuel f false = Some R.
  Proof.
    intros K' rv rb f idem pathp C Sn Ca H. unfold shortest_distance. cbn [negb].
    destruct (auto_queue_fresh idem pathp f (fun _ => true) C Sn) as (q & sccs & -> & Fr & Mo).
    destruct (vstart f) as [a|] eqn:Es.
    - eapply (C16_any_queue_stops code_queue (cq_ok f (fun _ => true)) f (fun _ => true) q None a pathp C); auto.
      + apply code_queue_spec.
      + eapply fresh_cq_ok; eauto.
      + apply (proj2 C a Es).
      + destruct H as [H|H]; auto. right. apply any_acyclic. auto.
    - exists 0%nat. unfold sd_internal, sd_run. rewrite Es. eauto.
  Qed.

  (** One plus anything is one: nothing more is needed. *)
  Corollary C16_bounded :
    forall (K' : SR) (rv : K -> K') (rb : K' -> K) f idem pathp fuel R a,
    bounded K -> closed f -> (has (vprops f) ACYCLIC = true -> forall s, ~ on_cycle (mach f) s) -> vstart f = Some a ->
    shortest_distance idem pathp true rv rb fuel f false = Some R ->
    exists D, R = Ok D /\ forall s, settles (fun k => upto (mach f) k a s) (nth s D 0).
  Proof.
    intros K' rv rb f idem pathp fuel R a B C Sn Es E.
    destruct (C16_shortest_distance K' rv rb f idem pathp fuel R C Sn) as (D & -> & _ & Hd); auto.
    - intros s t _ _ _. apply B.
    - left. apply (kbounded_idem L B).
    - rewrite Es in Hd. eauto.
  Qed.
End C16.

Section C16R.
  Context {K K' : SR} (LK : lsr_laws K) (L : rsr_laws K').
  (** [reverse] and [reverse_back] of the weights. *)
  Variables (rv : K -> K') (rb : K' -> K).
  Hypothesis rv_0 : rv 0 = 0.
  Hypothesis rv_1 : rv 1 = 1.
  Hypothesis rv_plus : forall a b, rv (a + b) = rv a + rv b.
  Hypothesis rv_times : forall a b, rv (a * b) = rv b * rv a.
  Hypothesis rb_rv : forall a, rb (rv a) = a.
  Hypothesis rv_rb : forall a, rv (rb a) = a.

  Lemma rev_idem : idempotent_plus K -> idempotent_plus K'.
  Proof. intros Id x. rewrite <- (rv_rb x), <- rv_plus, Id. auto. Qed.

  Lemma rev_growth : no_endless_growth K -> no_endless_growth K'.
  Proof.
    intros W x. remember (rb x) as y eqn:E. revert x E. induction y as [y IH] using (well_founded_induction W).
    intros x ->. constructor. intros z [Hne (c & ->)]. apply (IH (rb (x + c))); auto. split.
    - intros X. apply Hne. rewrite <- (rv_rb (x + c)), X. apply rv_rb.
    - exists (rb c). rewrite <- (rb_rv (rb x + rb c)), rv_plus, !rv_rb. auto.
  Qed.

  (** The public function, reversed, over a left semiring: sums over all paths to a final state. The vector may be
      shorter than the machine; missing entries are zero. A self-loop
      must add nothing to anything. *)
  Theorem C16_reverse_left :
    forall (f : vfst K) idem pathp fuel R,
    closed f -> (has (vprops f) ACYCLIC = true -> forall s, ~ on_cycle (mach f) s) ->
    (forall s t, In t (trs_of f s) -> ns t = s -> forall r : K, r + wgt t * r = r) ->
    idempotent_plus K \/ (forall s, ~ on_cycle (mach f) s) ->
    shortest_distance idem pathp true rv rb fuel f true = Some R ->
    exists D, R = Ok D /\ (length D <= num_states f)%nat /\
      (forall s, (s < num_states f)%nat -> settles (fun k => back (mach f) k s) (nth s D 0)) /\
      (forall s, (s < num_states f)%nat ->
         nth s D 0 = fw (fin_of f s) + ksum (map (fun t => wgt t * nth (ns t) D 0) (trs_of f s))).
  Proof.
    intros f idem pathp fuel R C Sn Ca H. unfold shortest_distance. cbn [negb].
    destruct (reverse_eff rv f C) as (g & Er & Ng & Sg & _ & _ & _ & T0 & TS & _). rewrite Er.
    assert (Cg : closed g).
    { split; [|intros s Hs; rewrite Sg in Hs; injection Hs as <-; lia]. intros s t Ht.
      destruct (rev_edge rv f g Ng T0 TS s t Ht) as (p & -> & Hp & _). lia. }
    assert (Ag : (forall s, ~ on_cycle (mach f) s) -> forall s, ~ on_cycle (mach g) s) by (eapply rev_no_cycle; eauto).
    destruct (auto_queue_fresh idem pathp g (fun _ => true) Cg) as (q & sccs & -> & Fr & Mo).
    { intros Hb. destruct (reverse_acyclic L rv f g C Er Hb) as [Hb'|]; auto. }
    destruct (sd_internal _ _ _ _ _ _ _ _ _) as [R0|] eqn:E; [|discriminate].
    unfold sd_internal in E.
    destruct (sd_run code_queue true pathp false false (fun _ => true) fuel None g (SD code_queue q [] [] 0%nat)) as [R1|] eqn:E1; [|discriminate].
    assert (H0 : (the_source None 0 < num_states g)%nat) by (cbn; lia).
    destruct (run_correct L code_queue g (fun _ => true) false Cg (cq_ok g (fun _ => true)) (code_queue_spec g _) pathp None 0%nat
      (SD code_queue q [] [] 0%nat) (fun _ => 0%nat) None fuel R1 Sg H0) with (4 := E1)
      as (D & st' & M' & last' & -> & _ & _ & _ & [L1 L2] & _ & F & B).
    { eapply fresh_cq_ok; eauto. } { discriminate. } { eapply rev_calm; eauto. }
    injection E as <-. cbn [fst]. cbn [the_source] in L1, F, B. destruct D as [|d D]; [cbn in L1; lia|].
    intros E; injection E as <-. exists (map rb D). split; auto. cbn [length] in L2. split; [rewrite map_length; lia|].
    assert (rb_0 : rb 0 = 0) by (rewrite <- rv_0; apply rb_rv).
    assert (Nt : forall s, nth s (map rb D) 0 = rb (nth (S s) (d :: D) 0)) by (intros s; cbn [nth]; rewrite <- rb_0 at 1; apply map_nth).
    assert (D0 : nth 0 (d :: D) 0 = 1).
    { rewrite (F 0%nat). unfold unit_at. cbn [Nat.eqb]. transitivity (1 + adj (mach g) (S (num_states f)) (fun q => nth q (d :: D) 0) O : K').
      - f_equal. rewrite Ng. unfold adj. apply ksum_map_ext. intros p _. cbn [kmach mach mtrs].
        replace (filter (fun _ => true) (trs_of g p)) with (trs_of g p) by (induction (trs_of g p); simpl; congruence). auto.
      - rewrite (rev_adj0 L rv f g) by auto. apply (kplus_0_r L). }
    split.
    - intros s Hs.
      destruct (fixed_settles L g (fun _ => true) O (fun q => nth q (d :: D) 0) Cg H0) as (k & Hk); auto.
      { destruct H as [H|H]; [left; apply rev_idem; auto|right; apply any_acyclic; auto]. }
      exists k. intros j Hj. rewrite Nt, <- (Hk (S s) (S j)) by lia. rewrite kmach_any_upto.
      destruct (rev_upto LK L rv f g C Ng T0 TS j rv_0 rv_1 rv_plus rv_times) as [_ X]. rewrite X by auto. symmetry. apply rb_rv.
    - intros s Hs. rewrite Nt, (F (S s)). unfold unit_at. cbn [Nat.eqb]. rewrite (kplus_0_l _ L).
      transitivity (rb (adj (mach g) (S (num_states f)) (fun q => nth q (d :: D) 0) (S s))).
      + f_equal. rewrite Ng. unfold adj. apply ksum_map_ext. intros p _. cbn [kmach mach mtrs].
        replace (filter (fun _ => true) (trs_of g p)) with (trs_of g p) by (induction (trs_of g p); simpl; congruence). auto.
      + rewrite (rev_adj L rv f g) by auto. rewrite D0, (ktimes_1_l _ L).
        rewrite <- (rb_rv (fw (fin_of f s) + _)). f_equal. rewrite rv_plus. f_equal.
        assert (rs : forall l, rv (ksum l) = ksum (map rv l)) by (induction l as [|x l IH]; simpl; rewrite ?rv_plus, ?IH; auto).
        rewrite rs, map_map. apply ksum_map_ext. intros t _. rewrite rv_times, Nt, rv_rb. auto.
  Qed.

  Theorem C16_reverse_left_stops :
    forall (f : vfst K) idem pathp,
    closed f -> (has (vprops f) ACYCLIC = true -> forall s, ~ on_cycle (mach f) s) ->
    (forall s t, In t (trs_of f s) -> ns t = s -> forall r : K, r + wgt t * r = r) ->
    no_endless_growth K \/ (forall s, ~ on_cycle (mach f) s) ->
    exists fuel R, shortest_distance idem pathp true rv rb fuel f true = Some R.
  Proof.
    intros f idem pathp C Sn Ca H. unfold shortest_distance. cbn [negb].
    destruct (reverse_eff rv f C) as (g & Er & Ng & Sg & _ & _ & _ & T0 & TS & _). rewrite Er.
    assert (Cg : closed g).
    { split; [|intros s Hs; rewrite Sg in Hs; injection Hs as <-; lia]. intros s t Ht.
      destruct (rev_edge rv f g Ng T0 TS s t Ht) as (p & -> & Hp & _). lia. }
    assert (Ag : (forall s, ~ on_cycle (mach f) s) -> forall s, ~ on_cycle (mach g) s) by (eapply rev_no_cycle; eauto).
    destruct (auto_queue_fresh idem pathp g (fun _ => true) Cg) as (q & sccs & -> & Fr & Mo).
    { intros Hb. destruct (reverse_acyclic L rv f g C Er Hb) as [Hb'|]; auto. }
    destruct (run_terminates L code_queue g (fun _ => true) false Cg (cq_ok g (fun _ => true)) (code_queue_spec g _) pathp None 0%nat
      (SD code_queue q [] [] 0%nat) (fun _ => 0%nat) None Sg) as (fuel & R & E).
    { cbn. lia. } { eapply fresh_cq_ok; eauto. } { discriminate. }
    { eapply rev_calm; eauto. }
    { destruct H as [H|H]; [left; apply rev_growth; auto|right; apply no_cycle_acyclic, any_acyclic; auto]. }
    exists fuel. unfold sd_internal. rewrite E. destruct R as [[[|? ?] ?]| |]; cbn; eauto.
  Qed.
End C16R.

Section C16S.
  Context {K K' : SR} (LK : sr_laws K) (L : sr_laws K').
  Variables (rv : K -> K') (rb : K' -> K).
  Hypothesis rv_0 : rv 0 = 0.
  Hypothesis rv_1 : rv 1 = 1.
  Hypothesis rv_plus : forall a b, rv (a + b) = rv a + rv b.
  Hypothesis rv_times : forall a b, rv (a * b) = rv b * rv a.
  Hypothesis rb_rv : forall a, rb (rv a) = a.
  Hypothesis rv_rb : forall a, rv (rb a) = a.

  Lemma idle_left (f : vfst K) : loops_idle f (fun _ => true) -> forall s t, In t (trs_of f s) -> ns t = s -> forall r : K, r + wgt t * r = r.
  Proof.
    intros H s t Ht En r. rewrite <- (ktimes_1_l _ LK r) at 1. rewrite <- (kdistr_r _ LK), (H s t); auto. apply (ktimes_1_l _ LK).
  Qed.

  Theorem C16_reverse :
    forall (f : vfst K) idem pathp fuel R,
    closed f -> (has (vprops f) ACYCLIC = true -> forall s, ~ on_cycle (mach f) s) ->
    loops_idle f (fun _ => true) ->
    idempotent_plus K \/ (forall s, ~ on_cycle (mach f) s) ->
    shortest_distance idem pathp true rv rb fuel f true = Some R ->
    exists D, R = Ok D /\ (length D <= num_states f)%nat /\
      (forall s, (s < num_states f)%nat -> settles (fun k => back (mach f) k s) (nth s D 0)) /\
      (forall s, (s < num_states f)%nat ->
         nth s D 0 = fw (fin_of f s) + ksum (map (fun t => wgt t * nth (ns t) D 0) (trs_of f s))).
  Proof. intros f idem pathp fuel R C Sn Ca. apply (C16_reverse_left LK L rv rb); auto. apply idle_left. auto. Qed.

  Theorem C16_reverse_stops :
    forall (f : vfst K) idem pathp,
    closed f -> (has (vprops f) ACYCLIC = true -> forall s, ~ on_cycle (mach f) s) ->
    loops_idle f (fun _ => true) ->
    no_endless_growth K \/ (forall s, ~ on_cycle (mach f) s) ->
    exists fuel R, shortest_distance idem pathp true rv rb fuel f true = Some R.
  Proof. intros f idem pathp C Sn Ca. apply (C16_reverse_left_stops L rv rb); auto. apply idle_left. auto. Qed.
End C16S.
Print Assumptions C16_reverse_left.
Print Assumptions C16_reverse_left_stops.
Print Assumptions C16_any_queue.
Print Assumptions C16_any_queue_stops.
Print Assumptions C16_library_queues.
Print Assumptions C16_shortest_distance.
Print Assumptions C16_shortest_distance_stops.
Print Assumptions C16_bounded.
Print Assumptions C16_reverse.
Print Assumptions C16_reverse_stops.

(** Min-plus over the naturals and the booleans cannot grow for ever. *)
Theorem C16_growth : no_endless_growth tropN /\ no_endless_growth boolSR.
Proof.
  split.
  - assert (A : forall n x, (x < n)%nat -> Acc (fun a b : tropN => a <> b /\ exists c, a = b + c) (Some x)).
    { induction n as [|n IH]; intros x Hx; [lia|]. constructor. intros y [Hn ([c|] & ->)]; cbn in *; [|congruence].
      apply IH. destruct (Nat.min_spec x c) as [[? E]|[? E]]; rewrite E in *; [congruence|]. assert (c <> x) by congruence. lia. }
    intros [x|]; [apply (A (S x)); lia|]. constructor. intros [y|] [Hn _]; [apply (A (S y)); lia|congruence].
  - assert (A : Acc (fun a b : boolSR => a <> b /\ exists c, a = b + c) true).
    { constructor. intros y [Hn (c & ->)]. destruct c; cbn in Hn; congruence. }
    intros [|]; auto. constructor. intros [|] [Hn _]; auto. congruence.
Qed.
Print Assumptions C16_growth.

Local Close Scope K_scope.
(** Counting up to two: nothing, one path, several paths. *)
Inductive few := F0 | F1 | F2.
Definition fplus (a b : few) : few := match a, b with F0, x | x, F0 => x | _, _ => F2 end.
Definition ftimes (a b : few) : few := match a, b with F0, _ | _, F0 => F0 | F1, x | x, F1 => x | _, _ => F2 end.
Definition feqb (a b : few) : bool := match a, b with F0, F0 | F1, F1 | F2, F2 => true | _, _ => false end.
Definition fewSR : SR := mkSR few F0 F1 fplus ftimes feqb.
Canonical fewSR.
Lemma fewSR_laws : sr_laws fewSR.
Proof.
  split; [split; [split|]|]; simpl; intros; repeat match goal with b : few |- _ => destruct b end; simpl; auto; split; auto; discriminate.
Qed.

(** The code tests the flag of the state it came from, so a state updated after a self-loop is
    never enqueued: state 2 gets zero although paths reach it. *)
Definition c16_loop : list (op fewSR) :=
  [OAddStates 3; OSetStart 0; OAddTr 0 (Tr 1 1 F1 0); OAddTr 0 (Tr 1 1 F2 1); OAddTr 1 (Tr 1 1 F1 2); OSetFinal 2 F1].
Theorem C16_self_loop_refuted :
  exists (f : vfst fewSR) D v, run vnew c16_loop = Ok f /\ vstart f = Some 0 /\
    shortest_distance false false true (fun w => w) (fun w => w) 20 f false = Some (Ok D) /\
    settles (fun k => upto (mach f) k 0 2) v /\ nth 2 D F0 <> v.
Proof.
  do 2 eexists. exists F2. split; [vm_compute; reflexivity|]. split; [reflexivity|]. split; [vm_compute; reflexivity|]. split.
  - exists 2. intros j Hj. induction Hj as [|j Hj IH]; [vm_compute; reflexivity|]. rewrite (upto_snoc fewSR_laws), IH.
    destruct (to_sum _ _ _ _); reflexivity.
  - vm_compute. discriminate.
Qed.
Print Assumptions C16_self_loop_refuted.

(** A cyclic machine with a self-loop, two ways to each state. *)
Definition c16_calls : list (op tropN) :=
  [OAddStates 4; OSetStart 0; OAddTr 0 (Tr 1 1 (Some 1) 0); OAddTr 0 (Tr 1 1 (Some 7) 1); OAddTr 0 (Tr 2 2 (Some 2) 2);
   OAddTr 2 (Tr 1 1 (Some 3) 1); OAddTr 1 (Tr 3 3 (Some 4) 0); OAddTr 1 (Tr 3 3 (Some 0) 3); OAddTr 3 (Tr 3 3 (Some 1) 3); OSetFinal 3 (Some 6)].
Example C16_instance :
  exists f, run vnew c16_calls = Ok f /\ closed f /\ vstart f = Some 0 /\ bounded tropN /\
    (has (vprops f) ACYCLIC = true -> forall s, ~ on_cycle (mach f) s) /\ loops_idle f (fun _ => true) /\
    on_cycle (mach f) 0 /\
    shortest_distance true true true (fun w => w) (fun w => w) 30 f false = Some (Ok [Some 0; Some 5; Some 2; Some 5]) /\
    shortest_distance true true true (fun w => w) (fun w => w) 30 f true = Some (Ok [Some 11; Some 6; Some 9; Some 6]).
Proof.
  eexists. split; [vm_compute; reflexivity|]. split.
  { split; [|cbn; intros s H; inversion H; vm_compute; lia].
    intros s t. destruct s as [|[|[|[|s]]]]; cbn; try tauto; try (destruct s; simpl; tauto);
    intros H; repeat destruct H as [<-|H]; try destruct H; vm_compute; lia. }
  split; [reflexivity|]. split; [apply tropN_bounded|]. split; [vm_compute; discriminate|].
  split; [intros s t _ _ _; apply tropN_bounded|]. split.
  { eexists. split; [simpl; left; reflexivity|]. constructor. }
  split; vm_compute; reflexivity.
Qed.
