(** [expand], and the machine [rm_epsilon] has after each state. *)
From Coq Require Import List Arith NArith ZArith Bool Lia Permutation.
From Verif Require Import Base.Util Base.Semiring Base.Machine Base.PathSum Base.PropSpec Model.Props Model.AlgoProps Model.VectorFst Model.Dfs Model.Visitors Model.Rational
  Model.Queues Model.ShortestDistance Model.RmEpsilon
  Proofs.PropsFacts Proofs.VectorFacts Proofs.VectorProps Proofs.HistoryFacts Proofs.OpFacts Proofs.TrOpsFacts Proofs.RationalFacts Proofs.Tarjan Proofs.SdFacts Proofs.SdRun Proofs.SdLive Proofs.ReverseDist
  Proofs.ConnectFacts Proofs.AutoQueueFacts Proofs.VisitFacts Props.C03 Props.C05 Props.C14 Props.C16 Proofs.EpsFacts Proofs.ExpandFacts.
Import ListNotations.
Local Open Scope K_scope.

Lemma qspec_sub {K : SR} (Q : qops) (m m' : machine K) n ok :
  (forall s t, In t (mtrs m' s) -> exists t', In t' (mtrs m s) /\ ns t' = ns t) -> qspec Q m n ok -> qspec Q m' n ok.
Proof.
  intros H [A B D]. split; auto. intros q M last s O Hs Hl. apply B; auto. intros u Hu. destruct (Hl u Hu) as (t & Ht & <-). apply (H u t Ht).
Qed.

Lemma has_when c l x b : has (when c l x) b = has x b || (c && inb b l).
Proof. unfold when. destruct c; [apply has_pset|]. rewrite orb_false_r. auto. Qed.
Lemma has_copyif c l p x b : has (copyif c l p x) b = has x b || (c && inb b l && has p b).
Proof. unfold copyif. destruct c; cbn [andb]; rewrite ?orb_false_r; auto. rewrite has_lor, has_pkeep, andb_comm. auto. Qed.

Lemma connect_fsound {K : SR} (L : lsr_laws K) (f g : vfst K) : closed f -> cnt f -> connect f = Ok g -> fsound f -> fsound g.
Proof.
  intros Hc C Eg So.
  destruct (connect_eq f Hc C) as (d & h & Ec & Ed & S & U & _). rewrite Ec in Eg. inversion Eg as [Eg']. clear Eg.
  set (g' := set_properties_with_mask _ _ _) in *.
  assert (S' : is_submachine f d g') by exact S.
  assert (Ug := sub_useful f d g' Hc U S').
  assert (Sh : fsound h) by (eapply fsound_del_states; eauto).
  assert (Hb : forall b, has (vprops g') b = (has (vprops h) b && negb (inb b [ACCESSIBLE; COACCESSIBLE])) || inb b [ACCESSIBLE; COACCESSIBLE]).
  { intros b. change (vprops g') with (N.lor (N.land (vprops h) (pnot (mask [ACCESSIBLE; COACCESSIBLE])))
      (N.land (mask [ACCESSIBLE; COACCESSIBLE]) (mask [ACCESSIBLE; COACCESSIBLE]))).
    rewrite has_lor, !has_land, has_pnot, !has_mask. destruct (inb b _); auto. }
  intros b H. rewrite Hb in H. apply orb_true_iff in H as [H|H].
  - apply andb_true_iff in H as [H _]. exact (Sh b H).
  - apply inb_In in H. destruct H as [<-|[<-|[]]]; simpl; intros s Hs; apply Ug; auto.
Qed.

Section Rm.
  Context {K : SR} (L : sr_laws K) (Q : qops).
  Notation weights := (nat -> list nat -> list nat -> K).
  Implicit Types f g : vfst K.
  Notation eps := epsilon_filter.

  Variable ok : Q -> (nat -> nat) -> option nat -> Prop.
  Hypothesis Pos : positive K.

  (** What a retained state satisfies between two calls. *)
  Definition rest_ok f (st : rmst K Q) : Prop :=
    (exists M last, ok (sd_queue _ (rs_sd _ st)) M last) /\ tagged Q f (rs_sd _ st) /\ even Q (rs_sd _ st) /\
    (forall e j i, em_get e (rs_map _ st) = Some (j, i) -> (j < rs_id _ st)%nat) /\
    (forall q, nth q (rs_visited _ st) false = false).

  Lemma rest_new f q : ok q (fun _ => O) None -> rest_ok f (rmst_new Q q).
  Proof.
    intros Hq. split; [exists (fun _ => O), None; auto|]. split; [|split; [reflexivity|split; [discriminate|intros [|]; auto]]].
    split; cbn; [lia|]. intros [|] j; discriminate.
  Qed.

  Lemma upto_unreached (m : machine K) k a q : ~ reach m a q -> upto m k a q = 0.
  Proof.
    intros H. unfold upto. apply (ksum_map_zero L). intros i _. unfold to_sum, psum. apply (ksum_map_zero L). intros p Hp.
    apply paths_is_path in Hp as [Hp _]. destruct (Nat.eqb_spec (dst a p) q) as [E|]; auto. exfalso. apply H. apply reach_path. eauto.
  Qed.

  Definition nonzero_eps f : Prop := forall s t, In t (trs_of f s) -> eps t = true -> wgt t <> 0.

  (** [trs] and [fin] are the epsilon closure of [s]. *)
  Definition closure_of f s (trs : list (tr K)) (fin : K) (D : nat -> K) : Prop :=
    (forall t, In t trs -> eps t = false /\ exists q u, In u (trs_of f q) /\ eps u = false /\ ns u = ns t) /\
    (forall V x y, (if isnil x && isnil y then fin else 0) + tsum trs V x y =
       ksum (map (fun q => D q * nstep (mach f) V q x y) (seq O (num_states f)))) /\
    exists k, forall j q, (k <= j)%nat -> upto (kmach f eps) j s q = D q.
  (** The labels and targets: those of the transitions of the states reached by epsilons. *)
  Definition closure_labels f s (trs : list (tr K)) : Prop :=
    forall e, In e (map elt_of trs) <-> exists q t, reach (kmach f eps) s q /\ In t (trs_of f q) /\ eps t = false /\ e = elt_of t.

  Lemma ksum_seen n (P : nat -> Prop) (G : nat -> K) seen : NoDup seen -> (forall q, In q seen -> (q < n)%nat) ->
    (forall q, ~ In q seen -> G q = 0) -> ksum (map G seen) = ksum (map G (seq O n)).
  Proof.
    intros Nd Sn Z. transitivity (ksum (map G (filter (fun q => if in_dec Nat.eq_dec q seen then true else false) (seq O n)))).
    - apply (ksum_perm_map L). apply NoDup_Permutation; auto; [apply NoDup_filter, seq_NoDup|]. intros q. rewrite filter_In, in_seq.
      destruct (in_dec Nat.eq_dec q seen); split; intros H; auto; try tauto; try (destruct H; discriminate).
      split; auto. apply Sn in H. lia.
    - rewrite (ksum_filter L). apply ksum_map_ext. intros q _. destruct (in_dec Nat.eq_dec q seen); auto. symmetry; auto.
  Qed.

  Theorem expand_ok f pathp fuel s start st R : closed f -> vstart f = Some start -> qspec Q (kmach f eps) (num_states f) ok ->
    nonzero_eps f -> loops_idle f eps -> idempotent_plus K \/ kept_acyclic f eps -> (s < num_states f)%nat -> rest_ok f st ->
    expand Q true pathp fuel s f st = Some R ->
    exists trs fin st' D, R = Ok (trs, fin, st') /\ rest_ok f st' /\ closure_of f s trs fin D /\ closure_labels f s trs.
  Proof.
    intros C Es QS Nz Ca H Hs ((M & last & Oq) & Tg & Ev & Mp & Vs) E. unfold expand in E.
    destruct (sd_run Q true pathp false true eps fuel (Some s) f (rs_sd _ st)) as [R0|] eqn:E0; [|discriminate].
    destruct (run_correct L Q f eps true C ok QS pathp (Some s) start (rs_sd _ st) M last fuel R0 Es Hs Oq (fun _ => Tg) (idle_calm L f eps Ca) E0)
      as (D & sd & M' & last' & -> & O' & Id' & Tg' & Ln & Dm & F & B). cbn [the_source] in *.
    assert (Nz' : forall q t, In t (mtrs (kmach f eps) q) -> wgt t <> 0).
    { intros q t Ht. cbn in Ht. apply filter_In in Ht as [H1 H2]. eapply Nz; eauto. }
    pose proof (run_live L Q f eps true C ok QS Pos Nz' s Hs (idle_calm L f eps Ca) pathp (Some s) start (rs_sd _ st) M last fuel D sd Es eq_refl Oq (fun _ => Tg) E0) as Lv.
    pose proof (sd_run_even Q f eps pathp fuel (Some s) (rs_sd _ st) D sd Ev E0) as Ev'.
    assert (Dl : forall q, reach (kmach f eps) s q -> (q < length D)%nat).
    { intros q Hq. specialize (Lv q Hq eq_refl). rewrite Dm, map_length. red in Ev'. rewrite <- Ev'.
      destruct (Nat.lt_ge_cases q (length (sd_src _ sd))); auto. rewrite nth_overflow in Lv by auto. discriminate. }
    destruct (fixed_settles L f eps s _ C Hs H F B) as (k & Hk).
    destruct (expand_loop L f C (rs_id _ st) D s Hs Dl (rs_map _ st) (rs_visited _ st) Mp Vs)
      as (x' & seen & fin & E1 & Mo & Vs' & Nd & Sn & Ts & Fi & Fr).
    rewrite E1 in E. cbn [rbind] in E. injection E as <-.
    set (Dq := fun q => if src_is (nth q (sd_src _ sd) None) (sd_id _ (rs_sd _ st)) then nth q D 0 else 0) in *.
    assert (Hd : forall q, In q seen -> nth q D 0 = Dq q).
    { intros q Hq. apply Sn in Hq. unfold Dq. rewrite (Lv q Hq eq_refl). cbn. rewrite Nat.eqb_refl. auto. }
    assert (Hz : forall q, ~ In q seen -> Dq q = 0).
    { intros q Hq. transitivity (upto (kmach f eps) k s q); [symmetry; exact (Hk q k (le_n k))|]. apply upto_unreached. intros Hr. apply Hq, Sn, Hr. }
    assert (P : forall G : nat -> K, part D G seen = ksum (map (fun q => Dq q * G q) (seq O (num_states f)))).
    { intros G. unfold part. rewrite <- (ksum_seen (num_states f) (fun _ => True) (fun q => Dq q * G q) seen Nd).
      - apply ksum_map_ext. intros q Hq. rewrite (Hd q Hq). auto.
      - intros q Hq. apply Sn in Hq. apply (reach_n f C D s Hs Dl q Hq).
      - intros q Hq. rewrite (Hz q Hq). apply (ktimes_0_l _ L). }
    exists (ex_trs x'), fin, (RS Q (set_all_at false seen (ex_vis x')) (ex_map x') (S (rs_id _ st)) sd), Dq. split; auto. split; [|split; [split; [|split]|]].
    - split; [exists M', last'; auto|]. split; [auto|]. split; auto. split; [|auto]. cbn. intros e j i He. apply Mo in He. lia.
    - intros t Ht. destruct (Fr t Ht) as (q & u & Hu & Eu & Ee). unfold elt_of in Ee. injection Ee as E2 E3 E4.
      split; [|exists q, u; auto]. unfold eps in *. rewrite <- E2, <- E3. auto.
    - intros V x y. rewrite Ts, P. unfold nstep, stop.
      transitivity (ksum (map (fun q => Dq q * (if isnil x && isnil y then fw (fin_of f q) else 0)) (seq O (num_states f))) +
        ksum (map (fun q => Dq q * tsum (filter noneps (trs_of f q)) V x y) (seq O (num_states f)))).
      + f_equal. destruct (isnil x && isnil y); [rewrite Fi; apply P|].
        symmetry. apply (ksum_map_zero L). intros q _. apply (ktimes_0_r _ L).
      + rewrite <- (ksum_map_plus L). apply ksum_map_ext. intros q _. symmetry. apply (kdistr_l _ L).
    - exists k. intros j q Hj. apply Hk. auto.
    - destruct (ex_loop_elts L f (rs_id _ st) D (ex_fuel f) (EX [s] [] (rs_map _ st) (rs_visited _ st)) [] 0 x' seen fin) as (new & En & El); [|exact E1|].
      { intros e j i He. apply Mp in He. split; [lia|]. intros ->. lia. }
      rewrite app_nil_r in En. subst new. intros e. change (map elt_of (ex_trs x')) with (elts x'). rewrite El. split.
      + intros [[]|(q & t & Hq & H1)]. exists q, t. rewrite <- Sn. auto.
      + intros (q & t & Hq & H1). right. exists q, t. rewrite Sn. auto.
  Qed.

  Theorem expand_stops f pathp s start st : closed f -> vstart f = Some start -> qspec Q (kmach f eps) (num_states f) ok ->
    loops_idle f eps -> no_endless_growth K \/ kept_acyclic f eps -> (s < num_states f)%nat -> rest_ok f st ->
    exists fuel R, expand Q true pathp fuel s f st = Some R.
  Proof.
    intros C Es QS Ca H Hs ((M & last & O) & Tg & Ev & Mp & Vs).
    destruct (run_terminates L Q f eps true C ok QS pathp (Some s) start (rs_sd _ st) M last Es Hs O (fun _ => Tg) (idle_calm L f eps Ca)) as (fuel & R & E).
    - destruct H as [H|H]; [left; exact H|right; apply no_cycle_acyclic; auto].
    - exists fuel. unfold expand. rewrite E. destruct R as [[d sd]| |]; eauto.
  Qed.

  (** ** Installing the closure *)
  Lemma install_ok f s trs fin : (s < num_states f)%nat ->
    exists g, rm_install f s trs fin = Ok g /\ eff f g /\
      (forall q, trs_of g q = if Nat.eqb q s then rev trs else trs_of f q) /\
      (forall q, q <> s -> fin_of g q = fin_of f q) /\ fw (fin_of g s) = fin /\ (fsound f -> fsound g).
  Proof.
    intros Hs. unfold rm_install, pop_trs. destruct (nth_state f s Hs) as (vs & E & E1 & E2). rewrite E. cbn [unwrap rbind fst].
    set (f1 := upd_state f s _ _).
    assert (F1 : eff f f1) by (apply eff_upd; intros _; split; reflexivity).
    assert (T1 : forall q, trs_of f1 q = if Nat.eqb q s then [] else trs_of f q) by (intros q; apply trs_of_upd; auto).
    assert (N1 : forall q, fin_of f1 q = fin_of f q).
    { intros q. unfold f1. rewrite fin_of_upd by auto. cbn. destruct (Nat.eqb_spec q s); subst; auto. }
    assert (B1 : fsound f -> fsound f1).
    { intros Sf. eapply fsound_pop_trs; [exact Sf|]. unfold pop_trs. rewrite E. reflexivity. }
    pose proof (eff_n _ _ F1) as Hn.
    destruct (set_trs_eff f1 s (rev trs)) as (f2 & E3 & F2 & T2 & N2); [lia|]. rewrite E3. cbn [rbind]. pose proof (eff_n _ _ F2) as Hn2.
    assert (T : forall q, trs_of f2 q = if Nat.eqb q s then rev trs else trs_of f q).
    { intros q. rewrite T2, T1. destruct (Nat.eqb q s); auto. }
    assert (B2 : fsound f -> fsound f2).
    { intros Sf. eapply (fsound_set_trs L); [apply B1, Sf| |exact E3]. rewrite T1, Nat.eqb_refl. auto. }
    destruct (keqbP L fin 0) as [->|Hf].
    - destruct (del_final_eff f2 s) as (g & E4 & F3 & T3 & N3); [lia|]. rewrite E4. cbn [unwrap]. exists g. split; auto.
      split; [exact (eff_trans _ _ _ (eff_trans _ _ _ F1 F2) F3)|]. split; [intros; rewrite T3; auto|]. split.
      + intros q Hq. rewrite N3, N2, N1. apply Nat.eqb_neq in Hq. rewrite Hq. auto.
      + rewrite N3, Nat.eqb_refl. split; auto. intros Sf. eapply (fsound_del_final L); [apply B2, Sf|exact E4].
    - destruct (set_final_eff f2 s fin) as (g & E4 & F3 & T3 & N3); [lia|]. rewrite E4. cbn [unwrap]. exists g. split; auto.
      split; [exact (eff_trans _ _ _ (eff_trans _ _ _ F1 F2) F3)|]. split; [intros; rewrite T3; auto|]. split.
      + intros q Hq. rewrite N3, N2, N1. apply Nat.eqb_neq in Hq. rewrite Hq. auto.
      + rewrite N3, Nat.eqb_refl. split; auto. intros Sf. eapply (fsound_set_final L); [apply B2, Sf|exact E4].
  Qed.

  Lemma tsum_rev (l : list (tr K)) V x y : tsum (rev l) V x y = tsum l V x y.
  Proof. unfold tsum. apply (ksum_perm_map L). apply Permutation_sym, Permutation_rev. Qed.

  Lemma install_replaced f g s trs fin D : closure_of f s trs fin D ->
    (forall q, trs_of g q = if Nat.eqb q s then rev trs else trs_of f q) ->
    (forall q, q <> s -> fin_of g q = fin_of f q) -> fw (fin_of g s) = fin ->
    replaced (num_states f) (mach f) (mach g) s D.
  Proof.
    intros (Cl & Eq & _) T N F. split.
    - intros q Hq. cbn. rewrite T. apply Nat.eqb_neq in Hq. rewrite Hq. auto.
    - intros q Hq. cbn. rewrite N; auto.
    - intros t. cbn. rewrite T, Nat.eqb_refl. intros Ht. apply in_rev in Ht. apply Cl. auto.
    - intros V x y. rewrite <- Eq. unfold step, stop. cbn [mach mtrs mfin]. rewrite F, T, Nat.eqb_refl. f_equal. apply tsum_rev.
  Qed.

  (** ** What links the machine to the one before any replacement *)
  Variable f0 : vfst K.
  Let n := num_states f0.
  Variable start : nat.
  Hypothesis C0 : closed f0.
  Hypothesis Es0 : vstart f0 = Some start.
  Hypothesis Cn0 : cnt f0.
  Hypothesis QS0 : qspec Q (kmach f0 eps) n ok.
  Hypothesis Nz0 : nonzero_eps f0.
  Hypothesis Ca0 : loops_idle f0 eps.
  Hypothesis H0 : idempotent_plus K \/ kept_acyclic f0 eps.

  Definition same_sums f g : Prop :=
    (idempotent_plus K -> (forall j, vle n (tot (mach f) j) (tot (mach g) j)) /\ forall j, exists j', vle n (tot (mach g) j) (tot (mach f) j')) /\
    (kept_acyclic f0 eps -> forall V, solves n (mach f) V -> solves n (mach g) V).

  Lemma same_refl f : same_sums f f.
  Proof. split; auto. intros Id. split; intros j; [apply (vle_refl n Id)|exists j; apply (vle_refl n Id)]. Qed.
  Lemma same_trans f g h : same_sums f g -> same_sums g h -> same_sums f h.
  Proof.
    intros [A1 A2] [B1 B2]. split; auto. intros Id. destruct (A1 Id) as [A3 A4], (B1 Id) as [B3 B4]. split.
    - intros j. eapply (vle_trans L n); eauto.
    - intros j. destruct (B4 j) as (j1 & H1). destruct (A4 j1) as (j2 & H2). exists j2. eapply (vle_trans L n); eauto.
  Qed.

  Definition into f (t : tr K) : Prop := exists q u, In u (trs_of f q) /\ eps u = false /\ ns u = ns t.
  Definition good f : Prop :=
    eff f0 f /\ closed f /\ (forall s t, In t (trs_of f s) -> eps t = true -> In t (trs_of f0 s)) /\
    (forall s t, In t (trs_of f s) -> eps t = false -> into f0 t) /\ (fsound f0 -> fsound f) /\ same_sums f0 f.

  Lemma good_0 : good f0.
  Proof. split; [apply eff_refl|]. split; auto. split; auto. split; [|split; [auto|apply same_refl]]. intros s t Ht Et. exists s, t. auto. Qed.

  Lemma good_side f : good f -> num_states f = n /\ vstart f = Some start /\ qspec Q (kmach f eps) (num_states f) ok /\ nonzero_eps f /\ loops_idle f eps /\
    (idempotent_plus K \/ kept_acyclic f eps) /\ (kept_acyclic f0 eps -> kept_acyclic f eps) .
  Proof.
    intros (E & C & Ep & _). pose proof (eff_n _ _ E) as En. pose proof E as (_ & Es & _). split; auto. split; [congruence|].
    assert (Sub : forall s t, In t (mtrs (kmach f eps) s) -> In t (mtrs (kmach f0 eps) s)).
    { intros s t Ht. cbn in *. apply filter_In in Ht as [H1 H2]. apply filter_In. auto. }
    assert (Ac : kept_acyclic f0 eps -> kept_acyclic f eps).
    { intros Ac s (t & Ht & Hr). apply (Ac s). exists t. split; auto. eapply reach_mono; [|exact Hr]. intros q u. apply Sub. }
    split; [rewrite En; eapply qspec_sub; [|exact QS0]; eauto|]. split; [intros s t Ht Et; eapply Nz0; eauto|].
    split; [intros s t Ht Et; eapply Ca0; eauto|]. split; auto. destruct H0; auto.
  Qed.

  Lemma closed_inside f : closed f -> num_states f = n -> inside n (mach f).
  Proof. intros C E s t Ht. cbn in Ht. apply (proj1 C) in Ht. lia. Qed.
  Lemma acyclic_low f : closed f -> num_states f = n -> kept_acyclic f eps -> forall a, (a < n)%nat -> low (mach f) n a.
  Proof.
    intros C E Ac a Ha p Hp. apply Nat.lt_le_incl. apply (acyclic_short (em (mach f)) n) with a; auto.
    - intros s t Ht. apply (em_inside n _ _ _ (closed_inside f C E) Ht).
    - apply no_cycle_acyclic. exact Ac.
  Qed.

  Lemma into_trans f (t : tr K) : good f -> into f t -> into f0 t.
  Proof. intros (_ & _ & _ & I & _) (q & u & Hu & Eu & E). destruct (I q u Hu Eu) as (p & w & Hw & Ew & E'). exists p, w. split; auto. split; auto. congruence. Qed.

  Lemma install_good f s trs fin D : good f -> (s < n)%nat -> closure_of f s trs fin D ->
    exists g, rm_install f s trs fin = Ok g /\ good g /\ (forall t, In t (trs_of g s) -> eps t = false) /\
      forall q, q <> s -> trs_of g q = trs_of f q.
  Proof.
    intros G Hs Cl. destruct (good_side f G) as (En & Es & QS & Nz & Ca & H & Ac). pose proof G as (E & C & Ep & I & So & S).
    destruct (install_ok f s trs fin) as (g & Eg & Fg & Tg & Ng & Nf & Sg); [lia|].
    pose proof (install_replaced f g s trs fin D Cl Tg Ng Nf) as R. rewrite En in R.
    assert (Cg : closed g).
    { split.
      - intros q t. rewrite (eff_n _ _ Fg), Tg. destruct (Nat.eqb q s); [|apply (proj1 C)]. intros Ht. apply in_rev in Ht.
        destruct Cl as (Cl & _). destruct (Cl t Ht) as (_ & p & u & Hu & _ & <-). apply (proj1 C p u Hu).
      - rewrite (eff_n _ _ Fg). destruct Fg as (_ & -> & _). apply C. }
    exists g. split; auto. split; [|split].
    - split; [eapply eff_trans; eauto|]. split; auto. split; [|split; [|split; [auto|]]].
      + intros q t. rewrite Tg. destruct (Nat.eqb q s); [|auto]. intros Ht Et. apply in_rev in Ht. apply Cl in Ht as [Ht _]. congruence.
      + intros q t. rewrite Tg. destruct (Nat.eqb q s); [|apply I]. intros Ht Et. apply in_rev in Ht. apply Cl in Ht as [_ Ht].
        eapply into_trans; eauto.
      + eapply same_trans; [exact S|]. destruct Cl as (_ & _ & k & Hk).
        pose proof (closed_inside f C En) as In0. assert (Eng : num_states g = n) by (rewrite (eff_n _ _ Fg); auto).
        pose proof (closed_inside g Cg Eng) as In1. split.
        * intros Id. split; intros j.
          -- eapply (rep_above L n Id); eauto.
          -- eexists. eapply (rep_below L n Id); eauto.
        * intros Ac0 V. apply (solves_replaced L n (mach f) (mach g) s (n + k)); auto.
          -- apply (acyclic_low f C En (Ac Ac0)).
          -- lia.
          -- destruct R as [R1 R2 R3 R4]. split; auto. intros V' x y. rewrite R4. apply ksum_map_ext. intros q _. f_equal. symmetry. apply Hk. lia.
    - intros t. rewrite Tg, Nat.eqb_refl. intros Ht. apply in_rev in Ht. apply Cl. auto.
    - intros q Hq. rewrite Tg. apply Nat.eqb_neq in Hq. rewrite Hq. auto.
  Qed.

  (** ** All states *)
  Lemma states_ok pathp fuel nin l : forall f st R, good f -> rest_ok f st -> (forall s, In s l -> (s < n)%nat) -> length nin = n ->
    rm_states Q true pathp fuel nin l f st = Some R ->
    exists g, R = Ok g /\ good g /\ (forall s t, In s l -> nth s nin false = true -> In t (trs_of g s) -> eps t = false) /\
      forall s, (forall t, In t (trs_of f s) -> eps t = false) -> forall t, In t (trs_of g s) -> eps t = false.
  Proof.
    induction l as [|s l IH]; intros f st R G Ro Hl Ln E; cbn [rm_states] in E.
    - injection E as <-. exists f. split; auto. split; auto. split; [intros s t []|auto].
    - assert (Hs : (s < n)%nat) by (apply Hl; left; auto).
      rewrite (nth_error_nth' nin false) in E by lia. destruct (nth s nin false) eqn:En.
      + destruct (good_side f G) as (Ef & Es & QS & Nz & Ca & H & Ac).
        destruct (expand Q true pathp fuel s f st) as [R0|] eqn:E0; [|discriminate].
        destruct (expand_ok f pathp fuel s start st R0) as (trs & fin & st' & D & -> & Ro' & Cl & _); auto; try lia; [apply G|].
        destruct (install_good f s trs fin D G Hs Cl) as (g & Eg & G' & Fr & Ot). rewrite Eg in E.
        assert (Ro2 : rest_ok g st').
        { destruct Ro' as (A1 & [A2 A2'] & A3). split; auto. split; [split; auto|auto].
          destruct (good_side g G') as (Eg' & _). rewrite Eg', <- Ef. auto. }
        destruct (IH g st' R G' Ro2) as (h & -> & Gh & Fh & Oh); auto; [intros; apply Hl; right; auto|].
        exists h. split; auto. split; auto. split.
        * intros q t [<-|Hq] Nq; [apply Oh; auto|apply Fh; auto].
        * intros q Hq. apply Oh. destruct (Nat.eq_dec q s) as [->|Hne]; auto. rewrite Ot; auto.
      + destruct (IH f st R G Ro) as (h & -> & Gh & Fh & Oh); auto; [intros; apply Hl; right; auto|].
        exists h. split; auto. split; auto. split; auto. intros q t [<-|Hq] Nq; [congruence|apply Fh; auto].
  Qed.

  (** More fuel does not change a result. *)
  Lemma sd_loop_mono fp retain keep f : forall fuel fuel' st R, sd_loop Q fp retain keep fuel f st = Some R -> (fuel <= fuel')%nat ->
    sd_loop Q fp retain keep fuel' f st = Some R.
  Proof.
    induction fuel as [|fuel IH]; intros fuel' st R E Hf; [discriminate|]. destruct fuel' as [|fuel']; [lia|]. cbn [sd_loop] in *.
    destruct (qo_dequeue Q _) as [[[s|] q]| |]; auto. destruct (if fp then _ else _) as [[w|]| |]; auto. destruct (nth_error _ _); auto.
    destruct (get_trs f s); auto. destruct (sd_trs _ _ _ _ _ _ _); auto. apply IH; auto. lia.
  Qed.
  Lemma expand_mono pathp fuel fuel' s f st R : expand Q true pathp fuel s f st = Some R -> (fuel <= fuel')%nat ->
    expand Q true pathp fuel' s f st = Some R.
  Proof.
    intros E Hf. unfold expand, sd_run in *. destruct (vstart f); auto. cbn [negb andb] in *. destruct (qo_clear Q _); auto.
    destruct (qo_enqueue Q _ _); auto. cbv zeta in *. destruct (sd_loop Q false true eps fuel f _) as [r|] eqn:El; [|discriminate].
    rewrite (sd_loop_mono _ _ _ _ _ _ _ _ El Hf). auto.
  Qed.
  Lemma states_mono pathp fuel fuel' nin l : (fuel <= fuel')%nat -> forall f st R, rm_states Q true pathp fuel nin l f st = Some R ->
    rm_states Q true pathp fuel' nin l f st = Some R.
  Proof.
    intros Hf. induction l as [|s l IH]; intros f st R E; cbn [rm_states] in *; auto.
    destruct (nth_error nin s) as [[|]|]; auto. destruct (expand Q true pathp fuel s f st) as [r|] eqn:El; [|discriminate].
    rewrite (expand_mono _ _ _ _ _ _ _ El Hf). destruct r as [[[trs fin] st']| |]; auto. destruct (rm_install f s trs fin); auto.
  Qed.

  Lemma states_stop pathp nin l : no_endless_growth K \/ kept_acyclic f0 eps ->
    forall f st, good f -> rest_ok f st -> (forall s, In s l -> (s < n)%nat) -> length nin = n ->
    exists fuel R, rm_states Q true pathp fuel nin l f st = Some R.
  Proof.
    intros Hw. induction l as [|s l IH]; intros f st G Ro Hl Ln; [exists O; cbn; eauto|].
    assert (Hs : (s < n)%nat) by (apply Hl; left; auto). cbn [rm_states].
    rewrite (nth_error_nth' nin false) by lia. destruct (nth s nin false) eqn:En; [|apply IH; auto; intros; apply Hl; right; auto].
    destruct (good_side f G) as (Ef & Es & QS & Nz & Ca & H & Ac).
    destruct (expand_stops f pathp s start st) as (fuel1 & R1 & E1); auto; try lia; [apply G|destruct Hw; auto|].
    destruct (expand_ok f pathp fuel1 s start st R1) as (trs & fin & st' & D & -> & Ro' & Cl & _); auto; try lia; [apply G|].
    destruct (install_good f s trs fin D G Hs Cl) as (g & Eg & G' & Fr & Ot).
    assert (Ro2 : rest_ok g st').
    { destruct Ro' as (A1 & [A2 A2'] & A3). split; auto. split; [split; auto|auto].
      destruct (good_side g G') as (Eg' & _). rewrite Eg', <- Ef. auto. }
    destruct (IH g st' G' Ro2) as (fuel2 & R2 & E2); auto; [intros; apply Hl; right; auto|].
    exists (fuel1 + fuel2)%nat, R2. rewrite (expand_mono _ _ _ _ _ _ _ E1) by lia. rewrite Eg.
    apply (states_mono pathp fuel2); auto. lia.
  Qed.

  (** ** The start of the call *)
  Lemma noneps_ok : exists nin, noneps_in f0 start = Ok nin /\ length nin = n /\ nth start nin false = true /\
    forall t, into f0 t -> nth (ns t) nin false = true.
  Proof.
    unfold noneps_in. rewrite repeat_length. pose proof (proj2 C0 start Es0) as Hst. fold n in Hst |- *.
    replace (start <? n) with true by (symmetry; apply Nat.ltb_lt; auto). cbn [rbind].
    set (mark := fun (l : list bool) (s : nat) => if s <? length l then Ok (upd l s true) else Panic).
    assert (Tr : forall ts l, (forall t, In t ts -> (ns t < length l)%nat) ->
      exists l', rfold (fun l (t : tr K) => if eps t then Ok l else mark l (ns t)) ts l = Ok l' /\ length l' = length l /\
        (forall q, nth q l false = true -> nth q l' false = true) /\ forall t, In t ts -> eps t = false -> nth (ns t) l' false = true).
    { induction ts as [|t ts IH]; intros l Hl; [exists l; split; auto; split; auto; split; auto; intros t []|].
      rewrite rfold_cons. destruct (eps t) eqn:Et; cbn [rbind].
      - destruct (IH l) as (l' & E & A1 & A2 & A3); [intros; apply Hl; right; auto|]. exists l'. split; auto. split; auto. split; auto.
        intros u [<-|Hu] Eu; [congruence|auto].
      - assert (Ht : (ns t < length l)%nat) by (apply Hl; left; auto). replace (mark l (ns t)) with (Ok (upd l (ns t) true)) by (unfold mark; rewrite (proj2 (Nat.ltb_lt _ _) Ht); auto). cbn [rbind].
        destruct (IH (upd l (ns t) true)) as (l' & E & A1 & A2 & A3); [intros; rewrite upd_length; apply Hl; right; auto|].
        rewrite upd_length in A1. exists l'. split; auto. split; auto. split.
        + intros q Hq. apply A2. destruct (Nat.eq_dec (ns t) q) as [<-|]; [rewrite nth_upd_eq; auto|rewrite nth_upd_ne; auto].
        + intros u [<-|Hu] Eu; auto. apply A2. rewrite nth_upd_eq; auto. }
    assert (St : forall ss l, length l = n -> (forall s, In s ss -> (s < n)%nat) ->
      exists l', rfold (fun l s => ts <-- get_trs f0 s ;; rfold (fun l (t : tr K) => if eps t then Ok l else mark l (ns t)) ts l) ss l = Ok l' /\
        length l' = n /\ (forall q, nth q l false = true -> nth q l' false = true) /\
        forall s t, In s ss -> In t (trs_of f0 s) -> eps t = false -> nth (ns t) l' false = true).
    { induction ss as [|s ss IH]; intros l Hl Hs; [exists l; split; auto; split; auto; split; auto; intros s t []|].
      rewrite rfold_cons. rewrite (proj2 (final_weight_ok f0 s (Hs s (or_introl eq_refl)))). cbn [rbind].
      destruct (Tr (trs_of f0 s) l) as (l1 & -> & A1 & A2 & A3); [intros t Ht; rewrite Hl; apply (proj1 C0 s t Ht)|]. cbn [rbind].
      destruct (IH l1) as (l2 & E & B1 & B2 & B3); [congruence|intros; apply Hs; right; auto|]. exists l2. split; auto. split; auto. split; auto.
      intros q t [<-|Hq] Ht Et; eauto. }
    destruct (St (seq O n) (upd (repeat false n) start true)) as (nin & E & A1 & A2 & A3).
    - rewrite upd_length, repeat_length. auto.
    - intros s Hs. apply in_seq in Hs. lia.
    - exists nin. split; [exact E|]. split; auto. split.
      + apply A2. rewrite nth_upd_eq; auto. rewrite repeat_length. auto.
      + intros t (q & u & Hu & Eu & <-). apply (A3 q u); auto. apply in_seq. pose proof (trs_of_in f0 q u Hu). unfold n. lia.
  Qed.

  Lemma inverse_ok order : Permutation order (seq O n) -> exists l, inverse order = Ok l /\ forall s, In s l <-> (s < n)%nat.
  Proof.
    intros P. assert (Ln : length order = n) by (rewrite <- (seq_length n O); apply Permutation_length; auto).
    assert (Nd : NoDup order) by (eapply Permutation_NoDup; [apply Permutation_sym; eauto|apply seq_NoDup]).
    unfold inverse. rewrite Ln.
    assert (X : forall k i l, (i + k = n)%nat -> length l = n -> (forall j, (j < i)%nat -> nth (nth j order O) l O = j) -> (forall s, In s l -> (s < n)%nat) ->
      exists l', rfold (fun st i => match nth_error order i with None => Panic | Some o => if o <? length st then Ok (upd st o i) else Panic end)
        (seq i k) l = Ok l' /\ length l' = n /\ (forall j, (j < n)%nat -> nth (nth j order O) l' O = j) /\ forall s, In s l' -> (s < n)%nat).
    { induction k as [|k IH]; intros i l Hi Hl A B.
      - exists l. cbn. split; auto. split; auto. split; auto. intros j Hj. apply A. lia.
      - cbn [seq]. rewrite rfold_cons. rewrite (nth_error_nth' order O) by lia.
        assert (Ho : forall j, (j < n)%nat -> (nth j order O < n)%nat).
        { intros j Hj. assert (H : In (nth j order O) order) by (apply nth_In; lia). apply (Permutation_in _ P), in_seq in H. lia. }
        replace (nth i order O <? length l) with true by (symmetry; apply Nat.ltb_lt; rewrite Hl; apply Ho; lia). cbn [rbind].
        apply IH; [lia|rewrite upd_length; auto| |].
        + intros j Hj. destruct (Nat.eq_dec i j) as [<-|Hne]; [rewrite nth_upd_eq; auto; rewrite Hl; apply Ho; lia|].
          rewrite nth_upd_ne; [apply A; lia|]. intros Hc. apply Hne. eapply (proj1 (NoDup_nth order O)); eauto; lia.
        + intros s Hs. apply In_nth_error' in Hs as (q & Hq). destruct (Nat.eq_dec (nth i order O) q) as [<-|Hne].
          * rewrite nth_error_upd_eq in Hq by (rewrite Hl; apply Ho; lia). injection Hq as <-. lia.
          * rewrite nth_error_upd_ne in Hq by auto. apply B. apply In_nth_error'. eauto. }
    pose proof (proj2 C0 start Es0) as Hst. fold n in Hst.
    destruct (X n O (repeat O n)) as (l & E & A1 & A2 & A3); [lia|apply repeat_length|intros; lia|intros s Hs; apply repeat_spec in Hs; lia|].
    exists l. split; [exact E|]. intros s. split; auto. intros Hs. rewrite <- (A2 s Hs). apply nth_In. rewrite A1.
    assert (H : In (nth s order O) order) by (apply nth_In; lia). apply (Permutation_in _ P), in_seq in H. lia.
  Qed.

  Lemma component_ok scc : length scc = n -> (forall u, (u < n)%nat -> exists j, (j < n)%nat /\ nth u scc (-1)%Z = Z.of_nat j) ->
    exists l, by_component scc = Ok l /\ forall s, In s l <-> (s < n)%nat.
  Proof.
    intros Ln Hs. unfold by_component. rewrite Ln.
    assert (X : forall k i b, (i + k = n)%nat -> length b = n -> (forall s, In s (List.concat b) <-> (s < i)%nat) ->
      exists b', rfold (fun (b : list (list nat)) i => match znth b (nth i scc (-1)%Z) with None => Panic
            | Some l => Ok (upd b (Z.to_nat (nth i scc (-1)%Z)) (i :: l)) end) (seq i k) b = Ok b' /\ forall s, In s (List.concat b') <-> (s < n)%nat).
    { induction k as [|k IH]; intros i b Hi Hb A.
      - exists b. split; auto. intros s. rewrite A. lia.
      - cbn [seq]. rewrite rfold_cons. destruct (Hs i) as (j & Hj & Ej); [lia|]. rewrite Ej. unfold znth.
        replace (0 <=? Z.of_nat j)%Z with true by (symmetry; apply Z.leb_le; lia). rewrite Nat2Z.id.
        destruct (nth_error b j) as [l|] eqn:El; [|apply nth_error_None in El; lia]. cbn [rbind].
        apply IH; [lia|rewrite upd_length; auto|]. intros s.
        assert (Y : In s (List.concat (upd b j (i :: l))) <-> s = i \/ In s (List.concat b)).
        { rewrite !in_concat. split.
          - intros (c & Hc & Hsc). apply In_nth_error' in Hc as (q & Hq). destruct (Nat.eq_dec j q) as [<-|Hne].
            + rewrite nth_error_upd_eq in Hq by lia. injection Hq as <-. destruct Hsc as [<-|Hsc]; auto. right. exists l. split; auto.
              eapply nth_error_In; eauto.
            + rewrite nth_error_upd_ne in Hq by auto. right. exists c. split; auto. eapply nth_error_In; eauto.
          - intros [->|(c & Hc & Hsc)].
            + exists (i :: l). split; [|left; auto]. eapply nth_error_In. apply nth_error_upd_eq. lia.
            + apply In_nth_error' in Hc as (q & Hq). destruct (Nat.eq_dec j q) as [<-|Hne].
              * exists (i :: l). rewrite El in Hq. injection Hq as ->. split; [|right; auto]. eapply nth_error_In. apply nth_error_upd_eq. lia.
              * exists c. split; auto. eapply nth_error_In. rewrite nth_error_upd_ne; eauto. }
        rewrite Y, A. lia. }
    destruct (X n O (repeat [] n)) as (b & E & A); [lia|apply repeat_length| |].
    - intros s. split; [|lia]. intros H. apply in_concat in H as (c & Hc & Hsc). apply repeat_spec in Hc. subst c. destruct Hsc.
    - unfold by_component. rewrite E. cbn [rbind]. eauto.
  Qed.

  Lemma order_ok : (has (vprops f0) ACYCLIC = true -> forall s, ~ on_cycle (mach f0) s) ->
    exists l, rm_order f0 = Ok l /\ forall s, In s l <-> (s < n)%nat.
  Proof.
    intros Sn. unfold rm_order. destruct (has (vprops f0) TOP_SORTED).
    { exists (seq O n). split; auto. intros s. rewrite in_seq. lia. }
    destruct (has (vprops f0) ACYCLIC).
    - destruct (visit_top_keep f0 eps start C0 Es0 (Sn eq_refl)) as (order & fl & -> & P). cbn [rbind tv_order]. apply inverse_ok. auto.
    - unfold visit_scc. rewrite Es0.
      destruct (visit_scc_inv eps (trs_of f0) (num_states f0) start (fin_of f0) (fun s t _ => proj1 C0 s t) (proj2 C0 _ Es0) (trs_of_beyond f0))
        as (v & E & A1 & A2 & _ & _ & A3 & _). rewrite E. cbn [rbind]. apply component_ok; auto.
      assert (Hn : (sv_nscc v <= n)%nat).
      { unfold n. rewrite <- A1, <- (seq_length (sv_nscc v) O), <- (map_length Z.of_nat). apply NoDup_incl_length.
        - apply FinFun.Injective_map_NoDup; [intros a b; lia|apply seq_NoDup].
        - intros z Hz. apply in_map_iff in Hz as (j & <- & Hj). apply in_seq in Hj. destruct (A3 j) as (u & Hu & Eu); [lia|].
          rewrite <- Eu. apply nth_In. lia. }
      intros u Hu. destruct (A2 u Hu) as (j & Hj & Ej). exists j. split; auto. lia.
  Qed.

  (** ** The end of the call *)
  Lemma drop_ok nin f : length nin = n -> num_states f = n ->
    exists g, rm_drop nin f = Ok g /\ eff f g /\ (forall q, trs_of g q = if nth q nin false then trs_of f q else []) /\
      (forall q, fin_of g q = fin_of f q) /\ (fsound f -> fsound g).
  Proof.
    intros Ln En. unfold rm_drop. rewrite En.
    assert (X : forall k i f, (i + k = n)%nat -> num_states f = n ->
      exists g, rfold (fun f s => match nth_error nin s with None => Panic | Some true => Ok f | Some false => delete_trs f s end) (seq i k) f = Ok g /\ eff f g /\
        (forall q, trs_of g q = if (i <=? q) && negb (nth q nin false) then [] else trs_of f q) /\
        (forall q, fin_of g q = fin_of f q) /\ (fsound f -> fsound g)).
    { clear f En. induction k as [|k IH]; intros i f Hi En.
      - exists f. split; auto. split; [apply eff_refl|]. split; auto. intros q. destruct (Nat.leb_spec i q); auto. rewrite trs_of_beyond by lia.
        destruct (negb _); auto.
      - cbn [seq]. rewrite rfold_cons. rewrite (nth_error_nth' nin false) by lia. destruct (nth i nin false) eqn:Ei; cbn [rbind].
        + destruct (IH (S i) f) as (g & E & F & T & N & So); [lia|auto|]. exists g. split; auto. split; auto. split; auto. intros q. rewrite T.
          destruct (Nat.leb_spec (S i) q), (Nat.leb_spec i q); auto; [lia|]. replace q with i by lia. rewrite Ei. auto.
        + destruct (delete_trs_eff f i) as (f1 & E1 & F1 & T1 & N1); [lia|]. rewrite E1. cbn [rbind].
          destruct (IH (S i) f1) as (g & E & F & T & N & So); [lia|rewrite (eff_n _ _ F1); auto|].
          exists g. split; auto. split; [eapply eff_trans; eauto|]. split; [|split].
          * intros q. rewrite T, T1. destruct (Nat.leb_spec (S i) q), (Nat.leb_spec i q), (Nat.eqb_spec q i); try lia; auto; cbn [andb].
            -- subst q. rewrite Ei. auto.
          * intros q. rewrite N, N1. auto.
          * intros Sf. apply So. eapply fsound_delete_trs; eauto. }
    destruct (X n O f) as (g & E & F & T & N & So); [lia|auto|]. exists g. split; auto. split; auto. split; auto. intros q. rewrite T. cbn.
    destruct (nth q nin false); auto.
  Qed.

  Definition rmeps_side g : Prop :=
    (forall s t, In t (trs_of g s) -> ~ (il t = O /\ ol t = O)) /\
    (forall s, (s < num_states g)%nat -> accessible (mach g) s /\ coaccessible (mach g) s) /\
    (fsound f0 -> fsound g) /\
    forall x y, exists v, settles (fun k => ksum (map (fun j => rel (mach f0) j x y) (seq O (S k)))) v /\
      settles (fun k => ksum (map (fun j => rel (mach g) j x y) (seq O (S k)))) v.

  Lemma finish_ok nin f : length nin = n -> nth start nin false = true -> (forall t, into f0 t -> nth (ns t) nin false = true) ->
    good f -> (forall s t, nth s nin false = true -> In t (trs_of f s) -> eps t = false) ->
    exists g, (g <-- rm_drop nin f ;; connect (set_properties g (rmepsilon_properties (vprops g) false))) = Ok g /\ rmeps_side g.
  Proof.
    intros Ln Ns Ni G Fr. destruct (good_side f G) as (En & Es & _ & _ & _ & _ & Ac). pose proof G as (Ef & C & Ep & I & So & S).
    destruct (drop_ok nin f Ln En) as (h0 & Eh & Fh & Th & Nh & Sh). rewrite Eh. cbn [rbind]. set (h := set_properties _ _).
    assert (Ch : closed h).
    { split.
      - intros q t. change (trs_of h q) with (trs_of h0 q). change (num_states h) with (num_states h0). rewrite (eff_n _ _ Fh), Th.
        destruct (nth q nin false); [apply (proj1 C)|intros []].
      - change (num_states h) with (num_states h0). change (vstart h) with (vstart h0). rewrite (eff_n _ _ Fh).
        destruct Fh as (_ & -> & _). apply C. }
    assert (Cn : cnt h).
    { change (cnt h0). apply (eff_trans _ _ _ Ef Fh). auto. }
    assert (Ne : forall s t, In t (trs_of h s) -> eps t = false).
    { intros s t. change (trs_of h s) with (trs_of h0 s). rewrite Th. destruct (nth s nin false) eqn:E; [|intros []]. apply Fr. auto. }
    assert (Sfh : fsound f0 -> fsound h).
    { intros S0. pose proof (Sh (So S0)) as S1. intros b Hb. change (mach h) with (mach h0). change (num_states h) with (num_states h0).
      change (vprops h) with (rmepsilon_properties (vprops h0) false) in Hb. unfold rmepsilon_properties in Hb.
      repeat first [rewrite has_copyif in Hb | rewrite has_when in Hb]. rewrite has_mask in Hb. cbn [negb orb andb] in Hb.
      repeat rewrite ?orb_true_iff, ?andb_true_iff in Hb. rewrite !inb_In in Hb.
      destruct Hb as [[[[Hb|Hb]|Hb]|Hb]|Hb].
      - destruct Hb as [<-|[]]. cbn. intros s t Ht [Hi Ho]. apply (Ne s) in Ht. unfold eps in Ht. rewrite Hi, Ho in Ht. discriminate.
      - apply S1. tauto.
      - destruct Hb as [Ha Hb]. pose proof (S1 ACCEPTOR Ha) as Sa. cbn in Sa. destruct Hb as [<-|[<-|[]]]; cbn; intros s t Ht Hi;
          pose proof (Ne s t Ht) as Et; pose proof (Sa s t Ht) as Eq; unfold eps in Et; rewrite ?Eq, ?Hi in Et; rewrite <- ?Eq, ?Hi in Et; discriminate.
      - apply S1. tauto.
      - apply S1. tauto. }
    assert (Vh : vstart h = Some start) by (change (vstart h) with (vstart h0); destruct Fh as (_ & -> & _); auto).
    destruct (connect_rel L h Cn Ch) as (g & Eg & Rg & Ug). exists g. split; auto. split; [|split; auto; split].
    - destruct (connect_eq h Ch Cn) as (d & g1 & Ec & Ed & Sb & U & _). rewrite Ec in Eg. injection Eg as <-.
      intros s t. change (trs_of (set_properties_with_mask g1 _ _) s) with (trs_of g1 s). intros Ht [Hi Ho].
      destruct Sb as (N & HS & _). destruct (Nat.lt_ge_cases s (num_states g1)) as [Hs|Hs]; [|rewrite trs_of_beyond in Ht by auto; destruct Ht].
      rewrite N in Hs. destruct (nth_error_ex _ _ Hs) as (q & Eq). destruct (HS s q Eq) as [_ F].
      destruct (Forall2_in_l _ _ _ _ F Ht) as (u & Hu & A1 & A2 & _). apply filter_In in Hu as [Hu _]. apply Ne in Hu.
      unfold eps in Hu. rewrite <- A1, <- A2, Hi, Ho in Hu. discriminate.
    - intros S0. eapply connect_fsound; eauto.
    - set (P := fun s => (s < n)%nat /\ nth s nin false = true).
      assert (Pc : forall s t, P s -> In t (mtrs (mach f) s) -> P (ns t) /\ eps t = false).
      { intros s t [P1 P2] Ht. pose proof (Fr s t P2 Ht) as Et. split; auto. split; [apply (closed_inside f C En s t Ht)|]. apply Ni. exact (I s t Ht Et). }
      assert (Pn : forall s, P s -> (s < n)%nat) by (intros s [? _]; auto).
      assert (Ps : P start) by (split; auto; apply (proj2 C0 start Es0)).
      intros x y. set (k0 := (length x + length y)%nat). exists (tot (mach f) k0 start x y).
      assert (Rf : forall k, (k0 <= k)%nat -> tot (mach f) k start x y = tot (mach f) k0 start x y).
      { intros k Hk. apply (free_tot L (mach f) P Pc); auto. }
      split.
      + assert (Y : exists j0, forall j, (j0 <= j)%nat -> tot (mach f0) j start x y = tot (mach f) k0 start x y).
        { destruct H0 as [Id|Ac0].
          - destruct (proj1 S Id) as [A B]. destruct (B k0) as (j' & Hj'). exists (k0 + j')%nat. intros j Hj.
            apply (kle_antisym L).
            + rewrite <- (Rf j) by lia. apply A. apply Pn; auto.
            + eapply (kle_trans L); [apply Hj'; apply Pn; auto|]. apply (tot_mono L n Id); [lia|apply Pn; auto].
          - pose proof (closed_inside f0 C0 eq_refl) as In0. pose proof (acyclic_low f0 C0 eq_refl Ac0) as Lo.
            pose proof (proj2 S Ac0 _ (tot_solves L n (mach f0) In0 Lo)) as So1.
            exists (longest n x y). intros j Hj. rewrite (tot_settled L n (mach f0) In0 Lo) by (auto; apply Pn; auto).
            apply (free_solution L n (mach f) P Pn Pc _ So1); auto. }
        destruct Y as (j0 & Y). exists j0. intros j Hj. rewrite <- (Y j Hj). unfold tot, rel. cbn [mach mstart]. rewrite Es0. auto.
      + exists k0. intros j Hj. rewrite <- (Rf j Hj). unfold tot. apply ksum_map_ext. intros i _. rewrite Rg. unfold rel. cbn [mach mstart]. rewrite Vh.
        apply (wt_ren L (mach f) (mach h) (fun s => s) P).
        * intros s t H1 H2. apply (Pc s t H1 H2).
        * intros s [_ H2]. cbn. change (trs_of h s) with (trs_of h0 s). rewrite Th, H2.
          rewrite (map_ext _ (fun t : tr K => t)); [rewrite map_id; auto|]. intros [? ? ? ?]. reflexivity.
        * intros s _. cbn. change (fin_of h s) with (fin_of h0 s). rewrite Nh. auto.
        * auto.
  Qed.
End Rm.
