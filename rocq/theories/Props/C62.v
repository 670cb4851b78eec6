(** C62: optimize returns the smallest deterministic machine of an acyclic acceptor; where it panics and where it
    only removes epsilons. *)
From Coq Require Import List Arith NArith ZArith Bool Lia Permutation Sorted.
From Verif Require Import Base.Util Base.Semiring Base.Machine Base.PathSum Base.PropSpec Base.Instances Base.TropZ Model.Props Model.AlgoProps Model.VectorFst Model.History
  Model.TrOps Model.BiMap Model.Lazy Model.Rational Model.Weights Model.RmEpsilon Model.ShortestDistance Model.Determinize Model.Reweight Model.Encode Model.ComputeProps Model.Minimize Model.Gallic Model.MinTransducer Model.DetTransducer Model.Optimize.
From Verif Require Import Proofs.PropsFacts Proofs.VectorFacts Proofs.VectorProps Proofs.HistoryFacts Proofs.TrOpsFacts Proofs.OpFacts Proofs.ConnectFacts Proofs.RationalFacts
  Proofs.SortFacts Proofs.LazyFacts Proofs.TableFacts Proofs.ComposeFacts Proofs.FactorTable Proofs.DetTable Proofs.DetFacts Proofs.ClosedB Proofs.DetBits Proofs.TableReach Proofs.MinFacts Proofs.EncMin Proofs.PushLabels
  Props.C06 Props.C11 Props.C16 Props.C18 Props.C38 Props.C43 Props.C45 Props.C46 Props.C58 Props.C61.
Import ListNotations.
Local Open Scope K_scope.

Definition eps_free {K : SR} (m : machine K) : Prop := forall s t, In t (mtrs m s) -> il t <> O.
Definition acyc {K : SR} (m : machine K) : Prop := forall s, ~ on_cycle m s.

(** ** Summing parallel transitions *)
Section Sum.
  Context {K : SR} (L : sr_laws K).
  Implicit Types f p : vfst K.

  Lemma sum_in f p s t : tr_sum f = Ok p -> In t (trs_of p s) -> exists u, In u (trs_of f s) /\ il u = il t /\ ol u = ol t /\ ns u = ns t.
  Proof.
    intros E Ht. destruct (tr_sum_submach _ _ E) as (m1 & (_ & P & _) & S & _).
    destruct (submach_In _ _ _ s ((Tr (il t) (ol t) tt (ns t)) : tr unitSR) S) as (u & Hu & E1 & E2 & _ & E3).
    { cbn [uforget mtrs mach]. apply in_map_iff. eauto. }
    cbn [uforget mtrs] in Hu. apply in_map_iff in Hu as (v & <- & Hv). cbn in E1, E2, E3. exists v. split; [|auto].
    apply (Permutation_in _ (Permutation_sym (P s))) in Hv. exact Hv.
  Qed.
  Lemma sum_bit f p b : tr_sum f = Ok p -> inb b pm_arcsort_properties = true -> inb b pm_delete_arcs_properties = true ->
    inb b pm_weight_invariant_properties = true -> has (vprops f) b = true -> has (vprops p) b = true.
  Proof.
    intros E B1 B2 B3 B. destruct (tr_sum_submach _ _ E) as (m1 & _ & _ & _ & _ & _ & E6). rewrite E6, has_set_all. unfold sum_props.
    destruct (Nat.eqb _ _); rewrite ?has_pset, !has_pkeep, B, B1, B2, B3; auto.
  Qed.
  (** What is left of the bits. *)
  Lemma sum_bit_back f p b : tr_sum f = Ok p -> num_states f <> O -> has (vprops p) b = true ->
    has (vprops f) b = true /\ inb b pm_arcsort_properties = true /\ inb b pm_delete_arcs_properties = true /\ inb b pm_weight_invariant_properties = true.
  Proof.
    intros E N B. destruct (tr_sum_submach _ _ E) as (m1 & _ & _ & _ & _ & _ & E6). rewrite E6, has_set_all in B. unfold sum_props in B.
    destruct (Nat.eqb_spec (num_states f) 0); [congruence|]. rewrite !has_pkeep in B. rewrite !andb_true_iff in B. tauto.
  Qed.

  Lemma ksum_nonzero {A} (g : A -> K) l x : zero_free K -> In x l -> g x <> 0 -> ksum (map g l) <> 0.
  Proof.
    intros (_ & ZS & _) Hx G E. induction l as [|y l IH]; [destruct Hx|]. cbn [map ksum] in E. destruct Hx as [->|Hx]; [apply G; eapply ZS; eauto|].
    apply IH; auto. rewrite (kplus_comm _ L) in E. eapply ZS; eauto.
  Qed.
  Lemma sum_weight f p s t : zero_free K -> no_zeros (mach f) -> tr_sum f = Ok p -> cnt f -> In t (trs_of p s) -> wgt t <> 0.
  Proof.
    intros ZF [NZ _] E C Ht W. destruct (tr_sum_rel L f C) as (p' & E' & _ & _ & _ & ND & G & _). assert (p' = p) as -> by congruence. clear E'.
    destruct (sum_in f p s t E Ht) as (u & Hu & U1 & U2 & U3).
    set (same := fun v : tr K => Nat.eqb (il v) (il t) && Nat.eqb (ol v) (ol t) && Nat.eqb (ns v) (ns t)).
    set (g := fun v : tr K => if same v then wgt v else 0).
    assert (GA : forall a b q w1 w2, g (Tr a b (w1 + w2) q) = g (Tr a b w1 q) + g (Tr a b w2 q)).
    { intros. unfold g, same. cbn [il ol ns wgt]. destruct (_ && _ && _); auto. symmetry. apply (kplus_0_l _ L). }
    specialize (G s g GA). specialize (ND s).
    assert (ksum (map g (trs_of p s)) = 0) as Z.
    { apply (ksum_map_zero L). intros v Hv. unfold g. destruct (same v) eqn:S; auto. unfold same in S. rewrite !andb_true_iff, !Nat.eqb_eq in S.
      assert (v = t) as ->; auto. destruct S as ((S1 & S2) & S3).
      clear -ND Ht Hv S1 S2 S3. induction (trs_of p s) as [|x l IH]; [destruct Ht|]. cbn [map] in ND. inversion ND as [|? ? X Y]; subst.
      destruct Ht as [->|Ht], Hv as [->|Hv]; auto; exfalso; apply X.
      - rewrite <- S1, <- S2, <- S3. apply in_map_iff. exists v. auto.
      - rewrite S1, S2, S3. apply in_map_iff. exists t. auto. }
    rewrite Z in G. symmetry in G. revert G. apply (ksum_nonzero g _ u ZF Hu). unfold g, same. rewrite U1, U2, U3, !Nat.eqb_refl. cbn [andb].
    apply (NZ s u Hu).
  Qed.
  Lemma sum_reach f p : tr_sum f = Ok p -> forall a b, reach (mach p) a b -> reach (mach f) a b.
  Proof.
    intros E a b R. induction R as [a|a t b Ht R IH]; [constructor|]. destruct (sum_in f p a t E Ht) as (u & Hu & _ & _ & Eu).
    econstructor; [exact Hu|]. rewrite Eu. auto.
  Qed.
  Lemma sum_acyclic f p : tr_sum f = Ok p -> acyc (mach f) -> acyc (mach p).
  Proof.
    intros E A s (t & Ht & R). destruct (sum_in f p s t E Ht) as (u & Hu & _ & _ & Eu). apply (A s). exists u. split; [exact Hu|]. rewrite Eu.
    apply (sum_reach f p E). auto.
  Qed.
  Lemma ksum_filter {A} (h : A -> K) (b : A -> bool) l : ksum (map h (filter b l)) = ksum (map (fun t => if b t then h t else 0) l).
  Proof.
    induction l as [|x l IH]; [reflexivity|]. cbn [filter map ksum]. destruct (b x); cbn [map ksum]; rewrite IH; [auto|]. symmetry. apply (kplus_0_l _ L).
  Qed.
  Lemma sum_spelled f p u : tr_sum f = Ok p -> cnt f -> C38.spelled (mach p) u = C38.spelled (mach f) u.
  Proof.
    intros E C. destruct (tr_sum_rel L f C) as (p' & E' & _ & S & F & _ & G & _). assert (p' = p) as -> by congruence. clear E'.
    assert (X : forall x s, C38.spell (mach p) s x = C38.spell (mach f) s x).
    { induction x as [|a v IH]; intros s; cbn [C38.spell].
      - change (fw (fin_of p s) = fw (fin_of f s)). rewrite F. auto.
      - rewrite !ksum_filter. change (mtrs (mach p) s) with (trs_of p s). change (mtrs (mach f) s) with (trs_of f s).
        transitivity (ksum (map (fun t => if Nat.eqb (il t) a then wgt t * C38.spell (mach f) (ns t) v else 0) (trs_of p s))).
        + f_equal. apply map_ext. intros t. rewrite IH. auto.
        + apply G. intros i o q w1 w2. cbn [il wgt ns]. destruct (Nat.eqb i a); [apply (kdistr_r _ L)|symmetry; apply (kplus_0_l _ L)]. }
    unfold C38.spelled. cbn [mach mstart]. rewrite S. destruct (vstart f); auto.
  Qed.
End Sum.

(** ** More fuel gives the same answer *)
Lemma bfs_more {K : SR} {O C} (op : fst_op K O) (co : fst_cache K C) fuel : forall q vis g z R, bfs op co fuel q vis g z = Some R ->
  forall fuel', (fuel <= fuel')%nat -> bfs op co fuel' q vis g z = Some R.
Proof.
  induction fuel as [|fuel IH]; intros q vis g z R E fuel' H; destruct fuel' as [|fuel']; try lia; destruct q as [|s q]; cbn [bfs] in *; auto; try discriminate.
  destruct (l_get_trs op co s z) as [[l z1]| |]; auto. destruct (fold_left see l (q, vis, g)) as [[q1 v1] g1]. destruct (set_trs g1 s l) as [g2| |]; auto.
  destruct (l_final_weight op co s z1) as [[[w|] z2]| |]; auto.
  - destruct (set_final g2 s w) as [g3| |]; auto. eapply IH; eauto. lia.
  - eapply IH; eauto. lia.
Qed.
Lemma compute_more {K : SR} {O C} (op : fst_op K O) (co : fst_cache K C) fuel i o z R : compute op co fuel i o z = Some R ->
  forall fuel', (fuel <= fuel')%nat -> compute op co fuel' i o z = Some R.
Proof.
  unfold compute. intros E fuel' H. destruct (l_start op co z) as [[[s|] z1]| |]; auto. destruct (set_start _ s) as [g| |]; auto.
  destruct (bfs op co fuel _ _ g z1) as [r|] eqn:X; [|discriminate]. rewrite (bfs_more _ _ _ _ _ _ _ _ X fuel' H). auto.
Qed.
Lemma determinize_more {K : SR} (D : det_weight K) ord (f : vfst K) b fuel R : determinize_acceptor D ord f b fuel = Some R ->
  forall fuel', (fuel <= fuel')%nat -> determinize_acceptor D ord f b fuel' = Some R.
Proof.
  unfold determinize_acceptor, determinize_fsa, det_run. intros E fuel' H. destruct (negb (d_left D)); auto. destruct (negb (has _ _)); auto.
  destruct (compute _ _ fuel _ _ _) as [r|] eqn:X; [|discriminate]. rewrite (compute_more _ _ _ _ _ _ _ X fuel' H). auto.
Qed.

(** ** What determinization leaves *)
Section Det.
  Context {K : SR} (L : sr_laws K) (div : K -> K -> res K) (quant : K -> K) (left : bool)
    (ord : dtuple K -> nat -> list (nat * K) -> list (nat * K)) (f : vfst K).
  Context (DX : exact_division div quant) (HO : any_order ord) (CL : closed f).
  Notation D := (default_weight div quant left).
  Context (ZF : zero_free K) (NZ : no_zeros (mach f)).

  Lemma norm_weight t a l d r : Forall (fun e : nat * K => snd e <> 0) l -> l <> [] -> norm_tr D ord t a l = Ok (d, r) -> d <> 0.
  Proof.
    intros H N. unfold norm_tr. set (s := isort _ l). assert (PS : Permutation s l) by apply isort_perm.
    destruct (rfold _ s 0) as [d'| |] eqn:Ed; cbn [rbind]; try discriminate.
    destruct (rfold (np_add D) s []) as [m| |] eqn:Em; cbn [rbind]; try discriminate.
    destruct (rtrav _ (ord t a m)) as [r'| |] eqn:Er; cbn [rbind]; try discriminate. intros [= <- <-].
    assert (PM : Forall (fun e : nat * K => snd e <> 0) m).
    { eapply (merge_pos div quant left ZF); [| |exact Em]; auto. eapply Permutation_Forall; [symmetry; exact PS|auto]. }
    destruct l as [|e0 l0]; [congruence|]. assert (In (fst e0) (supp s)) as I.
    { apply in_map. apply (Permutation_in _ (Permutation_sym PS)). left. auto. }
    assert (In (fst e0) (supp m)) as Im by (apply (merge_supp D (fst e0) s [] m Em); auto).
    apply in_map_iff in Im as ([q w] & E0 & He).
    destruct (divisor_part L div quant left _ _ _ _ _ Ed Em He) as [z ->].
    destruct ZF as (_ & ZS & _). rewrite Forall_forall in PM. intros X. apply ZS in X. exact (PM _ He X).
  Qed.
  Lemma met_weight t l x : met (det_start f) (det_trs D ord f) t -> det_trs D ord f t = Ok l -> In x l -> tw x <> 0.
  Proof.
    intros M E Hu. pose proof (met_pos L div quant left ord f DX HO ZF NZ t M) as P0. unfold det_trs in E.
    destruct (det_out f (fst t)) as [o| |] eqn:Eo; cbn [rbind] in E; try discriminate.
    pose proof (out_pos f ZF NZ _ _ P0 Eo) as PO. destruct (lm_fold o (K := K) [] (SSorted_nil _)) as [SL P]. cbn [app unmap flat_map] in P.
    apply rtrav_ok in E. destruct (Forall2_in_r _ _ _ _ E Hu) as (p & Hp & Ep).
    destruct (norm_tr D ord t (fst p) (snd p)) as [[d r]| |] eqn:En; cbn [rbind] in Ep; try discriminate. injection Ep as <-. cbn [tw fst snd].
    eapply norm_weight; [| |exact En].
    - apply Forall_forall. intros e He. apply (PO (fst p, e)). eapply Permutation_in; [exact P|]. apply in_flat_map. exists p. split; auto. apply in_map. auto.
    - apply (lm_nonempty o [] p); auto.
  Qed.

  Lemma det_no_zeros distinct fuel g : determinize_acceptor D ord f distinct fuel = Some (Ok g) ->
    no_zeros (mach g) /\ (eps_free (mach f) -> eps_free (mach g)) /\ (acyc (mach f) -> acyc (mach g)) /\ (vstart f <> None -> vstart g <> None).
  Proof.
    unfold determinize_acceptor, determinize_fsa.
    destruct (det_run D ord f None fuel) as [[[h tb]| |]|] eqn:E; cbn; try discriminate. intros [= <-].
    assert (MG : mach (finish_determinize f h distinct) = mach h) by (unfold mach, trs_of, fin_of; cbn; auto). rewrite MG.
    change (vstart (finish_determinize f h distinct)) with (vstart h). split; [split|split; [|split]].
    - intros s v Hv. pose proof (has_trs L D ord f fuel h tb E s v Hv) as A. destruct (run_tup L D ord f fuel h tb E s A) as (t & N & M).
      destruct (run_trs L D ord f fuel h tb E s t A N) as (l & El & F). destruct (Forall2_in_l _ _ _ _ F Hv) as (x & Hx & (_ & _ & Ew & _)).
      rewrite Ew. eapply met_weight; eauto.
    - intros s w Hw. cbn [mach mfin] in Hw.
      assert (A : accessible (mach h) s). { apply (run_all L D ord f fuel h tb E). unfold fin_of in Hw. destruct (nth_error (vstates h) s) eqn:X; [|discriminate].
        apply nth_error_Some. congruence. }
      destruct (run_tup L D ord f fuel h tb E s A) as (t & N & M). pose proof (run_fin L D ord f fuel h tb E s t A N) as F.
      apply (fin_sum L div quant left) in F.
      2: { intros e He. eapply (tup_below L D ord f HO CL fuel h tb E s t); eauto. apply supp_in. auto. }
      rewrite Hw in F. destruct (keqb _ 0) eqn:Z; [discriminate|]. injection F as ->. intros X. rewrite X in Z.
      assert (keqb (0 : K) 0 = true) by (apply (keqb_spec _ L); auto). congruence.
    - intros NE s v Hv. destruct (run_labels L div quant left ord f HO fuel h tb E s v Hv) as (q & w & Hw & <-). apply (NE q w Hw).
    - intros A. exact (det_acyclic L D ord f HO CL fuel h tb E A).
    - intros V. destruct (vstart f) as [s0|] eqn:S0; [|congruence]. destruct (run_start L D ord f fuel h tb E s0 S0) as (a & -> & _). discriminate.
  Qed.
End Det.

(** ** Minimization of a deterministic acyclic acceptor *)
Section Min.
  Context {K K' : SR} (L : sr_laws K) (LK' : sr_laws K').
  Context (rv : K -> K') (rb : K' -> K).
  Context (rv_0 : rv 0 = 0) (rv_1 : rv 1 = 1) (rv_plus : forall a b, rv (a + b) = rv a + rv b)
    (rv_times : forall a b, rv (a * b) = rv b * rv a) (rb_rv : forall a, rb (rv a) = a) (rv_rb : forall a, rv (rb a) = a).
  Context (divide : K -> K -> divide_type -> res K) (Dv : divides_exactly divide) (Wd : weakly_divisible K) (ZF : zero_free K).
  Context (wlt : K -> K -> bool) (orc : nat -> nat) (quantm : K -> K) (W : tells_apart wlt) (quant_id : forall w, quantm w = w).
  Context (idem pathp : bool).
  Implicit Types f g p r : vfst K.

  (** What a caller gets for an acyclic acceptor without epsilons. *)
  Record optimal f r : Prop := Optimal {
    op_closed : closed r; op_cnt : cnt r; op_bits : fsound r;
    op_acceptor : is_acceptor (mach r);
    (* one transition per state and label *)
    op_det : deterministic (mach r);
    (* no useless state *)
    op_trim : forall s, (s < num_states r)%nat -> accessible (mach r) s /\ coaccessible (mach r) s;
    (* the weighted relation is kept, length by length *)
    op_rel : forall n x y, rel (mach r) n x y = rel (mach f) n x y;
    (* no deterministic machine with the same weighted language has fewer states *)
    op_min : forall m n, has_states m n -> deterministic m -> (forall u, C38.spelled m u = C38.spelled (mach f) u) -> (num_states r <= n)%nat;
    op_tabs : visymt r = visymt f /\ vosymt r = vosymt f }.

  (** The machines [minimize] is given. *)
  Record ready p : Prop := Ready {
    rd_closed : closed p; rd_cnt : cnt p; rd_start : vstart p <> None; rd_bits : fsound p; rd_acc : is_acceptor (mach p);
    rd_eps : eps_free (mach p); rd_nz : no_zeros (mach p); rd_acyc : acyc (mach p) }.

  Definition plainb (w : K) : bool := keqb w 1.
  Lemma plain_or p : no_zeros (mach p) -> is_acceptor (mach p) -> plain_acceptor (mach p) \/ holds WEIGHTED (num_states p) (mach p).
  Proof.
    intros [NZ NF] AC.
    assert (ER : forall a b : K, keqb a b = true <-> a = b) by (intros; apply (keqb_spec _ L)).
    destruct (existsb (fun st => existsb (fun t => negb (plainb (wgt t))) (vtrs st) || match vfin st with Some w => negb (plainb w) | None => false end) (vstates p)) eqn:E.
    - right. apply existsb_exists in E as (st & Hst & E). apply In_nth_error in Hst as (s & Hs). apply orb_true_iff in E as [E|E].
      + apply existsb_exists in E as (t & Ht & E). left. exists s, t. assert (In t (trs_of p s)) as I by (unfold trs_of; rewrite Hs; auto). split; [exact I|].
        intros [X|X]; [exact (NZ s t I X)|]. unfold plainb in E. apply ER in X. rewrite X in E. discriminate.
      + right. destruct (vfin st) as [w|] eqn:F; [|discriminate]. exists s, w. assert (fin_of p s = Some w) as I by (unfold fin_of; rewrite Hs; auto). split; [exact I|].
        intros [X|X]; [exact (NF s w I X)|]. unfold plainb in E. apply ER in X. rewrite X in E. discriminate.
    - left. assert (A : forall st, In st (vstates p) -> (forall t, In t (vtrs st) -> wgt t = 1) /\ (forall w, vfin st = Some w -> w = 1)).
      { intros st Hst. assert (X : existsb (fun t => negb (plainb (wgt t))) (vtrs st) || match vfin st with Some w => negb (plainb w) | None => false end = false).
        { destruct (_ || _) eqn:Y; auto. rewrite <- E. symmetry. apply existsb_exists. eauto. }
        apply orb_false_iff in X as [X1 X2]. split.
        - intros t Ht. apply ER. destruct (keqb (wgt t) 1) eqn:Y; auto. rewrite <- X1. apply existsb_exists. exists t. unfold plainb. rewrite Y. auto.
        - intros w Hw. rewrite Hw in X2. apply ER. unfold plainb in X2. destruct (keqb w 1); auto. }
      split.
      + intros s t Ht. split; [exact (AC s t Ht)|]. cbn [mach mtrs] in Ht. unfold trs_of in Ht. destruct (nth_error (vstates p) s) as [st|] eqn:X; [|destruct Ht].
        apply nth_error_In in X. apply (proj1 (A st X)); auto.
      + intros s w Hw. cbn [mach mfin] in Hw. unfold fin_of in Hw. destruct (nth_error (vstates p) s) as [st|] eqn:X; [|discriminate].
        apply nth_error_In in X. apply (proj2 (A st X)); auto.
  Qed.

  Context (Comm : forall a b : K, a * b = b * a) (Canc : forall a b c : K, a <> 0 -> a * b = a * c -> b = c).

  Lemma acyc_idle p : acyc (mach p) -> loops_idle p (fun _ => true).
  Proof. intros A s t Ht _ E. exfalso. apply (A s). exists t. split; [exact Ht|]. rewrite E. constructor. Qed.

  Lemma min_optimal p : ready p -> deterministic (mach p) -> forall fuel out,
    minimize rv rb wlt orc divide quantm idem pathp true false fuel p = Some out -> exists r, out = Ok r /\ optimal p r.
  Proof.
    intros R De fuel out E. destruct R as [C N St So Ac NE NZ A].
    assert (NF : no_zero_final p) by (intros s w; apply (proj2 NZ s w)).
    rewrite (proj1 (C58_dispatch L rv rb divide wlt orc quantm p idem pathp true false fuel C St NF So) Ac) in E.
    destruct (plain_or p NZ Ac) as [P|We].
    - destruct (C45_minimize L LK' rv wlt orc W (proj1 ZF) divide quantm idem pathp true rb false fuel p C N St So P De) as (h & Eh & Mo & Mi).
      rewrite E in Eh. injection Eh as ->. exists h. split; auto. destruct Mo as (M1 & M2 & M3 & M4 & M5 & M6 & M7 & M8 & M9 & M10 & _). constructor; auto.
      { intros s t Ht. apply (proj1 M4 s t Ht). }
      apply (Mi (or_introl A) Comm).
    - assert (FE : final_no_eps p) by (intros s t _ Ht; apply (NE s t Ht)).
      destruct (C46_minimize_weighted L LK' rv rb rv_0 rv_1 rv_plus rv_times rb_rv rv_rb divide Dv Wd (proj1 (proj2 ZF)) (proj2 (proj2 ZF)) wlt orc quantm W (proj1 ZF) quant_id
        idem pathp false fuel p out C N St So Ac De FE NF We (acyc_idle p A) (or_intror A) E) as (r & Er & MW & Mi).
      exists r. split; auto. destruct (Mi A) as (R1 & R2 & R3). destruct MW as [M1 M2 M3 M4 M5 M6 M7 M8 M9]. constructor; auto.
      intros m n. apply R3; auto. apply (proj1 NZ).
  Qed.

  Lemma min_completes p : ready p -> deterministic (mach p) -> exists N, forall fuel, (N <= fuel)%nat -> exists out,
    minimize rv rb wlt orc divide quantm idem pathp true false fuel p = Some out.
  Proof.
    intros R De. destruct R as [C N St So Ac NE NZ A].
    assert (NF : no_zero_final p) by (intros s w; apply (proj2 NZ s w)).
    destruct (C43_compute_and_update L p (mask [ACCEPTOR; I_DETERMINISTIC; WEIGHTED; UNWEIGHTED]) C St (or_introl NF) So) as (p1 & q & E1 & S1 & S2 & _ & _ & B & Q).
    assert (M1 : mach p1 = mach p) by (unfold mach, trs_of, fin_of; rewrite S1, S2; auto).
    destruct (C16_reverse_stops L LK' rv rb rv_plus rv_times rb_rv rv_rb p1 idem pathp) as (N0 & R0 & E0).
    - unfold closed, trs_of, num_states in *. rewrite S1, S2. auto.
    - intros _. rewrite M1. auto.
    - apply acyc_idle. rewrite M1. auto.
    - right. rewrite M1. auto.
    - exists N0. intros fuel HF. rewrite (proj1 (C58_dispatch L rv rb divide wlt orc quantm p idem pathp true false fuel C St NF So) Ac).
      unfold minimize_acceptor. rewrite E1. destruct (_ && _); [eauto|]. destruct (negb _); [eauto|]. destruct (has q WEIGHTED); [|eauto].
      unfold push_weights. rewrite (sd_more _ _ _ _ _ _ _ _ _ E0 fuel HF). eauto.
  Qed.

  Context (quantd : K -> K) (ord : dtuple K -> nat -> list (nat * K) -> list (nat * K))
    (ordg : dtuple (gallicSR K) -> nat -> list (nat * gallicSR K) -> list (nat * gallicSR K)).
  Context (DX : exact_division (fun a b => divide a b DivideLeft) quantd) (DA : divides_always (fun a b => divide a b DivideLeft)) (HO : any_order ord).
  Notation OPT fuel := (optimize rv rb wlt divide quantd quantm idem pathp true true orc ord ordg fuel).

  Lemma det_ready p fuel g : ready p -> determinize_acceptor (default_weight (fun a b => divide a b DivideLeft) quantd true) ord p true fuel = Some (Ok g) ->
    ready g /\ deterministic (mach g) /\ (forall u, C38.spelled (mach g) u = C38.spelled (mach p) u) /\
    (forall n x y, rel (mach g) n x y = rel (mach p) n x y) /\ visymt g = visymt p /\ vosymt g = vosymt p.
  Proof.
    intros [C N St So Ac NE NZ A] E.
    destruct (C38_determinize L _ quantd true ord p DX HO true fuel g C (fun _ => Ac) E) as (H1 & H2 & H3 & H4 & H5 & H6 & H7 & H8).
    destruct (C61_bits L _ quantd true ord p DX HO C true fuel g So E) as (_ & _ & B).
    destruct (det_no_zeros L _ quantd true ord p DX HO C ZF NZ true fuel g E) as (Z1 & Z2 & Z3 & Z4).
    split; [constructor; auto|]. do 4 (split; [assumption|]). assumption.
  Qed.
  Lemma optimal_trans p g r : (forall u, C38.spelled (mach g) u = C38.spelled (mach p) u) -> (forall n x y, rel (mach g) n x y = rel (mach p) n x y) ->
    visymt g = visymt p -> vosymt g = vosymt p -> optimal g r -> optimal p r.
  Proof.
    intros S R V1 V2 [O1 O2 O3 O4 O5 O6 O7 O8 [O9 O10]]. constructor; auto.
    - intros n x y. rewrite O7. apply R.
    - intros m n M D H. apply (O8 m n M D). intros u. rewrite H. symmetry. apply S.
    - split; congruence.
  Qed.

  (** The part after the preparation. *)
  Lemma rest_optimal p : ready p -> has (vprops p) ACCEPTOR = true -> has (vprops p) ACYCLIC = true -> exists N, forall fuel, (N <= fuel)%nat ->
    exists r, optimal p r /\
      (if has (vprops p) I_DETERMINISTIC then opt_minimize rv rb wlt divide quantm idem pathp true orc fuel p
       else g <== opt_determinize divide quantd true ord ordg fuel p ;; opt_minimize rv rb wlt divide quantm idem pathp true orc fuel g) = Some (Ok r).
  Proof.
    intros R HA HC. destruct (has (vprops p) I_DETERMINISTIC) eqn:HD.
    - assert (De : deterministic (mach p)) by exact (rd_bits _ R _ HD).
      destruct (min_completes p R De) as (N & H). exists N. intros fuel HF. destruct (H fuel HF) as (out & E).
      destruct (min_optimal p R De fuel out E) as (r & -> & O). exists r. auto.
    - destruct (C38_terminates L _ quantd ord p true DX DA HO ZF (rd_closed _ R) (proj1 (rd_nz _ R)) (rd_acyc _ R) HA) as (N1 & H1).
      destruct (H1 N1 (le_n _)) as (g & Eg). destruct (det_ready p N1 g R Eg) as (Rg & Dg & Sg & RLg & V1 & V2).
      destruct (min_completes g Rg Dg) as (N2 & H2).
      exists (Nat.max N1 N2). intros fuel HF. destruct (H2 fuel ltac:(lia)) as (out & E).
      destruct (min_optimal g Rg Dg fuel out E) as (r & -> & O). exists r. split; [apply (optimal_trans p g); auto|].
      unfold opt_determinize, determinize. rewrite HA. rewrite (determinize_more _ _ _ _ _ _ Eg fuel ltac:(lia)). cbn [obind]. exact E.
  Qed.

  (** What is asked of the machine: an acyclic acceptor without epsilons whose bits say so. *)
  Record optimizable f : Prop := Optimizable {
    oz_closed : closed f; oz_cnt : cnt f; oz_start : vstart f <> None; oz_bits : fsound f;
    oz_acc : has (vprops f) ACCEPTOR = true; oz_eps : has (vprops f) NO_EPSILONS = true; oz_acyc : has (vprops f) ACYCLIC = true;
    oz_nz : no_zeros (mach f) }.

  Theorem C62_optimize : forall f, optimizable f -> exists N, forall fuel, (N <= fuel)%nat -> exists r, OPT fuel f = Some (Ok r) /\ optimal f r.
  Proof.
    intros f [C N St So HA HE HC NZ]. destruct (tr_sum_rel L f N) as (p & Ep & P1 & P2 & P3 & _ & _ & P4 & P5 & P6 & P7).
    assert (BA : has (vprops p) ACCEPTOR = true) by (apply (sum_bit f p); auto).
    assert (BC : has (vprops p) ACYCLIC = true) by (apply (sum_bit f p); auto).
    assert (BE : has (vprops p) NO_EPSILONS = true) by (apply (sum_bit f p); auto).
    pose proof (tr_sum_sound f p So Ep) as Sp.
    assert (R : ready p).
    { constructor; auto.
      - split; [|rewrite P1, P2; apply C]. intros s t Ht. destruct (sum_in f p s t Ep Ht) as (u & Hu & _ & _ & <-). rewrite P1. apply (proj1 C s u Hu).
      - congruence.
      - intros s t Ht. symmetry. apply (Sp ACCEPTOR BA s t Ht).
      - intros s t Ht E0. apply (Sp NO_EPSILONS BE s t Ht). split; auto. rewrite <- E0. symmetry. apply (Sp ACCEPTOR BA s t Ht).
      - split; [intros s t; apply (sum_weight L f p s t ZF NZ Ep N)|]. intros s w Hw. apply (proj2 NZ s w). cbn [mach mfin] in *. rewrite <- P3. auto.
      - exact (Sp ACYCLIC BC). }
    destruct (rest_optimal p R BA BC) as (N0 & H). exists N0. intros fuel HF. destruct (H fuel HF) as (r & O & E). exists r. split.
    - unfold optimize, optimize_acceptor, opt_prepare, opt_direct. rewrite HA, HE. cbn [obind]. rewrite Ep. cbn [obind]. rewrite BC. cbn [orb negb].
      destruct (has (vprops p) I_DETERMINISTIC); cbn [negb]; destruct idem; exact E.
    - apply (optimal_trans f p); auto. intros u. apply (sum_spelled L f p u Ep N).
  Qed.
End Min.
Print Assumptions C62_optimize.

(** ** The other routes *)
Section Routes.
  Context {K K' : SR} (L : sr_laws K) (rv : K -> K') (rb : K' -> K) (wlt : K -> K -> bool) (divide : K -> K -> divide_type -> res K)
    (quantd quantm : K -> K) (pathp leftp rightp : bool) (orc : nat -> nat)
    (ord : dtuple K -> nat -> list (nat * K) -> list (nat * K))
    (ordg : dtuple (gallicSR K) -> nat -> list (nat * gallicSR K) -> list (nat * gallicSR K)).
  Notation OPT idem fuel := (optimize rv rb wlt divide quantd quantm idem pathp leftp rightp orc ord ordg fuel).
  Notation EDMD idem fuel := (encode_deter_mini_decode rv rb wlt divide quantd quantm idem pathp leftp rightp orc ord ordg fuel).

  (** Weights whose plus is not idempotent: without the bits "input deterministic" or "acyclic" parallel transitions
      are summed and nothing else happens, whatever the fuel. *)
  Theorem C62_only_sums : forall f fuel, cnt f -> num_states f <> O -> has (vprops f) NO_EPSILONS = true ->
    has (vprops f) I_DETERMINISTIC = false -> has (vprops f) ACYCLIC = false ->
    exists p, OPT false fuel f = Some (Ok p) /\ num_states p = num_states f /\ vstart p = vstart f /\
      (forall s, NoDup (map (fun t => (il t, ol t, ns t)) (trs_of p s))) /\
      (forall n x y, rel (mach p) n x y = rel (mach f) n x y) /\ (fsound f -> fsound p).
  Proof.
    intros f fuel C N HE HD HC. destruct (tr_sum_rel L f C) as (p & Ep & P1 & P2 & P3 & ND & _ & _ & _ & _ & RL).
    assert (BD : has (vprops p) I_DETERMINISTIC = false).
    { destruct (has (vprops p) I_DETERMINISTIC) eqn:X; auto. apply (sum_bit_back f p) in X as [X _]; auto. congruence. }
    assert (BC : has (vprops p) ACYCLIC = false).
    { destruct (has (vprops p) ACYCLIC) eqn:X; auto. apply (sum_bit_back f p) in X as [X _]; auto. congruence. }
    exists p. split.
    - unfold optimize, optimize_acceptor, optimize_transducer, opt_prepare. rewrite HE. cbn [obind]. rewrite Ep. cbn [obind negb]. rewrite BD, BC.
      destruct (has (vprops f) ACCEPTOR); reflexivity.
    - do 4 (split; [assumption|]). intros SF. exact (tr_sum_sound f p SF Ep).
  Qed.
  (** Idempotent plus: the encoded route is taken even by machines known to be unweighted, since summing
      parallel transitions drops that bit first. *)
  Theorem C62_unweighted_forgotten : forall f p fuel, num_states f <> O -> tr_sum f = Ok p -> has (vprops f) NO_EPSILONS = true ->
    has (vprops f) I_DETERMINISTIC = false -> has (vprops f) ACYCLIC = false ->
    OPT true fuel f = (g <== EDMD true fuel p (if has (vprops f) ACCEPTOR then EncodeWeights else EncodeWeightsAndLabels) ;; Some (tr_sum g)).
  Proof.
    intros f p fuel N Ep HE HD HC.
    assert (X : forall b, has (vprops f) b = false \/ inb b pm_weight_invariant_properties = false -> has (vprops p) b = false).
    { intros b Hb. destruct (has (vprops p) b) eqn:X; auto. apply (sum_bit_back f p) in X as (X & _ & _ & Y); auto. destruct Hb; congruence. }
    unfold optimize, optimize_acceptor, optimize_transducer, opt_prepare, opt_direct. rewrite HE. cbn [obind]. rewrite Ep. cbn [obind negb].
    rewrite (X I_DETERMINISTIC (or_introl HD)), (X ACYCLIC (or_introl HC)), (X UNWEIGHTED (or_intror eq_refl)), (X UNWEIGHTED_CYCLES (or_intror eq_refl)).
    cbn [negb orb]. destruct (has (vprops f) ACCEPTOR); reflexivity.
  Qed.
End Routes.
Print Assumptions C62_only_sums.
Print Assumptions C62_unweighted_forgotten.

(** ** Tropical machines *)
Local Close Scope K_scope.
Definition z_div (x y : tropZ) (d : divide_type) : res tropZ := trop_div x y.
Definition z_lt (x y : tropZ) : bool := match x, y with Some a, Some b => Z.ltb a b | Some _, None => true | None, _ => false end.
Definition z_opt (fuel : nat) : vfst tropZ -> option (res (vfst tropZ)) :=
  optimize (K := tropZ) (K' := tropZ) (fun w => w) (fun w => w) z_lt z_div (fun w => w) (fun w => w) true true true true (fun _ => O) (fun _ _ l => l) (fun _ _ l => l) fuel.
Definition z (n : Z) : tropZ := Some n.
Definition z_of (c : list (op tropZ)) : vfst tropZ := match run vnew c with Ok f => f | _ => vnew end.

Lemma z_divides : divides_exactly z_div.
Proof.
  split; intros a b Hb (c & <-); destruct b as [b|], c as [c|]; try (exfalso; apply Hb; reflexivity); cbn; eexists; split; try reflexivity; cbn; f_equal; lia.
Qed.
Lemma z_weakly : weakly_divisible tropZ.
Proof.
  intros [a|] [b|] H; cbn in *; try congruence.
  - split; exists (Some (a - Z.min a b)%Z); cbn; f_equal; lia.
  - split; exists (Some 0%Z); cbn; f_equal; lia.
  - split; exists None; reflexivity.
Qed.
Lemma z_apart : tells_apart z_lt. Proof. repeat split. Qed.
Lemma z_cancel : forall a b c : tropZ, a <> kzero -> ktimes a b = ktimes a c -> b = c.
Proof. intros [a|] [b|] [c|] H; cbn in *; try congruence. intros [= E]. f_equal. lia. Qed.

Theorem C62_tropical : forall f : vfst tropZ, optimizable f -> exists N, forall fuel, (N <= fuel)%nat -> exists r, z_opt fuel f = Some (Ok r) /\ optimal f r.
Proof.
  apply (C62_optimize tropZ_laws tropZ_laws (fun w => w) (fun w => w)); eauto using z_divides, z_weakly, trop_zero_free, z_apart, z_cancel, tropZ_comm.
  - exact trop_exact.
  - exact trop_always.
  - exact idord_ok.
Qed.
Print Assumptions C62_tropical.

(** Two states merged after the three transitions on one label became one: four states, five transitions and three
    final weights in, three states out. *)
Definition c62_ops : list (op tropZ) := [OAddStates 4; OSetStart 0; OAddTr 0 (Tr 1 1 (z 2) 1); OAddTr 0 (Tr 1 1 (z 1) 2); OAddTr 0 (Tr 1 1 (z 3) 2);
  OAddTr 1 (Tr 2 2 (z 1) 3); OAddTr 2 (Tr 2 2 (z 1) 3); OSetFinal 3 (z 0); OSetFinal 2 (z 4)].
Definition c62_f : vfst tropZ := with_bits (z_of c62_ops).
Lemma with_bits_cnt {K : SR} (f : vfst K) : cnt f -> cnt (with_bits f).
Proof.
  intros C. unfold with_bits, compute_and_update_properties. destruct (compute_fst_properties _ _ _) as [[q k]| |]; cbn; auto.
Qed.
Definition no_zerosb {K : SR} (f : vfst K) : bool :=
  forallb (fun st => forallb (fun t => negb (keqb (wgt t) kzero)) (vtrs st) && match vfin st with Some w => negb (keqb w kzero) | None => true end) (vstates f).
Lemma no_zerosb_ok {K : SR} (L : sr_laws K) (f : vfst K) : no_zerosb f = true -> no_zeros (mach f).
Proof.
  unfold no_zerosb. rewrite forallb_forall. intros H.
  assert (Z : forall w : K, negb (keqb w kzero) = true -> w <> kzero).
  { intros w E X. subst w. assert (Y : keqb (kzero : K) kzero = true) by (apply (keqb_spec _ L); auto). rewrite Y in E. discriminate. }
  split; intros s; cbn [mach mtrs mfin]; unfold trs_of, fin_of; destruct (nth_error (vstates f) s) as [st|] eqn:E; try (intros t []; fail); try discriminate;
    apply nth_error_In, H, andb_prop in E as [E1 E2].
  - intros t Ht. rewrite forallb_forall in E1. auto.
  - intros w Hw. rewrite Hw in E2. auto.
Qed.
Example C62_witness : optimizable c62_f /\ ~ deterministic (mach c62_f) /\
  exists r, z_opt 60 c62_f = Some (Ok r) /\ num_states r = 3 /\ map (fun s => (map (fun t => (il t, wgt t, ns t)) (trs_of r s), fin_of r s)) [0; 1; 2] =
    [([(1, z 2, 1)], None); ([(2, z 0, 2)], Some (z 3)); ([], Some (z 0))].
Proof.
  assert (R : run vnew c62_ops = Ok (z_of c62_ops)) by (vm_compute; reflexivity).
  assert (NF : no_zero_final (z_of c62_ops)).
  { assert (Z : no_zeros (mach (z_of c62_ops))) by (apply (no_zerosb_ok tropZ_laws); vm_compute; reflexivity). intros q w. apply (proj2 Z q w). }
  split; [|split].
  - destruct (with_bits_ok tropZ_laws (z_of c62_ops)) as [C S]; auto.
    + apply closedb_ok; vm_compute; reflexivity.
    + eapply (run_fsound tropZ_laws); [apply fsound_new| |exact R]. vm_compute; tauto.
    + vm_compute. discriminate.
    + constructor; auto; try (vm_compute; reflexivity).
      * apply with_bits_cnt. eapply (run_cnt tropZ_laws); [|exact R]. constructor.
      * vm_compute. discriminate.
      * apply (no_zerosb_ok tropZ_laws). vm_compute. reflexivity.
  - intros D. specialize (D 0). vm_compute in D. inversion D as [|? ? X _]. apply X. left. reflexivity.
  - exists (c38_out vnew (z_opt 60 c62_f)). repeat match goal with |- _ /\ _ => split end; vm_compute; reflexivity.
Qed.

(** The transducer route on an example: two transitions reading 1 and writing 5 are merged, the one writing 6 stays. *)
Definition c62_t : vfst tropZ := z_of [OAddStates 4; OSetStart 0; OAddTr 0 (Tr 1 5 (z 2) 1); OAddTr 0 (Tr 1 5 (z 1) 2); OAddTr 0 (Tr 1 6 (z 3) 2);
  OAddTr 1 (Tr 2 7 (z 1) 3); OAddTr 2 (Tr 2 7 (z 1) 3); OSetFinal 3 (z 0)].
Example C62_transducer_test : exists r, z_opt 60 c62_t = Some (Ok r) /\ num_states r = 3 /\
  map (fun s => (map (fun t => (il t, ol t, wgt t, ns t)) (trs_of r s), fin_of r s)) [0; 1; 2] =
    [([(1, 5, z 2, 1); (1, 6, z 4, 1)], None); ([(2, 7, z 0, 2)], None); ([], Some (z 0))].
Proof. exists (c38_out vnew (z_opt 60 c62_t)). repeat match goal with |- _ /\ _ => split end; vm_compute; reflexivity. Qed.

(** ** Where the claim fails *)
(** A deterministic unweighted cycle, built by the calls below and left with the bits they maintain: the route through
    encoded weights ends in the subtraction [tuple_id - 1] for the label 0. *)
Definition c62_cycle : list (op tropZ) :=
  [OAddStates 3; OSetStart 0; OAddTr 0 (Tr 1 1 (z 0) 1); OAddTr 1 (Tr 2 2 (z 0) 2); OAddTr 2 (Tr 3 3 (z 0) 0); OSetFinal 2 (z 0)].
Theorem C62_cycle_refuted : exists f : vfst tropZ, run vnew c62_cycle = Ok f /\ closed f /\ plain_acceptor (mach f) /\ deterministic (mach f) /\ eps_free (mach f) /\
  z_opt 60 f = Some Panic.
Proof.
  exists (z_of c62_cycle). split; [vm_compute; reflexivity|]. split; [apply closedb_ok; vm_compute; reflexivity|]. split; [|split; [|split]].
  - split; [intros [|[|[|s]]] t H|intros [|[|[|s]]] w H]; vm_compute in H; try (destruct s; discriminate); try (destruct s; destruct H; fail);
      try discriminate; try (destruct H as [<-|[]]; split; reflexivity); injection H as <-; reflexivity.
  - intros [|[|[|s]]]; vm_compute; try (repeat constructor; tauto). destruct s; constructor.
  - intros [|[|[|s]]] t H; vm_compute in H; try (destruct H as [<-|[]]; discriminate). destruct s; destruct H.
  - vm_compute. reflexivity.
Qed.
(** A machine without a start state is refused as soon as its bits are all known. *)
Theorem C62_no_start_refuted : exists f : vfst tropZ, closed f /\ vstart f = None /\
  (forall n x y, rel (mach f) n x y = kzero) /\ has (vprops (with_bits f)) ACYCLIC = true /\
  (exists r, z_opt 60 f = Some (Ok r) /\ num_states r = 0) /\ z_opt 60 (with_bits f) = Some Err.
Proof.
  exists (z_of [OAddStates 2; OAddTr 0 (Tr 1 1 (z 1) 1)]). split; [apply closedb_ok; vm_compute; reflexivity|].
  repeat match goal with |- _ /\ _ => split end; try (vm_compute; reflexivity).
  eexists. split; vm_compute; reflexivity.
Qed.
