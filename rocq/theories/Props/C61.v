(** * C61. Every property bit that determinization of an acceptor reports is true. *)
From Coq Require Import List Arith NArith ZArith Bool Lia Permutation Sorted.
From Verif Require Import Base.Util Base.Semiring Base.Machine Base.PathSum Base.Instances Base.TropZ Base.PropSpec Model.Props Model.AlgoProps Model.VectorFst Model.History
  Model.TrOps Model.BiMap Model.Lazy Model.Rational Model.ComputeProps Model.Determinize.
From Verif Require Import Proofs.BiMapFacts Proofs.ConnectFacts Proofs.PropsFacts Proofs.VectorProps Proofs.LazyFacts Proofs.TableFacts Proofs.RationalFacts Proofs.OpFacts Proofs.VectorFacts
  Proofs.SortFacts Proofs.ComposeFacts Proofs.TrOpsFacts Proofs.FactorTable Proofs.DetTable Proofs.DetFacts Proofs.TableReach Proofs.DetBits Proofs.RmEpsFacts Proofs.ClosedB Proofs.HistoryFacts Props.C38 Props.C43.
Import ListNotations.
Local Open Scope K_scope.

(** No transition and no final state carries the weight zero. *)
Definition no_zeros {K : SR} (m : machine K) : Prop :=
  (forall s t, In t (mtrs m s) -> wgt t <> 0) /\ (forall s w, mfin m s = Some w -> w <> 0).

Section Main.
  Context {K : SR} (L : sr_laws K) (div : K -> K -> res K) (quant : K -> K) (left : bool)
    (ord : dtuple K -> nat -> list (nat * K) -> list (nat * K)) (f : vfst K).
  Context (DX : exact_division div quant) (HO : any_order ord) (CL : closed f).
  Notation D := (default_weight div quant left).
  Notation met := (met (det_start f) (det_trs D ord f)).

  Section Zeros.
    Context (ZF : zero_free K) (NZ : no_zeros (mach f)).
    Notation pos := (Forall (fun e : nat * K => snd e <> 0)).

    Lemma np_add_pos m x m' : pos m -> snd x <> 0 -> np_add D m x = Ok m' -> pos m'.
    Proof.
      destruct ZF as (_ & ZS & _). revert m'. induction m as [|[q w] m IH]; intros m' H X; cbn [np_add].
      - intros [= <-]. auto.
      - inversion H as [|? ? H1 H2]; subst. destruct (Nat.eqb q (fst x)).
        + cbn. intros [= <-]. constructor; auto. cbn [snd]. intros E0. apply ZS in E0. auto.
        + destruct (np_add D m x) as [r| |]; cbn [rbind]; try discriminate. intros [= <-]. constructor; auto.
    Qed.
    Lemma merge_pos l : forall m m', pos m -> pos l -> rfold (np_add D) l m = Ok m' -> pos m'.
    Proof.
      induction l as [|x l IH]; intros m m' Hm Hl; [intros [= <-]; auto|]. inversion Hl; subst.
      rewrite rfold_cons. destruct (np_add D m x) as [r| |] eqn:E; cbn [rbind]; try discriminate. apply IH; auto. apply (np_add_pos m x r); auto.
    Qed.
    Lemma norm_pos t a l d r : pos l -> norm_tr D ord t a l = Ok (d, r) -> pos r.
    Proof.
      intros H. unfold norm_tr. set (s := isort _ l). assert (PS : Permutation s l) by apply isort_perm.
      destruct (rfold _ s 0) as [d'| |] eqn:Ed; cbn [rbind]; try discriminate.
      destruct (rfold (np_add D) s []) as [m| |] eqn:Em; cbn [rbind]; try discriminate.
      destruct (rtrav _ (ord t a m)) as [r'| |] eqn:Er; cbn [rbind]; try discriminate. intros [= <- <-].
      assert (PM : pos m). { eapply merge_pos; [| |exact Em]; auto. eapply Permutation_Forall; [symmetry; exact PS|auto]. }
      apply rtrav_ok in Er. apply Forall_forall. intros b Hb. destruct (Forall2_in_r _ _ _ _ Er Hb) as ([q w] & He & Ee). cbn [fst snd] in Ee.
      apply (Permutation_in _ (HO t a m)) in He. destruct (divisor_part L div quant left _ _ _ _ _ Ed Em He) as [r ->].
      destruct (d_div D w (w + r)) as [z| |] eqn:Ez; cbn [rbind] in Ee; try discriminate. injection Ee as <-. cbn [snd d_quant default_weight].
      intros E0. rewrite Forall_forall in PM. apply (PM _ He). cbn [snd]. cbn [d_div default_weight] in Ez. rewrite <- (DX _ _ _ Ez), E0. apply (ktimes_0_r _ L).
    Qed.
    Lemma out_pos l : forall o, pos l -> det_out f l = Ok o -> forall x, In x o -> snd (snd x) <> 0.
    Proof.
      destruct ZF as (_ & _ & ZD). induction l as [|e l IH]; intros o H; cbn [det_out]; [intros [= <-] x []|].
      inversion H; subst. destruct (get_trs f (fst e)) as [ts| |] eqn:G; cbn [rbind]; try discriminate.
      destruct (det_out f l) as [r| |]; cbn [rbind]; try discriminate. intros [= <-] x Hx. apply in_app_or in Hx as [Hx|Hx]; [|eauto].
      apply in_map_iff in Hx as (v & <- & Hv). cbn [snd]. intros E0. apply ZD in E0 as [E0|E0]; [auto|].
      apply (proj1 NZ (fst e) v); auto. cbn. unfold get_trs, get_state in G. unfold trs_of. destruct (nth_error (vstates f) (fst e)); cbn in G; try discriminate.
      injection G as ->. auto.
    Qed.
    Lemma met_pos t : met t -> pos (fst t).
    Proof.
      induction 1 as [t E|t l u M IH E Hu].
      - unfold det_start in E. destruct (vstart f); [injection E as <-|discriminate]. constructor; auto. apply ZF.
      - unfold det_trs in E. destruct (det_out f (fst t)) as [o| |] eqn:Eo; cbn [rbind] in E; try discriminate.
        pose proof (out_pos _ _ IH Eo) as PO. destruct (lm_fold o (K := K) [] (SSorted_nil _)) as [_ P]. cbn [app unmap flat_map] in P.
        apply rtrav_ok in E. destruct (Forall2_in_r _ _ _ _ E Hu) as (p & Hp & Ep).
        destruct (norm_tr D ord t (fst p) (snd p)) as [[d r]| |] eqn:En; cbn [rbind] in Ep; try discriminate. injection Ep as <-. cbn [tn fst snd].
        eapply norm_pos; [|exact En]. apply Forall_forall. intros e He. apply (PO (fst p, e)). eapply Permutation_in; [exact P|].
        apply in_flat_map. exists p. split; auto. apply in_map. auto.
    Qed.
  End Zeros.

  Lemma fin_sum t w : (forall e, In e (fst t) -> (fst e < num_states f)%nat) -> det_fin D f t = Ok w ->
    w = (if keqb (ksum (map (fun e => snd e * fw (fin_of f (fst e))) (fst t))) 0 then None
         else Some (ksum (map (fun e => snd e * fw (fin_of f (fst e))) (fst t)))).
  Proof.
    intros HB. unfold det_fin.
    assert (G : forall l a, (forall e, In e l -> (fst e < num_states f)%nat) ->
      rfold (fun acc e => o <-- final_weight f (fst e) ;; d_plus D acc (snd e * match o with Some z => z | None => 0 end)) l a =
      Ok (a + ksum (map (fun e => snd e * fw (fin_of f (fst e))) l))).
    { induction l as [|e l IH]; intros a H; [cbn; rewrite (kplus_0_r L); auto|]. rewrite rfold_cons, (final_in f (fst e)) by (apply H; left; auto).
      cbn [rbind d_plus default_weight]. rewrite IH by (intros; apply H; right; auto). cbn [map ksum]. rewrite <- (kplus_assoc _ L). auto. }
    rewrite G by auto. cbn [rbind]. rewrite (kplus_0_l _ L). intros [= <-]. auto.
  Qed.

  Section Run.
    Context (fuel : nat) (g : vfst K) (tb : det_table K) (E : det_run D ord f None fuel = Some (Ok (g, tb))).
    Notation tup s := (nth_error (id_to_tuple (dabs tb)) s).

    Lemma final_of s t q w : zero_free K -> no_zeros (mach f) -> accessible (mach g) s -> tup s = Some t -> In q (supp (fst t)) ->
      fin_of f q = Some w -> fin_of g s <> None.
    Proof.
      intros ZF NZ A N Hq Hw. pose proof (run_fin L D ord f fuel g tb E s t A N) as F.
      apply fin_sum in F.
      2: { intros e He. eapply (tup_below L D ord f HO CL fuel g tb E s t); eauto. apply supp_in. auto. }
      rewrite F. destruct (keqb _ 0) eqn:Z; [|discriminate]. exfalso. apply (keqb_spec _ L) in Z.
      destruct (run_tup L D ord f fuel g tb E s A) as (t' & N' & M). assert (t' = t) as -> by congruence.
      pose proof (met_pos ZF NZ t M) as P. rewrite Forall_forall in P. apply in_supp in Hq as (e & He & <-).
      apply in_split in He as (l1 & l2 & El). rewrite El in Z. rewrite map_app, (ksum_app L) in Z. cbn [map ksum] in Z.
      destruct ZF as (_ & ZS & ZD). rewrite (kplus_comm _ L) in Z. apply ZS, ZS in Z. rewrite Hw in Z. cbn [fw] in Z. apply ZD in Z as [Z|Z].
      - apply (P e); auto. rewrite El. apply in_or_app. right. left. auto.
      - exact (proj2 NZ (fst e) w Hw Z).
    Qed.
    Lemma run_coaccessible : zero_free K -> no_zeros (mach f) -> (forall s, (s < num_states f)%nat -> coaccessible (mach f) s) ->
      forall s, (s < num_states g)%nat -> coaccessible (mach g) s.
    Proof.
      intros ZF NZ CO s Hs. pose proof (run_all L D ord f fuel g tb E s Hs) as A. destruct (run_tup L D ord f fuel g tb E s A) as (t & N & _).
      pose proof (tup_inhabited L D ord f HO fuel g tb E s t A N) as NE. destruct (fst t) as [|e r] eqn:Et; [congruence|].
      assert (Hq : In (fst e) (supp (fst t))) by (rewrite Et; left; auto).
      destruct (CO (fst e) (tup_below L D ord f HO CL fuel g tb E s t _ A N Hq)) as (z & R & F). apply reach_path in R as (p & Hp & <-).
      destruct (path_fwd L D ord f HO fuel g tb E p s t (fst e) A N Hq Hp) as (p' & t' & H1 & H2 & H3 & H4 & H5).
      exists (dst s p'). split; [apply reach_path; eauto|]. cbn [mach mfin] in *. destruct (fin_of f (dst (fst e) p)) as [w|] eqn:W; [|congruence].
      eapply final_of; eauto.
    Qed.
    Lemma run_string : zero_free K -> no_zeros (mach f) -> is_string (num_states f) (mach f) -> is_string (num_states g) (mach g).
    Proof.
      intros ZF NZ ST. pose proof (string_supp L D ord f HO CL fuel g tb E (num_states f) ST eq_refl) as SS.
      destruct (Nat.eq_dec (num_states g) 0) as [Z|NZg]; [left; auto|right].
      destruct (run_met L D ord f fuel g tb E) as (_ & _ & (c & B) & _).
      pose proof (proj1 (proj2 B)) as CG.
      destruct ST as [Z|[S0 ST]]; [destruct (SS 0%nat) as (_ & _ & _ & X); lia|].
      destruct (run_start L D ord f fuel g tb E 0%nat S0) as (a & Ea & Na).
      assert (a = 0%nat) as ->.
      { destruct (SS a) as (t & N & O & _); [exact (proj2 CG a Ea)|]. rewrite Na in N. injection N as <-. symmetry. apply O. left. auto. }
      split; [exact Ea|]. intros s Hs. destruct (SS s Hs) as (t & N & O & Ls). pose proof (run_all L D ord f fuel g tb E s Hs) as A.
      specialize (ST s Ls). cbn [mach mtrs mfin] in *.
      assert (XT : forall v, In v (trs_of g s) -> ns v = S s /\ (S s < num_states g)%nat).
      { intros v Hv. destruct (run_step L D ord f HO fuel g tb E s t v A N Hv) as (_ & t' & N' & NE & P).
        pose proof (proj1 CG s v Hv) as Lv. destruct (SS (ns v) Lv) as (t2 & N2 & O2 & _). assert (t2 = t') as -> by congruence.
        assert (In (ns v) (supp (fst t'))) as I by (apply O2; auto). apply P in I as (e & w & He & Hw & _ & E2).
        assert (fst e = s) as Es by (apply O; apply supp_in; auto). rewrite Es in Hw.
        destruct (Nat.eqb_spec (S s) (num_states f)); [destruct ST as [ST _]; rewrite ST in Hw; destruct Hw|].
        destruct ST as [(w' & Ew & Nw) _]. rewrite Ew in Hw. destruct Hw as [<-|[]]. rewrite <- E2, Nw. split; auto. lia. }
      destruct (Nat.eqb_spec (S s) (num_states f)) as [En|En].
      - assert (T0 : trs_of g s = []).
        { destruct (trs_of g s) as [|v l] eqn:T; auto. exfalso. destruct (XT v (or_introl eq_refl)) as [_ X].
          destruct (SS (S s) X) as (_ & _ & _ & Y). lia. }
        assert (NS : S s = num_states g).
        { destruct (Nat.eq_dec (S s) (num_states g)); auto. exfalso. destruct (SS (S s)) as (_ & _ & _ & Y); lia. }
        replace (S s =? num_states g) with true by (symmetry; apply Nat.eqb_eq; auto). split; auto.
        destruct ST as [_ F]. destruct (fin_of f s) as [w|] eqn:W; [|congruence]. apply (final_of s t s w); auto. apply O. auto.
      - destruct ST as [(w & Ew & Nw) Fw]. destruct (in_supp s (fst t)) as (e & He & Ee); [apply O; auto|].
        destruct (run_cover L D ord f HO fuel g tb E s t e w A N He) as (v & Hv & Ev); [rewrite Ee, Ew; left; auto|].
        destruct (XT v Hv) as [Nv Lv]. replace (S s =? num_states g) with false by (symmetry; apply Nat.eqb_neq; lia). split.
        + exists v. split; auto. pose proof (proj2 (built_shape div quant left ord f (dabs tb, c) g B) s) as ND. cbn [mach mtrs] in ND.
          destruct (trs_of g s) as [|v1 [|v2 l]] eqn:T; [destruct Hv|destruct Hv as [<-|[]]; auto|]. exfalso.
          assert (SI : forall x, In x (trs_of g s) -> il x = il w).
          { intros x Hx. destruct (run_step L D ord f HO fuel g tb E s t x A N Hx) as (_ & t' & N' & NE & P).
            destruct (fst t') as [|e' r]; [congruence|]. destruct (proj1 (P (fst e')) (or_introl eq_refl)) as (e2 & w2 & He2 & Hw2 & <- & _).
            assert (fst e2 = s) as Es by (apply O; apply supp_in; auto). rewrite Es, Ew in Hw2. destruct Hw2 as [<-|[]]. auto. }
          rewrite T in SI. inversion ND as [|? ? X _]. apply X. left. rewrite (SI v1), (SI v2); cbn; auto.
        + pose proof (run_fin L D ord f fuel g tb E s t A N) as F. apply fin_sum in F.
          2: { intros e2 He2. assert (fst e2 = s) as -> by (apply O; apply supp_in; auto). auto. }
          rewrite F. rewrite (ksum_map_zero L).
          * replace (keqb (0 : K) 0) with true; auto. symmetry. apply (keqb_spec _ L). auto.
          * intros e2 He2. assert (fst e2 = s) as -> by (apply O; apply supp_in; auto). rewrite Fw. apply (ktimes_0_r _ L).
    Qed.

    Lemma run_labels s v : In v (trs_of g s) -> exists q w, In w (trs_of f q) /\ il w = il v.
    Proof.
      intros Hv. pose proof (has_trs L D ord f fuel g tb E s v Hv) as A. destruct (run_tup L D ord f fuel g tb E s A) as (t & N & _).
      destruct (run_step L D ord f HO fuel g tb E s t v A N Hv) as (_ & t' & N' & NE & P). destruct (fst t') as [|e r]; [congruence|].
      destruct (proj1 (P (fst e)) (or_introl eq_refl)) as (e2 & w & _ & Hw & El & _). eauto.
    Qed.
    Lemma run_labels_back q w : (forall s, (s < num_states f)%nat -> accessible (mach f) s) -> In w (trs_of f q) ->
      exists s v, In v (trs_of g s) /\ il v = il w /\ ol v = il w.
    Proof.
      intros AC Hw. destruct (supp_of L D ord f HO fuel g tb E q (AC q (trs_of_in _ _ _ Hw))) as (s & t & A & N & Hq).
      apply in_supp in Hq as (e & He & <-). destruct (run_cover L D ord f HO fuel g tb E s t e w A N He Hw) as (v & Hv & Ev).
      destruct (run_step L D ord f HO fuel g tb E s t v A N Hv) as [Ov _]. exists s, v. split; auto. split; congruence.
    Qed.
  End Run.

  (** The two bits that need more than the shape of the machine. *)
  Definition needs_weights (b : pbit) : bool := match b with COACCESSIBLE | STRING => true | _ => false end.

  Theorem C61_bits distinct fuel g : fsound f -> determinize_acceptor D ord f distinct fuel = Some (Ok g) ->
    (forall s, (s < num_states g)%nat -> accessible (mach g) s) /\
    (forall b, has (vprops g) b = true -> needs_weights b = false -> holds b (num_states g) (mach g)) /\
    (zero_free K -> no_zeros (mach f) -> fsound g).
  Proof.
    intros SF. unfold determinize_acceptor, determinize_fsa.
    destruct (det_run D ord f None fuel) as [[[h tb]| |]|] eqn:E; cbn; try discriminate. intros [= <-].
    assert (MG : mach (finish_determinize f h distinct) = mach h) by (unfold mach, trs_of, fin_of; cbn; auto).
    change (num_states (finish_determinize f h distinct)) with (num_states h). unfold fsound. rewrite MG. clear MG.
    change (num_states (finish_determinize f h distinct)) with (num_states h).
    change (vprops (finish_determinize f h distinct)) with (determinize_properties (vprops f) false distinct).
    destruct (run_met L D ord f fuel h tb E) as (HA & _ & (c & B) & _).
    destruct (built_shape div quant left ord f (dabs tb, c) h B) as [SA SD].
    assert (AF : forall s t, In t (trs_of f s) -> il t = ol t) by exact (SF ACCEPTOR HA).
    pose proof (run_all L D ord f fuel h tb E) as AC.
    assert (G : forall b, has (determinize_properties (vprops f) false distinct) b = true ->
      (needs_weights b = true -> zero_free K /\ no_zeros (mach f)) -> holds b (num_states h) (mach h)).
    { intros b Hb NW. unfold determinize_properties in Hb. rewrite HA in Hb. cbn [orb andb negb] in Hb.
      rewrite ?andb_false_r in Hb. repeat first [rewrite has_copyif in Hb | rewrite has_when in Hb]. rewrite has_mask in Hb.
      cbn [andb orb] in Hb.
      destruct b; try (cbn in Hb; rewrite ?andb_false_r, ?orb_false_r in Hb; discriminate);
        match type of Hb with context [has (vprops f) ?x] => idtac end;
        cbn [inb existsb pbit_eqb orb andb] in Hb; rewrite ?andb_false_r, ?andb_true_r, ?orb_false_r, ?orb_false_l in Hb; try discriminate; cbn [holds].
      all: try (exact AC).
      all: try (intros s; exact (SD s)).
      all: try (intros s t Ht; symmetry; exact (SA s t Ht)).
      - apply andb_prop in Hb as [Hb _]. apply andb_prop in Hb as [Hb _]. intros s t Ht [E1 _].
        destruct (run_labels fuel h tb E s t Ht) as (q & w & Hw & Ew). apply (SF NO_I_EPSILONS Hb q w Hw). congruence.
      - apply andb_prop in Hb as [Ha Hb]. destruct (SF I_EPSILONS Hb) as (q & w & Hw & Ew).
        destruct (run_labels_back fuel h tb E q w (SF ACCESSIBLE Ha) Hw) as (s & v & Hv & E1 & _). exists s, v. split; [exact Hv|congruence].
      - apply andb_prop in Hb as [_ Hb]. intros s t Ht E1.
        destruct (run_labels fuel h tb E s t Ht) as (q & w & Hw & Ew). apply (SF NO_I_EPSILONS Hb q w Hw). congruence.
      - apply andb_prop in Hb as [Ha Hb]. destruct (SF O_EPSILONS Hb) as (q & w & Hw & Ew).
        destruct (run_labels_back fuel h tb E q w (SF ACCESSIBLE Ha) Hw) as (s & v & Hv & _ & E1). exists s, v. split; [exact Hv|]. rewrite E1, (AF q w Hw). auto.
      - apply andb_prop in Hb as [_ Hb]. intros s t Ht E1. rewrite (SA s t Ht) in E1.
        destruct (run_labels fuel h tb E s t Ht) as (q & w & Hw & Ew). apply (SF NO_O_EPSILONS Hb q w Hw). rewrite <- (AF q w Hw). congruence.
      - apply andb_prop in Hb as [Ha Hb]. exact (det_cyclic L D ord f HO fuel h tb E (SF ACCESSIBLE Ha) (SF CYCLIC Hb)).
      - apply andb_prop in Hb as [_ Hb]. exact (det_acyclic L D ord f HO CL fuel h tb E (SF ACYCLIC Hb)).
      - apply andb_prop in Hb as [_ Hb]. exact (det_initial_acyclic L D ord f HO fuel h tb E (SF INITIAL_ACYCLIC Hb)).
      - apply andb_prop in Hb as [_ Hb]. destruct (NW eq_refl) as [ZF NZ]. exact (run_coaccessible fuel h tb E ZF NZ (SF COACCESSIBLE Hb)).
      - apply andb_prop in Hb as [_ Hb]. destruct (NW eq_refl) as [ZF NZ]. exact (run_string fuel h tb E ZF NZ (SF STRING Hb)). }
    split; [exact AC|]. split.
    - intros b Hb N. apply G; auto. rewrite N. discriminate.
    - intros ZF NZ b Hb. apply G; auto.
  Qed.
End Main.
Print Assumptions C61_bits.

(** ** A machine with every bit computed *)
Local Close Scope K_scope.
Definition with_bits {K : SR} (f : vfst K) : vfst K := match compute_and_update_properties f all_properties with Ok (g, _) => g | _ => f end.
Lemma with_bits_ok {K : SR} (L : sr_laws K) (f : vfst K) : closed f -> fsound f -> vstart f <> None -> no_zero_final f ->
  closed (with_bits f) /\ fsound (with_bits f).
Proof.
  intros CL SF HS HZ. destruct (C43_compute_and_update L f all_properties CL HS (or_introl HZ) SF) as (g & q & E & S1 & S2 & _ & _ & B & _).
  unfold with_bits. rewrite E. assert (M : mach g = mach f) by (unfold mach, trs_of, fin_of; rewrite S1, S2; auto). split.
  - unfold closed, trs_of, num_states in *. rewrite S1, S2. auto.
  - unfold fsound, num_states. rewrite S1, M. exact B.
Qed.

Example C61_witness : exists g : tz,
  closed (with_bits c38_f) /\ fsound (with_bits c38_f) /\ no_zeros (mach (with_bits c38_f)) /\ has (vprops (with_bits c38_f)) COACCESSIBLE = true /\
  determinize_acceptor tD idord (with_bits c38_f) true 20 = Some (Ok g) /\ num_states g = 3 /\
  forallb (has (vprops g)) [ACCEPTOR; I_DETERMINISTIC; NO_EPSILONS; ACYCLIC; ACCESSIBLE; COACCESSIBLE] = true.
Proof.
  assert (NF : no_zero_final c38_f).
  { intros [|[|[|[|s]]]] w; intros H; vm_compute in H; try discriminate; [injection H as <-; discriminate|destruct s; discriminate]. }
  destruct (with_bits_ok tropZ_laws c38_f) as [C S]; auto.
  - apply closedb_ok; vm_compute; reflexivity.
  - assert (R : run vnew c38_ops = Ok c38_f) by (vm_compute; reflexivity). eapply (run_fsound tropZ_laws); [apply fsound_new| |exact R]. vm_compute; tauto.
  - vm_compute. discriminate.
  - exists (c38_out vnew (determinize_acceptor tD idord (with_bits c38_f) true 20)).
    split; auto. split; auto. split.
    { split.
      - intros [|[|[|[|s]]]] t; intros H; vm_compute in H; intuition (subst; try discriminate); destruct s; destruct H.
      - exact NF. }
    repeat match goal with |- _ /\ _ => split end; vm_compute; reflexivity.
Qed.

(** ** What is not true *)

(** With a transition of weight zero the copied bits may be false: the subset it leads to has no
    weight, so it is not final in the result. *)
Definition bdiv (x y : boolSR) : res boolSR := Ok x.
Definition c61_ops : list (op boolSR) := [OAddStates 2; OSetStart 0; OSetFinal 1 (true : boolSR); OAddTr 0 (Tr 1 1 (false : boolSR) 1)].
Definition c61_f : vfst boolSR := match run vnew c61_ops with Ok f => f | _ => vnew end.
Theorem C61_zero_weight_refuted : exists g, exact_division bdiv (fun w : boolSR => w) /\ zero_free boolSR /\ closed (with_bits c61_f) /\ fsound (with_bits c61_f) /\
  determinize_acceptor (default_weight bdiv (fun w => w) true) idord (with_bits c61_f) true 20 = Some (Ok g) /\
  has (vprops g) COACCESSIBLE = true /\ ~ holds COACCESSIBLE (num_states g) (mach g) /\
  has (vprops g) STRING = true /\ ~ holds STRING (num_states g) (mach g).
Proof.
  exists (c38_out vnew (determinize_acceptor (default_weight bdiv (fun w => w) true) idord (with_bits c61_f) true 20)).
  split; [intros [|] [|] z; cbn; intros [= <-]; auto|].
  split; [split; [discriminate|]; split; intros [|] [|]; cbn; auto; discriminate|].
  assert (NF : no_zero_final c61_f).
  { intros [|[|s]] w; intros H; vm_compute in H; try discriminate; [injection H as <-; discriminate|destruct s; discriminate]. }
  destruct (with_bits_ok boolSR_laws c61_f) as [C S]; auto.
  - apply closedb_ok; vm_compute; reflexivity.
  - assert (R : run vnew c61_ops = Ok c61_f) by (vm_compute; reflexivity). eapply (run_fsound boolSR_laws); [apply fsound_new| |exact R]. vm_compute; tauto.
  - vm_compute. discriminate.
  - split; auto. split; auto. split; [vm_compute; reflexivity|]. split; [vm_compute; reflexivity|]. split.
    { intros H. destruct (H 1) as (q & R & F); [vm_compute; auto|]. inversion R as [s|s t u Ht R']; subst.
      - apply F. vm_compute. reflexivity.
      - vm_compute in Ht. destruct Ht. }
    split; [vm_compute; reflexivity|]. intros [H|[_ H]]; [vm_compute in H; discriminate|].
    specialize (H 1). vm_compute in H. destruct H as [_ H]; auto.
Qed.
Print Assumptions C61_zero_weight_refuted.
