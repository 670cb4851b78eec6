(** C06: union computes the sum of the two relations. *)
From Coq Require Import List Arith NArith ZArith Bool Lia Permutation.
From Verif Require Import Base.Util Base.Semiring Base.Machine Base.PropSpec Base.Convolution Base.Instances
  Model.Props Model.VectorFst Model.TrOps Model.AlgoProps Model.History Model.Dfs Model.Visitors Model.ComputeProps Model.Rational
  Proofs.PropsFacts Proofs.VectorFacts Proofs.DelStates Proofs.VectorProps Proofs.TrOpsFacts Proofs.HistoryFacts
  Proofs.OpFacts Proofs.ConnectFacts Proofs.RationalFacts Props.C01 Props.C43.
Import ListNotations.
Local Open Scope K_scope.

Section C06.
  Context {K : SR} (L : lsr_laws K).
  Implicit Types (f g : vfst K).

  (** Every stored bit is true. *)
  Definition bits_true f : Prop := forall b, has (vprops f) b = true -> holds b (num_states f) (mach f).

  Lemma shape_ia : shape_only (mask [INITIAL_ACYCLIC]).
  Proof. intros b Hb. rewrite has_mask in Hb. destruct b; try discriminate. simpl. tauto. Qed.

  Lemma caup_ok f m : vstart f = None -> shape_only m -> exists g q, compute_and_update_properties f m = Ok (g, q) /\
    vstates g = vstates f /\ vstart g = vstart f /\ visymt g = visymt f /\ vosymt g = vosymt f.
  Proof.
    intros Es Hm. unfold compute_and_update_properties.
    assert (X : exists r, compute_fst_properties f m true = Ok r).
    { unfold compute_fst_properties. destruct (true && _); [eauto|].
      assert (Y : exists c, (if intersects m (pset (pset (mask dfs_props) [WEIGHTED_CYCLES]) [UNWEIGHTED_CYCLES])
        then v <-- visit_scc f any_filter ;; Ok (N.lor (N.land (vprops f) binary_properties) (N.land (mask dfs_props) (sv_props v)), sv_scc v)
        else Ok (N.land (vprops f) binary_properties, [])) = Ok c).
      { destruct (intersects _ _); [|eauto]. unfold visit_scc. rewrite Es. cbn. eauto. }
      destruct Y as [[c sc] ->]. cbn [rbind].
      destruct (intersects m (pnot (N.lor binary_properties (mask dfs_props)))) eqn:EI; [|cbn [rbind]; eauto].
      exfalso. change (pnot (N.lor binary_properties (mask dfs_props))) with
          (mask (filter (fun b => negb (inb b dfs_props)) all_bits)) in EI.
      rewrite ComputeFacts.intersects_mask in EI. apply existsb_exists in EI as (b & Hb & Hb').
      apply filter_In in Hb as [_ Hb]. apply Hm in Hb'. apply negb_true_iff in Hb.
      apply inb_In in Hb'. unfold dfs_props in Hb. congruence. }
    destruct X as [[p k] ->]. cbn [rbind]. eexists. eexists. split; [reflexivity|]. auto.
  Qed.

  (** Both machines have a start. If the start of [f1] is on a cycle a fresh start is made and every
      path gets one epsilon step; otherwise only the paths of [f2] do. *)
  Theorem C06_union :
    forall (f1 f2 : vfst K) s1 s2, closed f1 -> closed f2 -> bits_true f1 ->
    vstart f1 = Some s1 -> vstart f2 = Some s2 ->
    exists g, union f1 f2 = Ok g /\
      (on_cycle (mach f1) s1 ->
         (forall x y, rel (mach g) O x y = 0) /\
         (forall k x y, rel (mach g) (S k) x y = rel (mach f1) k x y + rel (mach f2) k x y)) /\
      (~ on_cycle (mach f1) s1 ->
         (forall x y, rel (mach g) O x y = rel (mach f1) O x y) /\
         (forall k x y, rel (mach g) (S k) x y = rel (mach f1) (S k) x y + rel (mach f2) k x y)) /\
      closed g /\ (cnt f1 -> cnt f2 -> cnt g) /\ visymt g = visymt f1 /\ vosymt g = vosymt f1.
  Proof.
    intros f1 f2 s1 s2 CL1 CL2 BT Es1 Es2. unfold union.
    destruct (C43_compute_and_update L f1 (mask [INITIAL_ACYCLIC]) CL1) as (f & q & E & A1 & A2 & A3 & A4 & A5 & A6);
      [congruence|right; apply shape_ia|exact BT|].
    rewrite E. cbn [rbind]. rewrite Es2.
    destruct (append_copy_eff f f2) as (g & EG & N & (G1 & G2 & G3 & G4) & T & F). rewrite EG. cbn [rbind].
    assert (M : num_states f = num_states f1) by (unfold num_states; rewrite A1; auto).
    assert (Tf : forall p, trs_of f p = trs_of f1 p) by (intros; unfold trs_of; rewrite A1; auto).
    assert (Ff : forall p, fin_of f p = fin_of f1 p) by (intros; unfold fin_of; rewrite A1; auto).
    assert (Cf : cnt f1 -> cnt f) by (unfold cnt; rewrite A1; auto).
    rewrite M in *. set (n1 := num_states f1) in *. rewrite G1, A2, Es1.
    destruct CL1 as [C1 C2]. pose proof (C2 _ Es1) as Hs1. fold n1 in Hs1. pose proof (proj2 CL2 _ Es2) as Hs2.
    assert (IA : has q INITIAL_ACYCLIC = true <-> ~ on_cycle (mach f1) s1).
    { rewrite A6. cbn [holds mach mstart]. rewrite Es1, has_mask. split.
      - intros [_ H]. apply H. auto.
      - intros H. split; [reflexivity|]. intros s Hs. inversion Hs; subst. auto. }
    (* weights in the copy and in the untouched first part *)
    assert (W2 : forall (h : vfst K), (forall p, n1 <= p < n1 + num_states f2 -> trs_of h p = trs_of g p) -> (forall p, n1 <= p < n1 + num_states f2 -> fin_of h p = fin_of g p) ->
       forall k x y, wt (mach h) k (s2 + n1)%nat x y = rel (mach f2) k x y).
    { intros h Ht Hf k x y. unfold rel. cbn [mach mstart]. rewrite Es2. apply (copy_wt L); auto.
      - intros p Hp. cbn [mach mtrs]. rewrite Ht by lia. rewrite T. destruct (Nat.ltb_spec (p + n1) n1); [lia|]. replace (p + n1 - n1)%nat with p by lia. auto.
      - intros p Hp. cbn [mach mfin]. rewrite Hf by lia. rewrite F. destruct (Nat.ltb_spec (p + n1) n1); [lia|]. replace (p + n1 - n1)%nat with p by lia. auto. }
    assert (W1 : forall (h : vfst K) (P : nat -> Prop), (forall p, P p -> p < n1) -> (forall p t, P p -> In t (trs_of f1 p) -> P (ns t)) ->
       (forall p, P p -> trs_of h p = trs_of g p) -> (forall p, P p -> fin_of h p = fin_of g p) ->
       forall k p x y, P p -> wt (mach h) k p x y = wt (mach f1) k p x y).
    { intros h P HP HC Ht Hf. induction k as [|k IH]; intros p x y Hp; pose proof (HP p Hp) as Hlt; apply Nat.ltb_lt in Hlt.
      - simpl. rewrite Hf, F, Hlt, Ff by auto. auto.
      - simpl. rewrite Ht, T, Hlt, Tf by auto. apply ksum_map_ext. intros t Hin.
        destruct (strip (il t) x); auto. destruct (strip (ol t) y); auto. rewrite IH; eauto. }
    assert (CG : forall s t, In t (trs_of g s) -> ns t < n1 + num_states f2).
    { intros s t Ht. rewrite T in Ht. destruct (Nat.ltb_spec s n1).
      - rewrite Tf in Ht. specialize (C1 _ _ Ht). unfold n1 in *; lia.
      - apply in_map_iff in Ht as (u & <- & Hu). simpl. pose proof (proj1 CL2 _ _ Hu). lia. }
    destruct (has q INITIAL_ACYCLIC) eqn:EI.
    - (* reuse the start *)
      assert (NC : ~ on_cycle (mach f1) s1) by (apply IA; auto).
      destruct (add_tr_eff g s1 (Tr O O 1 (s2 + n1)%nat)) as (h & HE & (HN & H1 & H2 & H3 & H4) & HT & HF); [lia|].
      rewrite (unwrap_ok _ _ HE). cbn [rbind]. eexists. split; [reflexivity|].
      match goal with |- context [set_properties_with_mask h ?p ?k] => set (h' := set_properties_with_mask h p k) end.
      assert (HT' : forall p, trs_of h' p = if p =? s1 then trs_of g s1 ++ [Tr O O 1 (s2 + n1)%nat] else trs_of g p) by (exact HT).
      assert (HF' : forall p, fin_of h' p = fin_of g p) by (exact HF).
      assert (HS : vstart h' = Some s1) by (change (vstart h' ) with (vstart h); congruence).
      split; [tauto|]. split; [intros _; split|].
      + intros x y. unfold rel. cbn [mach mstart]. rewrite HS, Es1. simpl. rewrite HF', F, Ff.
        apply Nat.ltb_lt in Hs1. rewrite Hs1. auto.
      + intros k x y. unfold rel at 1 2. cbn [mach mstart]. rewrite HS, Es1. cbn [wt mach mtrs].
        rewrite HT', Nat.eqb_refl, map_app, (ksum_app L), T. apply Nat.ltb_lt in Hs1. rewrite Hs1, Tf. f_equal.
        * apply ksum_map_ext. intros t Ht. destruct (strip (il t) x); auto. destruct (strip (ol t) y); auto. f_equal.
          apply (W1 h' (fun p => p < n1 /\ reach (mach f1) (ns t) p)).
          -- tauto.
          -- intros p u [_ Hr] Hu. split; [apply (C1 _ _ Hu)|]. eapply reach_trans; [exact Hr|]. econstructor; [exact Hu|constructor].
          -- intros p [_ Hr]. rewrite HT'. destruct (Nat.eqb_spec p s1); auto. subst. exfalso. apply NC. exists t. auto.
          -- intros p _. apply HF'.
          -- split; [apply (C1 _ _ Ht)|constructor].
        * cbn [map ksum il ol wgt ns strip Nat.eqb]. rewrite (kplus_0_r L), (ktimes_1_l _ L). apply W2.
          -- intros p Hp. rewrite HT'. apply Nat.ltb_lt in Hs1. destruct (Nat.eqb_spec p s1); auto. lia.
          -- intros p _. apply HF'.
      + split; [|split; [intros; apply H4; auto|change (visymt h') with (visymt h); change (vosymt h') with (vosymt h); split; congruence]].
        assert (NH : num_states h' = (n1 + num_states f2)%nat) by (change (num_states h') with (num_states h); lia).
        split; intros s.
        * intros t Ht. rewrite NH. rewrite HT' in Ht. destruct (s =? s1); [|apply (CG s t Ht)].
          apply in_app_or in Ht as [Ht|[<-|[]]]; [apply (CG s1 t Ht)|]. simpl. lia.
        * intros Hs. rewrite HS in Hs. inversion Hs; subst. rewrite NH. lia.
    - (* fresh start *)
      assert (OC : ~ ~ on_cycle (mach f1) s1) by (rewrite <- IA; discriminate).
      destruct (add_state_eff g) as (E1 & E2 & E3 & E4 & E5 & E6 & E7 & E8).
      destruct (add_state g) as [g1 st] eqn:EA. simpl in E1, E2, E3, E4, E5, E6, E7, E8. subst st.
      set (n := num_states g) in *.
      destruct (add_tr_eff (set_start_unchecked g1 n) n (Tr O O 1 s1)) as (h1 & HE & (HN & H1 & H2 & H3 & H4) & HT & HF).
      { change (num_states (set_start_unchecked g1 n)) with (num_states g1). lia. }
      rewrite (unwrap_ok _ _ HE). cbn [rbind].
      change (num_states (set_start_unchecked g1 n)) with (num_states g1) in HN.
      destruct (add_tr_eff h1 n (Tr O O 1 (s2 + n1)%nat)) as (h & HE2 & (HN2 & I1 & I2 & I3 & I4) & HT2 & HF2); [lia|].
      rewrite (unwrap_ok _ _ HE2). cbn [rbind]. eexists. split; [reflexivity|].
      match goal with |- context [set_properties_with_mask h ?p ?k] => set (h' := set_properties_with_mask h p k) end.
      assert (Z : trs_of g n = []) by (apply trs_of_oob; auto).
      assert (HT' : forall p, trs_of h' p = if p =? n then [Tr O O 1 s1; Tr O O 1 (s2 + n1)%nat] else trs_of g p).
      { intros p. change (trs_of h' p) with (trs_of h p). rewrite HT2, !HT, Nat.eqb_refl.
        change (trs_of (set_start_unchecked g1 n)) with (trs_of g1). rewrite !E7, Z. destruct (p =? n); auto. }
      assert (HF' : forall p, fin_of h' p = fin_of g p).
      { intros p. change (fin_of h' p) with (fin_of h p). rewrite HF2, HF. apply E8. }
      assert (HS : vstart h' = Some n) by (change (vstart h' ) with (vstart h); rewrite I1, H1; auto).
      assert (FN : fin_of g n = None) by (apply fin_of_beyond; auto).
      split; [intros _; split|].
      + intros x y. unfold rel. cbn [mach mstart]. rewrite HS. simpl. rewrite HF', FN. destruct (isnil x && isnil y); auto.
      + intros k x y. unfold rel at 1 2. cbn [mach mstart]. rewrite HS, Es1. cbn [wt mach mtrs].
        rewrite HT', Nat.eqb_refl. cbn [map ksum il ol wgt ns strip Nat.eqb]. rewrite (kplus_0_r L), !(ktimes_1_l _ L). f_equal.
        * apply (W1 h' (fun p => p < n1)); auto.
          -- intros p u Hp Hu. apply (C1 _ _ Hu).
          -- intros p Hp. rewrite HT'. destruct (Nat.eqb_spec p n); auto. lia.
        * apply W2.
          -- intros p Hp. rewrite HT'. destruct (Nat.eqb_spec p n); auto. lia.
          -- auto.
      + split; [tauto|].
        split; [|split; [intros HC _; apply I4, H4; apply E6; apply G4; auto|change (visymt h') with (visymt h); change (vosymt h') with (vosymt h);
           simpl in H2, H3; split; congruence]].
        assert (NH : num_states h' = S n) by (change (num_states h') with (num_states h); lia).
        split; intros s.
        * intros t Ht. rewrite NH. rewrite HT' in Ht. destruct (s =? n); [|specialize (CG s t Ht); lia].
          destruct Ht as [<-|[<-|[]]]; simpl; lia.
        * intros Hs. rewrite HS in Hs. inversion Hs; subst. rewrite NH. lia.
  Qed.

  (** Nothing to add. *)
  Theorem C06_union_right_empty :
    forall (f1 f2 : vfst K), closed f1 -> bits_true f1 -> vstart f2 = None ->
    exists g, union f1 f2 = Ok g /\ vstates g = vstates f1 /\ vstart g = vstart f1 /\
      visymt g = visymt f1 /\ vosymt g = vosymt f1.
  Proof.
    intros f1 f2 CL BT E2. unfold union. destruct (vstart f1) as [s1|] eqn:E1.
    - destruct (C43_compute_and_update L f1 (mask [INITIAL_ACYCLIC]) CL) as (f & q & E & A1 & A2 & A3 & A4 & _);
        [congruence|right; apply shape_ia|exact BT|]. rewrite E. cbn [rbind]. rewrite E2. exists f. split; auto. split; auto. split; auto. congruence.
    - destruct (caup_ok f1 (mask [INITIAL_ACYCLIC]) E1 shape_ia) as (f & q & E & A1 & A2 & A3 & A4).
      rewrite E. cbn [rbind]. rewrite E2. exists f. split; auto. split; auto. split; auto. congruence.
  Qed.

  (** Adding to a machine without states gives the second relation. *)
  Theorem C06_union_left_empty :
    forall (f1 f2 : vfst K) s2, closed f1 -> closed f2 -> num_states f1 = O -> vstart f2 = Some s2 ->
    exists g, union f1 f2 = Ok g /\ (forall k x y, rel (mach g) k x y = rel (mach f2) k x y) /\ closed g.
  Proof.
    intros f1 f2 s2 CL1 CL2 HN E2.
    assert (E1 : vstart f1 = None).
    { destruct (vstart f1) as [s|] eqn:E; auto. apply CL1 in E. lia. }
    unfold union. destruct (caup_ok f1 (mask [INITIAL_ACYCLIC]) E1 shape_ia) as (f & q & E & A1 & A2 & A3 & A4).
    rewrite E. cbn [rbind]. rewrite E2.
    destruct (append_copy_eff f f2) as (g & EG & N & (G1 & G2 & G3 & G4) & T & F). rewrite EG. cbn [rbind].
    rewrite G1, A2, E1. eexists. split; [reflexivity|].
    assert (M : num_states f = O) by (unfold num_states in *; rewrite A1; auto). rewrite M in *.
    assert (ID : forall t : tr K, shifted 0 t = t) by (intros [a b c d]; unfold shifted; simpl; rewrite Nat.add_0_r; auto).
    assert (T' : forall p, trs_of g p = trs_of f2 p).
    { intros p. rewrite T. simpl. rewrite Nat.sub_0_r. rewrite (map_ext _ (fun t => t) ID), map_id. auto. }
    assert (F' : forall p, fin_of g p = fin_of f2 p).
    { intros p. rewrite F. simpl. rewrite Nat.sub_0_r. auto. }
    split.
    - intros k x y. unfold rel. cbn. rewrite E2. apply wt_ext.
      + intros p. apply T'.
      + intros p. cbn [mach mfin]. f_equal. apply F'.
    - split.
      + intros s t Ht. change (num_states g > ns t). rewrite N. apply (proj1 CL2 s). rewrite <- T'. exact Ht.
      + intros s Hs. cbn in Hs. inversion Hs; subst. change (num_states g > s). rewrite N. apply (proj2 CL2). auto.
  Qed.
End C06.

(** When [f1] has states but no start the new start is not shifted: the result can lose the
    whole relation of [f2]. *)
Theorem C06_union_no_start_refuted :
  exists (c1 c2 : list (op natSR)) f1 f2 g, run vnew c1 = Ok f1 /\ run vnew c2 = Ok f2 /\
    closed f1 /\ closed f2 /\ bits_true f1 /\ vstart f1 = None /\ union f1 f2 = Ok g /\
    rel (mach f2) 0 [] [] = 5%nat /\ forall k x y, rel (mach g) k x y = 0%nat.
Proof.
  exists [OAddState], [OAddState; OSetStart 0; OSetFinal 0 (5%nat : natSR)].
  eexists. eexists. eexists. split; [vm_compute; reflexivity|]. split; [vm_compute; reflexivity|].
  split.
  { split; [|cbn; intros s H; discriminate].
    intros s t. destruct s as [|s]; cbn; [tauto|]. destruct s; simpl; tauto. }
  split.
  { split; [|cbn; intros s H; inversion H; vm_compute; lia].
    intros s t. destruct s as [|s]; cbn; [tauto|]. destruct s; simpl; tauto. }
  split; [|split; [reflexivity|split; [vm_compute; reflexivity|split; [reflexivity|]]]].
  - match goal with |- bits_true ?f => assert (T : forall s, trs_of f s = []) by (intros [|[|s]]; reflexivity);
        assert (F : forall s, fin_of f s = None) by (intros [|[|s]]; reflexivity); set (f1 := f) in * end.
    intros b Hb. destruct b; try discriminate Hb; cbn [holds mach mtrs mfin];
    try (intros s; rewrite T; simpl; try constructor; intros; contradiction).
    + split; [intros s t; rewrite T; intros []|intros s w; rewrite F; discriminate].
    + intros s (t & Ht & _). cbn [mach mtrs] in Ht. rewrite T in Ht. destruct Ht.
    + intros s Hs. discriminate Hs.
  - intros k x y. unfold rel. cbn [mach mstart vstart]. destruct k; [simpl; destruct (isnil x && isnil y); auto|reflexivity].
Qed.
Print Assumptions C06_union.
Print Assumptions C06_union_right_empty.
Print Assumptions C06_union_left_empty.
Print Assumptions C06_union_no_start_refuted.

(** Runs of plainly covered calls are histories in the sense of C01. *)
Lemma run_history {K : SR} (l : list (op K)) : forall f f', history f ->
  Forall (fun o => match o with OSetTrs _ _ | ORawSort _ _ | ORawUnique _ | ORawSum _ => False | _ => True end) l ->
  run f l = Ok f' -> history f'.
Proof.
  induction l as [|o l IH]; intros f f' H F R; simpl in R.
  - inversion R; subst; auto.
  - inversion F; subst. destruct (step f o) as [f1| |] eqn:E; [|eauto|discriminate].
    apply (IH f1 f'); auto. apply (h_call f o f1); auto. destruct o; simpl in *; tauto.
Qed.

(** Two small cyclic machines; the first has its start on a cycle. *)
Example C06_witness :
  exists f1 f2 g : vfst natSR,
    run vnew [OAddStates 1; OSetStart 0; OSetFinal 0 2%nat; OAddTr 0 (Tr 1 1 3%nat 0)] = Ok f1 /\
    run vnew [OAddStates 2; OSetStart 0; OSetFinal 1 5%nat; OAddTr 0 (Tr 1 1 7%nat 1)] = Ok f2 /\
    closed f1 /\ closed f2 /\ bits_true f1 /\ on_cycle (mach f1) 0 /\ union f1 f2 = Ok g /\
    rel (mach g) 2 [1]%nat [1]%nat = (3 * 2 + 7 * 5)%nat.
Proof.
  assert (B : forall f1, run (K := natSR) vnew [OAddStates 1; OSetStart 0; OSetFinal 0 2%nat; OAddTr 0 (Tr 1 1 3%nat 0)] = Ok f1 ->
    bits_true f1).
  { intros f1 R. refine (C01_property_bits_sound natSR natSR_laws f1 _). refine (run_history _ vnew f1 h_new _ R). repeat constructor. }
  eexists. eexists. eexists. split; [vm_compute; reflexivity|]. split; [vm_compute; reflexivity|].
  split; [|split; [|split; [|split; [|split; vm_compute; reflexivity]]]].
  - split; [|cbn; intros s H; inversion H; vm_compute; lia].
    intros s t. destruct s as [|s]; cbn; [intros [<-|[]]; vm_compute; lia|]. destruct s; simpl; tauto.
  - split; [|cbn; intros s H; inversion H; vm_compute; lia].
    intros s t. destruct s as [|[|s]]; cbn; [intros [<-|[]]; vm_compute; lia|tauto|]. destruct s; simpl; tauto.
  - apply B. vm_compute. reflexivity.
  - eexists. split; [left; reflexivity|]. constructor.
Qed.
