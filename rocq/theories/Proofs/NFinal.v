(** What the n-shortest-path search returns, for a machine with distances that fit it. *)
From Coq Require Import List Arith NArith Bool Lia Permutation.
From Verif Require Import Base.Util Base.Semiring Base.Machine Base.PathSum Base.PropSpec Model.Props Model.AlgoProps Model.VectorFst Model.Rational Model.FstPath Model.Visitors Model.NShortest
  Proofs.PropsFacts Proofs.VectorFacts Proofs.TrOpsFacts Proofs.OpFacts Proofs.RationalFacts Proofs.DelStates Proofs.SdFacts Proofs.ShortestTree Proofs.ConnectFacts
  Proofs.VectorProps Proofs.HistoryFacts Proofs.RmEpsFacts
  Proofs.NHeap Proofs.NSearch Proofs.NLoop Proofs.NBest Proofs.NPaths
  Props.C03 Props.C05 Props.C32.
Import ListNotations.
Local Open Scope K_scope.

Lemma ranked_acyclic {K : SR} (m : machine K) (r : nat -> nat) : (forall s t, In t (mtrs m s) -> (r (ns t) < r s)%nat) -> forall s, ~ on_cycle m s.
Proof.
  intros H s (t & Ht & R). apply H in Ht. assert (X : forall a b, reach m a b -> (r b <= r a)%nat).
  { intros a b Hr. induction Hr as [|a t' b H1 _ IH]; auto. apply H in H1. lia. }
  apply X in R. lia.
Qed.

Lemma filter_partition {A} (len : A -> nat) (l : list A) k :
  length (flat_map (fun j => filter (fun i => Nat.eqb (len i) j) l) (seq 0 k)) = length (filter (fun i => Nat.ltb (len i) k) l).
Proof.
  induction k as [|k IH].
  - cbn. induction l; auto.
  - rewrite seq_S, flat_map_app, app_length, IH. cbn [flat_map Nat.add]. rewrite app_nil_r. clear IH. induction l as [|x l IH]; cbn [filter]; auto.
    destruct (Nat.ltb_spec (len x) k), (Nat.eqb_spec (len x) k), (Nat.ltb_spec (len x) (S k)); try lia; cbn [length]; lia.
Qed.

Lemma filter_le {A} (h : A -> bool) l : (length (filter h l) <= length l)%nat.
Proof. induction l as [|x l IH]; cbn; auto. destruct (h x); cbn; lia. Qed.

Section F.
  Context {K K' : SR} (rb : K' -> K) (L : sr_laws K) (Pp : path_plus K) (Cm : commutative_times K).
  Context (I : vfst K') (dist : list K) (n : nat) (r0 : nat).
  Notation inv := (inv rb I dist n r0).
  Notation gext := (gext rb I).

  Lemma node_facc st nodes ex sk dn : inv st nodes ex sk dn -> forall i, (1 <= i < length nodes)%nat -> forall k,
    facc (mach (n_fst st)) k i = if Nat.eqb (nd_len (nd nodes i)) k then [nd_suf (nd nodes i)] else [].
  Proof.
    intros V i. induction i as [i IH] using lt_wf_ind. intros Hi k. destruct (Nat.eq_dec i 1) as [->|N1].
    - rewrite (i_root _ _ _ _ _ _ _ _ _ _ V). cbn [root nd_len nd_suf]. destruct k; cbn [facc mach mfin mtrs Nat.eqb].
      + rewrite (i_fin1 _ _ _ _ _ _ _ _ _ _ V). auto.
      + rewrite (i_trs1 _ _ _ _ _ _ _ _ _ _ V). auto.
    - destruct (i_edge _ _ _ _ _ _ _ _ _ _ V i) as (F & a & b & w & p & T & Hp & _ & E1 & E2); [lia|]. rewrite E1, E2.
      destruct k; cbn [facc mach mfin mtrs Nat.eqb]; [rewrite F; auto|]. rewrite T. cbn [flat_map il ol wgt ns]. rewrite IH by lia.
      rewrite app_nil_r. destruct (Nat.eqb _ _); auto.
  Qed.

  Lemma start_facc st nodes ex sk dn : inv st nodes ex sk dn ->
    facc (mach (n_fst st)) 0 0 = [] /\
    forall k, facc (mach (n_fst st)) (S k) 0 = map (fun i => nd_suf (nd nodes i)) (filter (fun i => Nat.eqb (nd_len (nd nodes i)) k) dn).
  Proof.
    intros V. cbn [facc mach mfin mtrs]. rewrite (i_fin0 _ _ _ _ _ _ _ _ _ _ V). split; auto. intros k. rewrite (i_trs0 _ _ _ _ _ _ _ _ _ _ V).
    rewrite flat_map_map'. cbn [il ol wgt ns]. assert (H : forall i, In i dn -> (1 <= i < length nodes)%nat).
    { intros i Hi. apply (inv_range rb I dist n r0 _ _ _ _ _ V). rewrite !in_app_iff. auto. }
    assert (X : forall l, incl l dn -> flat_map (fun i => map (consr 0 0 1) (facc (mach (n_fst st)) k i)) l =
      map (fun i => nd_suf (nd nodes i)) (filter (fun i => Nat.eqb (nd_len (nd nodes i)) k) l)).
    { induction l as [|i l IH]; intros Sl; cbn [flat_map filter]; auto. rewrite IH by (intros z Hz; apply Sl; right; auto).
      rewrite (node_facc _ _ _ _ _ V) by (apply H, Sl; left; auto). destruct (Nat.eqb _ _); auto. cbn [map app]. f_equal.
      unfold consr. cbn [lab Nat.eqb app]. rewrite (ktimes_1_l _ L). destruct (nd_suf (nd nodes i)); auto. }
    apply X, incl_refl.
  Qed.

  Definition nrank (N i : nat) : nat := if Nat.eqb i 0 then N else i.
  Lemma inv_rank st nodes ex sk dn : inv st nodes ex sk dn -> forall s t, In t (trs_of (n_fst st) s) ->
    (ns t < length nodes)%nat /\ (nrank (length nodes) (ns t) < nrank (length nodes) s)%nat.
  Proof.
    intros V s t Ht. pose proof (i_len _ _ _ _ _ _ _ _ _ _ V) as Ln. unfold nrank. destruct s as [|[|s]].
    - rewrite (i_trs0 _ _ _ _ _ _ _ _ _ _ V) in Ht. apply in_map_iff in Ht as (i & <- & Hi). cbn [ns Nat.eqb].
      assert ((1 <= i < length nodes)%nat) by (apply (inv_range rb I dist n r0 _ _ _ _ _ V); rewrite !in_app_iff; auto).
      destruct (Nat.eqb_spec i 0); lia.
    - rewrite (i_trs1 _ _ _ _ _ _ _ _ _ _ V) in Ht. destruct Ht.
    - destruct (Nat.ltb_spec (S (S s)) (length nodes)) as [Hs|Hs].
      + destruct (i_edge _ _ _ _ _ _ _ _ _ _ V (S (S s))) as (_ & a & b & w & p & T & Hp & _); [lia|]. rewrite T in Ht. destruct Ht as [<-|[]]. cbn [ns Nat.eqb].
        destruct (Nat.eqb_spec p 0); lia.
      + rewrite (trs_of_beyond (n_fst st)) in Ht; [destruct Ht|]. rewrite (s_num _ _ _ (i_shape _ _ _ _ _ _ _ _ _ _ V)). auto.
  Qed.

  Lemma connect_ranked (f g : vfst K) (r : nat -> nat) : closed f -> cnt f -> connect f = Ok g ->
    (forall s t, In t (trs_of f s) -> (r (ns t) < r s)%nat) ->
    (closed g /\ cnt g /\ visymt g = visymt f /\ vosymt g = vosymt f) /\
    (forall s, (s < num_states g)%nat -> accessible (mach g) s /\ coaccessible (mach g) s) /\
    (forall s, ~ on_cycle (mach g) s).
  Proof.
    intros Hc C E R. destruct (connect_eq f Hc C) as (d & h & Ec & Ed & S & U & _). rewrite E in Ec. injection Ec as ->.
    set (g' := set_properties_with_mask _ _ _). assert (S' : is_submachine f d g') by exact S. split; [|split].
    - split; [eapply sub_closed; eauto|]. split; [exact (del_states_cnt f d h C Ed)|]. destruct S' as (_ & _ & _ & ? & ?). auto.
    - apply (sub_useful f d g' Hc U S').
    - destruct S' as (N & HS & _). apply (ranked_acyclic _ (fun k => r (nth k (survivors (num_states f) d) O))). intros k t Ht. cbn [mach mtrs] in Ht.
      destruct (nth_error (survivors (num_states f) d) k) as [s|] eqn:Es.
      + destruct (HS k s Es) as [_ F]. rewrite (List.nth_error_nth _ _ O Es).
        assert (X : exists t0, In t0 (filter (fun t => negb (dead d (ns t))) (trs_of f s)) /\ nth_error (survivors (num_states f) d) (ns t) = Some (ns t0)).
        { clear -F Ht. induction F as [|x y l l' H _ IH]; [destruct Ht|]. destruct Ht as [<-|Ht]; [exists y; split; [left; auto|apply H]|].
          destruct (IH Ht) as (t0 & H1 & H2). exists t0. split; auto. right. auto. }
        destruct X as (t0 & H1 & H2). apply filter_In in H1 as [H1 _]. rewrite (List.nth_error_nth _ _ O H2). apply R. auto.
      + rewrite trs_of_beyond in Ht; [destruct Ht|]. apply nth_error_None in Es. rewrite N. auto.
  Qed.

  Lemma nsp_bits (g : vfst K) b : has (vprops (set_properties_with_mask g (shortest_path_properties (vprops g) false) all_properties)) b = true ->
    has (vprops g) b = true \/ In b [ACYCLIC; INITIAL_ACYCLIC; ACCESSIBLE; UNWEIGHTED_CYCLES; COACCESSIBLE].
  Proof.
    unfold set_properties_with_mask, shortest_path_properties, when. cbn [negb with_props vprops].
    rewrite has_lor, !has_land, !has_pset. intros H. apply orb_true_iff in H as [H|H]; apply andb_true_iff in H as [H _]; auto.
    apply orb_true_iff in H as [H|H]; [apply orb_true_iff in H as [H|H]; auto|]; right; apply inb_In in H; cbn in *; tauto.
  Qed.

  Hypothesis Cl : forall q t, In t (trs_of I q) -> (ns t < num_states I)%nat.
  Hypothesis D1 : forall q t, In t (trs_of I q) -> le (nth q dist 0) (nth (ns t) dist 0 * rb (wgt t)).
  Hypothesis D2 : forall q w, fin_of I q = Some w -> le (nth q dist 0) (rb w).

  Lemma inv_init (g4 : vfst K) : (r0 < num_states I)%nat -> num_states g4 = 2%nat -> vstart g4 = Some O -> cnt g4 -> fsound g4 ->
    (forall s, trs_of g4 s = []) -> fin_of g4 0 = None -> fin_of g4 1 = Some 1 ->
    inv (NST g4 [(None, 0); (Some r0, 1)] [1%nat] []) [nd0; root r0] [] [] [].
  Proof.
    intros Hr N S C So T F0 F1. constructor; cbn [n_fst n_heap n_r n_pairs length app]; auto.
    - constructor; cbn [n_pairs n_fst n_heap]; auto.
      + constructor; [|constructor]. red. cbn. lia.
      + intros j Hj x y _ E. destruct j as [|[|j]]; cbn in E; try lia; discriminate.
    - intros i Hi. lia.
    - intros [|[|i]] q; cbn; intros E; try discriminate; [injection E as <-; auto|destruct i; discriminate].
    - intros q. cbn. lia.
    - intros i q [].
    - intros i [].
    - intros i j [].
    - intros i q t [].
    - intros i q w [].
    - intros k. cbn [flat_map app]. rewrite app_nil_r. unfold NSearch.contrib, nd. cbn [nth root nd_st nd_suf nd_len Nat.leb]. rewrite ?Nat.sub_0_r. auto.
  Qed.

  Lemma n_shortest_ok : vstart I = Some r0 -> (r0 < num_states I)%nat -> (r0 < length dist)%nat -> nth r0 dist 0 <> 0 -> (1 <= n)%nat ->
    (forall q, nth q dist 0 <> 0 -> optimal rb I dist q) ->
    exists g rest, n_shortest_path rb true I dist n = Ok g /\ closed g /\ cnt g /\ fsound g /\
      accepting g 0 = [] /\
      (forall k, Permutation (gext k (Some r0) (FP [] [] 1)) (accepting g (S k) ++ rest k)) /\
      (forall k, (length (accepted g k) <= n)%nat) /\
      (forall k k' x y, In x (accepting g (S k)) -> In y (rest k') -> le (pwgt x) (pwgt y)) /\
      ((exists k, length (accepted g k) = n) \/ (forall k, rest k = [])).
  Proof.
    intros Sr Hr Ld Nz Hn Op. unfold n_shortest_path. destruct (Nat.eqb_spec n 0); [lia|]. cbn [negb]. rewrite Sr.
    destruct (Nat.leb_spec (length dist) r0); [lia|]. replace (keqb (nth r0 dist 0) 0) with false by (symmetry; apply (keqb_false L); auto). cbn [orb].
    destruct (add_state_eff (@vnew K)) as (A1 & A2 & A3 & A4 & A5 & A6 & A7 & A8).
    assert (S1 : fsound (fst (add_state (@vnew K)))) by (rewrite add_state_eq; apply (fsound_add_states vnew 1); apply fsound_new).
    specialize (A6 (Forall_nil _)). destruct (add_state (@vnew K)) as [g1 o]. cbn [fst snd] in *. change (num_states (@vnew K)) with O in *. subst o.
    destruct (set_start_eff g1 0) as (g2 & E2 & B1 & B2 & B3 & B4 & B5 & B6 & B7); [lia|]. rewrite E2. cbn [rbind].
    pose proof (fsound_set_start _ _ _ S1 E2) as S2.
    destruct (add_state_eff g2) as (C1 & C2 & C3 & C4 & C5 & C6 & C7 & C8).
    assert (S3 : fsound (fst (add_state g2))) by (rewrite add_state_eq; apply (fsound_add_states g2 1); auto).
    destruct (add_state g2) as [g3 o]. cbn [fst snd] in *. assert (o = 1)%nat as -> by lia. clear C1.
    destruct (set_final_eff g3 1 1) as (g4 & E4 & (F1 & F2 & F3 & F4 & F5) & F6 & F7); [lia|]. rewrite E4. cbn [rbind].
    pose proof (fsound_set_final (sr_lsr _ L) _ _ _ _ S3 E4) as S4.
    change (hpush (sp_compare [(None, 0); (Some r0, 1)] dist) [] 1%nat) with (Ok [1%nat]). cbn [rbind].
    assert (V : inv (NST g4 [(None, 0); (Some r0, 1)] [1%nat] []) [nd0; root r0] [] [] []).
    { apply inv_init; auto; try lia; try congruence.
      - intros s. rewrite F6, C7, B6, A7. destruct s; auto.
      - rewrite F7. cbn [Nat.eqb]. rewrite C8, B7, A8. auto.
      - rewrite F7. auto. }
    destruct (loop_ok rb L Pp Cm I dist n r0 Cl D1 D2 (nth r0 dist 0 * 0) (ktimes_0_r _ L _) (n_bound I n) _ _ _ _ _ V) as (st & nodes & ex & sk & dn & Eq & V' & Fin).
    { cbn. lia. }
    { unfold measure, n_bound. cbn [n_heap length]. apply le_n_S.
      assert (X : forall l, list_sum (map (fun q => ((n - cntq (K := K) [nd0; root r0] q []) * S (length (trs_of I q)))%nat) l) = (n * list_sum (map (fun q => S (length (trs_of I q))) l))%nat).
      { induction l as [|q l IH]; cbn [map list_sum fold_right]; [lia|]. change (fold_right Nat.add 0%nat) with list_sum. rewrite IH. unfold cntq. cbn [filter length]. rewrite Nat.sub_0_r. lia. }
      rewrite X. apply Nat.le_refl. }
    rewrite Eq. cbn [rbind]. pose proof (i_shape _ _ _ _ _ _ _ _ _ _ V') as Sh. pose proof (inv_rank _ _ _ _ _ V') as Rk.
    assert (Cn : closed (n_fst st)).
    { split; [intros s t Ht; rewrite (s_num _ _ _ Sh); apply (Rk s t Ht)|]. intros s Es. rewrite (s_start _ _ _ Sh) in Es. injection Es as <-.
      rewrite (s_num _ _ _ Sh). pose proof (i_len _ _ _ _ _ _ _ _ _ _ V'). lia. }
    destruct (connect_eq (n_fst st) Cn (s_cnt _ _ _ Sh)) as (d & h & Ec & _). rewrite Ec.
    remember (set_properties_with_mask h (mask [ACCESSIBLE; COACCESSIBLE]) (mask [ACCESSIBLE; COACCESSIBLE])) as g eqn:Eg. clear Eg h d. cbn [rbind].
    destruct (connect_ranked _ _ _ Cn (s_cnt _ _ _ Sh) Ec (fun s t Ht => proj2 (Rk s t Ht))) as ((G1 & G2 & G3 & G4) & G5 & G6).
    pose proof (connect_fsound L _ _ Cn (s_cnt _ _ _ Sh) Ec (s_sound _ _ _ Sh)) as G7.
    pose proof (connect_accepting L _ _ Cn (s_cnt _ _ _ Sh) Ec) as Ac.
    destruct (outcome rb L Pp I dist n r0 D1 D2 _ _ _ _ _ V' Op Fin) as (rest & R1 & R2 & R3).
    destruct (start_facc _ _ _ _ _ V') as [P0 P1].
    set (g' := set_properties_with_mask g (shortest_path_properties (vprops g) false) all_properties).
    assert (Ac' : forall k, accepting g' k = facc (mach (n_fst st)) k 0).
    { intros k. transitivity (accepting g k); [reflexivity|]. rewrite Ac, (accepting_facc L), (s_start _ _ _ Sh). auto. }
    assert (Len : forall k, length (accepted g' (S k)) = length (filter (fun i => Nat.ltb (nd_len (nd nodes i)) k) dn)).
    { intros k. unfold accepted. cbn [seq flat_map]. rewrite Ac', P0. cbn [app]. rewrite <- seq_shift, flat_map_map'.
      rewrite <- (filter_partition (fun i => nd_len (nd nodes i))). generalize (seq 0 k). induction l as [|j l IH]; cbn [flat_map]; auto.
      rewrite !app_length, IH, Ac', P1, map_length. auto. }
    exists g', rest. split; auto. split; [exact G1|]. split; [exact G2|]. split; [|split; [|split; [|split; [|split]]]].
    - intros b Hb. apply nsp_bits in Hb as [Hb|Hin]; [exact (G7 b Hb)|].
      change (num_states g') with (num_states g). change (mach g') with (mach g).
      destruct Hin as [<-|[<-|[<-|[<-|[<-|[]]]]]]; cbn [holds]; auto.
      + intros s Hs. apply G5. auto.
      + intros s t Ht Hrr. exfalso. apply (G6 s). exists t. auto.
      + intros s Hs. apply G5. auto.
    - rewrite Ac'. auto.
    - intros k. rewrite Ac', P1. auto.
    - intros [|k]; [cbn; lia|]. rewrite Len. pose proof (filter_le (fun i => Nat.ltb (nd_len (nd nodes i)) k) dn).
      destruct Fin as [[_ ?]|[? _]]; lia.
    - intros k k' x y Hx Hy. rewrite Ac', P1 in Hx. apply in_map_iff in Hx as (i & <- & Hi). apply filter_In in Hi as [Hi _]. eauto.
    - destruct Fin as [[_ Hd]|[Hd _]]; [right; auto|]. left.
      assert (X : exists k, forall i, In i dn -> (nd_len (nd nodes i) < k)%nat).
      { clear. induction dn as [|i dn (k & Hk)]; [exists O; intros i []|]. exists (Nat.max k (S (nd_len (nd nodes i)))). intros j [<-|Hj]; [lia|]. apply Hk in Hj. lia. }
      destruct X as (k & Hk). exists (S k). rewrite Len, <- Hd. f_equal. rewrite (filter_ext_in _ (fun _ => true)).
      + clear. induction dn; cbn; congruence.
      + intros i Hi. apply Nat.ltb_lt. auto.
  Qed.
End F.
