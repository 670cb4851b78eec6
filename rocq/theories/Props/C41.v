(** C41: the single shortest path is a best accepting path. *)
From Coq Require Import List Arith NArith Bool Lia.
From Verif Require Import Base.Util Base.Semiring Base.Machine Base.PathSum Base.PropSpec Base.Instances
  Model.Props Model.AlgoProps Model.VectorFst Model.History Model.Queues Model.ShortestDistance Model.ShortestPath
  Proofs.PropsFacts Proofs.VectorFacts Proofs.DelStates Proofs.TrOpsFacts Proofs.VectorProps Proofs.HistoryFacts Proofs.OpFacts Proofs.ConnectFacts Proofs.SdFacts
  Proofs.RationalFacts Proofs.AutoQueueFacts Proofs.ShortestTree Proofs.ShortestLoop Proofs.BacktraceFacts
  Props.C01 Props.C06.
Import ListNotations.
Local Open Scope K_scope.

(** Going round a cycle never improves on not doing so. *)
Definition cycles_idle {K : SR} (m : machine K) : Prop :=
  forall s p, is_path m s p -> dst s p = s -> 1 + pw p = 1.

(** The machine has the one path [p] of weight [w] and nothing else. *)
Definition one_path {K : SR} (m : machine K) (p : list (tr K)) (w : K) : Prop :=
  forall k x y, rel m k x y = if Nat.eqb k (length p) && (leqb (ilabs p) x && leqb (olabs p) y) then w else 0.

(** [p] is an accepting path of nonzero weight, and no accepting path has a better one. *)
Definition best_path {K : SR} (m : machine K) (a : nat) (p : list (tr K)) : Prop :=
  is_path m a p /\ apw m a p <> 0 /\ forall p', is_path m a p' -> apw m a p + apw m a p' = apw m a p.

Section C41.
  Context {K : SR} (L : sr_laws K) (Pp : path_plus K).
  Implicit Types f g : vfst K.

  (** What the function does on a machine with a start, in terms of its two phases. *)
  Lemma phases f idem a fuel : closed f -> (has (vprops f) ACYCLIC = true -> forall s, ~ on_cycle (mach f) s) ->
    cycles_idle (mach f) -> vstart f = Some a ->
    (forall R, shortest_path1 idem true fuel f = Some R ->
      exists st, length (sp_cells code_queue st) = num_states f /\ tree (mach f) a (Dq code_queue st) (Pq code_queue st) (fun _ _ => True) /\
        fin_ok f (Dq code_queue st) (fun _ => false) (sp_fd _ st) (sp_fp _ st) /\
        option_map (rmap (fun g => set_symts_from_fst g f)) (single_shortest_path_backtrace fuel f (sp_fp _ st) (sp_cells _ st)) = Some R).
  Proof.
    intros C Sn Cy Es R. unfold shortest_path1. rewrite Es.
    destruct (auto_queue_fresh idem true f (fun _ => true) C Sn) as (q & sccs & Eq & Fr & Mo). rewrite Eq.
    pose proof (auto_queue_unshort _ _ _ _ _ Eq) as U. pose proof (fresh_cq_ok f (fun _ => true) q sccs Fr Mo) as Oq.
    destruct (single_shortest_path code_queue true fuel f a q) as [R0|] eqn:E; [|discriminate].
    destruct (run_correct L Pp code_queue f a C (proj2 C a Es) Cy (uq_ok f) (uq_spec f) (uq_update f) fuel q (fun _ => O) None R0 (conj Oq U) E)
      as (st & -> & H1 & H2 & H3).
    intros H. exists st. repeat (split; auto).
  Qed.

  Lemma some_fuel f idem a : closed f -> (has (vprops f) ACYCLIC = true -> forall s, ~ on_cycle (mach f) s) ->
    cycles_idle (mach f) -> vstart f = Some a ->
    exists fuel0, forall fuel, (fuel0 <= fuel)%nat -> exists q, auto_queue_new idem true f None (fun _ => true) = Ok q /\
      exists R, single_shortest_path code_queue true fuel f a q = Some R.
  Proof.
    intros C Sn Cy Es. destruct (auto_queue_fresh idem true f (fun _ => true) C Sn) as (q & sccs & Eq & Fr & Mo).
    pose proof (auto_queue_unshort _ _ _ _ _ Eq) as U. pose proof (fresh_cq_ok f (fun _ => true) q sccs Fr Mo) as Oq.
    destruct (run_terminates L Pp code_queue f a C (proj2 C a Es) Cy (uq_ok f) (uq_spec f) (uq_update f) q (fun _ => O) None (conj Oq U)) as (fuel0 & H).
    exists fuel0. intros fuel Hf. exists q. split; auto.
  Qed.

  Lemma loop_mono (Q : qops) f : forall fuel fuel' st R, sp_loop Q fuel f st = Some R -> (fuel <= fuel')%nat -> sp_loop Q fuel' f st = Some R.
  Proof.
    induction fuel as [|fuel IH]; intros fuel' st R E Hf; [discriminate|]. destruct fuel' as [|fuel']; [lia|]. cbn [sp_loop] in *.
    destruct (qo_dequeue Q _) as [[[s|] q]| |]; auto. destruct (nth_error _ _); auto. destruct (Nat.leb _ _); auto.
    destruct (sp_trs _ _ _ _ _ _); auto. apply IH; auto. lia.
  Qed.

  Lemma single_mono (Q : qops) f a pathp q fuel fuel' R :
    single_shortest_path Q pathp fuel f a q = Some R -> (fuel <= fuel')%nat -> single_shortest_path Q pathp fuel' f a q = Some R.
  Proof.
    unfold single_shortest_path. destruct (qo_clear Q q); auto. destruct (negb pathp); auto. destruct (Nat.leb _ _); auto.
    destruct (qo_enqueue Q _ _); auto. apply loop_mono.
  Qed.

  Lemma start_apw f a st p : tree (mach f) a (Dq code_queue st) (Pq code_queue st) (fun _ _ => True) ->
    fin_ok f (Dq code_queue st) (fun _ => false) (sp_fd _ st) (sp_fp _ st) ->
    is_path (mach f) a p -> le (sp_fd _ st) (apw (mach f) a p).
  Proof.
    intros T [_ F] Hp. unfold apw. cbn [mach mfin]. destruct (fin_of f (dst a p)) as [w|] eqn:Ew; cbn [fw].
    - eapply (le_trans L); [apply (F (dst a p) w); auto|]. apply (le_mult_r L). eapply (tree_best L Pp); eauto.
    - rewrite (ktimes_0_r _ L). apply (le_0 L).
  Qed.

  Lemma sp_bits g b : has (vprops (set_properties_with_mask g (shortest_path_properties (vprops g) true) all_properties)) b = true ->
    has (vprops g) b = true \/ In b [ACYCLIC; INITIAL_ACYCLIC; ACCESSIBLE; UNWEIGHTED_CYCLES].
  Proof.
    unfold set_properties_with_mask, shortest_path_properties, when. cbn [negb with_props vprops].
    rewrite has_lor, !has_land, has_pset. intros H. apply orb_true_iff in H as [H|H]; apply andb_true_iff in H as [H _]; auto.
    apply orb_true_iff in H as [H|H]; auto. right. apply inb_In. auto.
  Qed.

  (** The backtrace of a finished search. *)
  Lemma backtrace f a st : closed f -> vstart f = Some a -> length (sp_cells code_queue st) = num_states f ->
    tree (mach f) a (Dq code_queue st) (Pq code_queue st) (fun _ _ => True) ->
    fin_ok f (Dq code_queue st) (fun _ => false) (sp_fd _ st) (sp_fp _ st) ->
    exists g, (closed g /\ cnt g /\ bits_true g) /\
      ((num_states g = O /\ vstart g = None /\ forall p, is_path (mach f) a p -> apw (mach f) a p = 0) \/
       exists p, best_path (mach f) a p /\ one_path (mach g) p (apw (mach f) a p) /\ num_states g = S (length p)) /\
      forall fuel, (single_shortest_path_backtrace fuel f (sp_fp _ st) (sp_cells _ st) = Some (Ok g) \/
       (single_shortest_path_backtrace fuel f (sp_fp _ st) (sp_cells _ st) = None /\ (fuel < num_states g)%nat)).
  Proof.
    intros C Es Ln T F. pose proof (proj2 C a Es) as Ha.
    assert (Best : forall p, is_path (mach f) a p -> le (sp_fd _ st) (apw (mach f) a p)) by (intros p; apply start_apw; auto).
    unfold single_shortest_path_backtrace. destruct (sp_fp code_queue st) as [v|] eqn:Ef.
    - destruct F as [(w & W1 & W2 & _ & W4) _]. specialize (W4 eq_refl).
      assert (R : rooted a (fun v => p_par (nth v (sp_cells code_queue st) pcell0)) v).
      { apply (t_rooted _ _ _ _ _ T). intros E. apply W2. rewrite W4, E. apply (ktimes_0_l _ L). }
      destruct (bt_all L f a (sp_cells code_queue st) Ln Ha T v w R W1) as (l & g & P1 & P2 & P3 & G & B).
      pose proof G as (G1 & G2 & G3 & Gi & Go & G4 & G5 & G6).
      destruct (set_start_eff g (length l)) as (g1 & E1 & S1 & S2 & S3 & S4 & S5 & ST & SF); [lia|].
      set (g2 := set_properties_with_mask g1 (shortest_path_properties (vprops g1) true) all_properties).
      assert (T2 : forall q, trs_of g2 q = trs_of g q) by (intros q; apply (ST q)).
      assert (F2 : forall q, fin_of g2 q = fin_of g q) by (intros q; apply (SF q)).
      assert (N2 : num_states g2 = S (length l)) by (transitivity (num_states g1); [reflexivity|lia]).
      assert (Reach : forall x y, reach (mach g2) x y <-> reach (mach g) x y).
      { intros x y. split; apply reach_mono; intros s; cbn; rewrite T2; apply incl_refl. }
      exists g2. split; [split; [|split]|split].
      + split; [|intros s Hs; assert (Some s = Some (length l)) as X by (rewrite <- S2; symmetry; exact Hs); injection X as ->; lia].
        intros s t Ht. rewrite T2 in Ht. apply (chain_tr g l w G) in Ht. lia.
      + exact (S5 G2).
      + assert (F1 : fsound g1) by (apply (fsound_set_start _ _ _ G3 E1)).
        intros b Hb. apply sp_bits in Hb.
        assert (AC : forall s, ~ on_cycle (mach g2) s).
        { intros s (t & Ht & Hr). apply (chain_acyclic g l w G s). exists t. cbn in Ht. rewrite T2 in Ht. split; auto. apply Reach. auto. }
        destruct Hb as [Hb|Hin].
        * apply F1 in Hb. exact Hb.
        * destruct Hin as [<-|[<-|[<-|[<-|[]]]]]; cbn [holds]; auto.
          -- intros s Hs. exists (length l). split; [exact S2|]. apply Reach. apply (chain_down g l w G). lia.
          -- intros s t Ht Hr. exfalso. apply (AC s). exists t. auto.
      + right. exists (rev l). assert (Ea : apw (mach f) a (rev l) = sp_fd _ st).
        { unfold apw. rewrite P2, P3. cbn [mach mfin]. rewrite W1. cbn [fw]. rewrite W4. reflexivity. }
        split; [|split; [|rewrite rev_length; auto]].
        * split; auto. rewrite Ea. split; auto.
        * intros k x y. unfold rel. cbn [mach mstart]. assert (vstart g2 = Some (length l)) as -> by exact S2.
          rewrite (wt_ext (mach g2) (mach g)) by (intros q; first [exact (T2 q)|exact (f_equal fw (F2 q))]).
          rewrite (chain_wt L g l w G (length l)) by auto. rewrite firstn_all, rev_length. unfold reads.
          destruct (_ && _); auto. rewrite Ea, W4, P3. reflexivity.
      + intros fuel. rewrite B. destruct (Nat.leb_spec (S (length l)) fuel); [left|right; split; auto; lia]. cbn [rbind snd fst]. rewrite E1. reflexivity.
    - destruct F as [F0 _].
      set (g := set_properties_with_mask (@vnew K) (shortest_path_properties (vprops (@vnew K)) true) all_properties).
      exists g. split; [split; [|split]|split].
      + split; [intros s t Ht; destruct s; destruct Ht|discriminate].
      + constructor.
      + intros b Hb. apply sp_bits in Hb as [Hb|Hin]; [exact (fsound_new b Hb)|].
        assert (T0 : forall s, trs_of g s = []) by (intros s; destruct s; reflexivity).
        destruct Hin as [<-|[<-|[<-|[<-|[]]]]]; cbn [holds].
        * intros s (t & Ht & _). cbn in Ht. rewrite T0 in Ht. destruct Ht.
        * discriminate.
        * intros s Hs. cbn in Hs. lia.
        * intros s t Ht. cbn in Ht. rewrite T0 in Ht. destruct Ht.
      + left. split; auto. split; auto. intros p Hp. apply (le_0_eq L). rewrite <- F0. auto.
      + intros fuel. left. destruct fuel; reflexivity.
  Qed.

  (** On a machine whose cycles never improve a path, the result is linear and is an accepting
      path that no other one beats; if all accepting paths weigh zero it is empty. *)
  Theorem C41_shortest_path : forall f idem fuel R,
    closed f -> (has (vprops f) ACYCLIC = true -> forall s, ~ on_cycle (mach f) s) -> cycles_idle (mach f) ->
    shortest_path1 idem true fuel f = Some R ->
    exists g, R = Ok g /\ closed g /\ cnt g /\ bits_true g /\ visymt g = visymt f /\ vosymt g = vosymt f /\
      match vstart f with
      | None => num_states g = O
      | Some a =>
          (num_states g = O /\ forall p, is_path (mach f) a p -> apw (mach f) a p = 0) \/
          exists p, best_path (mach f) a p /\ one_path (mach g) p (apw (mach f) a p) /\ num_states g = S (length p)
      end.
  Proof.
    intros f idem fuel R C Sn Cy E. destruct (vstart f) as [a|] eqn:Es.
    - destruct (phases f idem a fuel C Sn Cy Es R E) as (st & Ln & T & F & B).
      destruct (backtrace f a st C Es Ln T F) as (g & (G1 & G2 & G3) & H & X).
      destruct (X fuel) as [X'|[X' _]]; rewrite X' in B; [|discriminate].
      cbn in B. injection B as <-. exists (set_symts_from_fst g f). repeat (split; auto).
      destruct H as [(H1 & _ & H2)|H]; auto.
    - unfold shortest_path1 in E. rewrite Es in E. unfold single_shortest_path_backtrace in E.
      assert (bt_loop fuel f [] vnew None None = Some (Ok (vnew, None))) as X by (destruct fuel; auto). rewrite X in E. cbn [rbind snd fst rmap] in E.
      injection E as <-. eexists. split; [reflexivity|]. split; [|split; [|split; [|auto]]].
      + split; [intros s t Ht; destruct s; destruct Ht|discriminate].
      + constructor.
      + intros b Hb. apply sp_bits in Hb as [Hb|Hin]; [exact (fsound_new b Hb)|].
        destruct Hin as [<-|[<-|[<-|[<-|[]]]]]; cbn [holds].
        * intros s (t & Ht & _). destruct s; destruct Ht.
        * discriminate.
        * intros s Hs. cbn in Hs. lia.
        * intros s t Ht. destruct s; destruct Ht.
  Qed.

  (** It stops. *)
  Theorem C41_stops : forall f idem,
    closed f -> (has (vprops f) ACYCLIC = true -> forall s, ~ on_cycle (mach f) s) -> cycles_idle (mach f) ->
    exists fuel0, forall fuel, (fuel0 <= fuel)%nat -> exists R, shortest_path1 idem true fuel f = Some R.
  Proof.
    intros f idem C Sn Cy. destruct (vstart f) as [a|] eqn:Es.
    - destruct (some_fuel f idem a C Sn Cy Es) as (fuel0 & H).
      destruct (H fuel0) as (q & Eq & R0 & E0); [lia|].
      pose proof (auto_queue_unshort _ _ _ _ _ Eq) as U.
      destruct (auto_queue_fresh idem true f (fun _ => true) C Sn) as (q' & sccs & Eq' & Fr & Mo). rewrite Eq in Eq'. injection Eq' as <-.
      pose proof (fresh_cq_ok f (fun _ => true) q sccs Fr Mo) as Oq.
      destruct (run_correct L Pp code_queue f a C (proj2 C a Es) Cy (uq_ok f) (uq_spec f) (uq_update f) fuel0 q (fun _ => O) None R0 (conj Oq U) E0)
        as (st & -> & H1 & H2 & H3).
      destruct (backtrace f a st C Es H1 H2 H3) as (g & _ & _ & X).
      exists (fuel0 + num_states g)%nat. intros fuel Hf. unfold shortest_path1. rewrite Es, Eq.
      rewrite (single_mono code_queue f a true q fuel0 fuel (Ok st) E0) by lia.
      destruct (X fuel) as [->|[_ Hn]]; [eauto|lia].
    - exists O. intros fuel _. unfold shortest_path1. rewrite Es. unfold single_shortest_path_backtrace. destruct fuel; cbn; eauto.
  Qed.

  (** The weight of the result is the sum over all accepting paths, however they are counted. *)
  Corollary C41_weight_is_total : forall f a p (l : list (list (tr K))), best_path (mach f) a p ->
    In p l -> (forall p', In p' l -> is_path (mach f) a p') ->
    ksum (map (apw (mach f) a) l) = apw (mach f) a p.
  Proof.
    intros f a p l (B1 & B2 & B3) Hin Hl. apply in_split in Hin as (l1 & l2 & ->).
    assert (Sm : forall l', (forall p', In p' l' -> is_path (mach f) a p') -> le (apw (mach f) a p) (ksum (map (apw (mach f) a) l'))).
    { induction l' as [|x l' IH]; intros H; cbn [map ksum]; [apply (le_0 L)|]. unfold le. rewrite (kplus_assoc _ L), (B3 x) by (apply H; left; auto).
      apply IH. intros; apply H; right; auto. }
    rewrite map_app, (ksum_app L). cbn [map ksum]. rewrite (kplus_assoc _ L), (kplus_comm _ L (ksum _)), <- (kplus_assoc _ L). rewrite <- (ksum_app L), <- map_app. apply Sm.
    intros p' Hp. apply Hl. apply in_app_iff in Hp as [Hp|Hp]; apply in_app_iff; auto. right; right; auto.
  Qed.
End C41.
Print Assumptions C41_shortest_path.
Print Assumptions C41_stops.
Print Assumptions C41_weight_is_total.

Local Close Scope K_scope.

(** The tropical weights +inf, 0 and -inf: closed under min and plus. *)
Inductive sign := PInf | Zer | MInf.
Definition splus (a b : sign) : sign := match a, b with MInf, _ | _, MInf => MInf | Zer, _ | _, Zer => Zer | _, _ => PInf end.
Definition stimes (a b : sign) : sign := match a, b with PInf, _ | _, PInf => PInf | Zer, x | x, Zer => x | _, _ => MInf end.
Definition seqb (a b : sign) : bool := match a, b with PInf, PInf | Zer, Zer | MInf, MInf => true | _, _ => false end.
Definition signSR : SR := mkSR sign PInf Zer splus stimes seqb.
Canonical signSR.
Lemma signSR_laws : sr_laws signSR.
Proof.
  split; [split; [split|]|]; simpl; intros; repeat match goal with b : sign |- _ => destruct b end; simpl; auto; split; auto; discriminate.
Qed.
Lemma signSR_path : path_plus signSR.
Proof. intros [| |] [| |]; simpl; auto. Qed.

Definition c41_hang : vfst signSR :=
  match run vnew [OAddState; OSetStart 0; OSetFinal 0 Zer; OAddTr 0 (Tr 1 1 MInf 0)] with Ok f => f | _ => vnew end.

Lemma hang_bt : forall fuel (g : vfst signSR) id, id < num_states g ->
  bt_loop fuel c41_hang [PC MInf (Some (0, 0)) false] g (Some (0, id)) (Some 0) = None.
Proof.
  induction fuel as [|fuel IH]; intros g id Hid; [reflexivity|]. cbn [bt_loop].
  unfold bt_step. destruct (add_state_eff g) as (A1 & A2 & _). destruct (add_state g) as [h i]. cbn [fst snd] in *. subst i.
  cbn [nth_error p_par]. change (get_trs c41_hang 0) with (@Ok _ [@Tr signSR 1 1 MInf 0]). cbn [rbind nth_error il ol wgt].
  destruct (add_tr_eff h (num_states g) (@Tr signSR 1 1 MInf id)) as (g1 & E1 & X1 & _); [lia|].
  rewrite E1. cbn [rbind nth_error p_par option_map fst]. destruct X1 as [X1 _]. apply IH. lia.
Qed.

(** A loop that does improve: the search ends and leaves the state its own parent, and the walk back never
    ends. *)
Theorem C41_hang_refuted : closed c41_hang /\ ~ cycles_idle (mach c41_hang) /\
  (exists q st, auto_queue_new true true c41_hang None (fun _ => true) = Ok q /\ single_shortest_path code_queue true 3 c41_hang 0 q = Some (Ok st)) /\
  forall fuel, shortest_path1 true true fuel c41_hang = None.
Proof.
  split; [|split; [|split]].
  - split; [|intros s H; inversion H; vm_compute; lia]. intros [|[|s]] t; vm_compute; try (intros []; fail); intros [<-|[]]. lia.
  - intros H. specialize (H 0 [@Tr signSR 1 1 MInf 0]). cbn in H. discriminate H; auto.
  - do 2 eexists. split; [vm_compute; reflexivity|]. vm_compute. reflexivity.
  - intros fuel. destruct fuel as [|[|[|fuel]]]; [reflexivity..|]. 
    assert (exists q, auto_queue_new true true c41_hang None (fun _ => true) = Ok q /\
      exists st, single_shortest_path code_queue true 3 c41_hang 0 q = Some (Ok st) /\ sp_fp _ st = Some 0 /\ sp_cells _ st = [PC MInf (Some (0, 0)) false]) as (q & Eq & st & Es & Ef & Ec).
    { eexists. split; [vm_compute; reflexivity|]. eexists. split; [vm_compute; reflexivity|]. split; reflexivity. }
    unfold shortest_path1. change (vstart c41_hang) with (Some 0). cbv beta iota. rewrite Eq.
    rewrite (single_mono code_queue _ _ _ _ _ _ _ Es) by lia. rewrite Ef, Ec. unfold single_shortest_path_backtrace.
    generalize (S (S fuel)). clear fuel. intros fuel. cbn [bt_loop]. unfold bt_step. destruct (add_state (@vnew signSR)) as [g id] eqn:Ea.
    assert (id = 0 /\ num_states g = 1) as [-> Hn] by (injection Ea as <- <-; split; reflexivity).
    cbn [rbind]. change (final_weight c41_hang 0) with (@Ok _ (Some Zer)). cbn [rbind].
    destruct (set_final_eff g 0 Zer) as (g1 & E1 & [X1 _] & _); [lia|]. rewrite E1. cbn [rbind nth_error p_par option_map fst].
    rewrite hang_bt by lia. reflexivity.
Qed.
Print Assumptions C41_hang_refuted.

(** A cyclic machine with a self-loop; the direct transition to state 1 is beaten. *)
Definition c41_calls : list (op tropN) :=
  [OAddStates 5; OSetStart 0; OAddTr 0 (Tr 1 1 (Some 1) 0); OAddTr 0 (Tr 1 1 (Some 7) 1); OAddTr 0 (Tr 2 5 (Some 2) 2);
   OAddTr 2 (Tr 1 0 (Some 3) 1); OAddTr 1 (Tr 3 3 (Some 4) 0); OAddTr 1 (Tr 3 3 (Some 0) 3); OAddTr 3 (Tr 3 3 (Some 1) 3);
   OSetFinal 3 (Some 6); OSetFinal 0 (Some 20); OAddTr 3 (Tr 4 4 (Some 1) 4); OSetFinal 4 (Some 9)].
Example C41_instance :
  exists f g, run vnew c41_calls = Ok f /\ closed f /\ vstart f = Some 0 /\ path_plus tropN /\
    (has (vprops f) ACYCLIC = true -> forall s, ~ on_cycle (mach f) s) /\ cycles_idle (mach f) /\
    on_cycle (mach f) 0 /\
    shortest_path1 true true 30 f = Some (Ok g) /\ vstart g = Some 3 /\
    map (fun s => (vfin s, vtrs s)) (vstates g) =
      [(Some (Some 6), []); (None, [@Tr tropN 3 3 (Some 0) 0]); (None, [@Tr tropN 1 0 (Some 3) 1]); (None, [@Tr tropN 2 5 (Some 2) 2])].
Proof.
  do 2 eexists. split; [vm_compute; reflexivity|]. split.
  { split; [|cbn; intros s H; inversion H; vm_compute; lia].
    intros s t. destruct s as [|[|[|[|[|s]]]]]; cbn; try tauto; try (destruct s; simpl; tauto);
    intros H; repeat destruct H as [<-|H]; try destruct H; vm_compute; lia. }
  split; [reflexivity|]. split; [apply tropN_path|]. split; [vm_compute; discriminate|].
  split; [intros s p _ _; apply tropN_bounded|]. split.
  { eexists. split; [simpl; left; reflexivity|]. constructor. }
  split; [vm_compute; reflexivity|]. split; vm_compute; reflexivity.
Qed.
