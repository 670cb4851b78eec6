(** Walking back over the parents, and the queues that [AutoQueue::new] chooses for it. *)
From Coq Require Import List Arith NArith ZArith Bool Lia.
From Verif Require Import Base.Util Base.Semiring Base.Machine Base.PathSum Base.PropSpec
  Model.Props Model.AlgoProps Model.VectorFst Model.Dfs Model.Visitors Model.Queues Model.ShortestDistance Model.ShortestPath
  Proofs.PropsFacts Proofs.VectorFacts Proofs.TrOpsFacts Proofs.DelStates Proofs.VectorProps Proofs.HistoryFacts Proofs.OpFacts Proofs.RationalFacts Proofs.ConnectFacts Proofs.SdFacts Proofs.QueueFacts Proofs.AutoQueueFacts
  Proofs.ShortestTree Proofs.ShortestLoop.
Import ListNotations.
Local Open Scope K_scope.

(** ** No shortest-first queue, whose [update] is not implemented. *)
Definition sunshort (q : sq) : Prop := match q with QShort _ _ _ => False | _ => True end.
Definition unshort (q : queue) : Prop := match q with QS x => sunshort x | QScc _ _ qs _ => Forall sunshort qs end.

Lemma qkind_unshort q q' : qkind q q' -> unshort q -> unshort q'.
Proof.
  destruct q as [x|a b qs sccs], q' as [y|a' b' qs' sccs']; simpl; try tauto.
  - destruct x, y; simpl; tauto.
  - intros [_ F]. induction F as [|x y l l' Hk F IH]; auto. intros H. inversion H; subst. constructor; auto. destruct x, y; simpl in *; tauto.
Qed.

Section U.
  Context {K : SR}.
  Implicit Types f : vfst K.

  Definition noshort (r : res (list qtype * bool * bool)) : Prop :=
    match r with Ok (q, _, _) => Forall (fun t => t <> TShortest) q | _ => True end.
  Lemma fold_noshort {A} (F : res (list qtype * bool * bool) -> A -> res (list qtype * bool * bool)) :
    (forall r x, noshort r -> noshort (F r x)) -> forall l r, noshort r -> noshort (fold_left F l r).
  Proof. intros HF. induction l as [|x l IH]; intros r Hr; simpl; auto. Qed.

  Lemma auto_queue_unshort idem pathp f keep q : auto_queue_new idem pathp f None keep = Ok q -> unshort q.
  Proof.
    unfold auto_queue_new. destruct (_ || _); [intros H; injection H as <-; exact I|].
    destruct (has (vprops f) ACYCLIC).
    { destruct (visit_top f keep) as [v| |]; cbn [rbind]; try discriminate. destruct (tv_acyclic v); [|discriminate]. intros H; injection H as <-; exact I. }
    destruct (_ && _); [intros H; injection H as <-; exact I|].
    destruct (visit_scc f keep) as [v| |]; cbn [rbind]; try discriminate.
    set (sccs := map Z.to_nat (sv_scc v)).
    destruct (scc_queue_types idem false keep f sccs (sv_nscc v)) as [[[qt allt] unw]| |] eqn:E; cbn [rbind]; try discriminate.
    assert (F : noshort (Ok (qt, allt, unw))).
    { rewrite <- E. unfold scc_queue_types. apply fold_noshort.
      - intros r s Hr. apply fold_noshort; auto. intros r' t Hr'. destruct r' as [[[q0 b0] u0]| |]; cbn [rbind]; auto.
        destruct (keep t); auto. destruct (nth_error sccs s) as [x|]; cbn; auto. destruct (nth_error sccs (ns t)) as [y|]; cbn; auto.
        destruct (Nat.eqb x y); cbn [rbind fst snd]; auto. destruct (nth_error q0 x) as [z|]; cbn [rbind fst snd]; cbn; auto.
        apply Forall_upd; auto. discriminate.
      - apply Forall_forall. intros t Ht. apply repeat_spec in Ht. subst t. discriminate. }
    cbn in F.
    destruct unw; [intros H; injection H as <-; exact I|]. destruct allt; intros H; injection H as <-; [exact I|].
    cbn. clear E. induction F as [|t l Ht F IH]; cbn [map]; constructor; auto. destruct t; try exact I. congruence.
  Qed.

  Definition uq_ok f (q : queue) (M : nat -> nat) (last : option nat) : Prop := cq_ok f (fun _ => true) q M last /\ unshort q.

  Lemma uq_spec f : qspec code_queue (kmach f (fun _ => true)) (num_states f) (uq_ok f).
  Proof.
    pose proof (code_queue_spec f (fun _ => true)) as Q. split; cbn [code_queue qo_clear qo_enqueue qo_dequeue].
    - intros q M last [O U]. destruct (qs_clear _ _ _ _ Q q M last O) as (q' & E & O'). exists q'. split; auto. split; auto.
      destruct O as (W & I & D & Mo). destruct (q_clear_ok _ q M last W I D) as (q'' & E' & Kq & _). cbn in E. rewrite E in E'. injection E' as <-.
      eapply qkind_unshort; eauto.
    - intros q M last s [O U] Hs Hl. destruct (qs_enqueue _ _ _ _ Q q M last s O Hs Hl) as (q' & M' & E & O' & B). exists q', M'. split; auto. split; auto. split; auto.
      destruct O as (W & I & D & Mo). destruct (q_enqueue_ok _ q M last s W I D Hs) as (q'' & E' & Kq & _).
      { destruct q as [|a b qs sccs], last as [u|]; simpl; auto. intros c d Ec Ed. destruct (Hl u eq_refl) as (t & Ht & <-). exact (Mo u t c d Ht Ec Ed). }
      cbn in E. rewrite E in E'. injection E' as <-. eapply qkind_unshort; eauto.
    - intros q M last [O U]. destruct (qs_dequeue _ _ _ _ Q q M last O) as (o & q' & E & H). exists o, q'. split; auto.
      destruct o as [s|].
      2:{ destruct H as [H O']. split; auto. split; auto.
          destruct O as (W & I & D & Mo). destruct (q_dequeue_ok _ q M last W I D) as (o & q'' & E' & Kq & _).
          cbn in E. rewrite E in E'. injection E' as _ <-. eapply qkind_unshort; eauto. }
      destruct H as (M' & O' & B). exists M'. split; auto. split; auto.
      destruct O as (W & I & D & Mo). destruct (q_dequeue_ok _ q M last W I D) as (o & q'' & E' & Kq & _).
      cbn in E. rewrite E in E'. injection E' as _ <-. eapply qkind_unshort; eauto.
  Qed.

  Lemma uq_update f q M last s : uq_ok f q M last -> (0 < M s)%nat -> exists q', q_update q s = Ok q' /\ uq_ok f q' M last.
  Proof.
    intros [(W & I & D & Mo) U] Hs. exists q. split; [|split; auto; split; auto].
    destruct q as [x|a b qs sccs]; cbn [q_update].
    - destruct x; simpl in *; auto. contradiction.
    - destruct W as [W1 W2]. destruct (W1 s (D s Hs)) as (c & -> & Hc). destruct (nth_error_ex qs c Hc) as (x & Ex). rewrite Ex.
      assert (sunshort x) by (cbn in U; rewrite Forall_forall in U; apply U; eapply nth_error_In; eauto).
      assert (sq_update x s = Ok x) as -> by (destruct x; simpl in *; auto; contradiction). cbn [rbind]. rewrite (upd_same qs c x); auto.
  Qed.
End U.

(** ** The chain that the walk builds. *)
Section B.
  Context {K : SR} (L : sr_laws K) (f : vfst K) (a : nat) (cells : list (pcell K)).
  Let m := mach f.
  Let P v := p_par (nth v cells pcell0).
  Let D v := p_dist (nth v cells pcell0).
  Hypothesis C : closed f.
  Hypothesis Ln : length cells = num_states f.
  Hypothesis Ha : (a < num_states f)%nat.
  Hypothesis T : tree m a D P (fun _ _ => True).
  Implicit Types g : vfst K.

  (** [r]: the transitions in the order they were added, the last of the path first. *)
  Definition chain g (r : list (tr K)) (w : K) : Prop :=
    num_states g = S (length r) /\ cnt g /\ fsound g /\ visymt g = None /\ vosymt g = None /\
    (forall q, fin_of g q = if Nat.eqb q O then Some w else None) /\
    trs_of g O = [] /\
    forall i, trs_of g (S i) = match nth_error r i with Some t => [Tr (il t) (ol t) (wgt t) i] | None => [] end.

  Lemma rooted_below v : rooted a P v -> (v < num_states f)%nat.
  Proof.
    intros R. destruct R as [|v s i Hp R]; auto. destruct (Nat.lt_ge_cases v (num_states f)); auto.
    unfold P in Hp. rewrite nth_overflow in Hp by lia. discriminate.
  Qed.

  Lemma bt_run v w : rooted a P v -> exists l, is_path m a (rev l) /\ dst a (rev l) = v /\ pw (rev l) = D v /\
    forall r g, chain g r w -> exists g', chain g' (r ++ l) w /\
      forall fuel, bt_loop fuel f cells g (Some (v, length r)) (option_map fst (P v)) =
        if Nat.leb (length l) fuel then Some (Ok (g', Some (length (r ++ l)))) else None.
  Proof.
    induction 1 as [H0|v s i Hp R (l & P1 & P2 & P3 & IH)].
    - exists []. cbn. split; auto. split; auto. split; [symmetry; apply (t_src _ _ _ _ _ T)|]. intros r g G. exists g. rewrite app_nil_r. split; auto.
      intros fuel. rewrite H0. cbn. destruct fuel; auto.
    - destruct (t_par _ _ _ _ _ T v s i Hp) as (t & T1 & T2 & _ & T4). exists (t :: l). cbn [rev]. split; [|split; [|split]].
      + apply path_app. split; auto. rewrite P2. cbn. split; auto. apply nth_error_In in T1. auto.
      + rewrite dst_app. auto.
      + rewrite (pw_snoc L), P3, T4; auto.
      + intros r g G. pose proof (rooted_below s R) as Hs. assert (Hv : (v < num_states f)%nat) by (apply rooted_below; eapply rooted_step; eauto).
        destruct G as (G1 & G2 & G3 & Gi & Go & G4 & G5 & G6).
        assert (St : exists g1, bt_step f cells g (Some (v, length r)) s = Ok (g1, S (length r)) /\ chain g1 (r ++ [t]) w).
        { unfold bt_step. destruct (add_state_eff g) as (A1 & A2 & A3 & Ai & Ao & A4 & A5 & A6).
          assert (A7 : fsound (fst (add_state g))) by (rewrite add_state_eq; apply (fsound_add_states g 1); auto).
          destruct (add_state g) as [g0 id]. cbn [fst snd] in *. rewrite (nth_error_nth cells v pcell0) by lia.
          fold (P v). rewrite Hp. rewrite (proj2 (final_weight_ok f s Hs)). cbn [rbind]. cbn in T1. rewrite T1.
          destruct (add_tr_eff g0 id (Tr (il t) (ol t) (wgt t) (length r))) as (g1 & E1 & (B1 & B2 & B3 & B4 & B5) & B6 & B7); [lia|].
          rewrite E1. cbn [rbind]. exists g1. rewrite A1, G1 in *. split; auto. split; [rewrite app_length; simpl; lia|]. split; auto.
          split; [apply (fsound_add_tr (sr_lsr _ L) _ _ _ _ A7 E1)|]. split; [congruence|]. split; [congruence|]. split; [|split].
          - intros q. rewrite B7, A6. apply G4.
          - rewrite B6, !A5. cbn [Nat.eqb]. auto.
          - intros j. rewrite B6, !A5. destruct (Nat.eqb_spec (S j) (S (length r))) as [E|N].
            + rewrite !G6. replace j with (length r) by lia. rewrite (proj2 (nth_error_None r (length r))) by lia.
              rewrite nth_error_app2 by lia. rewrite Nat.sub_diag. reflexivity.
            + rewrite G6. destruct (Nat.lt_ge_cases j (length r)); [rewrite nth_error_app1; auto|].
              rewrite (proj2 (nth_error_None r j)), (proj2 (nth_error_None (r ++ [t]) j)); auto. rewrite app_length; simpl; lia. }
        destruct St as (g1 & E1 & G'). destruct (IH (r ++ [t]) g1 G') as (g' & C' & F'). exists g'. rewrite <- app_assoc in C'. split; auto.
        intros fuel. rewrite Hp. cbn [option_map fst]. destruct fuel as [|fuel]; auto. cbn [bt_loop]. rewrite E1.
        rewrite (nth_error_nth cells s pcell0) by lia. fold (P s). rewrite app_length in F'. cbn [length] in F'. rewrite Nat.add_1_r in F'.
        rewrite F'. cbn [length]. rewrite <- app_assoc. reflexivity.
  Qed.

  (** The whole walk from a final state. *)
  Lemma bt_all v w : rooted a P v -> fin_of f v = Some w -> exists l g, is_path m a (rev l) /\ dst a (rev l) = v /\ pw (rev l) = D v /\
    chain g l w /\ forall fuel, bt_loop fuel f cells vnew None (Some v) = if Nat.leb (S (length l)) fuel then Some (Ok (g, Some (length l))) else None.
  Proof.
    intros R Hf. destruct (bt_run v w R) as (l & P1 & P2 & P3 & H). pose proof (rooted_below v R) as Hv.
    assert (St : exists g1, bt_step f cells vnew None v = Ok (g1, O) /\ chain g1 [] w).
    { unfold bt_step. destruct (add_state_eff (@vnew K)) as (A1 & A2 & A3 & Ai & Ao & A4 & A5 & A6).
      assert (A7 : fsound (fst (add_state (@vnew K)))) by (rewrite add_state_eq; apply (fsound_add_states vnew 1); apply fsound_new).
      destruct (add_state vnew) as [g0 id]. cbn [fst snd] in *. rewrite (proj1 (final_weight_ok f v Hv)), Hf. cbn [rbind].
      destruct (set_final_eff g0 id w) as (g1 & E1 & (B1 & B2 & B3 & B4 & B5) & B6 & B7); [rewrite A1, A2; cbn; lia|].
      rewrite E1. cbn [rbind]. exists g1. cbn in A1, A2. subst id. split; auto. split; [rewrite B1, A2; auto|].
      split; [apply B5, A4; constructor|]. split; [apply (fsound_set_final (sr_lsr _ L) _ _ _ _ A7 E1)|].
      split; [rewrite B3, Ai; reflexivity|]. split; [rewrite B4, Ao; reflexivity|]. split; [|split].
      - intros q. rewrite B7, A6. destruct q; auto.
      - rewrite B6, A5. auto.
      - intros i. rewrite B6, A5. destruct i; reflexivity. }
    destruct St as (g1 & E1 & G1). destruct (H [] g1 G1) as (g & G & F). cbn [app] in *. exists l, g. repeat (split; auto).
    intros [|fuel]; [reflexivity|]. cbn [bt_loop]. rewrite E1, (nth_error_nth cells v pcell0) by lia. fold (P v). cbn [length] in F. rewrite F. reflexivity.
  Qed.
End B.

Section W.
  Context {K : SR} (L : sr_laws K) (g : vfst K) (r : list (tr K)) (w : K).
  Hypothesis G : chain g r w.

  Lemma chain_wt : forall j n x y, (j <= length r)%nat ->
    wt (mach g) n j x y = if Nat.eqb n j && reads x y (rev (firstn j r)) then pw (rev (firstn j r)) * w else 0.
  Proof.
    destruct G as (G1 & G2 & G3 & _ & _ & G4 & G5 & G6).
    induction j as [|j IH]; intros n x y Hj.
    - cbn [firstn rev]. destruct n as [|n]; cbn [wt mach mfin mtrs].
      + rewrite G4, reads_nil. cbn. destruct (isnil x && isnil y); auto. symmetry. apply (ktimes_1_l _ L).
      + rewrite G5. reflexivity.
    - destruct n as [|n]; cbn [wt mach mfin mtrs].
      + rewrite G4. cbn. destruct (isnil x && isnil y); auto.
      + rewrite G6. destruct (nth_error_ex r j) as (t & Et); [lia|]. rewrite Et. cbn [map ksum il ol wgt ns].
        assert (Ef : rev (firstn (S j) r) = t :: rev (firstn j r)).
        { assert (X : firstn (S j) r = firstn j r ++ [t]).
          { clear - Et. revert j Et. induction r as [|y l IH]; intros [|j] Et; try discriminate; cbn in *; [congruence|]. f_equal. apply IH. auto. }
          rewrite X, rev_app_distr. reflexivity. }
        rewrite Ef, reads_cons. cbn [pw]. rewrite (kplus_0_r L).
        destruct (strip (il t) x) as [x'|]; [|rewrite andb_false_r; auto]. destruct (strip (ol t) y) as [y'|]; [|rewrite andb_false_r; auto].
        rewrite IH by lia. cbn [Nat.eqb]. destruct (Nat.eqb n j && reads x' y' (rev (firstn j r))); [apply (ktimes_assoc _ L)|apply (ktimes_0_r _ L)].
  Qed.

  Lemma chain_tr s t : In t (trs_of g s) -> s = S (ns t) /\ (ns t < length r)%nat.
  Proof.
    destruct G as (G1 & G2 & G3 & _ & _ & G4 & G5 & G6). destruct s as [|i]; [rewrite G5; intros []|]. rewrite G6.
    destruct (nth_error r i) as [u|] eqn:E; [|intros []]. intros [<-|[]]. cbn. split; auto. apply nth_error_Some. congruence.
  Qed.

  Lemma chain_reach s u : reach (mach g) s u -> (u <= s)%nat.
  Proof. induction 1 as [|s t u Ht R IH]; auto. apply chain_tr in Ht as [-> _]. lia. Qed.

  Lemma chain_down j : (j <= length r)%nat -> reach (mach g) (length r) j.
  Proof.
    destruct G as (G1 & G2 & G3 & _ & _ & G4 & G5 & G6). intros Hj. remember (length r - j)%nat as d eqn:Ed. revert j Hj Ed.
    induction d as [|d IH]; intros j Hj Ed; [replace j with (length r) by lia; constructor|].
    apply reach_trans with (b := S j); [apply IH; lia|]. destruct (nth_error_ex r j) as (t & Et); [lia|].
    eapply reach_step with (t := Tr (il t) (ol t) (wgt t) j); [cbn; rewrite G6, Et; left; auto|constructor].
  Qed.

  Lemma chain_acyclic s : ~ on_cycle (mach g) s.
  Proof. intros (t & Ht & R). apply chain_tr in Ht as [-> _]. apply chain_reach in R. lia. Qed.
End W.
