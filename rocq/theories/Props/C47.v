(** C47: the [n] shortest paths are [n] best accepting paths, each kept once. *)
From Coq Require Import List Arith NArith Bool Lia Permutation.
From Verif Require Import Base.Util Base.Semiring Base.Machine Base.PathSum Base.PropSpec Base.Instances
  Model.Props Model.AlgoProps Model.VectorFst Model.History Model.Rational Model.FstPath Model.Queues Model.ShortestDistance Model.ShortestPath Model.NShortest
  Proofs.PropsFacts Proofs.VectorFacts Proofs.DelStates Proofs.TrOpsFacts Proofs.VectorProps Proofs.OpFacts Proofs.RationalFacts Proofs.ConnectFacts Proofs.SdFacts Proofs.ShortestTree
  Proofs.NSearch Proofs.NBest Proofs.NPaths Proofs.NFinal
  Props.C05 Props.C06 Props.C16 Props.C32 Props.C41.
Import ListNotations.
Local Open Scope K_scope.

(** Division by a nonzero weight, where it exists, is unique. *)
Definition cancellative (K : SR) : Prop := forall x y z : K, x <> 0 -> y * x = z * x -> y = z.

Section C47.
  Context {K K' : SR} (L : sr_laws K) (Pp : path_plus K) (Cm : commutative_times K) (Can : cancellative K).
  (** [reverse] and [reverse_back] of the weights. *)
  Variables (rv : K -> K') (rb : K' -> K).
  Hypothesis Rb : forall w, rb (rv w) = w.
  Hypothesis R1 : rb 1 = 1.
  Implicit Types f g : vfst K.

  Lemma path_idem : idempotent_plus K.
  Proof. intros x. destruct (Pp x x); auto. Qed.

  Lemma start_sum D l : (forall t, In t l -> exists s, ns t = S s) -> forall acc,
    rfold (fun d (t : tr K') => match ns t with O => Panic | S s => Ok (if Nat.ltb s (length D) then d + rb (wgt t) * nth s D 0 else d) end) l acc =
    Ok (acc + ksum (map (fun t => rb (wgt t) * nth (pred (ns t)) D 0) l)).
  Proof.
    induction l as [|t l IH]; intros H acc; cbn [map ksum]; [cbn; rewrite (kplus_0_r L); auto|].
    rewrite rfold_cons. destruct (H t (or_introl eq_refl)) as (s & ->). cbn [rbind pred]. rewrite IH by (intros; apply H; right; auto).
    destruct (Nat.ltb_spec s (length D)) as [Hs|Hs]; [rewrite (kplus_assoc _ L); auto|].
    rewrite (nth_overflow D), (ktimes_0_r _ L), (kplus_0_l _ L) by auto. auto.
  Qed.

  Lemma start_distance f (rf : vfst K') D : (0 < num_states rf)%nat -> trs_of rf 0 = flat_map (rev_fin rv f) (seq 0 (num_states f)) ->
    exists d, n_start_distance rb rf D = Ok d /\
      (forall s w, fin_of f s = Some w -> le d (nth s D 0 * w)) /\
      (d <> 0 -> exists s w, (s < num_states f)%nat /\ fin_of f s = Some w /\ d = nth s D 0 * w).
  Proof.
    intros Hn T. unfold n_start_distance. apply Nat.ltb_lt in Hn. rewrite Hn. rewrite start_sum.
    2:{ rewrite T. intros t Ht. apply in_flat_map in Ht as (s & _ & Ht). unfold rev_fin in Ht. destruct (fin_of f s); [|destruct Ht].
        destruct Ht as [<-|[]]. cbn [ns]. exists s. lia. }
    eexists. split; [reflexivity|]. rewrite (kplus_0_l _ L). split.
    - intros s w E. apply (ksum_le L _ _ Pp). apply in_map_iff. exists (Tr O O (rv w) (s + 1)). cbn [ns wgt]. rewrite Rb.
      replace (pred (s + 1)) with s by lia. split; [apply Cm|]. rewrite T. apply in_flat_map. exists s. split.
      + apply in_seq. destruct (Nat.ltb_spec s (num_states f)); [lia|]. rewrite fin_of_beyond in E by auto. discriminate.
      + unfold rev_fin. rewrite E. left. auto.
    - intros Nz. pose proof (ksum_in _ Pp Nz) as I0. apply in_map_iff in I0 as (t & <- & Ht). rewrite T in Ht. apply in_flat_map in Ht as (s & Hs & Ht).
      apply in_seq in Hs. unfold rev_fin in Ht. destruct (fin_of f s) as [w|] eqn:E; [|destruct Ht]. destruct Ht as [<-|[]]. cbn [ns wgt].
      exists s, w. rewrite Rb. replace (pred (s + 1)) with s by lia. split; [lia|]. split; [auto|apply Cm].
  Qed.

  Section Dist.
    Context (f : vfst K) (rf : vfst K') (a : nat) (D : list K) (d : K).
    Hypothesis C : closed f.
    Hypothesis Sa : vstart f = Some a.
    Hypothesis Nr : num_states rf = S (num_states f).
    Hypothesis T0 : trs_of rf 0 = flat_map (rev_fin rv f) (seq 0 (num_states f)).
    Hypothesis TS : forall q, (q < num_states f)%nat -> trs_of rf (S q) = flat_map (rev_trs rv f q) (seq 0 (num_states f)).
    Hypothesis F : forall q, fin_of rf q = if Nat.eqb q (S a) then Some 1 else None.
    Hypothesis HD : forall s, settles (fun k => upto (mach f) k a s) (nth s D 0).
    Hypothesis E1 : forall s w, fin_of f s = Some w -> le d (nth s D 0 * w).
    Hypothesis E2 : d <> 0 -> exists s w, (s < num_states f)%nat /\ fin_of f s = Some w /\ d = nth s D 0 * w.

    Lemma below p : is_path (mach f) a p -> le (nth (dst a p) D 0) (pw p).
    Proof.
      intros H. destruct (HD (dst a p)) as (k & Hk). rewrite <- (Hk (Nat.max k (length p))) by lia. apply (upto_le L); auto. lia.
    Qed.
    Lemma attained s : nth s D 0 <> 0 -> exists p, is_path (mach f) a p /\ dst a p = s /\ pw p = nth s D 0.
    Proof. intros H. destruct (HD s) as (k & Hk). rewrite <- (Hk k) in * by lia. apply upto_in; auto. Qed.

    Lemma zero_low (x y : K) : le x y -> x = 0 -> y = 0.
    Proof. intros H ->. apply (le_0_eq L). auto. Qed.

    Lemma step_low s u : (s < num_states f)%nat -> In u (trs_of f s) -> le (nth (ns u) D 0) (nth s D 0 * wgt u).
    Proof.
      intros Hs Hu. destruct (keqb (nth s D 0) 0) eqn:Q.
      - apply (keqb_true L) in Q. rewrite Q, (ktimes_0_l _ L). apply (le_0 L).
      - apply (keqb_false L) in Q. destruct (attained s Q) as (p & P1 & P2 & P3). rewrite <- P3, <- (pw_snoc L).
        replace (ns u) with (dst a (p ++ [u])) by (rewrite dst_app; auto). apply below. apply is_path_app. split; auto. rewrite P2. cbn. auto.
    Qed.

    Lemma d1 q t : In t (trs_of rf q) -> le (nth q (d :: D) 0) (nth (ns t) (d :: D) 0 * rb (wgt t)).
    Proof.
      intros Ht. destruct q as [|q].
      - rewrite T0 in Ht. apply in_flat_map in Ht as (s & _ & Ht). unfold rev_fin in Ht. destruct (fin_of f s) as [w|] eqn:E; [|destruct Ht].
        destruct Ht as [<-|[]]. cbn [ns wgt]. rewrite Rb. replace (s + 1)%nat with (S s) by lia. cbn [nth]. auto.
      - destruct (Nat.ltb_spec q (num_states f)) as [Hq|Hq]; [|rewrite trs_of_beyond in Ht by lia; destruct Ht].
        rewrite TS in Ht by auto. apply in_flat_map in Ht as (s & Hs & Ht). apply in_seq in Hs. unfold rev_trs in Ht. apply in_map_iff in Ht as (u & <- & Hu).
        apply filter_In in Hu as [Hu Eu]. apply Nat.eqb_eq in Eu. unfold rt. cbn [ns wgt]. rewrite Rb. replace (s + 1)%nat with (S s) by lia. cbn [nth].
        rewrite <- Eu. apply step_low; auto. lia.
    Qed.
    Lemma rev_closed q t : In t (trs_of rf q) -> (ns t < num_states rf)%nat.
    Proof.
      intros Ht. rewrite Nr. destruct q as [|q].
      - rewrite T0 in Ht. apply in_flat_map in Ht as (s & Hs & Ht). apply in_seq in Hs. unfold rev_fin in Ht. destruct (fin_of f s); [|destruct Ht].
        destruct Ht as [<-|[]]. cbn [ns]. lia.
      - destruct (Nat.ltb_spec q (num_states f)) as [Hq|Hq]; [|rewrite trs_of_beyond in Ht by lia; destruct Ht].
        rewrite TS in Ht by auto. apply in_flat_map in Ht as (s & Hs & Ht). apply in_seq in Hs. unfold rev_trs in Ht. apply in_map_iff in Ht as (u & <- & _).
        unfold rt. cbn [ns]. lia.
    Qed.
    Lemma d2 q w : fin_of rf q = Some w -> le (nth q (d :: D) 0) (rb w).
    Proof.
      rewrite F. destruct (Nat.eqb_spec q (S a)) as [->|]; [|discriminate]. intros E. injection E as <-. rewrite R1. cbn [nth].
      apply (below []). exact I.
    Qed.

    Lemma optimal_path p : is_path (mach f) a p -> pw p = nth (dst a p) D 0 -> pw p <> 0 -> optimal rb rf (d :: D) (S (dst a p)).
    Proof.
      induction p as [|u p IH] using rev_ind; intros H E Nz.
      - cbn [dst] in *. apply (opt_end _ _ _ _ 1); [rewrite F, Nat.eqb_refl; auto| |]; rewrite R1; auto.
      - apply is_path_app in H as [H1 H2]. destruct H2 as [H2 _]. rewrite dst_app in *. cbn [dst] in *. rewrite (pw_snoc L) in *.
        assert (Hs : (dst a p < num_states f)%nat) by (apply (dst_lt f a C Sa); auto).
        assert (Np : pw p <> 0) by (intros X; rewrite X, (ktimes_0_l _ L) in Nz; auto).
        assert (Nu : wgt u <> 0) by (intros X; rewrite X, (ktimes_0_r _ L) in Nz; auto).
        assert (Eq : nth (dst a p) D 0 * wgt u = pw p * wgt u).
        { apply (le_antisym L); [apply (le_mult_r L), below; auto|]. rewrite E. apply step_low; auto. }
        apply Can in Eq; auto. apply (opt_arc _ _ _ _ (rt rv (dst a p) u)).
        + rewrite TS by (apply (proj1 C (dst a p) u H2)). apply in_flat_map. exists (dst a p). split; [apply in_seq; lia|].
          unfold rev_trs. apply in_map, filter_In. rewrite Nat.eqb_refl. auto.
        + unfold rt. cbn [ns wgt]. rewrite Rb. replace (dst a p + 1)%nat with (S (dst a p)) by lia. cbn [nth]. rewrite Eq. auto.
        + unfold rt. cbn [ns]. replace (dst a p + 1)%nat with (S (dst a p)) by lia. apply IH; auto.
    Qed.
    Lemma optimal_all q : nth q (d :: D) 0 <> 0 -> optimal rb rf (d :: D) q.
    Proof.
      assert (X : forall s, nth s D 0 <> 0 -> optimal rb rf (d :: D) (S s)).
      { intros s H. destruct (attained s H) as (p & P1 & P2 & P3). rewrite <- P2. apply optimal_path; auto; [|congruence]. rewrite P2. auto. }
      destruct q as [|q]; cbn [nth]; auto. intros H. destruct (E2 H) as (s & w & Hs & Ew & Ed).
      apply (opt_arc _ _ _ _ (Tr O O (rv w) (S s))).
      - rewrite T0. apply in_flat_map. exists s. split; [apply in_seq; lia|]. unfold rev_fin. rewrite Ew. left. f_equal. lia.
      - cbn [ns wgt nth]. rewrite Rb. auto.
      - cbn [ns]. apply X. intros E. apply H. rewrite Ed, E. apply (ktimes_0_l _ L).
    Qed.

    Lemma all_zero : d = 0 -> forall k x, In x (accepting f k) -> pwgt x = 0.
    Proof.
      intros Z k x. unfold accepting. rewrite Sa. intros Hx. apply in_flat_map in Hx as (p & Hp & Hx). apply paths_is_path in Hp as [Hp _].
      cbn [mach mfin] in Hx. destruct (fin_of f (dst a p)) as [w|] eqn:E; [|destruct Hx]. destruct Hx as [<-|[]]. cbn [pwgt].
      apply (zero_low d); auto. eapply (le_trans L); [apply (E1 _ _ E)|]. apply (le_mult_r L), below; auto.
    Qed.
  End Dist.

  Definition best_n f n g : Prop :=
    exists rest : nat -> list (fpath K),
      (forall k, (k < 3)%nat -> accepting g k = []) /\
      (forall k, Permutation (accepting f k) (accepting g (3 + k) ++ rest k)) /\
      (forall k, (length (accepted g k) <= n)%nat) /\
      (forall k k' x y, In x (accepting g k) -> In y (rest k') -> pwgt x + pwgt y = pwgt x) /\
      ((exists k, length (accepted g k) = n) \/ (forall k y, In y (rest k) -> pwgt y = 0)).

  Lemma empty_best f n : (forall k x, In x (accepting f k) -> pwgt x = 0) ->
    let g := set_symts_from_fst vnew f in closed g /\ cnt g /\ bits_true g /\ best_n f n g.
  Proof.
    intros Z g. split; [split; [intros s t Ht; destruct s; destruct Ht|discriminate]|]. split; [constructor|]. split; [exact fsound_new|].
    exists (accepting f). split; [reflexivity|]. split; [intros k; reflexivity|]. split; [|split].
    - intros k. unfold accepted. rewrite flat_map_all_nil by auto. cbn. lia.
    - intros k k' x y [].
    - right. exact Z.
  Qed.

  (** The paths of the result, three transitions longer than those of the machine they stand
      for, are at most [n]; together with the rest they are all the accepting paths with
      their labels, weights and multiplicities; none of the rest beats any of them; and they
      are [n] unless the rest weighs zero. *)
  Theorem C47_n_shortest :
    forall f idem fuel n R,
    closed f -> (has (vprops f) ACYCLIC = true -> forall s, ~ on_cycle (mach f) s) ->
    loops_idle f (fun _ => true) -> (2 <= n)%nat ->
    shortest_path_with_config rv rb idem true fuel n f = Some R ->
    exists g, R = Ok g /\ closed g /\ cnt g /\ bits_true g /\ visymt g = visymt f /\ vosymt g = vosymt f /\
      exists rest : nat -> list (fpath K),
        (forall k, (k < 3)%nat -> accepting g k = []) /\
        (forall k, Permutation (accepting f k) (accepting g (3 + k) ++ rest k)) /\
        (forall k, (length (accepted g k) <= n)%nat) /\
        (forall k k' x y, In x (accepting g k) -> In y (rest k') -> pwgt x + pwgt y = pwgt x) /\
        ((exists k, length (accepted g k) = n) \/ (forall k y, In y (rest k) -> pwgt y = 0)).
  Proof.
    intros f idem fuel n R C Sn Ca Hn. unfold shortest_path_with_config.
    destruct (Nat.eqb_spec n 0); [lia|]. destruct (Nat.eqb_spec n 1); [lia|]. cbn [negb].
    destruct (shortest_distance idem true true rv rb fuel f false) as [rd|] eqn:Ed; [|discriminate].
    destruct (C16_shortest_distance L K' rv rb f idem true fuel rd C Sn Ca (or_introl path_idem) Ed) as (D & -> & Ln & HD).
    destruct (reverse_eff rv f C) as (rf & Er & Nr & Sr & _ & _ & _ & T0 & TS & Fr).
    destruct (start_distance f rf D) as (d & Es & E1 & E2); [lia|auto|]. cbn [rbind]. rewrite Er. cbn [rbind]. rewrite Es. cbn [rbind].
    intros E. injection E as <-.
    assert (Z : d = 0 -> n_shortest_path rb true rf (d :: D) n = Ok vnew).
    { intros ->. unfold n_shortest_path. destruct (Nat.eqb_spec n 0); [lia|]. cbn [negb]. rewrite Sr. cbn [length nth Nat.leb orb].
      replace (keqb 0 0) with true by (symmetry; apply (keqb_true L); auto). auto. }
    destruct (vstart f) as [a|] eqn:Sa.
    - destruct (keqb d 0) eqn:Q; [apply (keqb_true L) in Q|apply (keqb_false L) in Q].
      + rewrite Z by auto. cbn [rbind]. destruct (empty_best f n) as (G1 & G2 & G3 & G4); [eapply all_zero; eauto|].
        eexists. split; [reflexivity|]. repeat (split; auto).
      + assert (D1 : forall q t, In t (trs_of rf q) -> le (nth q (d :: D) 0) (nth (ns t) (d :: D) 0 * rb (wgt t))) by (intros; eapply d1; eauto).
        assert (D2 : forall q w, fin_of rf q = Some w -> le (nth q (d :: D) 0) (rb w)) by (intros; eapply d2; eauto).
        assert (Op : forall q, nth q (d :: D) 0 <> 0 -> optimal rb rf (d :: D) q) by (intros; eapply optimal_all; eauto).
        assert (N01 : (1 : K) <> 0) by (intros X; apply Q; rewrite <- (ktimes_1_r _ L d), X; apply (ktimes_0_r _ L)).
        assert (Cl : forall q t, In t (trs_of rf q) -> (ns t < num_states rf)%nat) by (intros; eapply rev_closed; eauto).
        destruct (n_shortest_ok rb L Pp Cm rf (d :: D) n 0 Cl D1 D2 Sr) as (g & rest & Eg & G1 & G2 & G3 & G4 & G5 & G6 & G7 & G8); auto; [lia|cbn; lia|lia|].
        rewrite Eg. cbn [rbind]. exists (set_symts_from_fst g f). split; auto. split; [exact G1|]. split; [exact G2|]. split; [exact G3|].
        split; auto. split; auto. exists (fun k => rest (S (S k))).
        assert (B : forall k, Permutation (gext rb rf (S (S k)) (Some O) (FP [] [] 1)) (accepting f k)) by (apply (back_all rv rb L Rb R1 f rf a C Sa T0 TS Fr N01)).
        assert (A : forall k, accepting (set_symts_from_fst g f) k = accepting g k) by reflexivity.
        assert (A1 : accepting g 1 = [] /\ rest 0%nat = []) by (apply app_eq_nil, Permutation_nil; rewrite <- (G5 0%nat); reflexivity).
        assert (A2 : accepting g 2 = [] /\ rest 1%nat = []).
        { apply app_eq_nil, Permutation_nil. rewrite <- (G5 1%nat). cbn [gext]. rewrite flat_map_all_nil by auto. rewrite Fr. reflexivity. }
        split; [|split; [|split; [|split]]].
        * intros k Hk. rewrite A. destruct k as [|[|[|k]]]; try lia; [auto|apply A1|apply A2].
        * intros k. rewrite <- B. apply (G5 (S (S k))).
        * exact G6.
        * intros k k' x y Hx Hy. rewrite A in Hx. destruct k as [|k]; [rewrite G4 in Hx; destruct Hx|]. exact (G7 _ _ _ _ Hx Hy).
        * destruct G8 as [G8|G8]; [left; exact G8|right]. intros k y Hy. rewrite G8 in Hy. destruct Hy.
    - subst D. destruct (keqb d 0) eqn:Q; [apply (keqb_true L) in Q|apply (keqb_false L) in Q].
      + rewrite Z by auto. cbn [rbind]. destruct (empty_best f n) as (G1 & G2 & G3 & G4).
        { intros k x. unfold accepting. rewrite Sa. intros []. }
        eexists. split; [reflexivity|]. repeat (split; auto).
      + destruct (E2 Q) as (s & w & _ & _ & X). exfalso. apply Q. rewrite X. destruct s; apply (ktimes_0_l _ L).
  Qed.

  (** It stops. *)
  Theorem C47_stops :
    forall f idem n,
    closed f -> (has (vprops f) ACYCLIC = true -> forall s, ~ on_cycle (mach f) s) ->
    loops_idle f (fun _ => true) -> no_endless_growth K \/ (forall s, ~ on_cycle (mach f) s) -> (2 <= n)%nat ->
    exists fuel R, shortest_path_with_config rv rb idem true fuel n f = Some R.
  Proof.
    intros f idem n C Sn Ca H Hn. destruct (C16_shortest_distance_stops L K' rv rb f idem true C Sn Ca H) as (fuel & R & E).
    exists fuel. unfold shortest_path_with_config. destruct (Nat.eqb_spec n 0); [lia|]. destruct (Nat.eqb_spec n 1); [lia|]. cbn [negb]. rewrite E. eauto.
  Qed.

  (** No path, and one path. *)
  Theorem C47_none_or_one :
    forall f idem fuel R,
    closed f -> (has (vprops f) ACYCLIC = true -> forall s, ~ on_cycle (mach f) s) -> cycles_idle (mach f) ->
    shortest_path_with_config rv rb idem true fuel 0 f = Some (Ok vnew) /\
    (shortest_path_with_config rv rb idem true fuel 1 f = Some R ->
     exists g, R = Ok g /\ closed g /\ bits_true g /\
       match vstart f with
       | None => num_states g = O
       | Some a =>
           (num_states g = O /\ forall p, is_path (mach f) a p -> apw (mach f) a p = 0) \/
           exists p, best_path (mach f) a p /\ one_path (mach g) p (apw (mach f) a p) /\ num_states g = S (length p)
       end).
  Proof.
    intros f idem fuel R C Sn Cy. split; [reflexivity|]. intros E.
    destruct (C41_shortest_path L Pp f idem fuel R C Sn Cy E) as (g & -> & G1 & _ & G3 & _ & _ & G4). eauto 10.
  Qed.

  (** Weights without a total order are refused. *)
  Theorem C47_needs_path : forall f idem fuel n, (2 <= n)%nat -> shortest_path_with_config rv rb idem false fuel n f = Some Err.
  Proof. intros f idem fuel n Hn. unfold shortest_path_with_config. destruct (Nat.eqb_spec n 0); [lia|]. destruct (Nat.eqb_spec n 1); [lia|]. reflexivity. Qed.
End C47.
Print Assumptions C47_n_shortest.
Print Assumptions C47_stops.
Print Assumptions C47_none_or_one.
Print Assumptions C47_needs_path.

Local Close Scope K_scope.

Lemma tropN_cancel : cancellative tropN.
Proof.
  intros [x|] [y|] [z|] H E; cbn in *; try congruence; try (exfalso; apply H; reflexivity). injection E as E. f_equal. lia.
Qed.

(** A cyclic machine: two paths spell the same, one goes round a loop. *)
Definition c47_calls : list (op tropN) :=
  [OAddStates 3; OSetStart 0; OAddTr 0 (Tr 1 1 (Some 2) 1); OAddTr 0 (Tr 1 1 (Some 3) 1); OAddTr 1 (Tr 2 0 (Some 1) 1);
   OAddTr 1 (Tr 3 4 (Some 0) 2); OAddTr 2 (Tr 5 5 (Some 9) 0); OSetFinal 2 (Some 1); OSetFinal 1 (Some 7)].
Example C47_instance :
  exists f g, run vnew c47_calls = Ok f /\ closed f /\ path_plus tropN /\ commutative_times tropN /\ cancellative tropN /\ no_endless_growth tropN /\
    (has (vprops f) ACYCLIC = true -> forall s, ~ on_cycle (mach f) s) /\ loops_idle f (fun _ => true) /\ on_cycle (mach f) 0 /\
    shortest_path_with_config (fun w => w) (fun w => w) true true 30 4 f = Some (Ok g) /\
    accepted g 9 = [FP [1; 3] [1; 4] (Some 3); FP [1; 3] [1; 4] (Some 4); FP [1; 2; 3] [1; 4] (Some 4); FP [1; 2; 3] [1; 4] (Some 5)] /\
    accepting f 1 = [FP [1] [1] (Some 9); FP [1] [1] (Some 10)].
Proof.
  do 2 eexists. split; [vm_compute; reflexivity|]. split.
  { split; [|cbn; intros s H; inversion H; vm_compute; lia].
    intros s t. destruct s as [|[|[|s]]]; cbn; try tauto; try (destruct s; simpl; tauto);
    intros H; repeat destruct H as [<-|H]; try destruct H; vm_compute; lia. }
  split; [apply tropN_path|]. split; [apply tropN_comm|]. split; [apply tropN_cancel|]. split; [apply C16_growth|]. split; [vm_compute; discriminate|].
  split; [intros s t _ _ _; apply tropN_bounded|]. split.
  { eexists. split; [simpl; left; reflexivity|]. econstructor; [simpl; right; left; reflexivity|]. econstructor; [simpl; left; reflexivity|]. constructor. }
  split; [vm_compute; reflexivity|]. split; vm_compute; reflexivity.
Qed.
