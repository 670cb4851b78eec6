(** C17: all-pairs shortest distance solves the path equation. *)
From Coq Require Import List Arith NArith ZArith Bool Lia.
From Verif Require Import Base.Util Base.Semiring Base.Machine Base.PathSum Base.PropSpec Base.Instances
  Model.Props Model.VectorFst Model.History Model.Weights Model.AllPairs
  Proofs.VectorFacts Proofs.VectorProps Proofs.SdFacts Proofs.ReverseDist Proofs.AllPairsFacts Props.C16 Props.C27.
Import ListNotations.
Local Open Scope K_scope.

(** The total weight of the transitions from one state to another. *)
Definition between {K : SR} (f : vfst K) (i j : nat) : K :=
  ksum (map (fun t => if Nat.eqb (ns t) j then wgt t else 0) (trs_of f i)).

(** [1 + x + x*x + ...], to [k] factors. *)
Fixpoint powers {K : SR} (x : K) (k : nat) : K := match k with O => 1 | S k' => 1 + x * powers x k' end.

Section C17.
  Context {K : SR} (L : sr_laws K) (closure : K -> K).
  Implicit Types f : vfst K.

  (** The matrix is there and is [n] by [n]. *)
  Definition returns f (D : list (list K)) : Prop :=
    all_pairs_shortest_distance closure f = Ok D /\ length D = num_states f /\
    forall i, (i < num_states f)%nat -> length (nth i D []) = num_states f.

  Lemma core f : closed f -> (forall q, (q < num_states f)%nat -> star_at closure (B closure (step f) q q q)) ->
    exists D, returns f D /\ forall i j, (i < num_states f)%nat -> (j < num_states f)%nat ->
      mget D i j = (if Nat.eqb i j then 1 else 0) + B closure (step f) (num_states f) i j.
  Proof.
    intros C St. destruct (init_ok L f C) as (d & E & Sq & G).
    destruct (rounds_ok L (num_states f) closure (step f) (num_states f) d Sq (le_n _)) as [Sq' G']; auto.
    eexists. split.
    - split; [unfold all_pairs_shortest_distance; rewrite E; reflexivity|]. exact Sq'.
    - intros i j Hi Hj. rewrite G' by auto. destruct (Nat.ltb_spec j (num_states f)); [|lia]. rewrite andb_true_r. auto.
  Qed.

  Lemma one_sum f (F : nat -> K) i : (i < num_states f)%nat ->
    ksum (map (fun q => (if Nat.eqb i q then 1 else 0) * F q) (seq O (num_states f))) = F i.
  Proof.
    intros Hi. rewrite <- (ksum_pick L F i (num_states f) Hi). apply ksum_map_ext. intros q _.
    destruct (Nat.eqb i q); [apply (ktimes_1_l _ L)|apply (ktimes_0_l _ L)].
  Qed.
  Lemma one_sum' f (F : nat -> K) j : (j < num_states f)%nat ->
    ksum (map (fun q => F q * (if Nat.eqb q j then 1 else 0)) (seq O (num_states f))) = F j.
  Proof.
    intros Hi. rewrite <- (ksum_pick L F j (num_states f) Hi). apply ksum_map_ext. intros q _. rewrite (Nat.eqb_sym j q).
    destruct (Nat.eqb q j); [apply (ktimes_1_r _ L)|apply (ktimes_0_r _ L)].
  Qed.

  Lemma core_equations f : closed f -> (forall q, (q < num_states f)%nat -> star_at closure (B closure (step f) q q q)) ->
    exists D, returns f D /\ (forall i j, (i < num_states f)%nat -> (j < num_states f)%nat ->
      mget D i j = (if Nat.eqb i j then 1 else 0) + B closure (step f) (num_states f) i j /\
      mget D i j = (if Nat.eqb i j then 1 else 0) + ksum (map (fun q => between f i q * mget D q j) (seq O (num_states f))) /\
      mget D i j = (if Nat.eqb i j then 1 else 0) + ksum (map (fun q => mget D i q * between f q j) (seq O (num_states f)))) /\
      forall a, (a < num_states f)%nat -> fixed (mach f) (num_states f) a (fun q => mget D a q).
  Proof.
    intros C St. destruct (core f C St) as (D & R & G). exists D. split; auto.
    assert (H : forall i j, (i < num_states f)%nat -> (j < num_states f)%nat ->
      mget D i j = (if Nat.eqb i j then 1 else 0) + ksum (map (fun q => mget D i q * between f q j) (seq O (num_states f)))).
    { intros i j Hi Hj. rewrite G by auto. f_equal.
      rewrite (ksum_map_ext (fun q => mget D i q * between f q j) (fun q => (if Nat.eqb i q then 1 else 0) * step f q j + B closure (step f) (num_states f) i q * step f q j)).
      2:{ intros q Hq. apply in_seq in Hq. rewrite G by (auto; lia). apply (kdistr_r _ L). }
      rewrite (ksum_map_plus L), (one_sum f (fun q => step f q j)) by auto. apply (B_right L); auto. }
    split.
    - intros i j Hi Hj. split; [apply G; auto|]. split; [|apply H; auto]. rewrite G by auto. f_equal.
      rewrite (ksum_map_ext (fun q => between f i q * mget D q j) (fun q => step f i q * (if Nat.eqb q j then 1 else 0) + step f i q * B closure (step f) (num_states f) q j)).
      2:{ intros q Hq. apply in_seq in Hq. rewrite G by (auto; lia). apply (kdistr_l _ L). }
      rewrite (ksum_map_plus L), (one_sum' f (fun q => step f i q)) by auto. apply (B_left L); auto.
    - intros a Ha q. unfold unit_at. rewrite (adj_step L). destruct (Nat.lt_ge_cases q (num_states f)) as [Hq|Hq]; [apply H; auto|].
      rewrite (mget_out (num_states f)) by (auto; destruct R as (_ & R); exact R). rewrite (proj2 (Nat.eqb_neq a q)) by lia.
      rewrite (kplus_0_l _ L). symmetry. apply (ksum_map_zero L). intros p _. rewrite (step_out L f C) by auto. apply (ktimes_0_r _ L).
  Qed.

  (** Where the closure satisfies the star equations the matrix solves both path equations. *)
  Theorem C17_path_equation :
    (forall x, closure x = 1 + x * closure x /\ closure x = 1 + closure x * x) ->
    forall f, closed f ->
    exists D, returns f D /\ forall i j, (i < num_states f)%nat -> (j < num_states f)%nat ->
      mget D i j = (if Nat.eqb i j then 1 else 0) + ksum (map (fun q => between f i q * mget D q j) (seq O (num_states f))) /\
      mget D i j = (if Nat.eqb i j then 1 else 0) + ksum (map (fun q => mget D i q * between f q j) (seq O (num_states f))).
  Proof.
    intros St f C. destruct (core_equations f C) as (D & R & G & _); [intros; apply St|]. exists D. split; auto.
    intros i j Hi Hj. destruct (G i j Hi Hj) as (_ & H1 & H2). auto.
  Qed.

  Lemma step_pathsum f i j : pathsum (mach f) true i j (step f i j).
  Proof.
    exists (map (fun t => [t]) (filter (fun t => Nat.eqb (ns t) j) (trs_of f i))). split.
    - unfold step. induction (trs_of f i) as [|t l IH]; cbn [map filter ksum]; auto. rewrite IH. destruct (Nat.eqb (ns t) j); cbn [map ksum pw].
      + rewrite (ktimes_1_r _ L). auto.
      + apply (kplus_0_l _ L).
    - intros p Hp. apply in_map_iff in Hp as (t & <- & Ht). apply filter_In in Ht as [Ht E]. apply Nat.eqb_eq in E. cbn. repeat split; auto. discriminate.
  Qed.

  Lemma B_pathsum f k : (forall q, (q < k)%nat -> pathsum (mach f) false q q (closure (B closure (step f) q q q))) ->
    forall i j, pathsum (mach f) true i j (B closure (step f) k i j).
  Proof.
    induction k as [|k IH]; intros H i j; cbn [B]; [apply step_pathsum|].
    apply (pathsum_plus L); [apply IH; intros; apply H; lia|].
    apply (pathsum_times L (mach f) true true i k j); [|apply IH; intros; apply H; lia].
    apply (pathsum_times L (mach f) true false i k k); [apply IH; intros; apply H; lia|]. apply H. lia.
  Qed.

  (** Without cycles only the closure of zero matters. *)
  Theorem C17_acyclic : closure 0 = 1 -> forall f, closed f -> (forall s, ~ on_cycle (mach f) s) ->
    exists D, returns f D /\ forall i j, (i < num_states f)%nat -> (j < num_states f)%nat ->
      settles (fun k => upto (mach f) k i j) (mget D i j).
  Proof.
    intros C0 f C Ac. apply no_cycle_acyclic in Ac.
    assert (Z : forall q, B closure (step f) q q q = 0).
    { induction q as [q IH] using lt_wf_ind. destruct (B_pathsum f q) with (i := q) (j := q) as (l & -> & Hl).
      - intros r Hr. rewrite IH, C0 by auto. apply (pathsum_1 L).
      - destruct l as [|p l]; auto. destruct (Hl p (or_introl eq_refl)) as (H1 & H2 & H3). exfalso. apply (Ac q p); auto. }
    destruct (core_equations f C) as (D & R & _ & F).
    { intros q _. rewrite Z. unfold star_at. rewrite C0, (ktimes_0_l _ L), (ktimes_0_r _ L), (kplus_0_r L). auto. }
    exists D. split; auto. intros i j Hi Hj. exists (num_states f). intros k Hk.
    apply (fixed_acyclic L (mach f) (num_states f)) with (D := fun q => mget D i q); auto. intros s t Ht. apply (proj1 C s t Ht).
  Qed.

  Lemma ksum_has (x : K) l : idempotent_plus K -> In x l -> ksum l + x = ksum l.
  Proof.
    intros Id. induction l as [|y l IH]; intros []; cbn [ksum].
    - subst. rewrite (kplus_comm _ L x), <- (kplus_assoc _ L), (Id x). auto.
    - rewrite <- (kplus_assoc _ L), IH; auto.
  Qed.
  Lemma upto_has f i p k : idempotent_plus K -> is_path (mach f) i p -> (length p <= k)%nat ->
    upto (mach f) k i (dst i p) + pw p = upto (mach f) k i (dst i p).
  Proof.
    intros Id Hp Hk. rewrite <- (upto_mono L (mach f) i (length p) k (dst i p) Id Hk) at 2.
    rewrite <- (upto_mono L (mach f) i (length p) k (dst i p) Id Hk) at 1. rewrite <- (kplus_assoc _ L). f_equal.
    assert (X : to_sum (mach f) (length p) i (dst i p) + pw p = to_sum (mach f) (length p) i (dst i p)).
    { apply ksum_has; auto. apply in_map_iff. exists p. rewrite Nat.eqb_refl. split; auto. apply paths_is_path. auto. }
    destruct (length p) as [|l] eqn:El.
    - unfold upto in *. cbn [seq map ksum]. rewrite (kplus_0_r L). auto.
    - rewrite (upto_snoc L), <- (kplus_assoc _ L), X. auto.
  Qed.
  Lemma pathsum_below f ne i j v : idempotent_plus K -> pathsum (mach f) ne i j v ->
    exists k, forall k', (k <= k')%nat -> upto (mach f) k' i j + v = upto (mach f) k' i j.
  Proof.
    intros Id (l & -> & H). induction l as [|p l IH].
    - exists O. intros k' _. cbn. apply (kplus_0_r L).
    - destruct IH as (k & Hk); [intros; apply H; right; auto|]. exists (max k (length p)). intros k' Hk'. cbn [map ksum].
      destruct (H p (or_introl eq_refl)) as (H1 & H2 & _). rewrite (kplus_assoc _ L). rewrite <- H2 at 1. rewrite upto_has by (auto; lia). rewrite H2. apply Hk. lia.
  Qed.

  Lemma powers_snoc (x : K) k : powers x (S k) = 1 + powers x k * x.
  Proof.
    induction k as [|k IH]; [cbn; rewrite (ktimes_1_l _ L), (ktimes_1_r _ L); auto|].
    change (powers x (S (S k))) with (1 + x * powers x (S k)). rewrite IH at 1. cbn [powers].
    rewrite (kdistr_l _ L), (kdistr_r _ L), (ktimes_1_r _ L), (ktimes_1_l _ L), !(ktimes_assoc _ L). auto.
  Qed.
  Lemma powers_star x : settles (powers x) (closure x) -> star_at closure x.
  Proof.
    intros (k & Hk). split.
    - rewrite <- (Hk (S k)) at 1 by lia. cbn [powers]. rewrite Hk; auto.
    - rewrite <- (Hk (S k)) at 1 by lia. rewrite powers_snoc, Hk; auto.
  Qed.
  Lemma powers_pathsum f q x k : pathsum (mach f) true q q x -> pathsum (mach f) false q q (powers x k).
  Proof.
    intros H. induction k as [|k IH]; cbn [powers]; [apply (pathsum_1 L)|].
    apply (pathsum_plus L); [apply (pathsum_1 L)|]. apply (pathsum_weak (mach f) (true || false)). apply (pathsum_times L (mach f) true false q q q); auto.
  Qed.

  (** With idempotent addition, and a closure that is the sum of the powers, every entry is the
      sum over all paths. *)
  Theorem C17_idempotent : idempotent_plus K -> (forall x, settles (powers x) (closure x)) -> forall f, closed f ->
    exists D, returns f D /\ forall i j, (i < num_states f)%nat -> (j < num_states f)%nat ->
      settles (fun k => upto (mach f) k i j) (mget D i j).
  Proof.
    intros Id St f C. destruct (core_equations f C) as (D & R & G & F); [intros; apply powers_star, St|].
    exists D. split; auto. intros i j Hi Hj.
    assert (P : forall k i j, pathsum (mach f) true i j (B closure (step f) k i j)).
    { intros k. induction k as [k IH] using lt_wf_ind. apply B_pathsum. intros q Hq. destruct (St (B closure (step f) q q q)) as (k' & Hk').
      rewrite <- (Hk' k') by auto. apply powers_pathsum. apply IH. auto. }
    assert (PD : pathsum (mach f) false i j (mget D i j)).
    { destruct (G i j Hi Hj) as (-> & _). apply (pathsum_plus L); [|apply (pathsum_weak _ true), P].
      destruct (Nat.eqb_spec i j) as [->|]; [apply (pathsum_1 L)|apply pathsum_0]. }
    destruct (pathsum_below f false i j _ Id PD) as (k & Hk). exists k. intros k' Hk'.
    pose proof (fixed_above L (mach f) (num_states f) (fun s t Ht => proj1 C s t Ht) i _ Id Hi (F i Hi) k' j) as X. cbn beta in X.
    rewrite <- X, (kplus_comm _ L). symmetry. apply Hk. auto.
  Qed.
End C17.

Local Close Scope K_scope.

Definition ext_sr : SR := mkSR ext PInf (Fin 0) trop_plus trop_times ext_eqb.

(** The tropical closure, as implemented, answers minus infinity for zero: one transition
    between two states already gives minus infinity where the distance is [3] and where there is no path. *)
Theorem C17_tropical_refuted :
  exists f : vfst ext_sr, closed f /\ num_states f = 2 /\ (forall s, ~ on_cycle (mach f) s) /\
    exists D, @all_pairs_shortest_distance ext_sr tropical_closure f = Ok D /\
      @mget ext_sr D 0 1 = MInf /\ upto (mach f) 2 0 1 = Fin 3 /\ @mget ext_sr D 0 0 = MInf /\ upto (mach f) 2 0 0 = Fin 0.
Proof.
  exists (VF [VS None [@Tr ext_sr 1 1 (Fin 3) 1] 0 0; VS (Some (Fin 0 : ext_sr)) [] 0 0] (Some 0) None None 0%N).
  split; [|split; [|split]].
  - split.
    + intros s t Ht. destruct s as [|[|s]]; [destruct Ht as [<-|[]]; cbn; lia|destruct Ht|destruct s; destruct Ht].
    + intros s Hs. injection Hs as <-. cbn. lia.
  - reflexivity.
  - intros s (t & Ht & Hr). destruct s as [|[|s]]; [|destruct Ht|destruct s; destruct Ht].
    destruct Ht as [<-|[]]. cbn in Hr. inversion Hr; subst. cbn in H. destruct H.
  - eexists. split; [vm_compute; reflexivity|]. vm_compute. auto.
Qed.

(** A cycle, over booleans: the closure of every value is true and the powers settle. *)
Definition C17_f : vfst boolSR :=
  VF [VS None [@Tr boolSR 1 1 true 1] 0 0; VS None [@Tr boolSR 1 1 true 2; @Tr boolSR 2 2 true 0] 0 0; VS (Some (true : boolSR)) [] 0 0] (Some 0) None None 0%N.
Example C17_instance :
  closed C17_f /\ idempotent_plus boolSR /\ (forall x : boolSR, settles (powers x) (boolean_closure x)) /\
  (forall x : boolSR, boolean_closure x = @kplus boolSR (@kone boolSR) (@ktimes boolSR x (boolean_closure x))) /\
  (exists s, on_cycle (mach C17_f) s) /\
  @all_pairs_shortest_distance boolSR boolean_closure C17_f = Ok [[true; true; true]; [true; true; true]; [false; false; true]].
Proof.
  split; [|split; [|split; [|split; [|split]]]].
  - split.
    + intros s t Ht. destruct s as [|[|[|s]]]; [destruct Ht as [<-|[]]; cbn; lia|destruct Ht as [<-|[<-|[]]]; cbn; lia|destruct Ht|destruct s; destruct Ht].
    + intros s Hs. injection Hs as <-. cbn. lia.
  - intros []; reflexivity.
  - intros x. exists 0. intros j _. destruct j; [reflexivity|]. cbn. reflexivity.
  - intros []; reflexivity.
  - exists 0, (@Tr boolSR 1 1 true 1). split; [left; reflexivity|]. apply (reach_step (mach C17_f) 1 (@Tr boolSR 2 2 true 0)); [right; left; reflexivity|constructor].
  - vm_compute. reflexivity.
Qed.

(** Counting paths of a diamond with the closure of integers, whose value at zero is one. *)
Definition C17_g : vfst natSR :=
  VF [VS None [@Tr natSR 1 1 2 1; @Tr natSR 1 1 3 2] 0 0; VS None [@Tr natSR 1 1 5 3] 0 0; VS None [@Tr natSR 1 1 7 3] 0 0; VS (Some (1 : natSR)) [] 0 0] (Some 0) None None 0%N.
Example C17_diamond : all_pairs_shortest_distance (fun x : natSR => match x with 0 => 1 | _ => 99 end) C17_g =
  Ok [[1; 2; 3; 31]; [0; 1; 0; 5]; [0; 0; 1; 7]; [0; 0; 0; 1]] /\ upto (mach C17_g) 4 0 3 = 31.
Proof. vm_compute. auto. Qed.

Print Assumptions C17_path_equation.
Print Assumptions C17_acyclic.
Print Assumptions C17_idempotent.
Print Assumptions C17_tropical_refuted.
