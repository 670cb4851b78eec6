(** Replacing the transitions of a state by its epsilon closure keeps total weights. *)
From Coq Require Import List Arith Bool Lia Permutation.
From Verif Require Import Base.Util Base.Semiring Base.Machine Base.PathSum Model.Dfs Proofs.SdFacts.
Import ListNotations.
Local Open Scope K_scope.

Section Eps.
  Context {K : SR} (L : sr_laws K).
  Notation weights := (nat -> list nat -> list nat -> K).
  Implicit Types (m : machine K) (V : weights).

  (** Sum over the paths of at most [k] transitions. *)
  Definition tot m (k s : nat) (x y : list nat) : K := ksum (map (fun j => wt m j s x y) (seq O (S k))).

  Definition stop m (s : nat) (x y : list nat) : K := if isnil x && isnil y then fw (mfin m s) else 0.
  Definition take (t : tr K) V (x y : list nat) : K :=
    match strip (il t) x, strip (ol t) y with Some x', Some y' => wgt t * V (ns t) x' y' | _, _ => 0 end.
  Definition step m V : weights := fun s x y => stop m s x y + ksum (map (fun t => take t V x y) (mtrs m s)).
  Definition noneps (t : tr K) : bool := negb (epsilon_filter t).
  Definition nstep m V : weights := fun s x y => stop m s x y + ksum (map (fun t => take t V x y) (filter noneps (mtrs m s))).
  Definition em m : machine K := Mach (mstart m) (fun s => filter epsilon_filter (mtrs m s)) (mfin m).
  Definition none : weights := fun _ _ _ => 0.

  Lemma tot_0 m s x y : tot m O s x y = step m none s x y.
  Proof.
    unfold tot, step. cbn [seq map ksum wt]. fold (stop m s x y). f_equal. symmetry. apply (ksum_map_zero L).
    intros t _. unfold take, none. destruct (strip (il t) x), (strip (ol t) y); auto. apply (ktimes_0_r _ L).
  Qed.
  Lemma tot_S m k s x y : tot m (S k) s x y = step m (tot m k) s x y.
  Proof.
    unfold tot, step.
    change (seq O (S (S k))) with (O :: seq 1 (S k)). rewrite <- seq_shift. cbn [map]. rewrite map_map. cbn [ksum wt]. fold (stop m s x y). f_equal.
    rewrite (ksum_swap L). apply ksum_map_ext. intros t _. unfold take.
    destruct (strip (il t) x) as [x'|]; [destruct (strip (ol t) y) as [y'|]|].
    - rewrite (ksum_times_l L), map_map. auto.
    - apply (ksum_map_zero L). auto.
    - apply (ksum_map_zero L). auto.
  Qed.

  Lemma eps_true (t : tr K) : epsilon_filter t = true <-> il t = O /\ ol t = O.
  Proof. unfold epsilon_filter. rewrite andb_true_iff, !Nat.eqb_eq. tauto. Qed.

  Lemma take_eps t V x y : epsilon_filter t = true -> take t V x y = wgt t * V (ns t) x y.
  Proof. intros H. apply eps_true in H as [H1 H2]. unfold take, strip. rewrite H1, H2. auto. Qed.

  (** Epsilon transitions apart. *)
  Lemma step_split m V s x y : step m V s x y =
    nstep m V s x y + ksum (map (fun t => wgt t * V (ns t) x y) (mtrs (em m) s)).
  Proof.
    unfold step, nstep. rewrite <- (kplus_assoc _ L). f_equal. rewrite (ksum_split L (epsilon_filter (K:=K))), (kplus_comm _ L).
    f_equal. cbn [em mtrs]. apply ksum_map_ext. intros t Ht. apply filter_In in Ht as [_ Ht]. apply take_eps. auto.
  Qed.

  (** ** Sums over epsilon paths, from the other end. *)
  Lemma to_sum_left m k a q : to_sum m (S k) a q = ksum (map (fun t => wgt t * to_sum m k (ns t) q) (mtrs m a)).
  Proof.
    unfold to_sum at 1. rewrite (psum_S L). apply ksum_map_ext. intros t _. unfold to_sum. rewrite <- (psum_times_l L).
    apply psum_ext. intros p _. cbn [dst pw]. destruct (Nat.eqb _ q); auto. symmetry. apply (ktimes_0_r _ L).
  Qed.
  Lemma upto_left m k a q : upto m (S k) a q = unit_at a q + ksum (map (fun t => wgt t * upto m k (ns t) q) (mtrs m a)).
  Proof.
    unfold upto. change (seq O (S (S k))) with (O :: seq 1 (S k)). rewrite <- seq_shift. cbn [map ksum]. rewrite map_map. rewrite (to_sum_0 L). f_equal.
    rewrite (map_ext _ (fun i => ksum (map (fun t => wgt t * to_sum m i (ns t) q) (mtrs m a)))) by (intros; apply to_sum_left).
    rewrite (ksum_swap L). apply ksum_map_ext. intros t _. rewrite (ksum_times_l L), map_map. auto.
  Qed.

  Variable n : nat.

  (** The sum over epsilon paths of at most [k] transitions followed by [N]. *)
  Definition clo m (k a : nat) (N : nat -> K) : K := ksum (map (fun q => upto (em m) k a q * N q) (seq O n)).
  Lemma clo_0 m a N : (a < n)%nat -> clo m O a N = N a.
  Proof.
    intros Ha. unfold clo. rewrite <- (ksum_pick L N a n Ha). apply ksum_map_ext. intros q _. rewrite (upto_0 L). unfold unit_at.
    destruct (Nat.eqb a q); [apply (ktimes_1_l _ L)|apply (ktimes_0_l _ L)].
  Qed.
  Lemma clo_S m k a N : (a < n)%nat -> clo m (S k) a N = N a + ksum (map (fun t => wgt t * clo m k (ns t) N) (mtrs (em m) a)).
  Proof.
    intros Ha. unfold clo.
    transitivity (ksum (map (fun q => (if Nat.eqb a q then N q else 0) + ksum (map (fun t => wgt t * (upto (em m) k (ns t) q * N q)) (mtrs (em m) a))) (seq O n))).
    - apply ksum_map_ext. intros q _. rewrite upto_left, (kdistr_r _ L). f_equal.
      + unfold unit_at. destruct (Nat.eqb a q); [apply (ktimes_1_l _ L)|apply (ktimes_0_l _ L)].
      + rewrite (ksum_times_r L), map_map. apply ksum_map_ext. intros t _. symmetry. apply (ktimes_assoc _ L).
    - rewrite (ksum_map_plus L), (ksum_pick L N a n Ha). f_equal. rewrite (ksum_swap L). apply ksum_map_ext. intros t _.
      rewrite (ksum_times_l L), map_map. auto.
  Qed.

  (** [m1] is [m] with the closure of [s] in place of the transitions of [s]. *)
  Record replaced m m1 (s : nat) (D : nat -> K) : Prop := {
    rp_mtrs : forall q, q <> s -> mtrs m1 q = mtrs m q;
    rp_mfin : forall q, q <> s -> fw (mfin m1 q) = fw (mfin m q);
    rp_eps : forall t, In t (mtrs m1 s) -> epsilon_filter t = false;
    rp_step : forall V x y, step m1 V s x y = ksum (map (fun q => D q * nstep m V q x y) (seq O n))
  }.

  Lemma replaced_step m m1 s D V q x y : replaced m m1 s D -> q <> s -> step m1 V q x y = step m V q x y.
  Proof. intros R H. unfold step, stop. rewrite (rp_mtrs _ _ _ _ R), (rp_mfin _ _ _ _ R) by auto. auto. Qed.

  (** ** No epsilon cycle: total weights are the solution of a system of equations. *)
  Definition inside m : Prop := forall s t, In t (mtrs m s) -> (ns t < n)%nat.
  Definition low m (h a : nat) : Prop := forall p, is_path (em m) a p -> (length p <= h)%nat.
  Definition solves m V : Prop := forall s x y, (s < n)%nat -> V s x y = step m V s x y.

  Lemma low_next m h a t : low m (S h) a -> In t (mtrs (em m) a) -> low m h (ns t).
  Proof. intros H Ht p Hp. specialize (H (t :: p) (conj Ht Hp)). simpl in H. lia. Qed.
  Lemma low_0 m a : low m O a -> mtrs (em m) a = [].
  Proof.
    intros H. destruct (mtrs (em m) a) as [|t l] eqn:E; auto. specialize (H [t]). simpl in H. cbn in E. rewrite E in H.
    specialize (H (conj (or_introl eq_refl) I)). lia.
  Qed.
  Lemma em_inside m s t : inside m -> In t (mtrs (em m) s) -> (ns t < n)%nat.
  Proof. intros H Ht. cbn in Ht. apply filter_In in Ht as [Ht _]. eapply H; eauto. Qed.

  Lemma lin_clo m N (U : nat -> K) : inside m -> (forall s, (s < n)%nat -> U s = N s + ksum (map (fun t => wgt t * U (ns t)) (mtrs (em m) s))) ->
    forall h k a, (a < n)%nat -> low m h a -> (h <= k)%nat -> U a = clo m k a N.
  Proof.
    intros In1 H. induction h as [|h IH]; intros k a Ha Lo Hk.
    - rewrite H, (low_0 m a Lo) by auto. cbn [map ksum]. rewrite (kplus_0_r L). destruct k as [|k]; [rewrite clo_0; auto|].
      rewrite clo_S, (low_0 m a Lo) by auto. cbn [map ksum]. rewrite (kplus_0_r L). auto.
    - destruct k as [|k]; [lia|]. rewrite H, clo_S by auto. f_equal. apply ksum_map_ext. intros t Ht. f_equal.
      apply IH; [eapply em_inside; eauto|eapply low_next; eauto|lia].
  Qed.

  Lemma solves_replaced m m1 s k V : inside m -> (forall a, (a < n)%nat -> low m n a) -> (n <= k)%nat -> (s < n)%nat ->
    replaced m m1 s (fun q => upto (em m) k s q) -> solves m V -> solves m1 V.
  Proof.
    intros In1 Lo Hk Hs R S q x y Hq. destruct (Nat.eq_dec q s) as [->|Hne].
    - rewrite (rp_step _ _ _ _ R). change (V s x y = clo m k s (fun q => nstep m V q x y)).
      apply (lin_clo m (fun q => nstep m V q x y) (fun a => V a x y)) with (h := n); auto. intros a Ha. rewrite (S a x y Ha) at 1. apply step_split.
    - rewrite (replaced_step _ _ _ _ _ _ _ _ R) by auto. apply S. auto.
  Qed.

  Lemma strip_len l x x' : strip l x = Some x' -> (length x' <= length x /\ (l <> 0 -> length x' < length x))%nat.
  Proof.
    unfold strip. destruct (Nat.eqb_spec l 0); [intros [= <-]; split; [lia|congruence]|].
    destruct x as [|a x]; [discriminate|]. destruct (Nat.eqb a l); [|discriminate]. intros [= <-]. simpl. lia.
  Qed.

  Definition longest (x y : list nat) : nat := ((length x + length y) * S n + n)%nat.
  Lemma take_ext t V W x y : (forall x' y', strip (il t) x = Some x' -> strip (ol t) y = Some y' -> V (ns t) x' y' = W (ns t) x' y') ->
    take t V x y = take t W x y.
  Proof. intros H. unfold take. destruct (strip (il t) x) as [x'|], (strip (ol t) y) as [y'|]; auto. rewrite H; auto. Qed.

  Lemma tot_stable m : inside m -> (forall a, (a < n)%nat -> low m n a) -> forall k j h a x y, (j <= k)%nat -> (h <= n)%nat -> (a < n)%nat -> low m h a ->
    ((length x + length y) * S n + h <= j)%nat -> tot m (S j) a x y = tot m j a x y.
  Proof.
    intros In1 Lo. induction k as [|k IH]; intros j h a x y Hj Hh Ha Hl Hb.
    - assert (x = [] /\ y = [] /\ h = O /\ j = O) as (-> & -> & -> & ->) by (destruct x, y; simpl in Hb; repeat split; auto; lia).
      rewrite tot_S, tot_0, !step_split. rewrite (low_0 m a Hl). cbn [map ksum]. f_equal. unfold nstep. f_equal. apply ksum_map_ext.
      intros t Ht. apply filter_In in Ht as [_ Ht]. unfold take, strip. unfold noneps, epsilon_filter in Ht.
      destruct (Nat.eqb (il t) 0), (Nat.eqb (ol t) 0); auto. discriminate.
    - destruct (Nat.eq_dec j (S k)) as [->|]; [|apply (IH j h); auto; lia]. rewrite (tot_S m (S k)), (tot_S m k), !step_split. f_equal.
      + unfold nstep. f_equal. apply ksum_map_ext. intros t Ht. apply filter_In in Ht as [Ht1 Ht]. apply take_ext. intros x' y' Ex Ey.
        pose proof (In1 _ _ Ht1) as Hn. apply (IH k n); auto. apply strip_len in Ex as [X1 X2], Ey as [Y1 Y2].
        assert (length x' + length y' + 1 <= length x + length y)%nat; [|nia].
        unfold noneps, epsilon_filter in Ht. destruct (Nat.eqb_spec (il t) 0), (Nat.eqb_spec (ol t) 0); try discriminate;
          repeat match goal with H : ?a <> _, X : ?a <> _ -> _ |- _ => specialize (X H) end; lia.
      + apply ksum_map_ext. intros t Ht. f_equal. destruct h as [|h]; [rewrite (low_0 m a Hl) in Ht; destruct Ht|].
        apply (IH k h); [lia|lia|eapply em_inside; eauto|eapply low_next; eauto|lia].
  Qed.

  Lemma tot_settled m : inside m -> (forall a, (a < n)%nat -> low m n a) -> forall a x y j, (a < n)%nat -> (longest x y <= j)%nat ->
    tot m j a x y = tot m (longest x y) a x y.
  Proof.
    intros In1 Lo a x y j Ha Hj. induction Hj as [|j Hj IH]; auto. rewrite <- IH. apply (tot_stable m In1 Lo j j n); auto.
  Qed.

  Lemma tot_solves m : inside m -> (forall a, (a < n)%nat -> low m n a) -> solves m (fun s x y => tot m (longest x y) s x y).
  Proof.
    intros In1 Lo s x y Hs. rewrite <- (tot_settled m In1 Lo s x y (S (longest x y))) by auto. rewrite tot_S. unfold step. f_equal.
    apply ksum_map_ext. intros t Ht. apply take_ext. intros x' y' Ex Ey. apply tot_settled; auto; [eapply In1; eauto|].
    apply strip_len in Ex, Ey. unfold longest. nia.
  Qed.

  (** ** No epsilon transition at all, from a closed set of states. *)
  Section Free.
    Variables (m : machine K) (P : nat -> Prop).
    Hypothesis Pn : forall s, P s -> (s < n)%nat.
    Hypothesis Pc : forall s t, P s -> In t (mtrs m s) -> P (ns t) /\ epsilon_filter t = false.

    Lemma free_shorter s t x y x' y' : P s -> In t (mtrs m s) -> strip (il t) x = Some x' -> strip (ol t) y = Some y' ->
      (length x' + length y' < length x + length y)%nat.
    Proof.
      intros Hs Ht Ex Ey. destruct (Pc s t Hs Ht) as [_ H]. apply strip_len in Ex as [X1 X2], Ey as [Y1 Y2].
      unfold epsilon_filter in H. destruct (Nat.eqb_spec (il t) 0), (Nat.eqb_spec (ol t) 0); try discriminate;
        repeat match goal with H : ?a <> _, X : ?a <> _ -> _ |- _ => specialize (X H) end; lia.
    Qed.

    Lemma free_long j : forall s x y, P s -> (length x + length y < j)%nat -> wt m j s x y = 0.
    Proof.
      induction j as [|j IH]; intros s x y Hs Hl; [lia|]. cbn [wt]. apply (ksum_map_zero L). intros t Ht.
      destruct (strip (il t) x) as [x'|] eqn:Ex, (strip (ol t) y) as [y'|] eqn:Ey; auto.
      rewrite IH; [apply (ktimes_0_r _ L)|apply (Pc s t Hs Ht)|]. pose proof (free_shorter s t x y x' y' Hs Ht Ex Ey). lia.
    Qed.

    Lemma free_tot j : forall s x y, P s -> (length x + length y <= j)%nat -> tot m j s x y = tot m (length x + length y) s x y.
    Proof.
      intros s x y Hs Hj. induction Hj as [|j Hj IH]; auto. rewrite <- IH. unfold tot. rewrite (seq_S (S j)), map_app, (ksum_app L).
      cbn [map ksum Nat.add]. rewrite (kplus_0_r L), free_long by (auto; lia). apply (kplus_0_r L).
    Qed.

    Lemma free_solution V : solves m V -> forall k s x y, P s -> (length x + length y <= k)%nat -> V s x y = tot m k s x y.
    Proof.
      intros S. induction k as [|k IH]; intros s x y Hs Hl; rewrite S by auto.
      - rewrite tot_0. unfold step. f_equal. apply ksum_map_ext. intros t Ht. apply take_ext. intros x' y' Ex Ey.
        pose proof (free_shorter s t x y x' y' Hs Ht Ex Ey). lia.
      - rewrite tot_S. unfold step. f_equal. apply ksum_map_ext. intros t Ht. apply take_ext. intros x' y' Ex Ey.
        pose proof (free_shorter s t x y x' y' Hs Ht Ex Ey). apply IH; [apply (Pc s t Hs Ht)|lia].
    Qed.
  End Free.

  (** ** Idempotent sums: each machine majorizes the other. *)
  Definition kle (a b : K) : Prop := a + b = b.
  Hypothesis Id : idempotent_plus K.
  Lemma kle_refl a : kle a a.
  Proof. apply Id. Qed.
  Lemma kle_trans a b c : kle a b -> kle b c -> kle a c.
  Proof. unfold kle. intros H1 H2. rewrite <- H2, (kplus_assoc _ L), H1. auto. Qed.
  Lemma kle_antisym a b : kle a b -> kle b a -> a = b.
  Proof. unfold kle. intros H1 H2. rewrite <- H2, (kplus_comm _ L), H1. auto. Qed.
  Lemma kle_0 a : kle 0 a.
  Proof. apply (kplus_0_l _ L). Qed.
  Lemma kle_plus a b c d : kle a c -> kle b d -> kle (a + b) (c + d).
  Proof. unfold kle. intros H1 H2. rewrite (kplus_swap L), H1, H2. auto. Qed.
  Lemma kle_l a b : kle a (a + b).
  Proof. unfold kle. rewrite (kplus_assoc _ L), (Id a). auto. Qed.
  Lemma kle_r a b : kle b (a + b).
  Proof. rewrite (kplus_comm _ L). apply kle_l. Qed.
  Lemma kle_lub a b c : kle a c -> kle b c -> kle (a + b) c.
  Proof. unfold kle. intros H1 H2. rewrite <- (kplus_assoc _ L), H2. auto. Qed.
  Lemma kle_times a b c d : kle a c -> kle b d -> kle (a * b) (c * d).
  Proof.
    intros H1 H2. apply kle_trans with (a * d).
    - unfold kle. rewrite <- (kdistr_l _ L), H2. auto.
    - unfold kle. rewrite <- (kdistr_r _ L), H1. auto.
  Qed.
  Lemma kle_ksum {A} (F G : A -> K) l : (forall x, In x l -> kle (F x) (G x)) -> kle (ksum (map F l)) (ksum (map G l)).
  Proof.
    induction l as [|x l IH]; intros H; cbn [map ksum]; [apply kle_refl|]. apply kle_plus; [apply H; left; auto|].
    apply IH. intros; apply H; right; auto.
  Qed.
  Lemma ksum_lub l b : (forall x, In x l -> kle x b) -> kle (ksum l) b.
  Proof. induction l as [|x l IH]; intros H; cbn [ksum]; [apply kle_0|]. apply kle_lub; [apply H; left; auto|]. apply IH. intros; apply H; right; auto. Qed.
  Lemma ksum_upper l x : In x l -> kle x (ksum l).
  Proof.
    induction l as [|y l IH]; intros []; cbn [ksum]; [subst; apply kle_l|]. eapply kle_trans; [apply IH; auto|apply kle_r].
  Qed.
  Lemma ksum_upper_map {A} (F : A -> K) l x : In x l -> kle (F x) (ksum (map F l)).
  Proof. intros H. apply ksum_upper. apply in_map. auto. Qed.

  Definition vle V W : Prop := forall s x y, (s < n)%nat -> kle (V s x y) (W s x y).
  Lemma take_mono t V W x y : (ns t < n)%nat -> vle V W -> kle (take t V x y) (take t W x y).
  Proof.
    intros Ht H. unfold take. destruct (strip (il t) x), (strip (ol t) y); try apply kle_refl. apply kle_times; [apply kle_refl|]. apply H. auto.
  Qed.
  Lemma step_mono m V W : inside m -> vle V W -> vle (step m V) (step m W).
  Proof. intros I H s x y _. apply kle_plus; [apply kle_refl|]. apply kle_ksum. intros t Ht. apply take_mono; eauto. Qed.
  Lemma nstep_mono m V W : inside m -> vle V W -> vle (nstep m V) (nstep m W).
  Proof.
    intros I H s x y _. apply kle_plus; [apply kle_refl|]. apply kle_ksum. intros t Ht. apply filter_In in Ht as [Ht _].
    apply take_mono; eauto.
  Qed.
  Lemma vle_refl V : vle V V.
  Proof. intros s x y _. apply kle_refl. Qed.
  Lemma vle_trans U V W : vle U V -> vle V W -> vle U W.
  Proof. intros H1 H2 s x y Hs. eapply kle_trans; [apply H1; auto|apply H2; auto]. Qed.
  Lemma none_least V : vle none V.
  Proof. intros s x y _. apply kle_0. Qed.
  Lemma tot_mono m j k : (j <= k)%nat -> vle (tot m j) (tot m k).
  Proof.
    intros H s x y _. unfold tot. apply ksum_lub. intros v Hv. apply in_map_iff in Hv as (i & <- & Hi).
    apply (ksum_upper_map (fun j => wt m j s x y)). apply in_seq in Hi. apply in_seq. lia.
  Qed.
  Lemma nstep_step m V : vle (nstep m V) (step m V).
  Proof. intros s x y _. rewrite step_split. apply kle_l. Qed.

  (** Epsilon paths are part of the longer paths. *)
  Lemma clo_below m k x y : inside m -> forall j a, (a < n)%nat ->
    kle (clo m j a (fun q => nstep m (tot m k) q x y)) (tot m (S k + j) a x y).
  Proof.
    intros I. induction j as [|j IH]; intros a Ha.
    - rewrite clo_0 by auto. rewrite Nat.add_0_r, tot_S. apply nstep_step. auto.
    - rewrite clo_S by auto. rewrite Nat.add_succ_r, tot_S, step_split. apply kle_plus.
      + apply nstep_mono; auto. apply tot_mono. lia.
      + apply kle_ksum. intros t Ht. apply kle_times; [apply kle_refl|]. apply IH. eapply em_inside; eauto.
  Qed.

  Section Rep.
    Variables (m m1 : machine K) (s k0 : nat) (D : nat -> K).
    Hypothesis In0 : inside m.
    Hypothesis In1 : inside m1.
    Hypothesis Hs : (s < n)%nat.
    Hypothesis R : replaced m m1 s D.
    Hypothesis Dk : forall j q, (k0 <= j)%nat -> upto (em m) j s q = D q.

    Lemma rep_below j : vle (tot m1 j) (tot m (S j * (2 + k0))).
    Proof.
      assert (St : forall V k, vle V (tot m k) -> vle (step m1 V) (tot m (k + (2 + k0)))).
      { intros V k H q x y Hq. destruct (Nat.eq_dec q s) as [->|Hne].
        - rewrite (rp_step _ _ _ _ R). eapply kle_trans; [|apply (tot_mono m (S k + k0)); auto; lia].
          eapply kle_trans; [|apply (clo_below m k x y In0 k0 s Hs)]. unfold clo. apply kle_ksum. intros p Hp.
          rewrite Dk by lia. apply kle_times; [apply kle_refl|]. apply nstep_mono; auto. apply in_seq in Hp. lia.
        - rewrite (replaced_step _ _ _ _ _ _ _ _ R) by auto. eapply kle_trans; [apply (step_mono m _ _ In0 H); auto|].
          rewrite <- tot_S. apply tot_mono; auto. lia. }
      induction j as [|j IH].
      - intros q x y Hq. rewrite tot_0. eapply kle_trans; [apply (St none O (none_least _)); auto|]. apply tot_mono; auto. lia.
      - intros q x y Hq. rewrite tot_S. eapply kle_trans; [apply (St _ _ IH); auto|]. apply tot_mono; auto. lia.
    Qed.

    Lemma D_path p : is_path (em m) s p -> kle (pw p) (D (dst s p)).
    Proof.
      intros Hp. rewrite <- (Dk (k0 + length p)) by lia. unfold upto.
      eapply kle_trans; [|apply (ksum_upper_map (fun i => to_sum (em m) i s (dst s p))) with (x := length p); apply in_seq; lia].
      unfold to_sum, psum.
      eapply kle_trans; [|apply (ksum_upper_map (fun p0 => if Nat.eqb (dst s p0) (dst s p) then pw p0 else 0)) with (x := p)].
      - rewrite Nat.eqb_refl. apply kle_refl.
      - apply paths_is_path. auto.
    Qed.

    Lemma D_path_D p q : is_path (em m) s p -> dst s p = s -> kle (pw p * D q) (D q).
    Proof.
      intros Hp Ep. rewrite <- (Dk k0 q) at 1 by lia. unfold upto. rewrite (ksum_times_l L), map_map. apply ksum_lub.
      intros v Hv. apply in_map_iff in Hv as (i & <- & _). unfold to_sum, psum. rewrite (ksum_times_l L), map_map. apply ksum_lub.
      intros v Hv. apply in_map_iff in Hv as (p' & <- & Hp'). apply paths_is_path in Hp' as [Hp' _].
      destruct (Nat.eqb_spec (dst s p') q) as [<-|]; [|rewrite (ktimes_0_r _ L); apply kle_0].
      rewrite <- (pw_app L). replace (dst s p') with (dst s (p ++ p')) by (rewrite dst_app, Ep; auto). apply D_path.
      apply is_path_app. rewrite Ep. auto.
    Qed.

    Lemma enter V x y p : is_path (em m) s p -> (dst s p < n)%nat -> kle (pw p * nstep m V (dst s p) x y) (step m1 V s x y).
    Proof.
      intros Hp Hd. rewrite (rp_step _ _ _ _ R). eapply kle_trans; [|apply (ksum_upper_map (fun q => D q * nstep m V q x y)) with (x := dst s p); apply in_seq; lia].
      apply kle_times; [apply D_path; auto|apply kle_refl].
    Qed.

    Lemma path_dst p : forall a, (a < n)%nat -> is_path (em m) a p -> (dst a p < n)%nat.
    Proof.
      induction p as [|t p IH]; intros a Ha; [auto|]. intros [Ht Hp]. cbn [dst]. apply IH; [|exact Hp]. exact (em_inside m a t In0 Ht).
    Qed.

    (** An epsilon path from [s] may be left to the replaced state. *)
    Lemma shortcut j x y : forall p, is_path (em m) s p -> kle (pw p * tot m1 j (dst s p) x y) (tot m1 j s x y).
    Proof.
      assert (St : forall V W, (forall p, is_path (em m) s p -> kle (pw p * V (dst s p) x y) (W s x y)) ->
        forall p, is_path (em m) s p -> kle (pw p * step m1 V (dst s p) x y) (step m1 V s x y + W s x y)).
      { intros V W H p Hp. pose proof (path_dst p s Hs Hp) as Hd. destruct (Nat.eq_dec (dst s p) s) as [E|Hne].
        - rewrite E. eapply kle_trans; [|apply kle_l]. rewrite (rp_step _ _ _ _ R), (ksum_times_l L), map_map. apply kle_ksum.
          intros q _. rewrite (ktimes_assoc _ L). apply kle_times; [apply D_path_D; auto|apply kle_refl].
        - rewrite (replaced_step _ _ _ _ _ _ _ _ R), step_split, (kdistr_l _ L) by auto. apply kle_plus; [apply enter; auto|].
          rewrite (ksum_times_l L), map_map. apply ksum_lub. intros v Hv. apply in_map_iff in Hv as (u & <- & Hu).
          rewrite (ktimes_assoc _ L). specialize (H (p ++ [u])). rewrite dst_app, (pw_app L) in H. cbn [dst pw] in H.
          rewrite (ktimes_1_r _ L) in H. apply H. apply is_path_app. simpl. auto. }
      induction j as [|j IH]; intros p Hp.
      - rewrite !tot_0. eapply kle_trans; [apply (St none none); auto|].
        + intros p' _. unfold none. rewrite (ktimes_0_r _ L). apply kle_refl.
        + unfold none at 2. rewrite (kplus_0_r L). apply kle_refl.
      - rewrite !tot_S. eapply kle_trans; [apply (St (tot m1 j) (tot m1 j)); auto|]. apply kle_lub; [apply kle_refl|].
        rewrite <- tot_S. apply tot_mono; auto.
    Qed.

    Lemma rep_above j : vle (tot m j) (tot m1 j).
    Proof.
      assert (St : forall V V1 W, vle V V1 -> (forall t, In t (mtrs (em m) s) -> forall x y, kle (wgt t * V1 (ns t) x y) (W s x y)) ->
        forall q x y, (q < n)%nat -> kle (step m V q x y) (step m1 V1 q x y + (if Nat.eqb q s then W s x y else 0))).
      { intros V V1 W H Hw q x y Hq. destruct (Nat.eqb_spec q s) as [->|Hne].
        - rewrite step_split. apply kle_plus.
          + eapply kle_trans; [apply (nstep_mono m _ _ In0 H); auto|].
            pose proof (enter V1 x y [] I Hs) as X. cbn [pw dst] in X. rewrite (ktimes_1_l _ L) in X. exact X.
          + apply ksum_lub. intros v Hv. apply in_map_iff in Hv as (t & <- & Ht). eapply kle_trans; [|apply Hw; eauto].
            apply kle_times; [apply kle_refl|]. apply H. exact (em_inside m _ _ In0 Ht).
        - rewrite (kplus_0_r L), (replaced_step _ _ _ _ _ _ _ _ R) by auto. apply step_mono; auto. }
      induction j as [|j IH]; intros q x y Hq.
      - rewrite !tot_0. eapply kle_trans; [apply (St none none none); auto|].
        + apply vle_refl.
        + intros t _ x' y'. unfold none. rewrite (ktimes_0_r _ L). apply kle_refl.
        + unfold none at 2. destruct (Nat.eqb q s); rewrite (kplus_0_r L); apply kle_refl.
      - rewrite !tot_S. eapply kle_trans; [apply (St _ _ (tot m1 j) IH); auto|].
        + intros t Ht x' y'. pose proof (shortcut j x' y' [t] (conj Ht I)) as X. cbn [pw dst] in X. rewrite (ktimes_1_r _ L) in X. exact X.
        + apply kle_lub; [apply kle_refl|]. destruct (Nat.eqb_spec q s) as [->|]; [|apply kle_0].
          rewrite <- tot_S. apply tot_mono; auto.
    Qed.
  End Rep.
End Eps.
