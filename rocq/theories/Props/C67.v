(** C67: optimize of a sorted acyclic acceptor that may have epsilons; where a known acyclic machine is not minimized. *)
From Coq Require Import List Arith NArith ZArith Bool Lia Permutation Sorted.
From Verif Require Import Base.Util Base.Semiring Base.Machine Base.PathSum Base.PropSpec Base.Instances Base.TropZ Model.Props Model.AlgoProps Model.VectorFst Model.History
  Model.Dfs Model.TrOps Model.BiMap Model.Lazy Model.Rational Model.Weights Model.Queues Model.RmEpsilon Model.ShortestDistance Model.Determinize Model.Reweight Model.Encode Model.ComputeProps Model.Minimize Model.Gallic Model.MinTransducer Model.DetTransducer Model.Optimize.
From Verif Require Import Proofs.PropsFacts Proofs.VectorFacts Proofs.VectorProps Proofs.HistoryFacts Proofs.TrOpsFacts Proofs.OpFacts Proofs.ReverseDist Proofs.AutoQueueFacts Proofs.SdLive Proofs.RmEpsFacts Proofs.RmEpsBits
  Proofs.ConnectFacts Proofs.ClosedB Proofs.MinFacts Proofs.EncMin Proofs.PushLabels
  Props.C06 Props.C11 Props.C16 Props.C18 Props.C37 Props.C38 Props.C43 Props.C45 Props.C46 Props.C58 Props.C61 Props.C62.
Import ListNotations.
Local Open Scope K_scope.

(** ** Acceptors without epsilons *)
Section Free.
  Context {K : SR} (L : sr_laws K).
  Definition same_word (x y : list nat) : bool := if list_eq_dec Nat.eq_dec x y then negb (existsb (Nat.eqb O) x) else false.
  Lemma free_wt (m : machine K) : eps_free m -> is_acceptor m -> forall n s x y, wt m n s x y = if Nat.eqb n (length x) && same_word x y then spell m s x else 0.
  Proof.
    intros EF AC. induction n as [|n IH]; intros s x y; cbn [wt].
    - destruct x as [|a x], y as [|b y]; cbn; auto.
    - destruct x as [|a x].
      + cbn. apply (ksum_map_zero L). intros t Ht. unfold strip. destruct (Nat.eqb_spec (il t) 0) as [E|]; auto. exfalso. apply (EF s t Ht E).
      + destruct (Nat.eqb (S n) (length (a :: x)) && same_word (a :: x) y) eqn:G.
        * apply andb_prop in G as [G1 G2]. unfold same_word in G2. destruct (list_eq_dec Nat.eq_dec (a :: x) y) as [<-|]; [|discriminate].
          cbn [existsb] in G2. destruct (Nat.eqb_spec O a) as [|Ha]; [discriminate|]. cbn [orb] in G2. cbn [spell]. rewrite (ksum_filter L). apply ksum_map_ext. intros t Ht.
          rewrite (AC s t Ht). unfold strip. destruct (Nat.eqb_spec (il t) 0) as [E|]; [exfalso; apply (EF s t Ht E)|]. rewrite (Nat.eqb_sym (il t) a).
          destruct (Nat.eqb a (il t)); auto. rewrite IH. cbn [length] in G1. unfold same_word. destruct (list_eq_dec Nat.eq_dec x x); [|congruence]. rewrite G2.
          change (Nat.eqb (S n) (S (length x))) with (Nat.eqb n (length x)) in G1. rewrite G1. auto.
        * apply (ksum_map_zero L). intros t Ht. rewrite (AC s t Ht). unfold strip. destruct (Nat.eqb_spec (il t) 0) as [E|E]; [exfalso; apply (EF s t Ht E)|].
          destruct (Nat.eqb_spec a (il t)) as [Ea|]; auto. destruct y as [|b y]; auto. destruct (Nat.eqb_spec b (il t)) as [Eb|]; auto.
          rewrite IH. assert (Nat.eqb n (length x) && same_word x y = false) as ->; [|apply (ktimes_0_r _ L)].
          destruct (Nat.eqb n (length x)) eqn:G1; auto. cbn [andb]. change (Nat.eqb (S n) (length (a :: x))) with (Nat.eqb n (length x)) in G. rewrite G1 in G. cbn [andb] in G.
          unfold same_word in *. destruct (list_eq_dec Nat.eq_dec x y) as [<-|]; auto. destruct (list_eq_dec Nat.eq_dec (a :: x) (b :: x)) as [_|N]; [|congruence].
          cbn [existsb] in G. destruct (Nat.eqb_spec O a); [congruence|]. auto.
  Qed.
  Lemma free_sums (m : machine K) : eps_free m -> is_acceptor m -> forall x y k, (length x <= k)%nat -> sums m x y k = if same_word x y then spelled m x else 0.
  Proof.
    intros EF AC x y k Hk. unfold sums, rel, spelled. destruct (mstart m) as [s|].
    - rewrite (ksum_map_ext _ (fun j => if Nat.eqb j (length x) then (if same_word x y then spell m s x else 0) else 0)).
      2:{ intros j _. rewrite (free_wt m EF AC). destruct (Nat.eqb j (length x)), (same_word x y); auto. }
      etransitivity; [|apply (SdFacts.ksum_pick L (fun _ => if same_word x y then spell m s x else 0) (length x) (S k)); lia].
      apply ksum_map_ext. intros j _. rewrite (Nat.eqb_sym j). auto.
    - rewrite (ksum_map_zero L) by auto. destruct (same_word x y); auto.
  Qed.
  Lemma spell_zero (m : machine K) : eps_free m -> forall u s, In O u -> spell m s u = 0.
  Proof.
    intros EF. induction u as [|a u IH]; intros s; [intros []|]; intros [->|H]; cbn [spell]; apply (ksum_map_zero L); intros t Ht; apply filter_In in Ht as [Ht E].
    - apply Nat.eqb_eq in E. exfalso. apply (EF s t Ht E).
    - rewrite IH by auto. apply (ktimes_0_r _ L).
  Qed.
  (** The totals tell the language. *)
  Lemma sums_spelled (m p : machine K) : eps_free m -> is_acceptor m -> eps_free p -> is_acceptor p ->
    (forall x y v, settles (sums p x y) v -> settles (sums m x y) v) -> forall u, spelled m u = spelled p u.
  Proof.
    intros E1 A1 E2 A2 H u. destruct (existsb (Nat.eqb O) u) eqn:Z.
    - apply existsb_exists in Z as (a & Ha & E). apply Nat.eqb_eq in E. subst a. unfold spelled.
      destruct (mstart m), (mstart p); rewrite ?spell_zero by auto; auto.
    - assert (SW : same_word u u = true) by (unfold same_word; destruct (list_eq_dec Nat.eq_dec u u); [rewrite Z; auto|congruence]).
      assert (Sp : settles (sums p u u) (spelled p u)) by (exists (length u); intros j Hj; rewrite (free_sums p E2 A2), SW by auto; auto).
      destruct (H u u _ Sp) as (k & Hk). specialize (Hk (Nat.max k (length u)) (Nat.le_max_l _ _)). rewrite (free_sums m E1 A1), SW in Hk by lia. auto.
  Qed.
End Free.

(** ** Epsilon removal with more fuel *)
Lemma rm_epsilon_more {K : SR} idem pathp fuel (f : vfst K) R : rm_epsilon idem pathp true fuel f = Some R ->
  forall fuel', (fuel <= fuel')%nat -> rm_epsilon idem pathp true fuel' f = Some R.
Proof.
  intros E fuel' H. unfold rm_epsilon, rm_epsilon_with in *. destruct (auto_queue_new _ _ _ _ _); auto. destruct (vstart f); auto.
  destruct (noneps_in f _); auto. destruct (rm_order f); auto.
  destruct (rm_states code_queue true pathp fuel _ _ _ _) as [X|] eqn:E1; [|discriminate].
  rewrite (states_mono code_queue f pathp fuel fuel' _ _ H _ _ _ E1). auto.
Qed.

Section Main.
  Context {K K' : SR} (L : sr_laws K) (LK' : sr_laws K').
  Context (rv : K -> K') (rb : K' -> K).
  Context (rv_0 : rv 0 = 0) (rv_1 : rv 1 = 1) (rv_plus : forall a b, rv (a + b) = rv a + rv b)
    (rv_times : forall a b, rv (a * b) = rv b * rv a) (rb_rv : forall a, rb (rv a) = a) (rv_rb : forall a, rv (rb a) = a).
  Context (divide : K -> K -> divide_type -> res K) (Dv : divides_exactly divide) (Wd : weakly_divisible K) (ZF : zero_free K).
  Context (wlt : K -> K -> bool) (orc : nat -> nat) (quantm : K -> K) (W : tells_apart wlt) (quant_id : forall w, quantm w = w).
  Context (idem pathp : bool) (comm : forall a b : K, a * b = b * a) (cancel : forall a b c : K, a <> 0 -> a * b = a * c -> b = c).
  Implicit Types f g p r : vfst K.
  Context (quantd : K -> K) (ord : dtuple K -> nat -> list (nat * K) -> list (nat * K))
    (ordg : dtuple (gallicSR K) -> nat -> list (nat * gallicSR K) -> list (nat * gallicSR K)).
  Context (DX : exact_division (fun a b => divide a b DivideLeft) quantd) (DA : divides_always (fun a b => divide a b DivideLeft)) (HO : any_order ord).
  Notation OPT fuel := (optimize rv rb wlt divide quantd quantm idem pathp true true orc ord ordg fuel).

  (** What a caller gets. The weight of a pair is the sum over all its paths, however many epsilons they take. *)
  Record smallest f r : Prop := Smallest {
    sm_closed : closed r; sm_cnt : cnt r; sm_bits : fsound r;
    sm_acceptor : is_acceptor (mach r);
    sm_det : deterministic (mach r);
    sm_trim : forall s, (s < num_states r)%nat -> accessible (mach r) s /\ coaccessible (mach r) s;
    sm_rel : forall x y, exists v, settles (sums (mach f) x y) v /\ settles (sums (mach r) x y) v;
    sm_min : forall m n, has_states m n -> deterministic m -> eps_free m -> is_acceptor m ->
      (forall x y v, settles (sums (mach f) x y) v -> settles (sums m x y) v) -> (num_states r <= n)%nat;
    sm_tabs : visymt r = visymt f /\ vosymt r = vosymt f }.

  (** What is asked of the machine: an acceptor whose transitions lead to higher states and whose bits say so, that
      accepts something. Its epsilons are not restricted. *)
  Record sorted_acceptor f : Prop := SortedAcceptor {
    sa_closed : closed f; sa_cnt : cnt f; sa_bits : fsound f; sa_acc : has (vprops f) ACCEPTOR = true;
    sa_sorted : has (vprops f) TOP_SORTED = true; sa_acyc : has (vprops f) ACYCLIC = true;
    sa_nz : no_zeros (mach f); sa_lang : exists n x y, rel (mach f) n x y <> 0 }.

  Lemma settles_unique (F : nat -> K) a b : settles F a -> settles F b -> a = b.
  Proof. intros (k & H) (j & G). rewrite <- (H (Nat.max k j) (Nat.le_max_l _ _)). apply G. lia. Qed.

  Lemma optimal_smallest f g r : (forall x y, exists v, settles (sums (mach f) x y) v /\ settles (sums (mach g) x y) v) ->
    eps_free (mach g) -> is_acceptor (mach g) -> visymt g = visymt f -> vosymt g = vosymt f -> optimal g r -> smallest f r.
  Proof.
    intros RL EF AC V1 V2 [O1 O2 O3 O4 O5 O6 O7 O8 [O9 O10]]. constructor; auto.
    - intros x y. destruct (RL x y) as (v & A & k & B). exists v. split; auto. exists k. intros j Hj. rewrite <- (B j Hj). unfold sums. apply ksum_map_ext. auto.
    - intros m n M D E A H. apply (O8 m n M D). apply (sums_spelled L); auto.
      intros x y v Hv. apply H. destruct (RL x y) as (w & A' & B'). rewrite (settles_unique _ _ _ Hv B'). auto.
    - split; congruence.
  Qed.

  Theorem C67_optimize_epsilons : forall f, sorted_acceptor f -> exists N, forall fuel, (N <= fuel)%nat -> exists r, OPT fuel f = Some (Ok r) /\ smallest f r.
  Proof.
    intros f [C N So HA HT HC NZ (n0 & x0 & y0 & Lf)].
    assert (St : vstart f <> None) by (intros E; apply Lf; unfold rel; cbn; rewrite E; auto).
    assert (OPTZ : forall g, optimizable g -> exists N, forall fuel, (N <= fuel)%nat -> exists r, OPT fuel g = Some (Ok r) /\ optimal g r)
      by (apply (C62_optimize L LK' rv rb); auto).
    assert (EA : forall g, fsound g -> has (vprops g) ACCEPTOR = true -> has (vprops g) NO_EPSILONS = true -> eps_free (mach g) /\ is_acceptor (mach g)).
    { intros g Sg BA BE. assert (A : is_acceptor (mach g)) by (intros s t Ht; symmetry; apply (Sg ACCEPTOR BA s t Ht)).
      split; auto. intros s t Ht E0. apply (Sg NO_EPSILONS BE s t Ht). split; auto. rewrite (A s t Ht). auto. }
    destruct (has (vprops f) NO_EPSILONS) eqn:HE.
    - destruct (OPTZ f) as (N1 & H1); [constructor; auto|]. exists N1. intros fuel Hf. destruct (H1 fuel Hf) as (r & E & O). exists r. split; auto.
      destruct (EA f So HA HE) as [E1 A1]. apply (optimal_smallest f f); auto. intros x y. exists (if same_word x y then spelled (mach f) x else 0).
      split; exists (length x); intros j Hj; apply (free_sums L); auto.
    - assert (Acy : forall s, ~ on_cycle (mach f) s) by exact (So ACYCLIC HC).
      assert (Ka : kept_acyclic f epsilon_filter).
      { intros s (t & Ht & R). apply (Acy s). exists t. cbn in Ht. apply filter_In in Ht as [Ht _]. split; auto.
        revert R. apply reach_mono. intros q. cbn. apply incl_filter. }
      assert (Rm : removable f).
      { split; [exact ZF|]. split; [intros s t Ht _; apply (proj1 NZ s t Ht)|]. split; [|auto].
        intros s t Ht _ En. exfalso. apply (Acy s). exists t. split; auto. rewrite En. apply reach_refl. }
      destruct (rm_epsilon_any_stops L f idem pathp N C (fun _ => Acy) Rm (or_intror Ka)) as (N1 & R & E1).
      destruct (rm_epsilon_any L f idem pathp N1 R N C (fun _ => Acy) Rm E1) as (g & -> & RL & _ & Sg). specialize (Sg So).
      destruct (rm_epsilon_sorted L f idem pathp N1 g ZF C N St So HA HT HC NZ E1) as (Cg & Ng & Wg & BA & BC & BE & V1 & V2).
      assert (Sg0 : vstart g <> None).
      { intros E. destruct (RL x0 y0) as (v & (k & A) & (j & B)). assert (v = 0) as ->.
        { rewrite <- (B j (le_n _)). unfold sums. apply (ksum_map_zero L). intros i _. unfold rel. cbn. rewrite E. auto. }
        apply (RmEpsBits.ksum_nonzero L ZF (map (fun i => rel (mach f) i x0 y0) (seq O (S (Nat.max k n0)))) (rel (mach f) n0 x0 y0)); auto.
        - apply (in_map (fun i => rel (mach f) i x0 y0)). apply in_seq. lia.
        - apply (A (Nat.max k n0)). lia. }
      destruct (OPTZ g) as (N2 & H2); [constructor; auto|].
      exists (Nat.max N1 N2). intros fuel Hf. destruct (H2 fuel ltac:(lia)) as (r & E & O). exists r. split.
      + rewrite <- E. unfold optimize. rewrite HA, BA. unfold optimize_acceptor, opt_prepare. rewrite HE, BE, (rm_epsilon_more _ _ _ _ _ E1 fuel ltac:(lia)). reflexivity.
      + destruct (EA g Sg BA BE) as [E2 A2]. apply (optimal_smallest f g); auto.
  Qed.
End Main.
Print Assumptions C67_optimize_epsilons.

(** ** Tropical machines *)
Local Close Scope K_scope.
Theorem C67_tropical : forall f : vfst tropZ, sorted_acceptor f -> exists N, forall fuel, N <= fuel -> exists r, z_opt fuel f = Some (Ok r) /\ smallest f r.
Proof.
  apply (C67_optimize_epsilons tropZ_laws tropZ_laws (fun w => w) (fun w => w)); eauto using z_divides, z_weakly, trop_zero_free, z_apart, z_cancel, tropZ_comm.
  - exact trop_exact.
  - exact trop_always.
  - exact idord_ok.
Qed.
Print Assumptions C67_tropical.

(** Two epsilon paths and two transitions on one label: five states in, three states out. *)
Definition c67_ops : list (op tropZ) := [OAddStates 5; OSetStart 0; OAddTr 0 (Tr 0 0 (z 1) 1); OAddTr 0 (Tr 0 0 (z 3) 2); OAddTr 0 (Tr 1 1 (z 5) 3);
  OAddTr 1 (Tr 1 1 (z 1) 3); OAddTr 2 (Tr 1 1 (z 2) 4); OAddTr 3 (Tr 0 0 (z 2) 4); OAddTr 3 (Tr 2 2 (z 1) 4); OSetFinal 4 (z 0)].
Definition c67_f : vfst tropZ := with_bits (z_of c67_ops).
Example C67_witness : sorted_acceptor c67_f /\ has (vprops c67_f) NO_EPSILONS = false /\
  exists r, z_opt 60 c67_f = Some (Ok r) /\ num_states r = 3 /\
  map (fun s => (map (fun t => (il t, wgt t, ns t)) (trs_of r s), fin_of r s)) [0; 1; 2] =
    [([(1, z 3, 1)], None); ([(2, z 0, 2)], Some (z 1)); ([], Some (z 0))].
Proof.
  assert (R : run vnew c67_ops = Ok (z_of c67_ops)) by (vm_compute; reflexivity).
  assert (NF : no_zero_final (z_of c67_ops)).
  { assert (Z : no_zeros (mach (z_of c67_ops))) by (apply (no_zerosb_ok tropZ_laws); vm_compute; reflexivity). intros q w. apply (proj2 Z q w). }
  split; [|split].
  - destruct (with_bits_ok tropZ_laws (z_of c67_ops)) as [C S]; auto.
    + apply closedb_ok; vm_compute; reflexivity.
    + eapply (run_fsound tropZ_laws); [apply fsound_new| |exact R]. vm_compute; tauto.
    + vm_compute. discriminate.
    + constructor; auto; try (vm_compute; reflexivity).
      * apply with_bits_cnt. eapply (run_cnt tropZ_laws); [|exact R]. constructor.
      * apply (no_zerosb_ok tropZ_laws). vm_compute. reflexivity.
      * exists 3, [1], [1]. vm_compute. discriminate.
  - vm_compute. reflexivity.
  - exists (c38_out vnew (z_opt 60 c67_f)). repeat match goal with |- _ /\ _ => split end; vm_compute; reflexivity.
Qed.

(** ** Where the claim fails *)
(** Both machines are known to be acyclic acceptors; they differ in the numbering of three states. Installing the
    closures keeps [ACYCLIC] only together with [TOP_SORTED], so the second is sent down the route for cycles with its
    weights encoded, and comes back with two transitions on one label. *)
Definition c67_sorted : list (op tropZ) := [OAddStates 4; OSetStart 0; OAddTr 0 (Tr 0 0 (z 1) 1); OAddTr 0 (Tr 1 1 (z 3) 3); OAddTr 1 (Tr 1 1 (z 1) 2);
  OAddTr 2 (Tr 2 2 (z 1) 3); OSetFinal 3 (z 0)].
Definition c67_unsorted : list (op tropZ) := [OAddStates 4; OSetStart 0; OAddTr 0 (Tr 0 0 (z 1) 3); OAddTr 0 (Tr 1 1 (z 3) 1); OAddTr 3 (Tr 1 1 (z 1) 2);
  OAddTr 2 (Tr 2 2 (z 1) 1); OSetFinal 1 (z 0)].
Fixpoint distinctb (l : list nat) : bool := match l with [] => true | a :: l' => negb (existsb (Nat.eqb a) l') && distinctb l' end.
Definition deterministicb {K : SR} (f : vfst K) : bool := forallb (fun st => distinctb (map il (vtrs st))) (vstates f).
Lemma distinctb_ok l : distinctb l = true <-> NoDup l.
Proof.
  induction l as [|a l IH]; cbn; [split; auto; constructor|]. rewrite andb_true_iff, negb_true_iff, IH, NoDup_cons_iff.
  assert (X : existsb (Nat.eqb a) l = true <-> In a l).
  { rewrite existsb_exists. split; [intros (b & H & E); apply Nat.eqb_eq in E; congruence|]. intros H. exists a. split; auto. apply Nat.eqb_refl. }
  destruct (existsb (Nat.eqb a) l); intuition congruence.
Qed.
Lemma deterministicb_ok {K : SR} (f : vfst K) : deterministicb f = true <-> deterministic (mach f).
Proof.
  unfold deterministicb. rewrite forallb_forall. split.
  - intros H s. cbn [mach mtrs]. unfold trs_of. destruct (nth_error (vstates f) s) as [st|] eqn:E; [|constructor]. apply distinctb_ok, H. eapply nth_error_In; eauto.
  - intros D st Hs. apply distinctb_ok. apply In_nth_error in Hs as (s & Hs). specialize (D s). cbn [mach mtrs] in D. unfold trs_of in D. rewrite Hs in D. auto.
Qed.
Theorem C67_unsorted_refuted : exists (f f' : vfst tropZ) r r', f = with_bits (z_of c67_sorted) /\ f' = with_bits (z_of c67_unsorted) /\
  closed f' /\ fsound f' /\ has (vprops f') ACCEPTOR = true /\ has (vprops f') ACYCLIC = true /\ no_zeros (mach f') /\
  z_opt 60 f = Some (Ok r) /\ z_opt 60 f' = Some (Ok r') /\ deterministic (mach r) /\ ~ deterministic (mach r').
Proof.
  assert (R : run vnew c67_unsorted = Ok (z_of c67_unsorted)) by (vm_compute; reflexivity).
  assert (Z : no_zeros (mach (z_of c67_unsorted))) by (apply (no_zerosb_ok tropZ_laws); vm_compute; reflexivity).
  destruct (with_bits_ok tropZ_laws (z_of c67_unsorted)) as [C S].
  - apply closedb_ok; vm_compute; reflexivity.
  - eapply (run_fsound tropZ_laws); [apply fsound_new| |exact R]. vm_compute; tauto.
  - vm_compute. discriminate.
  - intros q w. apply (proj2 Z q w).
  - exists (with_bits (z_of c67_sorted)), (with_bits (z_of c67_unsorted)), (c38_out vnew (z_opt 60 (with_bits (z_of c67_sorted)))), (c38_out vnew (z_opt 60 (with_bits (z_of c67_unsorted)))).
    split; [reflexivity|]. split; [reflexivity|]. split; [exact C|]. split; [exact S|]. split; [vm_compute; reflexivity|]. split; [vm_compute; reflexivity|].
    split; [apply (no_zerosb_ok tropZ_laws); vm_compute; reflexivity|]. split; [vm_compute; reflexivity|]. split; [vm_compute; reflexivity|].
    split; [apply deterministicb_ok; vm_compute; reflexivity|]. rewrite <- deterministicb_ok. vm_compute. discriminate.
Qed.
Print Assumptions C67_unsorted_refuted.

(** A machine that accepts nothing loses all its states. *)
Example C67_empty_test : exists r, z_opt 60 (with_bits (z_of [OAddStates 2; OSetStart 0; OAddTr 0 (Tr 0 0 (z 1) 1)])) = Some (Ok r) /\ num_states r = 0.
Proof. eexists. split; vm_compute; reflexivity. Qed.
