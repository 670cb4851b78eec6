(** Epsilon closures of all states of the unchanged machine: the relation stays the same. *)
From Coq Require Import List Arith NArith Bool Lia.
From Verif Require Import Base.Util Base.Semiring Base.Machine Base.PathSum Base.PropSpec
  Model.Props Model.VectorFst Model.Dfs Model.Rational Model.Queues Model.ShortestDistance Model.RmEpsilon
  Proofs.VectorFacts Proofs.VectorProps Proofs.TrOpsFacts Proofs.HistoryFacts Proofs.SdFacts Proofs.SdRun Proofs.SdLive Proofs.AutoQueueFacts Proofs.ReverseDist Proofs.EpsFacts Proofs.ExpandFacts Proofs.RmEpsFacts Proofs.LazyEps Props.C16.
Import ListNotations.
Local Open Scope K_scope.

Section A.
  Context {K : SR} (L : sr_laws K).
  Notation eps := epsilon_filter.

  Lemma all_closed (f : vfst K) start (m : machine K) : closed f -> vstart f = Some start ->
    idempotent_plus K \/ kept_acyclic f eps -> mstart m = vstart f ->
    (forall s, (s < num_states f)%nat -> exists trs fin D, closure_of f s trs fin D /\ mtrs m s = rev trs /\ fw (mfin m s) = fin) ->
    (forall s, (num_states f <= s)%nat -> mtrs m s = []) ->
    (forall s t, In t (mtrs m s) -> ~ (il t = O /\ ol t = O)) /\
    forall x y, exists v, settles (fun k => ksum (map (fun j => rel (mach f) j x y) (seq O (S k)))) v /\
                          settles (fun k => ksum (map (fun j => rel m j x y) (seq O (S k)))) v.
  Proof.
    intros C Es H Em Y Hb. set (n := num_states f) in *.
    assert (Fe : forall s t, In t (mtrs m s) -> eps t = false /\ (ns t < n)%nat).
    { intros s t Ht. destruct (Nat.lt_ge_cases s n) as [Hs|Hs]; [|rewrite Hb in Ht by auto; destruct Ht].
      destruct (Y s Hs) as (trs & fin & D & (Cl & _) & E & _). rewrite E in Ht. apply in_rev in Ht. destruct (Cl t Ht) as (Et & p & u & Hu & _ & <-).
      split; auto. apply (proj1 C p u Hu). }
    split.
    { intros s t Ht [Hi Ho]. destruct (Fe s t Ht) as [Et _]. unfold eps in Et. rewrite Hi, Ho in Et. discriminate. }
    assert (Z : forall k, (k <= n)%nat -> exists k0, forall s, (s < k)%nat -> forall i j q0, (k0 <= i)%nat -> (k0 <= j)%nat ->
        upto (em (mach f)) i s q0 = upto (em (mach f)) j s q0).
    { induction k as [|k IH]; intros Hk; [exists O; intros; lia|]. destruct IH as (k1 & IH); [lia|].
      destruct (Y k) as (trs & fin & D & (_ & _ & k2 & Hk2) & _); [lia|]. exists (k1 + k2)%nat. intros s Hs i j q0 Hi Hj.
      destruct (Nat.eq_dec s k) as [->|Hne]; [|apply IH; lia].
      transitivity (D q0); [|symmetry]; apply (Hk2 _ q0); lia. }
    destruct (Z n (le_n n)) as (k0 & Z0). set (D := fun s q0 => upto (em (mach f)) k0 s q0).
    assert (Dk : forall s j q0, (s < n)%nat -> (k0 <= j)%nat -> upto (em (mach f)) j s q0 = D s q0).
    { intros s j q0 Hs Hj. apply Z0; auto. }
    assert (St : forall s V x y, (s < n)%nat -> step m V s x y = ksum (map (fun q0 => D s q0 * nstep (mach f) V q0 x y) (seq O n))).
    { intros s V x y Hs. destruct (Y s Hs) as (trs & fin & D' & (_ & Cl & k1 & Hk1) & E1 & E2).
      unfold step, stop. rewrite E1, E2. change (ksum (map (fun t => take t V x y) (rev trs))) with (tsum (rev trs) V x y). rewrite (tsum_rev L), Cl.
      apply ksum_map_ext. intros q0 _. f_equal. rewrite <- (Hk1 (k0 + k1)%nat q0) by lia. apply Dk; auto. lia. }
    assert (In0 : inside n (mach f)) by (intros s t Ht; apply (proj1 C s t Ht)).
    assert (In1 : inside n m) by (intros s t Ht; apply (Fe s t Ht)).
    assert (Hst : (start < n)%nat) by (apply (proj2 C start Es)).
    assert (Pc : forall s t, (s < n)%nat -> In t (mtrs m s) -> (ns t < n)%nat /\ eps t = false) by (intros s t _ Ht; destruct (Fe s t Ht); auto).
    intros x y. set (k1 := (length x + length y)%nat). exists (tot m k1 start x y).
    assert (Rf : forall k, (k1 <= k)%nat -> tot m k start x y = tot m k1 start x y).
    { intros k Hk. apply (free_tot L m (fun s => (s < n)%nat) Pc); auto. }
    split.
    - assert (W : exists j0, forall j, (j0 <= j)%nat -> tot (mach f) j start x y = tot m k1 start x y).
      { destruct H as [Id|Ac].
        - exists (k1 + S k1 * (2 + k0))%nat. intros j Hj. apply (kle_antisym L).
          + rewrite <- (Rf j) by lia. apply (all_above L n (mach f) m D k0 In0 Dk St Id). auto.
          + eapply (kle_trans L); [apply (all_below L n (mach f) m D k0 In0 Dk St Id k1 start x y Hst)|].
            apply (tot_mono L n Id); [lia|auto].
        - pose proof (acyclic_low f f C eq_refl Ac) as Lo.
          pose proof (solves_all L n (mach f) m D k0 In0 Dk St _ Lo (tot_solves L n (mach f) In0 Lo)) as So.
          exists (longest n x y). intros j Hj. rewrite (tot_settled L n (mach f) In0 Lo) by auto.
          apply (free_solution L n m (fun s => (s < n)%nat) (fun s Hs => Hs) Pc _ So); auto. }
      destruct W as (j0 & W). exists j0. intros j Hj. rewrite <- (W j Hj). unfold tot, rel. cbn [mach mstart]. rewrite Es. auto.
    - exists k1. intros j Hj. rewrite <- (Rf j Hj). unfold tot, rel. rewrite Em, Es. auto.
  Qed.
End A.
