(** Building the machine of a composition over any filter. *)
From Coq Require Import List Arith NArith Bool Lia Sorted.
From Verif Require Import Base.Util Base.Semiring Base.Machine Model.Props Model.VectorFst Model.TrOps Model.Rational Model.Matchers
  Model.BiMap Model.Lazy Model.AlgoProps Model.Visitors Model.Compose Model.IntervalSet Model.Reachable Model.LabelReach Model.LookAhead.
From Verif Require Import Proofs.PropsFacts Proofs.VectorFacts Proofs.TrOpsFacts Proofs.HistoryFacts Proofs.OpFacts
  Proofs.BiMapFacts Proofs.LazyFacts Proofs.TableFacts Proofs.ComposeFacts Proofs.LookFacts Proofs.LookAlt.
From Verif Require Import Props.C06 Props.C19 Props.C20.
Import ListNotations.

Local Open Scope K_scope.
Section Build.
  Context {K : SR} (L : lsr_laws K) {FS E : Type} (F : cflt K FS E).
  Context (eqb : FS -> FS -> bool) (eqb_spec : forall a b, reflect (a = b) (eqb a b)).
  Context (f1 f2 : vfst K) (mt : mtype) (MT : compose_match_type f1 f2 = Ok mt).
  Context (U : gtuple FS -> Prop).
  Context (Ustart : forall s1 s2, vstart f1 = Some s1 -> vstart f2 = Some s2 -> U (cf_start F, s1, s2)).
  Context (Utrs : forall t, U t -> exists l, gcompute_trs F mt f1 f2 t = Ok l /\ forall u, In u l -> U (tn u)).
  Context (Ufin : forall t, U t -> exists w, gcompute_final F f1 f2 t = Ok w).
  Context (univ : list (gtuple FS)) (HU : forall t, U t -> In t univ).

  Lemma gtuple_eqb_spec a b : reflect (a = b) (gtuple_eqb eqb a b).
  Proof.
    destruct a as [[a1 a2] a3], b as [[b1 b2] b3]. unfold gtuple_eqb. cbn [fst snd].
    destruct (eqb_spec a1 b1); destruct (Nat.eqb_spec a2 b2); destruct (Nat.eqb_spec a3 b3); cbn; constructor; congruence.
  Qed.

  Theorem gcompose_gen props fuel : (length univ <= fuel)%nat ->
    exists g, gcompose F eqb props fuel f1 f2 = Some (Ok g) /\ cnt g /\ closed g /\
      (forall k x z, rel (mach g) k x z = both_starts f1 f2 0 (fun s1 s2 => G f1 f2 F mt k (cf_start F, s1, s2) x z)) /\
      (vstart f1 <> None -> vstart f2 <> None -> visymt g = visymt f1 /\ vosymt g = vosymt f2).
  Proof.
    intros Hf. unfold gcompose. rewrite MT.
    assert (US : forall t, gcompute_start F f1 f2 = Ok (Some t) -> U t).
    { intros t. unfold gcompute_start. destruct (vstart f1) as [s1|]; [|discriminate]. destruct (vstart f2) as [s2|]; [|discriminate]. intros [= <-]. auto. }
    assert (UT : forall t l u, U t -> gcompute_trs F mt f1 f2 t = Ok l -> In u l -> U (tn u)).
    { intros t l u Ht El Hu. destruct (Utrs t Ht) as (l' & El' & Q). apply Q. congruence. }
    assert (LT : forall t, U t -> exists l, gcompute_trs F mt f1 f2 t = Ok l).
    { intros t Ht. destruct (Utrs t Ht) as (l' & El' & _). eauto. }
    assert (LS : exists o, gcompute_start F f1 f2 = Ok o).
    { unfold gcompute_start. destruct (vstart f1); [|eauto]. destruct (vstart f2); eauto. }
    pose proof (table_spec (gtuple_eqb eqb) gtuple_eqb_spec _ _ (gcompute_final F f1 f2) props U US UT) as SP.
    pose proof (table_live (gtuple_eqb eqb) _ _ (gcompute_final F f1 f2) props U US LS LT Ufin) as LV.
    fold (gcompose_op F eqb props mt f1 f2) in SP, LV.
    assert (Z : zok map_cache_ops map_inv (tI (gtuple_eqb eqb) U) (tS (gcompute_start F f1 f2)) (tT (gcompute_trs F mt f1 f2))
      (tF (gcompute_final F f1 f2)) (bm_new, map_cache_new)).
    { apply zok_empty; [apply tI_new|apply map_cache_empty]. }
    destruct (compute_total (gcompose_op F eqb props mt f1 f2) map_cache_ops map_inv _ _ _ _ _ map_cache_laws SP _ LV
      (length univ) (table_bound (gtuple_eqb eqb) U univ HU) fuel (visymt f1) (vosymt f2) _ Z Hf) as ((g & z') & Eg).
    rewrite Eg.
    destruct (compute_ok (gcompose_op F eqb props mt f1 f2) map_cache_ops map_inv _ _ _ _ _ map_cache_laws SP
      fuel (visymt f1) (vosymt f2) _ g z' Z Eg) as (_ & _ & BU & SY).
    pose proof BU as (Cg & Dg & BS). exists g. split; auto. split; auto. split; auto. split.
    - intros k x z. rewrite (built_rel _ _ _ _ g BU). unfold grel, both_starts, gcompute_start.
      destruct (vstart f1) as [s1|] eqn:E1; auto. destruct (vstart f2) as [s2|] eqn:E2; auto.
    - intros N1 N2. assert (N : vstart g <> None).
      { intros N. rewrite N in BS. destruct BS as [_ BS]. cbn in BS. unfold gcompute_start in BS.
        destruct (vstart f1); [|congruence]. destruct (vstart f2); [|congruence]. discriminate. }
      destruct (SY N) as (A & B & _). auto.
  Qed.
End Build.

(** What the alternate sequence filter computes, in terms of paths. *)
Section Sum.
  Context {K : SR} (L : lsr_laws K) (comm : commutative_times K).
  Context (f1 f2 : vfst K) (mt : mtype).
  Context (C1 : cnt f1) (C2 : cnt f2) (D1 : closed f1) (D2 : closed f2) (M : mt_ok mt f1 f2).
  Lemma B_sum k x z : both_starts f1 f2 0 (fun s1 s2 => B f1 f2 mt k (O, s1, s2) x z) = sum_pairs f1 f2 k x z (once AltSequenceF k).
  Proof.
    transitivity (sum_pairs f1 f2 k x z (fun p1 p2 => both_starts f1 f2 (fun w => w) (fun s1 s2 => nmul (ways AltSequenceF f1 f2 k 0 s1 s2 p1 p2)))).
    - unfold sum_pairs, both_starts. destruct (vstart f1) as [s1|] eqn:E1; auto. destruct (vstart f2) as [s2|] eqn:E2; auto. rewrite B_gwt.
      rewrite (gwt_pairs L AltSequenceF f1 f2 comm mt C1 C2 D1 D2 M k (S k) (S k)); [|lia|lia|apply D1; auto|apply D2; auto].
      rewrite (upto_sum L). apply ksum_map_ext. intros p1 _. rewrite (upto_sum L). apply ksum_map_ext. intros p2 _. reflexivity.
    - apply sum_pairs_ext. intros s1 s2 p1 p2 E1 E2 P1 P2. unfold both_starts. rewrite E1, E2. unfold once.
      transitivity (nmul (b2n (leqb (olabs p1) (ilabs p2) && Nat.eqb (span AltSequenceF p1 p2) k)) (apw (mach f1) s1 p1 * apw (mach f2) s2 p2)).
      + apply (accepting L); auto. intros A1 A2. cbn [span]. rewrite (Nat.eqb_sym _ k). rewrite ways_alt by (auto; lia). unfold alt_ok. cbn [Nat.eqb orb]. rewrite andb_true_r. auto.
      + apply (nmul_b2n L).
  Qed.
End Sum.
