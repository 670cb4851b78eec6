(** All states replaced by their epsilon closure at once. *)
From Coq Require Import List Arith Bool Lia.
From Verif Require Import Base.Util Base.Semiring Base.Machine Base.PathSum Model.Dfs Proofs.SdFacts Proofs.EpsFacts.
Import ListNotations.
Local Open Scope K_scope.

Section Lazy.
  Context {K : SR} (L : sr_laws K) (n : nat) (m m1 : machine K) (D : nat -> nat -> K) (k0 : nat).
  Notation weights := (nat -> list nat -> list nat -> K).
  Hypothesis In0 : inside n m.
  Hypothesis In1 : inside n m1.
  Hypothesis Dk : forall s j q, (s < n)%nat -> (k0 <= j)%nat -> upto (em m) j s q = D s q.
  Hypothesis St : forall s V x y, (s < n)%nat -> step m1 V s x y = ksum (map (fun q => D s q * nstep m V q x y) (seq O n)).

  Lemma step_clo s V x y k : (s < n)%nat -> (k0 <= k)%nat -> step m1 V s x y = clo n m k s (fun q => nstep m V q x y).
  Proof. intros Hs Hk. rewrite St by auto. unfold clo. apply ksum_map_ext. intros q _. rewrite <- (Dk s k q Hs Hk). auto. Qed.

  Lemma solves_all V : (forall a, (a < n)%nat -> low m n a) -> solves n m V -> solves n m1 V.
  Proof.
    intros Lo So s x y Hs. rewrite (step_clo s V x y (n + k0)) by (auto; lia).
    apply (lin_clo L n m (fun q => nstep m V q x y) (fun q => V q x y) In0) with (h := n); auto; [|lia].
    intros q Hq. rewrite (So q x y Hq) at 1. apply (step_split L).
  Qed.

  Hypothesis Id : idempotent_plus K.

  Lemma all_below j : vle n (tot m1 j) (tot m (S j * (2 + k0))).
  Proof.
    induction j as [|j IH]; intros s x y Hs.
    - rewrite (tot_0 L), (step_clo s _ x y k0) by auto.
      eapply (kle_trans L); [|apply (tot_mono L n Id m (S O + k0)); [lia|auto]].
      eapply (kle_trans L); [|apply (clo_below L n Id m O x y In0 k0 s Hs)].
      apply (kle_ksum L Id). intros q Hq. apply in_seq in Hq. apply (kle_times L); [apply (kle_refl Id)|].
      apply (nstep_mono L n Id m none (tot m O) In0 (none_least L n _)). lia.
    - rewrite (tot_S L), (step_clo s _ x y k0) by auto.
      eapply (kle_trans L); [|apply (tot_mono L n Id m (S (S j * (2 + k0)) + k0)); [lia|auto]].
      eapply (kle_trans L); [|apply (clo_below L n Id m (S j * (2 + k0)) x y In0 k0 s Hs)].
      apply (kle_ksum L Id). intros q Hq. apply in_seq in Hq. apply (kle_times L); [apply (kle_refl Id)|].
      apply (nstep_mono L n Id m _ _ In0 IH). lia.
  Qed.

  Lemma nstep_all V s x y : (s < n)%nat -> kle (nstep m V s x y) (step m1 V s x y).
  Proof.
    intros Hs. rewrite St by auto. eapply (kle_trans L); [|apply (ksum_upper_map L Id) with (x := s); apply in_seq; lia].
    rewrite <- (ktimes_1_l _ L (nstep m V s x y)) at 1. apply (kle_times L); [|apply (kle_refl Id)].
    rewrite <- (Dk s (S k0) s Hs) by lia. rewrite (upto_left L). unfold unit_at. rewrite Nat.eqb_refl. apply (kle_l L Id).
  Qed.

  Lemma eps_all V s t x y : (s < n)%nat -> In t (mtrs (em m) s) -> kle (wgt t * step m1 V (ns t) x y) (step m1 V s x y).
  Proof.
    intros Hs Ht. assert (Hn : (ns t < n)%nat) by exact (em_inside n m _ _ In0 Ht). rewrite !St by auto.
    rewrite (ksum_times_l L). rewrite map_map. apply (kle_ksum L Id). intros q _. rewrite (ktimes_assoc _ L). apply (kle_times L); [|apply (kle_refl Id)].
    rewrite <- (Dk s (S k0) q Hs), <- (Dk (ns t) k0 q Hn) by lia. rewrite (upto_left L).
    eapply (kle_trans L); [|apply (kle_r L Id)].
    apply (ksum_upper_map L Id (fun t : tr K => wgt t * upto (em m) k0 (ns t) q)). auto.
  Qed.

  Lemma all_above j : vle n (tot m j) (tot m1 j).
  Proof.
    induction j as [|j IH]; intros s x y Hs.
    - rewrite !(tot_0 L), (step_split L).
      rewrite (ksum_map_zero L (fun t => wgt t * none (ns t) x y)) by (intros; apply (ktimes_0_r _ L)).
      rewrite (kplus_0_r L). apply nstep_all. auto.
    - rewrite !(tot_S L), (step_split L).
      assert (A : kle (nstep m (tot m j) s x y) (step m1 (tot m1 j) s x y)).
      { eapply (kle_trans L); [apply (nstep_mono L n Id m _ _ In0 IH); auto|]. apply nstep_all; auto. }
      apply (kle_lub L); auto. apply (ksum_lub L). intros z Hz. apply in_map_iff in Hz as (t & <- & Ht).
      assert (Hn : (ns t < n)%nat) by exact (em_inside n m _ _ In0 Ht).
      eapply (kle_trans L); [apply (kle_times L); [apply (kle_refl Id)|apply (IH (ns t) x y Hn)]|].
      eapply (kle_trans L) with (b := wgt t * step m1 (tot m1 j) (ns t) x y); [|apply eps_all; auto].
      apply (kle_times L); [apply (kle_refl Id)|]. rewrite <- (tot_S L). apply (tot_mono L n Id m1 j); auto.
  Qed.
End Lazy.
