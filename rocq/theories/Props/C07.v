(** C07: concat computes the Cauchy product of the two relations. *)
From Coq Require Import List Arith NArith ZArith Bool Lia Permutation.
From Verif Require Import Base.Util Base.Semiring Base.Machine Base.PropSpec Base.Convolution Base.Instances
  Model.Props Model.VectorFst Model.TrOps Model.History Model.Rational
  Proofs.PropsFacts Proofs.VectorFacts Proofs.DelStates Proofs.VectorProps Proofs.TrOpsFacts Proofs.HistoryFacts Proofs.OpFacts Proofs.ConnectFacts Proofs.RationalFacts.
Import ListNotations.
Local Open Scope K_scope.

Section C07.
  Context {K : SR} (L : sr_laws K).
  Implicit Types (f g : vfst K).

  (** An accepting path of the result of [S k] transitions is an accepting path of [f1] of [i]
      transitions, one epsilon step, and an accepting path of [f2] of [k - i] transitions. *)
  Theorem C07_concat :
    forall (f1 f2 : vfst K), closed f1 -> closed f2 ->
    exists g, concat f1 f2 = Ok g /\
      (forall x y, rel (mach g) O x y = 0) /\
      (forall k x y, rel (mach g) (S k) x y =
         ksum (map (fun i =>
           ksum (map (fun cx =>
             ksum (map (fun cy =>
               rel (mach f1) i (fst cx) (fst cy) * rel (mach f2) (k - i)%nat (snd cx) (snd cy))
               (splits y))) (splits x))) (seq 0 (S k)))) /\
      closed g /\ (cnt f1 -> cnt f2 -> cnt g) /\
      visymt g = visymt f1 /\ vosymt g = vosymt f1.
  Proof.
    intros f1 f2 CL1 CL2. pose proof CL1 as [A1 A2]. pose proof CL2 as [B1 B2]. pose (LL := sr_lsr _ L).
    assert (CV : forall k x y,
       ksum (map (fun i => ksum (map (fun cx => ksum (map (fun cy =>
               rel (mach f1) i (fst cx) (fst cy) * rel (mach f2) (k - i)%nat (snd cx) (snd cy))
               (splits y))) (splits x))) (seq 0 (S k))) = conv (rel (mach f1)) (rel (mach f2)) k x y) by reflexivity.
    destruct (vstart f1) as [s1|] eqn:E1.
    - destruct (concat_eff f1 f2 s1 E1) as (g & E & N & (G1 & G2 & G3 & G4) & T & F).
      exists g. split; auto. set (n1 := num_states f1) in *.
      assert (Hs1 : (s1 < n1)%nat) by (apply A2; auto).
      assert (RG : forall k x y, rel (mach g) k x y = shift (conv (rel (mach f1)) (rel (mach f2))) k x y).
      { intros k x y. unfold rel at 1. cbn [mach mstart]. rewrite G1, E1.
        assert (R1 : forall i a b, rel (mach f1) i a b = wt (mach f1) i s1 a b) by (intros; unfold rel; simpl; rewrite E1; auto).
        destruct (vstart f2) as [s2|] eqn:E2.
        - rewrite (concat_wt L (mach g) (mach f1) (mach f2) (fun q => (q < n1)%nat) (fun q => q + n1)%nat s2).
          + destruct k; auto. simpl. apply conv_ext; auto. intros; unfold rel; simpl. rewrite E2. auto.
          + intros q t Hq Hin. apply (A1 q t Hin).
          + intros q Hq. cbn [mach mtrs mfin]. rewrite T. apply Nat.ltb_lt in Hq. rewrite Hq. auto.
          + intros q Hq. cbn [mach mtrs mfin]. rewrite F. apply Nat.ltb_lt in Hq. rewrite Hq. auto.
          + intros i a b. apply (copy_wt LL); [exact CL2| | |].
            * intros q Hq. cbn [mach mtrs mfin]. rewrite T. destruct (Nat.ltb_spec (q + n1) n1); [lia|]. replace (q + n1 - n1)%nat with q by lia. auto.
            * intros q Hq. cbn [mach mtrs mfin]. rewrite F. destruct (Nat.ltb_spec (q + n1) n1); [lia|]. replace (q + n1 - n1)%nat with q by lia. auto.
            * apply B2. auto.
          + auto.
        - rewrite (wt_dead LL).
          + destruct k; auto. simpl. symmetry. apply (conv_zero_r L). intros. unfold rel. simpl. rewrite E2. auto.
          + intros (u & Hr & Hf).
            assert (Hu : (u < n1)%nat).
            { revert Hs1 Hr. clear - T A1. intros Hs Hr. induction Hr as [|s t u Hin Hr IH]; auto. apply IH.
              cbn [mach mtrs mfin] in Hin. rewrite T in Hin. apply Nat.ltb_lt in Hs. rewrite Hs in Hin.
              apply in_app_or in Hin as [Hin|Hin]; [eapply A1; eauto|]. destruct (fin_of f1 s); destruct Hin. }
            cbn [mach mtrs mfin] in Hf. rewrite F in Hf. apply Nat.ltb_lt in Hu. rewrite Hu in Hf. congruence. }
      split; [intros x y; rewrite RG; auto|]. split; [intros k x y; rewrite CV, RG; auto|]. split; [split|split; auto].
      + intros s t Hin. rewrite T in Hin. rewrite N. destruct (Nat.ltb_spec s n1).
        * apply in_app_or in Hin as [Hin|Hin]; [specialize (A1 _ _ Hin); unfold n1 in *; lia|].
          destruct (fin_of f1 s); [|destruct Hin]. destruct (vstart f2) as [s2|] eqn:E2; [|destruct Hin]. destruct Hin as [<-|[]].
          simpl. specialize (B2 _ eq_refl). lia.
        * apply in_map_iff in Hin as (u & <- & Hu). simpl. specialize (B1 _ _ Hu). lia.
      + intros s Hs. rewrite N. rewrite G1, E1 in Hs. inversion Hs; subst. lia.
    - exists f1. unfold concat. rewrite E1. split; auto. split; [intros; unfold rel; simpl; rewrite E1; auto|]. split; [|split; [exact CL1|auto]].
      intros k x y. rewrite CV. unfold rel at 1. simpl. rewrite E1. unfold conv.
      symmetry. apply (ksum_map_zero LL). intros i _. rewrite <- (sum2_zero L x y). apply sum2_ext. intros.
      unfold rel. simpl. rewrite E1. apply (ktimes_0_l _ LL).
  Qed.
End C07.
Print Assumptions C07_concat.

(** A loop concatenated with a two-letter machine: the product over all cuts is not trivial. *)
Example C07_witness :
  exists f1 f2 g : vfst natSR,
    run vnew [OAddStates 1; OSetStart 0; OSetFinal 0 2%nat; OAddTr 0 (Tr 1 1 3%nat 0)] = Ok f1 /\
    run vnew [OAddStates 2; OSetStart 0; OSetFinal 1 5%nat; OAddTr 0 (Tr 1 1 7%nat 1); OAddTr 0 (Tr 2 2 1%nat 1)] = Ok f2 /\
    closed f1 /\ closed f2 /\ concat f1 f2 = Ok g /\
    rel (mach g) 4 [1;1;1]%nat [1;1;1]%nat = (3 * 3 * 2 * 7 * 5)%nat.
Proof.
  eexists. eexists. eexists. split; [vm_compute; reflexivity|]. split; [vm_compute; reflexivity|].
  split; [|split; [|split; vm_compute; reflexivity]].
  - split; [|cbn; intros s H; inversion H; vm_compute; lia].
    intros s t. destruct s as [|s]; cbn; [intros [<-|[]]; vm_compute; lia|]. destruct s; simpl; tauto.
  - split; [|cbn; intros s H; inversion H; vm_compute; lia].
    intros s t. destruct s as [|[|s]]; cbn; [intros [<-|[<-|[]]]; vm_compute; lia|tauto|]. destruct s; simpl; tauto.
Qed.
