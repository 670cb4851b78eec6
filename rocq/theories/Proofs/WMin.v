(** Equal residuals of a normalised acceptor have equal codes. *)
From Coq Require Import List Arith NArith Bool Lia.
From Verif Require Import Base.Util Base.Semiring Base.Machine Base.PathSum Base.PropSpec
  Model.Props Model.VectorFst Model.BiMap Model.Encode
  Proofs.VectorFacts Proofs.VectorProps Proofs.OpFacts Proofs.SdFacts Proofs.ReverseDist Proofs.MinFacts Proofs.SpellFacts Proofs.EncMin
  Props.C16 Props.C18 Props.C30 Props.C38.
Import ListNotations.
Local Open Scope K_scope.

Section W.
  Context {K : SR} (L : sr_laws K) (H01 : (kone : K) <> kzero) (Zd : no_zero_divisors K).
  Hypothesis Can : forall a b c : K, a <> 0 -> a * b = a * c -> b = c.
  Implicit Types (f g h e : vfst K).

  Section Codes.
    Variables (g e : vfst K) (T : @etable K) (s0 : nat) (Q : nat -> Prop).
    Hypothesis CL : closed g.
    Hypothesis EN : encoded g s0 e T.
    Hypothesis Ac : is_acceptor (mach g).
    Hypothesis D : deterministic (mach g).
    Hypothesis Zt : forall s t, In t (trs_of g s) -> wgt t <> 0.
    Hypothesis Zw : forall s w, fin_of g s = Some w -> w <> 0.
    Hypothesis Qc : forall s t, Q s -> In t (trs_of g s) -> Q (ns t).
    Hypothesis Qn : forall s, Q s -> (s < num_states g)%nat -> settles (fun k => back (mach g) k s) 1 \/ (forall u, spell (mach g) s u = 0).
    Let De := en_det _ _ _ _ EN.
    Let Pe := en_plain _ _ _ _ EN.

    Lemma e_step s t u : In t (trs_of e s) -> spell (mach e) s (il t :: u) = spell (mach e) (ns t) u.
    Proof. intros Ht. rewrite (spell_step L (mach e) s t u De Ht), (proj2 (proj1 Pe s t Ht)). apply (ktimes_1_l _ L). Qed.
    (** A code word gives a word of nonzero weight. *)
    Lemma live : forall w p, spell (mach e) p w = 1 -> p <> num_states g -> exists z, spell (mach g) p z <> 0.
    Proof.
      induction w as [|c w IH]; intros p H Hp.
      - cbn [spell mach mfin] in H. rewrite (en_fin _ _ _ _ EN p Hp) in H. cbn [fw] in H. congruence.
      - destruct (label_dec (mach e) p c) as [(t & Ht & <-)|No]; [|rewrite (spell_none L) in H by auto; congruence]. cbn [mach mtrs] in Ht.
        rewrite (e_step p t w Ht) in H. destruct (e_shape g e T s0 EN p t Ht) as (Hn & u & Cu & Hu). rewrite (coded_ns T u t Cu) in H.
        destruct (g_shape g CL p u Hu) as [[Hg Hl]|(v & Hv & ->)].
        + destruct (IH (ns u) H ltac:(lia)) as (z & Hz). exists (il u :: z). rewrite (spell_step L (mach g) p u z D Hg). intros X. apply Zd in X as [X|X]; [apply (Zt p u Hg X)|auto].
        + exists []. cbn [spell mach mfin]. rewrite Hv. cbn [fw]. apply (Zw p v Hv).
    Qed.
    Lemma dead_codes p : p <> num_states g -> (forall z, spell (mach g) p z = 0) -> forall w, spell (mach e) p w = 0.
    Proof.
      intros Hp H w. destruct (spell_bool L (mach e) De Pe w p) as [X|X]; auto. destruct (live w p X Hp) as (z & Hz). destruct Hz; auto.
    Qed.
    (** The code of a transition (or final weight) of [p']. *)
    Lemma has_code p u : (p < num_states g)%nat -> In u (C30.spelled EW g p) -> exists t, In t (trs_of e p) /\ coded EW T u t.
    Proof. intros Hp Hu. apply (Forall2_In_l _ _ _ u (en_trs _ _ _ _ EN p Hp) Hu). Qed.
    Lemma fin_code p v : fin_of g p = Some v -> In (Tr O O v (num_states g)) (C30.spelled EW g p).
    Proof. intros H. unfold C30.spelled. cbn [eweights]. rewrite H. apply in_or_app. right. left. auto. Qed.
    Lemma trs_code p u : In u (trs_of g p) -> In u (C30.spelled EW g p).
    Proof. intros H. unfold C30.spelled. apply in_or_app. auto. Qed.

    Lemma same_residual p p' u u' : (forall w, spell (mach g) p w = spell (mach g) p' w) -> In u (trs_of g p) -> In u' (trs_of g p') -> il u = il u' ->
      forall x, wgt u * spell (mach g) (ns u) x = wgt u' * spell (mach g) (ns u') x.
    Proof. intros H Hu Hu' E x. rewrite <- (spell_step L (mach g) p u x D Hu), <- (spell_step L (mach g) p' u' x D Hu'), E. auto. Qed.
    Lemma same_weight p p' u u' : Q p -> Q p' -> (forall w, spell (mach g) p w = spell (mach g) p' w) -> In u (trs_of g p) -> In u' (trs_of g p') -> il u = il u' ->
      (exists x, spell (mach g) (ns u) x <> 0) -> wgt u = wgt u'.
    Proof.
      intros Qp Qp' H Hu Hu' E (x & Hx). pose proof (same_residual p p' u u' H Hu Hu' E) as R.
      destruct (Qn (ns u) (Qc p u Qp Hu) (proj1 CL p u Hu)) as [(k & Sk)|Z]; [|destruct Hx; auto].
      destruct (Qn (ns u') (Qc p' u' Qp' Hu') (proj1 CL p' u' Hu')) as [(k' & Sk')|Z].
      2: { exfalso. specialize (R x). rewrite Z, (ktimes_0_r _ L) in R. apply Zd in R as [R|R]; auto. apply (Zt p u Hu R). }
      pose proof (scale_back L (mach g) (mach g) D D (Nat.max k k') (ns u) (ns u') (wgt u) (wgt u') R) as S.
      rewrite Sk, Sk', !(ktimes_1_r _ L) in S by lia. auto.
    Qed.

    (** One direction: a code word of [p] is one of [p']. *)
    Lemma codes_one c w p p' : Q p -> Q p' -> (p < num_states g)%nat -> (p' < num_states g)%nat ->
      (forall x, spell (mach g) p x = spell (mach g) p' x) ->
      (forall q q', Q q -> Q q' -> (q < num_states g)%nat -> (q' < num_states g)%nat -> (forall x, spell (mach g) q x = spell (mach g) q' x) ->
         spell (mach e) q w = spell (mach e) q' w) ->
      spell (mach e) p (c :: w) = 1 -> spell (mach e) p' (c :: w) = 1.
    Proof.
      intros Qp Qp' Hp Hp' H IH Hc.
      destruct (label_dec (mach e) p c) as [(t & Ht & <-)|No]; [|rewrite (spell_none L) in Hc by auto; congruence]. cbn [mach mtrs] in Ht.
      destruct (e_shape g e T s0 EN p t Ht) as (_ & u & Cu & Hu). rewrite (e_step p t w Ht), (coded_ns T u t Cu) in Hc.
      destruct (g_shape g CL p u Hu) as [[Hg Hl]|(v & Hv & ->)].
      - destruct (live w (ns u) Hc ltac:(lia)) as (z & Hz).
        destruct (label_dec (mach g) p' (il u)) as [(u' & Hu' & Eu)|No].
        2: { exfalso. assert (X : spell (mach g) p (il u :: z) = 0) by (rewrite H; apply (spell_none L); auto).
             rewrite (spell_step L (mach g) p u z D Hg) in X. apply Zd in X as [X|X]; [apply (Zt p u Hg X)|auto]. }
        cbn [mach mtrs] in Hu'. assert (Ew : wgt u = wgt u') by (apply (same_weight p p' u u'); eauto).
        destruct (has_code p' u' Hp' (trs_code p' u' Hu')) as (t' & Ht' & Ct').
        assert (El : il t' = il t).
        { apply (C30_codes EW T u' t' u t (en_nodup _ _ _ _ EN) Ct' Cu). split; auto. split; auto. intros _.
          rewrite (Ac p' u' Hu'), (Ac p u Hg). auto. }
        rewrite <- El, (e_step p' t' w Ht'), (coded_ns T u' t' Ct').
        rewrite <- (IH (ns u) (ns u') (Qc p u Qp Hg) (Qc p' u' Qp' Hu') Hl (proj1 CL p' u' Hu')); auto.
        intros x. apply (Can (wgt u)); [apply (Zt p u Hg)|]. rewrite (same_residual p p' u u' H Hg Hu' (eq_sym Eu) x). rewrite Ew. auto.
      - cbn [ns] in Hc. specialize (H []). cbn [spell mach mfin] in H. rewrite Hv in H. cbn [fw] in H.
        destruct (fin_of g p') as [v'|] eqn:Hv'; cbn [fw] in H; [|destruct (Zw p v Hv H)]. subst v'.
        destruct (has_code p' _ Hp' (fin_code p' v Hv')) as (t' & Ht' & Ct').
        assert (El : il t' = il t) by (apply (C30_codes EW T _ t' _ t (en_nodup _ _ _ _ EN) Ct' Cu); auto).
        rewrite <- El, (e_step p' t' w Ht'), (coded_ns T _ t' Ct'). exact Hc.
    Qed.
    Lemma norm_codes : forall w p p', Q p -> Q p' -> (p < num_states g)%nat -> (p' < num_states g)%nat ->
      (forall x, spell (mach g) p x = spell (mach g) p' x) -> spell (mach e) p w = spell (mach e) p' w.
    Proof.
      induction w as [|c w IH]; intros p p' Qp Qp' Hp Hp' H.
      - cbn [spell mach mfin]. rewrite !(en_fin _ _ _ _ EN) by lia. auto.
      - destruct (spell_bool L (mach e) De Pe (c :: w) p) as [X|X], (spell_bool L (mach e) De Pe (c :: w) p') as [Y|Y]; try congruence; exfalso; apply H01.
        + rewrite <- (codes_one c w p p' Qp Qp' Hp Hp' H IH X). auto.
        + rewrite <- (codes_one c w p' p Qp' Qp Hp' Hp (fun x => eq_sym (H x)) IH Y). auto.
    Qed.
  End Codes.

  (** ** Words of a deterministic machine with nonzero weights *)
  Lemma reach_letters (m : machine K) : deterministic m -> (forall s t, In t (mtrs m s) -> wgt t <> 0) -> forall a p, reach m a p ->
    exists u A, A <> 0 /\ (forall w, spell m a (u ++ w) = A * spell m p w) /\ (u = [] -> p = a).
  Proof.
    intros D Z a p. induction 1 as [s|s t q Ht R IH].
    - exists [], 1. split; auto. split; auto. intros w. symmetry. apply (ktimes_1_l _ L).
    - destruct IH as (u & A & NA & Hu & _). exists (il t :: u), (wgt t * A). split; [|split; [|discriminate]].
      + intros X. apply Zd in X as [X|X]; [apply (Z s t Ht X)|auto].
      + intros w. cbn [app]. rewrite (spell_step L) by auto. rewrite Hu. apply (ktimes_assoc _ L).
  Qed.
  Lemma spell_path (m : machine K) : forall w s, deterministic m -> spell m s w <> 0 -> exists p, is_path m s p /\ length p = length w.
  Proof.
    induction w as [|c w IH]; intros s D H; [exists []; split; cbn; auto|].
    destruct (label_dec m s c) as [(t & Ht & <-)|No]; [|destruct H; apply (spell_none L); auto].
    rewrite (spell_step L) in H by auto. destruct (IH (ns t) D) as (p & Hp & E); [intros X; apply H; rewrite X; apply (ktimes_0_r _ L)|].
    exists (t :: p). split; [split; auto|]. cbn. auto.
  Qed.
  Lemma long_zero f s w : closed f -> deterministic (mach f) -> (forall s, ~ on_cycle (mach f) s) -> (s < num_states f)%nat -> spell (mach f) s w <> 0 -> (length w < num_states f)%nat.
  Proof.
    intros C D A Hs H. destruct (spell_path (mach f) w s D H) as (p & Hp & <-).
    apply (acyclic_short (mach f) (num_states f) (proj1 C) (no_cycle_acyclic _ A) p s Hs Hp).
  Qed.
  (** A word that leads back to the start can be repeated. *)
  Lemma pump (F : list nat -> K) u (B : K) : (forall w, F (u ++ w) = B * F w) -> B <> 0 -> forall z, F z <> 0 -> forall k, F (concat (repeat u k) ++ z) <> 0.
  Proof.
    intros H NB z Hz. induction k as [|k IH]; cbn [repeat concat app]; auto. rewrite <- app_assoc, H. intros X. apply Zd in X as [X|X]; auto.
  Qed.
  Lemma pump_length (u : list nat) k : length (concat (repeat u k)) = (k * length u)%nat.
  Proof. induction k; cbn [repeat concat]; auto. rewrite app_length, IHk. cbn. lia. Qed.
End W.
