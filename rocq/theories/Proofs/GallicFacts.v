(** Gallic weights: laws of the right variant, reversal, growth, and what the converter builds. *)
From Coq Require Import List Arith NArith Bool Lia.
From Verif Require Import Base.Util Base.Semiring Base.Machine Base.PropSpec Model.Props Model.AlgoProps Model.VectorFst Model.TrOps Model.History
  Model.Relabel Model.Rational Model.TrMap Model.Weights Model.FactorWeight Model.ShortestDistance Model.Reweight Model.LabelReach Model.Gallic.
From Verif Require Import Proofs.PropsFacts Proofs.VectorFacts Proofs.DelStates Proofs.VectorProps Proofs.TrOpsFacts Proofs.HistoryFacts
  Proofs.OpFacts Proofs.RelabelFacts Proofs.RationalFacts Proofs.TrMapFacts Proofs.ConvertFacts Props.C16 Props.C27 Props.C31 Props.C39.
Import ListNotations.
Local Open Scope K_scope.

Lemma gallicRSR_laws (K : SR) : rsr_laws K -> rsr_laws (gallicRSR K).
Proof.
  intros [L LR].
  split; [split|]; cbn; intros.
  - destruct x as [s x], y as [t y]. cbn. rewrite andb_true_iff, (keqb_true L). pose proof (lw_eqb _ C27_string_left s t) as H. cbn in H. rewrite H.
    split; [intros [-> ->]; auto|]. intros E. injection E. auto.
  - f_equal; [|apply (kplus_assoc _ L)]. destruct (fst x), (fst y), (fst z); cbn; auto. unfold lcs. rewrite !rev_involutive, lcp_assoc. auto.
  - f_equal; [|apply (kplus_comm _ L)]. destruct (fst x), (fst y); cbn; auto. unfold lcs. rewrite lcp_comm. auto.
  - destruct x. cbn. f_equal. apply (kplus_0_l _ L).
  - f_equal; [|apply (ktimes_assoc _ L)]. destruct (fst x), (fst y), (fst z); cbn; auto. rewrite app_assoc. auto.
  - destruct x as [[s|] x]; cbn; f_equal; apply (ktimes_1_l _ L).
  - destruct x as [[s|] x]; cbn; rewrite ?app_nil_r; f_equal; apply (ktimes_1_r _ L).
  - f_equal. apply (ktimes_0_l _ L).
  - f_equal; [destruct (fst x); auto|]. apply (ktimes_0_r _ L).
  - f_equal; [|apply LR]. destruct (fst x), (fst y), (fst z); cbn; auto. unfold lcs.
    rewrite !rev_app_distr, lcp_app, rev_app_distr, rev_involutive. auto.
Qed.

Section Rev.
  Context {K K' : SR} (rv : K -> K') (rb : K' -> K).
  Hypothesis rv_0 : rv 0 = 0.
  Hypothesis rv_1 : rv 1 = 1.
  Hypothesis rv_plus : forall a b, rv (a + b) = rv a + rv b.
  Hypothesis rv_times : forall a b, rv (a * b) = rv b * rv a.
  Hypothesis rb_rv : forall a, rb (rv a) = a.
  Hypothesis rv_rb : forall a, rv (rb a) = a.
  Notation grv := (gallic_reverse (sp := sl_plus) (sp' := sr_plus) rv).
  Notation grb := (gallic_reverse (sp := sr_plus) (sp' := sl_plus) rb).
  Lemma grv_0 : grv 0 = 0.
  Proof. unfold gallic_reverse. cbn. rewrite rv_0. auto. Qed.
  Lemma grv_1 : grv 1 = 1.
  Proof. unfold gallic_reverse. cbn. rewrite rv_1. auto. Qed.
  Lemma grv_plus a b : grv (a + b) = grv a + grv b.
  Proof.
    unfold gallic_reverse. cbn. rewrite rv_plus. f_equal. destruct (fst a), (fst b); cbn; auto. unfold lcs. rewrite !rev_involutive. auto.
  Qed.
  Lemma grv_times a b : grv (a * b) = grv b * grv a.
  Proof. unfold gallic_reverse. cbn. rewrite rv_times. f_equal. destruct (fst a), (fst b); cbn; auto. rewrite rev_app_distr. auto. Qed.
  Lemma grb_grv a : grb (grv a) = a.
  Proof. unfold gallic_reverse. cbn. rewrite rb_rv. destruct a as [[s|] v]; cbn; rewrite ?rev_involutive; auto. Qed.
  Lemma grv_grb a : grv (grb a) = a.
  Proof. unfold gallic_reverse. cbn. rewrite rv_rb. destruct a as [[s|] v]; cbn; rewrite ?rev_involutive; auto. Qed.
End Rev.

Lemma gallic_idem (K : SR) : idempotent_plus K -> idempotent_plus (gallicSR K).
Proof. intros I [[s|] v]; cbn; rewrite I, ?lcp_idem; auto. Qed.

Lemma lcp_length x : forall y, (length (lcp x y) <= length x)%nat.
Proof. induction x as [|a x IH]; intros [|b y]; cbn; try lia. destruct (Nat.eqb a b); cbn; [|lia]. specialize (IH y). lia. Qed.
Lemma lcp_full x : forall y, length (lcp x y) = length x -> lcp x y = x.
Proof.
  induction x as [|a x IH]; intros [|b y]; cbn; auto; try discriminate. destruct (Nat.eqb a b); cbn; [|discriminate]. intros H. f_equal. apply IH. lia.
Qed.

(** Strings only get shorter, so gallic weights grow finitely often when plain weights do. *)
Lemma gallic_growth (K : SR) : lsr_laws K -> no_endless_growth K -> no_endless_growth (gallicSR K).
Proof.
  intros L W.
  assert (G : forall n (v : K) s, (match s with None => O | Some l => S (length l) end <= n)%nat -> s <> None ->
    Acc (fun a b : gallicSR K => a <> b /\ exists c, a = b + c) (s, v)).
  { induction n as [n IHn] using lt_wf_ind. intros v. induction v as [v IHv] using (well_founded_induction W).
    intros s Hs Ns. constructor. intros [s' v'] [Hne [c Ec]]. cbn in Ec. injection Ec as E1 E2.
    destruct s as [l|]; [|congruence]. clear Ns.
    assert (Es : exists l', s' = Some l' /\ (length l' <= length l)%nat /\ (length l' = length l -> l' = l)).
    { subst s'. destruct (fst c) as [m|]; cbn; eauto. exists (lcp l m). split; auto. split; [apply lcp_length|apply lcp_full]. }
    destruct Es as (l' & -> & Hl & Hl'). destruct (Nat.eq_dec (length l') (length l)) as [Q|Q].
    - apply Hl' in Q. subst l'. apply IHv; [|auto|discriminate]. split; [intros ->; auto|]. exists (snd c). auto.
    - apply (IHn (length l)); [lia|cbn; lia|discriminate]. }
  assert (G0 : forall (v : K), Acc (fun a b : gallicSR K => a <> b /\ exists c, a = b + c) (None, v)).
  { intros v. induction v as [v IHv] using (well_founded_induction W). constructor. intros [s' v'] [Hne [c Ec]]. cbn in Ec. injection Ec as E1 E2.
    destruct s' as [l|]; [apply (G (S (length l))); [cbn; lia|discriminate]|]. apply IHv. split; [intros ->; auto|]. exists (snd c). auto. }
  intros [[l|] v]; [apply (G (S (length l))); [cbn; lia|discriminate]|auto].
Qed.

(** ** [weight_convert] keeps property bits sound *)
Section Sound.
  Context {S : Type} {K1 K2 : SR} (L2 : psr_laws K2) (mu : mapper S K1 K2).

  Lemma conv_trs_sound (l : list (tr K1)) s : forall (g : vfst K2) sg x, fsound g -> conv_trs mu g sg s l = Ok x -> fsound (fst x).
  Proof.
    unfold conv_trs. induction l as [|t l IH]; intros g sg x Sg E; [injection E as <-; auto|].
    rewrite rfold_cons in E. cbn [fst snd] in E. destruct (m_tr mu sg t) as [[sg1 t']| |]; cbn [rbind fst snd] in E; try discriminate.
    destruct (add_tr g s t') as [h| |] eqn:Eh; cbn [rbind] in E; try discriminate. eapply IH; [|exact E]. eapply fsound_add_tr; eauto.
  Qed.
  Lemma add_state_sound (g : vfst K2) : fsound g -> fsound (fst (add_state g)).
  Proof. intros Sg. rewrite add_state_eq. apply (fsound_add_states g 1). auto. Qed.
  Lemma super_sound (g h : vfst K2) q : fsound g -> (let (h, q) := add_state g in h <-- unwrap (set_final h q (@kone K2)) ;; Ok (h, q)) = Ok (h, q) -> fsound h.
  Proof.
    intros Sg. apply add_state_sound in Sg. destruct (add_state g) as [g1 q1]. cbn [fst] in Sg.
    destruct (set_final _ _ _) as [h'| |] eqn:E; cbn [unwrap rbind]; try discriminate. intros [= <- <-].
    eapply fsound_set_final; [..|exact E]; auto.
  Qed.
  Lemma conv_final_sound (g : vfst K2) sup s t x : fsound g -> conv_final mu g sup s t = Ok x -> fsound (fst x).
  Proof.
    intros Sg. unfold conv_final.
    assert (F : forall h, unwrap (set_final g s (fwt t)) = Ok h -> fsound h).
    { intros h. destruct (set_final g s (fwt t)) as [h'| |] eqn:E; cbn [unwrap]; try discriminate. intros [= <-]. eapply fsound_set_final; eauto. }
    destruct (m_action mu).
    - destruct (labelled t); [discriminate|]. destruct (unwrap _) as [h| |] eqn:E; cbn [rbind]; try discriminate. intros [= <-]. cbn. auto.
    - destruct (labelled t).
      + destruct (match sup with Some q => Ok (g, q) | None => _ end) as [[h q]| |] eqn:E1; cbn [rbind fst snd]; try discriminate.
        assert (Sh : fsound h) by (destruct sup; [injection E1 as <- <-; auto|eapply super_sound; eauto]).
        destruct (add_tr h s (to_super t q)) as [h1| |] eqn:E2; cbn [rbind]; try discriminate.
        destruct (delete_final_weight h1 s) as [h2| |] eqn:E3; cbn [rbind]; try discriminate. intros [= <-]. cbn.
        eapply (fsound_del_final L2); [|exact E3]. eapply fsound_add_tr; eauto.
      + destruct (set_final g s (fwt t)) as [h| |] eqn:E; cbn [rbind]; try discriminate. intros [= <-]. cbn. eapply fsound_set_final; eauto.
    - destruct (if labelled t || _ then _ else _) as [h1| |] eqn:E1; cbn [rbind]; try discriminate.
      assert (Sh : fsound h1).
      { destruct (labelled t || _); [|injection E1 as <-; auto]. destruct sup as [q|]; [|discriminate].
        destruct (add_tr g s (to_super t q)) as [h'| |] eqn:E2; cbn [unwrap] in E1; try discriminate. injection E1 as <-. eapply fsound_add_tr; eauto. }
      destruct (delete_final_weight h1 s) as [h2| |] eqn:E3; cbn [unwrap rbind]; try discriminate. intros [= <-]. cbn.
      eapply (fsound_del_final L2); eauto.
  Qed.
  Lemma conv_states_sound (f : vfst K1) l : forall x y, fsound (fst (fst x)) -> rfold (conv_state mu f) l x = Ok y -> fsound (fst (fst y)).
  Proof.
    induction l as [|s l IH]; intros x y Sx E; [injection E as <-; auto|]. rewrite rfold_cons in E.
    destruct (conv_state mu f x s) as [z| |] eqn:Ez; cbn [rbind] in E; try discriminate. apply (IH z y); auto.
    destruct x as [[g sup] sg]. unfold conv_state in Ez. cbn [fst] in Sx.
    destruct (conv_trs mu g sg s (trs_of f s)) as [[g1 sg1]| |] eqn:E1; cbn [rbind fst snd] in Ez; try discriminate.
    pose proof (conv_trs_sound _ _ _ _ _ Sx E1) as S1. cbn [fst] in S1.
    destruct (fin_of f s) as [w|]; [|injection Ez as <-; auto].
    destruct (m_fin mu sg1 (FT 0 0 w)) as [[sg2 t]| |]; cbn [rbind fst snd] in Ez; try discriminate.
    destruct (conv_final mu g1 sup s t) as [[g2 sup2]| |] eqn:E2; cbn [rbind] in Ez; try discriminate. injection Ez as <-. cbn.
    apply (conv_final_sound _ _ _ _ _ S1 E2).
  Qed.

  Lemma convert_sound (f : vfst K1) sg (g : vfst K2) sg' : weight_convert mu f sg = Ok (g, sg') ->
    (vstart f <> None -> forall b, has (m_props mu (vprops f)) b = true -> holds b (num_states g) (mach g)) -> fsound g.
  Proof.
    unfold weight_convert. destruct (vstart f) as [s0|] eqn:V; [|intros [= <- _] _; apply fsound_new; auto].
    set (g0 := Nat.iter (num_states f) (fun h => fst (add_state h)) (@vnew K2)).
    assert (S0 : fsound g0).
    { unfold g0. induction (num_states f) as [|n IH]; [apply fsound_new; auto|]. apply add_state_sound. exact IH. }
    destruct (match m_action mu with MapRequireSuperfinal => _ | _ => Ok (g0, None) end) as [[g1 sup]| |] eqn:E1; cbn [rbind fst snd]; try discriminate.
    assert (S1 : fsound g1).
    { destruct (m_action mu); try (injection E1 as <- _; auto). apply add_state_sound in S0. destruct (add_state g0) as [g3 q3]. cbn [fst] in S0.
      destruct (set_final _ _ _) as [h| |] eqn:E; cbn [rbind] in E1; try discriminate. injection E1 as <- _.
      eapply fsound_set_final; [..|exact E]; auto. }
    destruct (set_start g1 s0) as [g2| |] eqn:E2; cbn [rbind]; try discriminate.
    assert (S2 : fsound g2) by (eapply fsound_set_start; eauto).
    destruct (rfold _ _ _) as [y| |] eqn:E3; cbn [rbind]; try discriminate.
    pose proof (conv_states_sound f _ (g2, sup, sg) _ S2 E3) as S3.
    intros [= <- _] P b Hb.
    change (has (vprops (set_all (fst (fst y)) (N.lor (m_props mu (vprops f)) (vprops (fst (fst y)))))) b = true) in Hb.
    rewrite has_set_all, has_lor in Hb. apply orb_true_iff in Hb as [Hb|Hb]; [apply P; auto; discriminate|].
    exact (S3 b Hb).
  Qed.
End Sound.

(** ** Labels into weights *)
Section To.
  Context {K : SR} (L : lsr_laws K).
  Implicit Types f : vfst K.
  Notation G := (gallicSR K).

  Definition str (o : nat) : svariant := Some (lab o).
  Definition gtr (t : tr K) : tr G := Tr (W := G) (il t) (il t) (str (ol t), wgt t) (ns t).
  Definition gfin (w : K) : G := (Some [], w).

  Lemma to_gallic_pure f : (forall s w, fin_of f s = Some w -> w <> 0) -> pure_on (to_gallic sl_plus) gtr gfin f.
  Proof.
    intros H. split; auto. split.
    - intros s t _. cbn. unfold gtr, str, lab. destruct (Nat.eqb (ol t) 0); auto.
    - intros s w Hw. cbn. destruct (keqbP L w 0) as [E|E]; [destruct (H s w Hw E)|]. auto.
  Qed.

  Lemma to_gallic_ok f : closed f -> cnt f -> fsound f -> vstart f <> None -> (forall s w, fin_of f s = Some w -> w <> 0) ->
    exists g, weight_convert (to_gallic sl_plus) f tt = Ok (g, tt) /\ mapped gtr gfin f g /\ closed g /\ fsound g.
  Proof.
    intros C Cn S V H. destruct (C31_pure_converter (to_gallic sl_plus) gtr gfin f C V (to_gallic_pure f H)) as (g & E & M & B).
    exists g. split; auto. split; auto. pose proof M as (_ & N & V' & _ & _ & M').
    split.
    - split; [|rewrite N, V'; apply C]. intros s t. rewrite (proj1 (M' s)), N. intros Ht. apply in_map_iff in Ht as (u & <- & Hu). apply (proj1 C _ _ Hu).
    - apply (convert_sound (lsr_psr _ (gallicSR_laws K L)) _ _ _ _ _ E). intros _ b Hb. cbn [m_props to_gallic] in Hb.
      rewrite has_pkeep, has_land in Hb. apply andb_true_iff in Hb as [Hb Hw]. apply andb_true_iff in Hb as [_ Hb]. apply inb_In in Hw.
      destruct (project_eq f ProjectInput Cn) as (q & Eq).
      pose proof (project_fsound f ProjectInput _ Cn S Eq) as Sp. set (f' := set_all _ _) in *.
      assert (Hp : has (vprops f') b = true) by (unfold f'; rewrite has_set_all; auto). apply Sp in Hp.
      assert (N' : num_states f' = num_states f) by (unfold num_states, f'; simpl; apply map_length).
      change (gallicSR K) with (gallic_of sl_plus K). rewrite N, <- N'.
      apply (proj1 (uforget_holds b _ (mach g) Hw)). apply (holds_meq b _ (uforget (mach f'))); [|exact (proj2 (uforget_holds b _ (mach f') Hw) Hp)].
      pose proof (rstate_mmap (fun t => Tr (il t) (il t) (wgt t) (ns t)) f q (project_properties (vprops f) ProjectInput)) as (_ & MT & MF).
      split; [|split]; cbn [uforget mach mstart mtrs mfin]; auto; intros s.
      + rewrite (MT s : trs_of f' s = _), (proj1 (M' s)), !map_map. apply map_ext. auto.
      + rewrite (MF s : fin_of f' s = fin_of f s), (proj2 (M' s)). destruct (fin_of f s); auto.
  Qed.
End To.
