(** C52: renumbering labels for lookahead is a bijection that leaves everything else alone. *)
From Coq Require Import List Arith NArith ZArith Bool Lia Permutation Sorted.
From Verif Require Import Base.Util Base.Semiring Base.Machine Base.PropSpec Base.Instances
  Model.Props Model.VectorFst Model.TrOps Model.History Model.Rational Model.Matchers Model.IntervalSet Model.Reachable Model.LabelReach
  Proofs.PropsFacts Proofs.VectorFacts Proofs.DelStates Proofs.VectorProps Proofs.TrOpsFacts Proofs.HistoryFacts Proofs.OpFacts Proofs.RationalFacts
  Proofs.RelabelFacts Proofs.MergeFacts Proofs.ConnectFacts Proofs.LabelFacts Props.C06 Props.C10 Props.C50.
Import ListNotations.

Section Spec.
  Context {K : SR}.
  Implicit Types (f : vfst K).

  (** [t'] is [t] with the label of one side replaced by its number; 0 stays 0. *)
  Definition renumbered (m : list (qlab * nat)) (ri : bool) (t t' : tr K) : Prop :=
    wgt t' = wgt t /\ ns t' = ns t /\ on_side (negb ri) t' = on_side (negb ri) t /\
    (if on_side ri t =? 0 then on_side ri t' = 0 else qlookup m (Lab (on_side ri t)) = Some (on_side ri t')).

  (** [d'] only has more labels than [d]. *)
  Definition grown (d d' : lrdata) : Prop :=
    ld_input d' = ld_input d /\ ld_final d' = ld_final d /\ ld_sets d' = ld_sets d /\
    (forall k x, qlookup (ld_l2i d) k = Some x -> qlookup (ld_l2i d') k = Some x) /\ numbering (ld_l2i d').

  (** What relabelling by a list of pairs does to one label. *)
  Definition sends (pairs : list (nat * nat)) (l x : nat) : Prop :=
    In (l, x) pairs \/ (~ In l (map fst pairs) /\ x = l).
End Spec.

Section C52.
  Context {K : SR} (L : lsr_laws K).
  Implicit Types (f g h : vfst K).

  Lemma grown_refl d : numbering (ld_l2i d) -> grown d d.
  Proof. intros H. split; [auto|]. split; [auto|]. split; [auto|]. split; auto. Qed.
  Lemma grown_trans a b c : grown a b -> grown b c -> grown a c.
  Proof. intros (A1 & A2 & A3 & A4 & _) (B1 & B2 & B3 & B4 & B5). split; [congruence|]. split; [congruence|]. split; [congruence|]. split; auto. Qed.

  (** A new label gets the next number, a known one keeps its own, 0 stays 0. *)
  Theorem C52_relabel :
    forall d l, numbering (ld_l2i d) ->
    exists d' x, lr_relabel d l = (d', x) /\ grown d d' /\ (l = 0 <-> x = 0) /\
      (l <> 0 -> qlookup (ld_l2i d') (Lab l) = Some x) /\
      (forall k, qlookup (ld_l2i d') k <> None <-> qlookup (ld_l2i d) k <> None \/ (l <> 0 /\ k = Lab l)) /\
      (qlookup (ld_l2i d) (Lab l) = None -> l <> 0 -> forall k, qlookup (ld_l2i d) k <> Some x).
  Proof.
    intros d l Nm. unfold lr_relabel. destruct (Nat.eqb_spec l 0) as [->|Hl].
    { exists d, 0. split; auto. split; [apply grown_refl; auto|]. split; [tauto|]. split; [congruence|]. split; [|congruence]. intros k. split; auto. intros [H|[H _]]; auto; congruence. }
    destruct Nm as (N1 & N2 & N3). destruct (qlookup (ld_l2i d) (Lab l)) as [x|] eqn:E.
    - exists d, x. split; auto. split; [apply grown_refl; split; [|split]; auto|]. pose proof (N2 _ _ E). split; [lia|]. split; auto. split; [|congruence].
      intros k. split; auto. intros [H0|[_ ->]]; auto. congruence.
    - eexists. eexists. split; [reflexivity|]. unfold grown. cbn [ld_input ld_final ld_sets ld_l2i].
      assert (Q : forall k, qlookup (ld_l2i d ++ [(Lab l, S (length (ld_l2i d)))]) k =
        match qlookup (ld_l2i d) k with Some v => Some v | None => if qlab_eqb (Lab l) k then Some (S (length (ld_l2i d))) else None end).
      { intros k. rewrite qlookup_app, qlookup_cons. auto. }
      split; [|split; [|split; [|split]]].
      + split; auto. split; auto. split; auto. split; [intros k x H; rewrite Q, H; auto|]. split; [|split].
        * rewrite map_app. apply NoDup_app_snoc; auto. intros H. apply qlookup_keys in H. contradiction.
        * intros k x H. rewrite Q in H. rewrite app_length. cbn [length]. destruct (qlookup (ld_l2i d) k) as [v|] eqn:Ek.
          -- injection H as <-. apply N2 in Ek. lia.
          -- destruct (qlab_eqb (Lab l) k); [|discriminate]. injection H as <-. lia.
        * intros k k' x H H'. rewrite Q in H, H'.
          destruct (qlookup (ld_l2i d) k) as [v|] eqn:Ek; destruct (qlookup (ld_l2i d) k') as [v'|] eqn:Ek'.
          -- eapply N3; [exact Ek|]. congruence.
          -- destruct (qlab_eqb (Lab l) k'); [|discriminate]. apply N2 in Ek. injection H as ->. injection H' as <-. lia.
          -- destruct (qlab_eqb (Lab l) k); [|discriminate]. apply N2 in Ek'. injection H as <-. injection H' as ->. lia.
          -- destruct (qlab_eqb (Lab l) k) eqn:E1; [|discriminate]. destruct (qlab_eqb (Lab l) k') eqn:E2; [|discriminate].
             apply qlab_eqb_eq in E1, E2. congruence.
      + split; [congruence|discriminate].
      + intros _. rewrite Q, E, qlab_eqb_refl. auto.
      + intros k. rewrite Q. destruct (qlookup (ld_l2i d) k) as [v|] eqn:Ek; [split; [left|]; discriminate|]. destruct (qlab_eqb (Lab l) k) eqn:E1.
        * apply qlab_eqb_eq in E1. split; [auto|discriminate].
        * split; [congruence|]. intros [H|[_ ->]]; [congruence|]. rewrite qlab_eqb_refl in E1. discriminate.
      + intros _ _ k H. apply N2 in H. lia.
  Qed.

  Definition put (ri : bool) (t : tr K) (x : nat) : tr K := if ri then Tr x (ol t) (wgt t) (ns t) else Tr (il t) x (wgt t) (ns t).
  Lemma put_eff (ri : bool) f s i t x : cnt f -> s < num_states f -> nth_error (trs_of f s) i = Some t ->
    exists g, (if ri then iter_set_ilabel f s i x else iter_set_olabel f s i x) = Ok g /\ eff f g /\
      (forall u, trs_of g u = if u =? s then upd (trs_of f s) i (put ri t x) else trs_of f u) /\
      (forall u, fin_of g u = fin_of f u) /\ (fsound f -> fsound g).
  Proof.
    intros C H Ht. destruct (nth_state f s H) as (st & E & E1 & E2). rewrite E1 in Ht.
    set (a := if ri then x else il t). set (b := if ri then ol t else x).
    assert (X : (if ri then iter_set_ilabel f s i x else iter_set_olabel f s i x) = iter_set_labels f s i a b).
    { unfold a, b. destruct ri; [eapply set_ilabel_labels|eapply set_olabel_labels]; eauto. }
    rewrite X. destruct (iter_cnt st i t a b (wgt t) (ns t) (cnt_nth _ _ _ C E) Ht) as (ni & no & N1 & N2 & N3).
    assert (Y : iter_set_labels f s i a b = Ok (upd_state f s (VS (vfin st) (upd (vtrs st) i (Tr a b (wgt t) (ns t))) ni no)
                      (compute_new_properties_labels (vprops f) (il t) (ol t) a b))).
    { unfold iter_set_labels, get_state. rewrite E. cbn [rbind]. rewrite Ht, N1, N2. reflexivity. }
    rewrite Y. eexists. split; [reflexivity|]. split; [|split; [|split]].
    - apply eff_upd. auto.
    - intros u. rewrite trs_of_upd by auto. cbn [vtrs]. rewrite E1. unfold put, a, b. destruct ri; auto.
    - intros u. rewrite fin_of_upd by auto. cbn [vfin]. rewrite <- E2. apply if_same.
    - intros F. eapply fsound_iter_labels; eauto.
  Qed.

  (** The loop over the transitions of one state. *)
  Lemma relabel_trs_ok ri s : forall suf pre d f, cnt f -> numbering (ld_l2i d) -> s < num_states f -> trs_of f s = pre ++ suf ->
    exists d' g new, rfold (relabel_tr ri s) (seq (length pre) (length suf)) (d, f) = Ok (d', g) /\ grown d d' /\ eff f g /\
      (forall u, trs_of g u = if u =? s then pre ++ new else trs_of f u) /\ (forall u, fin_of g u = fin_of f u) /\ (fsound f -> fsound g) /\
      Forall2 (renumbered (ld_l2i d') ri) suf new /\
      (forall k, qlookup (ld_l2i d') k <> None <-> qlookup (ld_l2i d) k <> None \/ exists t, In t suf /\ on_side ri t <> 0 /\ k = Lab (on_side ri t)).
  Proof.
    induction suf as [|t suf IH]; intros pre d f C Nm Hs Et.
    - exists d, f, []. split; [reflexivity|]. split; [apply grown_refl; auto|]. split; [apply eff_refl|]. split; [intros u; rewrite <- Et; symmetry; apply if_same|].
      split; [auto|]. split; [auto|]. split; [constructor|]. intros k. split; auto. intros [H|(t & [] & _)]; auto.
    - cbn [length seq]. rewrite rfold_cons. unfold relabel_tr at 1. cbn [fst snd].
      assert (Nt : nth_error (trs_of f s) (length pre) = Some t) by (rewrite Et, nth_error_app2, Nat.sub_diag by lia; reflexivity). rewrite Nt.
      destruct (C52_relabel d (side ri t) Nm) as (d1 & x & -> & G1 & Z & Q & Ks & _).
      destruct (put_eff ri f s (length pre) t x C Hs Nt) as (h & -> & A & B & F & D). cbn [rbind].
      destruct (IH (pre ++ [put ri t x]) d1 h) as (d' & g & new & E' & G' & A' & B' & F' & D' & R' & K').
      { apply A; auto. } { apply G1. } { destruct A as [-> _]; auto. }
      { rewrite B, Nat.eqb_refl, Et, upd_app_r, Nat.sub_diag by lia. cbn [upd]. rewrite <- app_assoc. auto. }
      rewrite app_length in E'. cbn [length] in E'. rewrite Nat.add_1_r in E'. exists d', g, (put ri t x :: new). split; auto.
      split; [eapply grown_trans; eauto|]. split; [eapply eff_trans; eauto|]. split; [|split; [intros u; rewrite F'; auto|split; [auto|split]]].
      + intros u. rewrite B'. destruct (u =? s) eqn:Eu; [rewrite <- app_assoc; reflexivity|]. rewrite B, Eu. auto.
      + constructor; auto. change (side ri t) with (on_side ri t) in *. destruct G' as (_ & _ & _ & Ge & _). unfold renumbered. destruct ri; cbn [put on_side negb wgt ns il ol] in *.
        * repeat split; auto. destruct (Nat.eqb_spec (il t) 0); [tauto|auto].
        * repeat split; auto. destruct (Nat.eqb_spec (ol t) 0); [tauto|auto].
      + intros k. rewrite K', Ks. split.
        * intros [[H|[H1 H2]]|(u & H1 & H2)]; auto; right; [exists t|exists u]; split; auto; [left|right]; auto.
        * intros [H|(u & [<-|H1] & H2)]; auto. right. exists u. auto.
  Qed.

  Lemma renumbered_grown d d' ri l l' : grown d d' -> Forall2 (renumbered (ld_l2i d) ri) l l' -> Forall2 (renumbered (ld_l2i d') ri) l (l' : list (tr K)).
  Proof.
    intros (_ & _ & _ & G & _) H. induction H as [|t t' l l' (A & B & C & D) H IH]; constructor; auto. repeat split; auto. destruct (on_side ri t =? 0); auto.
  Qed.

  Lemma relabel_states_ok ri d f : cnt f -> numbering (ld_l2i d) -> forall j, j <= num_states f ->
    exists d' g, rfold (fun x s => rfold (relabel_tr ri s) (seq 0 (length (trs_of (snd x) s))) x) (seq 0 j) (d, f) = Ok (d', g) /\ grown d d' /\ eff f g /\
      (forall u, u < j -> Forall2 (renumbered (ld_l2i d') ri) (trs_of f u) (trs_of g u)) /\ (forall u, j <= u -> trs_of g u = trs_of f u) /\
      (forall u, fin_of g u = fin_of f u) /\ (fsound f -> fsound g) /\
      (forall k, qlookup (ld_l2i d') k <> None <-> qlookup (ld_l2i d) k <> None \/ exists u t, u < j /\ In t (trs_of f u) /\ on_side ri t <> 0 /\ k = Lab (on_side ri t)).
  Proof.
    intros C Nm. induction j as [|j IH]; intros Hj.
    - exists d, f. split; [reflexivity|]. split; [apply grown_refl; auto|]. split; [apply eff_refl|]. split; [intros; lia|]. split; [auto|]. split; [auto|]. split; [auto|].
      intros k. split; auto. intros [H|(u & t & H & _)]; auto. lia.
    - destruct IH as (d1 & h & E & G & A & R & T & F & D & Ks); [lia|]. rewrite seq_S, rfold_app, E. cbn [rbind Nat.add]. rewrite rfold_cons. cbn [snd].
      destruct (relabel_trs_ok ri j (trs_of h j) [] d1 h) as (d' & g & new & E' & G' & A' & B' & F' & D' & R' & K'); auto.
      { apply A; auto. } { apply G. } { destruct A as [-> _]; lia. }
      cbn [length] in E'. rewrite E'. cbn [rbind]. exists d', g. split; [reflexivity|]. split; [eapply grown_trans; eauto|]. split; [eapply eff_trans; eauto|].
      rewrite (T j (le_n _)) in *. split; [|split; [|split; [intros u; rewrite F'; auto|split; [auto|]]]].
      + intros u Hu. rewrite B'. destruct (Nat.eqb_spec u j) as [->|]; [auto|]. eapply renumbered_grown; eauto. apply R. lia.
      + intros u Hu. rewrite B'. destruct (Nat.eqb_spec u j); [lia|]. apply T. lia.
      + intros k. rewrite K', Ks. split.
        * intros [[H|(u & t & H1 & H2)]|(t & H1 & H2)]; auto; right; [exists u, t|exists j, t]; auto.
        * intros [H|(u & t & H1 & H2)]; auto. destruct (Nat.eq_dec u j) as [->|]; [right; exists t; auto|]. left. right. exists u, t. split; [lia|auto].
  Qed.

  (** Relabelling a machine: every label of one side is replaced by its number and the
      transitions are sorted by it; nothing else changes; labels seen for the first time get
      fresh numbers. *)
  Theorem C52_relabel_fst :
    forall d f ri, cnt f -> numbering (ld_l2i d) ->
    exists d' g, relabel_fst d f ri = Ok (d', g) /\ grown d d' /\
      (forall k, qlookup (ld_l2i d') k <> None <-> qlookup (ld_l2i d) k <> None \/ exists l, k = Lab l /\ occurs f ri l) /\
      num_states g = num_states f /\ vstart g = vstart f /\ (forall s, fin_of g s = fin_of f s) /\
      (forall s, exists l, Forall2 (renumbered (ld_l2i d') ri) (trs_of f s) l /\ Permutation (trs_of g s) l /\
                           StronglySorted le (map (on_side ri) (trs_of g s))) /\
      (if ri then visymt g = None /\ vosymt g = vosymt f else visymt g = visymt f /\ vosymt g = None) /\
      (bits_true f -> bits_true g /\ has (vprops g) (if ri then I_LABEL_SORTED else O_LABEL_SORTED) = true).
  Proof.
    intros d f ri C Nm. unfold relabel_fst. destruct (relabel_states_ok ri d f C Nm (num_states f) (le_n _)) as (d' & h & -> & G & A & R & T & F & D & Ks). cbn [rbind snd fst].
    assert (X : exists g, (if ri then tr_sort_i h else tr_sort_o h) = Ok g /\ sorted_by (on_side ri) h g /\ has (vprops g) (if ri then I_LABEL_SORTED else O_LABEL_SORTED) = true /\
      (fsound h -> fsound g) /\ visymt g = visymt h /\ vosymt g = vosymt h).
    { destruct (C10_tr_sort L h) as [(g1 & E1 & S1 & P1) (g2 & E2 & S2 & P2)]. destruct ri.
      - exists g1. split; auto. split; auto. split; auto. split; [intros Hh; eapply tr_sort_i_sound; eauto|]. unfold tr_sort_i in E1. rewrite tr_sort_eq in E1. injection E1 as <-. auto.
      - exists g2. split; auto. split; auto. split; auto. split; [intros Hh; eapply tr_sort_o_sound; eauto|]. unfold tr_sort_o in E2. rewrite tr_sort_eq in E2. injection E2 as <-. auto. }
    destruct X as (g & -> & (S1 & S2 & S3 & S4 & S5 & _) & P & Sg & Y1 & Y2). cbn [rbind]. destruct A as (A1 & A2 & A3 & A4 & _).
    eexists. eexists. split; [reflexivity|]. split; auto.
    set (g' := if ri then _ else _). assert (Vg : vstates g' = vstates g /\ vstart g' = vstart g /\ vprops g' = vprops g) by (unfold g'; destruct ri; auto). destruct Vg as (V1 & V2 & V3).
    assert (Tg : forall s, trs_of g' s = trs_of g s) by (intros; unfold trs_of; rewrite V1; auto).
    assert (Fg : forall s, fin_of g' s = fin_of g s) by (intros; unfold fin_of; rewrite V1; auto).
    assert (Ng : num_states g' = num_states g) by (unfold num_states; rewrite V1; auto).
    split; [|split; [|split; [|split; [|split; [|split]]]]].
    - intros k. rewrite Ks. split; (intros [H|H]; [auto|right]).
      + destruct H as (u & t & _ & H1 & H2 & ->). exists (on_side ri t). split; auto. split; auto. exists u, t. auto.
      + destruct H as (l & -> & Hl & u & t & Ht & <-). exists u, t. split; auto. destruct (Nat.lt_ge_cases u (num_states f)); auto. rewrite trs_of_beyond in Ht by auto. destruct Ht.
    - congruence.
    - congruence.
    - intros s. rewrite Fg, S3, F. auto.
    - intros s. exists (trs_of h s). rewrite Tg. split; [|split; auto]. destruct (Nat.lt_ge_cases s (num_states f)) as [H|H]; [apply R; auto|].
      rewrite (trs_of_beyond f s H), (trs_of_beyond h s); [constructor|lia].
    - unfold g'. clear - A3 A4 Y1 Y2. destruct ri; cbn; split; congruence.
    - intros B. split; [|rewrite V3; auto].
      intros b Hb. rewrite V3 in Hb. rewrite Ng. assert (M : mach g' = mach g) by (unfold mach, trs_of, fin_of; rewrite V1, V2; auto).
      rewrite M. apply Sg; auto.
  Qed.
End C52.

Section Pairs.
  Lemma NoDup_app_i {A} (l l' : list A) : NoDup l -> NoDup l' -> (forall x, In x l -> In x l' -> False) -> NoDup (l ++ l').
  Proof.
    induction l as [|a l IH]; auto. intros N N' D. inversion N; subst. cbn. constructor.
    - intros H. apply in_app_iff in H as [H|H]; [auto|]. apply (D a); auto. left; auto.
    - apply IH; auto. intros x H H'. apply (D x); auto. right; auto.
  Qed.

  (** The pairs are the numbering without the end of the string; with [avoid] no two labels of
      which one is numbered are sent to the same place, whatever other labels a machine has. *)
  Theorem C52_relabel_pairs :
    forall d nolab avoid, numbering (ld_l2i d) -> ld_final d = qlookup (ld_l2i d) NoLab ->
    (forall l x, In (l, x) (lr_relabel_pairs d nolab false) <-> qlookup (ld_l2i d) (Lab l) = Some x) /\
    NoDup (map fst (lr_relabel_pairs d nolab avoid)) /\
    (forall l x, qlookup (ld_l2i d) (Lab l) = Some x -> forall y, sends (lr_relabel_pairs d nolab avoid) l y <-> y = x) /\
    (forall l, qlookup (ld_l2i d) (Lab l) = None -> l <> 0 ->
       forall y, sends (lr_relabel_pairs d nolab true) l y -> length (ld_l2i d) < y).
  Proof.
    intros d nolab avoid (N1 & N2 & N3) Ef. set (m := ld_l2i d) in *. set (ln := fun p : qlab * nat => (match fst p with Lab l => l | NoLab => nolab end, snd p)).
    assert (Fi : forall k x, qlookup m k = Some x -> is_final_label d x = true <-> k = NoLab).
    { intros k x H. unfold is_final_label. rewrite Ef. destruct (qlookup m NoLab) as [y|] eqn:E.
      - rewrite Nat.eqb_eq. split; [intros ->; eapply N3; eauto|intros ->; congruence].
      - split; [discriminate|intros ->; congruence]. }
    set (kept := filter (fun p => negb (is_final_label d (snd p))) m).
    assert (Kp : forall k x, In (k, x) kept <-> qlookup m k = Some x /\ k <> NoLab).
    { intros k x. unfold kept. rewrite filter_In. cbn [snd]. split.
      - intros [H E]. apply (in_qlookup m k x N1) in H. split; auto. intros Hk. apply (Fi k x H) in Hk. rewrite Hk in E. discriminate.
      - intros [H E]. split; [apply qlookup_in; auto|]. destruct (is_final_label d x) eqn:X; auto. apply (Fi k x H) in X. contradiction. }
    set (extra := filter (fun i => match qlookup m (Lab i) with None => true | Some v => is_final_label d v end) (seq 1 (length m))).
    assert (Ex : forall i, In i extra <-> 1 <= i <= length m /\ qlookup m (Lab i) = None).
    { intros i. unfold extra. rewrite filter_In, in_seq. destruct (qlookup m (Lab i)) as [v|] eqn:E.
      - split; [|intros [_ H]; discriminate]. intros [_ H]. apply (Fi _ _ E) in H. discriminate.
      - split; [intros [H _]; split; auto; lia|]. intros [H _]. split; auto. lia. }
    assert (EP : forall a, lr_relabel_pairs d nolab a = map ln kept ++ (if a then map (fun i => (i, S (length m))) extra else [])) by reflexivity.
    assert (IK : forall l x, In (l, x) (map ln kept) <-> qlookup m (Lab l) = Some x).
    { intros l x. rewrite in_map_iff. split.
      - intros ([k v] & E & H). apply Kp in H as [H Hk]. unfold ln in E. cbn [fst snd] in E. destruct k as [|l']; [congruence|]. injection E as -> ->. auto.
      - intros H. exists (Lab l, x). split; [reflexivity|]. apply Kp. split; [auto|discriminate]. }
    assert (IA : forall l x a, In (l, x) (lr_relabel_pairs d nolab a) <-> qlookup m (Lab l) = Some x \/ (a = true /\ In l extra /\ x = S (length m))).
    { intros l x a. rewrite EP, in_app_iff, IK. destruct a; [|split; [intros [H|[]]; auto|intros [H|[H _]]; [auto|discriminate]]].
      rewrite in_map_iff. split; (intros [H|H]; [auto|right]).
      - destruct H as (i & E & H). injection E as -> <-. auto.
      - destruct H as (_ & H & ->). exists l. auto. }
    assert (KA : forall l a, In l (map fst (lr_relabel_pairs d nolab a)) <-> qlookup m (Lab l) <> None \/ (a = true /\ In l extra)).
    { intros l a. rewrite in_map_iff. split.
      - intros ([l' x] & <- & H). apply IA in H as [H|(H1 & H2 & _)]; cbn [fst]; [left; congruence|auto].
      - intros [H|[H1 H2]].
        + destruct (qlookup m (Lab l)) as [x|] eqn:E; [|congruence]. exists (l, x). split; auto. apply IA. auto.
        + exists (l, S (length m)). split; auto. apply IA. auto. }
    split; [|split; [|split]].
    - intros l x. rewrite IA. split; [intros [H|[H _]]; [auto|discriminate]|auto].
    - rewrite EP, map_app. assert (X : NoDup (map fst (map ln kept))).
      { assert (Y : forall l : list (qlab * nat), NoDup (map fst l) -> ~ In NoLab (map fst l) -> NoDup (map fst (map ln l))).
        { induction l as [|[k v] l IH]; cbn [map fst]; [constructor|]. intros ND NL. inversion ND as [|? ? H1 H2]; subst. destruct k as [|k]; [exfalso; apply NL; left; auto|].
          constructor; [|apply IH; auto; intros H; apply NL; right; auto]. cbn. intros H. apply in_map_iff in H as ([a b] & Ea & H). cbn [fst] in Ea. subst a.
          apply in_map_iff in H as ([k' v'] & E & H). unfold ln in E. cbn [fst snd] in E. destruct k' as [|k'].
          - apply NL. right. apply in_map_iff. exists (NoLab, v'). auto.
          - injection E as -> _. apply H1. apply in_map_iff. exists (Lab k, v'). auto. }
        apply Y.
        - unfold kept. clear - N1. induction m as [|[k v] m IH]; cbn [filter map fst]; [constructor|]. cbn [map fst] in N1. inversion N1 as [|? ? H1 H2]; subst.
          destruct (negb (is_final_label d (snd (k, v)))); auto. cbn [map fst]. constructor; auto. intros H. apply H1. apply in_map_iff in H as (p & <- & H). apply filter_In in H as [H _].
          apply in_map; auto.
        - intros H. apply in_map_iff in H as ([k v] & Ek & H). apply Kp in H as [_ H]. auto. }
      destruct avoid; [|cbn; rewrite app_nil_r; auto]. rewrite (map_map (fun i => (i, S (length m)))). cbn [fst]. rewrite map_id. apply NoDup_app_i; auto.
      + unfold extra. apply NoDup_filter, seq_NoDup.
      + intros l H1 H2. apply in_map_iff in H1 as ([l' x] & <- & H1). apply IK in H1. apply Ex in H2 as [_ H2]. cbn in H2. congruence.
    - intros l x H y. unfold sends. rewrite IA, KA. split.
      + intros [[H'|(_ & H' & _)]|[H' _]]; [congruence| |].
        * apply Ex in H' as [_ H']. congruence.
        * exfalso. apply H'. left. congruence.
      + intros ->. auto.
    - intros l H Hl y. unfold sends. rewrite IA, KA. intros [[H'|(_ & _ & ->)]|[H' ->]]; [congruence|lia|].
      destruct (Nat.lt_ge_cases (length m) l) as [X|X]; auto. exfalso. apply H'. right. split; auto. apply Ex. split; auto. lia.
  Qed.
End Pairs.

Print Assumptions C52_relabel.
Print Assumptions C52_relabel_fst.
Print Assumptions C52_relabel_pairs.

(** A machine with labels 9 and 5 of the index, a new label 2, and an epsilon. *)
Definition c52_ops : list (op natSR) :=
  [OAddStates 2; OSetStart 0; OAddTr 0 (Tr 1 9 2 1); OAddTr 0 (Tr 3 2 1 0); OAddTr 0 (Tr 4 5 3 1); OAddTr 0 (Tr 5 0 3 1); OSetFinal 1 6].
Definition c52_fst : vfst natSR := match run vnew c52_ops with Ok f => f | _ => vnew end.
Example C52_witness :
  cnt c52_fst /\ numbering (ld_l2i lab_data) /\ ld_final lab_data = qlookup (ld_l2i lab_data) NoLab /\
  (exists d' g, relabel_fst lab_data c52_fst false = Ok (d', g) /\ ld_l2i lab_data = [(Lab 9, 2); (Lab 5, 3); (NoLab, 1)] /\
     ld_l2i d' = [(Lab 9, 2); (Lab 5, 3); (NoLab, 1); (Lab 2, 4)] /\
     trs_of g 0 = [Tr 5 0 3 1; Tr 1 2 2 1; Tr 4 3 3 1; Tr 3 4 1 0]) /\
  lr_relabel_pairs lab_data 1000 true = [(9, 2); (5, 3); (1, 4); (2, 4); (3, 4)].
Proof.
  split; [vm_compute; repeat constructor|]. split; [|split; [vm_compute; reflexivity|split]].
  - assert (E : ld_l2i lab_data = [(Lab 9, 2); (Lab 5, 3); (NoLab, 1)]) by (vm_compute; reflexivity). rewrite E. split; [|split].
    + repeat constructor; cbn; intuition discriminate.
    + intros k x H. apply qlookup_in in H as [H|[H|[H|[]]]]; injection H as _ <-; cbn; lia.
    + intros k k' x H H'. apply qlookup_in in H as [H|[H|[H|[]]]]; apply qlookup_in in H' as [H'|[H'|[H'|[]]]]; congruence.
  - eexists. eexists. split; [vm_compute; reflexivity|]. repeat split; vm_compute; reflexivity.
  - vm_compute. reflexivity.
Qed.
