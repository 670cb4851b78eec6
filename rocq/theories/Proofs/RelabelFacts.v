(** In-place label rewriting: exact result and consequences. *)
From Coq Require Import List Arith NArith Lia Bool Permutation Sorted.
From Verif Require Import Base.Util Base.Semiring Base.Machine Base.PropSpec
  Model.Props Model.VectorFst Model.TrOps Model.History Model.AlgoProps Model.Relabel
  Proofs.PropsFacts Proofs.VectorFacts Proofs.DelStates Proofs.VectorProps Proofs.TrOpsFacts
  Proofs.HistoryFacts.
Import ListNotations.

Section R.
  Context {K : SR} (L : lsr_laws K).
  Implicit Types (f h : vfst K).

  (** State with transitions rewritten by [g] and recomputed counters. *)
  Definition rstate (g : tr K -> tr K) (st : vstate K) : vstate K :=
    VS (vfin st) (map g (vtrs st)) (count ieps (map g (vtrs st))) (count oeps (map g (vtrs st))).

  (** The body of the loop rewrites exactly transition [i] of state [s] by [g]. *)
  Definition rewrites (g : tr K -> tr K) (body : vfst K -> nat -> nat -> res (vfst K)) : Prop :=
    forall h s i st t, cnt h -> nth_error (vstates h) s = Some st -> nth_error (vtrs st) i = Some t ->
      exists st' p, body h s i = Ok (upd_state h s st' p) /\ cnt_ok st' /\
        vfin st' = vfin st /\ vtrs st' = upd (vtrs st) i (g t).

  Lemma upd_upd_state f s a b p q :
    upd_state (upd_state f s a p) s b q = upd_state f s b q.
  Proof.
    unfold upd_state; simpl. f_equal. generalize (vstates f) as l. intros l; revert s.
    induction l; intros [|s]; simpl; auto. f_equal; auto.
  Qed.

  Lemma upd_same {A} (l : list A) i x : nth_error l i = Some x -> upd l i x = l.
  Proof.
    revert i; induction l; intros [|i] H; simpl in *; try discriminate; [congruence|f_equal; auto].
  Qed.

  Lemma for_trs_rewrites g body f s st : rewrites g body -> cnt f -> nth_error (vstates f) s = Some st ->
    exists p, for_trs body f s = Ok (upd_state f s (rstate g st) p).
  Proof.
    intros R H E. unfold for_trs.
    assert (G : forall suf pre h st', vtrs st = pre ++ suf -> cnt h ->
       nth_error (vstates h) s = Some st' -> vfin st' = vfin st -> vtrs st' = map g pre ++ suf ->
       exists p, fold_left (fun r i => h <-- r ;; body h s i) (seq (length pre) (length suf)) (Ok h) =
         Ok (upd_state h s (rstate g st) p)).
    { induction suf as [|t suf IH]; intros pre h st' E1 C E2 E3 E4; simpl.
      - rewrite app_nil_r in E1, E4. exists (vprops h).
        assert (st' = rstate g st) as <-.
        { destruct (cnt_nth _ _ _ C E2) as [C1 C2]. destruct st' as [a b c d].
          simpl in *. unfold rstate. rewrite E1. subst. reflexivity. }
        unfold upd_state. rewrite upd_same by auto. destruct h; reflexivity.
      - destruct (R h s (length pre) st' t C E2) as (st2 & p & B1 & B2 & B3 & B4).
        { rewrite E4, nth_error_app2; rewrite map_length; [rewrite Nat.sub_diag; reflexivity|lia]. }
        rewrite B1. simpl.
        destruct (IH (pre ++ [t]) (upd_state h s st2 p) st2) as (q & Hq).
        + rewrite <- app_assoc. exact E1.
        + apply cnt_upd; auto.
        + simpl. apply nth_error_upd_eq. apply nth_error_Some. congruence.
        + congruence.
        + rewrite B4, E4, map_app, <- app_assoc. simpl.
          rewrite upd_app_r; rewrite map_length; [|lia]. rewrite Nat.sub_diag. reflexivity.
        + rewrite app_length in Hq. simpl in Hq. rewrite Nat.add_1_r in Hq.
          exists q. rewrite Hq. rewrite upd_upd_state. reflexivity. }
    destruct (G (vtrs st) [] f st eq_refl H E eq_refl eq_refl) as (p & Hp).
    exists p. unfold trs_of. rewrite E. exact Hp.
  Qed.

  Lemma cnt_rstate g st : cnt_ok (rstate g st).
  Proof. split; reflexivity. Qed.

  Lemma for_states_rewrites g body f : rewrites g body -> cnt f ->
    exists p, for_states (for_trs body) f =
      Ok (VF (map (rstate g) (vstates f)) (vstart f) (visymt f) (vosymt f) p).
  Proof.
    intros R H. unfold for_states.
    assert (G : forall suf pre h, cnt h -> vstates h = pre ++ suf ->
      exists p, fold_left (fun r s => h <-- r ;; for_trs body h s) (seq (length pre) (length suf)) (Ok h) =
        Ok (VF (pre ++ map (rstate g) suf) (vstart h) (visymt h) (vosymt h) p)).
    { induction suf as [|st suf IH]; intros pre h C E; simpl.
      - rewrite <- E. exists (vprops h). destruct h; reflexivity.
      - destruct (for_trs_rewrites g body h (length pre) st R C) as (p & Hp).
        { rewrite E, nth_error_app2 by lia. rewrite Nat.sub_diag. reflexivity. }
        rewrite Hp. destruct (IH (pre ++ [rstate g st]) (upd_state h (length pre) (rstate g st) p)) as (q & Hq).
        + apply cnt_upd; auto. apply cnt_rstate.
        + simpl. rewrite E, upd_app_r by lia. rewrite Nat.sub_diag, <- app_assoc. reflexivity.
        + rewrite app_length in Hq. simpl in Hq. rewrite Nat.add_1_r in Hq.
          exists q. rewrite Hq. rewrite <- app_assoc. reflexivity. }
    destruct (G (vstates f) [] f H eq_refl) as (p & Hp). exists p. exact Hp.
  Qed.

  (** The label setters. *)
  Lemma set_labels_rewrites (g : tr K -> nat * nat) :
    rewrites (fun t => Tr (fst (g t)) (snd (g t)) (wgt t) (ns t))
      (fun h s i => with_tr h s i (fun t => iter_set_labels h s i (fst (g t)) (snd (g t)))).
  Proof.
    intros h s i st t C E1 E2. unfold with_tr, trs_of. rewrite E1, E2.
    unfold iter_set_labels, get_state. rewrite E1. simpl. rewrite E2.
    destruct (iter_cnt st i t (fst (g t)) (snd (g t)) (wgt t) (ns t) (cnt_nth _ _ _ C E1) E2)
      as (ni & no & N1 & N2 & N3).
    rewrite N1, N2. simpl. eexists. eexists. split; [reflexivity|]. auto.
  Qed.
  Lemma updt_eps_same c x : b2n (x =? 0) <= c -> updt_eps c x x = Ok c.
  Proof.
    intros H. destruct (updt_eps_ok c x x H) as (c' & -> & E). f_equal. lia.
  Qed.
  Lemma set_ilabel_labels h s i st t a : cnt h -> nth_error (vstates h) s = Some st ->
    nth_error (vtrs st) i = Some t -> iter_set_ilabel h s i a = iter_set_labels h s i a (ol t).
  Proof.
    intros C E1 E2. unfold iter_set_ilabel, iter_set_labels, get_state. rewrite E1. simpl. rewrite E2.
    destruct (updt_eps (vnie st) (il t) a); simpl; auto.
    rewrite updt_eps_same; auto. destruct (cnt_nth _ _ _ C E1) as [_ ->]. apply (count_in oeps _ _ _ E2).
  Qed.
  Lemma set_olabel_labels h s i st t b : cnt h -> nth_error (vstates h) s = Some st ->
    nth_error (vtrs st) i = Some t -> iter_set_olabel h s i b = iter_set_labels h s i (il t) b.
  Proof.
    intros C E1 E2. unfold iter_set_olabel, iter_set_labels, get_state. rewrite E1. simpl. rewrite E2.
    rewrite updt_eps_same; auto. destruct (cnt_nth _ _ _ C E1) as [-> _]. apply (count_in ieps _ _ _ E2).
  Qed.

  Lemma invert_eq f : cnt f -> exists q, invert f =
    Ok (set_all (VF (map (rstate (fun t => Tr (ol t) (il t) (wgt t) (ns t))) (vstates f))
             (vstart f) (visymt f) (vosymt f) q) (invert_properties (vprops f))).
  Proof.
    intros C. unfold invert.
    destruct (for_states_rewrites _ _ f (set_labels_rewrites (fun t => (ol t, il t))) C) as (p & Hp).
    simpl in Hp. rewrite Hp. exists p. reflexivity.
  Qed.
  Lemma project_eq f pt : cnt f -> exists q, project f pt =
    Ok (set_all (VF (map (rstate (fun t => match pt with
                                           | ProjectInput => Tr (il t) (il t) (wgt t) (ns t)
                                           | ProjectOutput => Tr (ol t) (ol t) (wgt t) (ns t)
                                           end)) (vstates f))
             (vstart f) (visymt f) (vosymt f) q) (project_properties (vprops f) pt)).
  Proof.
    intros C. unfold project. destruct pt.
    - destruct (for_states_rewrites (fun t => Tr (il t) (il t) (wgt t) (ns t))
        (fun h s i => with_tr h s i (fun t => iter_set_olabel h s i (il t))) f) as (p & Hp); auto.
      + intros h s i st t Ch E1 E2.
        destruct (set_labels_rewrites (fun t => (il t, il t)) h s i st t Ch E1 E2) as (st' & p & A & B).
        exists st', p. split; auto. revert A. unfold with_tr, trs_of. rewrite E1, E2.
        rewrite (set_olabel_labels h s i st t (il t)); auto.
      + rewrite Hp. exists p. reflexivity.
    - destruct (for_states_rewrites (fun t => Tr (ol t) (ol t) (wgt t) (ns t))
        (fun h s i => with_tr h s i (fun t => iter_set_ilabel h s i (ol t))) f) as (p & Hp); auto.
      + intros h s i st t Ch E1 E2.
        destruct (set_labels_rewrites (fun t => (ol t, ol t)) h s i st t Ch E1 E2) as (st' & p & A & B).
        exists st', p. split; auto. revert A. unfold with_tr, trs_of. rewrite E1, E2.
        rewrite (set_ilabel_labels h s i st t (ol t)); auto.
      + rewrite Hp. exists p. reflexivity.
  Qed.

  (** ** Machines related by rewriting each transition *)
  Definition mmap (g : tr K -> tr K) (m m' : machine K) : Prop :=
    mstart m' = mstart m /\ (forall s, mtrs m' s = map g (mtrs m s)) /\ (forall s, mfin m' s = mfin m s).

  Lemma rstate_mmap g f p q : mmap g (mach f)
    (mach (set_all (VF (map (rstate g) (vstates f)) (vstart f) (visymt f) (vosymt f) p) q)).
  Proof.
    split; [reflexivity|]. split; intros s; cbn [mach mtrs mfin]; unfold trs_of, fin_of; simpl;
      rewrite nth_error_map; destruct (nth_error (vstates f) s); reflexivity.
  Qed.

  Section Shape.
    Context (g : tr K -> tr K) (Gn : forall t, ns (g t) = ns t) (Gw : forall t, wgt (g t) = wgt t).
    Context (m m' : machine K) (M : mmap g m m').
    Lemma mmap_in s t : In t (mtrs m s) -> In (g t) (mtrs m' s).
    Proof. destruct M as (_ & -> & _). apply in_map. Qed.
    Lemma mmap_in' s t : In t (mtrs m' s) -> exists t0, t = g t0 /\ In t0 (mtrs m s).
    Proof. destruct M as (_ & -> & _). intros H. apply in_map_iff in H as (t0 & <- & H). eauto. Qed.
    Lemma mmap_reach a b : reach m' a b <-> reach m a b.
    Proof.
      split.
      - induction 1 as [|s t u H]; [constructor|]. apply mmap_in' in H as (t0 & -> & H).
        econstructor; eauto. rewrite Gn in *. auto.
      - induction 1 as [|s t u H]; [constructor|]. apply mmap_in in H.
        econstructor; eauto. rewrite Gn. auto.
    Qed.
    Lemma mmap_cycle s : on_cycle m' s <-> on_cycle m s.
    Proof.
      split; intros (t & Ht & Hr).
      - apply mmap_in' in Ht as (t0 & -> & H). exists t0. split; auto. rewrite Gn in Hr. apply mmap_reach; auto.
      - exists (g t). split; [apply mmap_in; auto|]. rewrite Gn. apply mmap_reach; auto.
    Qed.
    Lemma mmap_acc s : accessible m' s <-> accessible m s.
    Proof. unfold accessible. destruct M as (-> & _). setoid_rewrite mmap_reach. tauto. Qed.
    Lemma mmap_coacc s : coaccessible m' s <-> coaccessible m s.
    Proof.
      unfold coaccessible. destruct M as (_ & _ & F). setoid_rewrite mmap_reach. setoid_rewrite F. tauto.
    Qed.
    Lemma mmap_string n : is_string n m' <-> is_string n m.
    Proof.
      unfold is_string. destruct M as (-> & T & F). apply or_iff_compat_l, and_iff_compat_l.
      split; intros H s Hs; specialize (H s Hs); rewrite ?T, ?F in *; destruct (S s =? n).
      - destruct H as [H1 H2]. split; auto. destruct (mtrs m s); [auto|discriminate].
      - destruct H as [(t & H1 & H2) H3]. split; auto.
        destruct (mtrs m s) as [|t0 [|]]; try discriminate. exists t0. split; auto.
        inversion H1; subst. rewrite Gn in H2. auto.
      - destruct H as [-> H2]. auto.
      - destruct H as [(t & -> & H2) H3]. split; auto. exists (g t). simpl. rewrite Gn. auto.
    Qed.
    Lemma shape_holds b n : In b shape_bits -> holds b n m -> holds b n m'.
    Proof.
      intros Hb H. pose proof M as (MS & MT & MF).
      simpl in Hb. repeat (destruct Hb as [<-|Hb]); try tauto; cbn [holds] in *.
      - destruct H as [(s & t & H1 & H2)|(s & w & H1 & H2)].
        + left. exists s, (g t). split; [apply mmap_in; auto|]. rewrite Gw. auto.
        + right. exists s, w. rewrite MF. auto.
      - destruct H as [H1 H2]. split.
        + intros s t Ht. apply mmap_in' in Ht as (t0 & -> & Ht). rewrite Gw. eauto.
        + intros s w. rewrite MF. apply H2.
      - destruct H as (s & t & H1 & H2 & H3). exists s, (g t).
        rewrite Gn, Gw. split; [apply mmap_in; auto|]. split; auto. apply mmap_reach; auto.
      - intros s t Ht Hr. apply mmap_in' in Ht as (t0 & -> & Ht). rewrite Gw. rewrite Gn in Hr.
        apply (H s t0); auto. apply mmap_reach; auto.
      - destruct H as (s & H). exists s. apply mmap_cycle; auto.
      - intros s Hc. apply (H s). apply mmap_cycle; auto.
      - destruct H as (s & Hs & H). exists s. split; [congruence|]. apply mmap_cycle; auto.
      - intros s Hs Hc. apply (H s); [congruence|]. apply mmap_cycle; auto.
      - intros s t Ht. apply mmap_in' in Ht as (t0 & -> & Ht). rewrite Gn. auto.
      - destruct H as (s & t & Ht & Hl). exists s, (g t). rewrite Gn. split; auto. apply mmap_in; auto.
      - intros s Hs. apply mmap_acc; auto.
      - destruct H as (s & Hs & H). exists s. split; auto. rewrite mmap_acc. auto.
      - intros s Hs. apply mmap_coacc; auto.
      - destruct H as (s & Hs & H). exists s. split; auto. rewrite mmap_coacc. auto.
      - apply mmap_string; auto.
      - rewrite mmap_string. auto.
    Qed.
    Lemma mmap_il s : map il (mtrs m' s) = map (fun t => il (g t)) (mtrs m s).
    Proof. destruct M as (_ & -> & _). rewrite map_map. reflexivity. Qed.
    Lemma mmap_ol s : map ol (mtrs m' s) = map (fun t => ol (g t)) (mtrs m s).
    Proof. destruct M as (_ & -> & _). rewrite map_map. reflexivity. Qed.
    (** Paths correspond one to one. *)
    Lemma mmap_paths n s : paths m' n s = map (map g) (paths m n s).
    Proof.
      revert s; induction n; intros s; simpl; auto.
      destruct M as (_ & MT & _). rewrite MT.
      induction (mtrs m s) as [|t l IH]; simpl; auto.
      rewrite map_app, IH, Gn, IHn, !map_map. reflexivity.
    Qed.
    Lemma mmap_dst s p : dst s (map g p) = dst s p.
    Proof. revert s; induction p; intros s; simpl; auto. rewrite Gn. auto. Qed.
    Lemma mmap_pw p : pw (map g p) = pw p.
    Proof. induction p; simpl; auto. rewrite Gw, IHp. auto. Qed.
    Lemma mmap_apw s p : apw m' s (map g p) = apw m s p.
    Proof. unfold apw. rewrite mmap_pw, mmap_dst. destruct M as (_ & _ & ->). reflexivity. Qed.
    Lemma mmap_wt n s x y : wt m' n s x y =
      ksum (map (fun p => if leqb (ilabs (map g p)) x && leqb (olabs (map g p)) y then apw m s p else kzero)
                (paths m n s)).
    Proof.
      rewrite (wt_paths L), mmap_paths, map_map. apply ksum_map_ext. intros p _.
      rewrite mmap_apw. reflexivity.
    Qed.
  End Shape.

  Lemma has_when c l p b : has (when c l p) b = has p b || (c && inb b l).
  Proof. unfold when. destruct c; [rewrite has_pset|rewrite orb_false_r]; auto. Qed.
  Lemma has_copyif c l i p b : has (copyif c l i p) b = has p b || (c && (has i b && inb b l)).
  Proof.
    unfold copyif. destruct c; [rewrite has_lor, has_pkeep|rewrite orb_false_r]; auto.
  Qed.

  Lemma invert_fsound f f' : cnt f -> fsound f -> invert f = Ok f' -> fsound f'.
  Proof.
    intros C H E. destruct (invert_eq f C) as (q & Eq). rewrite Eq in E. inversion E; subst f'; clear E.
    intros b Hb. rewrite has_set_all in Hb.
    set (g := fun t : tr K => Tr (ol t) (il t) (wgt t) (ns t)) in *.
    pose proof (rstate_mmap g f q (invert_properties (vprops f))) as M.
    set (f' := set_all _ _) in *.
    assert (N' : num_states f' = num_states f) by (unfold num_states; simpl; apply map_length).
    rewrite N'.
    assert (IL : forall s, map il (trs_of f' s) = map ol (trs_of f s)).
    { intros s. apply (mmap_il g (mach f) (mach f') M). }
    assert (OL : forall s, map ol (trs_of f' s) = map il (trs_of f s)).
    { intros s. apply (mmap_ol g (mach f) (mach f') M). }
    assert (I1 : forall s t, In t (trs_of f s) -> In (g t) (trs_of f' s)).
    { intros s t. apply (mmap_in g _ _ M). }
    assert (I2 : forall s t, In t (trs_of f' s) -> exists t0, t = g t0 /\ In t0 (trs_of f s)).
    { intros s t. apply (mmap_in' g _ _ M). }
    assert (G : forall c, has (vprops f) c = true -> holds c (num_states f) (mach f)) by (apply H).
    unfold invert_properties in Hb. rewrite !has_when, has_pkeep in Hb.
    destruct (inb b shape_bits) eqn:Es.
    { apply inb_In in Es. apply (shape_holds g (fun _ => eq_refl) (fun _ => eq_refl) _ _ M); auto.
      apply G. clear -Hb Es. simpl in Es.
      repeat (destruct Es as [<-|Es]; [simpl in Hb; rewrite ?andb_false_r, ?orb_false_r, ?andb_true_r in Hb; exact Hb|]). tauto. }
    destruct b; simpl in Hb, Es; try discriminate Es;
      rewrite ?andb_false_r, ?orb_false_r, ?andb_true_r in Hb; apply G in Hb;
      clear -Hb IL OL I1 I2; cbn [holds mach mtrs] in *;
      try (intros s; rewrite ?IL, ?OL; apply Hb);
      try (destruct Hb as (s & Hb); exists s; rewrite ?IL, ?OL; exact Hb).
    - intros s t Ht. apply I2 in Ht as (t0 & -> & Ht). simpl. symmetry. eauto.
    - destruct Hb as (s & t & Ht & Hl). exists s, (g t). split; [auto|simpl; auto].
    - destruct Hb as (s & t & Ht & Hl). exists s, (g t). split; [auto|simpl; tauto].
    - intros s t Ht. apply I2 in Ht as (t0 & -> & Ht). simpl. intros [? ?]. eapply Hb; eauto.
    - destruct Hb as (s & t & Ht & Hl). exists s, (g t). split; auto.
    - intros s t Ht. apply I2 in Ht as (t0 & -> & Ht). simpl. eauto.
    - destruct Hb as (s & t & Ht & Hl). exists s, (g t). split; auto.
    - intros s t Ht. apply I2 in Ht as (t0 & -> & Ht). simpl. eauto.
  Qed.

  Lemma project_fsound f pt f' : cnt f -> fsound f -> project f pt = Ok f' -> fsound f'.
  Proof.
    intros C H E. destruct (project_eq f pt C) as (q & Eq). rewrite Eq in E. inversion E; subst f'; clear E Eq.
    intros b Hb. rewrite has_set_all in Hb.
    set (g := fun t : tr K => match pt with
       | ProjectInput => Tr (il t) (il t) (wgt t) (ns t)
       | ProjectOutput => Tr (ol t) (ol t) (wgt t) (ns t) end) in *.
    pose proof (rstate_mmap g f q (project_properties (vprops f) pt)) as M.
    set (f' := set_all _ _) in *.
    assert (N' : num_states f' = num_states f) by (unfold num_states; simpl; apply map_length).
    rewrite N'.
    assert (IL : forall s, map il (trs_of f' s) = map (fun t => il (g t)) (trs_of f s)).
    { intros s. apply (mmap_il g (mach f) (mach f') M). }
    assert (OL : forall s, map ol (trs_of f' s) = map (fun t => ol (g t)) (trs_of f s)).
    { intros s. apply (mmap_ol g (mach f) (mach f') M). }
    assert (I1 : forall s t, In t (trs_of f s) -> In (g t) (trs_of f' s)).
    { intros s t. apply (mmap_in g _ _ M). }
    assert (I2 : forall s t, In t (trs_of f' s) -> exists t0, t = g t0 /\ In t0 (trs_of f s)).
    { intros s t. apply (mmap_in' g _ _ M). }
    assert (G : forall c, has (vprops f) c = true -> holds c (num_states f) (mach f)) by (apply H).
    assert (Gn : forall t, ns (g t) = ns t) by (intros t; unfold g; destruct pt; auto).
    assert (Gw : forall t, wgt (g t) = wgt t) by (intros t; unfold g; destruct pt; auto).
    destruct (inb b shape_bits) eqn:Es.
    { apply inb_In in Es. apply (shape_holds g Gn Gw _ _ M); auto.
      apply G. clear -Hb Es. unfold project_properties in Hb. simpl in Es.
      destruct pt; rewrite !has_when, !has_copyif, has_mask in Hb;
      repeat (destruct Es as [<-|Es]; [simpl in Hb; rewrite ?andb_false_r, ?orb_false_r, ?andb_true_r in Hb; exact Hb|]); tauto. }
    unfold project_properties in Hb.
    destruct pt; rewrite !has_when, !has_copyif, has_mask in Hb;
    destruct b; simpl in Hb, Es; try discriminate Es;
      rewrite ?andb_false_r, ?orb_false_r, ?andb_true_r in Hb; try discriminate Hb; try apply G in Hb;
      clear -Hb IL OL I1 I2; cbn [holds mach mtrs] in *;
      try (intros s; rewrite ?IL, ?OL; apply Hb);
      try (destruct Hb as (s & Hb); exists s; rewrite ?IL, ?OL; exact Hb);
      try (destruct Hb as (s & t & Ht & Hl); exists s, (g t); split; [apply I1; exact Ht|simpl; auto; fail]);
      try (intros s t Ht; apply I2 in Ht as (t0 & -> & Ht); simpl; eauto; fail);
      intros s t Ht; apply I2 in Ht as (t0 & -> & Ht); simpl; intros [? ?]; eapply Hb; eauto.
  Qed.
End R.
