(** C15: relabel_pairs rewrites labels simultaneously. *)
From Coq Require Import List Arith NArith Bool Lia.
From Verif Require Import Base.Util Base.Semiring Base.Machine Base.PropSpec Base.Instances
  Model.Props Model.VectorFst Model.TrOps Model.History Model.AlgoProps Model.Relabel
  Proofs.VectorFacts Proofs.DelStates Proofs.VectorProps Proofs.TrOpsFacts Proofs.HistoryFacts Proofs.RelabelFacts.
Import ListNotations.
Local Open Scope K_scope.

(** Specification: simultaneous substitution. *)
Definition subst (pairs : list (nat * nat)) (l : nat) : nat :=
  match find (fun p => Nat.eqb (fst p) l) pairs with Some p => snd p | None => l end.

Section C15.
  Context {K : SR} (L : lsr_laws K).
  Implicit Types f : vfst K.

  Lemma find_app {A} (p : A -> bool) l m :
    find p (l ++ m) = match find p l with Some x => Some x | None => find p m end.
  Proof. induction l; simpl; auto. destruct (p a); auto. Qed.

  Lemma lookup_none m k : lookup m k = None <-> ~ In k (map fst m).
  Proof.
    unfold lookup. induction m as [|[a b] m IH]; simpl; [tauto|].
    destruct (Nat.eqb_spec a k); simpl; [split; [discriminate|tauto]|]. rewrite IH. tauto.
  Qed.

  Lemma to_hashmap_spec pairs : forall m, NoDup (map fst m) ->
    match to_hashmap m pairs with
    | Ok m' => m' = (m ++ pairs)%list /\ NoDup (map fst m')
    | Err => ~ NoDup (map fst (m ++ pairs))
    | Panic => False
    end.
  Proof.
    induction pairs as [|[a b] l IH]; intros m H; simpl.
    - rewrite app_nil_r. auto.
    - destruct (lookup m a) eqn:E.
      + intros N. rewrite map_app in N. simpl in N. apply NoDup_remove_2 in N.
        apply N. apply in_or_app. left. destruct (in_dec Nat.eq_dec a (map fst m)); auto.
        apply lookup_none in n0. congruence.
      + apply lookup_none in E. specialize (IH (m ++ [(a, b)])%list).
        assert (N : NoDup (map fst (m ++ [(a, b)]))).
        { rewrite map_app. simpl. apply NoDup_app_snoc; auto. }
        specialize (IH N). rewrite <- app_assoc in IH. exact IH.
  Qed.

  Definition relabel_tr ip op (t : tr K) : tr K := Tr (subst ip (il t)) (subst op (ol t)) (wgt t) (ns t).

  Definition relabel_body mi mo (h : vfst K) (s i : nat) : res (vfst K) :=
    with_tr h s i (fun t =>
      match lookup mi (il t), lookup mo (ol t) with
      | Some a, Some b => iter_set_labels h s i a b
      | Some a, None => iter_set_ilabel h s i a
      | None, Some b => iter_set_olabel h s i b
      | None, None => Ok h
      end).

  Lemma subst_lookup m k : subst m k = match lookup m k with Some b => b | None => k end.
  Proof. unfold subst, lookup. destruct (find _ m); reflexivity. Qed.

  Lemma relabel_rewrites mi mo : rewrites (relabel_tr mi mo) (relabel_body mi mo).
  Proof.
    intros h s i st t C E1 E2. unfold relabel_body, with_tr, trs_of. rewrite E1, E2.
    unfold relabel_tr. rewrite !subst_lookup.
    assert (G : forall a b, exists st' p, iter_set_labels h s i a b = Ok (upd_state h s st' p) /\ cnt_ok st' /\
        vfin st' = vfin st /\ vtrs st' = upd (vtrs st) i (Tr a b (wgt t) (ns t))).
    { intros a b. destruct (set_labels_rewrites (fun _ => (a, b)) h s i st t C E1 E2) as (st' & p & A & B).
      exists st', p. split; auto. revert A. unfold with_tr, trs_of. rewrite E1, E2. auto. }
    destruct (lookup mi (il t)) as [a|] eqn:Ea, (lookup mo (ol t)) as [b|] eqn:Eb.
    - apply G.
    - rewrite (set_ilabel_labels h s i st t a); auto.
    - rewrite (set_olabel_labels h s i st t b); auto.
    - exists st, (vprops h). unfold upd_state. rewrite (Util.upd_same _ _ _ E1). split; [destruct h; reflexivity|].
      split; [eapply cnt_nth; eauto|]. split; auto. symmetry. apply Util.upd_same.
      destruct t; auto.
  Qed.

  Lemma relabel_pairs_eq f ip op : cnt f -> NoDup (map fst ip) -> NoDup (map fst op) ->
    exists p, relabel_pairs f ip op =
      Ok (VF (map (rstate (relabel_tr ip op)) (vstates f)) (vstart f) (visymt f) (vosymt f) p).
  Proof.
    intros C Ni No. unfold relabel_pairs.
    pose proof (to_hashmap_spec ip [] (NoDup_nil _)) as Hi. pose proof (to_hashmap_spec op [] (NoDup_nil _)) as Ho.
    destruct (to_hashmap [] ip) as [mi| |]; simpl in *; try tauto. destruct Hi as [-> _].
    destruct (to_hashmap [] op) as [mo| |]; simpl in *; try tauto. destruct Ho as [-> _].
    apply (for_states_rewrites _ (relabel_body ip op)); auto. apply relabel_rewrites.
  Qed.

  (** Machine and relation after relabelling. *)
  Theorem C15_relabel_pairs :
    forall calls f ip op, run vnew calls = Ok f -> NoDup (map fst ip) -> NoDup (map fst op) ->
    exists f', relabel_pairs f ip op = Ok f' /\
      num_states f' = num_states f /\ vstart f' = vstart f /\ (forall s, fin_of f' s = fin_of f s) /\
      (forall s, trs_of f' s =
         map (fun t => Tr (subst ip (il t)) (subst op (ol t)) (wgt t) (ns t)) (trs_of f s)) /\
      forall n x y, rel (mach f') n x y =
        match vstart f with
        | None => 0
        | Some s => ksum (map (fun p =>
            if leqb (flat_map (fun t => lab (subst ip (il t))) p) x &&
               leqb (flat_map (fun t => lab (subst op (ol t))) p) y
            then apw (mach f) s p else 0) (paths (mach f) n s))
        end.
  Proof.
    intros calls f ip op E Ni No. assert (C : cnt f) by (eapply run_cnt; eauto; constructor).
    destruct (relabel_pairs_eq f ip op C Ni No) as (p & Ep). eexists. split; [exact Ep|].
    set (f' := VF _ _ _ _ _).
    assert (M : mmap (relabel_tr ip op) (mach f) (mach f')).
    { split; [reflexivity|]. split; intros s; cbn [mach mtrs mfin]; unfold trs_of, fin_of; simpl;
      rewrite nth_error_map; destruct (nth_error (vstates f) s); reflexivity. }
    split; [unfold num_states; simpl; apply map_length|]. pose proof M as (MS & MT & MF).
    split; [reflexivity|]. split; [exact MF|]. split; [exact MT|].
    intros n x y. unfold rel. cbn [mach mstart]. change (vstart f') with (vstart f).
    destruct (vstart f) as [s|]; auto.
    rewrite (mmap_wt L (relabel_tr ip op) (fun _ => eq_refl) (fun _ => eq_refl) _ _ M).
    apply ksum_map_ext. intros q _. unfold ilabs, olabs. rewrite !flat_map_concat_map, !map_map. reflexivity.
  Qed.

  (** A repeated key is an error (and the machine is returned untouched). *)
  Theorem C15_duplicate_key_is_error :
    forall f ip op, ~ NoDup (map fst ip) \/ ~ NoDup (map fst op) -> relabel_pairs f ip op = Err.
  Proof.
    intros f ip op H. unfold relabel_pairs.
    pose proof (to_hashmap_spec ip [] (NoDup_nil _)) as Hi. pose proof (to_hashmap_spec op [] (NoDup_nil _)) as Ho.
    destruct (to_hashmap [] ip) as [mi| |]; simpl in *; try tauto. destruct Hi as [-> Hi].
    destruct (to_hashmap [] op) as [mo| |]; simpl in *; try tauto. destruct Ho as [-> Ho]. tauto.
  Qed.

  Definition swap_pairs (l : list (nat * nat)) : list (nat * nat) := map (fun p => (snd p, fst p)) l.

  Lemma subst_inverse l a : NoDup (map fst l) -> NoDup (map snd l) ->
    (In a (map fst l) \/ ~ In a (map snd l)) -> subst (swap_pairs l) (subst l a) = a.
  Proof.
    intros N1 N2 H. unfold subst at 2. destruct (find (fun p => (fst p =? a)%nat) l) as [[u v]|] eqn:E.
    - apply find_some in E as [E1 E2]. simpl in *. apply Nat.eqb_eq in E2. subst u.
      unfold subst, swap_pairs. clear H N1. induction l as [|[c d] l IH]; simpl in *; [tauto|].
      inversion N2; subst. destruct E1 as [E1|E1].
      + inversion E1; subst. rewrite Nat.eqb_refl. auto.
      + destruct (Nat.eqb_spec d v); auto. subst. exfalso. apply H1. apply in_map_iff. exists (a, v). auto.
    - assert (Na : ~ In a (map fst l)).
      { intros Hin. apply in_map_iff in Hin as ([c d] & Hc & Hin). simpl in Hc. subst c.
        eapply find_none in E; eauto. simpl in E. rewrite Nat.eqb_refl in E. discriminate. }
      destruct H as [H|H]; [tauto|]. unfold subst.
      destruct (find (fun p => (fst p =? a)%nat) (swap_pairs l)) as [[u v]|] eqn:E2; auto.
      apply find_some in E2 as [E2 E3]. simpl in E3. apply Nat.eqb_eq in E3. subst u.
      unfold swap_pairs in E2. apply in_map_iff in E2 as ([c d] & Hc & Hin). simpl in Hc. inversion Hc; subst.
      exfalso. apply H. apply in_map_iff. exists (v, a). auto.
  Qed.

  (** Relabelling by an injective map (on the labels of the machine) and back. *)
  Theorem C15_inverse :
    forall calls f ip op, run vnew calls = Ok f ->
      NoDup (map fst ip) -> NoDup (map snd ip) -> NoDup (map fst op) -> NoDup (map snd op) ->
      (forall s t, In t (trs_of f s) ->
         (In (il t) (map fst ip) \/ ~ In (il t) (map snd ip)) /\
         (In (ol t) (map fst op) \/ ~ In (ol t) (map snd op))) ->
    exists f' f'', relabel_pairs f ip op = Ok f' /\
      relabel_pairs f' (swap_pairs ip) (swap_pairs op) = Ok f'' /\
      vstates f'' = vstates f /\ vstart f'' = vstart f.
  Proof.
    intros calls f ip op E N1 N2 N3 N4 H. assert (C : cnt f) by (eapply run_cnt; eauto; constructor).
    destruct (relabel_pairs_eq f ip op C N1 N3) as (p & Ep).
    set (f' := VF _ _ _ _ _) in Ep.
    assert (C' : cnt f').
    { unfold cnt, f'. simpl. apply Forall_map. apply Forall_forall. intros. apply cnt_rstate. }
    destruct (relabel_pairs_eq f' (swap_pairs ip) (swap_pairs op) C') as (q & Eq).
    { unfold swap_pairs. rewrite map_map. exact N2. }
    { unfold swap_pairs. rewrite map_map. exact N4. }
    exists f'. eexists. split; [exact Ep|]. split; [exact Eq|]. simpl. split; auto.
    rewrite map_map. transitivity (map (fun x => x) (vstates f)); [|apply map_id].
    apply map_ext_in. intros st Hst. apply In_nth_error in Hst as (s & Hs).
    destruct (cnt_nth _ _ _ C Hs) as [C1 C2]. specialize (H s). unfold trs_of in H. rewrite Hs in H.
    unfold rstate. simpl. rewrite map_map.
    assert (map (fun t => relabel_tr (swap_pairs ip) (swap_pairs op) (relabel_tr ip op t)) (vtrs st) = vtrs st) as ->.
    { rewrite <- (map_id (vtrs st)) at 2. apply map_ext_in. intros t Ht. destruct (H t Ht) as [H1 H2].
      unfold relabel_tr. simpl. rewrite !subst_inverse; auto. destruct t; reflexivity. }
    destruct st; simpl in *; congruence.
  Qed.
End C15.
Print Assumptions C15_relabel_pairs.
Print Assumptions C15_duplicate_key_is_error.
Print Assumptions C15_inverse.

(** Swapping two labels does not cascade. *)
Definition c15_calls : list (op natSR) :=
  [OAddStates 2; OSetStart 0; OAddTr 0 (Tr 1 7 2 1); OAddTr 0 (Tr 2 0 3 1); OSetFinal 1 10].
Example C15_witness : exists f f', run vnew c15_calls = Ok f /\
  relabel_pairs f [(1, 2); (2, 1)] [(7, 0)] = Ok f' /\ trs_of f' 0 = [Tr 2 0 2 1; Tr 1 0 3 1] /\
  num_output_epsilons f' 0 = Ok 2.
Proof.
  eexists. eexists. split; [vm_compute; reflexivity|]. split; [vm_compute; reflexivity|].
  repeat split; vm_compute; reflexivity.
Qed.
