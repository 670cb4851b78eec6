(** C11: tr_sum merges parallel transitions and keeps the relation. *)
From Coq Require Import List Arith NArith Bool Sorted Permutation Lia.
From Verif Require Import Base.Util Base.Semiring Base.Machine Base.PropSpec Base.Instances
  Model.Props Model.VectorFst Model.TrOps Model.History
  Proofs.VectorFacts Proofs.DelStates Proofs.VectorProps Proofs.TrOpsFacts Proofs.HistoryFacts.
Import ListNotations.
Local Open Scope K_scope.

Section C11.
  Context {K : SR} (L : sr_laws K).
  Implicit Types f : vfst K.

  Definition key (t : tr K) : nat * nat * nat := (il t, ol t, ns t).

  (** Summing keeps every weight-additive sum over the list. *)
  Lemma sum_from_ksum (g : tr K -> K)
    (Hg : forall a b q w1 w2, g (Tr a b (w1 + w2) q) = g (Tr a b w1 q) + g (Tr a b w2 q)) (l : list (tr K)) :
    forall last ni no l2 ni2 no2, sum_from last l ni no = Ok (l2, ni2, no2) ->
      ksum (map g l2) = g last + ksum (map g l).
  Proof.
    induction l as [|t l IH]; intros last ni no l2 ni2 no2; simpl.
    - intros H; inversion H. reflexivity.
    - destruct (equal_tr t last) eqn:E.
      + destruct (dec_if (il t =? 0)%nat ni) as [x1| |]; simpl; try discriminate.
        destruct (dec_if (ol t =? 0)%nat no) as [x2| |]; simpl; try discriminate.
        intros H. apply IH in H. rewrite H. apply equal_tr_true in E as (E1 & E2 & E3).
        destruct t as [a b w q], last as [a' b' w' q']; simpl in *; subst.
        rewrite Hg. symmetry. apply (kplus_assoc _ L).
      + destruct (sum_from t l ni no) as [[[l4 n4] o4]| |] eqn:Es; simpl; try discriminate.
        intros H; inversion H; subst. simpl. apply IH in Es. rewrite Es. reflexivity.
  Qed.

  Lemma sum_from_keys l : forall last ni no l2 ni2 no2, sum_from last l ni no = Ok (l2, ni2, no2) ->
    StronglySorted (fun a b => tr_le a b = true) (last :: l) ->
    NoDup (map key l2) /\ (forall u, In u l2 -> tr_le last u = true).
  Proof.
    assert (RF : forall a : tr K, tr_le a a = true) by (intros a; apply tr_le_spec; unfold lexle; lia).
    induction l as [|t l IH]; intros last ni no l2 ni2 no2; simpl.
    - intros H _; inversion H; subst. split; [repeat constructor; simpl; tauto|].
      intros u [<-|[]]; auto.
    - intros H S. inversion S as [|? ? S1 F]; subst. inversion F as [|? ? F1 F2]; subst.
      destruct (equal_tr t last) eqn:E.
      + destruct (dec_if (il t =? 0)%nat ni) as [x1| |]; simpl in H; try discriminate.
        destruct (dec_if (ol t =? 0)%nat no) as [x2| |]; simpl in H; try discriminate.
        inversion S1 as [|? ? S2 F3]; subst.
        apply IH in H.
        * destruct H as [H1 H2]. split; auto.
        * constructor; auto.
      + destruct (sum_from t l ni no) as [[[l4 n4] o4]| |] eqn:Es; simpl in H; try discriminate.
        inversion H; subst. apply IH in Es; auto. destruct Es as [N1 N2]. simpl. split.
        * constructor; auto. intros Hin. apply in_map_iff in Hin as (u & Hk & Hu).
          apply N2 in Hu. unfold key in Hk. inversion Hk.
          assert (equal_tr t last = true); [|congruence].
          apply equal_tr_true. apply tr_le_spec in F1, Hu. unfold lexle in *. lia.
        * intros u [<-|Hu]; auto. apply N2 in Hu. eapply tr_le_trans; eauto.
  Qed.

  (** From the epsilon counters alone, and with the sums the merged transitions stand for. *)
  Lemma tr_sum_rel f : cnt f ->
    exists f', tr_sum f = Ok f' /\
      num_states f' = num_states f /\ vstart f' = vstart f /\ (forall s, fin_of f' s = fin_of f s) /\
      (forall s, NoDup (map (fun t => (il t, ol t, ns t)) (trs_of f' s))) /\
      (forall s (g : tr K -> K), (forall a b q w1 w2, g (Tr a b (w1 + w2) q) = g (Tr a b w1 q) + g (Tr a b w2 q)) ->
         ksum (map g (trs_of f' s)) = ksum (map g (trs_of f s))) /\
      cnt f' /\ visymt f' = visymt f /\ vosymt f' = vosymt f /\
      (forall n x y, rel (mach f') n x y = rel (mach f) n x y).
  Proof.
    intros C.
    rewrite tr_sum_eq. destruct (map_res_sum_total _ C) as (l' & E1 & C1). rewrite E1. cbn [rbind].
    eexists. split; [reflexivity|]. set (f' := set_all _ _).
    apply map_res_ok in E1.
    assert (T : forall s, match nth_error (vstates f) s, nth_error l' s with
                          | Some st, Some st' => sum_state st = Ok st' | None, None => True | _, _ => False end).
    { intros s. apply (Forall2_nth _ _ _ s E1). }
    assert (SS : forall st st', sum_state st = Ok st' -> vfin st' = vfin st /\
       NoDup (map key (vtrs st')) /\
       (forall g : tr K -> K, (forall a b q w1 w2, g (Tr a b (w1 + w2) q) = g (Tr a b w1 q) + g (Tr a b w2 q)) ->
          ksum (map g (vtrs st')) = ksum (map g (vtrs st)))).
    { intros st st' H. unfold sum_state in H.
      pose proof (isort_sorted tr_le tr_le_tot tr_le_trans (vtrs st)) as S.
      pose proof (isort_perm tr_le (vtrs st)) as P.
      destruct (sum_trs (isort tr_le (vtrs st)) (vnie st) (vnoe st)) as [[[l2 n2] o2]| |] eqn:Es;
        simpl in H; inversion H; subst; clear H. simpl. split; auto.
      destruct (isort tr_le (vtrs st)) as [|t l] eqn:Ei; simpl in Es.
      - inversion Es; subst. split; [constructor|]. intros g Hg. apply Permutation_nil in P. rewrite P. auto.
      - split; [eapply sum_from_keys; eauto|]. intros g Hg.
        rewrite (sum_from_ksum g Hg l _ _ _ _ _ _ Es).
        change (g t + ksum (map g l)) with (ksum (map g (t :: l))).
        apply (ksum_perm_map L). auto. }
    split; [|split; [reflexivity|split; [|split; [|split; [|split; [exact C1|split; [reflexivity|split; [reflexivity|]]]]]]]].
    - unfold num_states. simpl. symmetry. eapply Forall2_len; eauto.
    - intros s. unfold fin_of. change (vstates f') with l'. specialize (T s).
      destruct (nth_error (vstates f) s), (nth_error l' s); try tauto. apply (SS _ _ T).
    - intros s. unfold trs_of. change (vstates f') with l'. specialize (T s).
      destruct (nth_error (vstates f) s), (nth_error l' s); try tauto; [apply (SS _ _ T)|constructor].
    - intros s g Hg. unfold trs_of. change (vstates f') with l'. specialize (T s).
      destruct (nth_error (vstates f) s), (nth_error l' s); try tauto. apply (SS _ _ T). auto.
    - assert (W : forall n s x y, wt (mach f') n s x y = wt (mach f) n s x y).
      { induction n; intros s x y; simpl.
        - assert (fin_of f' s = fin_of f s) as ->; auto.
          unfold fin_of. change (vstates f') with l'. specialize (T s).
          destruct (nth_error (vstates f) s), (nth_error l' s); try tauto. apply (SS _ _ T).
        - transitivity (ksum (map (fun t => match strip (il t) x with
             | Some x' => match strip (ol t) y with
                          | Some y' => wgt t * wt (mach f) n (ns t) x' y' | None => 0 end
             | None => 0 end) (trs_of f' s))).
          + apply ksum_map_ext. intros t _. destruct (strip (il t) x), (strip (ol t) y); auto.
            rewrite IHn; auto.
          + unfold trs_of. change (vstates f') with l'. specialize (T s).
            destruct (nth_error (vstates f) s) as [st|], (nth_error l' s) as [st'|]; try tauto; auto.
            destruct (SS _ _ T) as (_ & _ & G). apply G. intros a b q w1 w2. simpl.
            destruct (strip a x), (strip b y); try (symmetry; apply (kplus_0_l _ L)).
            apply (kdistr_r _ L). }
      intros n x y. unfold rel. cbn [mach mstart]. change (vstart f') with (vstart f).
      destruct (vstart f); auto.
  Qed.
  Theorem C11_tr_sum :
    forall calls f, run vnew calls = Ok f ->
    exists f', tr_sum f = Ok f' /\
      num_states f' = num_states f /\ vstart f' = vstart f /\ (forall s, fin_of f' s = fin_of f s) /\
      (forall s, NoDup (map (fun t => (il t, ol t, ns t)) (trs_of f' s))) /\
      (forall n x y, rel (mach f') n x y = rel (mach f) n x y).
  Proof.
    intros calls f E. destruct (tr_sum_rel f) as (f' & H1 & H2 & H3 & H4 & H5 & _ & _ & _ & _ & H6); [eapply (run_cnt L); eauto; constructor|].
    exists f'. do 5 (split; [assumption|]). assumption.
  Qed.
End C11.
Print Assumptions C11_tr_sum.

Definition c11_calls : list (op natSR) :=
  [OAddStates 2; OSetStart 0; OAddTr 0 (Tr 3 1 2 1); OAddTr 0 (Tr 1 2 3 1); OAddTr 0 (Tr 3 1 5 1);
   OAddTr 0 (Tr 3 1 1 0); OSetFinal 1 10].
Example C11_witness : exists f f', run vnew c11_calls = Ok f /\ tr_sum f = Ok f' /\
  trs_of f' 0 = [Tr 1 2 3 1; Tr 3 1 1 0; Tr 3 1 7 1] /\ rel (mach f') 1 [3] [1] = 70 /\ rel (mach f) 1 [3] [1] = 70.
Proof.
  eexists. eexists. split; [vm_compute; reflexivity|]. split; [vm_compute; reflexivity|].
  repeat split; vm_compute; reflexivity.
Qed.
