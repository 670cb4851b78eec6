(** Invariants over call histories. *)
From Coq Require Import List Arith NArith Lia Bool Permutation Sorted.
From Verif Require Import Base.Util Base.Semiring Base.Machine Base.PropSpec
  Model.Props Model.VectorFst Model.TrOps Model.History
  Proofs.PropsFacts Proofs.VectorFacts Proofs.DelStates Proofs.VectorProps Proofs.TrOpsFacts.
Import ListNotations.

Section P0.
  Context {K : SR} (L : psr_laws K).
  Implicit Types (f : vfst K).

  (** Calls covered by the property-bit guarantee. *)
  Definition bits_ok_op f (o : op K) : Prop :=
    match o with
    | OSetTrs s l => trs_of f s = []
    | ORawSort _ _ | ORawUnique _ | ORawSum _ => False
    | _ => True
    end.

  Fixpoint bits_ok_run f (l : list (op K)) : Prop :=
    match l with
    | [] => True
    | o :: l' => bits_ok_op f o /\
                 match step f o with
                 | Ok f' => bits_ok_run f' l' | Err => bits_ok_run f l' | Panic => True
                 end
    end.

  Lemma fsound_set_start f s f' : fsound f -> set_start f s = Ok f' -> fsound f'.
  Proof.
    unfold set_start. destruct (nth_error (vstates f) s); try discriminate.
    intros H E. inversion E. apply (set_start_sound f s H).
  Qed.
  Lemma fsound_set_final f s w f' : fsound f -> set_final f s w = Ok f' -> fsound f'.
  Proof.
    unfold set_final. destruct (nth_error (vstates f) s) eqn:E1; try discriminate.
    intros H E. inversion E. eapply (fsound_final L f s v (Some w)); eauto.
  Qed.
  Lemma fsound_del_final f s f' : fsound f -> delete_final_weight f s = Ok f' -> fsound f'.
  Proof.
    unfold delete_final_weight. destruct (nth_error (vstates f) s) eqn:E1; try discriminate.
    intros H E. inversion E. eapply (fsound_final L f s v None); eauto.
  Qed.

  Lemma fsound_del_all f : fsound (del_all_states f).
  Proof.
    pose proof (@fsound_new K) as H. intros b Hb. specialize (H b Hb).
    eapply holds_meq; [|exact H]. repeat split.
  Qed.

  Lemma fsound_weaken f p : fsound f -> (forall b, has p b = true -> has (vprops f) b = true) ->
    fsound (with_props f p).
  Proof. intros H Hp b Hb. apply Hp in Hb. apply H in Hb. exact Hb. Qed.

  Lemma fsound_del_state f s f' : fsound f -> del_state f s = Ok f' -> fsound f'.
  Proof.
    unfold del_state. destruct (s <? num_states f); try discriminate.
    intros H. apply fsound_del_states. apply fsound_weaken; auto.
    intros b. unfold delete_states_properties. rewrite has_pkeep, andb_true_iff. tauto.
  Qed.

End P0.

Section H.
  Context {K : SR} (L : lsr_laws K).
  Implicit Types (f : vfst K).

  Lemma rmap_ok {A B} (g : A -> B) r b : rmap g r = Ok b -> exists a, r = Ok a /\ b = g a.
  Proof. destruct r; simpl; intros H; inversion H; eauto. Qed.

  Lemma step_fsound f o f' : fsound f -> bits_ok_op f o -> step f o = Ok f' -> fsound f'.
  Proof.
    intros H G E. destruct o; simpl in E, G; try tauto.
    - inversion E. apply (fsound_add_states f 1); auto.
    - inversion E. apply fsound_add_states; auto.
    - eapply fsound_set_start; eauto.
    - eapply fsound_set_final; eauto.
    - eapply fsound_del_final; eauto.
    - apply rmap_ok in E as ([f1 w] & E & ->). unfold take_final_weight in E. simpl.
      apply (fsound_del_final L f s); auto. unfold delete_final_weight.
      destruct (nth_error (vstates f) s); inversion E; auto.
    - eapply fsound_add_tr; eauto.
    - eapply fsound_delete_trs; eauto.
    - apply rmap_ok in E as ([f1 w] & E & ->). eapply fsound_pop_trs; eauto.
    - eapply fsound_del_trs_id; eauto.
    - eapply fsound_del_state; eauto.
    - eapply fsound_del_states; eauto.
    - inversion E. apply fsound_del_all.
    - eapply fsound_set_trs; eauto.
    - eapply fsound_iter_tr; eauto.
    - eapply fsound_iter_labels; eauto.
    - eapply fsound_iter_weight; eauto.
    - eapply fsound_iter_next; eauto.
    - eapply tr_sort_i_sound; eauto.
    - eapply tr_sort_o_sound; eauto.
    - eapply tr_unique_sound; eauto.
    - eapply tr_sum_sound; eauto.
  Qed.

  Lemma run_fsound l f f' : fsound f -> bits_ok_run f l -> run f l = Ok f' -> fsound f'.
  Proof.
    revert f; induction l as [|o l IH]; intros f H G E; simpl in *.
    - inversion E; subst; auto.
    - destruct G as [G1 G2]. destruct (step f o) eqn:Es; try discriminate; eauto.
      exact (IH a (step_fsound f o a H G1 Es) G2 E).
  Qed.

  (** ** Counters *)
  Lemma cnt_upd f s st p : cnt f -> cnt_ok st -> cnt (upd_state f s st p).
  Proof.
    unfold cnt. simpl. rewrite !Forall_forall. intros H C x Hx.
    apply In_upd in Hx as [Hx| ->]; auto.
  Qed.
  Lemma cnt_nth f s st : cnt f -> nth_error (vstates f) s = Some st -> cnt_ok st.
  Proof. intros H E. apply nth_error_In in E. eapply Forall_forall in H; eauto. Qed.

  Lemma cnt_ok_fin (st : vstate K) o : cnt_ok st -> cnt_ok (VS o (vtrs st) (vnie st) (vnoe st)).
  Proof. intros [A B]; split; auto. Qed.

  Lemma count_remove_at (p : tr K -> bool) l i t : nth_error l i = Some t ->
    count p (remove_at l i) + b2n (p t) = count p l.
  Proof.
    revert i; induction l as [|a l IH]; intros [|i] H; simpl in *; try discriminate.
    - inversion H; subst. rewrite count_cons. unfold b2n. lia.
    - rewrite !count_cons. specialize (IH i H). lia.
  Qed.

  Lemma dec_if_inv b n n' : dec_if b n = Ok n' -> n = n' + b2n b.
  Proof.
    destruct b; simpl; [|intros H; inversion H; lia]. destruct n; simpl; intros H; inversion H. lia.
  Qed.

  Lemma del_one_ok (st : vstate K) i : cnt_ok st -> i < length (vtrs st) ->
    exists st', del_one (Ok st) i = Ok st' /\ cnt_ok st' /\ vtrs st' = remove_at (vtrs st) i.
  Proof.
    intros [H1 H2] Hi. destruct (nth_error (vtrs st) i) as [t|] eqn:E.
    2: { apply nth_error_None in E. lia. }
    pose proof (count_remove_at ieps _ _ _ E) as C1. pose proof (count_remove_at oeps _ _ _ E) as C2.
    unfold del_one. simpl. rewrite E.
    destruct (dec_if_ok (il t =? 0) (vnie st) (count ieps (remove_at (vtrs st) i))) as (n1 & D1 & D1').
    { unfold ieps at 2, b2n in C1. lia. }
    destruct (dec_if_ok (ol t =? 0) (vnoe st) (count oeps (remove_at (vtrs st) i))) as (n2 & D2 & D2').
    { unfold oeps at 2, b2n in C2. lia. }
    rewrite D1, D2. simpl. eexists. split; [reflexivity|]. split; auto.
    unfold ieps at 2, b2n in C1. unfold oeps at 2, b2n in C2. split; simpl; lia.
  Qed.

  Lemma del_one_cnt (st : vstate K) i st' : cnt_ok st -> del_one (Ok st) i = Ok st' -> cnt_ok st'.
  Proof.
    intros H E. assert (Hi : i < length (vtrs st)).
    { simpl in E. destruct (nth_error (vtrs st) i) eqn:E1; try discriminate.
      apply nth_error_Some. congruence. }
    destruct (del_one_ok st i H Hi) as (s' & E' & C & _). congruence.
  Qed.

  Lemma fold_del_bad ids (r : res (vstate K)) : (r = Err \/ r = Panic) -> fold_left del_one ids r = r.
  Proof. induction ids; intros H; simpl; auto. destruct H as [-> | ->]; simpl; auto. Qed.

  Lemma del_trs_cnt ids (st : vstate K) st' : cnt_ok st -> fold_left del_one ids (Ok st) = Ok st' -> cnt_ok st'.
  Proof.
    revert st; induction ids as [|i ids IH]; intros st H E; simpl in E.
    - inversion E; subst; auto.
    - change (fold_left del_one ids (del_one (Ok st) i) = Ok st') in E.
      destruct (del_one (Ok st) i) eqn:E1.
      + eapply IH; [eapply del_one_cnt; eauto|exact E].
      + rewrite fold_del_bad in E by auto. discriminate.
      + rewrite fold_del_bad in E by auto. discriminate.
  Qed.

  Lemma remove_at_length {A} (l : list A) i : i < length l -> S (length (remove_at l i)) = length l.
  Proof.
    revert i; induction l as [|a l IH]; intros [|i]; simpl; intros; try lia.
    rewrite IH; lia.
  Qed.

  (** Deleting positions listed in strictly decreasing order never fails. *)
  Lemma del_trs_total ids (st : vstate K) : cnt_ok st -> StronglySorted (fun a b => b < a) ids ->
    (forall i, In i ids -> i < length (vtrs st)) -> exists st', fold_left del_one ids (Ok st) = Ok st'.
  Proof.
    revert st; induction ids as [|i ids IH]; intros st H S Hi; cbn [fold_left]; eauto.
    inversion S; subst. destruct (del_one_ok st i H (Hi i (or_introl eq_refl))) as (s1 & E & C & T).
    rewrite E. apply IH; auto. intros j Hj. rewrite T.
    rewrite Forall_forall in H3. specialize (H3 j Hj). cbv beta in H3. pose proof (Hi i (or_introl eq_refl)) as Hl.
    pose proof (remove_at_length _ _ Hl). lia.
  Qed.

  Lemma SSorted_rev l : StronglySorted lt l -> StronglySorted (fun a b => b < a) (rev l).
  Proof.
    induction 1; simpl; [constructor|].
    assert (G : forall l1 (x : nat), StronglySorted (fun a b => b < a) l1 -> Forall (fun b => x < b) l1 ->
       StronglySorted (fun a b => b < a) (l1 ++ [x])).
    { induction l1; intros x S F; simpl; [repeat constructor|]. inversion S; inversion F; subst.
      constructor; auto. apply Forall_app. split; auto. }
    apply G; auto. apply Forall_rev. auto.
  Qed.

  Lemma count_upd (p : tr K -> bool) l i o t : nth_error l i = Some o ->
    count p (upd l i t) + b2n (p o) = count p l + b2n (p t).
  Proof.
    revert i; induction l as [|a l IH]; intros [|i] H; simpl in *; try discriminate.
    - inversion H; subst. rewrite !count_cons. unfold b2n. lia.
    - rewrite !count_cons. specialize (IH i H). lia.
  Qed.
  Lemma count_in (p : tr K -> bool) l i o : nth_error l i = Some o -> b2n (p o) <= count p l.
  Proof.
    revert i; induction l as [|a l IH]; intros [|i] H; simpl in *; try discriminate.
    - inversion H; subst. rewrite count_cons. unfold b2n. lia.
    - rewrite count_cons. specialize (IH i H). lia.
  Qed.

  Lemma updt_eps_ok c old new : b2n (old =? 0) <= c ->
    exists c', updt_eps c old new = Ok c' /\ c' + b2n (old =? 0) = c + b2n (new =? 0).
  Proof.
    intros H. unfold updt_eps. destruct (dec_if_ok (old =? 0) c 0) as (n1 & D & D').
    { unfold b2n in H. lia. }
    rewrite D. simpl. eexists. split; [reflexivity|]. unfold b2n in *. lia.
  Qed.

  Lemma iter_cnt (st : vstate K) i o a b w q : cnt_ok st -> nth_error (vtrs st) i = Some o ->
    exists ni no, updt_eps (vnie st) (il o) a = Ok ni /\ updt_eps (vnoe st) (ol o) b = Ok no /\
      cnt_ok (VS (vfin st) (upd (vtrs st) i (Tr a b w q)) ni no).
  Proof.
    intros [H1 H2] E.
    destruct (updt_eps_ok (vnie st) (il o) a) as (ni & N1 & N2).
    { rewrite H1. apply (count_in ieps _ _ _ E). }
    destruct (updt_eps_ok (vnoe st) (ol o) b) as (no & N3 & N4).
    { rewrite H2. apply (count_in oeps _ _ _ E). }
    exists ni, no. repeat split; auto; simpl.
    - pose proof (count_upd ieps _ _ _ (Tr a b w q) E) as C. unfold ieps at 2 4 in C. simpl in C. lia.
    - pose proof (count_upd oeps _ _ _ (Tr a b w q) E) as C. unfold oeps at 2 4 in C. simpl in C. lia.
  Qed.

  (** Why a call may panic. *)
  Definition bad_args f (o : op K) : Prop :=
    match o with
    | ODelTrsId s ids => num_states f <= s \/
        ~ (StronglySorted lt ids /\ forall i, In i ids -> i < length (trs_of f s))
    | ODelState _ => ~ closed f
    | ODelStates d => (exists s, In s d /\ num_states f <= s) \/ ~ closed f
    | OSetTrs s _ | ORawSort _ s | ORawUnique s | ORawSum s => num_states f <= s
    | _ => False
    end.

  Lemma nth_none f s : nth_error (vstates f) s = None -> num_states f <= s.
  Proof. apply nth_error_None. Qed.

  Lemma cnt_states f f' : cnt f -> Forall2 (fun st st' => cnt_ok st -> cnt_ok st') (vstates f) (vstates f') -> cnt f'.
  Proof.
    unfold cnt. intros H F. induction F; [constructor|]. inversion H; subst. constructor; auto.
  Qed.

  Lemma filteri_incl {A} p i (l : list A) x : In x (filteri p i l) -> In x l.
  Proof.
    revert i; induction l as [|a l IH]; intros i; simpl; auto.
    destruct (p i); simpl; intros H; [destruct H; auto|]; right; eauto.
  Qed.

  Lemma del_states_cnt f d f' : cnt f -> del_states f d = Ok f' -> cnt f'.
  Proof.
    intros H E. apply del_states_inv in E as (_ & F & _).
    assert (Forall cnt_ok (filteri (keepb d) 0 (vstates f))) as G.
    { apply Forall_forall. intros x Hx. apply filteri_incl in Hx. eapply Forall_forall in H; eauto. }
    unfold cnt. clear H. induction F; [constructor|]. inversion G; subst. constructor; auto.
    destruct H2 as [G1 G2]. destruct H as (_ & _ & _ & A & B). split; lia.
  Qed.

  Lemma del_states_panic f d : cnt f -> closed f -> (forall s, In s d -> s < num_states f) ->
    exists f', del_states f d = Ok f'.
  Proof. intros H C D. rewrite (del_states_ok f d C H D). eauto. Qed.

  Lemma map_res_sum_total (l : list (vstate K)) : Forall cnt_ok l ->
    exists l', map_res sum_state l = Ok l' /\ Forall cnt_ok l'.
  Proof.
    induction 1 as [|st l H F (l' & IH1 & IH2)]; simpl; eauto.
    destruct (sum_state_ok st H) as (s1 & E & C & _). rewrite E. simpl. rewrite IH1. simpl. eauto.
  Qed.

  Lemma step_cnt f o f' : cnt f -> step f o = Ok f' -> cnt f'.
  Proof.
    intros H E. destruct o; simpl in E.
    - inversion E. unfold cnt; simpl. apply Forall_app. split; auto. repeat constructor.
    - inversion E. unfold cnt; simpl. apply Forall_app. split; auto.
      apply Forall_forall. intros x Hx. apply repeat_spec in Hx. subst. split; reflexivity.
    - unfold set_start in E. destruct (nth_error (vstates f) s); inversion E. exact H.
    - unfold set_final in E. destruct (nth_error (vstates f) s) eqn:E1; inversion E.
      apply cnt_upd; auto. apply cnt_ok_fin. eapply cnt_nth; eauto.
    - unfold delete_final_weight in E. destruct (nth_error (vstates f) s) eqn:E1; inversion E.
      apply cnt_upd; auto. apply cnt_ok_fin. eapply cnt_nth; eauto.
    - apply rmap_ok in E as ([f1 w] & E & ->). unfold take_final_weight in E.
      destruct (nth_error (vstates f) s) eqn:E1; inversion E. simpl.
      apply cnt_upd; auto. apply cnt_ok_fin. eapply cnt_nth; eauto.
    - unfold add_tr in E. destruct (nth_error (vstates f) s) eqn:E1; inversion E.
      apply cnt_upd; auto. destruct (cnt_nth _ _ _ H E1) as [A B].
      change (il t =? 0) with (ieps t). change (ol t =? 0) with (oeps t).
      split; simpl; rewrite count_app, count_cons, count_nil; unfold b2n; lia.
    - unfold delete_trs in E. destruct (nth_error (vstates f) s) eqn:E1; inversion E.
      apply cnt_upd; auto. split; reflexivity.
    - apply rmap_ok in E as ([f1 w] & E & ->). unfold pop_trs in E.
      destruct (nth_error (vstates f) s) eqn:E1; inversion E. simpl.
      apply cnt_upd; auto. split; reflexivity.
    - unfold del_trs_id_sorted in E. destruct (nth_error (vstates f) s) eqn:E1; try discriminate.
      destruct (fold_left del_one (rev ids) (Ok v)) eqn:E2; simpl in E; inversion E.
      apply cnt_upd; auto. eapply del_trs_cnt; eauto. eapply cnt_nth; eauto.
    - unfold del_state in E. destruct (s <? num_states f); try discriminate.
      eapply del_states_cnt; [|exact E]. exact H.
    - eapply del_states_cnt; eauto.
    - inversion E. constructor.
    - unfold set_trs in E. destruct (nth_error (vstates f) s) eqn:E1; inversion E.
      apply cnt_upd; auto. split; reflexivity.
    - unfold iter_set_tr, get_state in E. destruct (nth_error (vstates f) s) as [st|] eqn:E1; try discriminate.
      simpl in E. destruct (nth_error (vtrs st) i) as [o|] eqn:E2; try discriminate.
      destruct t as [a b w q].
      destruct (iter_cnt st i o a b w q (cnt_nth _ _ _ H E1) E2) as (ni & no & N1 & N2 & N3).
      simpl in E. rewrite N1, N2 in E. simpl in E. inversion E. apply cnt_upd; auto.
    - unfold iter_set_labels, get_state in E. destruct (nth_error (vstates f) s) as [st|] eqn:E1; try discriminate.
      simpl in E. destruct (nth_error (vtrs st) i) as [o|] eqn:E2; try discriminate.
      destruct (iter_cnt st i o a b (wgt o) (ns o) (cnt_nth _ _ _ H E1) E2) as (ni & no & N1 & N2 & N3).
      rewrite N1, N2 in E. simpl in E. inversion E. apply cnt_upd; auto.
    - unfold iter_set_weight, get_state in E. destruct (nth_error (vstates f) s) as [st|] eqn:E1; try discriminate.
      simpl in E. destruct (nth_error (vtrs st) i) as [o|] eqn:E2; inversion E.
      apply cnt_upd; auto. destruct (cnt_nth _ _ _ H E1) as [A B].
      pose proof (count_upd ieps _ _ _ (Tr (il o) (ol o) w (ns o)) E2) as C1.
      pose proof (count_upd oeps _ _ _ (Tr (il o) (ol o) w (ns o)) E2) as C2.
      unfold ieps at 2 4 in C1; unfold oeps at 2 4 in C2. simpl in C1, C2. split; simpl; lia.
    - unfold iter_set_nextstate, get_state in E. destruct (nth_error (vstates f) s) as [st|] eqn:E1; try discriminate.
      simpl in E. destruct (nth_error (vtrs st) i) as [o|] eqn:E2; inversion E.
      apply cnt_upd; auto. destruct (cnt_nth _ _ _ H E1) as [A B].
      pose proof (count_upd ieps _ _ _ (Tr (il o) (ol o) (wgt o) q) E2) as C1.
      pose proof (count_upd oeps _ _ _ (Tr (il o) (ol o) (wgt o) q) E2) as C2.
      unfold ieps at 2 4 in C1; unfold oeps at 2 4 in C2. simpl in C1, C2. split; simpl; lia.
    - unfold sort_trs_unchecked in E. destruct (nth_error (vstates f) s) eqn:E1; inversion E.
      apply cnt_upd; auto. apply cnt_sort. eapply cnt_nth; eauto.
    - unfold unique_trs_unchecked in E. destruct (nth_error (vstates f) s) eqn:E1; inversion E.
      apply cnt_upd; auto. apply (cnt_unique L). eapply cnt_nth; eauto.
    - unfold sum_trs_unchecked in E. destruct (nth_error (vstates f) s) eqn:E1; try discriminate.
      destruct (sum_state v) eqn:E2; simpl in E; inversion E.
      apply cnt_upd; auto. eapply cnt_sum; eauto. eapply cnt_nth; eauto.
    - unfold tr_sort_i in E. rewrite tr_sort_eq in E. inversion E. unfold cnt; simpl.
      apply Forall_map. eapply Forall_impl; [|exact H]. intros; apply cnt_sort; auto.
    - unfold tr_sort_o in E. rewrite tr_sort_eq in E. inversion E. unfold cnt; simpl.
      apply Forall_map. eapply Forall_impl; [|exact H]. intros; apply cnt_sort; auto.
    - rewrite tr_unique_eq in E. inversion E. unfold cnt; simpl.
      apply Forall_map. eapply Forall_impl; [|exact H]. intros; apply (cnt_unique L); auto.
    - rewrite tr_sum_eq in E. destruct (map_res_sum_total _ H) as (l' & E1 & C).
      rewrite E1 in E. simpl in E. inversion E. exact C.
  Qed.

  Lemma step_panic f o : cnt f -> step f o = Panic -> bad_args f o.
  Proof.
    intros H E. destruct o; simpl in E; try discriminate; simpl.
    - unfold set_start in E. destruct (nth_error (vstates f) s); discriminate.
    - unfold set_final in E. destruct (nth_error (vstates f) s); discriminate.
    - unfold delete_final_weight in E. destruct (nth_error (vstates f) s); discriminate.
    - unfold take_final_weight in E. destruct (nth_error (vstates f) s); discriminate.
    - unfold add_tr in E. destruct (nth_error (vstates f) s); discriminate.
    - unfold delete_trs in E. destruct (nth_error (vstates f) s); discriminate.
    - unfold pop_trs in E. destruct (nth_error (vstates f) s); discriminate.
    - unfold del_trs_id_sorted in E. destruct (nth_error (vstates f) s) as [st|] eqn:E1.
      2: { left. apply nth_none; auto. }
      right. intros [S R]. unfold trs_of in R. rewrite E1 in R.
      destruct (del_trs_total (rev ids) st (cnt_nth _ _ _ H E1) (SSorted_rev _ S)) as (st' & E2).
      { intros i Hi. apply R. apply in_rev. auto. }
      rewrite E2 in E. discriminate.
    - unfold del_state in E. destruct (Nat.ltb_spec s (num_states f)); try discriminate.
      intros C. destruct (del_states_panic (with_props f (delete_states_properties (vprops f))) [s]) as (f1 & E1); auto.
      { intros q [<-|[]]; auto. }
      congruence.
    - destruct (forallb (fun s => s <? num_states f) d) eqn:Ed.
      + right. intros C. destruct (del_states_panic f d) as (f1 & E1); auto.
        { intros s Hs. rewrite forallb_forall in Ed. apply Nat.ltb_lt. auto. }
        congruence.
      + left. assert (~ forall s, In s d -> s <? num_states f = true) as N.
        { rewrite <- forallb_forall. congruence. }
        clear -N. induction d as [|a d IH]; [exfalso; apply N; simpl; tauto|].
        destruct (Nat.ltb_spec a (num_states f)).
        * destruct IH as (s & Hs & Hn).
          { intros G. apply N. intros s [<-|Hs]; auto. apply Nat.ltb_lt; auto. }
          exists s. simpl. auto.
        * exists a. simpl. auto.
    - unfold set_trs in E. destruct (nth_error (vstates f) s) eqn:E1; try discriminate. apply nth_none; auto.
    - unfold iter_set_tr, get_state in E. destruct (nth_error (vstates f) s) as [st|] eqn:E1; try discriminate.
      simpl in E. destruct (nth_error (vtrs st) i) as [o|] eqn:E2; try discriminate.
      destruct t as [a b w q].
      destruct (iter_cnt st i o a b w q (cnt_nth _ _ _ H E1) E2) as (ni & no & N1 & N2 & N3).
      simpl in E. rewrite N1, N2 in E. discriminate.
    - unfold iter_set_labels, get_state in E. destruct (nth_error (vstates f) s) as [st|] eqn:E1; try discriminate.
      simpl in E. destruct (nth_error (vtrs st) i) as [o|] eqn:E2; try discriminate.
      destruct (iter_cnt st i o a b (wgt o) (ns o) (cnt_nth _ _ _ H E1) E2) as (ni & no & N1 & N2 & N3).
      rewrite N1, N2 in E. discriminate.
    - unfold iter_set_weight, get_state in E. destruct (nth_error (vstates f) s) as [st|] eqn:E1; try discriminate.
      simpl in E. destruct (nth_error (vtrs st) i); discriminate.
    - unfold iter_set_nextstate, get_state in E. destruct (nth_error (vstates f) s) as [st|] eqn:E1; try discriminate.
      simpl in E. destruct (nth_error (vtrs st) i); discriminate.
    - unfold sort_trs_unchecked in E. destruct (nth_error (vstates f) s) eqn:E1; try discriminate. apply nth_none; auto.
    - unfold unique_trs_unchecked in E. destruct (nth_error (vstates f) s) eqn:E1; try discriminate. apply nth_none; auto.
    - unfold sum_trs_unchecked in E. destruct (nth_error (vstates f) s) eqn:E1.
      + destruct (sum_state_ok v (cnt_nth _ _ _ H E1)) as (s1 & E2 & _). rewrite E2 in E. discriminate.
      + apply nth_none; auto.
    - unfold tr_sort_i in E. rewrite tr_sort_eq in E. discriminate.
    - unfold tr_sort_o in E. rewrite tr_sort_eq in E. discriminate.
    - rewrite tr_unique_eq in E. discriminate.
    - rewrite tr_sum_eq in E. destruct (map_res_sum_total _ H) as (l' & E1 & C).
      rewrite E1 in E. discriminate.
  Qed.

  Lemma run_cnt l f f' : cnt f -> run f l = Ok f' -> cnt f'.
  Proof.
    revert f; induction l as [|o l IH]; intros f H E; simpl in *.
    - inversion E; subst; auto.
    - destruct (step f o) eqn:Es; try discriminate; eauto.
      eapply IH; [|exact E]. eapply step_cnt; eauto.
  Qed.
End H.
