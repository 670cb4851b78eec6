(** C03: deleting states keeps exactly the surviving sub-machine. *)
From Coq Require Import List Arith NArith Bool Lia Permutation.
From Verif Require Import Base.Util Base.Semiring Base.Machine Base.Instances
  Model.Props Model.VectorFst Model.TrOps Model.History
  Proofs.VectorFacts Proofs.DelStates Proofs.TrOpsFacts Proofs.HistoryFacts.
Import ListNotations.
Local Open Scope K_scope.

(** Specification: the survivors in increasing order. *)
Definition dead (d : list nat) (s : nat) : bool := existsb (Nat.eqb s) d.
Definition survivors (n : nat) (d : list nat) : list nat := filter (fun s => negb (dead d s)) (seq 0 n).

Lemma survivors_nth n d k s : nth_error (survivors n d) k = Some s <->
  (s < n /\ keepb d s = true /\ rank d s = k)%nat.
Proof.
  revert k s; induction n; intros k s.
  - unfold survivors; simpl. split; [destruct k; discriminate|lia].
  - unfold survivors in *. rewrite seq_S, filter_app. simpl.
    assert (E : length (filter (fun s0 => negb (dead d s0)) (seq 0 n)) = rank d n) by reflexivity.
    split.
    + intros H. destruct (Nat.ltb_spec k (rank d n)).
      * rewrite nth_error_app1 in H by lia. apply IHn in H. destruct H as (? & ? & ?). repeat split; auto; lia.
      * rewrite nth_error_app2 in H by lia. rewrite E in H.
        change (negb (dead d n)) with (keepb d n) in H. destruct (keepb d n) eqn:Ek.
        -- destruct (k - rank d n)%nat as [|j] eqn:Ej; simpl in H.
           ++ inversion H; subst. repeat split; auto; lia.
           ++ destruct j; discriminate.
        -- destruct (k - rank d n)%nat; discriminate.
    + intros (H1 & H2 & H3). destruct (Nat.eq_dec s n) as [->|Hn].
      * subst k. rewrite nth_error_app2 by lia. rewrite E, Nat.sub_diag.
        change (negb (dead d n)) with (keepb d n). rewrite H2. reflexivity.
      * assert (s < n)%nat by lia. rewrite nth_error_app1.
        -- apply IHn. auto.
        -- rewrite E. subst k. apply rank_lt; auto.
Qed.

Lemma survivors_length n d : length (survivors n d) = rank d n.
Proof. reflexivity. Qed.

Section C03.
  Context {K : SR} (L : lsr_laws K).
  Implicit Types (f : vfst K).

  (** What remains of the machine: [k]-th survivor becomes state [k]. *)
  Definition is_submachine f d f' : Prop :=
    let sv := survivors (num_states f) d in
    num_states f' = length sv /\
    (forall k s, nth_error sv k = Some s ->
       fin_of f' k = fin_of f s /\
       Forall2 (fun t' t => il t' = il t /\ ol t' = ol t /\ wgt t' = wgt t /\
                            nth_error sv (ns t') = Some (ns t))
         (trs_of f' k) (filter (fun t => negb (dead d (ns t))) (trs_of f s))) /\
    match vstart f with
    | None => vstart f' = None
    | Some s => (In s d /\ vstart f' = None) \/
                (~ In s d /\ exists k, nth_error sv k = Some s /\ vstart f' = Some k)
    end /\
    visymt f' = visymt f /\ vosymt f' = vosymt f.

  Lemma del_states_sub f d : closed f -> cnt f -> (forall s, In s d -> s < num_states f)%nat ->
    exists f', del_states f d = Ok f' /\ is_submachine f d f'.
  Proof.
    intros Hc Hn Hd. rewrite (del_states_ok f d Hc Hn Hd). eexists. split; [reflexivity|].
    assert (G : forall k s, nth_error (survivors (num_states f) d) k = Some s ->
       exists st, nth_error (vstates f) s = Some st /\
         nth_error (map (kept_state d) (filteri (keepb d) 0 (vstates f))) k = Some (kept_state d st)).
    { intros k s H. apply survivors_nth in H as (H1 & H2 & H3).
      destruct (nth_error (vstates f) s) as [st|] eqn:E.
      2: { apply nth_error_None in E. unfold num_states in H1. lia. }
      exists st. split; auto. rewrite nth_error_map.
      pose proof (filteri_nth d (vstates f) 0 s) as F. simpl in F.
      replace (rank d s - rank d 0)%nat with k in F by (change (rank d 0) with 0%nat; lia).
      rewrite F, E; auto; congruence. }
    unfold is_submachine. cbn [num_states vstates vstart visymt vosymt].
    split; [|split; [|split; [|split]]]; auto.
    - unfold num_states. cbn [vstates]. rewrite map_length, filteri_length, survivors_length.
      simpl. change (rank d 0) with 0%nat. lia.
    - intros k s H. destruct (G k s H) as (st & E1 & E2). unfold fin_of, trs_of. cbn [vstates].
      rewrite E1, E2. split; [reflexivity|]. simpl. unfold kept_trs.
      assert (T : forall t, In t (vtrs st) -> (ns t < num_states f)%nat).
      { intros t Ht. destruct Hc as [Hc _]. apply (Hc s). unfold trs_of. rewrite E1. auto. }
      change (fun t => keepb d (ns t)) with (fun t : tr K => negb (dead d (ns t))).
      induction (vtrs st) as [|t l IH]; simpl; [constructor|].
      destruct (negb (dead d (ns t))) eqn:Ek; simpl.
      + constructor; [|apply IH; intros; apply T; simpl; auto]. simpl. repeat split; auto.
        apply survivors_nth. repeat split; auto. apply T. simpl; auto.
      + apply IH. intros; apply T; simpl; auto.
    - destruct (vstart f) as [s|] eqn:Es; simpl; auto.
      unfold newid. destruct (keepb d s) eqn:Ek.
      + right. split; [apply keepb_true; auto|]. exists (rank d s). split; auto.
        apply survivors_nth. repeat split; auto. destruct Hc as [_ Hc]. auto.
      + left. split; auto. destruct (in_dec Nat.eq_dec s d); auto.
        apply keepb_true in n. congruence.
  Qed.

  Lemma del_states_not_err f d : del_states f d <> Err.
  Proof.
    unfold del_states.
    pose proof (mark_deleted_spec (repeat (Some 0%nat) (length (vstates f))) d) as M.
    destruct (mark_deleted (repeat (Some 0%nat) (length (vstates f))) d) as [nid| |]; simpl; try tauto; try discriminate.
    destruct (compact _ _ _ _ _) as [[nid' sts'] nst'].
    assert (R : forall l ni no, remap_trs nid' l ni no <> @Err (list (tr K) * nat * nat)).
    { induction l as [|t l IH]; intros ni no; simpl; [discriminate|].
      destruct (nth_error nid' (ns t)) as [[q|]|]; try discriminate.
      - specialize (IH ni no). destruct (remap_trs nid' l ni no) as [[[? ?] ?]| |]; simpl; try discriminate; auto.
      - assert (D : forall b n, dec_if b n <> Err) by (intros [|] [|]; simpl; discriminate).
        pose proof (D (il t =? 0)%nat ni). pose proof (D (ol t =? 0)%nat no).
        destruct (dec_if (il t =? 0)%nat ni); simpl; try congruence.
        destruct (dec_if (ol t =? 0)%nat no); simpl; try congruence; apply IH. }
    assert (R2 : forall l, map_res (remap_state nid') l <> @Err (list (vstate K))).
    { induction l as [|st l IH]; simpl; [discriminate|]. unfold remap_state at 1.
      specialize (R (vtrs st) (vnie st) (vnoe st)).
      destruct (remap_trs nid' (vtrs st) (vnie st) (vnoe st)) as [[[? ?] ?]| |]; simpl; try congruence.
      destruct (map_res (remap_state nid') l); simpl; congruence. }
    specialize (R2 (firstn nst' sts')). destruct (map_res _ _); simpl; try congruence.
    destruct (vstart f) as [s|]; simpl; try discriminate.
    destruct (nth_error nid' s); simpl; discriminate.
  Qed.

  (** The machine restricted to paths avoiding [d]: paths all of whose states (source
      included) are outside [d]. *)
  Fixpoint avoids (d : list nat) (s : nat) (p : list (tr K)) : bool :=
    negb (dead d s) && match p with [] => true | t :: p' => avoids d (ns t) p' end.

  Lemma wt_avoid f d f' : closed f -> is_submachine f d f' ->
    forall n k s x y, nth_error (survivors (num_states f) d) k = Some s ->
      wt (mach f') n k x y =
      ksum (map (fun p => if avoids d s p && leqb (ilabs p) x && leqb (olabs p) y
                          then apw (mach f) s p else 0) (paths (mach f) n s)).
  Proof.
    intros Hc (_ & HS & _) n. rename n into m.
    (* intermediate machine *)
    set (r := Mach None (fun s => filter (fun t => negb (dead d (ns t))) (trs_of f s)) (fin_of f)).
    assert (A : forall n k s x y, nth_error (survivors (num_states f) d) k = Some s ->
      wt (mach f') n k x y = wt r n s x y).
    { induction n; intros k s x y H; simpl.
      - destruct (HS k s H) as [-> _]. reflexivity.
      - destruct (HS k s H) as [_ F].
        induction F as [|t' t l' l (E1 & E2 & E3 & E4) F IHF]; simpl; auto.
        rewrite IHF, E1, E2, E3. f_equal.
        destruct (strip (il t) x), (strip (ol t) y); auto. rewrite (IHn _ _ _ _ E4). auto. }
    intros k s x y H. rewrite (A m k s x y H), (wt_paths L).
    apply survivors_nth in H as (H1 & H2 & _).
    assert (P : forall n s, keepb d s = true ->
       paths r n s = filter (avoids d s) (paths (mach f) n s)).
    { clear -d. induction n; intros s Hk; simpl.
      - unfold dead. unfold keepb in Hk. rewrite Hk. reflexivity.
      - assert (B : forall l, flat_map (fun t => map (cons t) (paths r n (ns t)))
             (filter (fun t : tr K => negb (dead d (ns t))) l) =
            filter (avoids d s) (flat_map (fun t => map (cons t) (paths (mach f) n (ns t))) l)).
        { induction l as [|t l IH]; simpl; auto.
          rewrite filter_app, <- IH.
          assert (M : filter (avoids d s) (map (cons t) (paths (mach f) n (ns t))) =
                      map (cons t) (filter (avoids d (ns t)) (paths (mach f) n (ns t)))).
          { induction (paths (mach f) n (ns t)) as [|p q IHq]; simpl; auto.
            unfold keepb in Hk. unfold dead at 1. rewrite Hk. simpl.
            destruct (avoids d (ns t) p); simpl; rewrite IHq; auto. }
          rewrite M. clear M. destruct (negb (dead d (ns t))) eqn:Ek; simpl.
          - rewrite IHn by exact Ek. reflexivity.
          - replace (filter (avoids d (ns t)) (paths (mach f) n (ns t))) with (@nil (list (tr K))); auto.
            symmetry. induction (paths (mach f) n (ns t)) as [|p q IHq]; simpl; auto.
            assert (avoids d (ns t) p = false) as -> by (destruct p; simpl; rewrite Ek; auto). auto. }
        apply B. }
    rewrite P by auto. clear -L.
    induction (paths (mach f) m s) as [|p l IH]; simpl; auto.
    destruct (avoids d s p); simpl; [rewrite IH; reflexivity|].
    rewrite IH. symmetry. apply (kplus_0_l _ L).
  Qed.

  (** Transition targets and start of [f] exist ([closed]); [f] comes from a call history. *)
  Theorem C03_del_states_exact :
    forall calls f d, run vnew calls = Ok f -> closed f -> (forall s, In s d -> (s < num_states f)%nat) ->
    exists f', del_states f d = Ok f' /\ is_submachine f d f' /\
      forall n x y, rel (mach f') n x y =
        match vstart f with
        | None => 0
        | Some s => ksum (map (fun p => if avoids d s p && leqb (ilabs p) x && leqb (olabs p) y
                                        then apw (mach f) s p else 0) (paths (mach f) n s))
        end.
  Proof.
    intros calls f d E Hc Hd.
    assert (C : cnt f) by (eapply run_cnt; eauto; constructor).
    destruct (del_states_sub f d Hc C Hd) as (f' & E' & S). exists f'. split; auto. split; auto.
    intros n x y. unfold rel. pose proof S as (_ & _ & St & _). cbn [mach mstart].
    destruct (vstart f) as [s|] eqn:Es.
    - destruct St as [[H1 ->]|(H1 & k & H2 & ->)].
      + symmetry. apply (ksum_map_zero L). intros p _.
        assert (dead d s = true) as Hk.
        { apply existsb_exists. exists s. split; auto. apply Nat.eqb_refl. }
        destruct p; simpl; rewrite Hk; reflexivity.
      + apply (wt_avoid f d f' Hc S). auto.
    - rewrite St. reflexivity.
  Qed.

  Theorem C03_del_states_panics :
    forall f d,
      (exists s, In s d /\ (num_states f <= s)%nat) \/
      (exists s t, ~ In s d /\ In t (trs_of f s) /\ (num_states f <= ns t)%nat) ->
    del_states f d = Panic.
  Proof.
    intros f d H. destruct (del_states f d) as [f'| |] eqn:E; auto.
    2: { exfalso. eapply del_states_not_err; eauto. }
    exfalso. apply del_states_inv in E as (H1 & H2 & _).
    destruct H as [(s & Hs & Hn)|(s & t & Hs & Ht & Hn)].
    - apply H1 in Hs. lia.
    - unfold trs_of in Ht. destruct (nth_error (vstates f) s) as [st|] eqn:Es; [|exact Ht].
      assert (I : In st (filteri (keepb d) 0 (vstates f))).
      { pose proof (filteri_nth d (vstates f) 0 s) as F. simpl in F. rewrite Es in F.
        eapply nth_error_In. apply F; [congruence|]. apply keepb_true; auto. }
      apply Forall2_in_l with (x := st) in H2; auto. destruct H2 as (st' & _ & _ & _ & H2 & _).
      apply H2 in Ht. lia.
  Qed.

  (** [del_state(s)] is [del_states([s])], an error when [s] does not exist. *)
  Theorem C03_del_state :
    forall calls f s, run vnew calls = Ok f -> closed f ->
      ((s < num_states f)%nat -> exists f', del_state f s = Ok f' /\ is_submachine f [s] f') /\
      ((num_states f <= s)%nat -> del_state f s = Err).
  Proof.
    intros calls f s E Hc. assert (C : cnt f) by (eapply run_cnt; eauto; constructor).
    unfold del_state. split; intros H.
    - apply Nat.ltb_lt in H as H'. rewrite H'.
      destruct (del_states_sub (with_props f (delete_states_properties (vprops f))) [s]) as (f' & E' & S); auto.
      { intros q [<-|[]]; auto. }
      exists f'. split; auto.
    - destruct (Nat.ltb_spec s (num_states f)); auto. lia.
  Qed.
End C03.
Print Assumptions C03_del_states_exact.
Print Assumptions C03_del_states_panics.
Print Assumptions C03_del_state.

(** Four states, deleting 1 and 1 again; the surviving path goes through 2. *)
Definition c03_calls : list (op natSR) :=
  [OAddStates 4; OSetStart 0; OAddTr 0 (Tr 1 1 2 1); OAddTr 0 (Tr 2 0 3 2); OAddTr 1 (Tr 4 4 1 3);
   OAddTr 2 (Tr 5 6 7 3); OSetFinal 3 2].
Example C03_witness : exists f f',
  run vnew c03_calls = Ok f /\ closed f /\ del_states f [1; 1] = Ok f' /\
  num_states f' = 3 /\ trs_of f' 0 = [Tr 2 0 3 1] /\ trs_of f' 1 = [Tr 5 6 7 2] /\
  rel (mach f') 2 [2; 5] [6] = 42.
Proof.
  eexists. eexists. split; [vm_compute; reflexivity|]. split.
  - split.
    + intros s t. destruct s as [|[|[|[|s]]]]; cbn; intuition; subst; cbn; try (vm_compute; lia).
      destruct s; simpl in *; tauto.
    + cbn. intros s H; inversion H. vm_compute. lia.
  - split; [vm_compute; reflexivity|]. repeat split; vm_compute; reflexivity.
Qed.
