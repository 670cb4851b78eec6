(** [del_states] keeps exactly the other states, in order, and exactly the
    transitions between them. *)
From Coq Require Import List Arith NArith Lia Bool Permutation.
From Verif Require Import Base.Util Base.Semiring Base.Machine Model.Props Model.VectorFst
  Proofs.VectorFacts.
Import ListNotations.

(** ** Specification vocabulary: what is kept and how it is renumbered. *)
Definition keepb (d : list nat) (s : nat) : bool := negb (existsb (Nat.eqb s) d).
(** New number of a kept state: how many kept states precede it. *)
Definition rank (d : list nat) (s : nat) : nat := count (keepb d) (seq 0 s).
Definition newid (d : list nat) (s : nat) : option nat :=
  if keepb d s then Some (rank d s) else None.
(** Elements of [l] whose position (counted from [i]) satisfies [p]. *)
Fixpoint filteri {A} (p : nat -> bool) (i : nat) (l : list A) : list A :=
  match l with
  | [] => []
  | a :: l' => if p i then a :: filteri p (S i) l' else filteri p (S i) l'
  end.

Lemma keepb_true d s : keepb d s = true <-> ~ In s d.
Proof.
  unfold keepb. rewrite negb_true_iff. split.
  - intros H Hin. assert (existsb (Nat.eqb s) d = true); [|congruence].
    apply existsb_exists. exists s. rewrite Nat.eqb_refl; auto.
  - intros H. destruct (existsb (Nat.eqb s) d) eqn:E; auto.
    apply existsb_exists in E as (x & Hx & E). apply Nat.eqb_eq in E. subst; contradiction.
Qed.

Lemma rank_S d s : rank d (S s) = rank d s + (if keepb d s then 1 else 0).
Proof.
  unfold rank. rewrite seq_S, count_app. simpl. rewrite count_cons, count_nil.
  rewrite Nat.add_0_r. reflexivity.
Qed.
Lemma rank_le d a b : a <= b -> rank d a <= rank d b.
Proof. induction 1; auto. rewrite rank_S. lia. Qed.
Lemma rank_lt d a b : keepb d a = true -> a < b -> rank d a < rank d b.
Proof.
  intros Hk H. apply Nat.lt_le_trans with (rank d (S a)).
  - rewrite rank_S, Hk. lia.
  - apply rank_le; lia.
Qed.
Lemma rank_inj d a b : keepb d a = true -> keepb d b = true -> rank d a = rank d b -> a = b.
Proof.
  intros Ha Hb E. destruct (Nat.lt_trichotomy a b) as [H|[H|H]]; auto.
  - apply (rank_lt d) in H; auto; lia.
  - apply (rank_lt d) in H; auto; lia.
Qed.
Lemma rank_le_id d a : rank d a <= a.
Proof. induction a; [apply le_n|]. rewrite rank_S. destruct (keepb d a); lia. Qed.

(** Every rank below the total is the rank of a kept state. *)
Lemma rank_surj d n i : i < rank d n -> exists s, s < n /\ keepb d s = true /\ rank d s = i.
Proof.
  induction n; intros H.
  - unfold rank in H; simpl in H. rewrite count_nil in H; lia.
  - rewrite rank_S in H. destruct (Nat.ltb_spec i (rank d n)).
    + destruct (IHn H0) as (s & ? & ? & ?). exists s; repeat split; auto; lia.
    + destruct (keepb d n) eqn:E; [|lia]. exists n. repeat split; auto; lia.
Qed.

Lemma filteri_nth {A} d (l : list A) i j :
  nth_error l j <> None -> keepb d (i + j) = true ->
  nth_error (filteri (keepb d) i l) (rank d (i + j) - rank d i) = nth_error l j.
Proof.
  revert i j; induction l as [|a l IH]; intros i j H Hk.
  - destruct j; simpl in H; congruence.
  - destruct j; simpl in *.
    + rewrite Nat.add_0_r in *. rewrite Hk, Nat.sub_diag. reflexivity.
    + replace (i + S j) with (S i + j) in * by lia.
      specialize (IH (S i) j H Hk). rewrite rank_S in IH.
      assert (HL : rank d (S i) <= rank d (S i + j)) by (apply rank_le; lia).
      rewrite rank_S in HL.
      destruct (keepb d i).
      * replace (rank d (S i + j) - rank d i) with (S (rank d (S i + j) - (rank d i + 1))) by lia.
        simpl. exact IH.
      * rewrite Nat.add_0_r in IH. exact IH.
Qed.

Lemma filteri_length {A} d (l : list A) i :
  length (filteri (keepb d) i l) = rank d (i + length l) - rank d i.
Proof.
  revert i; induction l as [|a l IH]; intros i; simpl.
  - rewrite Nat.add_0_r. lia.
  - replace (i + S (length l)) with (S i + length l) by lia.
    pose proof (rank_le d (S i) (S i + length l)) as HL.
    specialize (IH (S i)). rewrite (rank_S d i) in *.
    assert (HL' := HL ltac:(lia)). destruct (keepb d i); cbn [length]; rewrite IH; lia.
Qed.

Section D.
  Context {K : SR}.
  Implicit Types (f : vfst K).

  (** Transitions between kept states, renumbered. *)
  Definition kept_trs (d : list nat) (l : list (tr K)) : list (tr K) :=
    map (ren (rank d)) (filter (fun t => keepb d (ns t)) l).
  Definition kept_state (d : list nat) (st : vstate K) : vstate K :=
    VS (vfin st) (kept_trs d (vtrs st))
       (count ieps (kept_trs d (vtrs st))) (count oeps (kept_trs d (vtrs st))).

  (** Epsilon counters are exact. *)
  Definition cnt_ok (st : vstate K) : Prop :=
    vnie st = count ieps (vtrs st) /\ vnoe st = count oeps (vtrs st).

  Lemma mark_deleted_spec l d :
    match mark_deleted l d with
    | Ok l' => (forall s, In s d -> s < length l) /\ length l' = length l /\
               forall i, nth_error l' i = if keepb d i then nth_error l i
                                          else if i <? length l then Some None else None
    | Err => False
    | Panic => exists s, In s d /\ length l <= s
    end.
  Proof.
    revert l; induction d as [|s d IH]; intros l; simpl.
    - repeat split; auto. simpl; tauto.
    - destruct (Nat.ltb_spec s (length l)).
      + specialize (IH (upd l s None)). rewrite upd_length in IH.
        destruct (mark_deleted (upd l s None) d); auto.
        * destruct IH as (I1 & I2 & I3). repeat split; auto.
          -- intros s0 [<-|Hs]; auto.
          -- intros i. rewrite I3. unfold keepb; simpl. rewrite nth_error_upd.
             rewrite (Nat.eqb_sym i s). destruct (Nat.eqb_spec s i); simpl; auto.
             subst i. apply Nat.ltb_lt in H. rewrite H.
             destruct (negb (existsb (Nat.eqb s) d)); auto.
        * destruct IH as (s0 & ? & ?). exists s0; simpl; auto.
      + exists s; simpl; auto.
  Qed.

  Lemma nth_error_swap {A} (l : list A) i j k :
    i < length l -> j < length l ->
    nth_error (swap l i j) k =
      if Nat.eqb k j then nth_error l i else if Nat.eqb k i then nth_error l j else nth_error l k.
  Proof.
    intros Hi Hj. unfold swap.
    destruct (nth_error_ex l i Hi) as [a Ea], (nth_error_ex l j Hj) as [b Eb].
    rewrite Ea, Eb, nth_error_upd, upd_length, nth_error_upd.
    rewrite (Nat.eqb_sym k j), (Nat.eqb_sym k i).
    apply Nat.ltb_lt in Hi, Hj.
    destruct (Nat.eqb_spec j k); simpl.
    - subst. rewrite Hj. auto.
    - destruct (Nat.eqb_spec i k); simpl; auto. subst. rewrite Hi. auto.
  Qed.
  Lemma swap_length {A} (l : list A) i j : length (swap l i j) = length l.
  Proof.
    unfold swap. destruct (nth_error l i), (nth_error l j); rewrite ?upd_length; auto.
  Qed.

  Lemma compact_spec (d : list nat) (old : list (vstate K)) :
    forall k s new_id sts nst,
    s + k = length old -> length new_id = length old -> length sts = length old ->
    nst = rank d s ->
    (forall i, s <= i < length old -> nth_error new_id i = Some (if keepb d i then Some 0 else None)) ->
    (forall i, i < s -> nth_error new_id i = Some (newid d i)) ->
    (forall i, s <= i -> nth_error sts i = nth_error old i) ->
    (forall j, j < s -> keepb d j = true -> nth_error sts (rank d j) = nth_error old j) ->
    let '(new_id', sts', nst') := compact k s new_id sts nst in
    length new_id' = length old /\ length sts' = length old /\ nst' = rank d (length old) /\
    (forall i, i < length old -> nth_error new_id' i = Some (newid d i)) /\
    (forall j, j < length old -> keepb d j = true -> nth_error sts' (rank d j) = nth_error old j).
  Proof.
    induction k as [|k IH]; intros s new_id sts nst Hn L1 L2 -> N1 N2 S1 S2; simpl.
    - assert (s = length old) by lia. subst s. repeat split; auto.
    - rewrite N1 by lia.
      destruct (keepb d s) eqn:Ek.
      + apply IH; try (rewrite ?upd_length; auto; lia).
        * destruct (Nat.eqb s (rank d s)); rewrite ?swap_length; auto.
        * rewrite rank_S, Ek. lia.
        * intros i Hi. rewrite nth_error_upd_ne by lia. apply N1; lia.
        * intros i Hi. rewrite nth_error_upd. destruct (Nat.eqb_spec s i); simpl.
          -- subst. assert (E : i <? length new_id = true) by (apply Nat.ltb_lt; lia).
             rewrite E. unfold newid. rewrite Ek. auto.
          -- apply N2. lia.
        * intros i Hi. pose proof (rank_le_id d s). destruct (Nat.eqb_spec s (rank d s)).
          -- apply S1; lia.
          -- rewrite nth_error_swap by lia.
             destruct (Nat.eqb_spec i s); [lia|]. destruct (Nat.eqb_spec i (rank d s)); [lia|].
             apply S1; lia.
        * intros j Hj Hkj. pose proof (rank_le_id d s). destruct (Nat.eqb_spec s (rank d s)).
          -- destruct (Nat.eq_dec j s).
             ++ subst j. rewrite <- e. apply S1; lia.
             ++ apply S2; auto; lia.
          -- rewrite nth_error_swap by lia. destruct (Nat.eq_dec j s).
             ++ subst j. destruct (Nat.eqb_spec (rank d s) s); [lia|].
                rewrite Nat.eqb_refl. apply S1; lia.
             ++ assert (rank d j < rank d s) by (apply rank_lt; auto; lia).
                destruct (Nat.eqb_spec (rank d j) s); [lia|].
                destruct (Nat.eqb_spec (rank d j) (rank d s)); [lia|].
                apply S2; auto; lia.
      + apply IH; auto; try lia.
        * rewrite rank_S, Ek. lia.
        * intros i Hi. apply N1; lia.
        * intros i Hi. destruct (Nat.eq_dec i s).
          -- subst. rewrite N1 by lia. unfold newid. rewrite Ek. auto.
          -- apply N2; lia.
        * intros i Hi. apply S1; lia.
        * intros j Hj Hkj. destruct (Nat.eq_dec j s); [congruence|]. apply S2; auto; lia.
  Qed.

  Lemma firstn_filteri d (old sts : list (vstate K)) :
    length sts = length old ->
    (forall j, j < length old -> keepb d j = true -> nth_error sts (rank d j) = nth_error old j) ->
    firstn (rank d (length old)) sts = filteri (keepb d) 0 old.
  Proof.
    intros HL H. apply nth_ext_error. intros i.
    assert (E0 : rank d 0 = 0) by reflexivity.
    destruct (Nat.ltb_spec i (rank d (length old))).
    - destruct (rank_surj d (length old) i H0) as (s & Hs & Hk & Hr). subst i.
      assert (nth_error (firstn (rank d (length old)) sts) (rank d s) = nth_error sts (rank d s)) as ->.
      { clear -H0. revert sts H0. generalize (rank d (length old)) (rank d s).
        induction n; intros [|m] sts Hm; try lia; destruct sts; simpl; auto. apply IHn; lia. }
      rewrite H; auto.
      pose proof (filteri_nth d old 0 s) as F. simpl in F. rewrite E0, Nat.sub_0_r in F.
      rewrite F; auto. apply nth_error_Some; auto.
    - rewrite (proj2 (nth_error_None _ i)), (proj2 (nth_error_None _ i)); auto.
      + rewrite filteri_length, E0. simpl. lia.
      + rewrite firstn_length. lia.
  Qed.

  Lemma kept_trs_cons d t l :
    kept_trs d (t :: l) = if keepb d (ns t) then ren (rank d) t :: kept_trs d l else kept_trs d l.
  Proof. unfold kept_trs; simpl. destruct (keepb d (ns t)); reflexivity. Qed.

  (** Renumbering one list of transitions. *)
  Lemma remap_trs_spec d n new_id l ni no :
    (forall i, i < n -> nth_error new_id i = Some (newid d i)) -> length new_id = n ->
    match remap_trs new_id l ni no with
    | Ok (l2, ni2, no2) =>
        (forall t, In t l -> ns t < n) /\ l2 = kept_trs d l /\
        ni2 + count ieps l = ni + count ieps l2 /\ no2 + count oeps l = no + count oeps l2
    | Err => False
    | Panic => (exists t, In t l /\ n <= ns t) \/ ni < count ieps l \/ no < count oeps l
    end.
  Proof.
    intros Hn HL. revert ni no; induction l as [|t l IH]; intros ni no; simpl.
    - repeat split; auto; simpl; tauto.
    - destruct (Nat.ltb_spec (ns t) n).
      + rewrite Hn by auto. unfold newid. destruct (keepb d (ns t)) eqn:Ek.
        * specialize (IH ni no). destruct (remap_trs new_id l ni no) as [[[l2 ni2] no2]| |]; simpl; auto.
          -- destruct IH as (I1 & I2 & I3 & I4). subst l2.
             rewrite kept_trs_cons, Ek. repeat split; auto.
             ++ intros t0 [<-|H0]; auto.
             ++ rewrite !count_cons. unfold ieps at 1 3; unfold ren; simpl; unfold ren in *; lia.
             ++ rewrite !count_cons. unfold oeps at 1 3; unfold ren; simpl; unfold ren in *; lia.
          -- rewrite !count_cons. destruct IH as [(t0 & ? & ?)|[IH|IH]].
             ++ left. exists t0; auto.
             ++ right; left; lia.
             ++ right; right; lia.
        * rewrite !count_cons.
          change (il t =? 0) with (ieps t). change (ol t =? 0) with (oeps t).
          destruct (ieps t) eqn:Ei; simpl.
          -- destruct ni as [|ni]; simpl; [right; left; lia|].
             destruct (oeps t) eqn:Eo; simpl.
             ++ destruct no as [|no]; simpl; [right; right; lia|].
                specialize (IH ni no).
                destruct (remap_trs new_id l ni no) as [[[l2 ni2] no2]| |]; auto.
                ** destruct IH as (I1 & I2 & I3 & I4). repeat split; auto; try lia.
                   --- intros t0 [<-|H0]; auto.
                   --- subst. rewrite kept_trs_cons, Ek. auto.
                ** destruct IH as [(t0 & ? & ?)|[IH|IH]]; [left; exists t0; auto|right; left; lia|right; right; lia].
             ++ specialize (IH ni no).
                destruct (remap_trs new_id l ni no) as [[[l2 ni2] no2]| |]; auto.
                ** destruct IH as (I1 & I2 & I3 & I4). repeat split; auto; try lia.
                   --- intros t0 [<-|H0]; auto.
                   --- subst. rewrite kept_trs_cons, Ek. auto.
                ** destruct IH as [(t0 & ? & ?)|[IH|IH]]; [left; exists t0; auto|right; left; lia|right; right; lia].
          -- destruct (oeps t) eqn:Eo; simpl.
             ++ destruct no as [|no]; simpl; [right; right; lia|].
                specialize (IH ni no).
                destruct (remap_trs new_id l ni no) as [[[l2 ni2] no2]| |]; auto.
                ** destruct IH as (I1 & I2 & I3 & I4). repeat split; auto; try lia.
                   --- intros t0 [<-|H0]; auto.
                   --- subst. rewrite kept_trs_cons, Ek. auto.
                ** destruct IH as [(t0 & ? & ?)|[IH|IH]]; [left; exists t0; auto|right; left; lia|right; right; lia].
             ++ specialize (IH ni no).
                destruct (remap_trs new_id l ni no) as [[[l2 ni2] no2]| |]; auto.
                ** destruct IH as (I1 & I2 & I3 & I4). repeat split; auto; try lia.
                   --- intros t0 [<-|H0]; auto.
                   --- subst. rewrite kept_trs_cons, Ek. auto.
                ** destruct IH as [(t0 & ? & ?)|[IH|IH]]; [left; exists t0; auto|right; left; lia|right; right; lia].
      + rewrite (proj2 (nth_error_None new_id (ns t))) by lia. left. exists t. auto.
  Qed.

  Lemma map_res_ok {A B} (g : A -> res B) l l' :
    map_res g l = Ok l' <-> Forall2 (fun a b => g a = Ok b) l l'.
  Proof.
    revert l'; induction l as [|a l IH]; intros l'; simpl.
    - split; intros H.
      + inversion H; constructor.
      + inversion H; auto.
    - destruct (g a) eqn:E; simpl.
      + destruct (map_res g l) eqn:E2; simpl; split; intros H; try discriminate.
        * inversion H; subst. constructor; auto. apply IH; auto.
        * inversion H; subst. apply IH in H4. congruence.
        * inversion H; subst. apply IH in H4. discriminate.
        * inversion H; subst. apply IH in H4. discriminate.
      + split; intros H; [discriminate|]. inversion H; congruence.
      + split; intros H; [discriminate|]. inversion H; congruence.
  Qed.

  (** Shape of any successful deletion. *)
  Lemma del_states_inv f d f' :
    del_states f d = Ok f' ->
    (forall s, In s d -> s < num_states f) /\
    (Forall2 (fun st st' => vfin st' = vfin st /\ vtrs st' = kept_trs d (vtrs st) /\
              (forall t, In t (vtrs st) -> ns t < num_states f) /\
              vnie st' + count ieps (vtrs st) = vnie st + count ieps (vtrs st') /\
              vnoe st' + count oeps (vtrs st) = vnoe st + count oeps (vtrs st'))
       (filteri (keepb d) 0 (vstates f)) (vstates f')) /\
    vstart f' = opt_bind (vstart f) (newid d) /\
    visymt f' = visymt f /\ vosymt f' = vosymt f /\
    vprops f' = delete_states_properties (vprops f).
  Proof.
    unfold del_states. intros H.
    pose proof (mark_deleted_spec (repeat (Some 0) (length (vstates f))) d) as M.
    destruct (mark_deleted (repeat (Some 0) (length (vstates f))) d) as [nid| |]; simpl in H;
      try discriminate.
    destruct M as (M1 & M2 & M3). rewrite repeat_length in *.
    pose proof (compact_spec d (vstates f) (length (vstates f)) 0 nid (vstates f) 0) as C.
    destruct (compact (length (vstates f)) 0 nid (vstates f) 0) as [[nid' sts'] nst'].
    destruct C as (C1 & C2 & -> & C4 & C5); auto.
    { intros i Hi. rewrite M3. destruct (keepb d i).
      - rewrite nth_error_repeat; auto; lia.
      - assert (E : i <? length (vstates f) = true) by (apply Nat.ltb_lt; lia). rewrite E. auto. }
    { intros; lia. }
    { intros; lia. }
    rewrite (firstn_filteri d) in H by auto.
    destruct (map_res (remap_state nid') (filteri (keepb d) 0 (vstates f))) as [sts2| |] eqn:E;
      simpl in H; try discriminate.
    apply map_res_ok in E.
    assert (exists st, (match vstart f with
         | Some s => match nth_error nid' s with Some o => Ok o | None => Panic end
         | None => Ok None end) = Ok st) as (st & Est).
    { destruct (vstart f); [|eexists; reflexivity].
      destruct (nth_error nid' n); [eexists; reflexivity|discriminate]. }
    rewrite Est in H. simpl in H. inversion H; subst f'; clear H. simpl.
    split; [exact M1|]. split; [|split; [|auto]].
    - eapply Forall2_imp; [|exact E]. intros a b _ _ Hab. unfold remap_state in Hab.
      pose proof (remap_trs_spec d (length (vstates f)) nid' (vtrs a) (vnie a) (vnoe a) C4 C1) as R.
      destruct (remap_trs nid' (vtrs a) (vnie a) (vnoe a)) as [[[l2 ni2] no2]| |]; simpl in Hab;
        try discriminate.
      inversion Hab; subst; simpl. destruct R as (R1 & R2 & R3 & R4). subst. auto 10.
    - destruct (vstart f); simpl; [|congruence].
      destruct (Nat.ltb_spec n (length (vstates f))).
      + rewrite C4 in Est by auto. congruence.
      + rewrite (proj2 (nth_error_None nid' n)) in Est by lia. discriminate.
  Qed.

  (** Success and exact result on well-formed FSTs. *)
  Lemma del_states_ok f d :
    closed f -> Forall cnt_ok (vstates f) -> (forall s, In s d -> s < num_states f) ->
    del_states f d =
    Ok (VF (map (kept_state d) (filteri (keepb d) 0 (vstates f)))
           (opt_bind (vstart f) (newid d)) (visymt f) (vosymt f)
           (delete_states_properties (vprops f))).
  Proof.
    intros [Hc1 Hc2] Hcnt Hd. unfold del_states.
    pose proof (mark_deleted_spec (repeat (Some 0) (length (vstates f))) d) as M.
    rewrite repeat_length in M.
    destruct (mark_deleted (repeat (Some 0) (length (vstates f))) d) as [nid| |]; simpl.
    2: tauto.
    2: { destruct M as (s & Hs & Hl). apply Hd in Hs. unfold num_states in Hs. lia. }
    destruct M as (M1 & M2 & M3).
    pose proof (compact_spec d (vstates f) (length (vstates f)) 0 nid (vstates f) 0) as C.
    destruct (compact (length (vstates f)) 0 nid (vstates f) 0) as [[nid' sts'] nst'].
    destruct C as (C1 & C2 & -> & C4 & C5); auto.
    { intros i Hi. rewrite M3. destruct (keepb d i).
      - rewrite nth_error_repeat; auto; lia.
      - assert (E : i <? length (vstates f) = true) by (apply Nat.ltb_lt; lia). rewrite E. auto. }
    { intros; lia. }
    { intros; lia. }
    rewrite (firstn_filteri d) by auto.
    assert (map_res (remap_state nid') (filteri (keepb d) 0 (vstates f)) =
            Ok (map (kept_state d) (filteri (keepb d) 0 (vstates f)))) as ->.
    { apply map_res_ok.
      assert (HF : Forall (fun st => In st (vstates f)) (filteri (keepb d) 0 (vstates f))).
      { clear. generalize 0. generalize (vstates f). induction l as [|a l IH]; intros i; simpl; auto.
        assert (HI : Forall (fun st => a = st \/ In st l) (filteri (keepb d) (S i) l)).
        { eapply Forall_impl; [|apply IH]. simpl; auto. }
        destruct (keepb d i); auto. }
      induction HF; constructor; auto.
      unfold remap_state.
      pose proof (remap_trs_spec d (length (vstates f)) nid' (vtrs x) (vnie x) (vnoe x) C4 C1) as R.
      pose proof (proj1 (Forall_forall _ _) Hcnt x H) as [N1 N2].
      destruct (remap_trs nid' (vtrs x) (vnie x) (vnoe x)) as [[[l2 ni2] no2]| |]; simpl.
      - destruct R as (R1 & -> & R3 & R4). unfold kept_state. repeat f_equal; lia.
      - tauto.
      - exfalso. destruct R as [(t & Ht & Hl)|[R|R]]; try lia.
        apply In_nth_error in H as (i & Hi).
        specialize (Hc1 i t). unfold trs_of, num_states in Hc1. rewrite Hi in Hc1.
        specialize (Hc1 Ht). lia. }
    simpl. destruct (vstart f) as [s|] eqn:Es; simpl; auto.
    rewrite C4 by (apply Hc2; auto). auto.
  Qed.
End D.
