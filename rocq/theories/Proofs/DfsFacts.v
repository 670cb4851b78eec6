(** Invariant rule for [dfs_visit]: what a visitor may assume at each callback. *)
From Coq Require Import List Arith Lia Bool.
From Verif Require Import Base.Util Base.Semiring Base.Machine Model.Dfs.
Import ListNotations.

Lemma list_sum_upd_le (g h : nat -> nat) n :
  (forall s, h s <= g s) -> list_sum (map h (seq 0 n)) <= list_sum (map g (seq 0 n)).
Proof.
  intros H. generalize 0. induction n; intros i; simpl; auto. specialize (IHn (S i)). specialize (H i).
  unfold list_sum in *. lia.
Qed.
Lemma list_sum_drop (g h : nat -> nat) n w d : w < n ->
  (forall s, s <> w -> h s <= g s) -> h w + d <= g w ->
  list_sum (map h (seq 0 n)) + d <= list_sum (map g (seq 0 n)).
Proof.
  intros Hw H Hd.
  assert (G : forall k i, i <= w < i + k -> list_sum (map h (seq i k)) + d <= list_sum (map g (seq i k))).
  { induction k; intros i Hi; simpl; [lia|].
    destruct (Nat.eq_dec i w) as [->|Hne].
    - assert (list_sum (map h (seq (S w) k)) <= list_sum (map g (seq (S w) k))).
      { assert (forall k i, w < i -> list_sum (map h (seq i k)) <= list_sum (map g (seq i k))).
        { clear - H. induction k; intros i Hi; simpl; auto. specialize (IHk (S i)).
          assert (i <> w) by lia. specialize (H i H0). unfold list_sum in *. lia. }
        apply H0; lia. }
      unfold list_sum in *. lia.
    - specialize (IHk (S i)). specialize (H i Hne). unfold list_sum in *. lia. }
  apply G. lia.
Qed.

Section D.
  Context {K : SR} {V : Type}.
  Variable vis : visitor K V.
  Variable keep : tr K -> bool.
  Variable trs : nat -> list (tr K).
  Variable n : nat.
  Hypothesis closed : forall s t, s < n -> In t (trs s) -> ns t < n.

  Notation frame := (nat * list (tr K))%type.

  Definition nonwhite (c : list color) (s : nat) : Prop :=
    nth_error c s = Some Grey \/ nth_error c s = Some Black.

  Fixpoint chain (k : list frame) : Prop :=
    match k with
    | (s, _) :: k' =>
        match k' with
        | (p, rp) :: _ => (exists t r', rp = t :: r' /\ keep t = true /\ ns t = s) /\ chain k'
        | [] => True
        end
    | [] => True
    end.

  Record base (b : bool) (c : list color) (k : list frame) : Prop := {
    b_len : length c = n;
    b_grey : forall s, nth_error c s = Some Grey <-> In s (map fst k);
    b_nodup : NoDup (map fst k);
    b_pre : forall s r, In (s, r) k -> exists pre, trs s = pre ++ r;
    b_chain : chain k;
    b_black : b = true -> forall s t, nth_error c s = Some Black -> In t (trs s) -> keep t = true -> nonwhite c (ns t);
    b_proc : b = true -> forall s r pre t, In (s, r) k -> trs s = pre ++ r -> In t pre -> keep t = true ->
               nonwhite c (ns t)
  }.

  Lemma b_lt b c k s r : base b c k -> In (s, r) k -> s < n.
  Proof.
    intros B H. rewrite <- (b_len _ _ _ B). apply nth_error_Some.
    assert (nth_error c s = Some Grey) as ->; [|congruence].
    apply (b_grey _ _ _ B). apply in_map_iff. exists (s, r). auto.
  Qed.

  Lemma nonwhite_upd c s col u : col <> White -> nonwhite c u -> nonwhite (upd c s col) u.
  Proof.
    unfold nonwhite. intros Hc H. rewrite nth_error_upd.
    destruct ((s =? u) && (u <? length c)); auto. destruct col; auto; congruence.
  Qed.

  Lemma nth_upd_color (c : list color) s col u x : s < length c ->
    (nth_error (upd c s col) u = Some x <-> (u = s /\ x = col) \/ (u <> s /\ nth_error c u = Some x)).
  Proof.
    intros H. rewrite nth_error_upd. destruct (Nat.eqb_spec s u); simpl.
    - subst. destruct (Nat.ltb_spec u (length c)); [|lia]. split.
      + intros E; inversion E; auto.
      + intros [[_ ->]|[A _]]; congruence.
    - split; [right; split; auto|]. intros [[-> _]|[_ A]]; congruence.
  Qed.

  Lemma nonwhite_dec c s : s < length c -> nth_error c s <> Some White -> nonwhite c s.
  Proof.
    intros H Hw. destruct (nth_error c s) as [[]|] eqn:E; unfold nonwhite; auto; try congruence.
    apply nth_error_None in E. lia.
  Qed.

  (** Base invariant steps. *)
  Lemma base_pop_root b c s r : base b c [(s, r)] -> (b = false \/ r = []) -> base b (upd c s Black) [].
  Proof.
    intros B Hr. pose proof (b_lt _ _ _ s r B (or_introl eq_refl)) as Hs.
    assert (Hl : s < length c) by (rewrite (b_len _ _ _ B); auto).
    constructor; simpl.
    - rewrite upd_length. apply (b_len _ _ _ B).
    - intros u. rewrite nth_upd_color; auto. split; [|tauto]. intros [[_ A]|[A1 A2]]; [congruence|].
      apply (b_grey _ _ _ B) in A2. simpl in A2. destruct A2 as [A2|[]]; congruence.
    - constructor.
    - tauto.
    - exact I.
    - intros Eb u t Hu Ht Hk. destruct Hr as [Hr|Hr]; [congruence|]. subst r.
      apply nonwhite_upd; [congruence|]. apply nth_upd_color in Hu; auto. destruct Hu as [[-> _]|[_ Hu]].
      + destruct (b_pre _ _ _ B s [] (or_introl eq_refl)) as (pre & E). 
        eapply (b_proc _ _ _ B Eb s [] pre t); simpl; eauto. rewrite E, app_nil_r in Ht. auto.
      + eapply (b_black _ _ _ B); eauto.
    - tauto.
  Qed.

  Lemma base_pop b c s r p t rp k : base b c ((s, r) :: (p, t :: rp) :: k) -> (b = false \/ r = []) ->
    base b (upd c s Black) ((p, rp) :: k).
  Proof.
    intros B Hr. pose proof (b_lt _ _ _ s r B (or_introl eq_refl)) as Hs.
    assert (Hl : s < length c) by (rewrite (b_len _ _ _ B); auto).
    pose proof (b_nodup _ _ _ B) as ND. simpl in ND. inversion ND as [|? ? N1 N2]; subst.
    pose proof (b_chain _ _ _ B) as CH. simpl in CH. destruct CH as ((t0 & r0 & E0 & Kt & Et) & CH).
    inversion E0; subst t0 r0; clear E0.
    constructor.
    - rewrite upd_length. apply (b_len _ _ _ B).
    - intros u. rewrite nth_upd_color; auto. split.
      + intros [[_ A]|[A1 A2]]; [congruence|]. apply (b_grey _ _ _ B) in A2. simpl in A2. simpl.
        destruct A2 as [A2|A2]; [congruence|tauto].
      + intros H. right. simpl in H. split; [intros ->; simpl in N1; tauto|]. apply (b_grey _ _ _ B). simpl. tauto.
    - exact N2.
    - intros u q [E|H].
      + inversion E; subst. destruct (b_pre _ _ _ B u (t :: q)) as (pre & E'); [simpl; auto|].
        exists (pre ++ [t]). rewrite <- app_assoc. auto.
      + eapply (b_pre _ _ _ B); simpl; eauto.
    - simpl. destruct k as [|(p2, r2) k]; auto.
    - intros Eb u t' Hu Ht Hk. destruct Hr as [Hr|Hr]; [congruence|]. subst r.
      apply nonwhite_upd; [congruence|]. apply nth_upd_color in Hu; auto. destruct Hu as [[-> _]|[_ Hu]].
      + destruct (b_pre _ _ _ B s [] (or_introl eq_refl)) as (pre & E). 
        eapply (b_proc _ _ _ B Eb s [] pre t'); simpl; eauto. rewrite E, app_nil_r in Ht. auto.
      + eapply (b_black _ _ _ B); eauto.
    - intros Eb u q pre t' [E|H] Ep Ht' Hk.
      + inversion E; subst u q.
        destruct (b_pre _ _ _ B p (t :: rp)) as (pre2 & E2); [simpl; auto|].
        assert (pre = pre2 ++ [t]) as ->.
        { rewrite Ep in E2. change (t :: rp) with ([t] ++ rp) in E2. rewrite app_assoc in E2.
          apply app_inv_tail in E2. auto. }
        apply in_app_or in Ht' as [Ht'|[<-|[]]].
        * apply nonwhite_upd; [congruence|]. eapply (b_proc _ _ _ B Eb p (t :: rp)); simpl; eauto.
        * right. apply nth_upd_color; auto.
      + apply nonwhite_upd; [congruence|]. eapply (b_proc _ _ _ B Eb u q); simpl; eauto.
  Qed.

  (** Pass transition [t] of the top state, whose target is not white or which is filtered. *)
  Lemma base_pass b b' c s t r k : base b c ((s, t :: r) :: k) -> (b' = true -> b = true) ->
    (keep t = true -> nonwhite c (ns t)) -> base b' c ((s, r) :: k).
  Proof.
    intros B Hb Ht. constructor.
    - apply (b_len _ _ _ B).
    - apply (b_grey _ _ _ B).
    - apply (b_nodup _ _ _ B).
    - intros u q [E|H].
      + inversion E; subst. destruct (b_pre _ _ _ B u (t :: q)) as (pre & E'); [simpl; auto|].
        exists (pre ++ [t]). rewrite <- app_assoc. auto.
      + eapply (b_pre _ _ _ B); simpl; eauto.
    - pose proof (b_chain _ _ _ B) as CH. simpl in *. destruct k as [|(p2, r2) k]; auto.
    - intros Eb. apply (b_black _ _ _ B); auto.
    - intros Eb u q pre t' [E|H] Ep Ht' Hk.
      + inversion E; subst u q.
        destruct (b_pre _ _ _ B s (t :: r)) as (pre2 & E2); [simpl; auto|].
        assert (pre = pre2 ++ [t]) as ->.
        { rewrite Ep in E2. change (t :: r) with ([t] ++ r) in E2. rewrite app_assoc in E2.
          apply app_inv_tail in E2. auto. }
        apply in_app_or in Ht' as [Ht'|[<-|[]]]; auto.
        eapply (b_proc _ _ _ B (Hb Eb) s (t :: r)); simpl; eauto.
      + eapply (b_proc _ _ _ B (Hb Eb) u q); simpl; eauto.
  Qed.

  Lemma base_push b c s t r k : base true c ((s, t :: r) :: k) -> keep t = true ->
    nth_error c (ns t) = Some White ->
    base b (upd c (ns t) Grey) ((ns t, trs (ns t)) :: (s, t :: r) :: k).
  Proof.
    intros B Kt Hw. assert (Hl : ns t < length c) by (apply nth_error_Some; congruence).
    assert (Hin : ~ In (ns t) (map fst ((s, t :: r) :: k))).
    { intros H. apply (b_grey _ _ _ B) in H. congruence. }
    constructor.
    - rewrite upd_length. apply (b_len _ _ _ B).
    - intros u. rewrite nth_upd_color; auto. rewrite (b_grey _ _ _ B). simpl. split.
      + intros [[-> _]|[_ H]]; auto.
      + intros [<-|H]; auto. right. split; auto. intros ->. apply Hin. exact H.
    - constructor; auto. apply (b_nodup _ _ _ B).
    - intros u q [E|H]; [inversion E; subst; exists []; auto|]. eapply (b_pre _ _ _ B); eauto.
    - split; [exists t, r; auto|]. apply (b_chain _ _ _ B).
    - intros _ u t' Hu Ht Hk. apply nonwhite_upd; [congruence|]. apply nth_upd_color in Hu; auto.
      destruct Hu as [[_ A]|[_ Hu]]; [congruence|]. eapply (b_black _ _ _ B); eauto.
    - intros _ u q pre t' [E|H] Ep Ht' Hk.
      + inversion E; subst. rewrite <- (app_nil_l (trs (ns t))) in Ep at 1. apply app_inv_tail in Ep. subst pre.
        destruct Ht'.
      + apply nonwhite_upd; [congruence|]. eapply (b_proc _ _ _ B); eauto.
  Qed.

  Lemma base_new b c r : base true c [] -> nth_error c r = Some White -> base b (upd c r Grey) [(r, trs r)].
  Proof.
    intros B Hw. assert (Hl : r < length c) by (apply nth_error_Some; congruence). constructor.
    - rewrite upd_length. apply (b_len _ _ _ B).
    - intros u. rewrite nth_upd_color; auto. rewrite (b_grey _ _ _ B). simpl. split.
      + intros [[-> _]|[_ []]]; auto.
      + intros [<-|[]]; auto.
    - repeat constructor; auto.
    - intros u q [E|[]]. inversion E; subst. exists []; auto.
    - simpl. auto.
    - intros _ u t' Hu Ht Hk. apply nonwhite_upd; [congruence|]. apply nth_upd_color in Hu; auto.
      destruct Hu as [[_ A]|[_ Hu]]; [congruence|]. eapply (b_black _ _ _ B); eauto.
    - intros _ u q pre t' [E|[]] Ep Ht' Hk.
      inversion E; subst. rewrite <- (app_nil_l (trs u)) in Ep at 1. apply app_inv_tail in Ep. subst pre.
      destruct Ht'.
  Qed.

  Lemma base_start : base true (repeat White n) [].
  Proof.
    constructor; simpl; try tauto.
    - apply repeat_length.
    - intros s. split; [|tauto]. intros H. apply nth_error_In in H. apply repeat_spec in H. congruence.
    - constructor.
    - intros _ s t H. apply nth_error_In in H. apply repeat_spec in H. congruence.
  Qed.

  (** ** Termination measure *)
  Definition whitem (c : list color) (s : nat) : nat :=
    match nth_error c s with Some White => length (trs s) + 2 | _ => 0 end.
  Definition measure (c : list color) (k : list frame) : nat :=
    list_sum (map (fun f => length (snd f) + 1) k) + list_sum (map (whitem c) (seq 0 n)).

  Lemma whitem_upd_le c s col u : col <> White -> whitem (upd c s col) u <= whitem c u.
  Proof.
    intros Hc. unfold whitem. rewrite nth_error_upd. destruct ((s =? u) && (u <? length c)); auto.
    destruct col; try congruence; lia.
  Qed.
  Lemma measure_black c k s : measure (upd c s Black) k <= measure c k.
  Proof.
    unfold measure. pose proof (list_sum_upd_le (whitem c) (whitem (upd c s Black)) n
      (fun u => whitem_upd_le c s Black u ltac:(congruence))). lia.
  Qed.
  Lemma measure_grey c k s : length c = n -> nth_error c s = Some White ->
    measure (upd c s Grey) ((s, trs s) :: k) < measure c k.
  Proof.
    intros Hl Hw. assert (Hs : s < length c) by (apply nth_error_Some; congruence).
    unfold measure. simpl.
    assert (list_sum (map (whitem (upd c s Grey)) (seq 0 n)) + (length (trs s) + 2) <=
            list_sum (map (whitem c) (seq 0 n))).
    { apply list_sum_drop with (w := s); [lia| |].
      - intros u _. apply whitem_upd_le; congruence.
      - unfold whitem. rewrite nth_error_upd_eq, Hw; auto. }
    unfold list_sum in *. lia.
  Qed.

  (** ** The rule for the inner loop. *)
  Section Inner.
    Variable root : nat.
    Variable I : bool -> list color -> list frame -> V -> Prop.
    Hypothesis H_finish0 : forall b c s r v, base b c [(s, r)] -> (b = false \/ r = []) ->
      I b c [(s, r)] v -> exists v', v_finish vis v s None = Ok v' /\ I b (upd c s Black) [] v'.
    Hypothesis H_finish : forall b c s r p t rp k v,
      base b c ((s, r) :: (p, t :: rp) :: k) -> (b = false \/ r = []) ->
      keep t = true -> ns t = s ->
      I b c ((s, r) :: (p, t :: rp) :: k) v ->
      exists v', v_finish vis v s (Some (p, t)) = Ok v' /\ I b (upd c s Black) ((p, rp) :: k) v'.
    Hypothesis H_skip : forall c s t r k v, base true c ((s, t :: r) :: k) -> keep t = false ->
      I true c ((s, t :: r) :: k) v -> I true c ((s, r) :: k) v.
    Hypothesis H_tree : forall c s t r k v, base true c ((s, t :: r) :: k) -> keep t = true ->
      nth_error c (ns t) = Some White -> I true c ((s, t :: r) :: k) v ->
      exists v1 v2 b2, v_tree vis v s t = Ok (v1, true) /\ v_init vis v1 (ns t) root = Ok (v2, b2) /\
        I b2 (upd c (ns t) Grey) ((ns t, trs (ns t)) :: (s, t :: r) :: k) v2.
    Hypothesis H_back : forall c s t r k v, base true c ((s, t :: r) :: k) -> keep t = true ->
      nth_error c (ns t) = Some Grey -> I true c ((s, t :: r) :: k) v ->
      exists v' b', v_back vis v s t = Ok (v', b') /\ I b' c ((s, r) :: k) v'.
    Hypothesis H_fwd : forall c s t r k v, base true c ((s, t :: r) :: k) -> keep t = true ->
      nth_error c (ns t) = Some Black -> I true c ((s, t :: r) :: k) v ->
      exists v' b', v_fwd vis v s t = Ok (v', b') /\ I b' c ((s, r) :: k) v'.

    Lemma dfs_loop_ind fuel : forall c, base (dgo c) (dcol c) (dstk c) ->
      I (dgo c) (dcol c) (dstk c) (dvis c) -> measure (dcol c) (dstk c) <= fuel ->
      exists c', dfs_loop vis keep trs fuel root c = Ok c' /\ dstk c' = [] /\
        base (dgo c') (dcol c') [] /\ I (dgo c') (dcol c') [] (dvis c') /\
        (forall s, nonwhite (dcol c) s -> nonwhite (dcol c') s) /\
        (dgo c' = true -> dgo c = true).
    Proof.
      induction fuel as [|fuel IH]; intros [c k b v] B HI Hm; simpl in *.
      - destruct k as [|(s, r) k]; [eexists; split; [reflexivity|]; simpl; auto|].
        unfold measure in Hm. simpl in Hm. lia.
      - destruct k as [|(s, r) k]; [eexists; split; [reflexivity|]; simpl; auto|].
        assert (FIN : b = false \/ r = [] ->
          exists c', (r0 <-- match k with
            | [] => v' <-- v_finish vis v s None ;; Ok (DC (upd c s Black) [] b v', false)
            | (p, tp :: rp) :: k' =>
                v' <-- v_finish vis v s (Some (p, tp)) ;; Ok (DC (upd c s Black) ((p, rp) :: k') b v', false)
            | (p, []) :: k' => Panic
            end ;; (let '(c', brk) := r0 in if brk then Ok c' else dfs_loop vis keep trs fuel root c')) = Ok c' /\
            dstk c' = [] /\ base (dgo c') (dcol c') [] /\ I (dgo c') (dcol c') [] (dvis c') /\
            (forall u, nonwhite c u -> nonwhite (dcol c') u) /\ (dgo c' = true -> b = true)).
        { intros Hr. assert (MW : forall u, nonwhite c u -> nonwhite (upd c s Black) u).
          { intros u. apply nonwhite_upd; congruence. }
          destruct k as [|(p, rp) k].
          - destruct (H_finish0 b c s r v B Hr HI) as (v' & E & HI'). rewrite E. simpl.
            specialize (IH (DC (upd c s Black) [] b v')). simpl in IH.
            destruct IH as (c' & E' & A1 & A2 & A3 & A4 & A5); auto.
            + eapply base_pop_root; eauto.
            + pose proof (measure_black c [] s). unfold measure in *. simpl in *. lia.
            + exists c'. split; [exact E'|]. auto 10.
          - pose proof (b_chain _ _ _ B) as CH. destruct CH as ((t & rp' & -> & Kt & Et) & _).
            destruct (H_finish b c s r p t rp' k v B Hr Kt Et HI) as (v' & E & HI'). rewrite E. simpl.
            specialize (IH (DC (upd c s Black) ((p, rp') :: k) b v')). simpl in IH.
            destruct IH as (c' & E' & A1 & A2 & A3 & A4 & A5); auto.
            + eapply base_pop; eauto.
            + pose proof (measure_black c ((p, rp') :: k) s). unfold measure in *. simpl in *. lia.
            + exists c'. split; [exact E'|]. auto 10. }
        unfold dfs_turn. simpl.
        destruct r as [|t r]; [apply FIN; auto|].
        destruct b; [|apply FIN; auto].
        clear FIN.
        pose proof (b_lt _ _ _ s (t :: r) B (or_introl eq_refl)) as Hs.
        assert (Hin : In t (trs s)).
        { destruct (b_pre _ _ _ B s (t :: r)) as (pre & E'); [simpl; auto|]. rewrite E'.
          apply in_or_app. right. simpl. auto. }
        assert (Ht : ns t < length c) by (rewrite (b_len _ _ _ B); eauto).
        destruct (nth_error c (ns t)) as [col|] eqn:Ec.
        2:{ apply nth_error_None in Ec. lia. }
        assert (PASS : forall b' v', base b' c ((s, r) :: k) -> I b' c ((s, r) :: k) v' ->
          exists c', dfs_loop vis keep trs fuel root (DC c ((s, r) :: k) b' v') = Ok c' /\
            dstk c' = [] /\ base (dgo c') (dcol c') [] /\ I (dgo c') (dcol c') [] (dvis c') /\
            (forall u, nonwhite c u -> nonwhite (dcol c') u) /\ (dgo c' = true -> true = true)).
        { intros b' v' B' HI'. specialize (IH (DC c ((s, r) :: k) b' v')). simpl in IH.
          destruct IH as (c' & E' & A1 & A2 & A3 & A4 & A5); auto.
          - unfold measure in *. simpl in *. lia.
          - exists c'. split; [exact E'|]. auto 10. }
        destruct (keep t) eqn:Kt.
        + destruct col.
          * destruct (H_tree c s t r k v B Kt Ec HI) as (v1 & v2 & b2 & E1 & E2 & HI').
            rewrite E1. simpl. rewrite E2. simpl.
            specialize (IH (DC (upd c (ns t) Grey) ((ns t, trs (ns t)) :: (s, t :: r) :: k) b2 v2)).
            simpl in IH. destruct IH as (c' & E' & A1 & A2 & A3 & A4 & A5); auto.
            -- apply base_push; auto.
            -- pose proof (measure_grey c ((s, t :: r) :: k) (ns t) (b_len _ _ _ B) Ec) as M.
               unfold measure in *. simpl in *. unfold list_sum in *. lia.
            -- exists c'. split; [exact E'|]. split; auto. split; auto. split; auto. split; auto. intros u Hu. apply A4.
               apply nonwhite_upd; auto. congruence.
          * destruct (H_back c s t r k v B Kt Ec HI) as (v' & b' & E & HI'). rewrite E. simpl.
            apply PASS; auto. eapply base_pass; eauto. intros; left; auto.
          * destruct (H_fwd c s t r k v B Kt Ec HI) as (v' & b' & E & HI'). rewrite E. simpl.
            apply PASS; auto. eapply base_pass; eauto. intros; right; auto.
        + simpl. apply PASS; [|apply (H_skip c s t r k v); auto]. eapply base_pass; eauto. congruence.
    Qed.

    Lemma dfs_root_ind c : dstk c = [] -> base true (dcol c) [] -> nth_error (dcol c) root = Some White ->
      (exists v1 b1, v_init vis (dvis c) root root = Ok (v1, b1) /\
        I b1 (upd (dcol c) root Grey) [(root, trs root)] v1) ->
      exists c', dfs_root vis keep trs n root c = Ok c' /\ dstk c' = [] /\
        base (dgo c') (dcol c') [] /\ I (dgo c') (dcol c') [] (dvis c') /\
        (forall s, nonwhite (dcol c) s -> nonwhite (dcol c') s) /\ nonwhite (dcol c') root.
    Proof.
      intros Hk B Hw (v1 & b1 & E & HI). unfold dfs_root. rewrite E. simpl.
      assert (Hl : root < length (dcol c)) by (apply nth_error_Some; congruence).
      edestruct (dfs_loop_ind (dfs_fuel trs n) (DC (upd (dcol c) root Grey) [(root, trs root)] b1 v1))
        as (c' & E' & A1 & A2 & A3 & A4 & A5); simpl; auto.
      - apply base_new; auto.
      - pose proof (measure_grey (dcol c) [] root (b_len _ _ _ B) Hw) as M.
        assert (N : measure (dcol c) [] <= dfs_fuel trs n); [|lia].
        unfold measure, dfs_fuel. simpl.
        assert (G : forall k i, list_sum (map (whitem (dcol c)) (seq i k)) <=
                      2 * k + list_sum (map (fun s => length (trs s)) (seq i k))).
        { induction k; intros i; simpl; auto. specialize (IHk (S i)). unfold list_sum in *.
          assert (whitem (dcol c) i <= length (trs i) + 2).
          { unfold whitem. destruct (nth_error (dcol c) i) as [[]|]; lia. }
          lia. }
        specialize (G n 0). lia.
      - exists c'. split; auto. split; auto. split; auto. split; auto. split.
        + intros s Hs. apply A4. simpl. apply nonwhite_upd; auto. congruence.
        + apply A4. simpl. left. apply nth_error_upd_eq; auto.
    Qed.
  End Inner.

  (** ** The rule for the whole visit ([I] also depends on the current root). *)
  Section Outer.
    Variable I : nat -> bool -> list color -> list frame -> V -> Prop.
    Variable s0 : nat.
    Variable v0 : V.
    Hypothesis Hs0 : s0 < n.
    Hypothesis H_init : exists v1 b1, v_init vis v0 s0 s0 = Ok (v1, b1) /\
       I s0 b1 (upd (repeat White n) s0 Grey) [(s0, trs s0)] v1.
    Hypothesis H_next : forall r r' c v, base true c [] -> nth_error c r' = Some White -> r' <> s0 ->
      nonwhite c s0 -> I r true c [] v ->
      exists v1 b1, v_init vis v r' r' = Ok (v1, b1) /\ I r' b1 (upd c r' Grey) [(r', trs r')] v1.
    Hypothesis H_finish0 : forall root b c s r v, base b c [(s, r)] -> (b = false \/ r = []) ->
      I root b c [(s, r)] v -> exists v', v_finish vis v s None = Ok v' /\ I root b (upd c s Black) [] v'.
    Hypothesis H_finish : forall root b c s r p t rp k v,
      base b c ((s, r) :: (p, t :: rp) :: k) -> (b = false \/ r = []) ->
      keep t = true -> ns t = s ->
      I root b c ((s, r) :: (p, t :: rp) :: k) v ->
      exists v', v_finish vis v s (Some (p, t)) = Ok v' /\ I root b (upd c s Black) ((p, rp) :: k) v'.
    Hypothesis H_skip : forall root c s t r k v, base true c ((s, t :: r) :: k) -> keep t = false ->
      I root true c ((s, t :: r) :: k) v -> I root true c ((s, r) :: k) v.
    Hypothesis H_tree : forall root c s t r k v, base true c ((s, t :: r) :: k) -> keep t = true ->
      nth_error c (ns t) = Some White -> I root true c ((s, t :: r) :: k) v ->
      exists v1 v2 b2, v_tree vis v s t = Ok (v1, true) /\ v_init vis v1 (ns t) root = Ok (v2, b2) /\
        I root b2 (upd c (ns t) Grey) ((ns t, trs (ns t)) :: (s, t :: r) :: k) v2.
    Hypothesis H_back : forall root c s t r k v, base true c ((s, t :: r) :: k) -> keep t = true ->
      nth_error c (ns t) = Some Grey -> I root true c ((s, t :: r) :: k) v ->
      exists v' b', v_back vis v s t = Ok (v', b') /\ I root b' c ((s, r) :: k) v'.
    Hypothesis H_fwd : forall root c s t r k v, base true c ((s, t :: r) :: k) -> keep t = true ->
      nth_error c (ns t) = Some Black -> I root true c ((s, t :: r) :: k) v ->
      exists v' b', v_fwd vis v s t = Ok (v', b') /\ I root b' c ((s, r) :: k) v'.

    Lemma dfs_visit_ind (access_only : bool) :
      exists root b c v, dfs_visit vis keep trs n (Some s0) access_only v0 = v_end vis v /\
        base b c [] /\ I root b c [] v /\
        (access_only = true -> root = s0) /\ nonwhite c s0 /\
        (b = true -> access_only = false -> forall s, s < n -> nth_error c s = Some Black).
    Proof.
      unfold dfs_visit. destruct (Nat.ltb_spec s0 n); [|lia].
      edestruct (dfs_root_ind s0 (I s0)) with (c := @DC K V (repeat White n) [] true v0)
        as (c1 & E1 & K1 & B1 & I1 & _ & W1); simpl; eauto.
      - apply base_start.
      - apply nth_error_repeat; auto.
      - simpl in E1. rewrite E1. simpl. destruct access_only.
        + simpl. exists s0, (dgo c1), (dcol c1), (dvis c1). split; auto. split; auto. split; auto. split; auto. split; auto. congruence.
        + assert (G : forall k i, i + k = n -> forall root (c : dcfg K V), dstk c = [] -> base (dgo c) (dcol c) [] ->
             I root (dgo c) (dcol c) [] (dvis c) -> nonwhite (dcol c) s0 ->
             (dgo c = true -> forall s, s < i -> nonwhite (dcol c) s) ->
             exists root' c', fold_left (fun r rt =>
                           c <-- r ;;
                           if dgo c then
                             match nth_error (dcol c) rt with
                             | Some White => dfs_root vis keep trs n rt c
                             | _ => Ok c
                             end
                           else Ok c) (seq i k) (Ok c) = Ok c' /\ dstk c' = [] /\
               base (dgo c') (dcol c') [] /\ I root' (dgo c') (dcol c') [] (dvis c') /\ nonwhite (dcol c') s0 /\
               (dgo c' = true -> forall s, s < n -> nonwhite (dcol c') s)).
          { induction k as [|k IH]; intros i Hi root c Hk B HI Hw Hall.
            - simpl. exists root, c. split; auto. split; auto. split; auto. split; auto. split; auto. intros Hd s Hs. apply Hall; auto. lia.
            - simpl. destruct (dgo c) eqn:Ed.
              + destruct (nth_error (dcol c) i) as [[]|] eqn:Ec.
                * assert (Hne : i <> s0). { intros ->. destruct Hw; congruence. }
                  edestruct (dfs_root_ind i (I i)) with (c := c) as (c2 & E2 & K2 & B2 & I2 & M2 & W2); eauto.
                  rewrite E2. apply IH with (root := i); auto; try lia.
                  intros Hd s Hs. destruct (Nat.eq_dec s i) as [->|]; auto. apply M2, Hall; auto. lia.
                * apply IH with (root := root); auto; try lia; try (rewrite Ed; auto).
                  intros Hd s Hs. destruct (Nat.eq_dec s i) as [->|]; [left; auto|]. apply Hall; auto. lia.
                * apply IH with (root := root); auto; try lia; try (rewrite Ed; auto).
                  intros Hd s Hs. destruct (Nat.eq_dec s i) as [->|]; [right; auto|]. apply Hall; auto. lia.
                * apply nth_error_None in Ec. rewrite (b_len _ _ _ B) in Ec. lia.
              + apply IH with (root := root); auto; try lia; try (rewrite Ed; auto). intros; congruence. }
          destruct (G n 0 eq_refl s0 c1) as (root' & c' & E & K' & B' & I' & W' & A'); auto; [intros; lia|].
          rewrite E. simpl. exists root', (dgo c'), (dcol c'), (dvis c'). split; auto. split; auto. split; auto. split; [congruence|]. split; auto.
          intros Hd _ s Hs. destruct (A' Hd s Hs) as [A|A]; auto. apply (b_grey _ _ _ B') in A. destruct A.
    Qed.
  End Outer.
End D.
