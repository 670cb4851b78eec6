(** C51: scanning a sorted list of transitions against the label index. *)
From Coq Require Import List Arith NArith ZArith Bool Lia Permutation Sorted.
From Verif Require Import Base.Util Base.Semiring Base.Machine Base.PropSpec Base.Instances
  Model.Props Model.VectorFst Model.Rational Model.Matchers Model.IntervalSet Model.Reachable Model.LabelReach
  Proofs.VectorFacts Proofs.RationalFacts Proofs.LabelFacts Props.C34 Props.C50.
Import ListNotations.

Section Spec.
  Context {K : SR}.
  (** The positions of [b, e) whose label is in the set, in order. *)
  Definition selected (a : iset) (rfi : bool) (l : list (tr K)) (b e : nat) (pos : list nat) : Prop :=
    StronglySorted lt pos /\
    forall i, In i pos <-> b <= i < e /\ exists t, nth_error l i = Some t /\ covered (ivals a) (on_side rfi t).
  Definition weight_at (l : list (tr K)) (i : nat) : K := match nth_error l i with Some t => wgt t | None => kzero end.
  (** First position, one past the last, and the sum of the weights. *)
  Definition summary (l : list (tr K)) (cw : bool) (pos : list nat) : option (nat * nat * K) :=
    match pos with
    | [] => None
    | p :: _ => Some (p, S (last pos p), if cw then fold_left kplus (map (weight_at l) pos) kzero else kzero)
    end.
End Spec.

Section C51.
  Context {K : SR}.
  Implicit Types (l : list (tr K)).

  Definition lab (rfi : bool) l (i : nat) : nat := match nth_error l i with Some t => side rfi t | None => 0 end.

  Lemma lower_ok rfi l m : forall fuel low high, high - low < fuel -> low <= high <= length l ->
    (forall i j, low <= i -> i <= j -> j < high -> lab rfi l i <= lab rfi l j) ->
    exists p, lr_lower fuel rfi l low high m = Ok p /\ low <= p <= high /\
      (forall i, low <= i < p -> lab rfi l i < m) /\ (forall i, p <= i < high -> m <= lab rfi l i).
  Proof.
    induction fuel as [|fuel IH]; intros low high Hf Hl Mono; [lia|]. cbn [lr_lower]. destruct (Nat.ltb_spec low high) as [Hlt|Hge].
    2:{ exists low. split; auto. split; [lia|]. split; intros; lia. }
    set (mid := low + Nat.div2 (high - low)).
    assert (Hm : low <= mid < high). { unfold mid. pose proof (Nat.lt_div2 (high - low) ltac:(lia)). lia. }
    destruct (nth_error_ex l mid) as [t Et]; [lia|]. rewrite Et.
    assert (El : lab rfi l mid = side rfi t) by (unfold lab; rewrite Et; auto). rewrite <- El. destruct (Nat.ltb_spec (lab rfi l mid) m) as [H|H].
    - destruct (IH (S mid) high) as (p & E & Hp & A & B); [lia|lia|intros; apply Mono; lia|]. exists p. split; auto. split; [lia|]. split; auto.
      intros i Hi. destruct (Nat.le_gt_cases i mid) as [Hx|Hx]; [|apply A; lia]. assert (lab rfi l i <= lab rfi l mid) by (apply Mono; lia). lia.
    - destruct (IH low mid) as (p & E & Hp & A & B); [lia|lia|intros; apply Mono; lia|]. exists p. split; auto. split; [lia|]. split; auto.
      intros i Hi. destruct (Nat.lt_ge_cases i mid) as [Hx|Hx]; [apply B; lia|]. assert (lab rfi l mid <= lab rfi l i) by (apply Mono; lia). lia.
  Qed.

  Definition summ l (cw : bool) (pos : list nat) : racc :=
    RA (hd_error pos) (match pos with [] => 0 | _ => S (last pos 0) end) (if cw then fold_left kplus (map (weight_at l) pos) kzero else kzero).
  Lemma last_indep (pos : list nat) a b : pos <> [] -> last pos a = last pos b.
  Proof. induction pos as [|x [|y pos] IH]; [congruence|reflexivity|]. intros _. cbn [last] in *. apply IH. discriminate. Qed.
  Lemma last_app_ne (p q : list nat) d : q <> [] -> last (p ++ q) d = last q d.
  Proof.
    intros Hq. induction p as [|x p IH]; auto. cbn [app]. rewrite <- IH. destruct (p ++ q) eqn:E; [|reflexivity]. apply app_eq_nil in E as [_ ->]. congruence.
  Qed.
  Lemma summ_app l cw p q : q <> [] -> summ l cw (p ++ q) =
    RA (match ra_begin (summ l cw p) with None => hd_error q | b => b end) (S (last q 0))
       (if cw then fold_left kplus (map (weight_at l) q) (ra_w (summ l cw p)) else ra_w (summ l cw p)).
  Proof.
    intros Hq. unfold summ. cbn [ra_begin ra_w]. f_equal.
    - destruct p; auto.
    - rewrite last_app_ne by auto. destruct (p ++ q) eqn:E; auto. apply app_eq_nil in E as [_ ->]. congruence.
    - destruct cw; auto. rewrite map_app, fold_left_app. auto.
  Qed.
  Lemma summ_summary l cw pos : match ra_begin (summ l cw pos) with Some p => Some (p, ra_end (summ l cw pos), ra_w (summ l cw pos)) | None => None end = summary l cw pos.
  Proof. destruct pos as [|p pos]; auto. cbn [summ hd_error ra_begin ra_end ra_w summary]. rewrite (last_indep _ 0 p) by discriminate. auto. Qed.

  Section S.
    Context (d : lrdata) (rfi cw : bool) (s : nat) (a : iset) (l : list (tr K)).
    Context (Ea : nth_error (ld_sets d) s = Some a) (NE : Forall nonempty (ivals a)) (SP : separated (ivals a)) (NZ : ~ covered (ivals a) 0).

    Definition sel (i : nat) : bool := is_member a (lab rfi l i).
    Lemma mem_iff x : is_member a x = true <-> covered (ivals a) x.
    Proof. apply (member_ok (ivals a) (icount a)); auto. Qed.

    Lemma scan_ok b : forall n, b + n <= length l -> exists r,
      rfold (scan_step d s rfi cw l) (seq b n) (RA None 0 kzero, None) = Ok (summ l cw (filter sel (seq b n)), r) /\
      (forall x, r = Some x -> is_member a x = true).
    Proof.
      induction n as [|n IH]; intros Hn.
      - exists None. split; [|discriminate]. unfold summ. cbn. destruct cw; reflexivity.
      - destruct IH as (r & E & Hr); [lia|]. rewrite seq_S, rfold_app, E, filter_app. cbn [rbind]. rewrite rfold_cons.
        destruct (nth_error_ex l (b + n)) as [t Et]; [lia|]. unfold scan_step at 1. rewrite Et. cbn [snd fst filter].
        assert (El : lab rfi l (b + n) = side rfi t) by (unfold lab; rewrite Et; auto).
        assert (X : (if match r with Some x => side rfi t =? x | None => false end then Ok true else reach_label d s (side rfi t)) = Ok (sel (b + n))).
        { unfold sel. rewrite El. destruct (match r with Some x => side rfi t =? x | None => false end) eqn:Er.
          - destruct r as [x|]; [|discriminate]. apply Nat.eqb_eq in Er as ->. rewrite Hr by auto. auto.
          - unfold reach_label, interval_set. destruct (Nat.eqb_spec (side rfi t) 0) as [->|]; [|rewrite Ea; reflexivity].
            destruct (is_member a 0) eqn:E0; auto. apply mem_iff in E0. contradiction. }
        rewrite X. cbn [rbind]. destruct (sel (b + n)) eqn:Es.
        + eexists. split.
          * cbn [rfold fold_left]. f_equal. f_equal. rewrite summ_app by discriminate. cbn [hd_error last map fold_left]. unfold weight_at. rewrite Et. reflexivity.
          * intros x H. inversion H. subst x. unfold sel in Es. rewrite El in Es. auto.
        + rewrite app_nil_r. exists r. auto.
    Qed.

    Lemma sum_range_ok : forall n b w, b + n <= length l -> sum_range l b (b + n) w = Ok (fold_left kplus (map (weight_at l) (seq b n)) w).
    Proof.
      unfold sum_range. intros n b w H. replace (b + n - b) with n by lia. revert b w H. induction n as [|n IH]; intros b w H; [reflexivity|].
      cbn [seq map fold_left]. rewrite rfold_cons. destruct (nth_error_ex l b) as [t Et]; [lia|]. rewrite Et. cbn [rbind]. rewrite IH by lia.
      replace (weight_at l b) with (wgt t) by (unfold weight_at; rewrite Et; auto). auto.
    Qed.

    Context (Mono : forall i j, i <= j -> j < length l -> lab rfi l i <= lab rfi l j).
    Definition cov (ivs : list ival) (i : nat) : bool := existsb (fun v => (ibegin v <=? lab rfi l i) && (lab rfi l i <? iend v)) ivs.
    Lemma cov_iff ivs i : cov ivs i = true <-> covered ivs (lab rfi l i).
    Proof.
      unfold cov, covered. rewrite existsb_exists. split; intros (v & A & B); exists v; split; auto.
      - apply andb_true_iff in B as [B1 B2]. apply Nat.leb_le in B1. apply Nat.ltb_lt in B2. lia.
      - apply andb_true_iff. rewrite Nat.leb_le, Nat.ltb_lt. lia.
    Qed.
    Lemma filter_none {A} (p : A -> bool) q : (forall x, In x q -> p x = false) -> filter p q = [].
    Proof. induction q as [|x q IH]; intros H; auto. cbn. rewrite H by (left; auto). apply IH. intros; apply H; right; auto. Qed.
    Lemma filter_all {A} (p : A -> bool) q : (forall x, In x q -> p x = true) -> filter p q = q.
    Proof. induction q as [|x q IH]; intros H; auto. cbn. rewrite H by (left; auto). f_equal. apply IH. intros; apply H; right; auto. Qed.

    Lemma jump_ok b e : b <= e <= length l -> forall todo done p, ivals a = done ++ todo -> b <= p <= e ->
      (forall i, b <= i < p -> exists v, In v done /\ lab rfi l i < iend v) ->
      (forall i v, p <= i < e -> In v done -> iend v <= lab rfi l i) ->
      exists q, rfold (jump_step rfi cw l e) todo (summ l cw (filter (cov done) (seq b (p - b))), p) = Ok (summ l cw (filter (cov (ivals a)) (seq b (e - b))), q).
    Proof.
      intros Hbe. induction todo as [|v todo IH]; intros done p Ed Hp H1 H2.
      - exists p. rewrite app_nil_r in Ed. rewrite Ed. cbn [rfold fold_left]. f_equal. f_equal.
        replace (e - b) with ((p - b) + (e - p)) by lia. rewrite seq_app, filter_app. replace (b + (p - b)) with p by lia.
        rewrite (filter_none _ (seq p (e - p))), app_nil_r; auto. intros i Hi. apply in_seq in Hi. destruct (cov done i) eqn:Ec; auto.
        apply cov_iff in Ec as (v & Hv & Hr). specialize (H2 i v ltac:(lia) Hv). lia.
      - rewrite rfold_cons. unfold jump_step at 1, lr_lower_bound. cbn [snd fst].
        destruct (lower_ok rfi l (ibegin v) (S (e - p)) p e) as (b1 & -> & Hb1 & A1 & A2); [lia|lia|intros; apply Mono; lia|]. cbn [rbind].
        destruct (lower_ok rfi l (iend v) (S (e - b1)) b1 e) as (h & -> & Hh & B1 & B2); [lia|lia|intros; apply Mono; lia|]. cbn [rbind].
        assert (Hdv : forall v', In v' done -> iend v' < ibegin v).
        { intros v' Hv'. unfold separated in SP. rewrite Ed in SP. clear - SP Hv'. induction done as [|x done IHd]; [destruct Hv'|]. cbn [app] in SP. inversion SP; subst.
          destruct Hv' as [->|Hv']; auto. eapply Forall_forall in H2; [exact H2|]. apply in_app_iff. right; left; auto. }
        assert (Hne : ibegin v < iend v). { eapply Forall_forall in NE; [exact NE|]. rewrite Ed. apply in_app_iff. right; left; auto. }
        assert (Ed' : ivals a = (done ++ [v]) ++ todo) by (rewrite <- app_assoc; auto).
        assert (F : filter (cov (done ++ [v])) (seq b (h - b)) = filter (cov done) (seq b (p - b)) ++ seq b1 (h - b1)).
        { replace (h - b) with ((p - b) + ((b1 - p) + (h - b1))) by lia. rewrite !seq_app, !filter_app. replace (b + (p - b)) with p by lia. replace (p + (b1 - p)) with b1 by lia.
          f_equal; [|rewrite filter_none, filter_all; auto].
          - apply filter_ext_in. intros i Hi. apply in_seq in Hi. unfold cov. rewrite existsb_app. cbn [existsb]. rewrite orb_false_r.
            destruct (H1 i ltac:(lia)) as (v' & Hv' & Hl). specialize (Hdv v' Hv'). destruct (Nat.leb_spec (ibegin v) (lab rfi l i)); [lia|]. apply orb_false_r.
          - intros i Hi. apply in_seq in Hi. apply cov_iff. exists v. split; [apply in_app_iff; right; left; auto|]. specialize (A2 i ltac:(lia)). specialize (B1 i ltac:(lia)). lia.
          - intros i Hi. apply in_seq in Hi. destruct (cov (done ++ [v]) i) eqn:Ec; auto. apply cov_iff in Ec as (v' & Hv' & Hr). apply in_app_iff in Hv' as [Hv'|[<-|[]]].
            + specialize (H2 i v' ltac:(lia) Hv'). lia.
            + specialize (A1 i ltac:(lia)). lia. }
        assert (P1 : forall i, b <= i < h -> exists v', In v' (done ++ [v]) /\ lab rfi l i < iend v').
        { intros i Hi. destruct (Nat.lt_ge_cases i p) as [Hx|Hx].
          - destruct (H1 i ltac:(lia)) as (v' & Hv' & Hl). exists v'. split; auto. apply in_app_iff; auto.
          - exists v. split; [apply in_app_iff; right; left; auto|]. destruct (Nat.lt_ge_cases i b1) as [Hy|Hy]; [specialize (A1 i ltac:(lia)); lia|apply B1; lia]. }
        assert (P2 : forall i v', h <= i < e -> In v' (done ++ [v]) -> iend v' <= lab rfi l i).
        { intros i v' Hi Hv'. apply in_app_iff in Hv' as [Hv'|[<-|[]]]; [apply H2; auto; lia|apply B2; lia]. }
        destruct (IH (done ++ [v]) h Ed' ltac:(lia) P1 P2) as (q & Eq). rewrite F in Eq.
        destruct (Nat.ltb_spec 0 (h - b1)) as [Hlt|Hge].
        + exists q. rewrite <- Eq. clear Eq IH. assert (Ne : seq b1 (h - b1) <> []) by (destruct (h - b1) eqn:Eh; [lia|discriminate]).
          rewrite (summ_app _ _ _ _ Ne). replace (S (last (seq b1 (h - b1)) 0)) with h.
          2:{ destruct (h - b1) as [|k] eqn:Eh; [lia|]. rewrite seq_S, last_app_ne by discriminate. cbn. lia. }
          replace (hd_error (seq b1 (h - b1))) with (Some b1) by (destruct (h - b1) eqn:Eh; [lia|reflexivity]).
          destruct cw; [|reflexivity]. replace h with (b1 + (h - b1)) at 1 by lia. rewrite sum_range_ok by lia. reflexivity.
        + exists q. rewrite <- Eq. replace (h - b1) with 0 by lia. cbn [seq]. rewrite app_nil_r. reflexivity.
    Qed.
    Lemma sel_cov b n : filter (cov (ivals a)) (seq b n) = filter sel (seq b n).
    Proof.
      apply filter_ext. intros i. unfold sel. destruct (cov (ivals a) i) eqn:E.
      - symmetry. apply mem_iff, cov_iff, E.
      - symmetry. apply not_true_iff_false. intros H. apply mem_iff, cov_iff in H. congruence.
    Qed.
  End S.

  Lemma filter_sorted (p : nat -> bool) b n : StronglySorted lt (filter p (seq b n)).
  Proof.
    revert b. induction n as [|n IH]; intros b; cbn; [constructor|]. destruct (p b); auto. constructor; auto.
    apply Forall_forall. intros x Hx. apply filter_In in Hx as [Hx _]. apply in_seq in Hx. lia.
  Qed.

  (** Both strategies of [reach] (linear scan and jumps by binary search) return the same. *)
  Theorem C51_reach :
    forall d rfi s l b e cw a, nth_error (ld_sets d) s = Some a ->
    Forall nonempty (ivals a) -> separated (ivals a) -> ~ covered (ivals a) 0 ->
    b <= e <= length l -> StronglySorted le (map (on_side rfi) l) ->
    exists pos, selected a rfi l b e pos /\ lr_reach d rfi s l b e cw = Ok (summary l cw pos).
  Proof.
    intros d rfi s l b e cw a Ea NE SP NZ Hbe St.
    assert (Mono : forall i j, i <= j -> j < length l -> lab rfi l i <= lab rfi l j).
    { intros i j Hij Hj. unfold lab. destruct (nth_error_ex l j Hj) as [tj Ej]. destruct (nth_error_ex l i) as [ti Ei]; [lia|]. rewrite Ei, Ej.
      change (on_side rfi ti <= on_side rfi tj). clear - St Ei Ej Hij. revert i j Hij Ei Ej. induction l as [|x l IH]; intros i j Hij Ei Ej; [destruct i; discriminate|].
      cbn [map] in St. inversion St; subst. destruct i as [|i], j as [|j]; try lia; cbn in Ei, Ej.
      - inversion Ei. inversion Ej. subst. auto.
      - inversion Ei. subst. eapply Forall_forall in H2; [exact H2|]. apply in_map. eapply nth_error_In; eauto.
      - apply (IH H1 i j); auto. lia. }
    exists (filter (sel rfi a l) (seq b (e - b))). split.
    - split; [apply filter_sorted|]. intros i. rewrite filter_In, in_seq. unfold sel. rewrite (mem_iff a NE SP). unfold lab. split.
      + intros [Hi H]. split; [lia|]. destruct (nth_error_ex l i) as [t Et]; [lia|]. rewrite Et in H. exists t. auto.
      + intros [Hi (t & Et & H)]. rewrite Et. split; auto. lia.
    - unfold lr_reach, interval_set. rewrite Ea. cbn [rbind]. cbv zeta. destruct (2 * (e - b) <? length (ivals a)).
      + destruct (scan_ok d rfi cw s a l Ea NE SP NZ b (e - b)) as (r & -> & _); [lia|]. cbn [rmap rbind fst]. rewrite summ_summary. auto.
      + destruct (jump_ok rfi cw a l NE SP Mono b e Hbe (ivals a) [] b eq_refl) as (q & E); [lia|intros; lia|intros i v _ []|].
        rewrite Nat.sub_diag in E. cbn [seq filter] in E. replace (summ l cw []) with (RA None 0 (@kzero K)) in E by (unfold summ; destruct cw; reflexivity).
        rewrite E. cbn [rmap rbind fst]. rewrite sel_cov by auto. rewrite summ_summary. auto.
  Qed.
End C51.

Print Assumptions C51_reach.

(** Two intervals; three of the five transitions are selected, whichever strategy is used. *)
Definition c51_set : iset := IS [IV 2 4; IV 6 7] (Some 3).
Definition c51_trs : list (tr natSR) := [Tr 1 0 10 0; Tr 2 0 20 0; Tr 3 0 30 0; Tr 5 0 40 0; Tr 6 0 50 0].
Example C51_witness :
  Forall nonempty (ivals c51_set) /\ separated (ivals c51_set) /\ ~ covered (ivals c51_set) 0 /\
  StronglySorted le (map (on_side true) c51_trs) /\
  lr_reach (LD true None [] [c51_set]) true 0 c51_trs 0 5 true = Ok (Some (1, 5, 100)) /\
  lr_reach (LD true None [] [c51_set]) true 0 c51_trs 3 4 true = Ok None /\
  lr_reach (LD true None [] [IS [IV 2 4; IV 6 7; IV 9 10] (Some 4)]) true 0 c51_trs 1 2 true = Ok (Some (1, 2, 20)).
Proof.
  split; [repeat constructor|]. split; [repeat constructor; cbn; lia|]. split.
  { intros (v & [<-|[<-|[]]] & H); cbn in H; lia. }
  split; [repeat constructor; cbn; lia|]. repeat split; vm_compute; reflexivity.
Qed.
