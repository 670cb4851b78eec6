(** C20: the sorted matcher returns exactly the matching transitions; what the sigma and
    multi-epsilon matchers built on top of a matcher return. *)
From Coq Require Import List Arith NArith Lia Bool Sorted.
From Verif Require Import Base.Util Base.Semiring Base.Machine Base.PropSpec Base.Instances
  Model.Props Model.VectorFst Model.TrOps Model.History Model.Matchers
  Proofs.PropsFacts Proofs.VectorFacts Props.C01 Props.C06.
Import ListNotations.

Section C20.
  Context {K : SR}.
  Implicit Types (t : tr K) (trs l : list (tr K)).

  Definition side (mt : mtype) (t : tr K) : nat := match mt with MOutput => ol t | _ => il t end.

  Lemma lb_loop_ok less l : (forall i j t t', i <= j -> nth_error l i = Some t -> nth_error l j = Some t' -> less t' = true -> less t = true) ->
    forall fuel base size, size <= fuel -> 1 <= size -> base + size <= length l ->
      (forall i t, base + size <= i -> nth_error l i = Some t -> less t = false) ->
      (base = 0 \/ forall t, nth_error l base = Some t -> less t = true) ->
      exists b, lb_loop fuel less l base size = Ok b /\ b < length l /\
        (forall i t, S b <= i -> nth_error l i = Some t -> less t = false) /\
        (b = 0 \/ forall t, nth_error l b = Some t -> less t = true).
  Proof.
    intros Mono. induction fuel as [|fuel IH]; intros base size Hf H1 Hb Hge Hlo; [lia|]. cbn [lb_loop].
    destruct (Nat.leb_spec size 1) as [Hs|Hs].
    - exists base. split; auto. split; [lia|]. split; auto. intros i t Hi. apply Hge. lia.
    - set (half := Nat.div2 size).
      assert (Hh : 1 <= half /\ half < size).
      { unfold half. pose proof (Nat.div2_decr size (size - 1)). destruct size as [|[|n]]; try lia. simpl.
        split; [lia|]. pose proof (Nat.div2_decr n n). assert (Nat.div2 n <= n) by (apply Nat.div2_decr; lia). lia. }
      destruct (nth_error_ex l (base + half) ltac:(lia)) as (t & Et). rewrite Et.
      destruct (less t) eqn:El.
      + apply IH; try lia.
        * intros i t' Hi. apply Hge. lia.
        * right. intros t' Et'. congruence.
      + apply IH; try lia; auto. intros i t' Hi Ei. destruct (less t') eqn:El'; auto.
        rewrite <- El. symmetry. apply (Mono (base + half) i t t'); auto.
        destruct (Nat.le_gt_cases (base + half) i); auto.
        assert (base + (size - half) <= i) by lia. unfold half in *. pose proof (Nat.div2_odd size) as Od.
        destruct (Nat.odd size); simpl in Od; lia.
  Qed.

  Lemma sorted_nth (h : tr K -> nat) l : StronglySorted le (map h l) ->
    forall i j t t', i <= j -> nth_error l i = Some t -> nth_error l j = Some t' -> h t <= h t'.
  Proof.
    induction l as [|x l IH]; simpl; intros S i j t t' Hij Ei Ej; [destruct i; discriminate|].
    apply StronglySorted_inv in S as [S F]. rewrite Forall_forall in F.
    destruct i as [|i], j as [|j]; simpl in *; try lia.
    - injection Ei as <-. injection Ej as <-. lia.
    - injection Ei as <-. apply F. apply in_map. eapply nth_error_In; eauto.
    - apply (IH S i j t t'); auto. lia.
  Qed.

  Lemma lower_bound_ok (h : tr K -> nat) n l : StronglySorted le (map h l) ->
    exists p, lower_bound (fun t => Nat.ltb (h t) n) l = Ok p /\ p <= length l /\
      Forall (fun t => h t < n) (firstn p l) /\ Forall (fun t => n <= h t) (skipn p l).
  Proof.
    intros S. assert (l = [] \/ 1 <= length l) as [->|Hl] by (destruct l; simpl; [auto|right; lia]).
    - exists 0. simpl. repeat (split; auto).
    - set (less := fun t => Nat.ltb (h t) n).
      pose proof (sorted_nth h l S) as Hs.
      assert (Mono : forall i j t t', i <= j -> nth_error l i = Some t -> nth_error l j = Some t' -> less t' = true -> less t = true).
      { unfold less. intros i j t t' Hij Ei Ej H. apply Nat.ltb_lt in H. apply Nat.ltb_lt. specialize (Hs i j t t' Hij Ei Ej). lia. }
      destruct (lb_loop_ok less l Mono (Datatypes.S (length l)) 0 (length l)) as (b & Eb & Lb & Hi & Lo); auto.
      { intros i t H E. assert (i < length l) by (apply nth_error_Some; congruence). lia. }
      destruct (nth_error_ex l b Lb) as (t & Et).
      assert (Elb : lower_bound less l = Ok (b + (if less t then 1 else 0))).
      { unfold lower_bound. destruct l as [|x l']; [simpl in Hl; lia|]. rewrite Eb. cbn [rbind]. rewrite Et. auto. }
      exists (b + (if less t then 1 else 0)). split; auto.
      assert (B : forall p, (forall i t, i < p -> nth_error l i = Some t -> less t = true) ->
                 (forall i t, p <= i -> nth_error l i = Some t -> less t = false) ->
                 Forall (fun t => h t < n) (firstn p l) /\ Forall (fun t => n <= h t) (skipn p l)).
      { clear. intros p P1 P2. split; apply Forall_forall; intros t Ht; apply In_nth_error in Ht as (i & Ei).
        - assert (Hi : i < length (firstn p l)) by (apply nth_error_Some; congruence). rewrite firstn_length in Hi.
          apply Nat.ltb_lt. apply (P1 i t); [lia|]. rewrite <- (firstn_skipn p l), nth_error_app1 by (rewrite firstn_length; lia). auto.
        - assert (Hi : i < length (skipn p l)) by (apply nth_error_Some; congruence). rewrite skipn_length in Hi.
          apply Nat.ltb_ge. apply (P2 (p + i) t); [lia|]. rewrite <- (firstn_skipn p l), nth_error_app2 by (rewrite firstn_length; lia).
          rewrite firstn_length, Nat.min_l by lia. rewrite <- Ei. f_equal. lia. }
      destruct (less t) eqn:Elt.
      + split; [lia|]. apply B.
        * intros i t' Hi' Ei. apply (Mono i b t' t); auto. lia.
        * intros i t' Hi' Ei. apply (Hi i t'); auto. lia.
      + rewrite Nat.add_0_r. split; [lia|]. apply B.
        * intros i t' Hi' Ei. destruct Lo as [->|Lo]; [lia|]. rewrite (Lo t Et) in Elt. discriminate.
        * intros i t' Hi' Ei. destruct (Nat.eq_dec i b) as [->|]; [congruence|apply (Hi i t'); auto; lia].
  Qed.

  Lemma drain_eq mt n pre suf : mt = MInput \/ mt = MOutput -> StronglySorted le (map (side mt) suf) ->
    Forall (fun t => n <= side mt t) suf -> forall fuel, length suf < fuel ->
    exists it, drain sm_next fuel (SI (pre ++ suf) n (length pre) false mt) =
      Ok (map ITr (filter (fun t => Nat.eqb (side mt t) n) suf), it) /\ sm_next it = Ok (None, it).
  Proof.
    intros Hmt. revert pre. induction suf as [|t suf IH]; intros pre S F fuel Hf.
    - destruct fuel as [|fuel]; [simpl in Hf; lia|]. cbn [drain]. unfold sm_next at 1. cbn [si_loop si_trs si_pos].
      rewrite app_nil_r, (proj2 (nth_error_None _ _)) by auto. cbn [rbind fst snd].
      eexists. split; [reflexivity|]. unfold sm_next. cbn [si_loop si_trs si_pos].
      rewrite (proj2 (nth_error_None _ _)) by auto. auto.
    - destruct fuel as [|fuel]; [simpl in Hf; lia|]. cbn [drain]. unfold sm_next at 1. cbn [si_loop si_trs si_pos si_type si_label].
      rewrite nth_error_app2, Nat.sub_diag by auto. cbn [nth_error].
      assert (sm_label mt t = Ok (side mt t)) as -> by (destruct Hmt as [->| ->]; auto). cbn [rbind].
      simpl in S. apply StronglySorted_inv in S as [S1 S2]. cbn [filter].
      destruct (Nat.eqb_spec (side mt t) n) as [E|NE].
      + cbn [rbind fst snd]. specialize (IH (pre ++ [t]) S1 (Forall_inv_tail F) fuel ltac:(simpl in Hf; lia)).
        destruct IH as (it & E1 & E2). rewrite <- app_assoc, app_length, Nat.add_1_r in E1. cbn [app] in E1.
        rewrite E1. cbn [rbind fst snd map]. eexists. split; [reflexivity|auto].
      + cbn [rbind fst snd].
        assert (filter (fun t0 => Nat.eqb (side mt t0) n) suf = []) as ->.
        { pose proof (Forall_inv F) as Ht. simpl in Ht. rewrite Forall_forall in S2.
          assert (Q : forall x, In x suf -> side mt t <= side mt x) by (intros x Hx; apply S2; apply in_map; auto).
          clear - NE Ht Q. induction suf as [|x suf IH]; simpl; auto.
          assert (side mt t <= side mt x) by (apply Q; left; auto). destruct (Nat.eqb_spec (side mt x) n); [lia|].
          apply IH. intros y Hy. apply Q. right; auto. }
        eexists. split; [reflexivity|]. unfold sm_next. cbn [si_loop si_trs si_pos si_type si_label].
        rewrite nth_error_app2, Nat.sub_diag by auto. cbn [nth_error].
        assert (sm_label mt t = Ok (side mt t)) as -> by (destruct Hmt as [->| ->]; auto). cbn [rbind].
        destruct (Nat.eqb_spec (side mt t) n); [contradiction|auto].
  Qed.

  (** On transitions sorted by the matched side: the items are the implicit loop, exactly when
      epsilon was asked, then the transitions carrying the label (epsilon if [NO_LABEL] was
      asked), all of them, in order; after that the iterator stays exhausted. *)
  Theorem C20_sorted_matcher mt trs lab : mt = MInput \/ mt = MOutput ->
    StronglySorted le (map (side mt) trs) ->
    exists it0 it, sm_new trs lab mt = Ok it0 /\
      drain sm_next (S (S (length trs))) it0 =
        Ok ((match lab with Lab 0 => [ILoop] | _ => [] end) ++
            map ITr (filter (fun t => Nat.eqb (side mt t) (match lab with Lab l => l | NoLab => 0 end)) trs), it) /\
      sm_next it = Ok (None, it).
  Proof.
    intros Hmt S. set (n := match lab with Lab l => l | NoLab => 0 end).
    destruct (qlab_eqb lab (Lab 0)) eqn:El.
    - assert (lab = Lab 0) as -> by (destruct lab as [|[|]]; try discriminate; auto).
      destruct (drain_eq mt 0 [] trs Hmt S) with (fuel := Datatypes.S (length trs)) as (it & E & E'); [apply Forall_forall; intros; lia|lia|].
      cbn [app length] in E. exists (SI trs 0 0 true mt), it. split; [reflexivity|]. split; auto.
      set (k := Datatypes.S (length trs)) in *. cbn [drain]. unfold sm_next at 1. cbn [si_loop rbind fst snd si_trs si_label si_pos si_type].
      rewrite E. auto.
    - destruct (lower_bound_ok (side mt) n trs S) as (p & Ep & Lp & F1 & F2).
      assert (En : sm_new trs lab mt = Ok (SI trs n p false mt)).
      { unfold sm_new. rewrite El. fold n. destruct Hmt as [->| ->]; cbn [side] in Ep.
        - assert (lower_bound (fun t => il t <? n) trs = Ok p) as -> by exact Ep. auto.
        - assert (lower_bound (fun t => ol t <? n) trs = Ok p) as -> by exact Ep. auto. }
      assert (Sk : StronglySorted le (map (side mt) (skipn p trs))).
      { clear - S. revert p. induction trs as [|t trs IH]; intros [|p]; simpl; auto.
        apply IH. simpl in S. apply StronglySorted_inv in S as [S _]. auto. }
      destruct (drain_eq mt n (firstn p trs) (skipn p trs) Hmt Sk F2 (Datatypes.S (Datatypes.S (length trs)))) as (it & E & E').
      { rewrite skipn_length. lia. }
      exists (SI trs n p false mt), it. split; auto. split; auto.
      rewrite firstn_skipn, firstn_length, Nat.min_l in E by auto. rewrite E. f_equal. f_equal.
      assert (match lab with Lab 0 => [ILoop] | _ => [] end = @nil (item K)) as -> by (destruct lab as [|[|]]; try discriminate; auto).
      cbn [app]. f_equal. rewrite <- (firstn_skipn p trs) at 2. rewrite filter_app.
      assert (filter (fun t => Nat.eqb (side mt t) n) (firstn p trs) = []) as ->; auto.
      clear - F1. induction F1 as [|t l Ht _ IH]; simpl; auto. destruct (Nat.eqb_spec (side mt t) n); [lia|auto].
  Qed.

  (** On the machine itself: with a sound "sorted" bit, a successful [match_type] answer of the
      same kind means the matcher above applies at every state; [MatchNone] means it does not at
      some state. *)
  Theorem C20_match_type f mt test : bits_true f -> mt = MInput \/ mt = MOutput ->
    match sm_match_type f mt test with
    | Ok MInput => mt = MInput /\ forall s, StronglySorted le (map il (trs_of f s))
    | Ok MOutput => mt = MOutput /\ forall s, StronglySorted le (map ol (trs_of f s))
    | Ok MNone => exists s, ~ StronglySorted le (map (side mt) (trs_of f s))
    | Ok _ => test = false
    | Err => test = true
    | Panic => False
    end.
  Proof.
    intros B Hmt. unfold sm_match_type.
    assert (C : forall b, contains (vprops f) (mask [b]) = true <-> has (vprops f) b = true).
    { intros b. rewrite contains_mask. split; [intros H; apply H; left; auto|intros H b' [<-|[]]; auto]. }
    destruct Hmt as [->| ->]; cbn [mtype_eqb side];
      [set (tp := I_LABEL_SORTED); set (fp := NOT_I_LABEL_SORTED)|set (tp := O_LABEL_SORTED); set (fp := NOT_O_LABEL_SORTED)];
      (destruct test; [destruct (knows (vprops f) (mask [tp; fp])) eqn:Ek|]; cbn [rbind]; auto);
      destruct (contains (vprops f) (mask [tp])) eqn:E1;
      try (apply C, B in E1; cbn in E1; auto);
      destruct (contains (vprops f) (mask [fp])) eqn:E2;
      try (apply C, B in E2; cbn in E2; auto); auto;
      unfold knows in Ek; rewrite contains_mask in Ek; specialize (Ek tp (or_introl eq_refl)); rewrite has_known in Ek;
      subst tp fp; cbn [opp] in Ek; apply orb_true_iff in Ek as [Ek|Ek]; apply C in Ek; congruence.
  Qed.

  Section Over.
    (** Any matcher. *)
    Variable M : nat -> qlab -> res (list (item K)).

    Definition rewrite_sigma (rw : bool) (mt : mtype) (sigma : qlab) (x : nat) (t : tr K) : sitem K :=
      if rw
      then SSigma (QT (if qlab_eqb (Lab (il t)) sigma then Lab x else Lab (il t))
                      (if qlab_eqb (Lab (ol t)) sigma then Lab x else Lab (ol t)) (wgt t) (ns t))
      else if mtype_eqb mt MInput then SSigma (QT (Lab x) (Lab (ol t)) (wgt t) (ns t))
      else SSigma (QT (Lab (il t)) (Lab x) (wgt t) (ns t)).

    Lemma sig_drain_plain s lab sigma mt hs rw : forall (l : list (item K)) fuel, length l < fuel ->
      exists it, sig_drain M fuel (GI s lab sigma mt false (Some NoLab) l hs rw) = Ok (map SPlain l, it).
    Proof.
      induction l as [|x l IH]; intros fuel Hf; (destruct fuel as [|fuel]; [simpl in Hf; lia|]); cbn.
      - eauto.
      - destruct (IH fuel) as (it & E); [simpl in Hf; lia|]. rewrite E. cbn. eauto.
    Qed.
    Lemma sig_drain_sigma s x sigma mt hs rw : forall l fuel, length l < fuel ->
      exists it, sig_drain M fuel (GI s (Lab x) sigma mt false (Some (Lab x)) (map ITr l) hs rw) =
        Ok (map (rewrite_sigma rw mt sigma x) l, it).
    Proof.
      induction l as [|t l IH]; intros fuel Hf; (destruct fuel as [|fuel]; [simpl in Hf; lia|]); cbn.
      - eauto.
      - destruct (IH fuel) as (it & E); [simpl in Hf; lia|].
        destruct rw; [|destruct (mtype_eqb mt MInput) eqn:Em]; cbn; rewrite E; cbn;
          unfold rewrite_sigma; cbn; try rewrite Em; eauto.
    Qed.

    (** What iterating over a sigma matcher yields, for a proper sigma label and a proper
        label: the exact matches if there are any — and then never the sigma transitions —
        else the sigma transitions carrying the label, if it is allowed. *)
    Theorem C20_sigma_matcher s x g mt rw allowed exact sg : x <> 0 -> x <> g ->
      M s (Lab x) = Ok exact -> M s (Lab g) = Ok (map ITr sg) ->
      exists it0 it, sig_new M s (Lab x) (Lab g) mt rw allowed = Ok it0 /\
        sig_drain M (S (length exact + length sg)) it0 =
          Ok (match exact with
              | _ :: _ => map SPlain exact
              | [] => if sigma_allowed allowed (Lab x) then map (rewrite_sigma rw mt (Lab g) x) sg else []
              end, it).
    Proof.
      intros Hx Hg E1 E2. unfold sig_new, has_sigma. cbn [qlab_eqb].
      destruct (Nat.eqb_spec x g); [contradiction|]. destruct (Nat.eqb_spec x 0); [contradiction|].
      cbn [andb negb]. rewrite E2. cbn [rbind]. rewrite E1. cbn [rbind].
      destruct exact as [|e ex].
      - destruct sg as [|t sg].
        + cbn. do 2 eexists. split; [reflexivity|]. cbn. destruct (sigma_allowed allowed (Lab x)); auto.
        + cbn [map andb]. rewrite !andb_true_r, ?andb_true_l. destruct (sigma_allowed allowed (Lab x)) eqn:Ea.
          * eexists. destruct (sig_drain_sigma s x (Lab g) mt true rw (t :: sg) (S (0 + length (t :: sg)))) as (it & E); [simpl; lia|].
            exists it. split; [reflexivity|exact E].
          * do 2 eexists. split; [reflexivity|]. cbn. auto.
      - destruct (sig_drain_plain s (Lab x) (Lab g) mt (match map ITr sg with [] => false | _ => true end) rw (e :: ex)
          (S (length (e :: ex) + length sg))) as (it & E); [simpl; lia|].
        do 2 eexists. split; [reflexivity|]. destruct sg; exact E.
    Qed.

    (** Epsilon and [NO_LABEL] requests go to the underlying matcher unchanged. *)
    Theorem C20_sigma_matcher_epsilon s lab g mt rw allowed exact sg : lab = Lab 0 \/ lab = NoLab -> g <> 0 ->
      M s lab = Ok exact -> M s (Lab g) = Ok sg ->
      exists it0 it, sig_new M s lab (Lab g) mt rw allowed = Ok it0 /\
        sig_drain M (S (length exact)) it0 = Ok (map SPlain exact, it).
    Proof.
      intros Hl Hg E1 E2. unfold sig_new, has_sigma.
      assert (qlab_eqb lab (Lab g) = false) as ->.
      { destruct Hl as [->| ->]; auto. destruct g; [congruence|reflexivity]. }
      cbn [andb negb qlab_eqb]. rewrite E2. cbn [rbind]. rewrite E1. cbn [rbind].
      destruct exact as [|e ex].
      - destruct sg as [|t sg].
        + cbn. do 2 eexists. split; reflexivity.
        + destruct Hl as [->| ->]; cbn; do 2 eexists; split; reflexivity.
      - destruct (sig_drain_plain s lab (Lab g) mt (match sg with [] => false | _ => true end) rw (e :: ex)
          (S (length (e :: ex)))) as (it & E); [simpl; lia|].
        do 2 eexists. split; [reflexivity|]. destruct sg; exact E.
    Qed.

    Definition me_drain := @drain K (meit K) (me_next M).

    Lemma me_drain_plain s d : forall (l : list (item K)) fuel, length l < fuel ->
      exists it, me_drain fuel (MI (Some l) None s d) = Ok (l, it).
    Proof.
      unfold me_drain. induction l as [|x l IH]; intros fuel Hf; (destruct fuel as [|fuel]; [simpl in Hf; lia|]); cbn.
      - eauto.
      - destruct (IH fuel) as (it & E); [simpl in Hf; lia|]. rewrite E. cbn. eauto.
    Qed.

    Lemma me_find_none s : forall ls p, (forall x, In x ls -> M s (Lab x) = Ok []) ->
      me_find M s ls p = Ok (p + length ls, None).
    Proof.
      induction ls as [|x ls IH]; intros p H; simpl; [rewrite Nat.add_0_r; auto|].
      rewrite H by (left; auto). cbn [rbind]. rewrite IH by (intros; apply H; right; auto). do 2 f_equal. lia.
    Qed.
    Lemma me_find_one s a x b r : (forall y, In y a -> M s (Lab y) = Ok []) -> M s (Lab x) = Ok r -> r <> [] ->
      forall p, me_find M s (a ++ x :: b) p = Ok (p + length a, Some r).
    Proof.
      intros Ha Hx Hr. induction a as [|y a IH]; intros p; simpl.
      - rewrite Hx. cbn [rbind]. destruct r; [congruence|]. rewrite Nat.add_0_r. auto.
      - rewrite Ha by (left; auto). cbn [rbind]. rewrite IH by (intros; apply Ha; right; auto). do 2 f_equal. lia.
    Qed.

    Lemma me_drain_last s a x b eps d : (forall y, In y b -> M s (Lab y) = Ok []) -> M s NoLab = Ok eps ->
      forall (l : list (item K)) fuel, length l + length eps < fuel ->
      exists it, me_drain fuel (MI (Some l) (Some (a ++ x :: b, length a)) s d) = Ok (l ++ eps, it).
    Proof.
      intros Hb He. unfold me_drain. induction l as [|y l IH]; intros fuel Hf; (destruct fuel as [|fuel]; [lia|]); cbn [drain].
      - assert (Nx : exists it, me_next M (MI (Some []) (Some (a ++ x :: b, length a)) s d) = Ok (hd_error eps, it) /\
          it = MI (Some (tl eps)) (Some (a ++ x :: b, length (a ++ x :: b))) s d).
        { cbn [me_next gm_iter gm_labels gm_state gm_done]. destruct (Nat.leb_spec (length (a ++ x :: b)) (length a)) as [H|_].
          - rewrite app_length in H. simpl in H. lia.
          - assert (Sk : forall (l : list nat) c, skipn (S (length l)) (l ++ c) = skipn 1 c).
            { clear. induction l as [|z l IHl]; intros c; auto. exact (IHl c). }
            rewrite Sk. cbn [skipn]. rewrite me_find_none by auto. cbn [unwrap rbind fst snd]. rewrite He. cbn [unwrap rbind].
            assert (S (length a) + length b = length (a ++ x :: b)) as -> by (rewrite app_length; simpl; lia).
            destruct eps; cbn [hd_error tl]; eauto. }
        destruct Nx as (it & -> & ->). cbn [rbind fst snd]. destruct eps as [|e eps]; cbn [hd_error tl]; [eauto|].
        assert (Ep : forall eps fuel, length eps < fuel -> exists it,
          drain (me_next M) fuel (MI (Some eps) (Some (a ++ x :: b, length (a ++ x :: b))) s d) = Ok (eps, it)).
        { clear. induction eps as [|e eps IH]; intros fuel Hf; (destruct fuel as [|fuel]; [lia|]); cbn [drain].
          - cbn [me_next gm_iter gm_labels]. rewrite Nat.leb_refl. cbn. eauto.
          - cbn [me_next gm_iter rbind fst snd gm_labels gm_state gm_done]. destruct (IH fuel) as (it & ->); [simpl in Hf; lia|].
            cbn. eauto. }
        destruct (Ep eps fuel) as (it & ->); [simpl in Hf; lia|]. cbn. eauto.
      - cbn [me_next gm_iter rbind fst snd gm_labels gm_state gm_done].
        destruct (IH fuel) as (it & ->); [simpl in Hf; lia|]. cbn. eauto.
    Qed.

    (** The multi-epsilon matcher: a multi-epsilon label [x] stands for the implicit loop; asking
        [NO_LABEL] gives the transitions of the multi-epsilon labels and then the epsilon ones,
        provided at most one multi-epsilon label [x] occurs at the state. *)
    Theorem C20_multi_eps_loop s x ls : x <> 0 -> forall fl, exists it,
      (it0 <-- me_new M true fl ls true s (Lab x) ;; me_drain 2 it0) = Ok ([ILoop], it).
    Proof. intros Hx fl. unfold me_new. destruct x; [congruence|]. cbn. eauto. Qed.
    Theorem C20_multi_eps_other s x ls fl fl' (l : list (item K)) : x <> 0 -> M s (Lab x) = Ok l -> exists it,
      (it0 <-- me_new M fl fl' ls false s (Lab x) ;; me_drain (S (length l)) it0) = Ok (l, it).
    Proof.
      intros Hx E. unfold me_new. destruct x; [congruence|]. rewrite andb_false_r, E. cbn [rbind].
      apply me_drain_plain. auto.
    Qed.
    Theorem C20_multi_eps_list s fl a x b (l eps : list (item K)) : M s NoLab = Ok eps -> M s (Lab x) = Ok l ->
      (forall y, In y (a ++ b) -> M s (Lab y) = Ok []) -> exists it,
      (it0 <-- me_new M fl true (a ++ x :: b) false s NoLab ;; me_drain (S (length l + length eps)) it0) = Ok (l ++ eps, it).
    Proof.
      intros He Hx Hy. unfold me_new. destruct l as [|i l].
      - rewrite me_find_none.
        + cbn [rbind snd]. rewrite He. cbn [rbind]. apply me_drain_plain. simpl. auto.
        + intros y Hin. apply in_app_iff in Hin as [Hin|[<-|Hin]]; auto; apply Hy; apply in_app_iff; auto.
      - rewrite (me_find_one s a x b (i :: l)) by (auto; try discriminate; intros; apply Hy; apply in_app_iff; auto).
        cbn [rbind fst snd]. apply me_drain_last with (l := i :: l); auto. intros y Hin. apply Hy. apply in_app_iff; auto.
    Qed.
  End Over.
End C20.
Print Assumptions C20_sorted_matcher.
Print Assumptions C20_match_type.
Print Assumptions C20_sigma_matcher.
Print Assumptions C20_sigma_matcher_epsilon.
Print Assumptions C20_multi_eps_loop.
Print Assumptions C20_multi_eps_other.
Print Assumptions C20_multi_eps_list.

Definition ta : tr natSR := Tr 5 5 1 0.
Definition tb : tr natSR := Tr 6 6 1 0.
Definition te : tr natSR := Tr 0 0 1 0.
Definition f3 : vfst natSR := VF [VS (Some 1) [te; te; ta; tb] 2 2] (Some 0) None None 0.

(** Sigma transitions are not returned next to exact matches (label 6 is sigma, 5 is asked). *)
Theorem C20_sigma_shadow_refuted :
  exists it0 it, sig_new (sm_items f3 MInput) 0 (Lab 5) (Lab 6) MInput true None = Ok it0 /\
    sig_drain (sm_items f3 MInput) 9 it0 = Ok ([SPlain (ITr ta)], it) /\
    ~ In (SSigma (QT (Lab 5) (Lab 5) 1 0)) [SPlain (ITr ta)] /\ In tb (trs_of f3 0).
Proof.
  do 2 eexists. split; [vm_compute; reflexivity|]. split; [vm_compute; reflexivity|]. split.
  - intros [H|[]]. discriminate.
  - vm_compute. auto.
Qed.

(** With two multi-epsilon labels at a state, the loop ends after the first of them: the
    transitions of the other and all epsilon transitions are lost. *)
Theorem C20_multi_eps_list_refuted :
  exists it, (it0 <-- me_new (sm_items f3 MInput) true true [5; 6] false 0 NoLab ;; me_drain (sm_items f3 MInput) 9 it0)
    = Ok ([ITr ta], it) /\ In tb (trs_of f3 0) /\ In te (trs_of f3 0).
Proof. eexists. split; [vm_compute; reflexivity|]. vm_compute. split; auto 10. Qed.
Print Assumptions C20_sigma_shadow_refuted.
Print Assumptions C20_multi_eps_list_refuted.

(** A sorted state, each kind of request. *)
Example C20_instance :
  StronglySorted le (map (side MInput) [te; te; ta; tb]) /\
  sm_items f3 MInput 0 (Lab 5) = Ok [ITr ta] /\
  sm_items f3 MInput 0 (Lab 0) = Ok [ILoop; ITr te; ITr te] /\
  sm_items f3 MInput 0 NoLab = Ok [ITr te; ITr te] /\
  sm_items f3 MInput 0 (Lab 7) = Ok [].
Proof. split; [repeat constructor|]. repeat split; vm_compute; reflexivity. Qed.
