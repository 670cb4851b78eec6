(** Merging the states of each class of a partition. *)
From Coq Require Import List Arith NArith Bool Lia Permutation Sorted.
From Verif Require Import Base.Util Base.Semiring Base.Machine Base.PropSpec
  Model.Props Model.VectorFst Model.TrOps Model.AlgoProps Model.History Model.Visitors Model.Relabel Model.Rational Model.Partition Model.Minimize
  Proofs.PropsFacts Proofs.VectorFacts Proofs.DelStates Proofs.VectorProps Proofs.TrOpsFacts Proofs.HistoryFacts
  Proofs.OpFacts Proofs.ConnectFacts Proofs.RationalFacts Proofs.ReverseDist Proofs.RmEpsFacts Props.C03.
Import ListNotations.

(** What a caller sees of a partition of [N] elements in [k] classes, none empty. *)
Definition parts (N : nat) (p : partition) (cls : nat -> nat) (k : nat) : Prop :=
  p_num_classes p = k /\ (forall e, e < N -> p_class_id p e = Ok (cls e) /\ cls e < k) /\
  (forall c, c < k -> exists l, p_iter p c = Ok l /\ NoDup l /\ l <> [] /\ forall e, In e l <-> e < N /\ cls e = c).

Section M.
  Context {K : SR} (L : lsr_laws K).
  Implicit Types (f g h : vfst K) (p : partition).

  Definition set_ns (t : tr K) (q : nat) : tr K := Tr (il t) (ol t) (wgt t) q.

  Lemma iter_set_nextstate_eff f s i t q : s < num_states f -> nth_error (trs_of f s) i = Some t ->
    exists g, iter_set_nextstate f s i q = Ok g /\ eff f g /\
      (forall u, trs_of g u = if u =? s then upd (trs_of f s) i (set_ns t q) else trs_of f u) /\
      (forall u, fin_of g u = fin_of f u) /\ (fsound f -> fsound g).
  Proof.
    intros H Ht. destruct (nth_state f s H) as (st & E & E1 & E2).
    assert (X : iter_set_nextstate f s i q = Ok (upd_state f s (VS (vfin st) (upd (vtrs st) i (set_ns t q)) (vnie st) (vnoe st))
                      (keep_only_relevant_properties (vprops f)))).
    { unfold iter_set_nextstate, get_state. rewrite E. cbn [rbind]. rewrite E1 in Ht. rewrite Ht. reflexivity. }
    rewrite X. eexists. split; [reflexivity|]. split; [|split; [|split]].
    - apply eff_upd. intros C. destruct (cnt_nth _ _ _ C E) as [A B]. rewrite E1 in Ht.
      pose proof (count_upd ieps _ _ _ (set_ns t q) Ht) as C1. pose proof (count_upd oeps _ _ _ (set_ns t q) Ht) as C2.
      unfold ieps at 2 4 in C1; unfold oeps at 2 4 in C2. simpl in C1, C2. split; simpl; lia.
    - intros u. rewrite trs_of_upd by auto. cbn [vtrs]. rewrite E1. auto.
    - intros u. rewrite fin_of_upd by auto. cbn [vfin]. rewrite <- E2. apply if_same.
    - intros F. eapply fsound_iter_next; eauto.
  Qed.

  (** The loop over the transitions of a representative. *)
  Lemma redirect_eff (w : nat -> res nat) (v : nat -> nat) f s : s < num_states f ->
    (forall t, In t (trs_of f s) -> w (ns t) = Ok (v (ns t))) ->
    exists g, for_trs (fun h s i => with_tr h s i (fun t => q <-- w (ns t) ;; iter_set_nextstate h s i q)) f s = Ok g /\ eff f g /\
      (forall q, trs_of g q = if q =? s then map (fun t => set_ns t (v (ns t))) (trs_of f s) else trs_of f q) /\
      (forall q, fin_of g q = fin_of f q) /\ (fsound f -> fsound g).
  Proof.
    intros Hs Hw. unfold for_trs.
    assert (G : forall suf pre h, s < num_states h -> (forall t, In t suf -> w (ns t) = Ok (v (ns t))) ->
      trs_of h s = pre ++ suf ->
      exists g, fold_left (fun r i => h0 <-- r ;; with_tr h0 s i (fun t => q <-- w (ns t) ;; iter_set_nextstate h0 s i q))
          (seq (length pre) (length suf)) (Ok h) = Ok g /\ eff h g /\
        (forall q, trs_of g q = if q =? s then pre ++ map (fun t => set_ns t (v (ns t))) suf else trs_of h q) /\
        (forall q, fin_of g q = fin_of h q) /\ (fsound h -> fsound g)).
    { induction suf as [|t suf IH]; intros pre h Hh Hok Et.
      - exists h. cbn [length seq fold_left map]. rewrite <- Et. repeat split; auto. intros q. symmetry. apply if_same.
      - cbn [length seq fold_left rbind].
        assert (Nt : nth_error (trs_of h s) (length pre) = Some t) by (rewrite Et, nth_error_app2, Nat.sub_diag by lia; reflexivity).
        unfold with_tr at 2. rewrite Nt, (Hok t (or_introl eq_refl)). cbn [rbind].
        destruct (iter_set_nextstate_eff h s (length pre) t (v (ns t)) Hh Nt) as (h1 & -> & A & B & C & D).
        assert (N1 : s < num_states h1) by (destruct A as [-> _]; auto).
        assert (T1 : trs_of h1 s = (pre ++ [set_ns t (v (ns t))]) ++ suf).
        { rewrite B, Nat.eqb_refl, Et, upd_app_r, Nat.sub_diag by lia. cbn [upd]. rewrite <- app_assoc. auto. }
        destruct (IH (pre ++ [set_ns t (v (ns t))]) h1 N1) as (g & Eg & A' & B' & C' & D').
        { intros; apply Hok; right; auto. } { auto. }
        rewrite app_length in Eg. cbn [length] in Eg. rewrite Nat.add_1_r in Eg. exists g. split; auto. split; [eapply eff_trans; eauto|].
        split; [|split; [intros q; rewrite C'; apply C|auto]].
        intros q. rewrite B'. destruct (q =? s) eqn:Eq; [rewrite <- app_assoc; reflexivity|]. rewrite B, Eq. auto. }
    destruct (G (trs_of f s) [] f Hs Hw eq_refl) as (g & Eg & A & B & C & D). exists g. auto.
  Qed.

  (** Adding the transitions of another member. *)
  Lemma pour_eff (w : nat -> res nat) (v : nat -> nat) r l : (forall t, In t l -> w (ns t) = Ok (v (ns t))) ->
    forall f, r < num_states f ->
    exists g, rfold (fun h t => q <-- w (ns t) ;; add_tr h r (set_ns t q)) l f = Ok g /\ eff f g /\
      (forall q, trs_of g q = if q =? r then trs_of f r ++ map (fun t => set_ns t (v (ns t))) l else trs_of f q) /\
      (forall q, fin_of g q = fin_of f q) /\ (fsound f -> fsound g).
  Proof.
    induction l as [|t l IH]; intros Hw f Hr.
    - exists f. split; [reflexivity|]. split; [apply eff_refl|]. split; [|auto]. intros q. cbn [map]. rewrite app_nil_r. symmetry. apply if_same.
    - rewrite rfold_cons, (Hw t (or_introl eq_refl)). cbn [rbind].
      destruct (add_tr_eff f r (set_ns t (v (ns t))) Hr) as (h & Eh & A & B & C).
      assert (D : fsound f -> fsound h) by (intros F; eapply fsound_add_tr; eauto; apply L). rewrite Eh. cbn [rbind].
      destruct (IH (fun u H => Hw u (or_intror H)) h) as (g & Eg & A' & B' & C' & D'); [destruct A as [-> _]; auto|].
      exists g. split; auto. split; [eapply eff_trans; eauto|]. split; [|split; [intros q; rewrite C'; apply C|auto]].
      intros q. rewrite B', !B, Nat.eqb_refl. cbn [map]. rewrite <- app_assoc. destruct (q =? r); auto.
  Qed.

  Section P.
    Context (f : vfst K) (p : partition) (cls : nat -> nat) (k : nat).
    Let n := num_states f.
    Context (HP : parts n p cls k) (Hc : closed f).

    Definition members (c : nat) : list nat := match p_iter p c with Ok l => l | _ => [] end.
    Definition leader (c : nat) : nat := hd 0 (members c).

    Lemma members_spec c : c < k -> p_iter p c = Ok (members c) /\ NoDup (members c) /\
      (exists l, members c = leader c :: l) /\ forall e, In e (members c) <-> e < n /\ cls e = c.
    Proof.
      intros H. destruct HP as (_ & _ & H3). destruct (H3 c H) as (l & E & N & Ne & I). unfold leader, members. rewrite E.
      split; auto. split; auto. split; auto. destruct l; [congruence|]. simpl. eauto.
    Qed.
    Lemma leader_spec c : c < k -> leader c < n /\ cls (leader c) = c.
    Proof. intros H. destruct (members_spec c H) as (_ & _ & (l & El) & I). apply I. rewrite El. left; auto. Qed.

    Lemma state_map_eq : state_map p = Ok (map (fun c => Some (leader c)) (seq 0 k)).
    Proof.
      unfold state_map. destruct HP as (-> & _ & _).
      assert (G : forall j i sm, i + j = k ->
        rfold (fun sm i => l <-- p_iter p i ;; Ok (sm ++ [hd_error l])) (seq i j) sm = Ok (sm ++ map (fun c => Some (leader c)) (seq i j))).
      { induction j as [|j IH]; intros i sm Ei; [rewrite app_nil_r; reflexivity|]. cbn [seq map]. rewrite rfold_cons.
        destruct (members_spec i ltac:(lia)) as (E & _ & (l & El) & _). rewrite E, El. cbn [rbind hd_error].
        rewrite IH by lia. rewrite <- app_assoc. reflexivity. }
      rewrite G by lia. auto.
    Qed.
    Lemma rep_of_eq c : c < k -> rep_of (map (fun c => Some (leader c)) (seq 0 k)) c = Ok (leader c).
    Proof.
      intros H. unfold rep_of. rewrite nth_error_map, (nth_error_nth' _ 0) by (rewrite seq_length; auto).
      rewrite seq_nth by auto. auto.
    Qed.
    Notation sm := (map (fun c => Some (leader c)) (seq 0 k)).
    Definition redir (t : tr K) : tr K := set_ns t (leader (cls (ns t))).
    Lemma target_eq q : q < n -> target p sm q = Ok (leader (cls q)).
    Proof. intros H. unfold target. destruct HP as (_ & H2 & _). destruct (H2 q H) as [-> H3]. cbn [rbind]. apply rep_of_eq; auto. Qed.

    (** The machine with classes [< c] merged. *)
    Definition merged (c : nat) h : Prop :=
      eff f h /\ (forall q, fin_of h q = fin_of f q) /\
      (forall d, d < c -> trs_of h (leader d) = map redir (flat_map (trs_of f) (members d))) /\
      (forall q, (forall d, d < c -> q <> leader d) -> trs_of h q = trs_of f q) /\ (fsound f -> fsound h).

    Lemma merge_class_eff c h : c < k -> merged c h -> exists g, merge_class p sm h c = Ok g /\ merged (S c) g.
    Proof.
      intros Lc (E1 & E2 & E3 & E4 & E5). unfold merge_class. destruct (members_spec c Lc) as (Em & Nd & (l & El) & Im).
      rewrite Em. cbn [rbind]. destruct (leader_spec c Lc) as [Ll Cl].
      assert (Nh : num_states h = n) by apply E1.
      assert (Lh : trs_of h (leader c) = trs_of f (leader c)).
      { apply E4. intros d Hd E. destruct (leader_spec d ltac:(lia)) as [_ X]. rewrite <- E in X. lia. }
      assert (G : forall suf pre, members c = pre ++ suf -> pre <> [] -> forall h1,
        eff f h1 -> (forall q, fin_of h1 q = fin_of f q) ->
        trs_of h1 (leader c) = map redir (flat_map (trs_of f) pre) ->
        (forall q, q <> leader c -> trs_of h1 q = trs_of h q) -> (fsound f -> fsound h1) ->
        exists g, rfold (merge_one p sm c) suf h1 = Ok g /\ eff f g /\ (forall q, fin_of g q = fin_of f q) /\
          trs_of g (leader c) = map redir (flat_map (trs_of f) (members c)) /\
          (forall q, q <> leader c -> trs_of g q = trs_of h q) /\ (fsound f -> fsound g)).
      { induction suf as [|s suf IH]; intros pre Ep Np h1 F1 F2 F3 F4 F5.
        - exists h1. rewrite Ep, app_nil_r. split; [reflexivity|]. auto.
        - rewrite rfold_cons. unfold merge_one at 1. rewrite rep_of_eq by auto. cbn [rbind].
          assert (Hs : s < n /\ cls s = c) by (apply Im; rewrite Ep; apply in_app_iff; right; left; auto).
          assert (Ns : s <> leader c).
          { intros E. pose proof Nd as N'. rewrite Ep in N'. destruct pre as [|x pre]; [congruence|].
            assert (x = leader c) by (rewrite El in Ep; cbn [app] in Ep; injection Ep; auto). subst x s.
            cbn [app] in N'. inversion N' as [|? ? A B]. apply A. apply in_app_iff. right; left; auto. }
          apply Nat.eqb_neq in Ns as Ns'. rewrite Ns'. unfold get_trs. destruct F1 as (N1 & F1'). fold n in N1.
          destruct (nth_state h1 s) as (st & Es & Et & _); [lia|]. unfold get_state. rewrite Es. cbn [rbind rmap].
          rewrite <- Et. rewrite F4 by auto.
          assert (Ts : trs_of h s = trs_of f s).
          { apply E4. intros d Hd E. destruct (leader_spec d ltac:(lia)) as [_ X]. rewrite <- E in X. lia. }
          rewrite Ts.
          destruct (pour_eff (target p sm) (fun q => leader (cls q)) (leader c) (trs_of f s)) with (f := h1) as (g & Eg & A & B & C & D).
          { intros t Ht. apply target_eq. apply (proj1 Hc s t Ht). } { lia. }
          unfold set_ns at 1 in Eg. rewrite Eg. cbn [rbind].
          apply (IH (pre ++ [s])).
          + rewrite <- app_assoc. auto.
          + destruct pre; discriminate.
          + eapply eff_trans; [split; [exact N1|exact F1']|exact A].
          + intros q. rewrite C. auto.
          + rewrite B, Nat.eqb_refl, F3, flat_map_app, map_app. cbn [flat_map]. rewrite app_nil_r. reflexivity.
          + intros q Hq. rewrite B, (proj2 (Nat.eqb_neq _ _) Hq). auto.
          + auto. }
      rewrite El, rfold_cons. unfold merge_one at 1. rewrite rep_of_eq by auto. cbn [rbind]. rewrite Nat.eqb_refl.
      assert (Lt : leader c <? num_states h = true) by (apply Nat.ltb_lt; lia). rewrite Lt.
      destruct (redirect_eff (target p sm) (fun q => leader (cls q)) h (leader c)) as (h1 & -> & A & B & C & D).
      { lia. } { intros t Ht. rewrite Lh in Ht. apply target_eq. apply (proj1 Hc _ t Ht). }
      cbn [rbind].
      destruct (G l [leader c]) with (h1 := h1) as (g & Eg & F1 & F2 & F3 & F4 & F5).
      - rewrite El. auto.
      - discriminate.
      - eapply eff_trans; eauto.
      - intros q. rewrite C; auto.
      - rewrite B, Nat.eqb_refl, Lh. cbn [flat_map]. rewrite app_nil_r. auto.
      - intros q Hq. rewrite B. apply Nat.eqb_neq in Hq as ->. auto.
      - auto.
      - exists g. split; auto. split; auto. split; auto. split; [|split; auto].
        + intros d Hd. destruct (Nat.eq_dec d c) as [->|]; auto. rewrite F4, E3 by lia || (intros E;
            destruct (leader_spec d ltac:(lia)) as [_ X]; rewrite E in X; lia). auto.
        + intros q Hq. rewrite F4 by (apply Hq; lia). apply E4. intros d Hd. apply Hq. lia.
    Qed.

    Lemma merge_states_eq s0 : vstart f = Some s0 -> exists g, merged k g /\
      exists h, num_states h = n /\ vstart h = Some (leader (cls s0)) /\ (cnt f -> cnt h) /\
        (forall q, trs_of h q = trs_of g q) /\ (forall q, fin_of h q = fin_of g q) /\
        visymt h = visymt f /\ vosymt h = vosymt f /\ (fsound f -> fsound h) /\
        merge_states p f = connect h.
    Proof.
      intros Hs. unfold merge_states. rewrite state_map_eq. cbn [rbind].
      assert (G : forall j i h, i + j = k -> merged i h -> exists g, rfold (merge_class p sm) (seq i j) h = Ok g /\ merged k g).
      { induction j as [|j IH]; intros i h Ei M; [exists h; split; [reflexivity|]; replace k with i by lia; auto|].
        cbn [seq]. rewrite rfold_cons. destruct (merge_class_eff i h ltac:(lia) M) as (h1 & -> & M1). cbn [rbind].
        apply (IH (S i)); auto. lia. }
      destruct HP as (EN & _ & _). rewrite EN. destruct (G k 0 f) as (g & Eg & M); auto.
      { split; [apply eff_refl|]. split; auto. split; [intros d Hd; lia|]. auto. }
      rewrite Eg. cbn [rbind]. exists g. split; auto.
      destruct M as ((M1 & M2 & M3 & M4 & M5) & M6 & M7 & M8 & M9). rewrite M2, Hs, target_eq by (apply Hc; auto). cbn [rbind].
      assert (Lr : leader (cls s0) < num_states g).
      { rewrite M1. apply leader_spec. apply HP. apply Hc. auto. }
      destruct (set_start_eff g (leader (cls s0)) Lr) as (h & Eh & N & S1 & S2 & S3 & S4 & S5 & S6). rewrite Eh. cbn [rbind].
      exists h. split; [lia|]. split; auto. split; auto. split; auto. split; auto. split; [congruence|]. split; [congruence|]. split; auto.
      intros F. exact (fsound_set_start _ _ _ (M9 F) Eh).
    Qed.
  End P.
End M.
