(** The machine built for label reachability. *)
From Coq Require Import List Arith NArith ZArith Bool Lia.
From Verif Require Import Base.Util Base.Semiring Base.Machine Base.PropSpec
  Model.Props Model.VectorFst Model.TrOps Model.History Model.Relabel Model.ComputeProps Model.Rational Model.Matchers Model.IntervalSet Model.Reachable Model.LabelReach
  Proofs.PropsFacts Proofs.VectorFacts Proofs.DelStates Proofs.VectorProps Proofs.TrOpsFacts Proofs.HistoryFacts
  Proofs.OpFacts Proofs.RationalFacts Proofs.ConnectFacts Proofs.MergeFacts Proofs.ReachFacts.
Import ListNotations.

Lemma qlab_eqb_eq a b : qlab_eqb a b = true <-> a = b.
Proof.
  destruct a, b; cbn; try (split; congruence). rewrite Nat.eqb_eq. split; [intros ->|intros H; inversion H]; auto.
Qed.
Lemma qlab_eqb_refl a : qlab_eqb a a = true.
Proof. apply qlab_eqb_eq. auto. Qed.

Lemma qlookup_nil k : qlookup [] k = None.
Proof. reflexivity. Qed.
Lemma qlookup_cons a v m k : qlookup ((a, v) :: m) k = if qlab_eqb a k then Some v else qlookup m k.
Proof. unfold qlookup. cbn [find fst]. destruct (qlab_eqb a k); auto. Qed.
Lemma qlookup_app m m' k : qlookup (m ++ m') k = match qlookup m k with Some v => Some v | None => qlookup m' k end.
Proof.
  induction m as [|[a v] m IH]; auto. cbn [app]. rewrite !qlookup_cons. destruct (qlab_eqb a k); auto.
Qed.
Lemma qlookup_in m k v : qlookup m k = Some v -> In (k, v) m.
Proof.
  induction m as [|[a x] m IH]; [discriminate|]. rewrite qlookup_cons. destruct (qlab_eqb a k) eqn:E.
  - apply qlab_eqb_eq in E as ->. intros H. inversion H. left; auto.
  - intros H. right. auto.
Qed.
Lemma qlookup_keys m k : qlookup m k <> None <-> In k (map fst m).
Proof.
  induction m as [|[a x] m IH]; [cbn; tauto|]. rewrite qlookup_cons. cbn [map fst In]. destruct (qlab_eqb a k) eqn:E.
  - apply qlab_eqb_eq in E. split; [auto|congruence].
  - rewrite IH. split; auto. intros [->|H]; auto. rewrite qlab_eqb_refl in E. discriminate.
Qed.
Lemma in_qlookup m k v : NoDup (map fst m) -> In (k, v) m -> qlookup m k = Some v.
Proof.
  induction m as [|[a x] m IH]; [intros _ []|]. cbn [map fst]. intros N H. inversion N; subst. rewrite qlookup_cons. destruct H as [H|H].
  - inversion H; subst. rewrite qlab_eqb_refl. auto.
  - destruct (qlab_eqb a k) eqn:E; auto. apply qlab_eqb_eq in E as ->. exfalso. apply H2. apply in_map_iff. exists (k, v). auto.
Qed.
Lemma in_snd_seq {A} (m : list (A * nat)) b k v : map snd m = seq b (length m) -> In (k, v) m -> b <= v < b + length m.
Proof. intros E H. assert (X : In v (map snd m)) by (apply in_map_iff; exists (k, v); auto). rewrite E in X. apply in_seq in X. auto. Qed.

Definition ext (m m' : list (qlab * nat)) : Prop := forall k v, qlookup m k = Some v -> qlookup m' k = Some v.
Lemma ext_refl m : ext m m.
Proof. intros k v H; auto. Qed.
Lemma ext_trans a b c : ext a b -> ext b c -> ext a c.
Proof. intros A B k v H; auto. Qed.

Definition qget (m : list (qlab * nat)) (k : qlab) : nat := match qlookup m k with Some v => v | None => 0 end.
Lemma ext_get m m' k : ext m m' -> qlookup m k <> None -> qget m' k = qget m k.
Proof. intros E H. unfold qget. destruct (qlookup m k) as [v|] eqn:X; [|congruence]. rewrite (E _ _ X). auto. Qed.
Lemma ext_some m m' k : ext m m' -> qlookup m k <> None -> qlookup m' k <> None.
Proof. intros E H. destruct (qlookup m k) as [v|] eqn:X; [|congruence]. rewrite (E _ _ X). discriminate. Qed.

Section L.
  Context {K : SR} (L : lsr_laws K).
  Implicit Types (f g h : vfst K).

  (** Conversion copies everything when there is a start state. *)
  Lemma add_trs_eff s l : forall f, s < num_states f -> exists g, rfold (fun o t => add_tr o s t) l f = Ok g /\ eff f g /\
    (forall q, trs_of g q = if q =? s then trs_of f s ++ l else trs_of f q) /\ (forall q, fin_of g q = fin_of f q) /\ (fsound f -> fsound g).
  Proof.
    induction l as [|t l IH]; intros f Hs.
    - exists f. split; [reflexivity|]. split; [apply eff_refl|]. split; [|auto]. intros q. rewrite app_nil_r. symmetry. apply if_same.
    - rewrite rfold_cons. destruct (add_tr_eff f s t Hs) as (h & Eh & A & B & C).
      assert (D : fsound f -> fsound h) by (intros F; eapply fsound_add_tr; eauto). rewrite Eh. cbn [rbind].
      destruct (IH h) as (g & Eg & A' & B' & C' & D'); [destruct A as [-> _]; auto|].
      exists g. split; auto. split; [eapply eff_trans; eauto|]. split; [|split; [intros q; rewrite C'; apply C|auto]].
      intros q. rewrite B', !B, Nat.eqb_refl, <- app_assoc. destruct (q =? s); auto.
  Qed.
  Lemma convert_body_eff f s : forall o, s < num_states o -> trs_of o s = [] -> fin_of o s = None ->
    exists g, convert_body f o s = Ok g /\ eff o g /\ (forall q, trs_of g q = if q =? s then trs_of f s else trs_of o q) /\
      (forall q, fin_of g q = if q =? s then fin_of f s else fin_of o q) /\ (fsound o -> fsound g).
  Proof.
    intros o Hs Ht Hf. unfold convert_body. destruct (add_trs_eff s (trs_of f s) o Hs) as (h & -> & A & B & C & D). cbn [rbind].
    rewrite Ht in B. cbn [app] in B. destruct (fin_of f s) as [w|] eqn:Ew.
    - destruct (set_final_eff h s w) as (g & Eg & A' & B' & C'); [destruct A as [-> _]; auto|].
      assert (D' : fsound h -> fsound g) by (intros F; eapply fsound_set_final; eauto).
      exists g. split; auto. split; [eapply eff_trans; eauto|]. split; [intros q; rewrite B'; apply B|]. split; auto.
      intros q. rewrite C'. destruct (q =? s); auto.
    - exists h. split; auto. split; auto. split; auto. split; auto. intros q. rewrite C. destruct (Nat.eqb_spec q s) as [->|]; auto.
  Qed.
  Lemma convert_loop f o : (forall q, trs_of o q = []) -> (forall q, fin_of o q = None) -> forall j, j <= num_states o ->
    exists g, rfold (convert_body f) (seq 0 j) o = Ok g /\ eff o g /\
      (forall q, trs_of g q = if q <? j then trs_of f q else []) /\ (forall q, fin_of g q = if q <? j then fin_of f q else None) /\ (fsound o -> fsound g).
  Proof.
    intros T0 F0. induction j as [|j IH]; intros Hj.
    - exists o. split; [reflexivity|]. split; [apply eff_refl|]. split; [|split]; auto.
    - destruct IH as (h & Eh & A & B & C & D); [lia|]. rewrite seq_S, rfold_app, Eh. cbn [rbind Nat.add]. rewrite rfold_cons.
      destruct (convert_body_eff f j h) as (g & -> & A' & B' & C' & D').
      { destruct A as [-> _]. lia. } { rewrite B, Nat.ltb_irrefl. auto. } { rewrite C, Nat.ltb_irrefl. auto. }
      cbn [rbind]. exists g. split; [reflexivity|]. split; [eapply eff_trans; eauto|].
      assert (X : forall q, (q <? S j) = if q =? j then true else q <? j).
      { intros q. destruct (Nat.eqb_spec q j) as [->|]; [apply Nat.ltb_lt; lia|]. destruct (Nat.ltb_spec q j), (Nat.ltb_spec q (S j)); auto; lia. }
      split; [|split; auto]; intros q; rewrite X, ?B', ?C'; destruct (Nat.eqb_spec q j) as [->|]; auto.
  Qed.

  Lemma convert_ok f : vstart f <> None -> exists g, fst_convert_from_ref f = Ok g /\ num_states g = num_states f /\
    vstart g = vstart f /\ visymt g = visymt f /\ vosymt g = vosymt f /\ (forall s, trs_of g s = trs_of f s) /\ (forall s, fin_of g s = fin_of f s) /\
    cnt g /\ (fsound f -> fsound g).
  Proof.
    intros Hs. unfold fst_convert_from_ref. destruct (vstart f) as [s0|] eqn:Es; [clear Hs|congruence].
    set (o := set_start_unchecked (add_states vnew (num_states f)) s0).
    destruct (add_states_eff (@vnew K) (num_states f)) as (N0 & _ & _ & _ & C0 & T0 & F0).
    assert (No : num_states o = num_states f) by (unfold o; cbn; rewrite repeat_length; auto).
    assert (To : forall q, trs_of o q = []) by (intros q; unfold o; transitivity (trs_of (add_states (@vnew K) (num_states f)) q); auto; rewrite T0; destruct q; auto).
    assert (Fo : forall q, fin_of o q = None) by (intros q; unfold o; transitivity (fin_of (add_states (@vnew K) (num_states f)) q); auto; rewrite F0; destruct q; auto).
    destruct (convert_loop f o To Fo (num_states f)) as (g & -> & A & B & C & D); [lia|].
    cbn [rbind]. eexists. split; [reflexivity|]. destruct A as (A1 & A2 & _ & _ & A5).
    assert (Tg : forall s, trs_of g s = trs_of f s).
    { intros s. rewrite B. destruct (Nat.ltb_spec s (num_states f)); auto. rewrite trs_of_beyond; auto. }
    assert (Fg : forall s, fin_of g s = fin_of f s).
    { intros s. rewrite C. destruct (Nat.ltb_spec s (num_states f)); auto. rewrite fin_of_beyond; auto. }
    split; [rewrite <- No, <- A1; reflexivity|]. split; [cbn; rewrite A2; reflexivity|]. split; [reflexivity|]. split; [reflexivity|]. split; auto. split; auto.
    split. { apply A5. unfold o. apply C0. constructor. }
    intros Hf b Hb. cbn [set_properties_with_mask with_props vprops] in Hb. rewrite has_lor, !has_land in Hb.
    assert (E : meq (mach g) (mach f)) by (split; [cbn; rewrite A2, Es; reflexivity|split; auto]).
    assert (Ng : num_states (set_properties_with_mask (VF (vstates g) (vstart g) (visymt f) (vosymt f) (vprops g)) (vprops f) (vprops f)) = num_states f) by (rewrite <- No, <- A1; reflexivity).
    apply orb_true_iff in Hb as [Hb|Hb]; apply andb_true_iff in Hb as [Hb _].
    - assert (Sg : fsound g). { apply D. unfold o. apply set_start_sound, fsound_add_states, fsound_new. }
      specialize (Sg b Hb). rewrite Ng, <- No, <- A1. eapply holds_meq; [|exact Sg]. split; [reflexivity|split; reflexivity].
    - specialize (Hf b Hb). rewrite Ng. eapply holds_meq; [|exact Hf]. split; [cbn; rewrite A2, Es; reflexivity|split; intros s; symmetry; [apply Tg|apply Fg]].
  Qed.

  (** ** The transformation *)
  Section T.
    Context (ri : bool) (nolab : nat) (f : vfst K) (Cf : closed f).
    Let ins := num_states f.

    Record MI (x : @tfst K) : Prop := {
      mi_nodup : NoDup (map fst (tf_l2s x));
      mi_vals : map snd (tf_l2s x) = seq ins (length (tf_l2s x));
      mi_ons : tf_ons x = ins + length (tf_l2s x);
      mi_indeg : length (tf_indeg x) = tf_ons x }.

    Lemma mi_lt x k v : MI x -> qlookup (tf_l2s x) k = Some v -> ins <= v < tf_ons x.
    Proof. intros M H. rewrite (mi_ons x M). eapply in_snd_seq; [apply M|]. apply qlookup_in in H. eauto. Qed.

    Lemma tf_entry_ok x k : MI x -> exists x' q, tf_entry x k = (x', q) /\ MI x' /\ tf_fst x' = tf_fst x /\
      qlookup (tf_l2s x') k = Some q /\ ext (tf_l2s x) (tf_l2s x') /\
      (forall k', In k' (map fst (tf_l2s x')) -> In k' (map fst (tf_l2s x)) \/ k' = k).
    Proof.
      intros M. unfold tf_entry. destruct (qlookup (tf_l2s x) k) as [v|] eqn:E.
      - exists x, v. split; auto. split; auto. split; auto. split; auto. split; [apply ext_refl|auto].
      - eexists. eexists. split; [reflexivity|]. destruct M as [M1 M2 M3 M4]. split; [|split; [|split; [|split]]]; cbn [tf_fst tf_indeg tf_l2s tf_ons].
        + constructor; cbn [tf_fst tf_indeg tf_l2s tf_ons].
          * rewrite map_app. cbn [map fst]. apply NoDup_app_snoc; auto.
            intros H. apply qlookup_keys in H. congruence.
          * rewrite map_app, app_length, M2. cbn [map snd length]. rewrite Nat.add_1_r, seq_S, M3. auto.
          * rewrite app_length. cbn [length]. lia.
          * rewrite app_length. cbn [length]. lia.
        + auto.
        + rewrite qlookup_app, E, qlookup_cons, qlab_eqb_refl. auto.
        + intros k' v' H. rewrite qlookup_app, H. auto.
        + intros k'. rewrite map_app, in_app_iff. cbn. intuition.
    Qed.
    Lemma tf_bump_ok x q : MI x -> q < tf_ons x -> exists x', tf_bump x q = Ok x' /\ MI x' /\ tf_fst x' = tf_fst x /\ tf_l2s x' = tf_l2s x.
    Proof.
      intros M H. unfold tf_bump. destruct (nth_error_ex (tf_indeg x) q) as [d ->]; [rewrite (mi_indeg x M); auto|].
      eexists. split; [reflexivity|]. split; auto. destruct M. constructor; cbn; auto. rewrite upd_length. auto.
    Qed.
    Lemma tf_with_ok x g : MI x -> MI (tf_with x g).
    Proof. intros []. constructor; auto. Qed.

    Definition rd (m : list (qlab * nat)) (t : tr K) : tr K := if side ri t =? 0 then t else set_ns t (qget m (Lab (side ri t))).
    Lemma rd_ext m m' t : ext m m' -> (side ri t <> 0 -> qlookup m (Lab (side ri t)) <> None) -> rd m' t = rd m t.
    Proof. intros E H. unfold rd. destruct (Nat.eqb_spec (side ri t) 0); auto. rewrite (ext_get m m') by auto. auto. Qed.

    Lemma tf_trs_ok s : forall suf pre x, MI x -> s < num_states (tf_fst x) -> trs_of (tf_fst x) s = pre ++ suf -> (forall t, In t suf -> ns t < ins) ->
      exists x', rfold (tf_tr ri s) (seq (length pre) (length suf)) x = Ok x' /\ MI x' /\ ext (tf_l2s x) (tf_l2s x') /\ eff (tf_fst x) (tf_fst x') /\
        (forall q, trs_of (tf_fst x') q = if q =? s then pre ++ map (rd (tf_l2s x')) suf else trs_of (tf_fst x) q) /\
        (forall q, fin_of (tf_fst x') q = fin_of (tf_fst x) q) /\ (fsound (tf_fst x) -> fsound (tf_fst x')) /\
        (forall t, In t suf -> side ri t <> 0 -> qlookup (tf_l2s x') (Lab (side ri t)) <> None) /\
        (forall k, In k (map fst (tf_l2s x')) -> In k (map fst (tf_l2s x)) \/ exists t, In t suf /\ side ri t <> 0 /\ k = Lab (side ri t)).
    Proof.
      induction suf as [|t suf IH]; intros pre x M Hs Et Hn.
      - exists x. cbn [length seq]. split; [reflexivity|]. split; auto. split; [apply ext_refl|]. split; [apply eff_refl|].
        split; [intros q; cbn [map]; rewrite <- Et; symmetry; apply if_same|]. split; [auto|]. split; [auto|]. split; [intros t []|intros; left; auto].
      - cbn [length seq]. rewrite rfold_cons.
        assert (Nt : nth_error (trs_of (tf_fst x) s) (length pre) = Some t) by (rewrite Et, nth_error_app2, Nat.sub_diag by lia; reflexivity).
        unfold tf_tr at 1. rewrite Nt. cbv zeta.
        assert (X : exists x1 q, (if side ri t =? 0 then (x, ns t) else tf_entry x (Lab (side ri t))) = (x1, q) /\ MI x1 /\ tf_fst x1 = tf_fst x /\
          ext (tf_l2s x) (tf_l2s x1) /\ q < tf_ons x1 /\ set_ns t q = rd (tf_l2s x1) t /\ (side ri t <> 0 -> qlookup (tf_l2s x1) (Lab (side ri t)) <> None) /\
          (forall k, In k (map fst (tf_l2s x1)) -> In k (map fst (tf_l2s x)) \/ (side ri t <> 0 /\ k = Lab (side ri t)))).
        { unfold rd. destruct (Nat.eqb_spec (side ri t) 0) as [E0|E0].
          - exists x, (ns t). split; auto. split; auto. split; auto. split; [apply ext_refl|]. split; [|split; [|split; [congruence|auto]]].
            + rewrite (mi_ons x M). specialize (Hn t (or_introl eq_refl)). lia.
            + unfold set_ns. destruct t; auto.
          - destruct (tf_entry_ok x (Lab (side ri t)) M) as (x1 & q & E1 & M1 & F1 & Q1 & X1 & K1). exists x1, q. split; auto. split; auto. split; auto. split; auto.
            split; [eapply mi_lt; eauto|]. split; [unfold qget; rewrite Q1; auto|]. split; [congruence|]. intros k Hk. destruct (K1 k Hk); auto. }
        destruct X as (x1 & q & -> & M1 & F1 & X1 & Lq & R1 & P1 & K1).
        destruct (tf_bump_ok x1 q M1 Lq) as (x2 & -> & M2 & F2 & L2). cbn [rbind]. rewrite F2, F1.
        destruct (iter_set_nextstate_eff (tf_fst x) s (length pre) t q Hs Nt) as (h & -> & A & B & C & D). cbn [rbind].
        assert (M3 : MI (tf_with x2 h)) by (apply tf_with_ok; auto).
        destruct (IH (pre ++ [rd (tf_l2s x1) t]) (tf_with x2 h) M3) as (x' & E' & M' & X' & A' & B' & C' & D' & P' & K').
        { cbn [tf_with tf_fst]. destruct A as [-> _]. auto. }
        { cbn [tf_with tf_fst]. rewrite B, Nat.eqb_refl, Et, upd_app_r, Nat.sub_diag, R1 by lia. cbn [upd]. rewrite <- app_assoc. auto. }
        { intros u Hu. apply Hn. right; auto. }
        cbn [tf_with tf_fst tf_l2s] in *. rewrite L2 in *.
        rewrite app_length in E'. cbn [length] in E'. rewrite Nat.add_1_r in E'. exists x'. split; auto. split; auto.
        split; [eapply ext_trans; eauto|]. split; [eapply eff_trans; eauto|]. split; [|split; [|split; [auto|split]]].
        + intros u. rewrite B'. destruct (u =? s) eqn:Eu; [|rewrite B, Eu; auto]. rewrite <- app_assoc. cbn [map app].
          rewrite (rd_ext (tf_l2s x1) (tf_l2s x') t); auto.
        + intros u. rewrite C', C. auto.
        + intros u [<-|Hu] Hl; auto. eapply ext_some; eauto.
        + intros k Hk. destruct (K' k Hk) as [H|(u & H1 & H2 & H3)].
          * destruct (K1 k H) as [H'|[H1 H2]]; auto. right. exists t. split; [left; auto|auto].
          * right. exists u. split; [right; auto|auto].
    Qed.

    Definition tail (m : list (qlab * nat)) (s : nat) : list (tr K) :=
      match fin_of f s with Some w => if keqb w kzero then [] else [Tr nolab nolab w (qget m NoLab)] | None => [] end.
    Definition kfin (s : nat) : option K := if heavy f s then None else fin_of f s.

    Lemma tf_final_ok s x : MI x -> s < num_states (tf_fst x) -> fin_of (tf_fst x) s = fin_of f s ->
      exists x', tf_final nolab s x = Ok x' /\ MI x' /\ ext (tf_l2s x) (tf_l2s x') /\ eff (tf_fst x) (tf_fst x') /\
        (forall q, trs_of (tf_fst x') q = if q =? s then trs_of (tf_fst x) s ++ tail (tf_l2s x') s else trs_of (tf_fst x) q) /\
        (forall q, fin_of (tf_fst x') q = if q =? s then kfin s else fin_of (tf_fst x) q) /\ (fsound (tf_fst x) -> fsound (tf_fst x')) /\
        (heavy f s = true -> qlookup (tf_l2s x') NoLab <> None) /\
        (forall k, In k (map fst (tf_l2s x')) -> In k (map fst (tf_l2s x)) \/ (heavy f s = true /\ k = NoLab)).
    Proof.
      intros M Hs Ef. unfold tf_final, tail, kfin, heavy. rewrite Ef. destruct (fin_of f s) as [w|] eqn:Ew.
      1: destruct (keqb w kzero) eqn:Ez; cbn [negb].
      - exists x. split; auto. split; auto. split; [apply ext_refl|]. split; [apply eff_refl|]. split; [intros q; rewrite app_nil_r; symmetry; apply if_same|].
        split; [|split; auto; split; [discriminate|auto]]. intros q. destruct (Nat.eqb_spec q s) as [->|]; congruence.
      - destruct (tf_entry_ok x NoLab M) as (x1 & q & E1 & M1 & F1 & Q1 & X1 & K1). rewrite E1, F1.
        destruct (add_tr_eff (tf_fst x) s (Tr nolab nolab w q) Hs) as (h & Eh & A & B & C).
        assert (D : fsound (tf_fst x) -> fsound h) by (intros F; eapply fsound_add_tr; eauto). rewrite Eh. cbn [rbind].
        destruct (tf_bump_ok (tf_with x1 h) q) as (x2 & -> & M2 & F2 & L2); [apply tf_with_ok; auto|cbn; eapply mi_lt; eauto|].
        cbn [rbind]. rewrite F2. cbn [tf_with tf_fst tf_l2s] in *.
        destruct (del_final_eff h s) as (g & Eg & A' & B' & C'); [destruct A as [-> _]; auto|].
        assert (D' : fsound h -> fsound g) by (intros F; eapply fsound_del_final; eauto). rewrite Eg. cbn [rbind].
        eexists. split; [reflexivity|]. cbn [tf_with tf_fst tf_l2s]. rewrite L2. split; [apply tf_with_ok; auto|]. split; auto. split; [eapply eff_trans; eauto|].
        split; [intros u; rewrite B', B; unfold qget; rewrite Q1; auto|]. split; [intros u; rewrite C'; destruct (u =? s); auto|]. split; [auto|]. split; [congruence|].
        intros k Hk. destruct (K1 k Hk); auto.
      - exists x. split; auto. split; auto. split; [apply ext_refl|]. split; [apply eff_refl|]. split; [intros q; rewrite app_nil_r; symmetry; apply if_same|].
        split; [|split; auto; split; [discriminate|auto]]. intros q. destruct (Nat.eqb_spec q s) as [->|]; congruence.
    Qed.
    Lemma tail_ext m m' s : ext m m' -> (heavy f s = true -> qlookup m NoLab <> None) -> tail m' s = tail m s.
    Proof.
      intros E H. unfold tail, heavy in *. destruct (fin_of f s) as [w|]; auto. destruct (keqb w kzero); auto. rewrite (ext_get m m'); auto.
    Qed.

    (** A key stands for a label that occurs, or for the end. *)
    Definition justified (k : qlab) (j : nat) : Prop :=
      (exists s t, s < j /\ In t (trs_of f s) /\ side ri t <> 0 /\ k = Lab (side ri t)) \/ (k = NoLab /\ exists s, s < j /\ heavy f s = true).

    Lemma tf_states_ok : forall j, j <= ins -> exists x, rfold (tf_state ri nolab) (seq 0 j) (TF f (repeat 0 ins) [] ins) = Ok x /\
      MI x /\ eff f (tf_fst x) /\
      (forall s, trs_of (tf_fst x) s = if s <? j then map (rd (tf_l2s x)) (trs_of f s) ++ tail (tf_l2s x) s else trs_of f s) /\
      (forall s, fin_of (tf_fst x) s = if s <? j then kfin s else fin_of f s) /\ (fsound f -> fsound (tf_fst x)) /\
      (forall k, In k (map fst (tf_l2s x)) <-> justified k j).
    Proof.
      induction j as [|j IH]; intros Hj.
      - eexists. split; [reflexivity|]. cbn [tf_fst tf_l2s]. split; [|split; [apply eff_refl|]].
        + constructor; cbn; auto; [constructor|rewrite repeat_length; auto].
        + split; auto. split; auto. split; auto. intros k. cbn. split; [tauto|]. intros [(s & t & H & _)|(_ & s & H & _)]; lia.
      - destruct IH as (x & E & M & A & B & C & D & J); [lia|]. rewrite seq_S, rfold_app, E. cbn [rbind Nat.add]. rewrite rfold_cons.
        unfold tf_state at 1. cbn [rfold fold_left].
        assert (Hs : j < num_states (tf_fst x)) by (destruct A as [-> _]; fold ins; lia).
        assert (Et : trs_of (tf_fst x) j = trs_of f j) by (rewrite B, Nat.ltb_irrefl; auto).
        destruct (tf_trs_ok j (trs_of f j) [] x M Hs Et) as (x1 & E1 & M1 & X1 & A1 & B1 & C1 & D1 & P1 & K1).
        { intros t Ht. destruct Cf as [H _]. apply (H j t Ht). }
        rewrite Et. cbn [length] in E1. rewrite E1. cbn [rbind].
        assert (Hs1 : j < num_states (tf_fst x1)) by (destruct A1 as [-> _]; auto).
        destruct (tf_final_ok j x1 M1 Hs1) as (x2 & E2 & M2 & X2 & A2 & B2 & C2 & D2 & P2 & K2); [rewrite C1, C, Nat.ltb_irrefl; auto|].
        rewrite E2. exists x2. split; [reflexivity|]. split; auto. split; [eapply eff_trans; [|eapply eff_trans]; eauto|].
        assert (X : forall q, (q <? S j) = if q =? j then true else q <? j).
        { intros q. destruct (Nat.eqb_spec q j) as [->|]; [apply Nat.ltb_lt; lia|]. destruct (Nat.ltb_spec q j), (Nat.ltb_spec q (S j)); auto; lia. }
        assert (X12 : ext (tf_l2s x) (tf_l2s x2)) by (eapply ext_trans; eauto).
        split; [|split; [|split; [auto|]]].
        + intros q. rewrite X, B2. destruct (Nat.eqb_spec q j) as [->|Hq].
          * rewrite B1, Nat.eqb_refl. cbn [app]. f_equal. apply map_ext_in. intros t Ht. symmetry. apply rd_ext; auto.
          * rewrite B1. destruct (Nat.eqb_spec q j) as [|_]; [congruence|]. rewrite B. destruct (Nat.ltb_spec q j) as [Hl|]; auto. f_equal.
            -- apply map_ext_in. intros t Ht. symmetry. apply rd_ext; auto. intros Hd. apply qlookup_keys, J. left. exists q, t. auto.
            -- symmetry. apply tail_ext; auto. intros Hh. apply qlookup_keys, J. right. split; auto. exists q. auto.
        + intros q. rewrite X, C2, C1, C. destruct (Nat.eqb_spec q j) as [->|]; auto.
        + intros k. split.
          * intros Hk. destruct (K2 k Hk) as [H|[H1 H2]].
            -- destruct (K1 k H) as [H'|(t & H1 & H2 & H3)].
               ++ apply J in H' as [(s & t & G1 & G2)|(G1 & s & G2 & G3)]; [left; exists s, t|right; split; auto; exists s]; auto.
               ++ left. exists j, t. auto.
            -- right. split; auto. exists j. auto.
          * intros [(s & t & G1 & G2 & G3 & ->)|(-> & s & G2 & G3)].
            -- apply qlookup_keys. destruct (Nat.eq_dec s j) as [->|]; [eapply ext_some; [apply X2|auto]|].
               eapply ext_some; [apply X12|]. apply qlookup_keys, J. left. exists s, t. repeat split; auto. lia.
            -- apply qlookup_keys. destruct (Nat.eq_dec s j) as [->|]; [auto|].
               eapply ext_some; [apply X12|]. apply qlookup_keys, J. right. split; auto. exists s. split; auto. lia.
    Qed.

    Lemma new_finals_ok : forall k g, exists h, rfold (fun g _ => tf_new_final g) (seq 0 k) g = Ok h /\ num_states h = num_states g + k /\
      (forall s, trs_of h s = trs_of g s) /\ (forall s, fin_of h s = if (num_states g <=? s) && (s <? num_states g + k) then Some kone else fin_of g s) /\
      (fsound g -> fsound h).
    Proof.
      induction k as [|k IH]; intros g.
      - exists g. split; [reflexivity|]. split; [lia|]. split; auto. split; auto. intros s. rewrite Nat.add_0_r.
        destruct (Nat.leb_spec (num_states g) s), (Nat.ltb_spec s (num_states g)); auto; lia.
      - destruct (IH g) as (h & E & N & T & F & Sd). rewrite seq_S, rfold_app, E. cbn [rbind]. rewrite rfold_cons. unfold tf_new_final at 1.
        destruct (add_state_eff h) as (A1 & A2 & _ & _ & _ & _ & A7 & A8). destruct (add_state h) as [h1 q] eqn:Ea. cbn [fst snd] in *. subst q.
        destruct (set_final_eff h1 (num_states h) kone) as (h2 & E2 & B1 & B2 & B3); [lia|]. rewrite E2. cbn [rbind].
        exists h2. split; [reflexivity|]. destruct B1 as [B1 _]. split; [lia|]. split; [intros s; rewrite B2, A7; auto|]. split.
        + intros s. rewrite B3, A8, F, N. destruct (Nat.eqb_spec s (num_states g + k)) as [->|].
          * destruct (Nat.leb_spec (num_states g) (num_states g + k)), (Nat.ltb_spec (num_states g + k) (num_states g + S k)); auto; lia.
          * destruct (Nat.leb_spec (num_states g) s), (Nat.ltb_spec s (num_states g + k)), (Nat.ltb_spec s (num_states g + S k)); auto; lia.
        + intros Hg. assert (S1 : fsound h1). { replace h1 with (fst (add_state h)) by (rewrite Ea; auto). rewrite add_state_eq. apply fsound_add_states; auto. }
          eapply fsound_set_final; eauto.
    Qed.

    Lemma super_loop indeg start : forall l g, start < num_states g -> (forall s, In s l -> s < length indeg) ->
      exists h, rfold (fun g s => match nth_error indeg s with
                      | None => Panic
                      | Some d => if Nat.eqb d 0 then add_tr g start (Tr 0 0 kone s) else Ok g
                      end) l g = Ok h /\ eff g h /\
        (forall s, s <> start -> trs_of h s = trs_of g s) /\ (forall s, fin_of h s = fin_of g s) /\
        (forall t, In t (trs_of h start) -> In t (trs_of g start) \/ In (ns t) l) /\ (fsound g -> fsound h).
    Proof.
      induction l as [|s l IH]; intros g Hg Hl.
      - exists g. split; [reflexivity|]. split; [apply eff_refl|]. repeat split; auto.
      - rewrite rfold_cons. destruct (nth_error_ex indeg s) as [d Ed]; [apply Hl; left; auto|]. rewrite Ed. destruct (d =? 0).
        + destruct (add_tr_eff g start (Tr 0 0 kone s) Hg) as (h1 & E1 & A & B & C).
          assert (D : fsound g -> fsound h1) by (intros F; eapply fsound_add_tr; eauto). rewrite E1. cbn [rbind].
          destruct (IH h1) as (h & E & A' & B' & C' & T' & D'); [destruct A as [-> _]; auto|intros; apply Hl; right; auto|].
          exists h. split; auto. split; [eapply eff_trans; eauto|]. split; [|split; [intros q; rewrite C'; auto|split; [|auto]]].
          * intros q Hq. rewrite B', B by auto. destruct (Nat.eqb_spec q start); congruence.
          * intros t Ht. destruct (T' t Ht) as [H|H]; [|right; right; auto]. rewrite B, Nat.eqb_refl in H. apply in_app_iff in H as [H|[<-|[]]]; auto. right; left; auto.
        + cbn [rbind]. destruct (IH g Hg) as (h & E & A' & B' & C' & T' & D'); [intros; apply Hl; right; auto|].
          exists h. split; auto. split; auto. split; auto. split; auto. split; auto. intros t Ht. destruct (T' t Ht); auto. right; right; auto.
    Qed.

    (** Everything about the transformed machine that matters. *)
    Record shaped (g : vfst K) (m : list (qlab * nat)) : Prop := {
      sh_nodup : NoDup (map fst m);
      sh_vals : map snd m = seq ins (length m);
      sh_keys : forall k, In k (map fst m) <-> justified k ins;
      sh_num : num_states g = S (ins + length m);
      sh_start : vstart g = Some (ins + length m);
      sh_trs : forall s, s < ins -> trs_of g s = map (rd m) (trs_of f s) ++ tail m s;
      sh_fin : forall s, s < ins -> fin_of g s = kfin s;
      sh_new : forall s, ins <= s < ins + length m -> trs_of g s = [] /\ fin_of g s = Some kone;
      sh_top : forall t, In t (trs_of g (ins + length m)) -> ns t < ins + length m;
      sh_topf : fin_of g (ins + length m) = None }.

    Lemma transform_ok : exists g m, transform_fst ri nolab f = Ok (g, m) /\ shaped g m /\ (fsound f -> fsound g).
    Proof.
      unfold transform_fst. fold ins. destruct (tf_states_ok ins (le_n _)) as (x & -> & M & A & B & C & D & J). cbn [rbind].
      destruct A as (A1 & _). fold ins in A1. rewrite A1, (mi_ons x M). replace (ins + length (tf_l2s x) - ins) with (length (tf_l2s x)) by lia.
      destruct (new_finals_ok (length (tf_l2s x)) (tf_fst x)) as (h & -> & N & T & F & Sd). cbn [rbind]. unfold tf_super. cbn [tf_with tf_fst tf_indeg].
      rewrite A1 in N, F.
      destruct (add_state_eff h) as (G1 & G2 & _ & _ & _ & _ & G7 & G8). destruct (add_state h) as [h1 q] eqn:Ea. cbn [fst snd] in *. subst q.
      set (h2 := set_start_unchecked h1 (num_states h)).
      assert (T2 : forall s, trs_of h2 s = trs_of h s) by (intros s; apply G7).
      assert (F2 : forall s, fin_of h2 s = fin_of h s) by (intros s; apply G8).
      assert (S2 : fsound h -> fsound h2).
      { intros Hh. apply set_start_sound. replace h1 with (fst (add_state h)) by (rewrite Ea; auto). rewrite add_state_eq. apply fsound_add_states; auto. }
      destruct (super_loop (tf_indeg x) (num_states h) (seq 0 (num_states h)) h2) as (g & -> & (H1 & H2 & _) & H3 & H4 & H5 & H6).
      { change (num_states h2) with (num_states h1). lia. }
      { intros s Hs. apply in_seq in Hs. rewrite (mi_indeg x M), (mi_ons x M). lia. }
      cbn [rbind]. exists g, (tf_l2s x). split; auto. split; [|auto].
      assert (Top : trs_of h2 (num_states h) = []) by (rewrite T2; apply trs_of_beyond; auto).
      destruct M as [M1 M2 M3 M4]. constructor; auto.
      - rewrite H1. change (num_states h2) with (num_states h1). lia.
      - rewrite H2, <- N. auto.
      - intros s Hs. rewrite H3, T2, T, B by lia. destruct (Nat.ltb_spec s ins); auto; lia.
      - intros s Hs. rewrite H4, F2, F, C. destruct (Nat.leb_spec ins s), (Nat.ltb_spec s ins); auto; lia.
      - intros s Hs. split.
        + rewrite H3, T2, T by lia. apply trs_of_beyond. lia.
        + rewrite H4, F2, F. destruct (Nat.leb_spec ins s), (Nat.ltb_spec s (ins + length (tf_l2s x))); auto; lia.
      - intros t Ht. rewrite <- N in Ht. apply H5 in Ht as [Ht|Ht]; [rewrite Top in Ht; destruct Ht|]. apply in_seq in Ht. lia.
      - rewrite H4, F2, <- N. apply fin_of_beyond. auto.
    Qed.
  End T.
End L.
