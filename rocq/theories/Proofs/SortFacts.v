(** state_sort follows the cycles of a permutation; top_sort feeds it finishing times. *)
From Coq Require Import List Arith NArith Bool Lia Permutation Sorted.
From Verif Require Import Base.Util Base.Semiring Base.Machine Base.PropSpec
  Model.Props Model.VectorFst Model.TrOps Model.Dfs Model.Visitors Model.History
  Proofs.PropsFacts Proofs.VectorFacts Proofs.DelStates Proofs.VectorProps Proofs.TrOpsFacts Proofs.HistoryFacts Proofs.OpFacts.
Import ListNotations.

Section S.
  Context {K : SR}.
  Implicit Types (f g h : vfst K).

  Lemma count_le {A} (p : A -> bool) l : count p l <= length l.
  Proof. induction l; [auto|]. rewrite count_cons. simpl. destruct (p a); lia. Qed.

  Lemma add_trs_renamed_eff order s2 l : forall f, s2 < num_states f ->
    (forall t, In t l -> ns t < length order) ->
    exists g, add_trs_renamed f order s2 l = Ok g /\ eff f g /\
      (forall q, trs_of g q = if q =? s2 then trs_of f s2 ++ map (ren (fun s => nth s order 0)) l else trs_of f q) /\
      (forall q, fin_of g q = fin_of f q).
  Proof.
    induction l as [|t l IH]; intros f Hs Hl; simpl.
    - exists f. split; auto. split; [apply eff_refl|]. split; auto. intros q. rewrite app_nil_r. symmetry. apply if_same.
    - destruct (nth_error_ex order (ns t)) as [q Eq]; [apply Hl; left; auto|]. rewrite Eq.
      assert (Er : Tr (il t) (ol t) (wgt t) q = ren (fun s => nth s order 0) t).
      { unfold ren. erewrite nth_error_nth; eauto. }
      rewrite Er. destruct (add_tr_eff f s2 (ren (fun s => nth s order 0) t) Hs) as (g & E & Ef & Et & Efn). rewrite E. simpl.
      destruct (IH g) as (h & E2 & Ef2 & Et2 & Efn2).
      + destruct Ef as [-> _]. auto.
      + intros u Hu. apply Hl. right. auto.
      + exists h. split; auto. split; [eapply eff_trans; eauto|]. split; intros q'; [|rewrite Efn2; auto].
        rewrite Et2, !Et, Nat.eqb_refl. destruct (q' =? s2); auto. rewrite <- app_assoc. auto.
  Qed.

  Section Perm.
    Variable f : vfst K.
    Variable order : list nat.
    Let n := num_states f.
    Hypothesis Hlen : length order = n.
    Hypothesis Hin : forall s, In s order -> s < n.
    Hypothesis Hnd : NoDup order.
    Hypothesis Htrs : forall s t, In t (trs_of f s) -> ns t < n.

    Let o (s : nat) : nat := nth s order 0.
    Lemma o_lt s : s < n -> o s < n.
    Proof. intros H. apply Hin. apply nth_In. lia. Qed.
    Lemma o_nth s : s < n -> nth_error order s = Some (o s).
    Proof. intros H. apply nth_error_nth'. lia. Qed.
    Lemma o_inj s u : s < n -> u < n -> o s = o u -> s = u.
    Proof. intros H1 H2 E. eapply (proj1 (NoDup_nth order 0)); eauto; lia. Qed.

    Definition dmark (dn : list bool) (s : nat) : Prop := nth_error dn s = Some true.

    Record cyc (g0 g : vfst K) (dn : list bool) (s1 : nat) : Prop := {
      cy_len : length dn = n;
      cy_eff : eff g0 g;
      cy_tgt_t : forall s, dmark dn s -> trs_of g (o s) = map (ren o) (trs_of f s);
      cy_tgt_f : forall s, dmark dn s -> fin_of g (o s) = fin_of f s;
      cy_src : forall u, (forall s, dmark dn s -> o s <> u) -> trs_of g u = trs_of f u /\ fin_of g u = fin_of f u;
      cy_img : forall s, dmark dn s -> dmark dn (o s) \/ o s = s1
    }.

    Lemma dmark_upd dn s u : s < length dn -> dmark (upd dn s true) u <-> u = s \/ dmark dn u.
    Proof.
      intros H. unfold dmark. rewrite nth_error_upd. destruct (Nat.eqb_spec s u) as [->|N].
      - apply Nat.ltb_lt in H. rewrite H. split; auto.
      - split; auto. intros [H1|H1]; [congruence|auto].
    Qed.

    Lemma undone_step dn s : nth_error dn s = Some false ->
      count negb dn = S (count negb (upd dn s true)).
    Proof.
      revert s. induction dn as [|b dn IH]; intros s E; [destruct s; discriminate|].
      destruct s as [|s]; simpl in E; simpl upd; rewrite !count_cons.
      - inversion E. subst. simpl. auto.
      - rewrite (IH s) by auto. lia.
    Qed.

    Lemma sort_cycle_ok (g0 : vfst K) (N0 : num_states g0 = n) fuel : forall g dn s1 (f1 : option K) ta (f2 : option K) tb,
      cyc g0 g dn s1 -> s1 < n -> count negb dn <= fuel ->
      (nth_error dn s1 = Some false -> f1 = fin_of f s1 /\ ta = trs_of f s1) ->
      exists g' dn', sort_cycle fuel g order dn s1 f1 ta f2 tb = Ok (g', dn') /\
        cyc g0 g' dn' s1 /\ (forall s, dmark dn' s -> dmark dn' (o s)) /\
        (forall s, dmark dn s -> dmark dn' s) /\ dmark dn' s1.
    Proof.
      induction fuel as [|fuel IH]; intros g dn s1 f1 ta f2 tb C Hs1 Hf Hc; simpl;
      destruct (nth_error_ex dn s1) as [d Ed]; try (rewrite (cy_len _ _ _ _ C); auto); rewrite Ed; destruct d.
      1,3: (exists g, dn; split; auto; split; auto; split; [|split; auto];
            intros s Hs; destruct (cy_img _ _ _ _ C s Hs) as [H|H]; auto; rewrite H; auto).
      - exfalso. pose proof (undone_step _ _ Ed). lia.
      - rewrite (o_nth _ Hs1). assert (Ho := o_lt _ Hs1).
        destruct (nth_error_ex dn (o s1)) as [d2 Ed2]; [rewrite (cy_len _ _ _ _ C); auto|]. rewrite Ed2.
        destruct (cy_eff _ _ _ _ C) as (Ng & _).
        destruct (nth_state g (o s1)) as (st2 & E2 & T2 & F2); [lia|].
        unfold get_state. rewrite E2. cbn [rbind].
        destruct (Hc Ed) as [-> ->].
        (* the content of [o s1] is still the original one *)
        assert (Src : trs_of g (o s1) = trs_of f (o s1) /\ fin_of g (o s1) = fin_of f (o s1)).
        { apply (cy_src _ _ _ _ C). intros s Hs He. apply o_inj in He; auto.
          - subst. unfold dmark in Hs. congruence.
          - rewrite <- (cy_len _ _ _ _ C). apply nth_error_Some. unfold dmark in Hs. congruence. }
        set (fb := if d2 then (f2, tb) else (vfin st2, vtrs st2)).
        assert (Hfb : d2 = false -> fst fb = fin_of f (o s1) /\ snd fb = trs_of f (o s1)).
        { intros ->. simpl. rewrite <- T2, <- F2. split; apply Src. }
        destruct fb as [f2' tb']. simpl in Hfb.
        assert (F : exists h, match fin_of f s1 with None => delete_final_weight g (o s1) | Some v => set_final g (o s1) v end = Ok h /\
          eff g h /\ (forall q, trs_of h q = trs_of g q) /\ (forall q, fin_of h q = if q =? o s1 then fin_of f s1 else fin_of g q)).
        { destruct (fin_of f s1) as [w|].
          - destruct (set_final_eff g (o s1) w) as (h & ? & ? & ? & ?); [lia|]. exists h; auto.
          - destruct (del_final_eff g (o s1)) as (h & ? & ? & ? & ?); [lia|]. exists h; auto. }
        destruct F as (h1 & E3 & Ef3 & Et3 & Efn3). rewrite E3. cbn [rbind].
        destruct (delete_trs_eff h1 (o s1)) as (h2 & E4 & Ef4 & Et4 & Efn4); [destruct Ef3; lia|]. rewrite E4. cbn [rbind].
        destruct (add_trs_renamed_eff order (o s1) (trs_of f s1) h2) as (h3 & E5 & Ef5 & Et5 & Efn5).
        { destruct Ef3, Ef4; lia. }
        { intros t Ht. rewrite Hlen. eapply Htrs; eauto. }
        rewrite E5. cbn [rbind].
        assert (Eff : eff g h3) by (eapply eff_trans; [|eapply eff_trans]; eauto).
        assert (Tr3 : forall q, trs_of h3 q = if q =? o s1 then map (ren o) (trs_of f s1) else trs_of g q).
        { intros q. rewrite Et5, !Et4, Nat.eqb_refl. simpl. destruct (q =? o s1); auto. }
        assert (Fn3 : forall q, fin_of h3 q = if q =? o s1 then fin_of f s1 else fin_of g q).
        { intros q. rewrite Efn5, Efn4, Efn3. auto. }
        assert (Ls : s1 < length dn) by (rewrite (cy_len _ _ _ _ C); auto).
        assert (Lt : forall s, dmark dn s -> s < n).
        { intros s Hs. rewrite <- (cy_len _ _ _ _ C). apply nth_error_Some. unfold dmark in Hs. congruence. }
        assert (C' : cyc g0 h3 (upd dn s1 true) (o s1)).
        { constructor.
          - rewrite upd_length. apply (cy_len _ _ _ _ C).
          - eapply eff_trans; eauto. apply (cy_eff _ _ _ _ C).
          - intros s Hs. apply dmark_upd in Hs; auto. rewrite Tr3. destruct (Nat.eqb_spec (o s) (o s1)) as [He|He].
            + assert (s = s1); [|subst; auto]. destruct Hs as [->|Hs]; auto. apply o_inj; auto.
            + destruct Hs as [->|Hs]; [congruence|]. apply (cy_tgt_t _ _ _ _ C); auto.
          - intros s Hs. apply dmark_upd in Hs; auto. rewrite Fn3. destruct (Nat.eqb_spec (o s) (o s1)) as [He|He].
            + assert (s = s1); [|subst; auto]. destruct Hs as [->|Hs]; auto. apply o_inj; auto.
            + destruct Hs as [->|Hs]; [congruence|]. apply (cy_tgt_f _ _ _ _ C); auto.
          - intros u Hu. rewrite Tr3, Fn3. destruct (Nat.eqb_spec u (o s1)) as [->|He].
            + exfalso. apply (Hu s1); auto. apply dmark_upd; auto.
            + apply (cy_src _ _ _ _ C). intros s Hs. apply Hu. apply dmark_upd; auto.
          - intros s Hs. apply dmark_upd in Hs; auto. destruct Hs as [->|Hs]; auto.
            destruct (cy_img _ _ _ _ C s Hs) as [H|H]; left; apply dmark_upd; auto. }
        destruct (IH h3 (upd dn s1 true) (o s1) f2' tb' f2' (trs_of f s1) C' Ho) as (g' & dn' & E & C2 & Cl & Mo & Dn).
        + pose proof (undone_step _ _ Ed). lia.
        + intros H. assert (d2 = false); [|auto]. rewrite nth_error_upd in H.
          destruct ((s1 =? o s1) && (o s1 <? length dn)); congruence.
        + exists g', dn'. split; auto. split; [|split; [auto|split]].
          * constructor; [apply (cy_len _ _ _ _ C2)|apply (cy_eff _ _ _ _ C2)|apply (cy_tgt_t _ _ _ _ C2)|apply (cy_tgt_f _ _ _ _ C2)|apply (cy_src _ _ _ _ C2)|intros s Hs; left; auto].
          * intros s Hs. apply Mo. apply dmark_upd; auto.
          * apply Mo. apply dmark_upd; auto.
    Qed.

    Lemma sort_all_ok (g0 : vfst K) (N0 : num_states g0 = n) k : forall i g dn, i + k = n ->
      cyc g0 g dn n -> (forall s, dmark dn s -> dmark dn (o s)) -> (forall s, s < i -> dmark dn s) ->
      exists g' dn', fold_left (fun r s1 =>
                      x <-- r ;;
                      let '(g, dn) := x in
                      match nth_error dn s1 with
                      | None => Panic
                      | Some true => Ok (g, dn)
                      | Some false => st <-- get_state g s1 ;;
                                      sort_cycle (S (length order)) g order dn s1 (vfin st) (vtrs st) None []
                      end) (seq i k) (Ok (g, dn)) = Ok (g', dn') /\
        cyc g0 g' dn' n /\ (forall s, s < n -> dmark dn' s).
    Proof.
      induction k as [|k IH]; intros i g dn Hi C Cl Hd.
      - simpl. exists g, dn. split; auto. split; auto. intros s Hs. apply Hd. lia.
      - cbn [seq fold_left rbind]. assert (Hin' : i < n) by lia.
        destruct (nth_error_ex dn i) as [d Ed]; [rewrite (cy_len _ _ _ _ C); auto|]. rewrite Ed. destruct d.
        + apply IH; auto; try lia. intros s Hs. destruct (Nat.eq_dec s i) as [->|]; auto. apply Hd. lia.
        + destruct (cy_eff _ _ _ _ C) as (Ng & _). destruct (nth_state g i) as (st & E & T & Fn); [lia|].
          unfold get_state at 2. rewrite E. cbn [rbind].
          assert (Src : trs_of g i = trs_of f i /\ fin_of g i = fin_of f i).
          { apply (cy_src _ _ _ _ C). intros s Hs He. apply Cl in Hs. rewrite He in Hs. unfold dmark in Hs. congruence. }
          destruct (sort_cycle_ok g0 N0 (S (length order)) g dn i (vfin st) (vtrs st) None []) as (g' & dn' & E' & C' & Cl' & Mo & Di); auto.
          * constructor; [apply (cy_len _ _ _ _ C)|apply (cy_eff _ _ _ _ C)|apply (cy_tgt_t _ _ _ _ C)|apply (cy_tgt_f _ _ _ _ C)|apply (cy_src _ _ _ _ C)|intros s Hs; left; auto].
          * rewrite Hlen, <- (cy_len _ _ _ _ C). pose proof (count_le negb dn). lia.
          * intros _. rewrite <- T, <- Fn. destruct Src; auto.
          * rewrite E'. apply IH; auto; try lia.
            { constructor; [apply (cy_len _ _ _ _ C')|apply (cy_eff _ _ _ _ C')|apply (cy_tgt_t _ _ _ _ C')|apply (cy_tgt_f _ _ _ _ C')|apply (cy_src _ _ _ _ C')|intros s Hs; left; auto]. }
            intros s Hs. destruct (Nat.eq_dec s i) as [->|]; auto. apply Mo, Hd. lia.
    Qed.

    Lemma state_sort_ok s0 : vstart f = Some s0 -> s0 < n -> exists g, state_sort f order = Ok g /\
      num_states g = n /\ vstart g = Some (o s0) /\ visymt g = visymt f /\ vosymt g = vosymt f /\ (cnt f -> cnt g) /\
      (forall s, s < n -> trs_of g (o s) = map (ren o) (trs_of f s) /\ fin_of g (o s) = fin_of f s) /\
      (forall b, has (vprops g) b = has (vprops f) b && inb b pm_statesort_properties).
    Proof.
      intros Es Hs. unfold state_sort. rewrite Hlen. fold n. rewrite Nat.eqb_refl, Es. rewrite (o_nth _ Hs).
      destruct (set_start_eff f (o s0) (o_lt _ Hs)) as (g0 & E0 & N0 & S0 & I0 & O0 & C0 & T0 & F0). rewrite E0. cbn [rbind].
      destruct (sort_all_ok g0 N0 n 0 g0 (repeat false n)) as (g' & dn' & E & C & Hd); auto.
      - assert (Z : forall s, ~ dmark (repeat false n) s).
        { intros s H. apply nth_error_In in H. apply repeat_spec in H. discriminate. }
        constructor; try (intros s H; exfalso; eapply Z; eauto; fail).
        + apply repeat_length.
        + apply eff_refl.
        + intros u _. auto.
      - intros s H. apply nth_error_In in H. apply repeat_spec in H. discriminate.
      - intros s H. lia.
      - rewrite Hlen in E. fold n. rewrite E. cbn [rbind fst].
        destruct (cy_eff _ _ _ _ C) as (A1 & A2 & A3 & A4 & A5).
        eexists. split; [reflexivity|]. split; [transitivity (num_states g0); auto|]. split; [transitivity (vstart g0); auto|].
        split; [transitivity (visymt g0); auto|]. split; [transitivity (vosymt g0); auto|]. split; [intros H; apply A5, C0, H|]. split.
        + intros s H. split; [apply (cy_tgt_t _ _ _ _ C)|apply (cy_tgt_f _ _ _ _ C)]; auto.
        + intros b. unfold set_properties_with_mask, pkeep. cbn [vprops with_props].
          assert (A : has all_properties b = true) by (destruct b; reflexivity).
          rewrite has_lor, !has_land, has_pnot, has_mask, A. simpl. rewrite !andb_false_r, andb_true_r. auto.
    Qed.
  End Perm.
End S.

(** Machines equal up to a bijective renaming of their [n] states. *)
Section Iso.
  Context {K : SR}.
  Implicit Types (m : machine K).

  Record iso (n : nat) (m m' : machine K) (o : nat -> nat) : Prop := {
    is_lt : forall s, s < n -> o s < n;
    is_inj : forall s u, s < n -> u < n -> o s = o u -> s = u;
    is_sur : forall u, u < n -> exists s, s < n /\ o s = u;
    is_start : mstart m' = option_map o (mstart m);
    is_s0 : forall s, mstart m = Some s -> s < n;
    is_ns : forall s t, In t (mtrs m s) -> ns t < n;
    is_trs : forall s, s < n -> mtrs m' (o s) = map (ren o) (mtrs m s);
    is_fin : forall s, s < n -> mfin m' (o s) = mfin m s;
    is_out : forall s, n <= s -> mtrs m s = [] /\ mtrs m' s = [] /\ mfin m s = None /\ mfin m' s = None
  }.

  Section I.
    Variables (n : nat) (m m' : machine K) (o : nat -> nat).
    Hypothesis H : iso n m m' o.

    Lemma iso_in' s' t' : In t' (mtrs m' s') -> exists s t, s < n /\ s' = o s /\ t' = ren o t /\ In t (mtrs m s).
    Proof.
      intros Ht. destruct (Nat.lt_ge_cases s' n) as [L|L].
      - destruct (is_sur _ _ _ _ H s' L) as (s & Hs & <-). rewrite (is_trs _ _ _ _ H s Hs) in Ht.
        apply in_map_iff in Ht as (t & <- & Ht). exists s, t. auto.
      - destruct (is_out _ _ _ _ H s' L) as (_ & E & _). rewrite E in Ht. destruct Ht.
    Qed.
    Lemma iso_lt s t : In t (mtrs m s) -> s < n.
    Proof. intros Ht. destruct (Nat.lt_ge_cases s n) as [L|L]; auto. destruct (is_out _ _ _ _ H s L) as (E & _). rewrite E in Ht. destruct Ht. Qed.
    Lemma iso_in s t : In t (mtrs m s) -> In (ren o t) (mtrs m' (o s)).
    Proof. intros Ht. rewrite (is_trs _ _ _ _ H s (iso_lt _ _ Ht)). apply in_map. auto. Qed.
    Lemma iso_reach a b : reach m a b -> reach m' (o a) (o b).
    Proof.
      induction 1 as [|s t u Ht _ IH]; [constructor|]. econstructor; [apply iso_in; eauto|]. auto.
    Qed.
    Lemma iso_reach' a' b' : reach m' a' b' -> forall a, a < n -> a' = o a -> exists b, b < n /\ b' = o b /\ reach m a b.
    Proof.
      induction 1 as [s'|s' t' u' Ht _ IH]; intros a Ha E.
      - exists a. split; auto. split; auto. constructor.
      - subst. rewrite (is_trs _ _ _ _ H a Ha) in Ht. apply in_map_iff in Ht as (t & <- & Ht).
        destruct (IH (ns t)) as (b & Hb & E & R); auto. { eapply (is_ns _ _ _ _ H); eauto. }
        exists b. split; auto. split; auto. econstructor; eauto.
    Qed.
    Lemma iso_reach_inv a b : a < n -> b < n -> reach m' (o a) (o b) -> reach m a b.
    Proof.
      intros Ha Hb R. destruct (iso_reach' _ _ R a Ha eq_refl) as (c & Hc & E & R'). apply (is_inj _ _ _ _ H) in E; auto. subst. auto.
    Qed.
    Lemma iso_cycle s : s < n -> on_cycle m' (o s) <-> on_cycle m s.
    Proof.
      intros Hs. split; intros (t & Ht & R).
      - rewrite (is_trs _ _ _ _ H s Hs) in Ht. apply in_map_iff in Ht as (t0 & <- & Ht). exists t0. split; auto.
        apply iso_reach_inv; auto. eapply (is_ns _ _ _ _ H); eauto.
      - exists (ren o t). split; [apply iso_in; auto|]. simpl. apply iso_reach. auto.
    Qed.
    Lemma iso_acc s : s < n -> accessible m' (o s) <-> accessible m s.
    Proof.
      intros Hs. unfold accessible. rewrite (is_start _ _ _ _ H). split.
      - intros (s0' & E & R). destruct (mstart m) as [s0|] eqn:Es; [|discriminate]. simpl in E. inversion E; subst.
        exists s0. split; auto. apply iso_reach_inv; auto. apply (is_s0 _ _ _ _ H); auto.
      - intros (s0 & E & R). rewrite E. exists (o s0). split; auto. apply iso_reach; auto.
    Qed.
    Lemma iso_coacc s : s < n -> coaccessible m' (o s) <-> coaccessible m s.
    Proof.
      intros Hs. unfold coaccessible. split.
      - intros (u & R & Hf). destruct (iso_reach' _ _ R s Hs eq_refl) as (b & Hb & -> & R'). exists b. split; auto.
        rewrite <- (is_fin _ _ _ _ H b Hb). auto.
      - intros (u & R & Hf). exists (o u). split; [apply iso_reach; auto|].
        destruct (Nat.lt_ge_cases u n) as [L|L].
        + rewrite (is_fin _ _ _ _ H u L). auto.
        + destruct (is_out _ _ _ _ H u L) as (_ & _ & E & _). congruence.
    Qed.
    Lemma iso_labels s' : (exists s, map il (mtrs m' s') = map il (mtrs m s) /\ map ol (mtrs m' s') = map ol (mtrs m s)).
    Proof.
      destruct (Nat.lt_ge_cases s' n) as [L|L].
      - destruct (is_sur _ _ _ _ H s' L) as (s & Hs & <-). exists s. rewrite (is_trs _ _ _ _ H s Hs), !map_map. auto.
      - destruct (is_out _ _ _ _ H s' L) as (E1 & E2 & _). exists s'. rewrite E1, E2. auto.
    Qed.
    Lemma iso_labels' s : (exists s', map il (mtrs m' s') = map il (mtrs m s) /\ map ol (mtrs m' s') = map ol (mtrs m s)).
    Proof.
      destruct (Nat.lt_ge_cases s n) as [L|L].
      - exists (o s). rewrite (is_trs _ _ _ _ H s L), !map_map. auto.
      - destruct (is_out _ _ _ _ H s L) as (E1 & E2 & _). exists s. rewrite E1, E2. auto.
    Qed.
    Lemma iso_fin' s' w : mfin m' s' = Some w -> exists s, mfin m s = Some w.
    Proof.
      intros E. destruct (Nat.lt_ge_cases s' n) as [L|L].
      - destruct (is_sur _ _ _ _ H s' L) as (s & Hs & <-). exists s. rewrite <- (is_fin _ _ _ _ H s Hs). auto.
      - destruct (is_out _ _ _ _ H s' L) as (_ & _ & _ & E'). congruence.
    Qed.
    Lemma iso_fin s w : mfin m s = Some w -> exists s', mfin m' s' = Some w.
    Proof.
      intros E. destruct (Nat.lt_ge_cases s n) as [L|L].
      - exists (o s). rewrite (is_fin _ _ _ _ H s L). auto.
      - destruct (is_out _ _ _ _ H s L) as (_ & _ & E' & _). congruence.
    Qed.

    Lemma iso_holds b : In b pm_statesort_properties -> holds b n m -> holds b n m'.
    Proof.
      assert (ALL : forall Q : tr K -> Prop, (forall t q, Q t -> Q (Tr (il t) (ol t) (wgt t) q)) ->
        (forall s t, In t (mtrs m s) -> Q t) -> forall s t, In t (mtrs m' s) -> Q t).
      { intros Q HQ HA s t Ht. destruct (iso_in' _ _ Ht) as (s1 & t1 & _ & _ & -> & Ht1). unfold ren. apply HQ. eauto. }
      assert (EX : forall Q : tr K -> Prop, (forall t q, Q t -> Q (Tr (il t) (ol t) (wgt t) q)) ->
        (exists s t, In t (mtrs m s) /\ Q t) -> exists s t, In t (mtrs m' s) /\ Q t).
      { intros Q HQ (s & t & Ht & HA). exists (o s), (ren o t). split; [apply iso_in; auto|]. apply HQ; auto. }
      intros Hb. unfold pm_statesort_properties in Hb. 
      repeat (destruct Hb as [<-|Hb]); try (destruct Hb; fail); simpl; intros A.
      - apply (ALL (fun t => il t = ol t)); auto.
      - apply (EX (fun t => il t <> ol t)); auto.
      - intros s. destruct (iso_labels s) as (q & -> & _). auto.
      - destruct A as (s & A). destruct (iso_labels' s) as (q & E & _). exists q. rewrite E. auto.
      - intros s. destruct (iso_labels s) as (q & _ & ->). auto.
      - destruct A as (s & A). destruct (iso_labels' s) as (q & _ & E). exists q. rewrite E. auto.
      - apply (EX (fun t => il t = 0 /\ ol t = 0)); auto.
      - apply (ALL (fun t => ~ (il t = 0 /\ ol t = 0))); auto.
      - apply (EX (fun t => il t = 0)); auto.
      - apply (ALL (fun t => il t <> 0)); auto.
      - apply (EX (fun t => ol t = 0)); auto.
      - apply (ALL (fun t => ol t <> 0)); auto.
      - intros s. destruct (iso_labels s) as (q & -> & _). auto.
      - destruct A as (s & A). destruct (iso_labels' s) as (q & E & _). exists q. rewrite E. auto.
      - intros s. destruct (iso_labels s) as (q & _ & ->). auto.
      - destruct A as (s & A). destruct (iso_labels' s) as (q & _ & E). exists q. rewrite E. auto.
      - destruct A as [A|(s & w & A1 & A2)].
        + left. apply (EX (fun t => ~ plain (wgt t))); auto.
        + right. destruct (iso_fin s w A1) as (q & E). eauto.
      - destruct A as [A1 A2]. split.
        + apply (ALL (fun t => plain (wgt t))); auto.
        + intros s w E. destruct (iso_fin' s w E) as (q & E'). eauto.
      - destruct A as (s & A). exists (o s). apply iso_cycle; auto. destruct A as (t & Ht & _). eapply iso_lt; eauto.
      - intros s' C. destruct C as (t' & Ht' & R). destruct (iso_in' _ _ Ht') as (s & t & Hs & -> & -> & Ht).
        apply (A s). apply iso_cycle; auto. exists (ren o t). auto.
      - destruct A as (s & E & A). exists (o s). rewrite (is_start _ _ _ _ H), E. split; auto. apply iso_cycle; auto.
        apply (is_s0 _ _ _ _ H); auto.
      - intros s' E C. rewrite (is_start _ _ _ _ H) in E. destruct (mstart m) as [s|] eqn:Es; [|discriminate].
        simpl in E. inversion E; subst. apply (A s); auto. apply iso_cycle; auto. apply (is_s0 _ _ _ _ H); auto.
      - intros s' Hs'. destruct (is_sur _ _ _ _ H s' Hs') as (s & Hs & <-). apply iso_acc; auto.
      - destruct A as (s & Hs & A). exists (o s). split; [apply (is_lt _ _ _ _ H); auto|]. intros C. apply A. apply iso_acc; auto.
      - intros s' Hs'. destruct (is_sur _ _ _ _ H s' Hs') as (s & Hs & <-). apply iso_coacc; auto.
      - destruct A as (s & Hs & A). exists (o s). split; [apply (is_lt _ _ _ _ H); auto|]. intros C. apply A. apply iso_coacc; auto.
      - destruct A as (s & t & Ht & R & A). exists (o s), (ren o t). split; [apply iso_in; auto|]. split; auto. simpl. apply iso_reach; auto.
      - intros s' t' Ht' R. destruct (iso_in' _ _ Ht') as (s & t & Hs & -> & -> & Ht). simpl. apply (A s t); auto.
        apply iso_reach_inv; auto. eapply (is_ns _ _ _ _ H); eauto.
    Qed.

    Lemma iso_rel (L : lsr_laws K) k x y : rel m' k x y = rel m k x y.
    Proof.
      unfold rel. rewrite (is_start _ _ _ _ H). destruct (mstart m) as [s|] eqn:Es; auto. simpl.
      apply (wt_ren L m m' o (fun s => s < n)).
      - intros q t _ Ht. eapply (is_ns _ _ _ _ H); eauto.
      - intros q Hq. rewrite (is_trs _ _ _ _ H q Hq). auto.
      - intros q Hq. rewrite (is_fin _ _ _ _ H q Hq). auto.
      - apply (is_s0 _ _ _ _ H); auto.
    Qed.
  End I.
End Iso.

Section T.
  Context {K : SR}.
  Implicit Types (f g h : vfst K).

  Lemma perm_facts n order : Permutation order (seq 0 n) ->
    length order = n /\ (forall s, In s order -> s < n) /\ NoDup order /\ (forall u, u < n -> exists s, s < n /\ nth s order 0 = u).
  Proof.
    intros P. assert (E : length order = n) by (rewrite (Permutation_length P), seq_length; auto).
    split; auto. split; [|split].
    - intros s Hs. apply (Permutation_in _ P) in Hs. apply in_seq in Hs. lia.
    - apply (Permutation_NoDup (Permutation_sym P)). apply seq_NoDup.
    - intros u Hu. assert (I : In u order) by (apply (Permutation_in _ (Permutation_sym P)); apply in_seq; lia).
      apply (In_nth _ _ 0) in I as (s & Hs & Es). exists s. split; auto. lia.
  Qed.

  Lemma state_sort_iso f order : closed f -> Permutation order (seq 0 (num_states f)) -> vstart f <> None ->
    exists g, state_sort f order = Ok g /\ num_states g = num_states f /\ visymt g = visymt f /\ vosymt g = vosymt f /\
      (cnt f -> cnt g) /\ iso (num_states f) (mach f) (mach g) (fun s => nth s order 0) /\
      (forall b, has (vprops g) b = has (vprops f) b && inb b pm_statesort_properties).
  Proof.
    intros [C1 C2] P Hs. destruct (vstart f) as [s0|] eqn:Es; [clear Hs|congruence].
    destruct (perm_facts _ _ P) as (E1 & E2 & E3 & E4).
    destruct (state_sort_ok f order E1 E2 E3 C1 s0 Es (C2 _ eq_refl)) as (g & E & N & S & I & O & C & T & Pr).
    exists g. split; auto. split; auto. split; auto. split; auto. split; auto. split; auto. constructor; simpl.
    - intros s Hs. apply E2. apply nth_In. lia.
    - intros s u Hs Hu He. eapply (proj1 (NoDup_nth order 0)); eauto; lia.
    - auto.
    - rewrite S, Es. auto.
    - intros s Hs. apply C2. congruence.
    - intros s t Ht. eapply C1; eauto.
    - intros s Hs. apply (T s Hs).
    - intros s Hs. apply (T s Hs).
    - intros s Hs. rewrite !trs_of_oob, !fin_of_oob by lia. auto.
  Qed.

  Lemma fill_order_ok l : forall s order, NoDup l -> (forall q, In q l -> q < length order) ->
    exists o, fill_order s l order = Ok o /\ length o = length order /\
      (forall i q, nth_error l i = Some q -> nth q o 0 = s + i) /\
      (forall q, ~ In q l -> nth q o 0 = nth q order 0).
  Proof.
    induction l as [|q l IH]; intros s order Hnd Hl; simpl.
    - exists order. split; auto. split; auto. split; auto. intros i q E. destruct i; discriminate.
    - inversion Hnd as [|? ? Hn Hnd']; subst. assert (Hq : q < length order) by (apply Hl; left; auto).
      apply Nat.ltb_lt in Hq as Hq'. rewrite Hq'. destruct (IH (S s) (upd order q s) Hnd') as (o & E & Lo & N & Z).
      + intros u Hu. rewrite upd_length. apply Hl. right; auto.
      + exists o. split; auto. split; [rewrite Lo; apply upd_length|]. split.
        * intros i u Ei. destruct i as [|i]; simpl in Ei.
          -- inversion Ei; subst. rewrite (Z u Hn), nth_upd_eq; auto.
          -- rewrite (N i u Ei). lia.
        * intros u Hu. assert (u <> q /\ ~ In u l) as [H1 H2] by (split; intros H; apply Hu; [left|right]; auto).
          rewrite Z by auto. apply nth_upd_ne. auto.
  Qed.
End T.
