(** Merging equivalent states of a trim deterministic acceptor gives the quotient machine. *)
From Coq Require Import List Arith NArith Bool Lia Permutation Sorted.
From Verif Require Import Base.Util Base.Semiring Base.Machine Base.PropSpec
  Model.Props Model.VectorFst Model.TrOps Model.AlgoProps Model.History Model.Visitors Model.Relabel Model.Rational Model.Partition Model.Minimize
  Proofs.PropsFacts Proofs.VectorFacts Proofs.DelStates Proofs.VectorProps Proofs.TrOpsFacts Proofs.HistoryFacts
  Proofs.OpFacts Proofs.ConnectFacts Proofs.RationalFacts Proofs.ReverseDist Proofs.RmEpsFacts Proofs.MergeFacts Props.C03 Props.C12.
Import ListNotations.

Section D.
  Context {K : SR} (L : lsr_laws K).
  Implicit Types (f g h : vfst K).

  Lemma dedup_from_nodup (t : tr K) l : StronglySorted (fun a b => tr_le a b = true) (t :: l) ->
    (forall u v, In u (t :: l) -> In v (t :: l) -> wgt u = wgt v) -> NoDup (dedup_from t l).
  Proof.
    revert t; induction l as [|u l IH]; intros t S W; simpl; [constructor; [intros []|constructor]|].
    inversion S as [|? ? S1 S2]; subst. destruct (tr_eqb u t) eqn:E.
    - apply (tr_eqb_true L) in E. subst u. apply IH; auto. intros; apply W; right; auto.
    - constructor.
      + rewrite (dedup_from_In L). intros H.
        assert (Ne : u <> t) by (intros ->; rewrite (proj2 (tr_eqb_true L t t) eq_refl) in E; discriminate).
        apply Ne. destruct H as [H|H]; auto.
        inversion S1 as [|? ? S3 S4]; subst. inversion S2 as [|? ? S5 S6]; subst.
        rewrite Forall_forall in S4. specialize (S4 _ H). apply tr_le_spec in S4. apply tr_le_spec in S5.
        assert (Wu : wgt u = wgt t) by (apply W; [right; left|left]; auto).
        unfold lexle in *. destruct u, t; simpl in *. subst. f_equal; lia.
      + apply IH; auto. intros; apply W; right; auto.
  Qed.
  Lemma unique_nodup (l : list (tr K)) : (forall u v, In u l -> In v l -> wgt u = wgt v) -> NoDup (dedup (isort tr_le l)).
  Proof.
    intros W. pose proof (isort_sorted tr_le tr_le_tot tr_le_trans l) as S.
    assert (W' : forall u v, In u (isort tr_le l) -> In v (isort tr_le l) -> wgt u = wgt v).
    { intros u v Hu Hv. apply W; apply (Permutation_in _ (isort_perm tr_le l)); auto. }
    destruct (isort tr_le l); [constructor|]. apply dedup_from_nodup; auto.
  Qed.

  (** [h] is [f] with the states that [rho] identifies made one. *)
  Record quotient f h (rho : nat -> nat) : Prop := Quotient {
    q_lt : forall s, s < num_states f -> rho s < num_states h;
    q_onto : forall q, q < num_states h -> exists s, s < num_states f /\ rho s = q;
    q_fin : forall s, s < num_states f -> fin_of h (rho s) = fin_of f s;
    q_trs : forall s, s < num_states f -> Permutation (trs_of h (rho s)) (map (ren rho) (trs_of f s));
    q_start : vstart h = option_map rho (vstart f);
    q_closed : closed h;
    q_cnt : cnt f -> cnt h;
    q_sound : fsound f -> fsound h;
    q_tabs : visymt h = visymt f /\ vosymt h = vosymt f }.

  Section P.
    Context (f : vfst K) (p : partition) (cls : nat -> nat) (k : nat) (s0 : nat).
    Notation n := (num_states f).
    Context (HP : parts n p cls k) (Hc : closed f) (Hn : cnt f) (Hs : vstart f = Some s0).
    Context (HT : forall s, s < n -> accessible (mach f) s /\ coaccessible (mach f) s).
    Context (HA : forall s t, In t (trs_of f s) -> ol t = il t /\ wgt t = kone).
    Context (HD : forall s, NoDup (map il (trs_of f s))).
    Context (HC : forall s s', s < n -> s' < n -> cls s = cls s' ->
      fin_of f s = fin_of f s' /\
      forall t, In t (trs_of f s) -> exists u, In u (trs_of f s') /\ il u = il t /\ cls (ns u) = cls (ns t)).

    Theorem merge_quotient : exists h h' rho, merge_states p f = Ok h /\ tr_unique h = Ok h' /\ quotient f h' rho /\
      (forall s s', s < n -> s' < n -> (rho s = rho s' <-> cls s = cls s')) /\ num_states h' = k.
    Proof.
      destruct (merge_states_eq L f p cls k HP Hc s0 Hs) as (g & (M1 & M2 & M3 & M4 & M5) & h0 & N0 & S0 & C0 & T0 & F0 & Y1 & Y2 & So0 & Em).
      pose proof (leader_spec f p cls k HP) as LS. set (ld := leader p) in *.
      assert (CK : forall s, s < n -> cls s < k) by (intros s H; apply HP; auto).
      assert (TL : forall c, c < k -> trs_of h0 (ld c) = map (redir p cls) (flat_map (trs_of f) (members p c))).
      { intros c H. rewrite T0. apply M3; auto. }
      assert (IN : forall c u, c < k -> In u (trs_of h0 (ld c)) <-> exists s t, s < n /\ cls s = c /\ In t (trs_of f s) /\ u = redir p cls t).
      { intros c u H. rewrite TL, in_map_iff by auto. destruct (members_spec f p cls k HP c H) as (_ & _ & _ & I). split.
        - intros (t & <- & Ht). apply in_flat_map in Ht as (s & Hm & Ht). apply I in Hm as [A B]. exists s, t. auto.
        - intros (s & t & A & B & C & ->). exists t. split; auto. apply in_flat_map. exists s. split; auto. apply I. auto. }
      assert (Cl0 : closed h0).
      { split.
        - intros s t Ht. rewrite N0. destruct (existsb (Nat.eqb s) (map ld (seq 0 k))) eqn:E.
          + apply existsb_exists in E as (x & Hx & Ex). apply Nat.eqb_eq in Ex. subst x. apply in_map_iff in Hx as (c & <- & Hk).
            apply in_seq in Hk. apply IN in Ht as (s & u & A & B & C & ->); [|lia]. simpl. apply LS. apply CK. apply (proj1 Hc s); auto.
          + rewrite T0, M4 in Ht.
            * apply (proj1 Hc s); auto.
            * intros d Hd ->. assert (X : existsb (Nat.eqb (leader p d)) (map ld (seq 0 k)) = true).
              { apply existsb_exists. exists (ld d). split; [apply in_map; apply in_seq; lia|apply Nat.eqb_refl]. } exact (eq_true_false_abs _ X E).
        - intros s E. rewrite S0 in E. injection E as <-. rewrite N0. apply LS, CK. apply Hc; auto. }
      assert (R0 : forall a b, reach (mach f) a b -> a < n -> reach (mach h0) (ld (cls a)) (ld (cls b))).
      { intros a b R. induction R as [a|a t b Ht R IH]; intros Ha; [constructor|].
        apply (reach_step (mach h0) (ld (cls a)) (redir p cls t)).
        - cbn [mach mtrs]. apply IN; [apply CK; auto|]. exists a, t. auto.
        - simpl. apply IH. apply (proj1 Hc a); auto. }
      assert (Rl : forall a b, reach (mach h0) a b -> (exists c, c < k /\ a = ld c) -> exists c, c < k /\ b = ld c).
      { intros a b R. induction R as [a|a t b Ht R IH]; auto. intros (c & Hk & ->). apply IH.
        cbn [mach mtrs] in Ht. apply IN in Ht as (s & u & A & B & C & ->); auto. exists (cls (ns u)). split; [|reflexivity].
        apply CK. apply (proj1 Hc s); auto. }
      assert (U0 : forall c, c < k -> useful h0 (ld c)).
      { intros c H. destruct (LS c H) as [A B]. destruct (HT _ A) as [(a & Ea & Ra) (b & Rb & Fb)]. simpl in Ea. rewrite Hs in Ea. injection Ea as <-.
        assert (L0 : s0 < n) by (apply Hc; auto). split.
        - exists (ld (cls s0)). split; [exact S0|]. rewrite <- B. apply R0; auto.
        - exists (ld (cls b)). split; [rewrite <- B at 1; apply R0; auto|].
          assert (Lb : b < n) by (eapply reach_lt; eauto). destruct (LS (cls b) (CK b Lb)) as [A' B'].
          cbn [mach mfin] in *. rewrite F0, M2. destruct (HC _ _ A' Lb B') as [-> _]. auto. }
      destruct (connect_eq h0 Cl0 (C0 Hn)) as (d & h1 & Ec & Ed & Sm & Us & _). rewrite <- Em in Ec.
      set (h := set_properties_with_mask h1 _ _) in Ec.
      assert (Sm' : is_submachine h0 d h) by exact Sm. clear Sm.
      assert (So1 : fsound f -> fsound h) by (intros; eapply connect_fsound; eauto; rewrite <- Em; auto).
      assert (Cn1 : cnt h1) by (eapply del_states_cnt; [|exact Ed]; auto).
      assert (SV : forall c, c < k -> nth_error (survivors n d) (rank d (ld c)) = Some (ld c)).
      { intros c H. destruct (LS c H) as [A B]. destruct (surv_ex h0 d (ld c) Us (U0 c H)) as (i & Ei); [lia|].
        rewrite N0 in Ei. apply survivors_nth in Ei as Ei'. destruct Ei' as (_ & _ & <-). auto. }
      assert (SV' : forall i q, nth_error (survivors n d) i = Some q -> exists c, c < k /\ q = ld c).
      { intros i q H. rewrite <- N0 in H. destruct (surv_iff h0 d i q Us H) as [[(a & Ea & Ra) _] _]. simpl in Ea. rewrite S0 in Ea. injection Ea as <-.
        apply (Rl _ _ Ra). exists (cls s0). split; auto. apply CK. apply Hc; auto. }
      pose proof (sub_closed h0 d h Cl0 Sm') as Clh.
      destruct Sm' as (Nh & Th & Sh & Yh1 & Yh2). rewrite N0 in *.
      exists h. destruct (C12_tr_unique L h) as (h' & Eu & Nu & Su & Fu & Iu & _). exists h'.
      set (rho := fun s => rank d (ld (cls s))). exists rho.
      assert (Hns : forall c, c < k -> ~ In (ld c) d).
      { intros c H I. destruct Us as (_ & _ & U3). apply (U3 _ I). apply U0; auto. }
      assert (T1 : forall c, c < k -> trs_of h (rank d (ld c)) = map (ren (rank d)) (trs_of h0 (ld c))).
      { intros c H. destruct (Th _ _ (SV c H)) as [_ F].
        assert (X : filter (fun t => negb (dead d (ns t))) (trs_of h0 (ld c)) = trs_of h0 (ld c)).
        { assert (Y : forall l, (forall t, In t l -> negb (dead d (ns t)) = true) -> filter (fun t : tr K => negb (dead d (ns t))) l = l).
          { induction l as [|t l IH]; intros HH; simpl; auto. rewrite (HH t (or_introl eq_refl)). f_equal. apply IH. intros; apply HH; right; auto. }
          apply Y. intros t Ht. apply IN in Ht as (s & u & A & B & C & ->); auto. destruct (dead d _) eqn:E; auto.
          apply dead_In in E. exfalso. revert E. apply Hns. apply CK. apply (proj1 Hc s); auto. }
        rewrite X in F. clear X. induction F as [|t' t l' l (E1 & E2 & E3 & E4) F IH]; auto. cbn [map]. f_equal; auto.
        apply survivors_nth in E4 as (_ & _ & E4). destruct t', t; unfold ren; simpl in *. congruence. }
      assert (KS : forall s, s < n -> ld (cls s) < n /\ cls (ld (cls s)) = cls s) by (intros; apply LS; auto).
      assert (Iff : forall s s', s < n -> s' < n -> (rho s = rho s' <-> cls s = cls s')).
      { intros s s' A B. unfold rho. split; [|intros ->; auto]. intros E.
        pose proof (SV _ (CK _ A)) as V1. pose proof (SV _ (CK _ B)) as V2. rewrite E in V1.
        assert (X : ld (cls s) = ld (cls s')) by congruence. rewrite <- (proj2 (KS s A)), <- (proj2 (KS s' B)). congruence. }
      assert (Ren : forall t : tr K, ren (rank d) (redir p cls t) = ren rho t) by reflexivity.
      assert (Mem : forall s u, s < n -> In u (trs_of h' (rho s)) <-> In u (map (ren rho) (trs_of f s))).
      { intros s u A. rewrite Iu. unfold rho. rewrite T1 by auto. rewrite !in_map_iff. fold rho. split.
        - intros (v & <- & Hv). apply IN in Hv as (s' & t & B & C & D & ->); auto. rewrite Ren.
          destruct (HC s' s B A C) as [_ X]. destruct (X t D) as (t' & D' & E1 & E2). exists t'. split; auto.
          destruct (HA _ _ D) as [O1 W1], (HA _ _ D') as [O2 W2]. unfold ren. rewrite E1, O2, E1, O1, W1, W2. unfold rho. rewrite E2. auto.
        - intros (t & <- & Ht). exists (redir p cls t). rewrite Ren. split; auto. apply IN; auto. exists s, t. auto. }
      assert (Cl' : closed h').
      { split.
        - intros q t Ht. apply Iu in Ht. rewrite Nu. apply (proj1 Clh q); auto.
        - intros s E. rewrite Nu. rewrite Su in E. apply Clh; auto. }
      split; [exact Ec|]. split; [exact Eu|]. split; [constructor|split; [exact Iff|]].
      - intros s A. rewrite Nu, Nh. apply nth_error_Some. unfold rho. rewrite SV by auto. discriminate.
      - intros q Hq. rewrite Nu, Nh in Hq. apply nth_error_Some in Hq. destruct (nth_error (survivors n d) q) as [x|] eqn:E; [|congruence].
        destruct (SV' _ _ E) as (c & Hk & ->). destruct (LS c Hk) as [A B]. exists (ld c). split; auto. unfold rho. rewrite B.
        apply survivors_nth in E. apply E.
      - intros s A. rewrite Fu. destruct (Th _ _ (SV _ (CK s A))) as [X _]. unfold rho. rewrite X, F0, M2.
        destruct (KS s A) as [B C]. apply (HC _ _ B A C).
      - intros s A. apply NoDup_Permutation.
        + rewrite tr_unique_eq in Eu. assert (Ev := f_equal (fun r => match r with Ok x => x | _ => h' end) Eu). cbv beta iota in Ev. rewrite <- Ev, trs_of_map.
          destruct (nth_error (vstates h) (rho s)) as [st|] eqn:Es; [|constructor].
          assert (X : vtrs (unique_state st) = dedup (isort tr_le (vtrs st))) by (unfold unique_state; destruct (_ && _); reflexivity).
          rewrite X. apply unique_nodup. intros u v Hu Hv.
          assert (Y : forall w, In w (vtrs st) -> wgt w = kone).
          { intros w Hw. assert (Z : vtrs st = trs_of h (rho s)) by (unfold trs_of; rewrite Es; auto). rewrite Z in Hw. unfold rho in Hw. rewrite T1 in Hw by auto.
            apply in_map_iff in Hw as (v' & <- & Hv'). apply IN in Hv' as (s' & t & B & C & D & ->); auto. simpl. apply (HA _ _ D). }
          rewrite (Y u), (Y v); auto.
        + apply (NoDup_map_inv il). rewrite map_map. simpl. apply HD.
        + intros u. apply Mem; auto.
      - rewrite Su, Hs. cbn [option_map]. rewrite S0 in Sh. destruct Sh as [[I _]|(_ & q & Eq & ->)].
        + exfalso. revert I. apply Hns. apply CK. apply Hc; auto.
        + f_equal. apply survivors_nth in Eq. unfold rho. fold ld in Eq. symmetry. apply Eq.
      - exact Cl'.
      - intros _. exact (step_cnt L h OUnique h' Cn1 Eu).
      - intros F. exact (tr_unique_sound L h h' (So1 F) Eu).
      - rewrite tr_unique_eq in Eu. assert (Ev := f_equal (fun r => match r with Ok x => x | _ => h' end) Eu). cbv beta iota in Ev. rewrite <- Ev. cbn [visymt vosymt set_all set_properties_with_mask with_props with_states]. rewrite <- Y1, <- Y2. split; [exact Yh1|exact Yh2].
      - rewrite Nu, Nh. rewrite <- (map_length (fun q => cls q)). rewrite <- (seq_length k 0).
        apply Nat.le_antisymm; apply NoDup_incl_length.
        + assert (X : forall l, NoDup l -> (forall q, In q l -> exists c, c < k /\ q = ld c) -> NoDup (map cls l)).
          { induction l as [|a l IH]; intros N HH; simpl; [constructor|]. inversion N; subst. constructor; [|apply IH; auto; intros; apply HH; right; auto].
            intros I. apply in_map_iff in I as (b & E & Hb). destruct (HH a (or_introl eq_refl)) as (c & Hk & ->), (HH b (or_intror Hb)) as (c' & Hk' & ->).
            rewrite (proj2 (LS c Hk)), (proj2 (LS c' Hk')) in E. subst. auto. }
          apply X; [unfold survivors; apply NoDup_filter, seq_NoDup|]. intros q Hq. apply In_nth_error in Hq as (i & Hi). eauto.
        + intros c H. apply in_map_iff in H as (q & <- & Hq). apply In_nth_error in Hq as (i & Hi). destruct (SV' _ _ Hi) as (c & Hk & ->).
          rewrite (proj2 (LS c Hk)). apply in_seq. lia.
        + apply seq_NoDup.
        + intros c H. apply in_seq in H. apply in_map_iff. exists (ld c). split; [apply LS; lia|]. eapply nth_error_In. apply SV. lia.
    Qed.
  End P.
End D.
