(** rm_final_epsilon seen from the outside: what is left, and the property bits. *)
From Coq Require Import List Arith NArith Bool Lia.
From Verif Require Import Base.Util Base.Semiring Base.Machine Base.PathSum Base.PropSpec
  Model.Props Model.VectorFst Model.TrOps Model.Dfs Model.Visitors Model.Rational
  Proofs.PropsFacts Proofs.VectorFacts Proofs.DelStates Proofs.VectorProps Proofs.TrOpsFacts Proofs.HistoryFacts
  Proofs.VisitFacts Proofs.OpFacts Proofs.ConnectFacts Proofs.RationalFacts Proofs.ReverseDist Proofs.RmEpsFacts Props.C03 Props.C14.
Import ListNotations.
Local Open Scope K_scope.

Section F.
  Context {K : SR} (L : lsr_laws K).
  Implicit Types (f g h : vfst K).

  Lemma unwrap_inv {A} (r : res A) x : unwrap r = Ok x -> r = Ok x.
  Proof. destruct r; cbn; congruence. Qed.
  Lemma rm_state_sound D f s g : rm_state D f s = Ok g -> fsound f -> fsound g.
  Proof.
    unfold rm_state. destruct (scan_state f D s) as [[dels w]| |]; cbn [rbind]; try discriminate.
    destruct dels as [|i dels]; [intros [= <-]; auto|]. destruct w as [w|]; [|discriminate].
    destruct (keqb w 0).
    - cbn [rbind]. intros E So. apply unwrap_inv in E. eapply (fsound_del_trs_id); eauto.
    - destruct (unwrap (set_final f s w)) as [h| |] eqn:E1; cbn [rbind]; try discriminate. intros E So. apply unwrap_inv in E, E1.
      eapply (fsound_del_trs_id); [|exact E]. eapply (fsound_set_final L); eauto.
  Qed.
  Lemma rm_all_sound D : forall l f g, rfold (rm_state D) l f = Ok g -> fsound f -> fsound g.
  Proof.
    induction l as [|s l IH]; intros f g E So; [injection E as <-; auto|]. rewrite rfold_cons in E.
    destruct (rm_state D f s) as [h| |] eqn:E1; try discriminate. cbn [rbind] in E. eapply IH; eauto. eapply rm_state_sound; eauto.
  Qed.

  Lemma rm_final_parts f s0 : cnt f -> closed f -> vstart f = Some s0 ->
    exists D h, (forall s, In s D <-> dead_end f s) /\ rm_final_epsilon f = connect h /\ eff f h /\ closed h /\ (fsound f -> fsound h) /\
      (forall q, trs_of h q = filter (fun t => negb (removable D t)) (trs_of f q)) /\
      (forall q, fin_of h q = if existsb (removable D) (trs_of f q) && negb (keqb (new_fin f D q) 0) then Some (new_fin f D q) else fin_of f q).
  Proof.
    intros C CL Es. pose proof CL as [C1 C2]. unfold rm_final_epsilon. set (n := num_states f).
    assert (V : exists v, visit_scc f any_filter = Ok v /\ forall u, (u < n)%nat -> co (sv_core v) u = true <-> coaccessible (mach f) u).
    { unfold visit_scc. rewrite Es.
      destruct (visit_scc_inv any_filter (trs_of f) (num_states f) s0 (fin_of f) (fun s t _ => C1 s t) (C2 _ Es))
          as (v & E & _ & _ & _ & _ & _ & _ & Co & _).
      { intros s Hs. apply trs_of_beyond; auto. }
      exists v. split; auto. intros u Hu. rewrite (Co u Hu). apply coacc_any. }
    destruct V as (v & EV & V). rewrite EV. cbn [rbind]. set (D := dead_end_finals f (co (sv_core v))).
    assert (DF : forall d, In d D -> fin_of f d <> None).
    { intros d Hd. unfold D, dead_end_finals in Hd. apply filter_In in Hd as [_ Hd]. destruct (fin_of f d); [congruence|discriminate]. }
    assert (DE : forall s, In s D <-> dead_end f s).
    { intros s. unfold D, dead_end_finals, dead_end. rewrite filter_In, in_seq, andb_true_iff. split.
      - intros (_ & A & B). split; [destruct (fin_of f s); [congruence|discriminate]|].
        intros t Ht Hco. apply (V (ns t)) in Hco; [|apply (C1 s); auto].
        apply negb_true_iff in B. assert (X : existsb (fun t => co (sv_core v) (ns t)) (trs_of f s) = true) by (apply existsb_exists; eauto). congruence.
      - intros [A B]. split; [|split].
        + split; [lia|]. apply Nat.nle_gt. intros H. apply A. apply fin_of_beyond. lia.
        + destruct (fin_of f s); [reflexivity|congruence].
        + apply negb_true_iff. destruct (existsb _ _) eqn:X; auto. apply existsb_exists in X as (t & X1 & X2).
          exfalso. apply (B t X1). apply V; auto. apply (C1 s); auto. }
    assert (HN : forall d t, In d D -> In t (trs_of f d) -> removable D t = false).
    { intros d t Hd Ht. destruct (removable D t) eqn:Er; auto. exfalso. apply rem_E in Er; auto.
      apply DE in Hd as [_ Hd]. apply (Hd t Ht). exists (ns t). split; [constructor|]. apply DF in Er. exact Er. }
    destruct (rm_all_eff L D f C DF HN n 0 f) as (h & E & EF & T & N).
    { unfold n. lia. } { apply eff_refl. } { auto. } { auto. }
    rewrite E. cbn [rbind]. cbn [Nat.add] in *. pose proof EF as (Fn & Fs & _ & _ & Fc).
    assert (T' : forall q, trs_of h q = filter (fun t => negb (removable D t)) (trs_of f q)).
    { intros q. rewrite T. destruct (Nat.ltb_spec q n); auto. rewrite trs_of_beyond; auto. }
    exists D, h. split; auto. split; auto. split; auto. split; [|split; [|split; auto]].
    - split; [intros s t Ht|intros s Hs]; rewrite Fn.
      + rewrite T' in Ht. apply filter_In in Ht as [Ht _]. apply (C1 s); auto.
      + apply C2. congruence.
    - intros So. eapply rm_all_sound; eauto.
    - intros q. rewrite N. destruct (Nat.ltb_spec q n); auto. rewrite (trs_of_beyond f q) by auto. auto.
  Qed.

  (** The bits stay right. *)
  Theorem rm_final_epsilon_sound f g : cnt f -> closed f -> fsound f -> vstart f <> None -> rm_final_epsilon f = Ok g -> fsound g /\ closed g /\ cnt g.
  Proof.
    intros C CL So V E. destruct (vstart f) as [s0|] eqn:Es; [|congruence].
    destruct (rm_final_parts f s0 C CL Es) as (D & h & _ & E1 & Ef & Ch & Sh & _). rewrite E1 in E. split; [|split].
    - apply (connect_fsound L h g); auto. apply Ef; auto.
    - destruct (connect_eq h Ch (proj2 (proj2 (proj2 (proj2 Ef))) C)) as (d & g0 & E0 & Ed & S & U & _). rewrite E0 in E. injection E as <-.
      apply (sub_closed h d); auto.
    - destruct (connect_eq h Ch (proj2 (proj2 (proj2 (proj2 Ef))) C)) as (d & g0 & E0 & Ed & S & U & _). rewrite E0 in E. injection E as <-.
      change (cnt g0). eapply del_states_cnt; [|exact Ed]. apply Ef; auto.
  Qed.

  (** A machine all of whose accepting paths end with one epsilon transition into a final state
      that has no transitions and weight one. *)
  Record sealed (d : vfst K) (s0 : nat) : Prop := Sealed {
    se_cnt : cnt d; se_closed : closed d; se_start : vstart d = Some s0; se_from : fin_of d s0 = None;
    se_eps : forall s t, In t (trs_of d s) -> fin_of d (ns t) <> None -> il t = O /\ ol t = O;
    se_end : forall s, fin_of d s <> None -> trs_of d s = [];
    se_one : forall s w, fin_of d s = Some w -> w = 1 }.
  Definition seal (d : vfst K) (t : tr K) : bool := match fin_of d (ns t) with Some _ => true | None => false end.

  Lemma peel (d : vfst K) s0 : sealed d s0 -> exists r sv, rm_final_epsilon d = Ok r /\ (fsound d -> fsound r) /\ closed r /\ cnt r /\
    visymt r = visymt d /\ vosymt r = vosymt d /\
    (forall k x y, rel (mach r) k x y = rel (mach d) (S k) x y) /\
    (forall s, (s < num_states r)%nat -> accessible (mach r) s /\ coaccessible (mach r) s) /\
    NoDup sv /\ num_states r = length sv /\
    (forall k q, nth_error sv k = Some q -> (q < num_states d)%nat /\ fin_of d q = None /\ accessible (mach d) q /\
       exists P, Forall2 (fun t' t => il t' = il t /\ ol t' = ol t /\ wgt t' = wgt t) (trs_of r k) (filter P (filter (fun t => negb (seal d t)) (trs_of d q)))).
  Proof.
    intros [C CL Es F0 F1 F2 F3].
    assert (DE : forall s, dead_end d s <-> fin_of d s <> None).
    { intros s. split; [intros [H _]; auto|]. intros H. split; auto. rewrite F2 by auto. intros t []. }
    destruct (C14_rm_final_epsilon_local L d) as (r & Er & _ & R & U); auto.
    { intros s t Ht _ _. destruct (fin_of d (ns t)) as [w|] eqn:Ew; cbn [fw].
      - rewrite (F3 _ _ Ew), (ktimes_1_l K L), (ktimes_1_r K L). auto.
      - rewrite (ktimes_0_l K L), (ktimes_0_r K L). auto. }
    { intros s t b Ht _ _ _. destruct (fin_of d s) eqn:Ew; auto. rewrite F2 in Ht by congruence. destruct Ht. }
    destruct (R s0 Es) as (E & HE & HR). clear R.
    destruct (rm_final_parts d s0 C CL Es) as (D & h & HD & E1 & Ef & Ch & Sh & T & F).
    pose proof Ef as (Fn & Fs & Fy1 & Fy2 & Fc).
    destruct (connect_eq h Ch (Fc C)) as (dd & g0 & E0 & Ed & S & Us & _).
    set (g1 := set_properties_with_mask g0 (mask [ACCESSIBLE; COACCESSIBLE]) (mask [ACCESSIBLE; COACCESSIBLE])) in *.
    assert (Eg : r = g1) by congruence.
    assert (Sg : is_submachine h dd r) by (rewrite Eg; exact S).
    assert (Snd : fsound d -> fsound r). { intros So. eapply (rm_final_epsilon_sound d r); eauto. congruence. }
    exists r, (survivors (num_states h) dd). split; auto. split; auto.
    assert (RM : forall t, In (ns t) D -> forall s, In t (trs_of d s) -> removable D t = true).
    { intros t Ht s Hs. unfold removable. destruct (F1 s t Hs) as [-> ->]; [apply DE, HD; auto|]. rewrite !andb_true_r. apply existsb_exists. exists (ns t). rewrite Nat.eqb_refl. auto. }
    assert (RS : forall s t, In t (trs_of d s) -> removable D t = seal d t).
    { intros s t Ht. unfold seal. destruct (fin_of d (ns t)) as [w|] eqn:Ew.
      - apply (RM t) with s; auto. apply HD, DE. congruence.
      - destruct (removable D t) eqn:Er'; auto. apply rem_E in Er'; auto. apply HD, DE in Er'. congruence. }
    split; [apply (sub_closed h dd); auto|]. split; [rewrite Eg; change (cnt g0); eapply del_states_cnt; [|exact Ed]; auto|].
    destruct Sg as (Nn & HS & _ & Y1 & Y2). split; [congruence|]. split; [congruence|]. split; [|split; [auto|split; [|split; [auto|]]]].
    - intros k x y. rewrite HR.
      assert (Z : forall n s x y, fin_of d s = None -> wtp (fun p => negb (ends E p)) (mach d) n s x y = 0).
      { induction n as [|n IH]; intros s x' y' Hs.
        - rewrite (wtp_O L). cbn [mach mfin]. rewrite Hs. cbn [fw]. destruct (_ && _); auto.
        - rewrite (wtp_S L). apply (ksum_map_zero L). intros t Ht. cbn [mach mtrs] in Ht.
          destruct (strip (il t) x') as [x2|]; auto. destruct (strip (ol t) y') as [y2|]; auto.
          destruct (fin_of d (ns t)) as [w|] eqn:Ew.
          + destruct (F1 s t Ht) as [Hi Ho]; [congruence|]. destruct n as [|n].
            * rewrite (wtp_O L). cbn [ends]. rewrite Hi, Ho. replace (E (ns t)) with true by (symmetry; apply HE, DE; congruence). cbn [Nat.eqb andb negb]. apply (ktimes_0_r K L).
            * rewrite (wtp_S L). cbn [mach mtrs]. rewrite F2 by congruence. cbn [map ksum]. apply (ktimes_0_r K L).
          + destruct n as [|n].
            * rewrite (wtp_O L). cbn [mach mfin]. rewrite Ew. cbn [fw]. destruct (_ && _); apply (ktimes_0_r K L).
            * rewrite (wtp_ext _ (fun p => negb (ends E p))); [rewrite IH by auto; apply (ktimes_0_r K L)|].
              intros p Hp. destruct p; [discriminate|]. auto. }
      rewrite Z, (kplus_0_l K L) by auto.
      pose proof (wtp_split L (ends E) (mach d) (Datatypes.S k) s0 x y) as SPL. rewrite Z, (kplus_0_r L) in SPL by auto. rewrite <- SPL.
      unfold rel. cbn [mach mstart]. rewrite Es. auto.
    - unfold survivors. apply NoDup_filter, seq_NoDup.
    - intros k q Hk. destruct (surv_iff h dd k q Us Hk) as [[Aq Cq] Hq]. rewrite Fn in Hq.
      destruct (HS k q Hk) as [_ HT].
      assert (Acc : accessible (mach d) q).
      { destruct Aq as (s1 & A1 & A2). exists s1. cbn [mach mstart] in *. split; [congruence|].
        clear - A2 T. induction A2 as [|? ? ? ? ? IH]; econstructor; eauto. cbn [mach mtrs] in *. rewrite T in *. eapply filter_In; eauto. }
      split; auto. split; [|split; auto].
      + destruct (fin_of d q) as [w|] eqn:Ew; auto. exfalso. destruct Aq as (s1 & A1 & A2). cbn [mach mstart] in A1.
        assert (Hs1 : s1 = s0) by congruence. subst s1. destruct (reach_inv_last _ _ _ A2) as [->|(x & t & Ht & <-)]; [congruence|].
        cbn [mach mtrs] in Ht. rewrite T in Ht. apply filter_In in Ht as [Ht Hn]. rewrite (RS x t Ht) in Hn. unfold seal in Hn. rewrite Ew in Hn. discriminate.
      + exists (fun t => negb (dead dd (ns t))). rewrite T in HT.
        rewrite (filter_ext_in (fun t => negb (seal d t)) (fun t => negb (removable D t))).
        * clear - HT. induction HT as [|t' t l' l H HT IH]; constructor; auto. tauto.
        * intros t Ht. rewrite (RS q t Ht). auto.
  Qed.
End F.
