(** Encoding, minimizing and decoding a weighted acceptor. *)
From Coq Require Import List Arith NArith Bool Lia.
From Verif Require Import Base.Util Base.Semiring Base.Machine Base.PathSum Base.PropSpec
  Model.Props Model.VectorFst Model.TrOps Model.Visitors Model.Rational Model.ShortestPath Model.BiMap Model.TrMap Model.Encode Model.Minimize
  Proofs.PropsFacts Proofs.VectorFacts Proofs.DelStates Proofs.VectorProps Proofs.TrOpsFacts Proofs.HistoryFacts
  Proofs.OpFacts Proofs.ConnectFacts Proofs.RationalFacts Proofs.ReverseDist Proofs.RmEpsFacts Proofs.TrMapFacts Proofs.MinFacts Proofs.SpellFacts Proofs.FinalEps Proofs.PeelSpell
  Props.C03 Props.C14 Props.C31 Props.C30 Props.C38 Props.C45.
Import ListNotations.
Local Open Scope K_scope.

Notation EW := EncodeWeightsAndLabels.

Section Enc.
  Context {K : SR} (L : lsr_laws K).
  Implicit Types (f g h : vfst K).

  (** No final state has an epsilon transition. *)
  Definition final_no_eps f : Prop := forall s t, fin_of f s <> None -> In t (trs_of f s) -> il t <> O.

  Lemma nodup_codes (T : @etable K) l l' : NoDup (id_to_tuple T) -> Forall2 (coded EW T) l l' -> NoDup (map il l) -> NoDup (map il l').
  Proof.
    intros NT F. induction F as [|t t' l l' H F IH]; intros N; cbn [map] in *; [constructor|]. inversion N as [|? ? X N']; subst. constructor; auto.
    intros Hin. apply in_map_iff in Hin as (u' & Eu & Hu). destruct (Forall2_In_r _ _ _ _ F Hu) as (u & Hu' & Cu). apply X.
    replace (il t) with (il u); [apply in_map; auto|]. apply (C30_codes EW T u u' t t' NT Cu H). auto.
  Qed.
  Lemma coded_ns (T : @etable K) t t' : coded EW T t t' -> ns t' = ns t.
  Proof. intros (i & _ & ->). auto. Qed.
  Lemma Forall2_In_l {A B} (R : A -> B -> Prop) l l' a : Forall2 R l l' -> In a l -> exists b, In b l' /\ R a b.
  Proof. induction 1; intros []; [subst; exists y; split; auto; left; auto|]. destruct IHForall2 as (b & ? & ?); auto. exists b. split; auto. right; auto. Qed.

  Lemma encode_extra f g (T : @etable K) : encode f EW = Ok (g, T) -> cnt f -> vstart f <> None ->
    visymt g = visymt f /\ vosymt g = vosymt f /\ forall b, has (vprops g) b = has (m_props (encode_mapper (K := K) EW) (vprops f)) b.
  Proof.
    intros E C V. unfold encode in E. pose proof (C31_tr_map (encode_mapper EW) f bm_new C V) as X. cbv zeta in X.
    change (m_action (encode_mapper (K := K) EW)) with MapRequireSuperfinal in X. cbn [is_no is_require is_allow andb orb] in X.
    destruct (mapl (TrMapFacts.visit (encode_mapper EW)) bm_new (content f)) as [[T1 out]| |]; [|exfalso; apply X; eexists; exact E..].
    destruct (m_fin (encode_mapper EW) T1 (FT O O 1)) as [[T2 t]| |]; [|exfalso; apply X; eexists; exact E..].
    destruct X as (g' & E' & _ & _ & X1 & X2 & _ & _ & _ & X3). assert (Q : Ok (g', T2) = Ok (g, T)) by (etransitivity; [symmetry; exact E'|exact E]). injection Q as -> _. auto.
  Qed.

  Lemma nodup_app {A} (l l' : list A) : NoDup l -> NoDup l' -> (forall x, In x l -> ~ In x l') -> NoDup (l ++ l').
  Proof.
    induction l as [|a l IH]; intros N N' H; cbn [app]; auto. inversion N as [|? ? X N0]; subst. constructor.
    - rewrite in_app_iff. intros [Z|Z]; auto. apply (H a); auto. left; auto.
    - apply IH; auto. intros x Hx. apply H. right; auto.
  Qed.
  Lemma nodup_sub (P : tr K -> bool) l : NoDup (map il l) -> NoDup (map il (filter P l)).
  Proof.
    induction l as [|t l IH]; intros N; cbn [filter]; auto. inversion N as [|? ? X N0]; subst. destruct (P t); cbn [map]; auto. constructor; auto.
    intros Z. apply X. apply in_map_iff in Z as (u & <- & Hu). apply filter_In in Hu. apply in_map, Hu.
  Qed.
  Lemma nodup_recode (D : tr K -> tr K) (Q : tr K -> bool) l : NoDup (map il l) ->
    (forall t t', In t l -> In t' l -> Q (D t) = true -> Q (D t') = true -> il (D t) = il (D t') -> il t = il t') -> NoDup (map il (filter Q (map D l))).
  Proof.
    induction l as [|t l IH]; intros N H; cbn [map filter]; [constructor|]. inversion N as [|? ? X N0]; subst.
    assert (IH' : NoDup (map il (filter Q (map D l)))) by (apply IH; auto; intros; apply H; auto; right; auto).
    destruct (Q (D t)) eqn:E; auto. cbn [map]. constructor; auto. intros Z. apply in_map_iff in Z as (u & Eu & Hu). apply filter_In in Hu as [Hu Q']. apply in_map_iff in Hu as (t' & <- & Ht').
    apply X. rewrite (H t t'); auto; [apply in_map; auto|left; auto|right; auto].
  Qed.
  (** Bits that only depend on the shape. *)
  Lemma shape_holds (m1 m2 : machine K) n b : mstart m2 = mstart m1 -> (forall s, map ns (mtrs m2 s) = map ns (mtrs m1 s)) -> (forall s, mfin m2 s = mfin m1 s) ->
    In b [CYCLIC; ACYCLIC; INITIAL_CYCLIC; INITIAL_ACYCLIC; TOP_SORTED; ACCESSIBLE; COACCESSIBLE; NOT_COACCESSIBLE; STRING] -> holds b n m1 -> holds b n m2.
  Proof.
    intros St T F.
    assert (G : forall (a b : machine K), (forall s, map ns (mtrs b s) = map ns (mtrs a s)) -> forall s t, In t (mtrs a s) -> exists t', In t' (mtrs b s) /\ ns t' = ns t).
    { intros a c H s t Ht. apply (in_map ns) in Ht. rewrite <- H in Ht. apply in_map_iff in Ht as (t' & A & B). eauto. }
    pose proof (G m1 m2 T) as G12. pose proof (G m2 m1 (fun s => eq_sym (T s))) as G21.
    assert (R : forall (a c : machine K), (forall s t, In t (mtrs a s) -> exists t', In t' (mtrs c s) /\ ns t' = ns t) -> forall x y, reach a x y -> reach c x y).
    { intros a c H x y. induction 1 as [|s t u Ht R IH]; [constructor|]. destruct (H s t Ht) as (t' & A & B). apply (reach_step c s t' u A). rewrite B. auto. }
    pose proof (R m1 m2 G12) as R12. pose proof (R m2 m1 G21) as R21.
    assert (O12 : forall s, on_cycle m1 s -> on_cycle m2 s) by (intros s (t & Ht & X); destruct (G12 s t Ht) as (t' & A & B); exists t'; split; auto; rewrite B; auto).
    assert (O21 : forall s, on_cycle m2 s -> on_cycle m1 s) by (intros s (t & Ht & X); destruct (G21 s t Ht) as (t' & A & B); exists t'; split; auto; rewrite B; auto).
    assert (C12 : forall s, coaccessible m1 s -> coaccessible m2 s) by (intros s (q & A & B); exists q; split; auto; rewrite F; auto).
    assert (C21 : forall s, coaccessible m2 s -> coaccessible m1 s) by (intros s (q & A & B); exists q; split; auto; rewrite <- F; auto).
    intros Hin So. cbn [In] in Hin. repeat destruct Hin as [<-|Hin]; cbn [holds] in *; try contradiction.
    - destruct So as (s & Hs). exists s. auto.
    - intros s Hs. apply (So s). auto.
    - destruct So as (s & A & Hs). exists s. split; [congruence|auto].
    - intros s A Hs. apply (So s); [congruence|auto].
    - intros s t Ht. destruct (G21 s t Ht) as (t' & A & <-). auto.
    - intros s Hs. destruct (So s Hs) as (a & A & X). exists a. split; [congruence|auto].
    - intros s Hs. auto.
    - destruct So as (s & Hs & X). exists s. split; auto.
    - destruct So as [So|[A X]]; [left; auto|right]. split; [congruence|]. intros s Hs. specialize (X s Hs). specialize (T s). specialize (F s). destruct (Nat.eqb (S s) n).
      + destruct X as [X1 X2]. rewrite X1 in T. destruct (mtrs m2 s); [|discriminate]. split; auto. congruence.
      + destruct X as [(t & X1 & X2) X3]. rewrite X1 in T. destruct (mtrs m2 s) as [|t' [|? ?]]; try discriminate. injection T as T. split; [exists t'; split; auto; congruence|congruence].
  Qed.
  Lemma finite_choice (P : nat -> nat -> Prop) n : (forall q, (q < n)%nat -> exists p, P q p) -> exists st, forall q, (q < n)%nat -> P q (st q).
  Proof.
    induction n as [|n IH]; intros H; [exists (fun q => q); intros q Hq; lia|]. destruct IH as (st & Hst); [intros q Hq; apply H; lia|].
    destruct (H n ltac:(lia)) as (p & Hp). exists (fun q => if Nat.eqb q n then p else st q). intros q Hq. destruct (Nat.eqb_spec q n) as [->|]; auto. apply Hst. lia.
  Qed.
  Record encoded g (s0 : nat) (e : vfst K) (T : @etable K) : Prop := Encoded {
    en_nodup : NoDup (id_to_tuple T); en_cnt : cnt e; en_closed : closed e; en_start : vstart e = Some s0;
    en_num : num_states e = S (num_states g); en_tabs : visymt e = visymt g /\ vosymt e = vosymt g;
    en_trs : forall s, (s < num_states g)%nat -> Forall2 (coded EW T) (C30.spelled EW g s) (trs_of e s);
    en_fin : forall s, s <> num_states g -> fin_of e s = None;
    en_top : trs_of e (num_states g) = [] /\ fin_of e (num_states g) = Some 1;
    en_plain : plain_acceptor (mach e); en_det : deterministic (mach e); en_sound : fsound e;
    en_acyclic : (forall s, ~ on_cycle (mach g) s) -> forall s, ~ on_cycle (mach e) s;
    en_reach : forall a b, reach (mach e) a b -> b <> num_states g -> reach (mach g) a b }.

  Lemma encode_parts g s0 : closed g -> cnt g -> vstart g = Some s0 -> fsound g -> is_acceptor (mach g) -> deterministic (mach g) -> final_no_eps g ->
    exists e T, encode g EW = Ok (e, T) /\ encoded g s0 e T.
  Proof.
    intros CL C Es So Ac D NE. destruct (C30_encode L EW g C ltac:(congruence)) as (e & T & E & NT & Ce & Ve & Ne & H1 & H2).
    destruct (encode_extra g e T E C ltac:(congruence)) as (Y1 & Y2 & B). exists e, T. split; auto.
    cbn [eweights] in *. specialize (H2 eq_refl) as [TN FN]. rewrite Nat.add_1_r in Ne. set (N := num_states g) in *.
    pose proof CL as [C1 C2]. assert (HsN : (s0 < N)%nat) by (apply C2; auto).
    assert (SP : forall s u, (s < N)%nat -> In u (C30.spelled EW g s) -> (In u (trs_of g s) /\ (ns u < N)%nat) \/ (exists w, fin_of g s = Some w /\ u = Tr O O w N)).
    { intros s u Hs Hu. unfold C30.spelled in Hu. cbn [eweights] in Hu. apply in_app_or in Hu as [Hu|Hu]; [left; split; auto; apply (C1 s u Hu)|].
      right. destruct (fin_of g s) as [w|]; [|destruct Hu]. destruct Hu as [<-|[]]. eauto. }
    assert (TT : forall s t', In t' (trs_of e s) -> (s < N)%nat /\ exists u, coded EW T u t' /\ In u (C30.spelled EW g s)).
    { intros s t' Ht. destruct (lt_dec s N) as [Hs|Hs].
      - split; auto. destruct (H1 s Hs) as [F _]. destruct (Forall2_In_r _ _ _ _ F Ht) as (u & Hu & Cu). eauto.
      - destruct (Nat.eq_dec s N) as [->|]; [rewrite TN in Ht; destruct Ht|]. rewrite trs_of_beyond in Ht by lia. destruct Ht. }
    assert (FE : forall s, s <> N -> fin_of e s = None).
    { intros s Hs. destruct (lt_dec s N); [apply H1; auto|]. apply fin_of_beyond. lia. }
    assert (E1 : forall s t', In t' (trs_of e s) -> (s < N)%nat /\ ((exists t, In t (trs_of g s) /\ ns t = ns t') /\ (ns t' < N)%nat \/ (ns t' = N /\ fin_of g s <> None))).
    { intros s t' Ht. destruct (TT s t' Ht) as (Hs & u & Cu & Hu). split; auto. rewrite (coded_ns T u t' Cu).
      destruct (SP s u Hs Hu) as [[A A']|(w & A & ->)]; [left; split; eauto|right; cbn [ns]; split; auto; congruence]. }
    assert (E2 : forall s t, In t (trs_of g s) -> exists t', In t' (trs_of e s) /\ ns t' = ns t).
    { intros s t Ht. assert (Hs : (s < N)%nat). { destruct (lt_dec s N); auto. rewrite trs_of_beyond in Ht by (fold N; lia). destruct Ht. }
      destruct (H1 s Hs) as [F _]. destruct (Forall2_In_l _ _ _ t F) as (t' & Ht' & Ct); [unfold C30.spelled; apply in_or_app; auto|].
      exists t'. split; auto. eapply coded_ns; eauto. }
    assert (E3 : forall s, fin_of g s <> None -> exists t', In t' (trs_of e s) /\ ns t' = N).
    { intros s Hf. assert (Hs : (s < N)%nat). { destruct (lt_dec s N); auto. exfalso. apply Hf. apply fin_of_beyond. fold N. lia. }
      destruct (fin_of g s) as [w|] eqn:Ew; [|congruence]. destruct (H1 s Hs) as [F _].
      destruct (Forall2_In_l _ _ _ (Tr O O w N) F) as (t' & Ht' & Ct); [unfold C30.spelled; cbn [eweights]; rewrite Ew; apply in_or_app; right; left; auto|].
      exists t'. split; auto. rewrite (coded_ns T _ _ Ct). auto. }
    assert (TOP : forall b, reach (mach e) N b -> b = N).
    { intros b R. inversion R as [|? t ? Ht]; subst; auto. cbn [mach mtrs] in Ht. rewrite TN in Ht. destruct Ht. }
    assert (R1 : forall a b, reach (mach g) a b -> reach (mach e) a b).
    { induction 1 as [|s t u Ht R IH]; [constructor|]. destruct (E2 s t Ht) as (t' & Ht' & En). apply (reach_step (mach e) s t' u Ht'). rewrite En. auto. }
    assert (R2 : forall a b, reach (mach e) a b -> b <> N -> reach (mach g) a b).
    { intros a b R. induction R as [|s t' u Ht R IH]; intros Hb; [constructor|]. destruct (E1 s t' Ht) as (_ & [[(t & Ht' & En) _]|[En _]]).
      - apply (reach_step (mach g) s t u Ht'). rewrite En. auto.
      - exfalso. apply Hb, TOP. rewrite <- En. auto. }
    assert (OC : forall s, on_cycle (mach e) s <-> on_cycle (mach g) s).
    { intros s. split; intros (t & Ht & R).
      - destruct (E1 s t Ht) as (Hs & [[(t' & Ht' & En) _]|[En _]]).
        + exists t'. split; auto. rewrite En. apply R2; auto. lia.
        + rewrite En in R. apply TOP in R. lia.
      - destruct (E2 s t Ht) as (t' & Ht' & En). exists t'. split; auto. rewrite En. auto. }
    assert (CO : forall s, (s < N)%nat -> coaccessible (mach e) s <-> coaccessible (mach g) s).
    { intros s Hs. split.
      - intros (q & R & F). cbn [mach mfin] in F. assert (q = N) by (destruct (Nat.eq_dec q N); auto; exfalso; apply F, FE; auto). subst q. clear F.
        remember N as M eqn:EM. revert EM Hs. induction R as [s|s t' q Ht R IH]; intros EM Hs; [lia|].
        subst q. destruct (E1 s t' Ht) as (_ & [[(t & Ht' & En) Hn]|[En Hf]]).
        + destruct IH as (q & Rq & Fq); auto. exists q. split; auto. apply (reach_step (mach g) s t q Ht'). rewrite En. auto.
        + exists s. split; [constructor|auto].
      - intros (q & R & F). destruct (E3 q F) as (t' & Ht' & En). exists N. split; [|cbn [mach mfin]; congruence].
        apply (reach_trans (mach e) s q N); auto. apply (reach_step (mach e) q t' N Ht'). rewrite En. constructor. }
    split; auto.
    - split; [intros s t' Ht; rewrite Ne; destruct (E1 s t' Ht) as (_ & [[_ ?]|[? _]]); lia|]. intros s Hs. rewrite Ne. rewrite Ve in Hs. apply C2 in Hs. fold N in Hs. lia.
    - congruence.
    - intros s Hs. apply H1; auto.
    - split.
      + intros s t' Ht. cbn [mach mtrs] in Ht. destruct (TT s t' Ht) as (_ & u & (i & _ & ->) & _). cbn. auto.
      + intros s w Hw. cbn [mach mfin] in Hw. destruct (Nat.eq_dec s N) as [->|Hs]; [congruence|rewrite FE in Hw by auto; discriminate].
    - intros s. cbn [mach mtrs]. destruct (lt_dec s N) as [Hs|Hs].
      + destruct (H1 s Hs) as [F _]. apply (nodup_codes T _ _ NT F). unfold C30.spelled. cbn [eweights]. rewrite map_app.
        destruct (fin_of g s) as [w|] eqn:Ew; cbn [map il]; [|rewrite app_nil_r; apply D].
        apply nodup_app; [apply D|repeat constructor; auto|]. intros x Hx [<-|[]]. apply in_map_iff in Hx as (t & Et & Ht).
        apply (NE s t); auto. congruence.
      + destruct (Nat.eq_dec s N) as [->|]; [rewrite TN; constructor|]. rewrite trs_of_beyond by lia. constructor.
    - intros b Hb. rewrite B in Hb. cbn [m_props encode_mapper elabels eweights] in Hb.
      assert (Hg : has (vprops g) b = true /\ In b [CYCLIC; ACYCLIC; INITIAL_CYCLIC; INITIAL_ACYCLIC; NOT_TOP_SORTED; NOT_ACCESSIBLE; COACCESSIBLE; NOT_COACCESSIBLE; NOT_STRING]).
      { rewrite !has_pkeep in Hb. repeat (apply andb_true_iff in Hb as [Hb ?]). split; auto.
        destruct b; cbn in *; try discriminate; tauto. }
      destruct Hg as [Hg Hin]. specialize (So b Hg). rewrite Ne. fold N in So.
      cbn [In] in Hin. repeat destruct Hin as [<-|Hin]; cbn [holds] in *; try contradiction.
      + destruct So as (s & Hs). exists s. apply OC; auto.
      + intros s Hs. apply (So s). apply OC; auto.
      + destruct So as (s & A & Hs). exists s. cbn [mach mstart] in *. split; [congruence|apply OC; auto].
      + intros s A Hs. apply (So s); [cbn [mach mstart] in *; congruence|apply OC; auto].
      + destruct So as (s & t & Ht & Hn). destruct (E2 s t Ht) as (t' & Ht' & En). exists s, t'. split; auto. lia.
      + destruct So as (s & Hs & Na). exists s. split; [lia|]. intros (a & A & R). apply Na. exists a. cbn [mach mstart] in *. split; [congruence|]. apply R2; auto. lia.
      + intros s Hs. destruct (Nat.eq_dec s N) as [->|]; [exists N; split; [constructor|cbn [mach mfin]; congruence]|]. apply CO; [lia|]. apply So. lia.
      + destruct So as (s & Hs & Na). exists s. split; [lia|]. rewrite CO by auto. auto.
      + intros [Hz|[A S]]; [lia|]. apply So. right. cbn [mach mstart mtrs mfin] in *. split; [congruence|]. intros s Hs.
        specialize (S s ltac:(lia)). replace (Datatypes.S s =? Datatypes.S N)%nat with false in S by (symmetry; apply Nat.eqb_neq; lia).
        destruct S as [(t' & ET & En) _]. destruct (H1 s Hs) as [F _]. rewrite ET in F. inversion F as [|u ? l ? Cu F' EL]; subst. inversion F'; subst.
        assert (Hu : In u (C30.spelled EW g s)) by (rewrite <- EL; left; auto). pose proof (coded_ns T u t' Cu) as Eu.
        destruct (SP s u Hs Hu) as [[Hg' Hn]|(w & Hf & ->)].
        * replace (Datatypes.S s =? N)%nat with false by (symmetry; apply Nat.eqb_neq; lia).
          unfold C30.spelled in EL. cbn [eweights] in EL. destruct (trs_of g s) as [|u0 l0]; [destruct Hg'|]. injection EL as <- EL.
          destruct l0; [|discriminate]. destruct (fin_of g s); [discriminate|]. split; auto. exists u. split; auto. lia.
        * cbn [ns] in Eu. replace (Datatypes.S s =? N)%nat with true by (symmetry; apply Nat.eqb_eq; lia).
          unfold C30.spelled in EL. cbn [eweights] in EL. rewrite Hf in EL. destruct (trs_of g s) as [|u0 l0]; [split; auto; congruence|].
          cbn [app] in EL. injection EL as _ EL. destruct l0; discriminate.
    - intros Hc s Hs. apply (Hc s). apply OC; auto.
  Qed.
End Enc.

Section Min.
  Context {K K' : SR} (L : lsr_laws K) (L' : psr_laws K') (rv : K -> K') (wlt : K -> K -> bool) (orc : nat -> nat).
  Context (W : tells_apart wlt) (H01 : (kone : K) <> kzero).
  Implicit Types (f g h e : vfst K).

  Definition encmin g (allow : bool) : res (vfst K) :=
    y <-- encode g EW ;; m <-- acceptor_minimize rv wlt orc (fst y) allow ;; decode m EW (snd y).

  (** Decoding a label. *)
  Definition dcA (T : @etable K) (l : nat) : nat := match dec T l with Ok (Some (i, _, _)) => i | _ => l end.
  Definition dcB (T : @etable K) (l : nat) : nat := match dec T l with Ok (Some (_, o, _)) => o | _ => l end.
  Definition dcC (T : @etable K) (l : nat) : K := match dec T l with Ok (Some (_, _, w)) => w | _ => 1 end.
  Lemma decoded_recode T (t : tr K) : ol t = il t -> wgt t = 1 -> decoded EW T t = recode (dcA T) (dcB T) (dcC T) t.
  Proof.
    intros H1 H2. unfold decoded, recode, dcA, dcB, dcC. cbn [elabels eweights].
    destruct (dec T (il t)) as [[[[i o] w]|]| |]; auto; destruct t; cbn in *; subst; auto.
  Qed.
  Lemma decoded_code T (u t' : tr K) : coded EW T u t' -> forall t, il t = il t' -> decoded EW T t = Tr (il u) (ol u) (wgt u) (ns t).
  Proof. intros (i & A & ->) t E. unfold decoded. rewrite E. cbn [il dec]. rewrite A. cbn. auto. Qed.
  Lemma decoded_ok T (u t' : tr K) : coded EW T u t' -> forall t, il t = il t' -> m_tr (decode_mapper EW T) tt t = Ok (tt, decoded EW T t).
  Proof. intros Cu t E. rewrite (decoded_code T u t' Cu t E). destruct Cu as (i & A & ->). cbn [m_tr decode_mapper]. rewrite E. cbn [il dec rbind]. rewrite A. cbn. auto. Qed.

  (** States of the minimal machine stand for states of the encoded one. *)
  Section Track.
    Variables (g e h : vfst K) (T : @etable K) (s0 s1 : nat).
    Hypothesis CLg : closed g.
    Hypothesis EN : encoded g s0 e T.
    Hypothesis M : minimal_of e h.
    Hypothesis S1 : vstart h = Some s1.
    Let N := num_states g.

    Definition stands q p : Prop := forall w, spell (mach h) q w = spell (mach e) p w.

    Lemma stands_start : stands s1 s0.
    Proof.
      intros w. destruct M as (_ & _ & _ & _ & _ & _ & Sp & _). specialize (Sp w). unfold spelled in Sp. cbn [mach mstart] in Sp.
      rewrite S1, (en_start _ _ _ _ EN) in Sp. auto.
    Qed.
    Lemma e_shape s t' : In t' (trs_of e s) -> (s < N)%nat /\ exists u, coded EW T u t' /\ In u (C30.spelled EW g s).
    Proof.
      intros Ht. unfold N. destruct (lt_dec s (num_states g)) as [Hs|Hs].
      - split; auto. pose proof (en_trs _ _ _ _ EN s Hs) as F. destruct (Forall2_In_r _ _ _ _ F Ht) as (u & Hu & Cu). eauto.
      - destruct (Nat.eq_dec s (num_states g)) as [->|]; [rewrite (proj1 (en_top _ _ _ _ EN)) in Ht; destruct Ht|].
        rewrite trs_of_beyond in Ht by (rewrite (en_num _ _ _ _ EN); lia). destruct Ht.
    Qed.
    Lemma g_shape s u : In u (C30.spelled EW g s) -> (In u (trs_of g s) /\ (ns u < N)%nat) \/ (exists w, fin_of g s = Some w /\ u = Tr O O w N).
    Proof.
      intros Hu. unfold C30.spelled in Hu. cbn [eweights] in Hu. apply in_app_or in Hu as [Hu|Hu]; [left; split; auto; apply (proj1 CLg s u Hu)|].
      right. destruct (fin_of g s) as [w|]; [|destruct Hu]. destruct Hu as [<-|[]]. eauto.
    Qed.
    Lemma stands_top q p : stands q p -> (p = N <-> fin_of h q <> None).
    Proof.
      intros H. specialize (H []). unfold N. cbn [spell mach mfin] in H. destruct M as (_ & _ & _ & [_ P] & _). split.
      - intros ->. rewrite (proj2 (en_top _ _ _ _ EN)) in H. destruct (fin_of h q); cbn [fw] in H; congruence.
      - intros Hq. destruct (Nat.eq_dec p (num_states g)) as [|Hp]; auto. rewrite (en_fin _ _ _ _ EN p Hp) in H. cbn [fw] in H.
        destruct (fin_of h q) as [w|] eqn:Ew; [|congruence]. cbn [fw] in H. specialize (P q w Ew). congruence.
    Qed.
    Lemma track q : (q < num_states h)%nat -> exists p, stands q p /\ reach (mach e) s0 p.
    Proof.
      intros Hq. destruct M as (_ & _ & D & P & _ & Tr & Sp & _). destruct (Tr q Hq) as [(s & A & R) Co]. cbn [mach mstart] in A. assert (s = s1) by congruence. subst s.
      destruct (reach_word L (mach h) s1 q D P R) as (u & Hu). destruct (spell_some L (mach h) q D P Co) as (v & Hv).
      destruct (run_plain L (mach e) (en_det _ _ _ _ EN) (en_plain _ _ _ _ EN) u v s0) as (p & Hp & Rp).
      { rewrite <- stands_start, Hu, Hv. auto. }
      exists p. split; auto. intros w. rewrite <- Hu, <- Hp. apply stands_start.
    Qed.
    (** A transition of [h] is a code that also leaves the state it stands for. *)
    Lemma track_edge q p t : stands q p -> (q < num_states h)%nat -> In t (trs_of h q) ->
      (p < N)%nat /\ exists u t', In u (C30.spelled EW g p) /\ In t' (trs_of e p) /\ coded EW T u t' /\ il t' = il t /\ stands (ns t) (ns u).
    Proof.
      intros H Hq Ht. destruct M as (Ch & _ & D & P & _ & Tr & Sp & _).
      destruct (Tr (ns t) (proj1 Ch q t Ht)) as [_ Co]. destruct (spell_some L (mach h) (ns t) D P Co) as (v & Hv).
      assert (St : forall w, spell (mach h) q (il t :: w) = spell (mach h) (ns t) w).
      { intros w. rewrite (spell_step L) by auto. rewrite (proj2 (proj1 P q t Ht)). apply (ktimes_1_l _ L). }
      destruct (label_dec (mach e) p (il t)) as [(t' & Ht' & E')|No].
      2: { exfalso. apply H01. rewrite <- Hv, <- St, H. apply (spell_none L); auto. }
      cbn [mach mtrs] in Ht'. destruct (e_shape p t' Ht') as (Hp & u & Cu & Hu). split; auto. exists u, t'. split; auto. split; auto. split; auto. split; auto.
      intros w. rewrite <- St, H, <- E', (spell_step L) by (auto; apply EN). rewrite (proj2 (proj1 (en_plain _ _ _ _ EN) p t' Ht')), (coded_ns T u t' Cu). apply (ktimes_1_l _ L).
    Qed.
  End Track.

  (** Every step of [r] is a step of [g]. *)
  Definition follows r g : Prop := exists R : nat -> nat -> Prop,
    (forall k, vstart r = Some k -> exists s, vstart g = Some s /\ R k s) /\
    forall k p, R k p -> (forall w, fin_of r k = Some w -> fin_of g p = Some w) /\
      forall t, In t (trs_of r k) -> exists u, In u (trs_of g p) /\ il u = il t /\ wgt u = wgt t /\ R (ns t) (ns u).

  (** What a caller gets. *)
  Record reduced g r : Prop := Reduced {
    rd_closed : closed r; rd_cnt : cnt r; rd_sound : fsound r; rd_det : deterministic (mach r); rd_acc : is_acceptor (mach r);
    rd_rel : forall k x y, rel (mach r) k x y = rel (mach g) k x y;
    rd_trim : forall s, (s < num_states r)%nat -> accessible (mach r) s /\ coaccessible (mach r) s;
    rd_tabs : visymt r = visymt g /\ vosymt r = vosymt g;
    rd_size : (num_states r <= num_states g)%nat;
    rd_spell : forall u, C38.spelled (mach r) u = C38.spelled (mach g) u;
    rd_follows : follows r g }.

  Theorem encmin_ok g s0 allow : closed g -> cnt g -> vstart g = Some s0 -> fsound g -> is_acceptor (mach g) -> deterministic (mach g) -> final_no_eps g ->
    exists r e T, encmin g allow = Ok r /\ reduced g r /\ encoded g s0 e T /\
      (* every state of the result stands for one of [g], different ones for different ones *)
      (allow = true -> (forall s, ~ on_cycle (mach g) s) -> exists st : nat -> nat,
        (forall q, (q < num_states r)%nat -> (st q < num_states g)%nat /\ reach (mach g) s0 (st q) /\ exists w, spell (mach e) (st q) w = 1) /\
        (forall q q', (q < num_states r)%nat -> (q' < num_states r)%nat -> q <> q' -> exists w, spell (mach e) (st q) w <> spell (mach e) (st q') w)).
  Proof.
    intros CL C Es So Ac D NE. destruct (encode_parts L g s0 CL C Es So Ac D NE) as (e & T & Ee & EN).
    destruct (acceptor_minimize_told L L' rv wlt orc W H01 e allow) as (h & Eh & M & Told); try (apply EN).
    { rewrite (en_start _ _ _ _ EN). discriminate. }
    unfold encmin. rewrite Ee. cbn [rbind fst snd]. rewrite Eh. cbn [rbind].
    pose proof M as (Ch & Nh & Dh & Ph & Sh & Th & Sph & Rh & Y1 & Y2 & Szh).
    set (N := num_states g) in *. pose proof CL as [C1 C2]. assert (HsN : (s0 < N)%nat) by (apply C2; auto).
    (* the encoded machine, decoded again *)
    destruct (decode_content EW g e T) as (de & Ede & Cde & Nde & Vde & X1 & X2 & X3 & X4).
    { cbn [eweights]. rewrite (en_num _ _ _ _ EN). lia. } { apply EN. } { rewrite (en_start _ _ _ _ EN). discriminate. }
    { intros s Hs. split; [apply (en_trs _ _ _ _ EN s Hs)|]. cbn [eweights]. apply EN. lia. }
    { intros _. apply EN. }
    cbn [eweights] in X1, X3. specialize (X3 eq_refl). fold N in X1, X2, X3.
    assert (RE : recoded (dcA T) (dcB T) (dcC T) (mach e) (mach de)).
    { split; intros s; cbn [mach mtrs mfin].
      - transitivity (map (decoded EW T) (trs_of e s)); [|apply map_ext_in; intros t Ht; apply decoded_recode; apply (proj1 (en_plain _ _ _ _ EN) s t Ht)].
        destruct (lt_dec s N) as [Hs|Hs].
        + rewrite (proj1 (X1 s Hs)). symmetry. apply Forall2_decode. apply (en_trs _ _ _ _ EN s Hs).
        + rewrite X2 by lia. destruct (trs_of e s) as [|t l] eqn:Et; auto. exfalso. destruct (e_shape g e T s0 EN s t) as [Hs' _]; [rewrite Et; left; auto|]. fold N in Hs'. lia.
      - destruct (Nat.eq_dec s N) as [->|Hs]; [rewrite X3; symmetry; apply EN|]. rewrite (en_fin _ _ _ _ EN s Hs).
        destruct (lt_dec s N); [apply X1; auto|]. apply X4. rewrite (en_num _ _ _ _ EN). fold N. lia. }
    assert (FD : forall s, s <> N -> fin_of de s = None).
    { intros s Hs. destruct RE as [_ RE]. specialize (RE s). cbn [mach mfin] in RE. rewrite RE. apply EN; auto. }
    assert (SE : sealed de s0).
    { split; auto.
      - split.
        + intros s t Ht. destruct (lt_dec s N) as [Hs|Hs]; [|rewrite X2 in Ht by lia; destruct Ht]. rewrite (proj1 (X1 s Hs)) in Ht.
          rewrite Nde, (en_num _ _ _ _ EN). fold N. destruct (g_shape g CL s t Ht) as [[_ Hn]|(w & _ & ->)]; [fold N in Hn; lia|cbn [ns]; fold N; lia].
        + intros s Hs. rewrite Vde, (en_start _ _ _ _ EN) in Hs. rewrite Nde, (en_num _ _ _ _ EN). fold N. injection Hs as <-. lia.
      - rewrite Vde. apply EN.
      - apply X1. auto.
      - intros s t Ht Hf. destruct (lt_dec s N) as [Hs|Hs]; [|rewrite X2 in Ht by lia; destruct Ht]. rewrite (proj1 (X1 s Hs)) in Ht.
        destruct (g_shape g CL s t Ht) as [[_ Hn]|(w & _ & ->)]; auto. exfalso. apply Hf, FD. fold N in Hn. lia.
      - intros s Hf. apply X2. destruct (Nat.eq_dec s N) as [->|Hs]; auto. exfalso. apply Hf, FD; auto.
      - intros s w Hw. destruct (Nat.eq_dec s N) as [->|Hs]; [congruence|]. rewrite FD in Hw by auto. discriminate. }
    assert (RG : forall k x y, rel (mach g) k x y = wt (mach de) (S k) s0 x y).
    { intros k x y. destruct (peel L de s0 SE) as (r' & sv & Er & _ & _ & _ & _ & _ & Rr & _).
      destruct (C30_weights_round_trip L EW g eq_refl C CL ltac:(congruence)) as (e' & T' & r2 & A1 & A2 & A3 & _).
      assert (Q : Ok (e', T') = Ok (e, T)) by congruence. injection Q as -> ->.
      unfold decode in A2. rewrite Ede in A2. cbn [rbind fst] in A2. assert (r2 = r') by congruence. subst r2.
      rewrite <- A3, Rr. unfold rel. cbn [mach mstart]. rewrite Vde, (en_start _ _ _ _ EN). auto. }
    assert (SG : forall u, spell (mach de) s0 (u ++ [O]) = C38.spelled (mach g) u).
    { intros u. unfold C38.spelled. cbn [mach mstart]. rewrite Es. apply (seal_spelled L g de N); auto. intros s Hs. apply X1. auto. }
    destruct (vstart h) as [s1|] eqn:S1.
    - pose proof (stands_start g e h T s0 s1 EN M S1) as ST0.
      destruct (C31_pure_mapper (decode_mapper EW T) (decoded EW T) (fun w => w) h Nh ltac:(congruence)) as (d & Ed & (M1 & M2 & M3 & M4 & M5 & M6) & Bd).
      { split; auto. split; auto. intros q t Ht.
        assert (Hq : (q < num_states h)%nat). { destruct (lt_dec q (num_states h)); auto. rewrite trs_of_beyond in Ht by lia. destruct Ht. }
        destruct (track g e h T s0 s1 EN M S1 q Hq) as (p & Hp & _). destruct (track_edge g e h T s0 EN M q p t Hp Hq Ht) as (_ & u & t' & _ & _ & Cu & Eu & _).
        apply (decoded_ok T u t' Cu). auto. }
      assert (RD : recoded (dcA T) (dcB T) (dcC T) (mach h) (mach d)).
      { split; intros s; cbn [mach mtrs mfin]; destruct (M6 s) as [A B].
        - rewrite A. apply map_ext_in. intros t Ht. apply decoded_recode; apply (proj1 Ph s t Ht).
        - rewrite B. destruct (fin_of h s); auto. }
      assert (FDh : forall q, fin_of d q = fin_of h q) by (intros q; apply (proj2 RD q)).
      assert (ED : forall q t, In t (trs_of d q) -> (q < num_states h)%nat /\ exists t0, In t0 (trs_of h q) /\ t = decoded EW T t0 /\ ns t = ns t0).
      { intros q t Ht. rewrite (proj1 (M6 q)) in Ht. apply in_map_iff in Ht as (t0 & <- & Ht0). split.
        - destruct (lt_dec q (num_states h)); auto. rewrite trs_of_beyond in Ht0 by lia. destruct Ht0.
        - exists t0. split; auto. split; auto. unfold decoded. destruct (dec T (il t0)) as [[[[? ?] ?]|]| |]; auto. }
      assert (SD : sealed d s1).
      { split; auto.
        - split; [intros q t Ht; destruct (ED q t Ht) as (_ & t0 & Ht0 & _ & ->); rewrite M2; apply (proj1 Ch q t0 Ht0)|].
          intros s Hs. rewrite M2. apply Ch. congruence.
        - congruence.
        - rewrite FDh. destruct (fin_of h s1) eqn:Ef; auto. exfalso. assert (X : s0 = N) by (apply (stands_top g e h T s0 EN M s1 s0 ST0); congruence). lia.
        - intros q t Ht Hf. destruct (ED q t Ht) as (Hq & t0 & Ht0 & -> & En).
          destruct (track g e h T s0 s1 EN M S1 q Hq) as (p & Hp & _). destruct (track_edge g e h T s0 EN M q p t0 Hp Hq Ht0) as (Hpn & u & t' & Hu & _ & Cu & Eu & St).
          rewrite (decoded_code T u t' Cu) by auto. cbn [il ol]. rewrite En, FDh in Hf. apply (stands_top g e h T s0 EN M _ _ St) in Hf.
          destruct (g_shape g CL p u Hu) as [[_ Hn]|(w & _ & ->)]; auto. lia.
        - intros q Hf. rewrite FDh in Hf. destruct (trs_of d q) as [|t l] eqn:Et; auto. exfalso.
          destruct (ED q t) as (Hq & t0 & Ht0 & _ & _); [rewrite Et; left; auto|].
          destruct (track g e h T s0 s1 EN M S1 q Hq) as (p & Hp & _). destruct (track_edge g e h T s0 EN M q p t0 Hp Hq Ht0) as (Hpn & _).
          apply (stands_top g e h T s0 EN M q p Hp) in Hf. lia.
        - intros q w Hw. rewrite FDh in Hw. apply (proj2 Ph q w Hw). }
      destruct (peel L d s1 SD) as (r & sv & Er & Sr & Cr & Nr & T1 & T2 & Rr & Tr' & NDv & Lv & Sv).
      exists r, e, T. unfold decode. rewrite Ed. cbn [rbind fst]. split; [exact Er|].
      assert (SVN : forall k, (k < num_states r)%nat -> exists q, nth_error sv k = Some q).
      { intros k Hk. destruct (nth_error sv k) eqn:X; eauto. apply nth_error_None in X. lia. }
      assert (LB : forall k, exists (q : nat) (l : list (tr K)), map il (trs_of r k) = map il l /\ map ol (trs_of r k) = map ol l /\ NoDup (map il l) /\ (forall t, In t l -> ol t = il t)).
      { intros k. destruct (lt_dec k (num_states r)) as [Hk|Hk].
        2: { exists O, []. rewrite trs_of_beyond by lia. repeat split; auto; [constructor|intros t []]. }
        destruct (SVN k Hk) as (q & Eq). destruct (Sv k q Eq) as (Hq & Fq & _ & P & F). rewrite M2 in Hq. rewrite FDh in Fq.
        destruct (track g e h T s0 s1 EN M S1 q Hq) as (p & Hp & _).
        exists q, (filter P (filter (fun t => negb (seal d t)) (trs_of d q))). split; [|split; [|split]].
        - clear - F. induction F as [|? ? ? ? H F IH]; cbn [map]; auto. f_equal; auto. apply H.
        - clear - F. induction F as [|? ? ? ? H F IH]; cbn [map]; auto. f_equal; auto. apply H.
        - apply nodup_sub. rewrite (proj1 (M6 q)). apply nodup_recode; [apply Dh|]. intros t t' Ht Ht' Q Q' El.
          destruct (track_edge g e h T s0 EN M q p t Hp Hq Ht) as (_ & u & c & Hu & _ & Cu & Eu & Su).
          destruct (track_edge g e h T s0 EN M q p t' Hp Hq Ht') as (_ & u' & c' & Hu' & _ & Cu' & Eu' & Su').
          rewrite (decoded_code T u c Cu t), (decoded_code T u' c' Cu' t') in * by auto. cbn [il] in El. unfold seal in Q, Q'. cbn [ns] in Q, Q'. rewrite FDh in Q, Q'.
          assert (Inn : forall x y, In x (C30.spelled EW g p) -> stands e h y (ns x) -> negb (match fin_of h y with Some _ => true | None => false end) = true -> In x (trs_of g p)).
          { intros x y Hx Sx Qx. destruct (g_shape g CL p x Hx) as [[? _]|(w & _ & ->)]; auto. exfalso. cbn [ns] in Sx.
            assert (X : fin_of h y <> None) by (apply (stands_top g e h T s0 EN M y N Sx); auto). destruct (fin_of h y); [discriminate|congruence]. }
          assert (u = u'); [|subst u'].
          { specialize (Inn u (ns t) Hu Su Q) as I1. specialize (Inn u' (ns t') Hu' Su' Q') as I2. specialize (D p). cbn [mach mtrs] in D.
            clear - D I1 I2 El. induction (trs_of g p) as [|v l IH]; [destruct I1|]. inversion D as [|? ? X D0]; subst.
            destruct I1 as [->|I1], I2 as [->|I2]; auto; exfalso; apply X; [rewrite El|rewrite <- El]; apply in_map; auto. }
          rewrite <- Eu, <- Eu'. apply (C30_codes EW T u c u c' (en_nodup _ _ _ _ EN) Cu Cu'). auto.
        - intros t Ht. apply filter_In in Ht as [Ht _]. apply filter_In in Ht as [Ht Q]. destruct (ED q t Ht) as (_ & t0 & Ht0 & -> & En).
          destruct (track_edge g e h T s0 EN M q p t0 Hp Hq Ht0) as (_ & u & c & Hu & _ & Cu & Eu & Su). rewrite (decoded_code T u c Cu t0) by auto. cbn [il ol].
          destruct (g_shape g CL p u Hu) as [[Hu' _]|(w & _ & ->)]; auto. apply (Ac p u Hu'). }
      split; [split; auto|split; [auto|]].
      + apply Sr. intros b Hb. rewrite Bd in Hb. rewrite M2. apply (shape_holds (mach h) (mach d)); cbn [mach mstart mtrs mfin].
        * congruence.
        * intros s. rewrite (proj1 (M6 s)), map_map. apply map_ext. intros t. unfold decoded. destruct (dec T (il t)) as [[[[? ?] ?]|]| |]; auto.
        * auto.
        * cbn [m_props decode_mapper elabels eweights] in Hb. rewrite !has_pkeep in Hb. repeat (apply andb_true_iff in Hb as [Hb ?]).
          clear - H H0 H1 H2 H3. destruct b; cbn in *; try discriminate; tauto.
        * apply Sh. cbn [m_props decode_mapper elabels eweights] in Hb. rewrite !has_pkeep in Hb. repeat (apply andb_true_iff in Hb as [Hb ?]). auto.
      + intros k. cbn [mach mtrs]. destruct (LB k) as (_ & l & -> & _ & ND & _). auto.
      + intros k t Ht. cbn [mach mtrs] in Ht. destruct (LB k) as (_ & l & E1 & E2 & _ & A). clear - Ht E1 E2 A.
        revert l E1 E2 A. induction (trs_of r k) as [|v l' IH]; [destruct Ht|]. intros [|x l] E1 E2 A; try discriminate. cbn [map] in E1, E2. injection E1 as E1 E1'. injection E2 as E2 E2'.
        destruct Ht as [->|Ht]; [rewrite E1, E2; apply A; left; auto|]. apply (IH Ht l); auto. intros t' Ht'. apply A. right; auto.
      + intros k x y. rewrite Rr, RG. unfold rel. cbn [mach mstart]. rewrite M3, S1.
        apply (recode_equiv L (dcA T) (dcB T) (dcC T) (mach h) (mach d) (mach e) (mach de)); auto; apply EN.
      + rewrite T1, T2, M4, M5, Y1, Y2. apply EN.
      + destruct (Th s1 (proj2 Ch s1 S1)) as [_ (z & Rz & Fz)]. cbn [mach mfin] in Fz.
        assert (X : (length (z :: sv) <= length (seq 0 (num_states h)))%nat).
        { apply NoDup_incl_length.
          - constructor; auto. intros Hz. apply In_nth_error in Hz as (k & Ek). destruct (Sv k z Ek) as (_ & Fq & _). rewrite FDh in Fq. auto.
          - intros q [<-|Hq]; apply in_seq.
            + split; [lia|]. apply Nat.nle_gt. intros Hz. apply Fz, fin_of_beyond. auto.
            + apply In_nth_error in Hq as (k & Ek). destruct (Sv k q Ek) as (Hq & _). rewrite M2 in Hq. lia. }
        rewrite seq_length in X. cbn [length] in X. rewrite Lv. rewrite (en_num _ _ _ _ EN) in Szh. fold N in Szh |- *. lia.
      + intros u. rewrite (peel_spelled L d s1 r SD Er), <- SG. unfold C38.spelled. cbn [mach mstart]. rewrite M3, S1.
        apply (recode_spell L (dcA T) (dcB T) (dcC T) (mach h) (mach d) (mach e) (mach de)); auto; apply EN.
      + destruct (peel_states L d s1 r SD Er) as (sw & St & Sw).
        exists (fun k p => exists q, nth_error sw k = Some q /\ (p < N)%nat /\ stands e h q p). split.
        { intros k Hk. rewrite Hk in St. exists s0. split; auto. exists s1. auto. }
        intros k p (q & Hq & Hp & Sq). destruct (Sw k q Hq) as (Hqd & Fq & Spq & Nz & Tq). rewrite M2 in Hqd. split.
        * intros w Hw. specialize (Spq []). cbn [spell mach mfin] in Spq. rewrite Hw in Spq. cbn [fw app] in Spq.
          rewrite (recode_spell L (dcA T) (dcB T) (dcC T) (mach h) (mach d) (mach e) (mach de) Dh Ph RD) with (s2 := p) in Spq; auto; try apply EN.
          change [O] with ([] ++ [O])%list in Spq. rewrite (seal_spelled L g de N) in Spq; auto; [|intros s Hs; apply X1; auto].
          cbn [spell mach mfin] in Spq. specialize (Nz w Hw). destruct (fin_of g p) as [w'|]; cbn [fw] in Spq; congruence.
        * intros t' Ht'. destruct (Tq t' Ht') as (t & Ht & I1 & _ & I3 & I4). destruct (ED q t Ht) as (_ & t0 & Ht0 & Et & En).
          destruct (track_edge g e h T s0 EN M q p t0 Sq Hqd Ht0) as (_ & u & c & Hu & _ & Cu & Eu & Su).
          destruct (Sw _ _ I4) as (_ & Fn & _). rewrite FDh, En in Fn.
          destruct (g_shape g CL p u Hu) as [[Hu' Hn]|(w & _ & ->)].
          2: { exfalso. cbn [ns] in Su. apply (stands_top g e h T s0 EN M (ns t0) N Su); auto. }
          exists u. split; auto. rewrite I1, I3, Et, (decoded_code T u c Cu) by auto. cbn [il wgt]. split; auto. split; auto.
          exists (ns t0). rewrite <- En. split; [exact I4|]. split; auto. rewrite En. exact Su.
      + intros -> Hc.
        destruct (finite_choice (fun k p => exists q, nth_error sv k = Some q /\ (q < num_states h)%nat /\ stands e h q p /\ (p < N)%nat /\ reach (mach g) s0 p) (num_states r)) as (st & Hst).
        { intros k Hk. destruct (SVN k Hk) as (q & Eq). destruct (Sv k q Eq) as (Hq & Fq & _). rewrite M2 in Hq. rewrite FDh in Fq.
          destruct (track g e h T s0 s1 EN M S1 q Hq) as (p & Hp & Rp). exists p, q. split; auto. split; auto. split; auto.
          assert (p <> N) by (intros X; apply (stands_top g e h T s0 EN M q p Hp) in X; congruence).
          assert (Hpe : (p < num_states e)%nat). { apply (reach_lt e s0 p); auto; [apply EN|]. rewrite (en_num _ _ _ _ EN). fold N. lia. }
          rewrite (en_num _ _ _ _ EN) in Hpe. fold N in Hpe. split; [lia|]. apply (en_reach _ _ _ _ EN); auto. }
        exists st. split.
        * intros q Hq. destruct (Hst q Hq) as (x & _ & Hx & Sx & Px & Rx). split; auto. split; auto.
          destruct (spell_some L (mach h) x Dh Ph (proj2 (Th x Hx))) as (w & Ew). exists w. rewrite <- Sx. auto.
        * intros q q' Hq Hq' Ne. destruct (Hst q Hq) as (x & Ex & Hx & Sx & _), (Hst q' Hq') as (x' & Ex' & Hx' & Sx' & _).
          destruct (Told ltac:(left; split; auto; apply EN; auto) x x' Hx Hx') as (w & Hw).
          { intros ->. apply Ne. apply (proj1 (NoDup_nth_error sv) NDv); [rewrite <- Lv; auto|congruence]. }
          exists w. rewrite <- Sx, <- Sx'. auto.
    - assert (Z : num_states h = O). { destruct (num_states h) eqn:X; auto. exfalso. destruct (Th O ltac:(lia)) as [(s & A & _) _]. cbn [mach mstart] in A. congruence. }
      assert (Er : decode h EW T = connect h).
      { unfold decode. rewrite (C31_no_start (decode_mapper EW T) h tt S1). cbn [rbind fst]. unfold rm_final_epsilon, Visitors.visit_scc. rewrite S1. cbn [rbind]. rewrite Z. reflexivity. }
      rewrite Er. destruct (connect_eq h Ch Nh) as (dd & g0 & E0 & Ed & S & Us & _). eexists. exists e, T. split; [exact E0|].
      assert (Z0 : num_states g0 = O). { destruct S as (S & _). rewrite S, Z. reflexivity. }
      assert (V0 : vstart g0 = None). { destruct S as (_ & _ & S & _). rewrite S1 in S. auto. }
      split; [split|split; [auto|]].
      + apply (sub_closed h dd g0); auto.
      + change (cnt g0). eapply del_states_cnt; [|exact Ed]. auto.
      + apply (connect_fsound L h); auto.
      + intros k. cbn [mach mtrs]. rewrite trs_of_beyond; [constructor|]. change (num_states (set_properties_with_mask _ _ _)) with (num_states g0). lia.
      + intros k t Ht. cbn [mach mtrs] in Ht. rewrite trs_of_beyond in Ht; [destruct Ht|]. change (num_states (set_properties_with_mask _ _ _)) with (num_states g0). lia.
      + intros k x y. rewrite RG. unfold rel at 1. cbn [mach mstart]. change (vstart (set_properties_with_mask _ _ _)) with (vstart g0). rewrite V0. symmetry.
        apply (recode_dead L (dcA T) (dcB T) (dcC T) (mach e) (mach de)); auto; try apply EN.
        intros u. specialize (Sph u). unfold spelled in Sph. cbn [mach mstart] in Sph. rewrite S1, (en_start _ _ _ _ EN) in Sph. auto.
      + intros s Hs. exfalso. change (num_states (set_properties_with_mask _ _ _)) with (num_states g0) in Hs. lia.
      + destruct S as (_ & _ & _ & S1' & S2'). destruct (en_tabs _ _ _ _ EN) as [A1 A2]. change (visymt g0 = visymt g /\ vosymt g0 = vosymt g). split; congruence.
      + change (num_states (set_properties_with_mask _ _ _)) with (num_states g0). lia.
      + intros u. rewrite <- SG. unfold C38.spelled at 1. cbn [mach mstart]. change (vstart (set_properties_with_mask _ _ _)) with (vstart g0). rewrite V0. symmetry.
        apply (recode_spell_dead L (dcA T) (dcB T) (dcC T) (mach e) (mach de)); auto; try apply EN.
        intros w. specialize (Sph w). unfold spelled in Sph. cbn [mach mstart] in Sph. rewrite S1, (en_start _ _ _ _ EN) in Sph. auto.
      + exists (fun _ _ => False). split; [|intros k p []]. intros k Hk. exfalso. change (vstart (set_properties_with_mask _ _ _)) with (vstart g0) in Hk. congruence.
      + intros _ _. exists (fun q => q). change (num_states (set_properties_with_mask _ _ _)) with (num_states g0). rewrite Z0. split; intros; lia.
  Qed.
End Min.
