(** The look-ahead filters over the alternate sequence filter, layer by layer. *)
From Coq Require Import List Arith NArith Bool Lia Sorted.
From Verif Require Import Base.Util Base.Semiring Base.Machine Model.Props Model.VectorFst Model.TrOps Model.Rational Model.Matchers
  Model.BiMap Model.Lazy Model.AlgoProps Model.Visitors Model.Compose Model.IntervalSet Model.Reachable Model.LabelReach Model.LookAhead.
From Verif Require Import Proofs.PropsFacts Proofs.VectorFacts Proofs.TrOpsFacts Proofs.HistoryFacts Proofs.OpFacts
  Proofs.BiMapFacts Proofs.LazyFacts Proofs.TableFacts Proofs.ComposeFacts Proofs.LookFacts Proofs.LookAlt Proofs.LookSpec.
From Verif Require Import Props.C06 Props.C20 Props.C34 Props.C50 Props.C51.
Import ListNotations.

Local Open Scope K_scope.
Section Stack.
  Context {K : SR} (L : lsr_laws K) (comm : commutative_times K).
  Context (f1 f2 : vfst K) (mt : mtype).
  Context (C1 : cnt f1) (C2 : cnt f2) (D1 : closed f1) (D2 : closed f2) (M : mt_ok mt f1 f2).
  Context (fl : laflags) (reach : lreach).
  Context (S2 : forall s, StronglySorted le (map il (trs_of f2 s))).
  Context (NE : fl_noneps fl = false).
  Context (RO : match reach with Some (d, b) => b = true /\ index_ok f1 d | None => True end).

  Notation BF := (base_cf AltSequenceF f1 f2).
  Notation B := (B f1 f2 mt).
  Notation fs1 := (fs1 f2).
  Notation stk s2 := (stuck ieps f2 s2).
  Notation ev fs s1 s2 := (env AltSequenceF f1 f2 fs s1 s2).
  Notation ef := (lla_flags fl reach).

  Definition F1 := look_cf true fl reach f1 f2 BF.

  (** What looking ahead from [(s1, s2)] returns. *)
  Definition look (s1 s2 : nat) : option (lamd K) :=
    match reach with
    | Some (d, _) => look_ans fl (filter (fun t => covb d s1 (il t)) (trs_of f2 s2)) (live_w (fin_of f2 s2) && rfin d s1) (fin_of f2 s2)
    | None => Some lamd_default
    end.
  Lemma look_eq s1 s2 : (s1 < num_states f1)%nat -> (s2 < num_states f2)%nat -> lookahead_fst fl reach s1 f2 s2 = Ok (look s1 s2).
  Proof.
    intros H1 H2. unfold look. destruct reach as [[d b]|]; auto. destruct RO as [-> RO']. destruct (proj1 RO' s1 H1) as (a & Ea & N1 & N2 & N3).
    eapply look_fst_eq; eauto.
  Qed.
  Lemma ef_noneps : fl_noneps ef = false.
  Proof. unfold lla_flags. destruct reach; auto. Qed.

  (** The data of an epsilon pair: [None] when it is dropped. *)
  Definition ahead (s1 s2 : nat) : option (option (lamd K)) :=
    if fl_eps ef then match look s1 s2 with Some m => Some (Some m) | None => None end else Some None.

  Lemma look_e1 fs s1 s2 (t1 : tr K) : (s2 < num_states f2)%nat -> (ns t1 < num_states f1)%nat -> ol t1 = O ->
    cf_filter F1 (ev fs s1 s2) (qtr_of t1) (QT NoLab (Lab O) kone s2) =
    Ok (if stk s2 then None
        else match ahead (ns t1) s2 with Some la => Some (fs1 s2, qtr_of t1, QT NoLab (Lab O) kone s2, la) | None => None end).
  Proof.
    intros H2 H1 E. unfold F1. cbn [look_cf cf_filter base_cf]. rewrite alt_e1 by auto. destruct (stk s2); auto. cbn [rbind].
    assert (X : is_eps (qol (qtr_of t1)) = true) by (cbn; rewrite E; auto). rewrite X. cbn [negb andb]. unfold ahead.
    destruct (fl_eps ef); auto. cbn [negb]. cbn [qtr_of qns]. rewrite look_eq by auto. cbn [rbind]. destruct (look (ns t1) s2); auto.
  Qed.
  Lemma look_e2 fs s1 s2 (t2 : tr K) :
    cf_filter F1 (ev fs s1 s2) (QT (Lab O) NoLab kone s1) (qtr_of t2) =
    Ok (if Nat.eqb fs 1 then None else Some (O, QT (Lab O) NoLab kone s1, qtr_of t2, None)).
  Proof.
    unfold F1. cbn [look_cf cf_filter base_cf]. rewrite alt_e2. destruct (fs =? 1); auto. cbn [rbind qol is_eps qlab_eqb negb andb]. rewrite ef_noneps. auto.
  Qed.
  Lemma look_b fs s1 s2 (t1 t2 : tr K) :
    cf_filter F1 (ev fs s1 s2) (qtr_of t1) (qtr_of t2) = Ok (if oeps t1 then None else Some (O, qtr_of t1, qtr_of t2, None)).
  Proof.
    unfold F1. cbn [look_cf cf_filter base_cf]. rewrite alt_b. unfold oeps. destruct (Nat.eqb_spec (ol t1) 0) as [|E]; auto. cbn [rbind].
    replace (is_eps (qol (qtr_of t1))) with false. 2:{ symmetry. apply Nat.eqb_neq. auto. } cbn [negb andb]. rewrite ef_noneps. auto.
  Qed.

  (** ** Nothing is lost *)
  Notation grp k s1 x z := (grp f1 f2 mt k s1 x z).
  Definition dead (s1 s2 : nat) : Prop := forall k x z, B k (fs1 s2, s1, s2) x z = 0.

  Lemma covb_true d s x : reach_label d s x = Ok true <-> covb d s x = true.
  Proof. unfold covb. destruct (reach_label d s x) as [[]| |]; split; congruence. Qed.

  Lemma grp_uncovered d k s1 x z (t2 : tr K) : index_ok f1 d -> covb d s1 (il t2) = false -> grp k s1 x z t2 = 0.
  Proof.
    intros I H. unfold LookAlt.grp. unfold ieps. destruct (Nat.eqb_spec (il t2) 0) as [|E]; auto. apply sp_zero. intros z'.
    rewrite (pend_zero L f1 f2 mt d I); auto; [apply (ktimes_0_r _ L)|]. rewrite covb_true. congruence.
  Qed.
  Lemma live_fw (w : option K) : live_w w = false -> fw w = 0.
  Proof. destruct w as [w|]; auto. cbn. destruct (keqb w 0) eqn:E; [|discriminate]. intros _. apply (keqb_spec _ L) in E. auto. Qed.
  Lemma grp_end d k s1 s2 x (z : list nat) : index_ok f1 d -> live_w (fin_of f2 s2) && rfin d s1 = false ->
    (if isnil z then fw (fin_of f2 s2) * endw f1 k s1 x else 0) = 0.
  Proof.
    intros I H. destruct (isnil z); auto. destruct (live_w (fin_of f2 s2)) eqn:El; [|rewrite live_fw by auto; apply (ktimes_0_l _ L)].
    cbn [andb] in H. rewrite (endw_zero L f1 d I); [apply (ktimes_0_r _ L)|]. unfold rfin in H. destruct (reach_final d s1) as [[]| |]; congruence.
  Qed.
  Lemma grp_filter d k s1 s2 x z : index_ok f1 d ->
    ksum (map (grp k s1 x z) (trs_of f2 s2)) = ksum (map (grp k s1 x z) (filter (fun t => covb d s1 (il t)) (trs_of f2 s2))).
  Proof.
    intros I. rewrite (ksum_filter L). apply ksum_map_ext. intros t2 _. destruct (covb d s1 (il t2)) eqn:E; auto. apply (grp_uncovered d); auto.
  Qed.

  Notation "'group!' k" := (group L comm f1 f2 mt C1 C2 D1 M k) (at level 0).

  Lemma look_none s1 s2 : (s1 < num_states f1)%nat -> (s2 < num_states f2)%nat -> stk s2 = false -> look s1 s2 = None -> dead s1 s2.
  Proof.
    intros H1 H2 Hs El k x z. unfold look in El. destruct reach as [[d b]|]; [|discriminate]. destruct RO as [-> I].
    rewrite (group! k) by auto. rewrite (grp_filter d) by auto. revert El.
    set (r := filter _ _). destruct (live_w (fin_of f2 s2) && rfin d s1) eqn:Rf; destruct r as [|t [|t' r']]; cbn [look_ans]; try discriminate.
    - destruct (fl_prefix fl && _); discriminate.
    - intros _. rewrite (grp_end d) by auto. cbn. apply (kplus_0_l _ L).
    - destruct (fl_prefix fl && _); discriminate.
  Qed.
  (** A single way on: the label can be written now. *)
  Lemma look_prefix s1 s2 m t : (s1 < num_states f1)%nat -> (s2 < num_states f2)%nat -> stk s2 = false ->
    look s1 s2 = Some m -> lm_prefix m = Some t ->
    lm_weight m = 1 /\ fl_prefix ef = true /\ il t <> O /\ In t (trs_of f2 s2) /\
    forall k x z, B k (fs1 s2, s1, s2) x z = sp (ol t) z (fun z' => wgt t * pend f1 f2 mt (il t) k s1 (ns t) x z').
  Proof.
    intros H1 H2 Hs El Ep. unfold look in El. unfold lla_flags. destruct reach as [[d b]|]; [|injection El as <-; discriminate]. destruct RO as [-> I].
    assert (X : let r := filter (fun t => covb d s1 (il t)) (trs_of f2 s2) in r = [t] /\ live_w (fin_of f2 s2) && rfin d s1 = false /\ m = LMD 1 (Some t) /\ fl_prefix fl = true).
    { revert El. cbv zeta. set (r := filter _ _). destruct r as [|t0 [|t1 r']]; cbn [look_ans].
      - destruct (_ && _); [|discriminate]. intros [= <-]. discriminate.
      - destruct (live_w (fin_of f2 s2) && rfin d s1); cbn [negb]; rewrite ?andb_false_r, ?andb_true_r.
        + intros [= <-]. discriminate.
        + destruct (fl_prefix fl); intros [= <-]; [|discriminate]. cbn in Ep. injection Ep as ->. auto.
      - intros [= <-]. discriminate. }
    destruct X as (Er & Rf & -> & Pf). split; auto. split; auto.
    assert (It : In t (filter (fun t => covb d s1 (il t)) (trs_of f2 s2))) by (rewrite Er; left; auto).
    apply filter_In in It as [It Ct].
    assert (Hn : il t <> O). { intros E. rewrite E in Ct. unfold covb, reach_label in Ct. discriminate. }
    split; auto. split; auto. intros k x z. rewrite (group! k) by auto. rewrite (grp_filter d) by auto. rewrite Er, (grp_end d) by auto.
    cbn [map ksum]. rewrite !(kplus_0_r L). unfold LookAlt.grp, ieps. destruct (Nat.eqb_spec (il t) 0); [contradiction|auto].
  Qed.
  (** The sum of the weights ahead being zero, nothing is ahead. *)
  Lemma look_zero (ZS : forall a b : K, a + b = 0 -> a = 0 /\ b = 0) s1 s2 m :
    (s1 < num_states f1)%nat -> (s2 < num_states f2)%nat -> stk s2 = false ->
    look s1 s2 = Some m -> fl_weight ef = true -> lm_weight m = 0 -> dead s1 s2.
  Proof.
    intros H1 H2 Hs El Fw Wz k x z.
    assert (Triv : (1 : K) = 0 -> B k (fs1 s2, s1, s2) x z = 0).
    { intros E. rewrite <- (ktimes_1_l _ L (B k _ x z)), E. apply (ktimes_0_l _ L). }
    unfold look in El. unfold lla_flags in Fw. destruct reach as [[d b]|]; [|injection El as <-; auto]. destruct RO as [-> I].
    assert (Kz : forall l : list K, ksum l = 0 -> forall a, In a l -> a = 0).
    { induction l as [|a l IH]; [contradiction|]. cbn [ksum]. intros E a' [<-|Ha]; apply ZS in E as [E1 E2]; auto. }
    revert El. set (r := filter _ _). intros El.
    assert (Gn : (1 : K) = 0 \/ (ksum (map wgt r) = 0 /\ (if live_w (fin_of f2 s2) && rfin d s1 then fw (fin_of f2 s2) else 0) = 0)).
    { destruct r as [|t [|t' r']]; cbn [look_ans] in El.
      - destruct (_ && _); [|discriminate]. injection El as <-. cbn [lm_weight] in Wz. rewrite Fw in Wz. auto.
      - destruct (fl_prefix fl && _); injection El as <-; cbn [lm_weight] in Wz; auto. unfold look_weight in Wz. rewrite Fw in Wz. right. apply ZS. auto.
      - injection El as <-; cbn [lm_weight] in Wz. unfold look_weight in Wz. rewrite Fw in Wz. right. apply ZS. auto. }
    destruct Gn as [E|[E1 E2]]; auto. rewrite (group! k) by auto. rewrite (grp_filter d) by auto. fold r.
    rewrite (ksum_map_zero L), (kplus_0_l _ L).
    - destruct (live_w (fin_of f2 s2) && rfin d s1) eqn:Rf; [|apply (grp_end d); auto]. rewrite E2. destruct (isnil z); auto. apply (ktimes_0_l _ L).
    - intros t Ht. unfold LookAlt.grp. destruct (ieps t); auto. apply sp_zero. intros z'.
      rewrite (Kz _ E1 (wgt t)) by (apply in_map; auto). apply (ktimes_0_l _ L).
  Qed.

  Lemma ahead_none s1 s2 : (s1 < num_states f1)%nat -> (s2 < num_states f2)%nat -> stk s2 = false -> ahead s1 s2 = None -> dead s1 s2.
  Proof. unfold ahead. destruct (fl_eps ef); [|discriminate]. intros H1 H2 Hs E. apply look_none; auto. destruct (look s1 s2); [discriminate|auto]. Qed.

  (** A sum over pairs, given what each kind contributes. *)
  Lemma step_by {FS E} (F : cflt K FS E) (fs : FS) s1 s2 e k x z u1 u2 u3 :
    gcompute_trs F mt f1 f2 (fs, s1, s2) = gouts F e (pairs mt f1 f2 s1 s2) ->
    (forall p, pair_kind f1 f2 s1 s2 p -> exists o, gout F e p = Ok o) ->
    (forall t1, In t1 (trs_of f1 s1) -> ol t1 = O -> gval f1 f2 F mt e k x z (qtr_of t1, QT NoLab (Lab O) kone s2) = u1 t1) ->
    (forall t2, In t2 (trs_of f2 s2) -> il t2 = O -> gval f1 f2 F mt e k x z (QT (Lab O) NoLab kone s1, qtr_of t2) = u2 t2) ->
    (forall t1 t2, In t1 (trs_of f1 s1) -> In t2 (trs_of f2 s2) -> ol t1 = il t2 -> gval f1 f2 F mt e k x z (qtr_of t1, qtr_of t2) = u3 t1 t2) ->
    G f1 f2 F mt (S k) (fs, s1, s2) x z =
    ksum (map (fun t1 => if oeps t1 then u1 t1 else 0) (trs_of f1 s1)) +
    (ksum (map (fun t2 => if ieps t2 then u2 t2 else 0) (trs_of f2 s2)) +
     ksum (map (fun t1 => ksum (map (fun t2 => if Nat.eqb (ol t1) (il t2) then u3 t1 t2 else 0) (trs_of f2 s2))) (trs_of f1 s1))).
  Proof.
    intros Et Ho U1 U2 U3. rewrite (G_step L f1 f2 F mt fs s1 s2 e) by auto. rewrite (pairs_sum L). unfold pair_sum3. f_equal; [|f_equal].
    - apply ksum_map_ext. intros t1 H. unfold oeps. destruct (Nat.eqb_spec (ol t1) 0); auto.
    - apply ksum_map_ext. intros t1 H. unfold ieps. destruct (Nat.eqb_spec (il t1) 0); auto.
    - apply ksum_map_ext. intros t1 H. apply ksum_map_ext. intros t2 H'. destruct (Nat.eqb_spec (ol t1) (il t2)); auto.
  Qed.

  (** ** Look-ahead *)
  Lemma F1_trs fs s1 s2 : (s1 < num_states f1)%nat -> (s2 < num_states f2)%nat ->
    gcompute_trs F1 mt f1 f2 (fs, s1, s2) = gouts F1 (ev fs s1 s2) (pairs mt f1 f2 s1 s2).
  Proof. intros H1 H2. apply gtrs_eq; auto. cbn. rewrite look2_eq by auto. auto. Qed.
  Lemma F1_out fs s1 s2 p : (s1 < num_states f1)%nat -> (s2 < num_states f2)%nat ->
    pair_kind f1 f2 s1 s2 p -> exists o, gout F1 (ev fs s1 s2) p = Ok o.
  Proof.
    intros H1 H2 [(t1 & Ht & E & ->)|[(t2 & _ & E & ->)|(t1 & t2 & _ & _ & E & ->)]]; unfold gout; cbn [fst snd].
    - rewrite look_e1 by (auto; apply (proj1 D1 s1); auto). cbn [rbind]. destruct (stk s2); eauto. destruct (ahead _ _); cbn; eauto.
    - rewrite look_e2. cbn [rbind]. destruct (_ =? _); cbn; eauto.
    - rewrite look_b. cbn [rbind]. destruct (oeps t1); cbn; eauto.
  Qed.

  Lemma F1_value k : forall fs s1 s2 x z, (s1 < num_states f1)%nat -> (s2 < num_states f2)%nat ->
    G f1 f2 F1 mt k (fs, s1, s2) x z = B k (fs, s1, s2) x z.
  Proof.
    induction k as [|k IH]; intros fs s1 s2 x z H1 H2; [reflexivity|].
    rewrite (B_S L f1 f2 mt C1 C2 M) by auto. unfold step3.
    apply (step_by F1 fs s1 s2 (ev fs s1 s2) k x z); [apply F1_trs; auto|intros; apply F1_out; auto|..].
    - intros t1 Ht E. assert (Hn : (ns t1 < num_states f1)%nat) by (apply (proj1 D1 s1); auto).
      unfold gval, gout. cbn [fst snd]. rewrite look_e1 by auto. cbn [rbind]. unfold v1. destruct (stk s2) eqn:Es; auto.
      destruct (ahead (ns t1) s2) eqn:Ea; cbn [rbind rmap gadd_tr proper qtr_of qil qol qw qns].
      + rewrite (gterm_1 L). apply sp_ext. intros x'. rewrite IH by auto. auto.
      + symmetry. apply sp_zero. intros x'. rewrite (ahead_none (ns t1) s2) by auto. apply (ktimes_0_r _ L).
    - intros t2 Ht E. assert (Hn : (ns t2 < num_states f2)%nat) by (apply (proj1 D2 s2); auto).
      unfold gval, gout. cbn [fst snd]. rewrite look_e2. cbn [rbind]. unfold v2. destruct (fs =? 1); auto.
      cbn [rbind rmap gadd_tr proper qtr_of qil qol qw qns]. unfold gterm, sp. cbn [ti to tw tn]. rewrite strip_0, (ktimes_1_l _ L).
      destruct (strip (ol t2) z); auto. rewrite IH by auto. auto.
    - intros t1 t2 Ht Ht2 E. assert (Hn : (ns t1 < num_states f1)%nat) by (apply (proj1 D1 s1); auto). assert (Hn2 : (ns t2 < num_states f2)%nat) by (apply (proj1 D2 s2); auto).
      unfold gval, gout. cbn [fst snd]. rewrite look_b. cbn [rbind]. unfold v3. destruct (oeps t1); auto.
      cbn [rbind rmap gadd_tr proper qtr_of qil qol qw qns]. unfold gterm, sp. cbn [ti to tw tn].
      destruct (strip (il t1) x); auto. destruct (strip (ol t2) z); auto. rewrite IH by auto. symmetry. apply (ktimes_assoc _ L).
  Qed.
End Stack.
