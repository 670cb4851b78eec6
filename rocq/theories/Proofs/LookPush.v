(** Weight pushing and label pushing on top of look-ahead. *)
From Coq Require Import List Arith NArith Bool Lia Sorted.
From Verif Require Import Base.Util Base.Semiring Base.Machine Model.Props Model.VectorFst Model.TrOps Model.Rational Model.Matchers
  Model.BiMap Model.Lazy Model.AlgoProps Model.Visitors Model.Compose Model.IntervalSet Model.Reachable Model.LabelReach Model.LookAhead.
From Verif Require Import Proofs.PropsFacts Proofs.VectorFacts Proofs.TrOpsFacts Proofs.HistoryFacts Proofs.OpFacts
  Proofs.BiMapFacts Proofs.LazyFacts Proofs.TableFacts Proofs.ComposeFacts Proofs.LookFacts Proofs.LookAlt Proofs.LookSpec Proofs.LookStack.
From Verif Require Import Props.C06 Props.C20 Props.C34 Props.C50 Props.C51.
Import ListNotations.

Local Open Scope K_scope.
Section Push.
  Context {K : SR} (L : lsr_laws K) (comm : commutative_times K).
  Context (f1 f2 : vfst K) (mt : mtype).
  Context (C1 : cnt f1) (C2 : cnt f2) (D1 : closed f1) (D2 : closed f2) (M : mt_ok mt f1 f2).
  Context (fl : laflags) (reach : lreach).
  Context (S2 : forall s, StronglySorted le (map il (trs_of f2 s))).
  Context (NE : fl_noneps fl = false).
  Context (RO : match reach with Some (d, b) => b = true /\ index_ok f1 d | None => True end).

  Notation B := (B f1 f2 mt).
  Notation fs1 := (fs1 f2).
  Notation stk s2 := (stuck ieps f2 s2).
  Notation ev fs s1 s2 := (env AltSequenceF f1 f2 fs s1 s2).
  Notation ef := (lla_flags fl reach).
  Notation F1 := (F1 f1 f2 fl reach).
  Notation look := (look f2 fl reach).
  Notation ahead := (ahead f2 fl reach).

  (** ** What look-ahead lets through *)
  Definition from_look (fs' : nat) (a1 a2 : qtr K) (m : lamd K) (p : qtr K * qtr K) (s2 : nat) : Prop :=
    exists t1, p = (qtr_of t1, QT NoLab (Lab O) kone s2) /\ a1 = qtr_of t1 /\ a2 = QT NoLab (Lab O) kone s2 /\ ol t1 = O /\
      fs' = fs1 s2 /\ stk s2 = false /\ look (ns t1) s2 = Some m.
  Definition passes (fs' : nat) (a1 a2 : qtr K) (la : option (lamd K)) (p : qtr K * qtr K) (s2 : nat) : Prop :=
    (exists i o, qil a1 = Lab i /\ qol a2 = Lab o) /\ (fs' < 3)%nat /\ (qns a1 < num_states f1)%nat /\ (qns a2 < num_states f2)%nat /\
    forall m, la = Some m -> from_look fs' a1 a2 m p s2.
  Lemma fs1_lt s2 : (fs1 s2 < 3)%nat.
  Proof. unfold LookAlt.fs1. destruct (none _ _ _); lia. Qed.
  Lemma F1_cases fs s1 s2 p : (s1 < num_states f1)%nat -> (s2 < num_states f2)%nat -> pair_kind f1 f2 s1 s2 p ->
    cf_filter F1 (ev fs s1 s2) (fst p) (snd p) = Ok None \/
    exists fs' a1 a2 la, cf_filter F1 (ev fs s1 s2) (fst p) (snd p) = Ok (Some (fs', a1, a2, la)) /\ passes fs' a1 a2 la p s2.
  Proof.
    intros H1 H2 [(t1 & Ht & E & ->)|[(t2 & Ht & E & ->)|(t1 & t2 & Ht1 & Ht2 & E & ->)]]; cbn [fst snd].
    - assert (Hn : (ns t1 < num_states f1)%nat) by (apply (proj1 D1 s1); auto).
      rewrite (look_e1 L f1 f2 fl reach S2 RO) by auto. destruct (stk s2) eqn:Es; auto. destruct (ahead (ns t1) s2) as [la|] eqn:Ea; auto.
      right. do 4 eexists. split; [reflexivity|]. split; [cbn; eauto|]. split; [apply fs1_lt|]. cbn [qtr_of qns]. split; auto. split; auto.
      intros m ->. exists t1. repeat split; auto. unfold LookStack.ahead in Ea. destruct (fl_eps ef); [|discriminate]. destruct (look (ns t1) s2); congruence.
    - rewrite (look_e2 f1 f2 fl reach NE RO). destruct (fs =? 1)%nat; auto. right. do 4 eexists. split; [reflexivity|].
      split; [cbn; eauto|]. split; [lia|]. cbn [qtr_of qns]. split; auto. split; [apply (proj1 D2 s2); auto|discriminate].
    - rewrite (look_b f1 f2 fl reach NE RO). destruct (oeps t1); auto. right. do 4 eexists. split; [reflexivity|].
      split; [cbn; eauto|]. split; [lia|]. cbn [qtr_of qns]. split; [apply (proj1 D1 s1); auto|]. split; [apply (proj1 D2 s2); auto|discriminate].
  Qed.

  (** The value of the plain pair. *)
  Definition bval (k : nat) (fs' : nat) (a1 a2 : qtr K) (x z : list nat) : K :=
    match qil a1, qol a2 with
    | Lab i, Lab o => sp i x (fun x' => sp o z (fun z' => qw a1 * qw a2 * B k (fs', qns a1, qns a2) x' z'))
    | _, _ => 0
    end.
  Lemma F1_gval fs s1 s2 k x z p : (s1 < num_states f1)%nat -> (s2 < num_states f2)%nat -> pair_kind f1 f2 s1 s2 p ->
    gval f1 f2 F1 mt (ev fs s1 s2) k x z p =
    match cf_filter F1 (ev fs s1 s2) (fst p) (snd p) with Ok (Some (fs', a1, a2, _)) => bval k fs' a1 a2 x z | _ => 0 end.
  Proof.
    intros H1 H2 Hp. destruct (F1_cases fs s1 s2 p H1 H2 Hp) as [E|(fs' & a1 & a2 & la & E & (i & o & Ei & Eo) & Hf & Hn1 & Hn2 & _)];
      unfold gval, gout; rewrite E; auto. cbn [rbind]. unfold gadd_tr, bval. rewrite Ei, Eo. cbn [rbind rmap proper].
    unfold gterm, sp. cbn [ti to tw tn]. destruct (strip i x); auto. destruct (strip o z); auto.
    f_equal. apply (F1_value L comm f1 f2 mt C1 C2 D1 D2 M fl reach S2 NE RO); auto.
  Qed.
  Lemma B_pairs k fs s1 s2 x z : (s1 < num_states f1)%nat -> (s2 < num_states f2)%nat ->
    B (S k) (fs, s1, s2) x z = ksum (map (gval f1 f2 F1 mt (ev fs s1 s2) k x z) (pairs mt f1 f2 s1 s2)).
  Proof.
    intros H1 H2. rewrite <- (F1_value L comm f1 f2 mt C1 C2 D1 D2 M fl reach S2 NE RO) by auto.
    apply (G_step L). apply F1_trs; auto. intros. eapply F1_out; eauto.
  Qed.

  (** ** Weight pushing *)
  Context (divide : K -> K -> res K).
  Context (ZS : forall a b : K, a + b = 0 -> a = 0 /\ b = 0) (N10 : (1 : K) <> 0).
  Context (DV : forall a w : K, w <> 0 -> exists q, divide a w = Ok q /\ w * q = a).

  Definition F2 := pushw_cf divide F1.
  Definition wt_ok (w : K) : Prop := w <> 0 /\ (fl_weight ef = false -> w = 1).
  (** The weights that may be pending. *)
  Definition wlist : list K :=
    1 :: flat_map (fun s1 => flat_map (fun s2 => match look s1 s2 with Some m => [lm_weight m] | None => [] end) (seq 0 (num_states f2))) (seq 0 (num_states f1)).
  Lemma one_ok : wt_ok 1.
  Proof. split; auto. Qed.
  Lemma wlist_look s1 s2 m : (s1 < num_states f1)%nat -> (s2 < num_states f2)%nat -> look s1 s2 = Some m -> In (lm_weight m) wlist.
  Proof.
    intros H1 H2 E. right. apply in_flat_map. exists s1. split; [apply in_seq; lia|]. apply in_flat_map. exists s2. split; [apply in_seq; lia|].
    rewrite E. left. auto.
  Qed.

  Definition pushed_w (w : K) (a2 : qtr K) (la : option (lamd K)) (lw q : K) : Prop :=
    w * q = qw a2 * lw /\ wt_ok lw /\ In lw wlist /\ (forall m, la = Some m -> lm_weight m = 1 -> lw = 1).
  Lemma F2_cases fs w s1 s2 p : (s1 < num_states f1)%nat -> (s2 < num_states f2)%nat -> wt_ok w -> pair_kind f1 f2 s1 s2 p ->
    (cf_filter F1 (ev fs s1 s2) (fst p) (snd p) = Ok None /\ cf_filter F2 (ev fs s1 s2, w) (fst p) (snd p) = Ok None) \/
    exists fs' a1 a2 la, cf_filter F1 (ev fs s1 s2) (fst p) (snd p) = Ok (Some (fs', a1, a2, la)) /\ passes fs' a1 a2 la p s2 /\
      ((exists lw q, cf_filter F2 (ev fs s1 s2, w) (fst p) (snd p) = Ok (Some (fs', lw, a1, QT (qil a2) (qol a2) q (qns a2), la)) /\ pushed_w w a2 la lw q) \/
       (cf_filter F2 (ev fs s1 s2, w) (fst p) (snd p) = Ok None /\ forall k x z, bval k fs' a1 a2 x z = 0)).
  Proof.
    intros H1 H2 [W0 W1] Hp. unfold F2. cbn [pushw_cf cf_filter fst snd].
    destruct (F1_cases fs s1 s2 p H1 H2 Hp) as [E|(fs' & a1 & a2 & la & E & P)]; rewrite E; cbn [rbind]; auto.
    right. exists fs', a1, a2, la. split; auto. split; auto. change (cf_flags F1) with ef. destruct (fl_weight ef) eqn:Fw; cbn [negb].
    - set (lw := match la with Some d => lm_weight d | None => 1 end). destruct (keqb lw 0) eqn:Ez.
      + right. split; auto. intros k x z. apply (keqb_spec _ L) in Ez. destruct la as [m|]; [|contradiction].
        destruct P as (_ & _ & Hn1 & Hn2 & P). destruct (P m eq_refl) as (t1 & -> & -> & -> & Ho & -> & Hs & Hl).
        unfold bval. cbn [qtr_of qil qol qw qns]. apply sp_zero. intros x'. apply sp_zero. intros z'.
        rewrite (look_zero L comm f1 f2 mt C1 C2 D1 M fl reach RO ZS _ _ m Hn1 Hn2) by auto. apply (ktimes_0_r _ L).
      + left. destruct (DV (qw a2 * lw) w W0) as (q & -> & Eq). exists lw, q. split; auto. split; auto.
        assert (lw <> 0) by (intros X; apply (keqb_spec _ L) in X; congruence).
        split; [split; [auto|congruence]|]. split; [|intros m ->; auto]. destruct la as [m|]; [|left; auto].
        destruct P as (_ & _ & Hn1 & Hn2 & P). destruct (P m eq_refl) as (t1 & -> & -> & -> & Ho & -> & Hs & Hl). apply (wlist_look (ns t1) s2); auto.
    - left. exists 1, (qw a2). destruct a2. split; auto. rewrite W1 by auto. split; [cbn; rewrite (ktimes_1_l _ L), (ktimes_1_r _ L); auto|].
      split; [apply one_ok|]. split; [left; auto|auto].
  Qed.

  Lemma push_term (w w1 w2 q lw g b : K) : w * q = w2 * lw -> lw * g = b -> w * (w1 * q * g) = w1 * w2 * b.
  Proof.
    intros Eq <-. rewrite <- (ktimes_assoc _ L w1), (mul_swap L comm w w1). rewrite (ktimes_assoc _ L w), Eq.
    rewrite <- !(ktimes_assoc _ L). auto.
  Qed.

  Lemma F2_set fs w s1 s2 : (s1 < num_states f1)%nat -> (s2 < num_states f2)%nat -> cf_set F2 s1 s2 (fs, w) = Ok (ev fs s1 s2, w).
  Proof. intros H1 H2. unfold F2. cbn [pushw_cf cf_set fst snd LookStack.F1 look_cf base_cf]. rewrite set_state_eq by auto. auto. Qed.
  Lemma F2_trs fs w s1 s2 : (s1 < num_states f1)%nat -> (s2 < num_states f2)%nat ->
    gcompute_trs F2 mt f1 f2 (fs, w, s1, s2) = gouts F2 (ev fs s1 s2, w) (pairs mt f1 f2 s1 s2).
  Proof. intros H1 H2. apply gtrs_eq; auto. apply F2_set; auto. Qed.

  Definition U2 (t : gtuple (nat * K)) : Prop :=
    let '(fs, w, s1, s2) := t in (fs < 3)%nat /\ wt_ok w /\ In w wlist /\ (s1 < num_states f1)%nat /\ (s2 < num_states f2)%nat.
  Lemma F2_out fs w s1 s2 p : (s1 < num_states f1)%nat -> (s2 < num_states f2)%nat -> wt_ok w -> pair_kind f1 f2 s1 s2 p ->
    exists o, gout F2 (ev fs s1 s2, w) p = Ok o /\ forall u, o = Some u -> U2 (tn u).
  Proof.
    intros H1 H2 W Hp. unfold gout. destruct (F2_cases fs w s1 s2 p H1 H2 W Hp) as [[_ ->]|(fs' & a1 & a2 & la & _ & P & Q)].
    - exists None. split; [auto|discriminate].
    - destruct P as ((i & o & Ei & Eo) & Hf & Hn1 & Hn2 & _). destruct Q as [(lw & q & -> & _ & Wl & Il & _)|(-> & _)].
      + cbn [rbind]. unfold gadd_tr. cbn [qol qns qw]. rewrite Ei, Eo. cbn [rbind rmap proper]. eexists. split; [reflexivity|].
        intros u [= <-]. cbn [tn]. repeat split; auto; apply Wl.
      + exists None. split; [auto|discriminate].
  Qed.

  Lemma push_final (w w1 w2 : K) : wt_ok w -> exists q, (if negb (fl_weight ef) || keqb w1 0 then Ok (w1, w2) else v <-- divide w1 w ;; Ok (v, w2)) = Ok (q, w2) /\
    w * q = w1.
  Proof.
    intros [W0 W1]. destruct (fl_weight ef); cbn [negb orb].
    - destruct (keqb w1 0) eqn:E.
      + apply (keqb_spec _ L) in E. subst. exists 0. split; auto. apply (ktimes_0_r _ L).
      + destruct (DV w1 w W0) as (q & -> & Eq). exists q. auto.
    - exists w1. split; auto. rewrite W1 by auto. apply (ktimes_1_l _ L).
  Qed.
  Lemma F2_final fs w s1 s2 : (s1 < num_states f1)%nat -> (s2 < num_states f2)%nat -> wt_ok w ->
    exists v, gcompute_final F2 f1 f2 (fs, w, s1, s2) = Ok v /\ w * fw v = fw (fin_of f1 s1) * fw (fin_of f2 s2).
  Proof.
    intros H1 H2 W. unfold gcompute_final. rewrite !final_in by auto. cbn [rbind].
    destruct (fin_of f1 s1) as [w1|]; cbn [fw]. 2:{ exists None. split; auto. cbn. rewrite (ktimes_0_r _ L), (ktimes_0_l _ L). auto. }
    destruct (fin_of f2 s2) as [w2|]; cbn [fw rbind]. 2:{ exists None. split; auto. cbn. rewrite !(ktimes_0_r _ L). auto. }
    rewrite F2_set by auto. cbn [rbind]. unfold F2. cbn [pushw_cf cf_final fst snd LookStack.F1 look_cf base_cf rbind cf_flags].
    destruct (push_final w w1 w2 W) as (q & Eq & Ew). rewrite Eq. cbn [rbind fst snd].
    eexists. split; [reflexivity|]. destruct (keqb (q * w2) 0) eqn:Ez; cbn [fw].
    - apply (keqb_spec _ L) in Ez. rewrite <- Ew, <- (ktimes_assoc _ L), Ez. auto.
    - rewrite (ktimes_assoc _ L), Ew. auto.
  Qed.

  Theorem F2_value k : forall fs w s1 s2 x z, (s1 < num_states f1)%nat -> (s2 < num_states f2)%nat -> wt_ok w ->
    w * G f1 f2 F2 mt k (fs, w, s1, s2) x z = B k (fs, s1, s2) x z.
  Proof.
    induction k as [|k IH]; intros fs w s1 s2 x z H1 H2 W.
    - unfold G. cbn [gwt]. rewrite (B_0 L f1 f2 mt C1 C2) by auto. destruct (isnil x && isnil z); [|apply (ktimes_0_r _ L)].
      unfold fin_at. destruct (F2_final fs w s1 s2 H1 H2 W) as (v & -> & E). auto.
    - rewrite B_pairs by auto. rewrite (G_step L f1 f2 F2 mt (fs, w) s1 s2 (ev fs s1 s2, w)).
      2:{ apply F2_trs; auto. }
      2:{ intros p Hp. destruct (F2_out fs w s1 s2 p H1 H2 W Hp) as (o & E & _). eauto. }
      rewrite (ksum_times_l L), map_map. apply ksum_map_ext. intros p Hp. apply pairs_kind in Hp. rewrite F1_gval by auto. unfold gval, gout.
      destruct (F2_cases fs w s1 s2 p H1 H2 W Hp) as [[-> ->]|(fs' & a1 & a2 & la & -> & P & Q)]; [apply (ktimes_0_r _ L)|].
      destruct P as ((i & o & Ei & Eo) & Hf & Hn1 & Hn2 & _). destruct Q as [(lw & q & -> & Eq & Wl & _)|(-> & Z)].
      + cbn [rbind]. unfold gadd_tr, bval. cbn [qol qns qw]. rewrite Ei, Eo. cbn [rbind rmap proper].
        unfold gterm, sp. cbn [ti to tw tn]. destruct (strip i x); [|apply (ktimes_0_r _ L)]. destruct (strip o z); [|apply (ktimes_0_r _ L)].
        eapply push_term; eauto.
      + rewrite Z. cbn. apply (ktimes_0_r _ L).
  Qed.

  (** ** Label pushing *)
  Definition F3 := pushl_cf true reach f1 f2 F2.
  Definition env3 (fs : nat) (w : K) (o : option nat) (s1 s2 : nat) : plenv (nat * K) (cenv * K) :=
    PE (ev fs s1 s2, w) (fs, w, o) (if fl_prefix ef then length (trs_of f1 s1) else O)
       (if fl_prefix ef then match o with Some l => [l] | None => [] end else []).
  Definition pl_ok (o : option nat) : Prop := match o with None => True | Some l => fl_prefix ef = true /\ l <> O end.
  Lemma F3_set fs w o s1 s2 : (s1 < num_states f1)%nat -> (s2 < num_states f2)%nat -> pl_ok o ->
    cf_set F3 s1 s2 (fs, w, o) = Ok (env3 fs w o s1 s2).
  Proof.
    intros H1 H2 P. unfold F3. cbn [pushl_cf cf_set fst snd]. rewrite F2_set by auto. cbn [rbind]. change (cf_flags F2) with ef. unfold env3.
    destruct (fl_prefix ef) eqn:Ep; cbn [negb].
    - rewrite num_trs_in by auto. cbn [rbind]. destruct o as [[|l]|]; auto. destruct P as [_ P]. congruence.
    - auto.
  Qed.

  (** The matchers. *)
  Definition smlist (f : vfst K) (m : mtype) (s : nat) (lab : qlab) : list (item K) :=
    (match lab with Lab O => [ILoop] | _ => [] end) ++
    map ITr (filter (fun t => Nat.eqb (side m t) (match lab with Lab l => l | NoLab => O end)) (trs_of f s)).
  Lemma filter_len {A} (g : A -> bool) l : (length (filter g l) <= length l)%nat.
  Proof. induction l as [|a l IH]; cbn; auto. destruct (g a); cbn; lia. Qed.
  Lemma smlist_len f m s lab : (length (smlist f m s lab) <= S (length (trs_of f s)))%nat.
  Proof.
    unfold smlist. rewrite app_length, map_length. match goal with |- context [filter ?g ?l] => pose proof (filter_len g l) end.
    destruct lab as [|[|l]]; cbn; lia.
  Qed.
  Section Me.
    Context (MM : nat -> qlab -> res (list (item K))) (n s : nat).
    Lemma me_nil lp li lab items : MM s lab = Ok items -> (length items < n)%nat -> me_items MM lp li [] n s lab = Ok items.
    Proof.
      intros E H. unfold me_items, me_new.
      destruct (me_drain_plain MM s false items n H) as (it & D). unfold me_drain in D.
      destruct lab as [|[|l]]; cbn [existsb]; rewrite ?andb_false_r.
      - destruct li; cbn [me_find rbind snd]; rewrite E; cbn [rbind]; rewrite D; auto.
      - rewrite E; cbn [rbind]; rewrite D; auto.
      - rewrite E; cbn [rbind]; rewrite D; auto.
    Qed.
    Lemma me_loop l lab items : MM s lab = Ok items -> (length items < n)%nat -> (1 < n)%nat -> l <> O ->
      me_items MM true false [l] n s lab = Ok (match lab with Lab x => if Nat.eqb x l then [ILoop] else items | NoLab => items end).
    Proof.
      intros E H H' Hl. unfold me_items, me_new.
      destruct (me_drain_plain MM s false items n H) as (it & D). unfold me_drain in D.
      destruct lab as [|[|x]]; cbn [existsb]; rewrite ?orb_false_r; cbn [andb].
      - rewrite E; cbn [rbind]; rewrite D; auto.
      - rewrite E; cbn [rbind]; rewrite D. destruct l; [congruence|]. auto.
      - destruct (Nat.eqb (S x) l).
        + destruct n as [|[|n']]; try lia. auto.
        + rewrite E; cbn [rbind]; rewrite D; auto.
    Qed.
    Lemma me_list l lab items a b : MM s (Lab l) = Ok a -> MM s NoLab = Ok b -> MM s lab = Ok items ->
      (length items < n)%nat -> (length a + length b < n)%nat ->
      me_items MM false true [l] n s lab = Ok (match lab with NoLab => a ++ b | _ => items end).
    Proof.
      intros Ea Eb E H H'. unfold me_items, me_new.
      destruct (me_drain_plain MM s false items n H) as (it & D). unfold me_drain in D.
      destruct lab as [|[|x]]; cbn [andb].
      - destruct a as [|i a].
        + rewrite (me_find_none MM s [l] O) by (intros y [<-|[]]; auto). cbn [rbind snd]. rewrite E. cbn [rbind]. rewrite D. cbn. congruence.
        + rewrite (me_find_one MM s [] l [] (i :: a) ltac:(intros y []) Ea ltac:(discriminate) O : me_find MM s [l] O = _). cbn [rbind fst snd].
          destruct (me_drain_last MM s [] l [] b false ltac:(intros y []) Eb (i :: a) n H') as (it' & D'). unfold me_drain in D'. cbn [app length] in D'.
          cbn [Nat.add length app]. rewrite D'. auto.
      - rewrite E; cbn [rbind]; rewrite D; auto.
      - rewrite E; cbn [rbind]; rewrite D; auto.
    Qed.
  End Me.
  Lemma side_out (f : vfst K) s : (forall s, StronglySorted le (map ol (trs_of f s))) -> StronglySorted le (map (side MOutput) (trs_of f s)).
  Proof. auto. Qed.
  Lemma sm1_eq s lab : mt <> MInput -> (s < num_states f1)%nat -> sm_items f1 MOutput s lab = Ok (smlist f1 MOutput s lab).
  Proof. intros N H. apply sm_items_eq; auto. apply (proj1 (proj2 M) N). Qed.
  Lemma sm2_eq s lab : mt <> MOutput -> (s < num_states f2)%nat -> sm_items f2 MInput s lab = Ok (smlist f2 MInput s lab).
  Proof. intros N H. apply sm_items_eq; auto. Qed.

  Lemma F3_trs_none fs w s1 s2 : (s1 < num_states f1)%nat -> (s2 < num_states f2)%nat ->
    gcompute_trs F3 mt f1 f2 (fs, w, None, s1, s2) = gouts F3 (env3 fs w None s1 s2) (pairs mt f1 f2 s1 s2).
  Proof.
    intros H1 H2. apply gtrs_eq; auto.
    - apply F3_set; auto. exact I.
    - intros N lab. unfold F3. cbn [pushl_cf cf_items1 env3 pe_me pe_in]. replace (if fl_prefix ef then [] else []) with (@nil nat) by (destruct (fl_prefix ef); auto).
      rewrite num_trs_in by auto. cbn [rbind]. change (cf_items1 F2 (ev fs s1 s2, w)) with (sm_items f1 MOutput). rewrite sm1_eq by auto.
      apply me_nil; [apply sm1_eq; auto|]. pose proof (smlist_len f1 MOutput s1 lab). lia.
    - intros N lab. unfold F3. cbn [pushl_cf cf_items2 env3 pe_me pe_in]. replace (if fl_prefix ef then [] else []) with (@nil nat) by (destruct (fl_prefix ef); auto).
      rewrite num_trs_in by auto. cbn [rbind]. change (cf_items2 F2 (ev fs s1 s2, w)) with (sm_items f2 MInput). rewrite sm2_eq by auto.
      apply me_nil; [apply sm2_eq; auto|]. pose proof (smlist_len f2 MInput s2 lab). lia.
  Qed.

  (** No label is pending. *)
  Definition plain_push (q : K) (a2 : qtr K) : qtr K := QT (qil a2) (qol a2) q (qns a2).
  Definition label_push (t1 t : tr K) (q : K) : qtr K * qtr K :=
    (QT (Lab (il t1)) (Lab (il t)) (wgt t1) (ns t1), QT (Lab (il t)) (Lab (ol t)) (q * wgt t) (ns t)).
  Lemma F3_cases fs w s1 s2 p : (s1 < num_states f1)%nat -> (s2 < num_states f2)%nat -> wt_ok w -> pair_kind f1 f2 s1 s2 p ->
    (cf_filter F1 (ev fs s1 s2) (fst p) (snd p) = Ok None /\ cf_filter F3 (env3 fs w None s1 s2) (fst p) (snd p) = Ok None) \/
    exists fs' a1 a2 la, cf_filter F1 (ev fs s1 s2) (fst p) (snd p) = Ok (Some (fs', a1, a2, la)) /\ passes fs' a1 a2 la p s2 /\
      ((exists lw q la', cf_filter F3 (env3 fs w None s1 s2) (fst p) (snd p) = Ok (Some (fs', lw, None, a1, plain_push q a2, la')) /\ pushed_w w a2 la lw q) \/
       (exists q t t1 m la', cf_filter F3 (env3 fs w None s1 s2) (fst p) (snd p) =
           Ok (Some (fs', 1, Some (il t), fst (label_push t1 t q), snd (label_push t1 t q), la')) /\ fl_prefix ef = true /\
           w * q = 1 /\ lm_prefix m = Some t /\ look (ns t1) s2 = Some m /\ a1 = qtr_of t1 /\ a2 = QT NoLab (Lab O) kone s2 /\ ol t1 = O /\
           fs' = fs1 s2 /\ stk s2 = false) \/
       (cf_filter F3 (env3 fs w None s1 s2) (fst p) (snd p) = Ok None /\ forall k x z, bval k fs' a1 a2 x z = 0)).
  Proof.
    intros H1 H2 W Hp. unfold F3. cbn [pushl_cf cf_filter env3 pe_fs pe_in]. change (cf_flags F2) with ef. cbn [snd fst].
    destruct (F2_cases fs w s1 s2 p H1 H2 W Hp) as [[E1 ->]|(fs' & a1 & a2 & la & E1 & P & Q)].
    - left. destruct (fl_prefix ef); auto.
    - right. exists fs', a1, a2, la. split; auto. split; auto. destruct Q as [(lw & q & -> & R)|(-> & Z)].
      + destruct (fl_prefix ef) eqn:Pf; cbn [negb rbind].
        * destruct la as [m|]; [|left; exists lw, q, None; auto].
          destruct P as (_ & _ & Hn1 & Hn2 & P). destruct (P m eq_refl) as (t1 & -> & -> & -> & Ho & -> & Hs & Hl).
          unfold push_label_filter. cbn [qol qtr_of is_eps qlab_eqb negb]. rewrite Ho. cbn [Nat.eqb negb andb].
          destruct (lm_prefix m) as [t|] eqn:Ept; [|left; exists lw, q, (Some m); split; auto].
          right. left. cbn [qtr_of qns] in Hn1, Hn2.
          destruct (look_prefix L comm f1 f2 mt C1 C2 D1 M fl reach RO (ns t1) s2 m t Hn1 Hn2 Hs Hl Ept) as (Wm & _).
          destruct R as (Rq & _ & _ & R1). assert (lw = 1) by (apply (R1 m); auto). subst lw. cbn [qw] in Rq. rewrite (ktimes_1_l _ L) in Rq.
          exists q, t, t1, m, (Some m). split; [reflexivity|]. repeat split; auto.
        * left. exists lw, q, la. auto.
      + right. right. split; auto. destruct (fl_prefix ef); auto.
  Qed.

  (** A label is pending. *)
  Lemma label_known s l : fl_prefix ef = true -> (s < num_states f1)%nat -> l <> O -> exists b, lookahead_label reach s l = Ok b /\
    (b = false -> forall k s2 x z, pend f1 f2 mt l k s s2 x z = 0).
  Proof.
    intros Pf H Hl. unfold lookahead_label. destruct (Nat.eqb_spec l 0); [contradiction|]. unfold lla_flags in Pf.
    destruct reach as [[d b]|]; [|discriminate]. destruct RO as [_ I]. destruct (proj1 I s H) as (a & Ea & _).
    unfold reach_label at 1. destruct (Nat.eqb_spec l 0); [contradiction|]. unfold interval_set. rewrite Ea. cbn [rbind]. eexists. split; [reflexivity|].
    intros E k s2 x z. apply (pend_zero L f1 f2 mt d I); auto. unfold reach_label, interval_set. destruct (Nat.eqb_spec l 0); [contradiction|]. rewrite Ea. cbn. congruence.
  Qed.
  Definition lp2 (s2 : nat) : qtr K := QT NoLab (Lab O) kone s2.
  Lemma pushed_drop fs w l s1 s2 a1 a2 x : fl_prefix ef = true -> qil a2 = Lab x -> gout F3 (env3 fs w (Some l) s1 s2) (a1, a2) = Ok None.
  Proof.
    intros Pf E. unfold gout, F3. cbn [pushl_cf cf_filter fst snd env3 pe_fs]. change (cf_flags F2) with ef. rewrite Pf. cbn [negb].
    unfold pushed_label_filter. rewrite E. auto.
  Qed.
  Lemma pushed_keep fs w l s1 s2 (t1 : tr K) : fl_prefix ef = true -> l <> O -> (s1 < num_states f1)%nat -> In t1 (trs_of f1 s1) ->
    exists b, (b = false -> forall k x z, pend f1 f2 mt l k (ns t1) s2 x z = 0) /\
    gout F3 (env3 fs w (Some l) s1 s2) (qtr_of t1, lp2 s2) =
    Ok (if Nat.eqb (ol t1) l then Some (TT (il t1) O (wgt t1 * 1) (O, 1, None, ns t1, s2))
        else if oeps t1 then if b then Some (TT (il t1) O (wgt t1 * 1) (fs, w, Some l, ns t1, s2)) else None else None).
  Proof.
    intros Pf Hl H1 Ht. assert (Hn : (ns t1 < num_states f1)%nat) by (apply (proj1 D1 s1); auto).
    destruct (label_known (ns t1) l Pf Hn Hl) as (b & Eb & Zb).
    assert (X : exists b', (b' = false -> forall k x z, pend f1 f2 mt l k (ns t1) s2 x z = 0) /\
      (if Nat.eqb (length (trs_of f1 s1)) 1 then Ok true else lookahead_label reach (ns t1) l) = Ok b').
    { destruct (_ =? _)%nat; [exists true; split; [discriminate|auto]|exists b; auto]. }
    destruct X as (b' & Zb' & Eb'). exists b'. split; auto.
    unfold gout, F3. cbn [pushl_cf cf_filter fst snd env3 pe_fs]. change (cf_flags F2) with ef. rewrite Pf. cbn [negb].
    unfold pushed_label_filter. cbn [lp2 qil is_nolab qlab_eqb negb qtr_of qol set_laba qns qw]. cbn [pe_ntrsa pe_fs fst snd]. unfold oeps.
    destruct (Nat.eqb_spec (ol t1) l) as [E|E].
    - cbn [rbind]. unfold gadd_tr. reflexivity.
    - destruct (Nat.eqb_spec (ol t1) 0) as [E0|E0].
      + unfold is_eps. rewrite E0. cbn [qlab_eqb Nat.eqb]. unfold env3. cbn [pe_ntrsa pe_fs fst snd]. rewrite Pf, Eb'. cbn [rbind]. destruct b'; auto.
      + unfold is_eps. cbn [qlab_eqb]. destruct (Nat.eqb_spec (ol t1) 0); [contradiction|]. auto.
  Qed.

  (** The pairs tried. *)
  Definition ppairs (l s1 s2 : nat) : list (qtr K * qtr K) :=
    if mi_of mt f1 f2 s1 s2 then
      flat_map (fun t : qtr K => map (fun x : item K => mkp t true (item_tr s2 true x))
        (match qol t with Lab x => if Nat.eqb x l then [ILoop] else smlist f2 MInput s2 (qol t) | NoLab => smlist f2 MInput s2 NoLab end : list (item K)))
        (QT (Lab O) NoLab kone s1 :: map qtr_of (trs_of f1 s1))
    else
      flat_map (fun t : qtr K => map (fun x : item K => mkp t false (item_tr s1 false x))
        (match qil t with NoLab => smlist f1 MOutput s1 (Lab l) ++ smlist f1 MOutput s1 NoLab | _ => smlist f1 MOutput s1 (qil t) end))
        (lp2 s2 :: map qtr_of (trs_of f2 s2)).
  Lemma gexpand_gen {FS E} (F : cflt K FS E) e sa sb (mi : bool) (its : qtr K -> list (item K)) : (sb < num_states (if mi then f1 else f2))%nat ->
    (forall t, (if mi then cf_items2 F e sa (qol t) else cf_items1 F e sa (qil t)) = Ok (its t)) ->
    gexpand F f1 f2 e sa sb mi = gouts F e (flat_map (fun t : qtr K => map (fun x : item K => mkp t mi (item_tr sa mi x)) (its t))
      ((if mi then QT (Lab O) NoLab kone sb else QT NoLab (Lab O) kone sb) :: map qtr_of (trs_of (if mi then f1 else f2) sb))).
  Proof.
    intros H I. unfold gexpand. rewrite get_trs_in by auto. cbn [rbind]. generalize ((if mi then QT (Lab O) NoLab kone sb else QT NoLab (Lab O) kone sb) :: map qtr_of (trs_of (if mi then f1 else f2) sb)).
    induction l as [|t l IH]; auto. cbn [gmatch_trs flat_map]. rewrite gouts_app, IH. unfold gmatch_tr.
    replace (if mi then cf_items2 F e sa (if mi then qol t else qil t) else cf_items1 F e sa (if mi then qol t else qil t)) with (Ok (its t)) by (rewrite <- I; destruct mi; auto).
    cbn [rbind]. rewrite gselected_eq. auto.
  Qed.
  Lemma F3_trs_some fs w l s1 s2 : (s1 < num_states f1)%nat -> (s2 < num_states f2)%nat -> fl_prefix ef = true -> l <> O ->
    gcompute_trs F3 mt f1 f2 (fs, w, Some l, s1, s2) = gouts F3 (env3 fs w (Some l) s1 s2) (ppairs l s1 s2).
  Proof.
    intros H1 H2 Pf Hl. unfold gcompute_trs. rewrite F3_set by (auto; split; auto). cbn [rbind].
    assert (Em : match_input mt f1 f2 s1 s2 = Ok (mi_of mt f1 f2 s1 s2) /\ (mi_of mt f1 f2 s1 s2 = true -> mt <> MOutput) /\ (mi_of mt f1 f2 s1 s2 = false -> mt <> MInput)).
    { unfold match_input. rewrite !num_trs_in by auto. cbn [rbind]. unfold mi_of. destruct M as ([->|[->| ->]] & _); repeat split; auto; discriminate. }
    destruct Em as (-> & N1 & N2). cbn [rbind]. unfold ppairs. destruct (mi_of mt f1 f2 s1 s2).
    - rewrite (gexpand_gen F3 _ s2 s1 true (fun t => match qol t with Lab x => if Nat.eqb x l then [ILoop] else smlist f2 MInput s2 (qol t) | NoLab => smlist f2 MInput s2 NoLab end)); auto.
      intros t. unfold F3. cbn [pushl_cf cf_items2 env3 pe_me pe_in]. rewrite Pf, num_trs_in by auto. cbn [rbind].
      change (cf_items2 F2 (ev fs s1 s2, w)) with (sm_items f2 MInput). cbn [negb].
      rewrite (me_loop _ _ _ l (qol t) (smlist f2 MInput s2 (qol t))); [destruct (qol t); auto|apply sm2_eq; auto| | |auto].
      + pose proof (smlist_len f2 MInput s2 (qol t)). lia.
      + lia.
    - rewrite (gexpand_gen F3 _ s1 s2 false (fun t => match qil t with NoLab => smlist f1 MOutput s1 (Lab l) ++ smlist f1 MOutput s1 NoLab | _ => smlist f1 MOutput s1 (qil t) end)); auto.
      intros t. unfold F3. cbn [pushl_cf cf_items1 env3 pe_me pe_in]. rewrite Pf, num_trs_in by auto. cbn [rbind].
      change (cf_items1 F2 (ev fs s1 s2, w)) with (sm_items f1 MOutput). cbn [negb].
      rewrite (me_list _ _ _ l (qil t) (smlist f1 MOutput s1 (qil t)) (smlist f1 MOutput s1 (Lab l)) (smlist f1 MOutput s1 NoLab)); auto using sm1_eq.
      + pose proof (smlist_len f1 MOutput s1 (qil t)). lia.
      + pose proof (smlist_len f1 MOutput s1 (Lab l)). pose proof (smlist_len f1 MOutput s1 NoLab). lia.
  Qed.
  Lemma smlist_item f m s lab it : In it (smlist f m s lab) ->
    (it = ILoop /\ lab = Lab O) \/ (exists t, it = ITr t /\ In t (trs_of f s) /\ side m t = match lab with Lab l => l | NoLab => O end).
  Proof.
    unfold smlist. intros H. apply in_app_or in H as [H|H].
    - destruct lab as [|[|l]]; try contradiction. destruct H as [<-|[]]. auto.
    - apply in_map_iff in H as (t & <- & H). apply filter_In in H as [H E]. apply Nat.eqb_eq in E. eauto.
  Qed.
  Lemma ppairs_kind l s1 s2 p : l <> O -> In p (ppairs l s1 s2) ->
    (exists t1, In t1 (trs_of f1 s1) /\ p = (qtr_of t1, lp2 s2)) \/ (exists a1 t2, p = (a1, qtr_of t2)).
  Proof.
    intros Hl. unfold ppairs. destruct (mi_of mt f1 f2 s1 s2); intros H; apply in_flat_map in H as (t & Ht & H); apply in_map_iff in H as (it & <- & H); cbn [mkp].
    - destruct Ht as [<-|Ht].
      + cbn [qol] in H. apply smlist_item in H as [[_ H]|(t2 & -> & _)]; [discriminate|]. cbn. eauto.
      + apply in_map_iff in Ht as (t1 & <- & Ht). destruct it as [t2|]; cbn; eauto.
    - destruct Ht as [<-|Ht].
      + cbn [qil lp2] in H. apply in_app_or in H as [H|H]; apply smlist_item in H as [[-> H]|(t1 & -> & Ht & _)]; try discriminate.
        * congruence.
        * cbn. eauto.
        * cbn. eauto.
      + apply in_map_iff in Ht as (t2 & <- & Ht). destruct it; cbn; eauto.
  Qed.

  Lemma pushed_out fs w l s1 s2 p : (s1 < num_states f1)%nat -> (s2 < num_states f2)%nat -> fl_prefix ef = true -> l <> O ->
    In p (ppairs l s1 s2) -> exists o, gout F3 (env3 fs w (Some l) s1 s2) p = Ok o /\
      forall u, o = Some u -> exists t1, In t1 (trs_of f1 s1) /\ (tn u = (O, 1, None, ns t1, s2) \/ tn u = (fs, w, Some l, ns t1, s2)).
  Proof.
    intros H1 H2 Pf Hl Hp. destruct (ppairs_kind l s1 s2 p Hl Hp) as [(t1 & Ht & ->)|(a1 & t2 & ->)].
    - destruct (pushed_keep fs w l s1 s2 t1 Pf Hl H1 Ht) as (b & _ & ->). eexists. split; [reflexivity|].
      intros u. destruct (_ =? _)%nat; [intros [= <-]; eauto|]. destruct (oeps t1); [|discriminate]. destruct b; [|discriminate]. intros [= <-]; eauto.
    - rewrite (pushed_drop fs w l s1 s2 a1 (qtr_of t2) (il t2) Pf eq_refl). eexists. split; [reflexivity|discriminate].
  Qed.
  Lemma pushed_sum l s1 s2 (h : qtr K * qtr K -> K) (P : tr K -> K) : l <> O ->
    (forall a1 t2, h (a1, qtr_of t2) = 0) ->
    (forall t1, In t1 (trs_of f1 s1) -> h (qtr_of t1, lp2 s2) = P t1) ->
    (forall t1, In t1 (trs_of f1 s1) -> ol t1 <> l -> ol t1 <> O -> P t1 = 0) ->
    ksum (map h (ppairs l s1 s2)) = ksum (map P (trs_of f1 s1)).
  Proof.
    intros Hl H0 HP PZ. unfold ppairs. destruct (mi_of mt f1 f2 s1 s2).
    - rewrite (ksum_fm L). cbn [map ksum qol].
      assert (Sm : forall a1 lab, lab <> Lab O -> ksum (map h (map (fun x => mkp a1 true (item_tr s2 true x)) (smlist f2 MInput s2 lab))) = 0).
      { intros a1 lab Hlab. rewrite map_map. apply (ksum_map_zero L). intros it Hit.
        apply smlist_item in Hit as [[_ E]|(t2 & -> & _)]; [congruence|]. cbn. auto. }
      rewrite Sm, (kplus_0_l _ L) by discriminate.
      rewrite map_map. apply ksum_map_ext. intros t1 Ht. cbn [qol qtr_of]. destruct (Nat.eqb_spec (ol t1) l) as [E|E].
      + cbn [map ksum mkp item_tr]. rewrite (kplus_0_r L). apply HP. auto.
      + destruct (Nat.eq_dec (ol t1) O) as [E0|E0].
        * unfold smlist. rewrite E0. cbn [app map ksum mkp item_tr]. fold (lp2 s2). rewrite (HP t1 Ht).
          rewrite !map_map, (ksum_map_zero L), (kplus_0_r L); auto. intros t2 _. apply H0.
        * rewrite Sm by congruence. symmetry. apply PZ; auto.
    - rewrite (ksum_fm L). cbn [map ksum qil lp2].
      match goal with |- _ + ?b = _ => assert (b = 0) as -> end; [|rewrite (kplus_0_r L)].
      { apply (ksum_map_zero L). intros t Ht. apply in_map_iff in Ht as (t2 & <- & _). rewrite map_map. apply (ksum_map_zero L). intros it _. cbn [mkp]. auto. }
      rewrite map_app, map_app, (ksum_app L). unfold smlist. destruct l as [|l]; [congruence|]. cbn [app side].
      rewrite !map_map. cbn [mkp item_tr]. fold (lp2 s2).
      rewrite !(ksum_filter L). rewrite <- (ksum_map_plus L). apply ksum_map_ext. intros t1 Ht.
      destruct (Nat.eqb_spec (ol t1) (S l)) as [E|E].
      + destruct (Nat.eqb_spec (ol t1) 0) as [E0|E0]; [congruence|]. rewrite (kplus_0_r L). apply HP. auto.
      + rewrite (kplus_0_l _ L). destruct (Nat.eqb_spec (ol t1) 0) as [E0|E0]; [apply HP; auto|]. symmetry. apply PZ; auto.
  Qed.

  Lemma F3_final_some fs w l s1 s2 : (s1 < num_states f1)%nat -> (s2 < num_states f2)%nat -> wt_ok w -> pl_ok (Some l) ->
    gcompute_final F3 f1 f2 (fs, w, Some l, s1, s2) = Ok None.
  Proof.
    intros H1 H2 W P. unfold gcompute_final. rewrite !final_in by auto. cbn [rbind].
    destruct (fin_of f1 s1) as [w1|]; auto. destruct (fin_of f2 s2) as [w2|]; auto. cbn [rbind].
    rewrite F3_set by auto. cbn [rbind]. unfold F3, F2. cbn [pushl_cf pushw_cf cf_final fst snd LookStack.F1 look_cf base_cf rbind cf_flags env3 pe_in pe_fs].
    destruct (push_final w w1 w2 W) as (q & Eq & Ew). rewrite Eq. cbn [rbind fst snd]. destruct P as [-> _]. cbn [negb orb].
    destruct (keqb q 0) eqn:Ez.
    - apply (keqb_spec _ L) in Ez. subst q. cbn [rbind fst snd]. rewrite (ktimes_0_l _ L). replace (keqb 0 0) with true by (symmetry; apply (keqb_spec _ L); auto). auto.
    - cbn [rbind fst snd]. rewrite (ktimes_0_l _ L). replace (keqb 0 0) with true by (symmetry; apply (keqb_spec _ L); auto). auto.
  Qed.
  Lemma F3_final_none fs w s1 s2 : (s1 < num_states f1)%nat -> (s2 < num_states f2)%nat -> wt_ok w ->
    exists v, gcompute_final F3 f1 f2 (fs, w, None, s1, s2) = Ok v /\ w * fw v = fw (fin_of f1 s1) * fw (fin_of f2 s2).
  Proof.
    intros H1 H2 W. destruct (F2_final fs w s1 s2 H1 H2 W) as (v & E & Ev). exists v. split; auto. rewrite <- E. unfold gcompute_final.
    rewrite !final_in by auto. cbn [rbind].
    destruct (fin_of f1 s1) as [w1|]; auto. destruct (fin_of f2 s2) as [w2|]; auto. cbn [rbind].
    rewrite F3_set, F2_set by (auto; exact I). cbn [rbind]. unfold F3. cbn [pushl_cf cf_final env3 pe_in pe_fs snd].
    destruct (cf_final F2 _ w1 w2) as [r| |]; auto. cbn [rbind]. destruct (_ || _); auto.
  Qed.

  Theorem F3_value k : 
    (forall fs w s1 s2 x z, (s1 < num_states f1)%nat -> (s2 < num_states f2)%nat -> wt_ok w ->
       w * G f1 f2 F3 mt k (fs, w, None, s1, s2) x z = B k (fs, s1, s2) x z) /\
    (forall fs w l s1 s2 x z, (s1 < num_states f1)%nat -> (s2 < num_states f2)%nat -> wt_ok w -> pl_ok (Some l) ->
       G f1 f2 F3 mt k (fs, w, Some l, s1, s2) x z = pend f1 f2 mt l k s1 s2 x z).
  Proof.
    induction k as [|k [IH1 IH2]]; split.
    - intros fs w s1 s2 x z H1 H2 W. unfold G. cbn [gwt]. rewrite (B_0 L f1 f2 mt C1 C2) by auto. destruct (isnil x && isnil z); [|apply (ktimes_0_r _ L)].
      unfold fin_at. destruct (F3_final_none fs w s1 s2 H1 H2 W) as (v & -> & E). auto.
    - intros fs w l s1 s2 x z H1 H2 W P. unfold G. cbn [gwt pend]. unfold fin_at. rewrite F3_final_some by auto. destruct (_ && _); auto.
    - intros fs w s1 s2 x z H1 H2 W. rewrite B_pairs by auto. rewrite (G_step L f1 f2 F3 mt (fs, w, None) s1 s2 (env3 fs w None s1 s2)).
      2:{ apply F3_trs_none; auto. }
      2:{ intros p Hp. unfold gout. destruct (F3_cases fs w s1 s2 p H1 H2 W Hp) as [[_ ->]|(fs' & a1 & a2 & la & _ & P & Q)]; [cbn; eauto|].
          destruct P as ((i & o & Ei & Eo) & Hf & Hn1 & Hn2 & _).
          destruct Q as [(lw & q & la' & -> & _)|[(q & t & t1 & m & la' & -> & _)|(-> & _)]]; cbn; eauto.
          unfold gadd_tr. cbn [plain_push qol]. rewrite Ei, Eo. cbn. eauto. }
      rewrite (ksum_times_l L), map_map. apply ksum_map_ext. intros p Hp. apply pairs_kind in Hp. rewrite F1_gval by auto. unfold gval, gout.
      destruct (F3_cases fs w s1 s2 p H1 H2 W Hp) as [[-> ->]|(fs' & a1 & a2 & la & -> & P & Q)]; [apply (ktimes_0_r _ L)|].
      destruct P as ((i & o & Ei & Eo) & Hf & Hn1 & Hn2 & _).
      destruct Q as [(lw & q & la' & -> & Eq & Wl & _)|[(q & t & t1 & m & la' & -> & Pf & Eq & Ep & El & -> & -> & Ho & -> & Hs)|(-> & Z)]].
      + cbn [rbind]. unfold gadd_tr, bval. cbn [plain_push qol qns qw]. rewrite Ei, Eo. cbn [rbind rmap proper].
        unfold gterm, sp. cbn [ti to tw tn]. destruct (strip i x); [|apply (ktimes_0_r _ L)]. destruct (strip o z); [|apply (ktimes_0_r _ L)].
        eapply push_term; eauto.
      + cbn [qtr_of qns] in Hn1, Hn2.
        destruct (look_prefix L comm f1 f2 mt C1 C2 D1 M fl reach RO (ns t1) s2 m t Hn1 Hn2 Hs El Ep) as (_ & _ & Hlt & Hin & HB).
        assert (Hn3 : (ns t < num_states f2)%nat) by (apply (proj1 D2 s2); auto).
        cbn [label_push fst snd rbind gadd_tr qil qol proper rmap qw qns]. unfold bval, gterm. cbn [ti to tw tn qtr_of qil qol qw qns].
        unfold sp at 1. destruct (strip (il t1) x) as [x'|]; [|apply (ktimes_0_r _ L)]. rewrite sp_0, HB. unfold sp. destruct (strip (ol t) z) as [z'|]; [|rewrite !(ktimes_0_r _ L); auto].
        rewrite IH2 by (auto; try apply one_ok; split; auto). rewrite (ktimes_1_r _ L).
        set (g := pend f1 f2 mt (il t) k (ns t1) (ns t) x' z').
        rewrite <- !(ktimes_assoc _ L). rewrite (mul_swap L comm w). rewrite (ktimes_assoc _ L w q), Eq, (ktimes_1_l _ L). auto.
      + rewrite Z. cbn. apply (ktimes_0_r _ L).
    - intros fs w l s1 s2 x z H1 H2 W [Pf Hl].
      rewrite (G_list L f1 f2 F3 mt _ (env3 fs w (Some l) s1 s2) (ppairs l s1 s2)).
      2:{ apply F3_trs_some; auto. }
      2:{ intros p Hp. destruct (pushed_out fs w l s1 s2 p H1 H2 Pf Hl Hp) as (o & E & _). eauto. }
      cbn [pend]. apply pushed_sum; auto.
      + intros a1 t2. unfold gval. rewrite (pushed_drop fs w l s1 s2 a1 (qtr_of t2) (il t2) Pf eq_refl). auto.
      + intros t1 Ht. assert (Hn : (ns t1 < num_states f1)%nat) by (apply (proj1 D1 s1); auto). unfold gval.
        destruct (pushed_keep fs w l s1 s2 t1 Pf Hl H1 Ht) as (b & Zb & ->).
        destruct (Nat.eqb_spec (ol t1) l) as [E|E].
        * unfold gterm. cbn [ti to tw tn]. unfold sp. rewrite strip_0. destruct (strip (il t1) x); auto. rewrite (ktimes_1_r _ L). f_equal.
          rewrite <- (ktimes_1_l _ L (G _ _ _ _ _ _ _ _)). apply IH1; auto. apply one_ok.
        * unfold oeps. destruct (Nat.eqb_spec (ol t1) 0) as [E0|E0]; [|symmetry; apply sp_zero; intros; apply (ktimes_0_r _ L)].
          destruct b.
          -- unfold gterm. cbn [ti to tw tn]. unfold sp. rewrite strip_0. destruct (strip (il t1) x); auto. rewrite (ktimes_1_r _ L). f_equal.
             apply IH2; auto. split; auto.
          -- symmetry. apply sp_zero. intros x'. rewrite Zb by auto. apply (ktimes_0_r _ L).
      + intros t1 Ht E E0. apply sp_zero. intros x'. destruct (Nat.eqb_spec (ol t1) l); [contradiction|]. unfold oeps. destruct (Nat.eqb_spec (ol t1) 0); [contradiction|]. apply (ktimes_0_r _ L).
  Qed.

  (** Closure of the reachable tuples. *)
  Definition llist : list nat := flat_map (fun s2 => map il (trs_of f2 s2)) (seq 0 (num_states f2)).
  Definition U3 (t : gtuple (nat * K * option nat)) : Prop :=
    let '(fs, w, o, s1, s2) := t in U2 (fs, w, s1, s2) /\ pl_ok o /\ match o with Some l => In l llist | None => True end.
  Lemma F3_trs t : U3 t -> exists l, gcompute_trs F3 mt f1 f2 t = Ok l /\ forall u, In u l -> U3 (tn u).
  Proof.
    destruct t as [[[[fs w] o] s1] s2]. intros ((Hf & W & Iw & H1 & H2) & P & Io). destruct o as [l|].
    - destruct P as [Pf Hl]. rewrite F3_trs_some by auto. rewrite gouts_ok by (intros p Hp; destruct (pushed_out fs w l s1 s2 p H1 H2 Pf Hl Hp) as (o & E & _); eauto).
      eexists. split; [reflexivity|]. intros u Hu. apply in_flat_map in Hu as (p & Hp & Hu). unfold gone in Hu.
      destruct (pushed_out fs w l s1 s2 p H1 H2 Pf Hl Hp) as (o & E & Q). rewrite E in Hu. destruct o as [u'|]; [|destruct Hu]. destruct Hu as [<-|[]].
      destruct (Q u' eq_refl) as (t1 & Ht & [->| ->]); assert (Hn : (ns t1 < num_states f1)%nat) by (apply (proj1 D1 s1); auto); cbn.
      + repeat split; auto; try lia. 
      + repeat split; auto; apply W.
    - assert (X : forall p, pair_kind f1 f2 s1 s2 p -> exists o, gout F3 (env3 fs w None s1 s2) p = Ok o /\ forall u, o = Some u -> U3 (tn u)).
      { intros p Hp. unfold gout. destruct (F3_cases fs w s1 s2 p H1 H2 W Hp) as [[_ ->]|(fs' & a1 & a2 & la & _ & Q & R)].
        - eexists. split; [reflexivity|discriminate].
        - destruct Q as ((i & o & Ei & Eo) & Hf' & Hn1 & Hn2 & _).
          destruct R as [(lw & q & la' & -> & _ & Wl & Il & _)|[(q & t & t1 & m & la' & -> & Pf & Eq & Ep & El & -> & -> & Ho & -> & Hs)|(-> & _)]].
          + cbn [rbind]. unfold gadd_tr. cbn [plain_push qol qns qw]. rewrite Ei, Eo. cbn [rbind rmap proper]. eexists. split; [reflexivity|].
            intros u [= <-]. cbn. repeat split; auto; apply Wl.
          + cbn [qtr_of qns] in Hn1, Hn2.
            destruct (look_prefix L comm f1 f2 mt C1 C2 D1 M fl reach RO (ns t1) s2 m t Hn1 Hn2 Hs El Ep) as (_ & _ & Hlt & Hin & _).
            eexists. split; [reflexivity|]. intros u [= <-]. cbn. repeat split; auto; try (left; auto; fail).
            * apply (proj1 D2 s2); auto.
            * apply in_flat_map. exists s2. split; [apply in_seq; lia|apply in_map; auto].
          + eexists. split; [reflexivity|discriminate]. }
      rewrite F3_trs_none by auto. rewrite gouts_ok by (intros p Hp; apply pairs_kind in Hp; destruct (X p Hp) as (o & E & _); eauto).
      eexists. split; [reflexivity|]. intros u Hu. apply in_flat_map in Hu as (p & Hp & Hu). unfold gone in Hu. apply pairs_kind in Hp.
      destruct (X p Hp) as (o & E & Q). rewrite E in Hu. destruct o as [u'|]; [|destruct Hu]. destruct Hu as [<-|[]]. auto.
  Qed.
  Lemma F2_closed t : U2 t -> exists l, gcompute_trs F2 mt f1 f2 t = Ok l /\ forall u, In u l -> U2 (tn u).
  Proof.
    destruct t as [[[fs w] s1] s2]. intros (Hf & W & Iw & H1 & H2).
    rewrite F2_trs by auto. rewrite gouts_ok by (intros p Hp; apply pairs_kind in Hp; destruct (F2_out fs w s1 s2 p H1 H2 W Hp) as (o & E & _); eauto).
    eexists. split; [reflexivity|]. intros u Hu. apply in_flat_map in Hu as (p & Hp & Hu). unfold gone in Hu. apply pairs_kind in Hp.
    destruct (F2_out fs w s1 s2 p H1 H2 W Hp) as (o & E & Q). rewrite E in Hu. destruct o as [u'|]; [|destruct Hu]. destruct Hu as [<-|[]]. auto.
  Qed.
End Push.
