(** What follows an epsilon of the first machine under the alternate sequence filter. *)
From Coq Require Import List Arith NArith Bool Lia Sorted.
From Verif Require Import Base.Util Base.Semiring Base.Machine Model.Props Model.VectorFst Model.TrOps Model.Rational Model.Matchers
  Model.BiMap Model.Lazy Model.AlgoProps Model.Visitors Model.Compose Model.IntervalSet Model.Reachable Model.LabelReach Model.LookAhead.
From Verif Require Import Proofs.PropsFacts Proofs.VectorFacts Proofs.TrOpsFacts Proofs.HistoryFacts Proofs.OpFacts
  Proofs.BiMapFacts Proofs.LazyFacts Proofs.TableFacts Proofs.ComposeFacts Proofs.LookFacts.
From Verif Require Import Props.C06 Props.C20 Props.C34 Props.C50.
Import ListNotations.

Section Base.
  Context {K : SR}.
  Implicit Types (f : vfst K).

  (** The model of composition over any filter is that of Model/Compose.v on the plain filters. *)
  Lemma base_selected flt f1 f2 e sa (t : qtr K) mi items :
    gselected (base_cf flt f1 f2) e sa t mi items = match_tr_selected flt e sa t mi items.
  Proof.
    induction items as [|x items IH]; auto. cbn [gselected match_tr_selected]. destruct (into_tr x sa _) as [a| |]; auto. cbn [rbind base_cf cf_filter].
    destruct (filter_tr flt e _ _); cbn [rbind]; rewrite ?IH; auto.
  Qed.
  Lemma base_trs flt mt f1 f2 t : gcompute_trs (base_cf flt f1 f2) mt f1 f2 t = ccompute_trs flt mt f1 f2 t.
  Proof.
    destruct t as [[fs s1] s2]. unfold gcompute_trs, ccompute_trs. cbn [base_cf cf_set].
    destruct (set_state flt f1 f2 s1 s2 fs) as [e| |]; auto. cbn [rbind]. destruct (match_input mt f1 f2 s1 s2) as [b| |]; auto. cbn [rbind].
    assert (X : forall sa sb mi, gexpand (base_cf flt f1 f2) f1 f2 e sa sb mi = ordered_expand flt f1 f2 e sa sb mi).
    { intros sa sb mi. unfold gexpand, ordered_expand. destruct (get_trs _ sb) as [l| |]; auto. cbn [rbind].
      induction (_ :: map qtr_of l) as [|t r IH]; auto. cbn [gmatch_trs match_trs]. rewrite IH. clear IH.
      unfold gmatch_tr, match_tr. cbn [base_cf cf_items1 cf_items2]. destruct mi.
      - destruct (sm_items f2 MInput sa (qol t)); auto. cbn [rbind]. rewrite base_selected. auto.
      - destruct (sm_items f1 MOutput sa (qil t)); auto. cbn [rbind]. rewrite base_selected. auto. }
    destruct b; apply X.
  Qed.
  Lemma base_final flt f1 f2 t : gcompute_final (base_cf flt f1 f2) f1 f2 t = ccompute_final flt f1 f2 t.
  Proof.
    destruct t as [[fs s1] s2]. unfold gcompute_final, ccompute_final. destruct (final_weight f1 s1) as [[w1|]| |]; cbn [rbind]; auto.
  Qed.
  Lemma gwt_ext {T} (ttrs ttrs' : T -> res (list (ttr K T))) tf tf' : (forall t, ttrs t = ttrs' t) -> (forall t, tf t = tf' t) ->
    forall k t x z, gwt ttrs tf k t x z = gwt ttrs' tf' k t x z.
  Proof.
    intros H1 H2. induction k as [|k IH]; intros t x z; cbn [gwt].
    - unfold fin_at. rewrite H2. auto.
    - unfold trs_at. rewrite H1. apply ksum_map_ext. intros u _. destruct (strip _ x); auto. destruct (strip _ z); auto. rewrite IH. auto.
  Qed.
End Base.

Local Open Scope K_scope.
Section Alt.
  Context {K : SR} (L : lsr_laws K) (comm : commutative_times K).
  Context (f1 f2 : vfst K) (mt : mtype).
  Context (C1 : cnt f1) (C2 : cnt f2) (D1 : closed f1) (D2 : closed f2) (M : mt_ok mt f1 f2).

  Definition sp (l : nat) (x : list nat) (h : list nat -> K) : K := match strip l x with Some x' => h x' | None => 0 end.
  Lemma sp_ext l x h h' : (forall x', h x' = h' x') -> sp l x h = sp l x h'.
  Proof. intros H. unfold sp. destruct (strip l x); auto. Qed.
  Lemma sp_zero l x h : (forall x', h x' = 0) -> sp l x h = 0.
  Proof. intros H. unfold sp. destruct (strip l x); auto. Qed.
  Lemma sp_0 x h : sp O x h = h x.
  Proof. unfold sp. rewrite strip_0. auto. Qed.
  Lemma sp_plus l x h h' : sp l x (fun x' => h x' + h' x') = sp l x h + sp l x h'.
  Proof. unfold sp. destruct (strip l x); auto. symmetry. apply (kplus_0_l _ L). Qed.
  Lemma sp_times l x c h : sp l x (fun x' => c * h x') = c * sp l x h.
  Proof. unfold sp. destruct (strip l x); auto. symmetry. apply (ktimes_0_r _ L). Qed.
  Lemma sp_ksum {A} l x (h : A -> list nat -> K) (r : list A) : sp l x (fun x' => ksum (map (fun a => h a x') r)) = ksum (map (fun a => sp l x (h a)) r).
  Proof. unfold sp. destruct (strip l x); auto. symmetry. apply (ksum_map_zero L); auto. Qed.
  Lemma sp_swap l x l' z (h : list nat -> list nat -> K) : sp l x (fun x' => sp l' z (h x')) = sp l' z (fun z' => sp l x (fun x' => h x' z')).
  Proof. unfold sp. destruct (strip l x), (strip l' z); auto. Qed.
  Lemma mul_swap (a b c : K) : a * (b * c) = b * (a * c).
  Proof. rewrite !(ktimes_assoc _ L), (comm a b). auto. Qed.

  Notation BF := (base_cf AltSequenceF f1 f2).
  Definition B (k : nat) (t : nat * nat * nat) (x z : list nat) : K := G f1 f2 BF mt k t x z.
  Lemma B_gwt k t x z : B k t x z = gwt (ccompute_trs AltSequenceF mt f1 f2) (ccompute_final AltSequenceF f1 f2) k t x z.
  Proof. unfold B, G. apply gwt_ext; intros; [apply base_trs|apply base_final]. Qed.

  (** The filter state after an epsilon of the first machine. *)
  Definition fs1 (s2 : nat) : nat := if none ieps f2 s2 then O else 1%nat.
  Notation stk s2 := (stuck ieps f2 s2).
  Notation ev fs s1 s2 := (env AltSequenceF f1 f2 fs s1 s2).

  (** The filter on the three kinds of pairs. *)
  Lemma alt_e1 fs s1 s2 (t1 : tr K) : ol t1 = O ->
    filter_tr AltSequenceF (ev fs s1 s2) (qtr_of t1) (QT NoLab (Lab O) kone s2) = if stk s2 then None else Some (fs1 s2).
  Proof. intros E. cbn. unfold fs1. destruct (stk s2); auto. destruct (none ieps f2 s2); auto. Qed.
  Lemma alt_e2 fs s1 s2 (t2 : tr K) : filter_tr AltSequenceF (ev fs s1 s2) (QT (Lab O) NoLab kone s1) (qtr_of t2) = if Nat.eqb fs 1 then None else Some O.
  Proof. reflexivity. Qed.
  Lemma alt_b fs s1 s2 (t1 t2 : tr K) : filter_tr AltSequenceF (ev fs s1 s2) (qtr_of t1) (qtr_of t2) = if oeps t1 then None else Some O.
  Proof. reflexivity. Qed.

  Lemma base_gout fs s1 s2 p : pair_kind f1 f2 s1 s2 p -> exists o, gout BF (ev fs s1 s2) p = Ok o.
  Proof.
    intros [(t1 & _ & E & ->)|[(t2 & _ & E & ->)|(t1 & t2 & _ & _ & E & ->)]]; unfold gout; cbn [fst snd base_cf cf_filter rbind].
    - rewrite alt_e1 by auto. destruct (stk s2); cbn; eauto.
    - rewrite alt_e2. destruct (_ =? _); cbn; eauto.
    - rewrite alt_b. destruct (oeps t1); cbn; eauto.
  Qed.

  Lemma base_gtrs fs s1 s2 : (s1 < num_states f1)%nat -> (s2 < num_states f2)%nat ->
    gcompute_trs BF mt f1 f2 (fs, s1, s2) = gouts BF (ev fs s1 s2) (pairs mt f1 f2 s1 s2).
  Proof. intros H1 H2. apply gtrs_eq; auto. cbn [base_cf cf_set]. apply set_state_eq; auto. Qed.

  (** Contribution of each kind of pair, given the values [H] of the targets. *)
  Definition v1 (H : nat * nat * nat -> list nat -> list nat -> K) s2 x z (t1 : tr K) : K :=
    if stk s2 then 0 else sp (il t1) x (fun x' => wgt t1 * H (fs1 s2, ns t1, s2) x' z).
  Definition v2 (H : nat * nat * nat -> list nat -> list nat -> K) fs s1 x z (t2 : tr K) : K :=
    if Nat.eqb fs 1 then 0 else sp (ol t2) z (fun z' => wgt t2 * H (O, s1, ns t2) x z').
  Definition v3 (H : nat * nat * nat -> list nat -> list nat -> K) x z (t1 t2 : tr K) : K :=
    if oeps t1 then 0 else sp (il t1) x (fun x' => sp (ol t2) z (fun z' => wgt t1 * (wgt t2 * H (O, ns t1, ns t2) x' z'))).
  Definition step3 H fs s1 s2 x z : K :=
    ksum (map (fun t1 => if oeps t1 then v1 H s2 x z t1 else 0) (trs_of f1 s1)) +
    (ksum (map (fun t2 => if ieps t2 then v2 H fs s1 x z t2 else 0) (trs_of f2 s2)) +
     ksum (map (fun t1 => ksum (map (fun t2 => if Nat.eqb (ol t1) (il t2) then v3 H x z t1 t2 else 0) (trs_of f2 s2))) (trs_of f1 s1))).

  Lemma gterm_1 (H : gtuple nat -> list nat -> list nat -> K) x z (t1 : tr K) s2 fs :
    gterm H x z (TT (il t1) O (wgt t1 * kone) (fs, ns t1, s2)) = sp (il t1) x (fun x' => wgt t1 * H (fs, ns t1, s2) x' z).
  Proof. unfold gterm, sp. cbn [ti to tw tn]. rewrite strip_0. destruct (strip (il t1) x); auto. rewrite (ktimes_1_r _ L). auto. Qed.

  Lemma B_S k fs s1 s2 x z : (s1 < num_states f1)%nat -> (s2 < num_states f2)%nat ->
    B (S k) (fs, s1, s2) x z = step3 (B k) fs s1 s2 x z.
  Proof.
    intros H1 H2. unfold B at 1. rewrite (G_step L f1 f2 BF mt fs s1 s2 (ev fs s1 s2)); [|apply base_gtrs; auto|intros; apply base_gout; auto].
    rewrite (pairs_sum L). unfold pair_sum3, step3. f_equal; [|f_equal].
    - apply ksum_map_ext. intros t1 _. unfold oeps. destruct (Nat.eqb_spec (ol t1) 0) as [E0|]; auto.
      unfold gval, gout. cbn [fst snd base_cf cf_filter rbind]. rewrite alt_e1 by auto. unfold v1. destruct (stk s2); auto.
      cbn [rbind rmap gadd_tr proper qtr_of qil qol qw qns]. apply gterm_1.
    - apply ksum_map_ext. intros t2 _. unfold ieps. destruct (Nat.eqb_spec (il t2) 0) as [E0|]; auto.
      unfold gval, gout. cbn [fst snd base_cf cf_filter rbind]. rewrite alt_e2. unfold v2. destruct (fs =? 1); auto.
      cbn [rbind rmap gadd_tr proper qtr_of qil qol qw qns]. unfold gterm, sp. cbn [ti to tw tn]. rewrite strip_0, (ktimes_1_l _ L). auto.
    - apply ksum_map_ext. intros t1 _. apply ksum_map_ext. intros t2 _. destruct (_ =? _); auto.
      unfold gval, gout. cbn [fst snd base_cf cf_filter rbind]. rewrite alt_b. unfold v3. destruct (oeps t1); auto.
      cbn [rbind rmap gadd_tr proper qtr_of qil qol qw qns]. unfold gterm, sp. cbn [ti to tw tn].
      destruct (strip (il t1) x); auto. destruct (strip (ol t2) z); auto. symmetry. apply (ktimes_assoc _ L).
  Qed.
  Lemma B_0 fs s1 s2 x z : (s1 < num_states f1)%nat -> (s2 < num_states f2)%nat ->
    B O (fs, s1, s2) x z = if isnil x && isnil z then fw (fin_of f1 s1) * fw (fin_of f2 s2) else 0.
  Proof.
    intros H1 H2. unfold B, G. cbn [gwt]. destruct (isnil x && isnil z); auto. unfold fin_at, gcompute_final.
    rewrite !final_in by auto. cbn [rbind]. destruct (fin_of f1 s1) as [w1|]; cbn [rbind fw]; [|symmetry; apply (ktimes_0_l _ L)].
    destruct (fin_of f2 s2) as [w2|]; cbn [rbind fw]; [|symmetry; apply (ktimes_0_r _ L)]. cbn [base_cf cf_set cf_final]. rewrite set_state_eq by auto.
    cbn [rbind fst snd]. destruct (keqb (w1 * w2) 0) eqn:E; auto. apply (keqb_spec _ L) in E. auto.
  Qed.

  (** The first machine goes on by epsilons until it writes [l], which the second machine has
      read already on its way to [s2]. *)
  Fixpoint pend (l k s1 s2 : nat) (x z : list nat) : K :=
    match k with
    | O => 0
    | S k => ksum (map (fun t1 => sp (il t1) x (fun x' => wgt t1 *
               (if Nat.eqb (ol t1) l then B k (O, ns t1, s2) x' z
                else if oeps t1 then pend l k (ns t1) s2 x' z else 0))) (trs_of f1 s1))
    end.
  (** The first machine goes on by epsilons and ends. *)
  Fixpoint endw (k s1 : nat) (x : list nat) : K :=
    match k with
    | O => if isnil x then fw (fin_of f1 s1) else 0
    | S k => ksum (map (fun t1 => if oeps t1 then sp (il t1) x (fun x' => wgt t1 * endw k (ns t1) x') else 0) (trs_of f1 s1))
    end.

  Definition grp k s1 x z (t2 : tr K) : K :=
    if ieps t2 then 0 else sp (ol t2) z (fun z' => wgt t2 * pend (il t2) k s1 (ns t2) x z').

  Lemma group k : forall s1 s2 x z, (s1 < num_states f1)%nat -> (s2 < num_states f2)%nat -> stk s2 = false ->
    B k (fs1 s2, s1, s2) x z =
    ksum (map (grp k s1 x z) (trs_of f2 s2)) + (if isnil z then fw (fin_of f2 s2) * endw k s1 x else 0).
  Proof.
    induction k as [|k IH]; intros s1 s2 x z H1 H2 Hs.
    - rewrite B_0 by auto. rewrite (ksum_map_zero L), (kplus_0_l _ L).
      + cbn [endw]. destruct (isnil x), (isnil z); cbn [andb]; auto. rewrite (ktimes_0_r _ L). auto.
      + intros t2 _. unfold grp. destruct (ieps t2); auto. apply sp_zero. intros z'. cbn [pend]. apply (ktimes_0_r _ L).
    - rewrite B_S by auto. unfold step3.
      assert (Z2 : ksum (map (fun t2 => if ieps t2 then v2 (B k) (fs1 s2) s1 x z t2 else 0) (trs_of f2 s2)) = 0).
      { apply (ksum_map_zero L). intros t2 Ht. destruct (ieps t2) eqn:Ei; auto. unfold v2, fs1.
        destruct (none ieps f2 s2) eqn:En; auto. exfalso. unfold none in En. apply negb_true_iff in En.
        assert (X : existsb ieps (trs_of f2 s2) = true) by (apply existsb_exists; eauto). congruence. }
      rewrite Z2, (kplus_0_l _ L).
      (* the second machine's transitions *)
      assert (R : forall t1, In t1 (trs_of f1 s1) ->
        (if oeps t1 then v1 (B k) s2 x z t1 else 0) =
        (if oeps t1 then sp (il t1) x (fun x' => wgt t1 * ksum (map (grp k (ns t1) x' z) (trs_of f2 s2))) else 0) +
        (if oeps t1 then sp (il t1) x (fun x' => wgt t1 * (if isnil z then fw (fin_of f2 s2) * endw k (ns t1) x' else 0)) else 0)).
      { intros t1 Ht. destruct (oeps t1); [|symmetry; apply (kplus_0_l _ L)]. unfold v1. rewrite Hs, <- sp_plus. apply sp_ext. intros x'.
        rewrite <- (kdistr_l _ L). f_equal. apply IH; auto. apply (proj1 D1 s1); auto. }
      rewrite (ksum_map_ext _ _ _ R). rewrite (ksum_map_plus L), <- (kplus_assoc _ L).
      rewrite (kplus_comm _ L (ksum (map (fun t1 => if oeps t1 then sp (il t1) x (fun x' => wgt t1 * (if isnil z then _ else _)) else 0) _))).
      rewrite (kplus_assoc _ L). f_equal.
      + (* pend *)
        rewrite <- (ksum_map_plus L).
        transitivity (ksum (map (fun t1 => ksum (map (fun t2 =>
          if ieps t2 then 0 else sp (ol t2) z (fun z' => wgt t2 * sp (il t1) x (fun x' => wgt t1 *
               (if Nat.eqb (ol t1) (il t2) then B k (O, ns t1, ns t2) x' z'
                else if oeps t1 then pend (il t2) k (ns t1) (ns t2) x' z' else 0)))) (trs_of f2 s2))) (trs_of f1 s1))).
        * apply ksum_map_ext. intros t1 Ht1.
          replace (if oeps t1 then sp (il t1) x (fun x' => wgt t1 * ksum (map (grp k (ns t1) x' z) (trs_of f2 s2))) else 0)
            with (ksum (map (fun t2 => if oeps t1 then sp (il t1) x (fun x' => wgt t1 * grp k (ns t1) x' z t2) else 0) (trs_of f2 s2))).
          2:{ destruct (oeps t1).
              - rewrite <- sp_ksum. apply sp_ext. intros x'. rewrite (ksum_times_l L), map_map. auto.
              - apply (ksum_map_zero L). auto. }
          rewrite <- (ksum_map_plus L). apply ksum_map_ext. intros t2 Ht2.
          unfold grp, v3, oeps, ieps.
          destruct (Nat.eqb_spec (il t2) 0) as [E2|E2].
          { replace (if ol t1 =? 0 then _ else 0) with (0 : K) by (destruct (ol t1 =? 0); auto; symmetry; apply sp_zero; intros; apply (ktimes_0_r _ L)).
            rewrite (kplus_0_l _ L). destruct (Nat.eqb_spec (ol t1) (il t2)) as [E|E]; auto. rewrite E, E2. auto. }
          destruct (Nat.eqb_spec (ol t1) 0) as [E1|E1].
          { destruct (Nat.eqb_spec (ol t1) (il t2)) as [E|E]; [congruence|]. rewrite (kplus_0_r L).
            transitivity (sp (ol t2) z (fun z' => sp (il t1) x (fun x' => wgt t1 * (wgt t2 * pend (il t2) k (ns t1) (ns t2) x' z')))).
            - rewrite (sp_swap (ol t2) z (il t1) x). apply sp_ext. intros x'. symmetry. apply (sp_times (ol t2) z).
            - apply sp_ext. intros z'. rewrite <- sp_times. apply sp_ext. intros x'. apply mul_swap. }
          rewrite (kplus_0_l _ L). destruct (Nat.eqb_spec (ol t1) (il t2)) as [E|E].
          { rewrite sp_swap. apply sp_ext. intros z'. rewrite <- sp_times. apply sp_ext. intros x'. apply mul_swap. }
          symmetry. apply sp_zero. intros z'. rewrite <- sp_times. apply sp_zero. intros x'. rewrite !(ktimes_0_r _ L). auto.
        * rewrite (ksum_swap L). apply ksum_map_ext. intros t2 Ht2. unfold grp. destruct (ieps t2); [apply (ksum_map_zero L); auto|].
          rewrite <- sp_ksum. apply sp_ext. intros z'. rewrite <- (map_map (fun t1 => sp (il t1) x _) (fun v => wgt t2 * v)), <- (ksum_times_l L). auto.
      + (* endw *)
        destruct (isnil z).
        * cbn [endw]. rewrite (ksum_times_l L), map_map. apply ksum_map_ext. intros t1 _. destruct (oeps t1); [|symmetry; apply (ktimes_0_r _ L)].
          rewrite <- sp_times. apply sp_ext. intros x'. apply mul_swap.
        * apply (ksum_map_zero L). intros t1 _. destruct (oeps t1); auto. apply sp_zero. intros x'. apply (ktimes_0_r _ L).
  Qed.

  (** ** An index that covers what the first machine may write next *)
  Definition index_ok (d : lrdata) : Prop :=
    (forall s, (s < num_states f1)%nat -> exists a, nth_error (ld_sets d) s = Some a /\
       Forall nonempty (ivals a) /\ separated (ivals a) /\ ~ covered (ivals a) O) /\
    (forall s l, can_read f1 false s l -> reach_label d s l = Ok true) /\
    (forall s, can_end f1 false s -> reach_final d s = Ok true).

  Lemma eps_step s (t : tr K) u : In t (trs_of f1 s) -> ol t = O -> Machine.reach (eps f1 false) (ns t) u -> Machine.reach (eps f1 false) s u.
  Proof. intros Ht E R. eapply reach_step; [|exact R]. cbn. apply filter_In. split; auto. apply Nat.eqb_eq. auto. Qed.
  Lemma pend_unread k : forall l s1 s2 x z, l <> O -> ~ can_read f1 false s1 l -> pend l k s1 s2 x z = 0.
  Proof.
    induction k as [|k IH]; intros l s1 s2 x z Hl N; auto. cbn [pend]. apply (ksum_map_zero L). intros t1 Ht. apply sp_zero. intros x'.
    destruct (Nat.eqb_spec (ol t1) l) as [E|E]; [exfalso; apply N; split; auto; exists s1, t1; split; [constructor|auto]|]. unfold oeps.
    destruct (Nat.eqb_spec (ol t1) 0) as [E0|]; [|apply (ktimes_0_r _ L)]. rewrite IH; auto; [apply (ktimes_0_r _ L)|].
    intros (_ & u & t & R & H). apply N. split; auto. exists u, t. split; auto. eapply eps_step; eauto.
  Qed.
  Lemma endw_unended k : forall s1 x, ~ can_end f1 false s1 -> endw k s1 x = 0.
  Proof.
    induction k as [|k IH]; intros s1 x N; cbn [endw].
    - destruct (isnil x); auto. destruct (fin_of f1 s1) as [w|] eqn:E; auto. cbn [fw]. destruct (keqb w 0) eqn:Hw; [apply (keqb_spec _ L) in Hw; auto|].
      assert (w <> 0) by (intros X; apply (keqb_spec _ L) in X; congruence). exfalso. apply N. exists s1. split; [constructor|]. exists w. auto.
    - apply (ksum_map_zero L). intros t1 Ht. unfold oeps. destruct (Nat.eqb_spec (ol t1) 0) as [E0|]; auto. apply sp_zero. intros x'. rewrite IH; [apply (ktimes_0_r _ L)|].
      intros (u & R & H). apply N. exists u. split; auto. eapply eps_step; eauto.
  Qed.
  Lemma pend_zero d : index_ok d -> forall k l s1 s2 x z, l <> O -> reach_label d s1 l <> Ok true -> pend l k s1 s2 x z = 0.
  Proof. intros (_ & I & _) k l s1 s2 x z Hl N. apply pend_unread; auto. Qed.
  Lemma endw_zero d : index_ok d -> forall k s1 x, reach_final d s1 <> Ok true -> endw k s1 x = 0.
  Proof. intros (_ & _ & I) k s1 x N. apply endw_unended. auto. Qed.
End Alt.
