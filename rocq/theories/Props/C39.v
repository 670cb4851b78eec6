(** C39: weight factoring keeps the weight of every pair of strings. *)
From Coq Require Import List Arith NArith Bool Lia.
From Verif Require Import Base.Util Base.Semiring Base.Machine Base.PropSpec Base.Instances Model.Props Model.AlgoProps Model.VectorFst
  Model.History Model.BiMap Model.Lazy Model.Compose Model.Weights Model.UnionWeight Model.FactorWeight Model.Gallic.
From Verif Require Import Proofs.VectorFacts Proofs.OpFacts Proofs.TrOpsFacts Proofs.BiMapFacts Proofs.LazyFacts Proofs.TableFacts Proofs.ComposeFacts
  Proofs.ClosedB Proofs.SdFacts Proofs.ReverseDist Proofs.BagFacts Proofs.FactorTable Proofs.FactorFacts Props.C27.
Import ListNotations.
Local Open Scope K_scope.

(** ** Specification *)

(** The contract of a factor iterator: nothing when done, otherwise pairs whose products add up to the
    weight; the second factors are quantized before use. *)
Definition factors_exactly {K : SR} (FI : factor_iter K) (opts : fw_opts K) : Prop :=
  forall w, (fi_done FI w = true -> fi_items FI w = []) /\
    (fi_done FI w = false -> ksum (map (fun p => fst p * quant opts (snd p)) (fi_items FI w)) = w).
(** Repeated factoring of second factors comes to an end. *)
Definition fades {K : SR} (FI : factor_iter K) (opts : fw_opts K) : Prop :=
  exists mu : K -> nat, forall w p, In p (fi_items FI w) -> (mu (quant opts (snd p)) < mu w)%nat.
(** Either products distribute on both sides or there is never more than one pair. *)
Definition factorable {K : SR} (FI : factor_iter K) : Prop :=
  sr_laws K \/ forall w, (length (fi_items FI w) <= 1)%nat.

(** [pick x y l] (BagFacts) is the total weight of the entries (x, y, w) of [l], [total l] the weight of
    all entries, [after p] puts the labels of the path [p] in front; [chain base incr j a] (FactorFacts):
    [a] is made of [j] labels starting from [base], all equal to [base] unless [incr]. *)

Section C39.
  Context {K : SR} (L : lsr_laws K) (FI : factor_iter K) (opts : fw_opts K) (f : vfst K).
  Notation ff := (fw_final opts).
  Notation ttrs := (fw_trs FI opts f).
  Notation tfin := (fw_fin FI opts f).

  Definition valid_elt (e : element K) : Prop := match fst e with Some s => (s < num_states f)%nat | None => True end.

  Section Built.
    Context (U : element K -> Prop) (Ustart : forall t, fw_start f = Ok (Some t) -> U t)
      (Utrs : forall t l u, U t -> ttrs t = Ok l -> In u l -> U (tn u)).

    Let SP := transfer_spec _ _ fabs (fJ (fw_arc opts)) (fw_hstart L _ FI opts f eq_refl) (fw_htrs L _ FI opts f eq_refl) (fw_hfin _ FI opts f)
      _ _ _ _ _ (table_spec elt_eqb (elt_eqb_spec L) (fw_start f) ttrs tfin (factor_weight_properties (vprops f)) U Ustart Utrs).

    Lemma fw_zok : zok map_cache_ops map_inv (fun o => fJ (fw_arc opts) o /\ tI elt_eqb U (fabs o)) (fun o => tS (fw_start f) (fabs o))
      (fun o => tT ttrs (fabs o)) (fun o => tF tfin (fabs o)) (fwt_new, map_cache_new).
    Proof. apply zok_empty; [split; [apply fJ_new|apply tI_new]|apply map_cache_empty]. Qed.

    Lemma fw_built fuel g : factor_weight FI opts f fuel = Some (Ok g) ->
      (ff = true \/ fw_arc opts = true) /\
      (exists z : bimap (element K) * map_cache K, built (tS (fw_start f)) (tT ttrs) (tF tfin) g z) /\
      (vstart g <> None -> visymt g = visymt f /\ vosymt g = vosymt f /\ vprops g = factor_weight_properties (vprops f)).
    Proof.
      unfold factor_weight. destruct (negb ff && negb (fw_arc opts)) eqn:E; [discriminate|].
      destruct (compute _ _ fuel _ _ _) as [[[g' z]| |]|] eqn:C; cbn; try discriminate. intros [= <-].
      destruct (compute_ok (fw_op FI opts f) map_cache_ops map_inv _ _ _ _ _ map_cache_laws SP fuel _ _ _ _ _ fw_zok C) as (_ & _ & B & S).
      split; [clear -E; destruct ff, (fw_arc opts); auto; discriminate|]. split; [|intros H; destruct (S H) as (S1 & S2 & S3 & _); auto].
      exists (fabs (fst z), snd z). exact B.
    Qed.

    (** The same, with the elements that got a number. *)
    Lemma fw_built_in fuel g : factor_weight FI opts f fuel = Some (Ok g) ->
      exists z : bimap (element K) * map_cache K, built (tS (fw_start f)) (tT ttrs) (tF tfin) g z /\ forall t, In t (id_to_tuple (fst z)) -> U t.
    Proof.
      unfold factor_weight. destruct (negb ff && negb (fw_arc opts)) eqn:E; [discriminate|].
      destruct (compute _ _ fuel _ _ _) as [[[g' z]| |]|] eqn:C; cbn; try discriminate. intros [= <-].
      destruct (compute_ok (fw_op FI opts f) map_cache_ops map_inv _ _ _ _ _ map_cache_laws SP fuel _ _ _ _ _ fw_zok C) as (Z & _ & B & _).
      exists (fabs (fst z), snd z). split; [exact B|]. destruct Z as ((_ & H) & _). exact (proj2 H).
    Qed.

    Context (Uvalid : forall t, U t -> valid_elt t) (univ : list (element K)) (HU : forall t, U t -> In t univ).
    Lemma valid_live t : valid_elt t -> (exists l, ttrs t = Ok l) /\ exists w, tfin t = Ok w.
    Proof.
      destruct t as [[s|] w]; unfold valid_elt, fw_trs, fw_fin; cbn [fst snd]; intros H.
      - rewrite get_trs_in, is_final_in, final_in by auto. cbn [rmap rbind]. split; eauto.
        destruct ff; cbn [rbind]; eauto. destruct (some_b (fin_of f s)); cbn [rbind]; eauto.
      - cbn [rbind]. split; eauto. destruct ff; cbn; eauto.
    Qed.

    Lemma fw_total fuel : ff = true \/ fw_arc opts = true -> (length univ <= fuel)%nat -> exists g, factor_weight FI opts f fuel = Some (Ok g).
    Proof.
      intros M HF. unfold factor_weight. replace (negb ff && negb (fw_arc opts)) with false by (destruct M as [-> | ->]; destruct ff; auto).
      assert (LS : exists o, fw_start f = Ok o) by (unfold fw_start; eauto).
      pose proof (table_live elt_eqb (fw_start f) ttrs tfin (factor_weight_properties (vprops f)) U Ustart LS
        (fun t H => proj1 (valid_live t (Uvalid t H))) (fun t H => proj2 (valid_live t (Uvalid t H)))) as TL.
      pose proof (transfer_live _ (fw_op FI opts f) fabs (fJ (fw_arc opts)) _ _ _ _ _ (fw_lstart _ FI opts f) (fw_ltrs _ FI opts f) (fw_lfin _ FI opts f) TL) as LV.
      destruct (compute_total (fw_op FI opts f) map_cache_ops map_inv _ _ _ _ _ map_cache_laws SP _ LV (length univ)
        (fun o i H V => table_bound elt_eqb U univ HU (fabs o) i (proj2 H) V) fuel (visymt f) (vosymt f) _ fw_zok HF) as ((g & z) & E).
      rewrite E. cbn. eauto.
    Qed.
  End Built.

  Context (D : closed f).

  (** ** The result *)
  Theorem C39_factor_weight : factors_exactly FI opts -> factorable FI -> (fw_final opts = true -> fades FI opts) ->
    forall fuel g, factor_weight FI opts f fuel = Some (Ok g) ->
    closed g /\ cnt g /\ (vstart g <> None -> visymt g = visymt f /\ vosymt g = vosymt f) /\
    exists parts : list (tr K) -> nat -> list (reading K),
      (forall k x y, rel (mach g) k x y =
         match vstart f with
         | None => 0
         | Some s => ksum (map (fun i => ksum (map (fun p => pick x y (map (after p) (parts p (k - i)))) (paths (mach f) i s))) (seq 0 (S k)))
         end) /\
      (forall s p, vstart f = Some s -> exists J0, forall J, (J0 <= J)%nat ->
         ksum (map (fun j => total (parts p j)) (seq 0 (S J))) = apw (mach f) s p) /\
      (forall p j r, In r (parts p j) ->
         chain (final_il opts) (incr_il opts) j (fst (fst r)) /\ chain (final_ol opts) (incr_ol opts) j (snd (fst r))) /\
      (fw_final opts = false -> forall p j, j <> O -> parts p j = []).
  Proof.
    intros FE FB FD fuel g E.
    destruct (fw_built (fun _ => True) (fun _ _ => Logic.I) (fun _ _ _ _ _ _ => Logic.I) fuel g E) as (_ & (z & B) & S).
    split; [apply B|]. split; [apply B|]. split; [intros N; destruct (S N); tauto|].
    assert (L1 : law FI) by (intros w; apply FE).
    assert (L2 : law2 FI opts).
    { intros w Hw X. rewrite <- (proj2 (FE w) Hw) at 2. destruct FB as [FB|FB].
      - rewrite (ksum_times_r FB), map_map. apply ksum_map_ext. intros p _. apply (ktimes_assoc _ L).
      - specialize (FB w). destruct (fi_items FI w) as [|p [|q l]]; cbn in *; [symmetry; apply (ktimes_0_l _ L)| |lia].
        rewrite !(kplus_0_r L). apply (ktimes_assoc _ L). }
    assert (M : exists mu : K -> nat, fw_final opts = true -> forall w p, In p (fi_items FI w) -> (mu (quant opts (snd p)) < mu w)%nat).
    { destruct (fw_final opts); [destruct (FD eq_refl) as [mu Hmu]; exists mu; auto|]. exists (fun _ => O). discriminate. }
    destruct M as [mu Hmu].
    exists (match vstart f with Some s => parts FI opts f s 1 | None => fun _ _ => [] end).
    split; [|split; [|split]].
    - intros k x y. rewrite (built_rel _ _ _ _ g B). unfold grel, fw_start. destruct (vstart f) as [s|] eqn:Es; auto.
      rewrite (gwt_bag L). apply (bag_paths L FI opts f D). exact (proj2 D s Es).
    - intros s p Es. rewrite Es. destruct (parts_total L FI opts f L1 L2 mu Hmu s 1 p) as [J0 H]. exists J0.
      intros J HJ. rewrite (H J HJ). apply (ktimes_1_l _ L).
    - intros p j r. destruct (vstart f); [|intros []]. apply parts_chain.
    - intros H p j N. destruct (vstart f); auto. apply parts_no_final; auto.
  Qed.

  (** Factoring transitions only: the relation does not change, path length by path length. *)
  Theorem C39_transitions_only : factors_exactly FI opts -> factorable FI -> fw_final opts = false ->
    forall fuel g, factor_weight FI opts f fuel = Some (Ok g) -> forall k x y, rel (mach g) k x y = rel (mach f) k x y.
  Proof.
    intros FE FB FF fuel g E k x y.
    destruct (C39_factor_weight FE FB) with (fuel := fuel) (g := g) as (_ & _ & _ & pt & R & T & C & N); auto.
    { rewrite FF. discriminate. }
    rewrite R. unfold rel. cbn [mach mstart]. destruct (vstart f) as [s|] eqn:Es; auto. rewrite (wt_paths L).
    rewrite seq_S, map_app, (ksum_app L). cbn [map ksum plus]. rewrite (kplus_0_r L), Nat.sub_diag.
    rewrite (ksum_map_zero L), (kplus_0_l _ L).
    - apply ksum_map_ext. intros p _. destruct (T s p eq_refl) as [J0 HJ]. specialize (HJ J0 (Nat.le_refl _)).
      rewrite <- HJ, (ksum_seq_S (fun j => total (pt p j))), (ksum_map_zero L (fun i => total (pt p (S i)))), (kplus_0_r L)
        by (intros i _; rewrite (N FF p (S i)) by congruence; auto).
      unfold pick, total. rewrite map_map. specialize (C p O). revert C. generalize (pt p O). intros l C.
      transitivity (ksum (map (fun r => if leqb (ilabs p) x && leqb (olabs p) y then snd r else 0) l)).
      + apply ksum_map_ext. intros r Hr. destruct (C r Hr) as ((m1 & A1 & A2 & _) & (m2 & B1 & B2 & _)).
        destruct m1; [|discriminate]. destruct m2; [|discriminate]. unfold after. cbn [fst snd]. rewrite A2, B2. cbn. rewrite !app_nil_r. auto.
      + destruct (leqb (ilabs p) x && leqb (olabs p) y); auto. apply (ksum_map_0 L).
    - intros i Hi. apply in_seq in Hi. apply (ksum_map_zero L). intros p _. rewrite (N FF) by lia. auto.
  Qed.

  (** With the default labels the chains read and write nothing: a pair of strings with finitely many
      paths keeps its total weight. *)
  Theorem C39_totals : factors_exactly FI opts -> factorable FI -> fades FI opts ->
    final_il opts = O -> final_ol opts = O -> incr_il opts = false -> incr_ol opts = false ->
    forall fuel g, factor_weight FI opts f fuel = Some (Ok g) -> forall N x y,
    (forall s p, vstart f = Some s -> is_path (mach f) s p -> ilabs p = x -> olabs p = y -> (length p <= N)%nat) ->
    exists M0, forall M, (M0 <= M)%nat ->
      ksum (map (fun k => rel (mach g) k x y) (seq 0 (S M))) = ksum (map (fun i => rel (mach f) i x y) (seq 0 (S N))).
  Proof.
    intros FE FB FD I0 O0 I1 O1 fuel g E N x y SH.
    destruct (C39_factor_weight FE FB (fun _ => FD) fuel g E) as (_ & _ & _ & pt & R & T & C & _).
    unfold rel at 2. cbn [mach mstart]. destruct (vstart f) as [s|] eqn:Es.
    2: { exists O. intros M _. rewrite !(ksum_map_zero L); auto. }
    assert (PK : forall p j, pick x y (map (after p) (pt p j)) = if leqb (ilabs p) x && leqb (olabs p) y then total (pt p j) else 0).
    { intros p j. unfold pick, total. rewrite map_map. specialize (C p j). revert C. generalize (pt p j). intros l C.
      transitivity (ksum (map (fun r => if leqb (ilabs p) x && leqb (olabs p) y then snd r else 0) l)).
      + assert (CH : forall incr m a, incr = false -> chain O incr m a -> a = []).
        { intros incr m a H (ms & _ & -> & F). specialize (F H). clear -F. induction F; auto. subst. cbn. auto. }
        apply ksum_map_ext. intros r Hr. destruct (C r Hr) as (A & B). rewrite I0 in A. rewrite O0 in B.
        apply CH in A; auto. apply CH in B; auto. unfold after. cbn [fst snd]. rewrite A, B, !app_nil_r. auto.
      + destruct (leqb (ilabs p) x && leqb (olabs p) y); auto. apply (ksum_map_0 L). }
    assert (J0 : exists J0, forall i p, (i <= N)%nat -> In p (paths (mach f) i s) -> forall J, (J0 <= J)%nat ->
      ksum (map (fun j => total (pt p j)) (seq 0 (S J))) = apw (mach f) s p).
    { assert (G : forall l : list (list (tr K)), exists J0, forall p, In p l -> forall J, (J0 <= J)%nat ->
        ksum (map (fun j => total (pt p j)) (seq 0 (S J))) = apw (mach f) s p).
      { induction l as [|p l [J1 IH]]; [exists O; intros p []|]. destruct (T s p eq_refl) as [J2 H]. exists (Nat.max J1 J2).
        intros q [<-|Hq] J HJ; [apply H|apply IH]; auto; lia. }
      destruct (G (flat_map (fun i => paths (mach f) i s) (seq 0 (S N)))) as [J0 H]. exists J0. intros i p Hi Hp. apply H.
      apply in_flat_map. exists i. split; auto. apply in_seq. lia. }
    destruct J0 as [J0 HJ]. exists (N + J0)%nat. intros M HM.
    rewrite (ksum_map_ext _ _ _ (fun k _ => R k x y)).
    rewrite (ksum_tri L (fun i j => ksum (map (fun p => pick x y (map (after p) (pt p j))) (paths (mach f) i s))) M).
    transitivity (ksum (map (fun i => wt (mach f) i s x y) (seq 0 (S M)))).
    - apply ksum_map_ext. intros i Hi. apply in_seq in Hi. rewrite (ksum_swap L), (wt_paths L). apply ksum_map_ext. intros p Hp.
      rewrite (ksum_map_ext _ _ _ (fun j _ => PK p j)).
      destruct (leqb (ilabs p) x && leqb (olabs p) y) eqn:Q; [|apply (ksum_map_0 L)].
      apply andb_true_iff in Q as [Q1 Q2]. apply leqb_true in Q1, Q2. pose proof (proj1 (paths_is_path _ _ _ _) Hp) as [P1 P2].
      pose proof (SH s p eq_refl P1 Q1 Q2). apply (HJ i p); auto; lia.
    - replace (S M) with (S N + (M - N))%nat by lia. rewrite seq_app, map_app, (ksum_app L).
      rewrite (ksum_map_zero L _ (seq (0 + S N) _)), (kplus_0_r L); auto. intros i Hi. apply in_seq in Hi.
      rewrite (wt_paths L). apply (ksum_map_zero L). intros p Hp. pose proof (proj1 (paths_is_path _ _ _ _) Hp) as [P1 P2].
      destruct (leqb (ilabs p) x && leqb (olabs p) y) eqn:Q; auto.
      apply andb_true_iff in Q as [Q1 Q2]. apply leqb_true in Q1, Q2. pose proof (SH s p eq_refl P1 Q1 Q2). lia.
  Qed.

  (** ** Termination *)
  Let R (u t : element K) : Prop := In u (map tn (trs_at ttrs t)).

  Lemma spread t : Acc R t -> exists l, In t l /\ forall u v, In u l -> R v u -> In v l.
  Proof.
    induction 1 as [t _ IH].
    assert (G : forall us, (forall u, In u us -> R u t) -> exists l, incl us l /\ forall u v, In u l -> R v u -> In v l).
    { induction us as [|u us IHu]; intros H; [exists []; split; [intros u []|intros u v []]|].
      destruct IHu as (l1 & A1 & B1); [intros; apply H; simpl; auto|]. destruct (IH u (H u (or_introl eq_refl))) as (l2 & A2 & B2).
      exists (l2 ++ l1)%list. split.
      - intros v [<-|Hv]; apply in_or_app; auto.
      - intros v w Hv Hw. apply in_app_or in Hv as [Hv|Hv]; apply in_or_app; eauto. }
    destruct (G (map tn (trs_at ttrs t)) (fun u H => H)) as (l & A & B). exists (t :: l). split; [simpl; auto|].
    intros u v [<-|Hu] Hv; right; [apply A; auto|eauto].
  Qed.

  Lemma acc_none : fades FI opts -> forall w, Acc R (None, w).
  Proof.
    intros [mu Hmu] w. remember (mu w) as m eqn:Em. assert (H : (mu w <= m)%nat) by lia. clear Em.
    revert w H. induction m as [|m IH]; intros w H; constructor; intros u Hu; unfold R in Hu; rewrite trs_none in Hu; unfold fin_items in Hu;
      destruct ff; try destruct Hu; apply in_map_iff in Hu as (v & <- & Hv);
      destruct (fw_finals_in opts _ _ _ _ Hv) as (p & a & b & Hp & -> & _); cbn [tn]; specialize (Hmu w p Hp); [lia|].
    apply IH. lia.
  Qed.

  Lemma R_some s w u : (s < num_states f)%nat -> R u (Some s, w) ->
    (exists t p, In t (trs_of f s) /\ fst u = Some (ns t) /\ (fw_arc opts = false -> u = (Some (ns t), 1)) /\ p = w) \/
    (exists z, fin_of f s = Some z /\ R u (None, w * z)).
  Proof.
    intros Hs. unfold R. rewrite trs_some by auto. rewrite map_app, in_app_iff. intros [H|H].
    - left. apply in_map_iff in H as (v & <- & Hv). apply in_flat_map in Hv as (t & Ht & Hv). exists t, w.
      split; auto. split; [apply (fw_tr_target _ _ _ _ _ Hv)|]. split; auto. intros A. unfold fw_tr in Hv. rewrite A in Hv.
      destruct Hv as [<-|[]]. auto.
    - right. destruct (fin_of f s) as [z|]; [|destruct H]. exists z. split; auto. rewrite trs_none. auto.
  Qed.

  Lemma acc_some : fades FI opts -> (forall s, ~ on_cycle (mach f) s) -> forall s w, (s < num_states f)%nat -> Acc R (Some s, w).
  Proof.
    intros FD AC.
    assert (G : forall b s w, (s < num_states f)%nat -> (forall p, is_path (mach f) s p -> (length p < b)%nat) -> Acc R (Some s, w)).
    { induction b as [|b IH]; intros s w Hs Hb; [specialize (Hb [] Logic.I); lia|]. constructor. intros [o v] Hu.
      destruct (R_some _ _ _ Hs Hu) as [(t & p & Ht & Eo & _)|(z & Hz & Hz')].
      - cbn in Eo. subst o. apply IH; [exact (proj1 D s t Ht)|]. intros q Hq.
        specialize (Hb (t :: q)). cbn [is_path length] in Hb. assert (S (length q) < S b)%nat; [|lia]. apply Hb. auto.
      - pose proof (acc_none FD (w * z)) as H. inversion H as [H']. apply H'. auto. }
    intros s w Hs. apply (G (num_states f)); auto. intros p Hp.
    apply (acyclic_short (mach f) (num_states f)) with (s := s); auto.
    - intros q t Ht. exact (proj1 D q t Ht).
    - apply no_cycle_acyclic. auto.
  Qed.

  Theorem C39_terminates : fades FI opts -> fw_final opts = true \/ fw_arc opts = true ->
    fw_arc opts = false \/ (forall s, ~ on_cycle (mach f) s) ->
    exists fuel, forall fuel', (fuel <= fuel')%nat -> exists g, factor_weight FI opts f fuel' = Some (Ok g).
  Proof.
    intros FD M AC.
    assert (exists univ, (forall t, fw_start f = Ok (Some t) -> In t univ) /\
      (forall t u, In t univ -> valid_elt t -> R u t -> In u univ) ) as (univ & US & UT).
    { destruct AC as [AC|AC].
      - assert (G : forall l : list nat, exists univ : list (element K), (forall s, In s l -> In (Some s, 1) univ /\
            (forall z u, fin_of f s = Some z -> R u (None, 1 * z) -> In u univ))
            /\ forall t u, In t univ -> fst t = None -> R u t -> In u univ).
        { induction l as [|s l (univ & A & B)]; [exists []; split; [intros s []|intros t u []]|].
            destruct (fin_of f s) as [z|] eqn:Ez.
            - destruct (spread (None, 1 * z) (acc_none FD _)) as (l2 & A2 & B2). exists ((Some s, 1) :: l2 ++ univ)%list. split.
              + intros q [<-|Hq]; [split; [simpl; auto|]|].
                * intros z' u Ez' Hu. right. apply in_or_app. left. apply B2 with (None, 1 * z); auto. congruence.
                * destruct (A q Hq) as [A3 A4]. split; [right; apply in_or_app; auto|]. intros z' u Ez' Hu. right. apply in_or_app. right. eauto.
              + intros t u [<-|Ht] Hn Hu; [discriminate|]. right. apply in_app_or in Ht as [Ht|Ht]; apply in_or_app; eauto.
            - exists ((Some s, 1) :: univ). split.
              + intros q [<-|Hq]; [split; [simpl; auto|congruence]|]. destruct (A q Hq) as [A3 A4]. split; [simpl; auto|].
                intros z' u Ez' Hu. right. eauto.
              + intros t u [<-|Ht] Hn Hu; [discriminate|]. right. eauto. }
        destruct (G (seq 0 (num_states f))) as (univ & H & HN).
        exists (filter (fun e => match fst e with Some _ => keqb (snd e) 1 | None => true end) univ). split.
        + intros t. unfold fw_start. destruct (vstart f) as [s|] eqn:Es; [|discriminate]. intros [= <-].
          apply filter_In. split; [|apply (keqb_refl L)]. apply H. apply in_seq. pose proof (proj2 D s Es). lia.
        + intros [o w] u Ht Hv Hu. apply filter_In in Ht as [Ht Hk]. cbn [fst snd] in Hk. apply filter_In. destruct o as [s|].
          * apply (keqb_true L) in Hk. subst w. unfold valid_elt in Hv. cbn in Hv.
            destruct (R_some _ _ _ Hv Hu) as [(t & p & Hin & _ & E & _)|(z & Ez & Hz)].
            -- rewrite (E AC). cbn [fst snd]. split; [|apply (keqb_refl L)]. apply H. apply in_seq. pose proof (proj1 D s t Hin). lia.
            -- split.
               ++ assert (In s (seq 0 (num_states f))) as Hs by (apply in_seq; lia). destruct (H s Hs) as (_ & A). eauto.
               ++ unfold R in Hz. rewrite trs_none in Hz. unfold fin_items in Hz. destruct ff; [|destruct Hz].
                  apply in_map_iff in Hz as (v & <- & Hz). destruct (fw_finals_in opts _ _ _ _ Hz) as (p & a & b & _ & -> & _). auto.
          * split.
            -- eapply HN; eauto.
            -- unfold R in Hu. rewrite trs_none in Hu. unfold fin_items in Hu. destruct ff; [|destruct Hu].
               apply in_map_iff in Hu as (v & <- & Hz). destruct (fw_finals_in opts _ _ _ _ Hz) as (p & a & b & _ & -> & _). auto.
      - destruct (vstart f) as [s|] eqn:Es.
        + destruct (spread (Some s, 1) (acc_some FD AC s 1 (proj2 D s Es))) as (l & A & B). exists l. split; [|eauto].
          intros t. unfold fw_start. rewrite Es. intros [= <-]. auto.
        + exists []. split; [|intros t u []]. intros t. unfold fw_start. rewrite Es. discriminate. }
    exists (length univ). intros fuel' HF.
    apply (fw_total (fun t => In t univ /\ valid_elt t)) with (univ := univ); auto; try tauto.
    - intros t Et. split; auto. unfold fw_start in Et. destruct (vstart f) as [s|] eqn:Es; [|discriminate]. injection Et as <-. exact (proj2 D s Es).
    - intros t l u [Ht Hv] El Hu.
      assert (HR : R (tn u) t) by (unfold R, trs_at; rewrite El; apply in_map; auto). split; [eauto|].
      destruct t as [[s|] w].
      + destruct (R_some s w _ Hv HR) as [(t & p & Hin & E & _)|(z & _ & Hz)].
        * unfold valid_elt. rewrite E. exact (proj1 D s t Hin).
        * unfold R in Hz. rewrite trs_none in Hz. unfold fin_items in Hz. destruct ff; [|destruct Hz].
          apply in_map_iff in Hz as (v & <- & Hz). destruct (fw_finals_in opts _ _ _ _ Hz) as (p & a & b & _ & -> & _). exact Logic.I.
      + unfold R in HR. rewrite trs_none in HR. unfold fin_items in HR. destruct ff; [|destruct HR].
        apply in_map_iff in HR as (v & <- & Hz). destruct (fw_finals_in opts _ _ _ _ Hz) as (p & a & b & _ & -> & _). exact Logic.I.
  Qed.
End C39.
Print Assumptions C39_factor_weight.
Print Assumptions C39_transitions_only.
Print Assumptions C39_totals.
Print Assumptions C39_terminates.

(** Neither kind of weight selected: an error, whatever the machine. *)
Theorem C39_nothing_to_factor {K : SR} (FI : factor_iter K) (opts : fw_opts K) (f : vfst K) fuel :
  fw_final opts = false -> fw_arc opts = false -> factor_weight FI opts f fuel = Some Err.
Proof. intros A B. unfold factor_weight. rewrite A, B. auto. Qed.
Print Assumptions C39_nothing_to_factor.

(** ** The iterators provided *)

(** The identity iterator factors nothing and meets the contract. *)
Theorem C39_identity {K : SR} (opts : fw_opts K) :
  factors_exactly (identity_factor K) opts /\ fades (identity_factor K) opts /\ factorable (identity_factor K).
Proof.
  split; [|split].
  - intros w. split; [auto|discriminate].
  - exists (fun _ => O). intros w p [].
  - right. intros w. cbn. lia.
Qed.
Print Assumptions C39_identity.

(** String weights: nothing for the zero string and for the empty string, otherwise the pair of the
    first label alone and the rest. *)
Theorem C39_string : forall w : svariant,
  (string_done w = true -> string_items w = []) /\
  (string_done w = false -> exists a l, w = Some (a :: l) /\ string_items w = [(Some [a], Some l)] /\
     sv_times (Some [a]) (Some l) = w).
Proof.
  intros [[|a l]|]; cbn; split; auto; try discriminate. intros _. exists a, l. auto.
Qed.
Print Assumptions C39_string.

(** Gallic weights (left, right, restrict, min): strings of at most one label are left alone, otherwise
    the first label goes out with the weight and the rest of the string stays with weight one; the
    product of the pair is the weight. *)
Theorem C39_gallic {W : weight} (LW : lawful W) : forall w : svariant * W,
  (gallic_done w = true -> gallic_items wone w = []) /\
  (gallic_done w = false -> exists a b l, fst w = Some (a :: b :: l) /\
     gallic_items wone w = [((Some [a], snd w), (Some (b :: l), wone))] /\
     @wtimes (gallic_left W) (Some [a], snd w) (Some (b :: l), wone) = Ok w).
Proof.
  intros [[[|a [|b l]]|] v]; cbn; split; auto; try discriminate. intros _. exists a, b, l. split; auto. split; auto.
  rewrite (proj2 (lw_times_one _ LW v)). auto.
Qed.
Print Assumptions C39_gallic.

(** The union variant: one pair per entry, whose product is that entry alone. Entries with the zero
    string do not occur in weights built by the semiring operations; such an entry is not recovered. *)
Theorem C39_gallic_union {W : weight} (LW : lawful W) : forall l : list (svariant * W),
  (gallic_union_done l = true -> gallic_union_items wone l = []) /\
  (gallic_union_done l = false ->
     Forall2 (fun w p => (forall s, fst w = Some s ->
         (length s <= 1 -> exists s1, fst p = [(s1, snd w)] /\ snd p = [(Some [], wone)]) /\
         (1 < length s -> exists a s2, fst p = [(Some [a], snd w)] /\ snd p = [(Some s2, wone)] /\ length s2 < length s) /\
         @wtimes (gallic_weight W) (fst p) (snd p) = Ok [w]))
       l (gallic_union_items wone l)).
Proof.
  intros l. split.
  - intros H. unfold gallic_union_items. rewrite H. auto.
  - intros H. unfold gallic_union_items. rewrite H. clear H. induction l as [|w l IH]; constructor; auto.
    destruct w as [s v]. intros s' E. cbn in E. subst s. cbn [fst snd].
    destruct s' as [|a [|b s']]; cbn [string_items fst snd length].
    + split; [eauto|]. split; [lia|]. cbn. rewrite (proj2 (lw_times_one _ LW v)). auto.
    + split; [eauto|]. split; [lia|]. cbn. rewrite (proj2 (lw_times_one _ LW v)). auto.
    + split; [lia|]. split; [exists a, (b :: s'); split; auto; split; auto; cbn; lia|]. cbn. rewrite (proj2 (lw_times_one _ LW v)). auto.
Qed.
Print Assumptions C39_gallic_union.

(** ** Single labels *)

(** [gallicSR K] (Model/Gallic.v): strings with the longest common prefix as sum, paired with weights. *)
Lemma gallicSR_laws (K : SR) : lsr_laws K -> lsr_laws (gallicSR K).
Proof.
  intros L. pose proof (C27_string_left) as S.
  assert (I : forall (x y : svariant), Ok x = Ok y -> x = y) by (intros x y E; injection E; auto).
  assert (P : forall x y, @wplus string_left x y = Ok (sl_plus x y)) by (intros [a|] [b|]; auto).
  split; [split|]; cbn; intros.
  - destruct x as [s x], y as [t y]. cbn. rewrite andb_true_iff, (keqb_true L). pose proof (lw_eqb _ S s t) as H. cbn in H. rewrite H.
    split; [intros [-> ->]; auto|]. intros E. injection E. auto.
  - f_equal; [|apply (kplus_assoc _ L)]. apply I. pose proof (lw_plus_assoc _ S (fst x) (fst y) (fst z)) as H.
    rewrite !P in H. cbn [rbind] in H. rewrite !P in H. auto.
  - f_equal; [|apply (kplus_comm _ L)]. apply I. rewrite <- !P. apply (lw_plus_comm _ S).
  - destruct x. cbn. f_equal. apply (kplus_0_l _ L).
  - f_equal; [|apply (ktimes_assoc _ L)]. destruct (fst x), (fst y), (fst z); cbn; auto. rewrite app_assoc. auto.
  - destruct x as [[s|] x]; cbn; f_equal; apply (ktimes_1_l _ L).
  - destruct x as [[s|] x]; cbn; rewrite ?app_nil_r; f_equal; apply (ktimes_1_r _ L).
  - f_equal. apply (ktimes_0_l _ L).
  - f_equal; [destruct (fst x); auto|]. apply (ktimes_0_r _ L).
  - f_equal; [|apply (kdistr_l _ L)]. destruct (fst x), (fst y), (fst z); cbn; auto. rewrite lcp_app. auto.
Qed.
Definition short {K : SR} (w : gallicSR K) : Prop := match fst w with None => True | Some s => (length s <= 1)%nat end.

Lemma short_dec {K : SR} (w : gallicSR K) : {short w} + {~ short w}.
Proof. destruct w as [[s|] v]; unfold short; cbn; auto. destruct (le_dec (length s) 1); auto. Qed.

Theorem C39_gallic_contract {K : SR} (L : lsr_laws K) (opts : fw_opts (gallicSR K)) : (forall w, quant opts w = w) ->
  factors_exactly (gallicFI K) opts /\ fades (gallicFI K) opts /\ factorable (gallicFI K).
Proof.
  intros Q. split; [|split].
  - intros [[[|a [|b l]]|] v]; split; cbn; auto; try discriminate. intros _. rewrite Q. cbn.
    rewrite (kplus_0_r L), (ktimes_1_r _ L). auto.
  - exists (fun w : gallicSR K => match fst w with Some s => length s | None => O end).
    intros [[[|a [|b l]]|] v] p; cbn; try tauto. intros [<-|[]]. rewrite Q. cbn. lia.
  - right. intros [[[|a [|b l]]|] v]; cbn; lia.
Qed.
Print Assumptions C39_gallic_contract.

(** In the result every transition carries at most one label of string; so does every final weight when
    final weights are factored. *)
Theorem C39_single_labels {K : SR} (L : lsr_laws K) (opts : fw_opts (gallicSR K)) f fuel g :
  fw_arc opts = true -> factor_weight (gallicFI K) opts f fuel = Some (Ok g) ->
  (forall s t, In t (trs_of g s) -> short (wgt t)) /\
  (fw_final opts = true -> forall s w, fin_of g s = Some w -> short w).
Proof.
  intros HA E.
  assert (DN : forall w : gallicSR K, gallic_done w = true -> short w).
  { intros [[s|] v]; unfold short; cbn; auto. intros H. apply Nat.leb_le in H. auto. }
  assert (IT : forall (w : gallicSR K) p, In p (gallic_items (1 : K) w) -> short (K := K) (fst p)).
  { intros [[[|a [|b l]]|] v] p; cbn; try tauto. intros [<-|[]]. cbn. auto. }
  destruct (fw_built (gallicSR_laws K L) (gallicFI K) opts f (fun _ => True) (fun _ _ => Logic.I) (fun _ _ _ _ _ _ => Logic.I) fuel g E)
    as (_ & (z & B) & _).
  pose proof B as (_ & CL & B'). destruct (vstart g) as [s0|] eqn:S0.
  2: { destruct B' as [Z _]. unfold trs_of, fin_of. rewrite Z. split; [intros s t|intros _ s w]; destruct s; cbn; try tauto; discriminate. }
  destruct B' as (_ & _ & BA & BN).
  assert (TA : forall e l u, fw_trs (gallicFI K) opts f e = Ok l -> In u l -> short (tw u)).
  { intros [o w] l u. unfold fw_trs. cbn [fst snd].
    assert (T1 : forall t u, In u (fw_tr (gallicFI K) opts w t) -> short (tw u)).
    { intros t v. unfold fw_tr. rewrite HA. cbn [negb orb]. destruct (fi_done (gallicFI K) _) eqn:Ed.
      - intros [<-|[]]. apply DN. auto.
      - intros H. apply in_map_iff in H as (p & <- & H). cbn. first [exact (IT _ _ H) | exact (IT _ _ Hp)]. }
    assert (T2 : forall v i j u, In u (fw_finals opts i j (fi_items (gallicFI K) v)) -> short (tw u)).
    { intros v i j x H. destruct (fw_finals_in opts _ _ _ _ H) as (p & a & b & Hp & -> & _). cbn. first [exact (IT _ _ H) | exact (IT _ _ Hp)]. }
    assert (T3 : forall trs, match o with None => Ok [] | Some s => rmap (flat_map (fw_tr (gallicFI K) opts w)) (get_trs f s) end = Ok trs ->
      forall u, In u trs -> short (tw u)).
    { intros trs. destruct o as [s|]; [|intros [= <-] x []]. destruct (get_trs f s); cbn; try discriminate. intros [= <-] x H.
      apply in_flat_map in H as (t & _ & H). eauto. }
    destruct (match o with None => Ok [] | Some s => rmap (flat_map (fw_tr (gallicFI K) opts w)) (get_trs f s) end) as [trs| |]; try discriminate.
    cbn [rbind]. specialize (T3 trs eq_refl).
    destruct (if fw_final opts then _ else _) as [[|]| |]; cbn [rbind]; try discriminate.
    - destruct (match o with Some s => _ | None => _ end) as [v| |]; cbn [rbind]; try discriminate. intros [= <-] H.
      apply in_app_or in H as [H|H]; [auto|eapply T2; eauto].
    - intros [= <-]. auto. }
  split.
  - intros s t Ht. destruct (short_dec (wgt t)) as [H|NS]; auto. exfalso.
    assert (N : ~ accessible (mach g) s).
    { intros A. apply NS. destruct (BA s A) as ((e & l & N & El & F2) & _).
      destruct (Forall2_in_l _ _ _ _ F2 Ht) as (u & Hu & (_ & _ & W & _)). rewrite W. eauto. }
    rewrite (proj1 (BN s N)) in Ht. destruct Ht.
  - intros HF s w Hw. destruct (short_dec w) as [H|NS]; auto. exfalso.
    assert (N : ~ accessible (mach g) s).
    { intros A. apply NS. destruct (BA s A) as (_ & (e & N & El)). rewrite Hw in El. unfold fw_fin in El. rewrite HF in El.
      destruct (match fst e with Some _ => _ | None => _ end) as [v| |]; cbn [rbind] in El; try discriminate.
      cbn [fi_done gallicFI gallicFI_of] in El. destruct (gallic_done v) eqn:Ed.
      - destruct (negb _ && _) in El; try discriminate. assert (v = w) as <- by congruence. apply DN. auto.
      - rewrite andb_false_r in El. discriminate. }
    rewrite (proj2 (BN s N)) in Hw. discriminate.
Qed.
Print Assumptions C39_single_labels.

(** ** A cyclic machine over (string, number) weights *)
Local Close Scope K_scope.
Notation gN := (gallicSR natSR).
Definition gn (s : list nat) (n : nat) : gN := (Some s, n : natSR).
Definition c39_f : vfst gN :=
  match run vnew [OAddStates 2; OSetStart 0; OSetFinal 1 (gn [7; 8; 9] 2);
     OAddTr 0 (Tr 1 1 (gn [4; 5; 6] 3) 1); OAddTr 1 (Tr 2 2 (gn [] 5) 0)] with Ok f => f | _ => vnew end.
Definition c39_opts (fin arc : bool) : fw_opts gN := FWO fin arc (fun w => w) 0 0 false false.

Definition c39_g : vfst gN :=
  match run vnew [OAddStates 3; OSetStart 0; OSetFinal 2 (gn [7; 8] 2);
     OAddTr 0 (Tr 1 1 (gn [4; 5; 6] 3) 1); OAddTr 0 (Tr 1 1 (gn [4; 5] 1) 2); OAddTr 1 (Tr 2 2 (gn [] 5) 2)] with Ok f => f | _ => vnew end.

Definition c39_out (x : option (res (vfst gN))) : vfst gN := match x with Some (Ok f) => f | _ => vnew end.
Lemma c39_closed : closed c39_f /\ closed c39_g.
Proof. split; apply closedb_ok; vm_compute; reflexivity. Qed.

Local Close Scope K_scope.
Example C39_witness :
  lsr_laws gN /\ closed c39_f /\ closed c39_g /\
  (forall fin arc, factors_exactly (gallicFI natSR) (c39_opts fin arc) /\ fades (gallicFI natSR) (c39_opts fin arc)) /\ factorable (gallicFI natSR) /\
  exists g h, factor_weight (gallicFI natSR) (c39_opts true false) c39_f 20 = Some (Ok g) /\
    factor_weight (gallicFI natSR) (c39_opts true true) c39_g 20 = Some (Ok h) /\
    num_states g = 4 /\ rel (mach g) 3 [1] [1] = gn [4; 5; 6; 7; 8; 9] 6 /\ rel (mach c39_f) 1 [1] [1] = gn [4; 5; 6; 7; 8; 9] 6 /\
    num_states h = 6 /\ rel (mach h) 3 [1] [1] = gn [4; 5; 7; 8] 2 /\ rel (mach c39_g) 1 [1] [1] = gn [4; 5; 7; 8] 2 /\
    rel (mach h) 4 [1; 2] [1; 2] = gn [4; 5; 6; 7; 8] 30.
Proof.
  split; [exact (gallicSR_laws natSR natSR_laws)|]. split; [apply c39_closed|]. split; [apply c39_closed|].
  split; [intros fin arc; destruct (C39_gallic_contract natSR_laws (c39_opts fin arc) (fun _ => eq_refl)) as (A & B & _); auto|].
  split; [apply (C39_gallic_contract natSR_laws (c39_opts true true) (fun _ => eq_refl))|].
  exists (c39_out (factor_weight (gallicFI natSR) (c39_opts true false) c39_f 20)), (c39_out (factor_weight (gallicFI natSR) (c39_opts true true) c39_g 20)).
  repeat match goal with |- _ /\ _ => split end; vm_compute; reflexivity.
Qed.

(** The property word does not know about the labels given to chains: with different input and output
    labels the result of an acceptor claims to be one and is not
    (fst_properties/mutable_properties.rs, factor_weight_properties). *)
Definition c39_opts12 : fw_opts gN := FWO true false (fun w => w) 1 2 false false.
Theorem C39_bits_refuted :
  exists f g, run vnew [OAddStates 1; OSetStart 0; OSetFinal 0 (gn [7; 8] 2)] = Ok f /\
    factor_weight (gallicFI natSR) c39_opts12 f 20 = Some (Ok g) /\
    has (vprops g) ACCEPTOR = true /\ ~ (forall s t, In t (mtrs (mach g) s) -> il t = ol t).
Proof.
  exists (match run (vnew (K := gN)) [OAddStates 1; OSetStart 0; OSetFinal 0 (gn [7; 8] 2)] with Ok f => f | _ => vnew end).
  exists (c39_out (factor_weight (gallicFI natSR) c39_opts12
    (match run (vnew (K := gN)) [OAddStates 1; OSetStart 0; OSetFinal 0 (gn [7; 8] 2)] with Ok f => f | _ => vnew end) 20)).
  repeat match goal with |- _ /\ _ => split end; try (vm_compute; reflexivity).
  intros A. specialize (A 0 (Tr 1 2 (gn [7] 2) 1)). vm_compute in A. assert (1 = 2) by (apply A; left; reflexivity). discriminate.
Qed.
Print Assumptions C39_bits_refuted.
