(** From the pushed machine back to labels, and the distances that pushing uses. *)
From Coq Require Import List Arith NArith Bool Lia.
From Verif Require Import Base.Util Base.Semiring Base.Machine Base.PathSum Base.PropSpec Model.Props Model.AlgoProps Model.VectorFst Model.History
  Model.Rational Model.TrMap Model.Weights Model.FactorWeight Model.Queues Model.ShortestDistance Model.Reweight Model.LabelReach Model.Gallic.
From Verif Require Import Proofs.PropsFacts Proofs.VectorFacts Proofs.VectorProps Proofs.TrOpsFacts Proofs.OpFacts Proofs.ConnectFacts Proofs.RationalFacts
  Proofs.ReverseDist Proofs.ReweightFacts Proofs.LazyFacts Proofs.LabelFacts Proofs.GallicFacts Proofs.LabelPot Proofs.GallicPath Proofs.PushPath Proofs.LabelPush
  Props.C16 Props.C18 Props.C27 Props.C31 Props.C39.
Import ListNotations.
Local Open Scope K_scope.

(** ** More fuel changes nothing *)
Section Fuel.
  Lemma sd_loop_more {K : SR} (Q : qops) fp rt (keep : tr K -> bool) f R : forall fuel st, sd_loop Q fp rt keep fuel f st = Some R -> forall fuel', (fuel <= fuel')%nat -> sd_loop Q fp rt keep fuel' f st = Some R.
  Proof.
    induction fuel as [|fuel IH]; intros st; cbn [sd_loop]; [discriminate|]. intros E [|fuel'] H; [lia|]. cbn [sd_loop].
    destruct (qo_dequeue Q (sd_queue Q st)) as [[[s|] q]| |]; auto.
    destruct (if fp then final_weight f s else Ok None) as [[w|]| |]; auto.
    destruct (nth_error (sd_cells Q st) s); auto. destruct (get_trs f s); auto. destruct (sd_trs _ _ _ _ _ _ _); auto.
    apply IH; auto. lia.
  Qed.
  Lemma sd_more {K K' : SR} idem pathp rp (rv : K -> K') (rb : K' -> K) fuel f rev R : shortest_distance idem pathp rp rv rb fuel f rev = Some R ->
    forall fuel', (fuel <= fuel')%nat -> shortest_distance idem pathp rp rv rb fuel' f rev = Some R.
  Proof.
    intros E fuel' H. revert E. unfold shortest_distance, sd_internal, sd_run.
    destruct (negb rev).
    - destruct (auto_queue_new _ _ _ _ _); auto. destruct (vstart f); auto. destruct (negb rp); auto. cbn [andb]. destruct (qo_clear _ _); auto. destruct (qo_enqueue _ _ _); auto.
      destruct (sd_loop code_queue false false _ fuel f _) as [x|] eqn:El; [|discriminate]. rewrite (sd_loop_more _ _ _ _ _ _ _ _ El _ H). auto.
    - destruct (reverse rv f) as [rf| |]; auto.
      destruct (auto_queue_new _ _ _ _ _); auto. destruct (vstart rf); auto. destruct (negb rp); auto. cbn [andb]. destruct (qo_clear _ _); auto. destruct (qo_enqueue _ _ _); auto.
      destruct (sd_loop code_queue false false _ fuel rf _) as [x|] eqn:El; [|discriminate]. rewrite (sd_loop_more _ _ _ _ _ _ _ _ El _ H). auto.
  Qed.
End Fuel.

(** ** Paths of the machine with labels in the weights *)
Section Paths.
  Context {K : SR} (L : lsr_laws K).
  Notation G := (gallicSR K).
  Let LG : lsr_laws G := gallicSR_laws K L.
  Context (f : vfst K) (gf : vfst G) (M : mapped gtr gfin f gf).

  Lemma gtrs s : trs_of gf s = map gtr (trs_of f s).
  Proof. apply M. Qed.
  Lemma gpaths k : forall s, paths (mach gf) k s = map (map gtr) (paths (mach f) k s).
  Proof.
    induction k as [|k IH]; intros s; auto. cbn [paths mach mtrs]. rewrite gtrs, flat_map_concat_map, map_map, flat_map_concat_map, concat_map, map_map.
    f_equal. apply map_ext. intros t. cbn [gtr ns]. fold (mach gf). fold (mach f). rewrite IH, !map_map. auto.
  Qed.
  Lemma gdst (p : list (tr K)) : forall s, dst s (map gtr p) = dst s p.
  Proof. induction p as [|t p IH]; intros s; auto. apply IH. Qed.
  Lemma gilabs (p : list (tr K)) : ilabs (map gtr p) = ilabs p.
  Proof. unfold ilabs. induction p as [|t p IH]; auto. cbn [map flat_map]. rewrite IH. auto. Qed.
  Lemma gapw p : forall s, apw (mach gf) s (map gtr p) =
    match fin_of f (dst s p) with Some _ => ((Some (olabs p), apw (mach f) s p) : G) | None => (0 : G) end.
  Proof.
    induction p as [|t p IH]; intros s.
    - cbn [map]. rewrite (apw_0 LG), (apw_0 L). cbn [dst mach mfin]. rewrite (proj2 (proj2 (proj2 (proj2 (proj2 (proj2 M)))) s)). destruct (fin_of f s); auto.
    - cbn [map]. rewrite (apw_t LG), (apw_t L). cbn [dst gtr ns wgt]. fold (gtr (K := K)). rewrite IH. destruct (fin_of f (dst (ns t) p)); auto. apply (ktimes_0_r _ LG).
  Qed.
  Lemma gis_path p : forall s, is_path (mach f) s p -> is_path (mach gf) s (map gtr p).
  Proof.
    induction p as [|t p IH]; intros s; cbn [map is_path]; auto. intros [Ht Hp]. split; [|apply IH; auto]. cbn [mach mtrs]. rewrite gtrs. apply in_map. auto.
  Qed.
End Paths.

(** ** The result in terms of the paths of the given machine *)
Definition success {K : SR} (f : vfst K) (a : nat) (p : list (tr K)) : bool := match fin_of f (dst a p) with Some _ => true | None => false end.

Section Back.
  Context {K : SR} (L : lsr_laws K).
  Notation G := (gallicSR K).
  Let LG : lsr_laws G := gallicSR_laws K L.
  Context (divide : K -> K -> Reweight.divide_type -> res K).
  Context (p : push_type) (f : vfst K) (gf : vfst G) (a : nat) (D : list G) (M : mapped gtr gfin f gf).
  Context (cs : list nat) (cv : K) (RE : removed p a D = ((Some cs, cv) : G)).
  Context (g : vfst G) (b d : nat) (psi : list (tr G) -> list (tr G)) (OK : ok_result divide p f gf a D g b d psi).

  (** What a path of [g] contributes, [tau] steps behind. *)
  Definition shifted (tau : list (tr G) -> nat) (k : nat) (x y : list nat) (q : list (tr G)) : K :=
    match apw (mach g) b q with
    | (Some z, c) => if leqb (ilabs q) x && leqb z y && Nat.eqb (length q + tau q) k then c else 0
    | (None, _) => 0
    end.
  Theorem back_sum (tau : list (tr G) -> nat) (mr : machine K) :
    (forall k x y, rel mr k x y = ksum (map (fun i => ksum (map (shifted tau k x y) (paths (mach g) i b))) (seq 0 (S k)))) ->
    exists delay val,
      (forall k x y, rel mr k x y = ksum (map (fun i => ksum (map (fun q =>
         if success f a q && Nat.eqb (length q + delay q) k && reads x (cs ++ y) q then val q else 0) (paths (mach f) i a))) (seq 0 (S k)))) /\
      (forall q, is_path (mach f) a q -> success f a q = true -> cv * val q = apw (mach f) a q /\ exists z, (olabs q = cs ++ z)%list).
  Proof.
    intros R5. destruct OK as (Cg & Sp & Cn & I1 & I2 & Vg & (P1 & P2 & P3) & _).
    assert (W : forall q, is_path (mach f) a q ->
      match fin_of f (dst a q) with
      | Some _ => exists z c, apw (mach g) b (psi (map gtr q)) = ((Some z, c) : G) /\ (olabs q = cs ++ z)%list /\ cv * c = apw (mach f) a q
      | None => fst (apw (mach g) b (psi (map gtr q))) = None
      end).
    { intros q Hq. destruct (P3 _ (gis_path f gf M q a Hq)) as [_ W]. rewrite (gapw L f gf M q a), RE in W.
      destruct (apw (mach g) b (psi (map gtr q))) as [[z|] c]; destruct (fin_of f (dst a q)) as [w|]; try (cbn in W; discriminate W); auto.
      exists z, c. cbn [ktimes gallicSR gallic_of fst snd sv_times] in W. injection W as W1 W2. auto. }
    exists (fun q => (d + tau (psi (map gtr q)))%nat), (fun q => snd (apw (mach g) b (psi (map gtr q)))). split.
    2: { intros q Hq S. specialize (W q Hq). unfold success in S. destruct (fin_of f (dst a q)); [|discriminate]. destruct W as (z0 & c0 & -> & A & B). split; [exact B|eauto]. }
    intros k x y. rewrite R5.
    set (F := fun q => if success f a q && Nat.eqb (length q + (d + tau (psi (map gtr q)))) k && reads x (cs ++ y) q
                       then snd (apw (mach g) b (psi (map gtr q))) else 0).
    (* path by path *)
    assert (PB : forall i q, In q (paths (mach f) i a) -> shifted tau k x y (psi (map gtr q)) = F q).
    { intros i q Hq. pose proof (proj1 (paths_is_path (mach f) i a q) Hq) as [Hp Hl]. specialize (W q Hp).
      unfold shifted, F, success. destruct (P3 _ (gis_path f gf M q a Hp)) as [IL _]. rewrite IL, gilabs.
      assert (LE : length (psi (map gtr q)) = (length q + d)%nat).
      { assert (X : In (psi (map gtr q)) (paths (mach g) (i + d) b)) by (rewrite P1, (gpaths f gf M), map_map; apply (in_map (fun q => psi (map gtr q))); auto).
        apply paths_is_path in X. lia. }
      destruct (fin_of f (dst a q)) as [w|].
      - destruct W as (z & c & -> & A & _). cbn [snd andb]. rewrite LE, Nat.add_assoc. unfold reads. rewrite A.
        assert (LQ : leqb (cs ++ z) (cs ++ y) = leqb z y) by (apply eq_true_iff_eq; rewrite !leqb_true; split; [apply app_inv_head|congruence]).
        rewrite LQ. destruct (Nat.eqb (length q + d + _) k); rewrite ?andb_true_r, ?andb_false_r; cbn [andb]; auto.
      - destruct (apw (mach g) b (psi (map gtr q))) as [[z|] c]; [discriminate W|]. cbn [andb]. auto. }
    (* the sums *)
    assert (SUM : forall i, ksum (map (shifted tau k x y) (paths (mach g) (i + d) b)) = ksum (map F (paths (mach f) i a))).
    { intros i. rewrite P1, (gpaths f gf M), !map_map. f_equal. apply map_ext_in. intros q Hq. apply (PB i q Hq). }
    assert (LOW : forall i, (i < d)%nat -> ksum (map (shifted tau k x y) (paths (mach g) i b)) = 0).
    { intros i Hi. apply (ksum_map_zero L). intros q Hq. unfold shifted. pose proof (P2 i q Hi Hq) as N.
      assert (X : apw (mach g) b q = (0 : G)) by (unfold apw; rewrite N; apply (ktimes_0_r _ LG)). rewrite X. auto. }
    assert (HIGH : forall i, (k < i + d)%nat -> ksum (map F (paths (mach f) i a)) = 0).
    { intros i Hi. apply (ksum_map_zero L). intros q Hq. apply paths_is_path in Hq as [_ Hq]. unfold F.
      destruct (Nat.eqb_spec (length q + (d + tau (psi (map gtr q)))) k) as [X|X]; [lia|]. rewrite andb_false_r. auto. }
    destruct (Nat.lt_ge_cases k d) as [Hk|Hk].
    - transitivity (@kzero K); [|symmetry].
      + apply (ksum_map_zero L). intros i Hi. apply in_seq in Hi. apply LOW. lia.
      + apply (ksum_map_zero L). intros i Hi. apply in_seq in Hi. apply HIGH. lia.
    - replace (S k) with (d + (S k - d))%nat at 1 by lia. rewrite seq_app, map_app, (ksum_app L).
      match goal with |- ?A + _ = _ => assert (Z : A = 0) end.
      { apply (ksum_map_zero L). intros i Hi. apply in_seq in Hi. apply LOW. lia. }
      rewrite Z, (kplus_0_l _ L). symmetry. replace (S k) with ((S k - d) + d)%nat at 1 by lia. rewrite seq_app, map_app, (ksum_app L).
      assert (Z2 : ksum (map (fun i => ksum (map F (paths (mach f) i a))) (seq (0 + (S k - d)) d)) = 0).
      { apply (ksum_map_zero L). intros i Hi. apply in_seq in Hi. apply HIGH. lia. }
      rewrite Z2, (kplus_0_r L). cbn [Nat.add].
      assert (SH : forall n s, seq (s + n) (S k - d) = map (fun i => (i + n)%nat) (seq s (S k - d))).
      { intros n s. rewrite <- (Nat.add_comm n). generalize (S k - d)%nat. intros m. revert s. induction m as [|m IH]; intros s; auto. cbn [seq map]. f_equal; [lia|]. rewrite <- IH. f_equal. lia. }
      pose proof (SH d O) as SH0. cbn [Nat.add] in SH0. rewrite SH0, map_map. f_equal. apply map_ext. intros i. symmetry. apply SUM.
  Qed.

  Theorem back_rel fuel r : ungallic sl_plus fuel g = Some (Ok r) ->
    closed r /\ cnt r /\ vstart r <> None /\ visymt r = visymt f /\ vosymt r = vosymt f /\
    exists delay val,
      (forall k x y, rel (mach r) k x y = ksum (map (fun i => ksum (map (fun q =>
         if success f a q && Nat.eqb (length q + delay q) k && reads x (cs ++ y) q then val q else 0) (paths (mach f) i a))) (seq 0 (S k)))) /\
      (forall q, is_path (mach f) a q -> success f a q = true -> cv * val q = apw (mach f) a q /\ exists z, (olabs q = cs ++ z)%list).
  Proof.
    intros E. pose proof OK as (Cg & Sp & Cn & I1 & I2 & Vg & _).
    destruct (ungallic_rel L sl_plus LG g fuel r Sp Cg E) as (R1 & R2 & R3 & _ & R5).
    split; auto. split; auto. destruct (R3 ltac:(intros X; change (vstart (K := G) g = None) in X; congruence)) as (R6 & R7 & R8).
    split; auto. split; [rewrite <- I1; exact R7|]. split; [rewrite <- I2; exact R8|]. change (gallic_of sl_plus K) with G in R5.
    apply (back_sum (tail sl_plus g b [])). intros k x y. rewrite R5, Vg. auto.
  Qed.
End Back.

(** ** The distances *)
Definition common {K : SR} (f : vfst K) (a : nat) (z : list nat) : Prop :=
  forall q, is_path (mach f) a q -> success f a q = true -> exists r, (olabs q = z ++ r)%list.

Section Graph.
  Context {K1 K2 : SR} (m1 : machine K1) (m2 : machine K2) (h : tr K1 -> tr K2) (E : forall s, mtrs m2 s = map h (mtrs m1 s)) (N : forall t, ns (h t) = ns t).
  Lemma map_reach s q : reach m2 s q -> reach m1 s q.
  Proof. induction 1 as [|s t u X _ IH]; [constructor|]. rewrite E in X. apply in_map_iff in X as (t0 & <- & H0). rewrite N in IH. econstructor; eauto. Qed.
  Lemma map_cycle s : on_cycle m2 s -> on_cycle m1 s.
  Proof. intros (t & X & R). rewrite E in X. apply in_map_iff in X as (t0 & <- & H0). rewrite N in R. exists t0. split; auto. apply map_reach. auto. Qed.
End Graph.

Section Dist.
  Context {K K' : SR} (L : lsr_laws K) (L' : rsr_laws K') (rv : K -> K') (rb : K' -> K).
  Context (rv_0 : rv 0 = 0) (rv_1 : rv 1 = 1) (rv_plus : forall a b, rv (a + b) = rv a + rv b) (rv_times : forall a b, rv (a * b) = rv b * rv a)
    (rb_rv : forall a, rb (rv a) = a) (rv_rb : forall a, rv (rb a) = a).
  Context (Zf : zero_sum_free K) (Zd : no_zero_divisors K) (Wd : weakly_divisible K).
  Notation G := (gallicSR K).
  Let LG : lsr_laws G := gallicSR_laws K L.
  Notation gsd idem fuel gm := (shortest_distance (K := G) (K' := gallicRSR K') idem false true (gallic_reverse rv) (gallic_reverse (sp := sr_plus) rb) fuel gm true).

  Lemma lcp_big (l : list G) z u : fst (ksum l) = Some u -> (forall x a, In x l -> fst x = Some a -> exists r, (a = z ++ r)%list) -> exists r, (u = z ++ r)%list.
  Proof.
    revert u. induction l as [|x l IH]; intros u; cbn [ksum]; [discriminate|]. cbn [kplus gallicSR gallic_of fst]. intros E H.
    assert (IH' := fun v e => IH v e (fun y b i => H y b (or_intror i))). destruct (fst x) as [a|] eqn:Ex.
    - destruct (H x a (or_introl eq_refl) Ex) as (r & ->). destruct (fst (ksum l)) as [b|] eqn:El; cbn in E; injection E as <-; [|eauto].
      destruct (IH' b eq_refl) as (r' & ->). exists (lcp r r'). clear. induction z as [|i z IH]; auto. cbn. rewrite Nat.eqb_refl, IH. auto.
    - cbn in E. apply IH'. auto.
  Qed.

  (** After reweighting no string is common to all that leaves a state. *)
  Lemma good_live (D : list G) (f : vfst K) : good D f -> forall q s, is_path (mach f) s q -> success f s q = true -> pot D s <> (0 : G).
  Proof.
    intros GD. induction q as [|t q IH]; intros s; cbn [is_path].
    - intros _ S Z. destruct (gd_dead D f GD s Z) as (X & _). unfold success in S. cbn [dst] in S. rewrite X in S. discriminate.
    - intros [Ht Hq] S Z. apply (IH (ns t) Hq S). apply (proj2 (gd_dead D f GD s Z) t Ht).
  Qed.
  Lemma pot_common (D : list G) (f : vfst K) : good D f -> forall q s u v, pot D s = (Some u, v) -> is_path (mach f) s q -> success f s q = true -> exists r, (olabs q = u ++ r)%list.
  Proof.
    intros GD. induction q as [|t q IH]; intros s u v E; cbn [is_path].
    - intros _ Sq. unfold success in Sq. cbn [dst] in Sq. destruct (fin_of f s) as [w|] eqn:Ew; [|discriminate]. destruct (gd_fin D f GD s u v w E Ew) as (-> & _). exists []. auto.
    - intros [Ht Hq] Sq. destruct (gd_reg D f GD (ns t)) as [Z|(u' & v' & Z & _)].
      + exfalso. exact (good_live D f GD q (ns t) Hq Sq Z).
      + destruct (IH (ns t) u' v' Z Hq Sq) as (r & Er). destruct (gd_tr D f GD s u v t u' v' E Ht Z) as ((r' & Er') & _).
        exists (r' ++ r)%list. change (olabs (t :: q)) with (lab (ol t) ++ olabs q)%list. rewrite Er, app_assoc, Er', app_assoc. auto.
  Qed.
  Lemma pushed_strings (divide : K -> K -> Reweight.divide_type -> res K) (DE : divides_exactly divide) (D : list G) (f : vfst K) (gf : vfst G) : mapped gtr gfin f gf -> good D f ->
    (forall s u v z, pot D s = (Some u, v) -> common f s z -> exists r, (u = z ++ r)%list) ->
    forall s, pot D s <> (0 : G) ->
    exists v, fw (fin_after (gallic_divide (sp := sl_plus) divide true) D ToInitial gf s) + ksum (map (@wgt G) (trs_after (gallic_divide (sp := sl_plus) divide true) D ToInitial gf s)) = ((Some [], v) : G).
  Proof.
    intros M GD LONG s Ns. destruct (pot_live f D GD s Ns) as (u & v & Es & Nv).
    set (gdiv := gallic_divide (sp := sl_plus) divide true : G -> G -> Reweight.divide_type -> res G).
    change (exists v0, ksum (fw (fin_after gdiv D ToInitial gf s) :: map (@wgt G) (trs_after gdiv D ToInitial gf s)) = ((Some [], v0) : G)).
    set (l := fw (fin_after gdiv D ToInitial gf s) :: map (@wgt G) (trs_after gdiv D ToInitial gf s)).
    assert (ZS : is_zero (pot D s) = false) by (apply (keqb_false LG); auto).
    assert (TW : forall t, In t (trs_of f s) -> exists t', In t' (trs_after gdiv D ToInitial gf s) /\
       forall u' v', pot D (ns t) = (Some u', v') -> exists r c, wgt t' = ((Some r, c) : G) /\ (lab (ol t) ++ u' = u ++ r)%list).
    { intros t Ht. exists (rho gdiv D s (gtr t)). split.
      - rewrite trs_rho. apply in_map. rewrite (gtrs f gf M). apply in_map. auto.
      - intros u' v' En. unfold rho. rewrite ZS. unfold rewt, new_weight. cbn [gtr ns wgt].
        assert (Zn : is_zero (pot D (ns t)) = false) by (apply (keqb_false LG); rewrite En; discriminate). rewrite Zn, Es, En.
        destruct (gd_tr D f GD s u v t u' v' Es Ht En) as ((r & Er) & Q).
        change (((str (ol t), wgt t) : G) * ((Some u', v') : G)) with ((Some (lab (ol t) ++ u')%list, wgt t * v') : G). rewrite Er.
        destruct (gdiv_ok divide DE u r v _ Nv Q) as (c & Ec & Hc). unfold gdiv. rewrite Ec. exists r, c. auto. }
    assert (FW : forall w, fin_of f s = Some w -> exists c, In ((Some [], c) : G) l).
    { intros w Ew. destruct (gd_fin D f GD s u v w Es Ew) as (-> & Q). unfold l, fin_after. rewrite ZS, (proj2 (proj2 (proj2 (proj2 (proj2 (proj2 M)))) s)), Ew.
      cbn [option_map]. rewrite Es. destruct (gdiv_ok divide DE [] [] v w Nv Q) as (c & Ec & Hc). change (gfin w) with ((Some ([] ++ [])%list, w) : G). unfold gdiv. rewrite Ec.
      exists c. left. auto. }
    assert (CM : forall z c, fst (ksum l) = Some z -> ksum l = ((Some z, c) : G) -> common f s (u ++ z)).
    { intros z c Ez _ q Hq Sq. destruct q as [|t q].
      - unfold success in Sq. cbn [dst] in Sq. destruct (fin_of f s) as [w|] eqn:Ew; [|discriminate]. destruct (gd_fin D f GD s u v w Es Ew) as (Eu & _).
        destruct (FW w eq_refl) as (c' & I). destruct (fst_ksum_in _ _ [] I eq_refl) as (z' & r & E' & Er). symmetry in Er. apply app_eq_nil in Er as [-> _].
        assert (z = []) as -> by congruence. rewrite Eu. exists []. auto.
      - destruct Hq as [Ht Hq]. destruct (TW t Ht) as (t' & It & Sh).
        destruct (gd_reg D f GD (ns t)) as [Z|(u' & v' & Z & _)].
        + exfalso. exact (good_live D f GD q (ns t) Hq Sq Z).
        + destruct (Sh u' v' Z) as (r & c' & Ew & Er). destruct (pot_common D f GD q (ns t) u' v' Z Hq Sq) as (r0 & E0).
          assert (I : In (wgt t') l) by (right; apply in_map; auto). rewrite Ew in I. destruct (fst_ksum_in _ _ r I eq_refl) as (z' & r1 & E' & ->).
          assert (z' = z) as -> by congruence. exists (r1 ++ r0)%list. change (olabs (t :: q)) with (lab (ol t) ++ olabs q)%list. rewrite E0, app_assoc, Er, <- !app_assoc. auto. }
    destruct (ksum l) as [[z|] c] eqn:El.
    - destruct (LONG s u v (u ++ z)%list Es (CM z c eq_refl eq_refl)) as (r & Er). exists c.
      assert (length u = length ((u ++ z) ++ r)) by (rewrite <- Er; auto). rewrite !app_length in H. destruct z; [auto|cbn in H; lia].
    - exfalso. assert (N : forall x, In x l -> fst x = None) by (apply (fst_ksum l); rewrite El; auto).
      assert (CZ : common f s (u ++ [O])).
      { intros q Hq Sq. exfalso. destruct q as [|t q].
        - unfold success in Sq. cbn [dst] in Sq. destruct (fin_of f s) as [w|] eqn:Ew; [|discriminate]. destruct (FW w eq_refl) as (c' & I). specialize (N _ I). discriminate.
        - destruct Hq as [Ht Hq]. destruct (TW t Ht) as (t' & It & Sh). destruct (gd_reg D f GD (ns t)) as [Z|(u' & v' & Z & _)].
          + exact (good_live D f GD q (ns t) Hq Sq Z).
          + destruct (Sh u' v' Z) as (r & c' & Ew & Er). specialize (N (wgt t')). rewrite Ew in N. discriminate N. right. rewrite <- Ew. apply in_map. auto. }
      destruct (LONG s u v _ Es CZ) as (r & Er). assert (length u = length ((u ++ [O]) ++ r)) by (rewrite <- Er; auto). rewrite !app_length in H. cbn in H. lia.
  Qed.

  Section One.
    Context (m : vfst K) (gm : vfst G) (M : mapped gtr gfin m gm) (C : closed gm) (Sd : fsound gm) (NZ : no_zeros m).
    Context (SL : forall s t, In t (trs_of m s) -> ns t = s -> ol t = O /\ forall v : K, v + wgt t * v = v).

    Lemma gm_loops s t : In t (trs_of gm s) -> ns t = s -> forall r : G, r + wgt t * r = r.
    Proof.
      rewrite (gtrs m gm M). intros Ht. apply in_map_iff in Ht as (t0 & <- & H0). intros E [[u|] v]; destruct (SL s t0 H0 E) as (O0 & V).
      - cbn [gtr wgt ktimes kplus gallicSR gallic_of fst snd str sv_times sl_plus]. rewrite O0. cbn [lab Nat.eqb app]. rewrite lcp_idem, V. auto.
      - cbn [gtr wgt ktimes kplus gallicSR gallic_of fst snd str sv_times sl_plus]. rewrite V. auto.
    Qed.
    Lemma gm_acyclic : (forall s, ~ on_cycle (mach m) s) -> forall s, ~ on_cycle (mach gm) s.
    Proof. intros H s X. apply (H s). apply (map_cycle (mach m) (mach gm) gtr); auto. intros q. apply (gtrs m gm M). Qed.

    Definition dist_facts (D : list G) : Prop :=
      good D m /\ (length D <= num_states gm)%nat /\ forall s, (s < num_states gm)%nat -> settles (fun k => back (mach gm) k s) (nth s D 0).

    Theorem dist_of idem fuel R : idempotent_plus K \/ (forall s, ~ on_cycle (mach m) s) -> gsd idem fuel gm = Some R -> exists D, R = Ok D /\ dist_facts D.
    Proof.
      intros IA E.
      destruct (C16_reverse_left (K := G) (K' := gallicRSR K') LG (gallicRSR_laws K' L') (gallic_reverse rv) (gallic_reverse rb)
        (grv_0 rv rv_0) (grv_1 rv rv_1) (grv_plus rv rv_plus) (grv_times rv rv_times) (grb_grv rv rb rb_rv) (grv_grb rv rb rv_rb) gm idem false fuel R C (fun H => Sd ACYCLIC H) gm_loops) as (D & -> & D1 & D2 & D3).
      - destruct IA as [I|A]; [left; apply gallic_idem; auto|right; apply gm_acyclic; auto].
      - exact E.
      - exists D. split; auto. split; [|split; auto]. apply (pots_good L Zf Zd Wd m gm M NZ D D1 D2 D3).
    Qed.
    Theorem dist_stops idem : no_endless_growth K \/ (forall s, ~ on_cycle (mach m) s) -> exists fuel R, gsd idem fuel gm = Some R.
    Proof.
      intros IA.
      apply (C16_reverse_left_stops (K := G) (K' := gallicRSR K') (gallicRSR_laws K' L') (gallic_reverse rv) (gallic_reverse rb)
        (grv_plus rv rv_plus) (grv_times rv rv_times) (grb_grv rv rb rb_rv) (grv_grb rv rb rv_rb) gm idem false C (fun H => Sd ACYCLIC H) gm_loops).
      destruct IA as [I|A]; [left; apply gallic_growth; auto|right; apply gm_acyclic; auto].
    Qed.

    Lemma back_string k s u z : fst (back (mach gm) k s) = Some u -> common m s z -> exists r, (u = z ++ r)%list.
    Proof.
      intros E H. unfold back in E. apply (lcp_big _ _ _ E). intros x a Hx Ea. apply in_map_iff in Hx as (i & <- & _). unfold psum in Ea.
      apply (lcp_big _ _ _ Ea). intros y b Hy Eb. apply in_map_iff in Hy as (q & <- & Hq). rewrite (gpaths m gm M) in Hq. apply in_map_iff in Hq as (q0 & <- & Hq).
      rewrite (gapw L m gm M) in Eb. apply paths_is_path in Hq as [Hq _]. specialize (H q0 Hq). unfold success in H.
      destruct (fin_of m (dst s q0)); [|discriminate]. injection Eb as <-. apply H. auto.
    Qed.
    Lemma pot_longest D s u v z : dist_facts D -> pot D s = (Some u, v) -> common m s z -> exists r, (u = z ++ r)%list.
    Proof.
      intros (_ & Ln & Se) E H. unfold pot in E. destruct (Nat.lt_ge_cases s (num_states gm)) as [X|X].
      - destruct (Se s X) as (k & Hk). apply (back_string k s u z); auto. rewrite (Hk k (le_n _)), E. auto.
      - rewrite nth_overflow in E by lia. discriminate.
    Qed.
    Lemma back_value_eq k : forall s, snd (back (mach gm) k s) = back (mach m) k s.
    Proof.
      induction k as [|k IH]; intros s; [rewrite (back_0 LG), (back_0 L)|rewrite (back_S LG), (back_S L)]; cbn [mach mfin mtrs]; rewrite (gm_fin m gm M).
      - destruct (fin_of m s); auto.
      - cbn [kplus gallicSR gallic_of snd]. f_equal; [destruct (fin_of m s); auto|]. rewrite snd_ksum, map_map, (gm_trs m gm M), map_map. f_equal. apply map_ext. intros t.
        cbn [ktimes gallicSR gallic_of snd gtr wgt ns]. rewrite <- IH. auto.
    Qed.
    Lemma pot_total D s : dist_facts D -> (s < num_states gm)%nat -> settles (fun k => back (mach m) k s) (snd (pot D s)).
    Proof.
      intros (_ & _ & Se) X. destruct (Se s X) as (k & Hk). exists k. intros j Hj. rewrite <- back_value_eq, (Hk j Hj). auto.
    Qed.
  End One.

  (** Both ways of getting the distances. *)
  Section Two.
    Context (p : push_type) (f : vfst K) (a : nat) (C : closed f) (Cn : cnt f) (Sd : fsound f) (Ea : vstart f = Some a) (NZ : no_zeros f).
    Context (SL : forall s t, In t (trs_of f s) -> ns t = s -> ol t = O /\ forall v : K, v + (if pt_weights p then wgt t else 1) * v = v).
    Context (DV : pt_weights p = true \/ (1 + 1 : K) = 1 \/ forall v b : K, v <> 0 -> exists c, v * c = b).

    Definition two_facts (D : list G) : Prop :=
      good D f /\ (forall s u v z, pot D s = (Some u, v) -> common f s z -> exists r, (u = z ++ r)%list) /\
      (pt_weights p = true -> settles (fun k => back (mach f) k a) (snd (pot D a))) /\
      (pt_weights p = false -> (1 + 1 : K) = 1 -> snd (pot D a) = 0 \/ snd (pot D a) = 1).

    Lemma two_dist : exists gf, weight_convert (to_gallic sl_plus) f tt = Ok (gf, tt) /\ mapped gtr gfin f gf /\ closed gf /\ fsound gf /\
      (forall idem fuel R, idempotent_plus K \/ (forall s, ~ on_cycle (mach f) s) ->
         push_distance idem rv rb sl_plus sr_plus ToInitial p fuel f gf = Some R -> exists D, R = Ok D /\ two_facts D) /\
      (forall idem, no_endless_growth K \/ (forall s, ~ on_cycle (mach f) s) -> exists fuel0 R, forall fuel, (fuel0 <= fuel)%nat ->
         push_distance idem rv rb sl_plus sr_plus ToInitial p fuel f gf = Some R).
    Proof.
      assert (Vn : vstart f <> None) by congruence.
      destruct (to_gallic_ok L f C Cn Sd Vn (fun s w Hw => proj2 NZ s w Hw)) as (gf & Eg & Mg & Cg & Sg).
      exists gf. split; auto. split; auto. split; auto. split; auto. pose proof Mg as (_ & Ng & _).
      unfold push_distance. destruct (pt_weights p) eqn:EW.
      - split.
        + intros idem fuel R IA E. destruct (dist_of f gf Mg Cg Sg NZ SL idem fuel R IA E) as (D & -> & DF). exists D. split; auto.
          split; [apply DF|]. split; [|split; [|intros X; congruence]].
          * intros s u v z. apply (pot_longest f gf Mg D s u v z DF).
          * intros _. apply (pot_total f gf Mg D a DF). rewrite Ng. apply C. auto.
        + intros idem NA. destruct (dist_stops f gf Mg Cg Sg SL idem NA) as (fuel0 & R & E). exists fuel0, R. intros fuel H. apply (sd_more _ _ _ _ _ _ _ _ _ E). auto.
      - destruct (convert_ok L f Vn) as (u0 & E0 & N0 & V0 & _ & _ & T0 & F0 & C0 & S0).
        destruct (C31_rm_weight L u0 C0 ltac:(congruence)) as (u & h & E1 & (C1 & N1 & V1 & _ & _ & M1) & Hh).
        pose proof (C31_rm_weight_bits L u0 u tt C0 (S0 Sd) E1) as S1.
        assert (T1 : forall s, trs_of u s = map (set_w h) (trs_of f s)) by (intros s; rewrite (proj1 (M1 s)), T0; auto).
        assert (F1 : forall s, fin_of u s = option_map h (fin_of f s)) by (intros s; rewrite (proj2 (M1 s)), F0; auto).
        assert (H1 : forall w, w <> 0 -> h w = 1) by (intros w Hw; destruct (Hh w) as [[_ X]|[X _]]; [contradiction|auto]).
        assert (Cu : closed u).
        { split; [|rewrite N1, N0, V1, V0; apply C]. intros s t. rewrite T1, N1, N0. intros Ht. apply in_map_iff in Ht as (t0 & <- & Ht0). apply (proj1 C _ _ Ht0). }
        pose proof (bare_no_zeros L f u h NZ H1 T1 F1) as NZu.
        destruct (to_gallic_ok L u Cu C1 S1 ltac:(congruence) (fun s w Hw => proj2 NZu s w Hw)) as (gu & Eu & Mu & Cgu & Sgu).
        rewrite E0. cbn [obind]. rewrite E1. cbn [obind fst]. rewrite Eu. cbn [obind fst].
        assert (SLu : forall s t, In t (trs_of u s) -> ns t = s -> ol t = O /\ forall v : K, v + wgt t * v = v).
        { intros s t. rewrite T1. intros Ht. apply in_map_iff in Ht as (t0 & <- & H0). intros En. destruct (SL s t0 H0 En) as (O0 & X). split; auto. cbn [set_w wgt].
          rewrite (H1 _ (proj1 NZ s t0 H0)). exact X. }
        assert (AC : (forall s, ~ on_cycle (mach f) s) -> forall s, ~ on_cycle (mach u) s).
        { intros A s X. apply (A s). apply (map_cycle (mach f) (mach u) (set_w h)); auto. }
        split.
        + intros idem fuel R IA E.
          destruct (dist_of u gu Mu Cgu Sgu NZu SLu idem fuel R ltac:(destruct IA; auto) E) as (D & -> & DF). exists D. split; auto. pose proof DF as (GD & Ln & Se).
          assert (V01 : (1 + 1 : K) = 1 -> forall s, snd (pot D s) = 0 \/ snd (pot D s) = 1).
          { intros P11. apply (pot_value L u gu Mu D Ln Se (fun v => v = 0 \/ v = 1)); auto.
            - intros x y [-> | ->] [-> | ->]; rewrite ?(kplus_0_l _ L), ?(kplus_0_r L); auto.
            - intros s t Ht y Hy. rewrite T1 in Ht. apply in_map_iff in Ht as (t0 & <- & H0). cbn [set_w wgt]. rewrite (H1 _ (proj1 NZ s t0 H0)), (ktimes_1_l _ L). auto.
            - intros s w. rewrite F1. destruct (fin_of f s) as [w0|] eqn:Ew; [|discriminate]. intros [= <-]. right. apply H1. apply (proj2 NZ s w0 Ew). }
          split; [|split; [|split; [intros X; congruence|auto]]].
          * apply (good_bare D f u h NZ H1 T1 F1); auto. intros s x v Es b.
            assert (Nv : v <> 0).
            { destruct (gd_reg D u GD s) as [Z|(u' & v' & Z & N)]; [rewrite Z in Es; discriminate|]. rewrite Z in Es. injection Es as _ <-. auto. }
            destruct DV as [X|[X|X]]; [discriminate| |auto]. destruct (V01 X s) as [Y|Y]; rewrite Es in Y; cbn [snd] in Y; [contradiction|]. subst v. exists b. apply (ktimes_1_l _ L).
          * intros s x v z Ex Hc. apply (pot_longest u gu Mu D s x v z DF Ex). intros q Hq Sq.
            assert (PQ : forall q s, is_path (mach u) s q -> exists q0, is_path (mach f) s q0 /\ olabs q0 = olabs q /\ dst s q0 = dst s q).
            { clear -T1. induction q as [|t q IH]; intros s0; cbn [is_path]; [exists []; cbn; auto|]. intros [Ht Hq]. cbn [mach mtrs] in Ht. rewrite T1 in Ht.
              apply in_map_iff in Ht as (t0 & <- & H0). cbn [set_w ns] in Hq. destruct (IH _ Hq) as (q0 & A1 & A2 & A3). exists (t0 :: q0).
              split; [split; auto|]. split; [|exact A3]. unfold olabs in *. cbn [flat_map set_w ol]. rewrite A2. auto. }
            destruct (PQ q s Hq) as (q0 & A1 & A2 & A3). rewrite <- A2. apply Hc; auto. unfold success in *. rewrite A3. rewrite F1 in Sq. destruct (fin_of f (dst s q)); auto.
        + intros idem NA. destruct (dist_stops u gu Mu Cgu Sgu SLu idem ltac:(destruct NA; auto)) as (fuel0 & R & E). exists fuel0, R. intros fuel H.
          apply (sd_more _ _ _ _ _ _ _ _ _ E). auto.
    Qed.
  End Two.
End Dist.
