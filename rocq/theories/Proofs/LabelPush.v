(** The machine with labels in the weights after pushing towards the start. *)
From Coq Require Import List Arith NArith Bool Lia.
From Verif Require Import Base.Util Base.Semiring Base.Machine Base.PathSum Base.PropSpec Model.Props Model.AlgoProps Model.VectorFst Model.History
  Model.Rational Model.TrMap Model.Weights Model.FactorWeight Model.ShortestDistance Model.Reweight Model.LabelReach Model.Gallic.
From Verif Require Import Proofs.PropsFacts Proofs.VectorFacts Proofs.VectorProps Proofs.TrOpsFacts Proofs.OpFacts Proofs.ConnectFacts Proofs.RationalFacts
  Proofs.ReverseDist Proofs.ReweightFacts Proofs.LazyFacts Proofs.GallicFacts Proofs.LabelPot Proofs.GallicPath Proofs.PushPath Props.C16 Props.C18 Props.C27 Props.C31 Props.C39.
Import ListNotations.
Local Open Scope K_scope.

(** What stays to be written is bounded state by state. *)
Definition bounded {K : SR} (g : vfst (gallicSR K)) : Prop :=
  exists Bd : nat -> nat, forall s t, accessible (mach g) s -> In t (trs_of g s) ->
    (Bd s + length (word sl_plus (wgt t)) <= S (Bd (ns t)))%nat.

Section Push.
  Context {K : SR} (L : lsr_laws K) (divide : K -> K -> Reweight.divide_type -> res K) (DE : divides_exactly divide).
  Notation G := (gallicSR K).
  Let LG : lsr_laws G := gallicSR_laws K L.
  Notation gdiv := (gallic_divide (sp := sl_plus) divide true : G -> G -> Reweight.divide_type -> res G).
  Context (p : push_type) (f : vfst K) (gf : vfst G) (a : nat) (D : list G).
  Context (M : mapped gtr gfin f gf) (C : closed gf) (Sd : fsound gf) (Ea : vstart f = Some a) (GD : good D f).

  (** What is taken out in front. *)
  Definition removed : G := match fst (pot D a) with None => 1 | Some _ => push_total sl_plus p (pot D a) end.

  Definition len (s : nat) : nat :=
    match fst (pot D s) with
    | Some u => length u
    | None => list_max (map (fun x : G => length (word sl_plus x)) D)
    end.
  Lemma len_dead s : fst (pot D s) = None -> forall q, (len q <= len s)%nat.
  Proof.
    intros E q. unfold len. rewrite E. destruct (fst (pot D q)) as [u|] eqn:Eq; auto.
    unfold pot in Eq. destruct (Nat.lt_ge_cases q (length D)) as [H|H].
    - pose proof (proj1 (list_max_le (map (fun x : G => length (word sl_plus x)) D) _) (le_n _)) as A. rewrite Forall_map, Forall_forall in A.
      specialize (A (nth q D 0) (nth_In _ _ H)). unfold word in A at 1. rewrite Eq in A. exact A.
    - rewrite nth_overflow in Eq by auto. discriminate.
  Qed.

  Lemma lab_no_eps o : ~ In O (lab o).
  Proof. unfold lab. destruct (Nat.eqb_spec o 0); cbn; intuition. Qed.
  Lemma lab_short o : (length (lab o) <= 1)%nat.
  Proof. unfold lab. destruct (Nat.eqb o 0); cbn; lia. Qed.

  Section H.
    Context (h : vfst G) (T : forall q, trs_of h q = trs_after gdiv D ToInitial gf q) (F : forall q, fin_of h q = fin_after gdiv D ToInitial gf q).

    Lemma h_tr_shape s t : In t (trs_of h s) -> il t = ol t /\ exists u v, wgt t = ((Some u, v) : G) /\ ~ In O u /\ (len s + length u <= S (len (ns t)))%nat.
    Proof.
      rewrite T, trs_rho. intros Ht. apply in_map_iff in Ht as (t1 & <- & H1). pose proof M as (_ & _ & _ & _ & _ & M').
      rewrite (proj1 (M' s)) in H1. apply in_map_iff in H1 as (t0 & <- & H0).
      destruct (rho_ns gdiv D s (gtr t0)) as (N1 & N2 & N3). rewrite N1, N2, N3. split; auto. unfold rho.
      assert (UN : pot D s = (0 : G) \/ pot D (ns t0) = (0 : G) -> (len s + length (lab (ol t0)) <= S (len (ns t0)))%nat).
      { intros Z. assert (Zn : pot D (ns t0) = (0 : G)) by (destruct Z as [Z|Z]; auto; apply (proj2 (gd_dead D f GD s Z)); auto).
        pose proof (lab_short (ol t0)). pose proof (len_dead (ns t0) ltac:(rewrite Zn; auto) s). cbn [gtr ns]. lia. }
      destruct (is_zero (pot D s)) eqn:Z.
      { apply (is_zero_spec LG) in Z. exists (lab (ol t0)), (wgt t0). split; auto. split; [apply lab_no_eps|auto]. }
      unfold rewt, new_weight. cbn [gtr ns wgt]. destruct (is_zero (pot D (ns t0))) eqn:Zn.
      { apply (is_zero_spec LG) in Zn. exists (lab (ol t0)), (wgt t0). split; auto. split; [apply lab_no_eps|auto]. }
      assert (Ns : pot D s <> (0 : G)) by (intros E; apply (is_zero_spec LG) in E; congruence).
      assert (Nn : pot D (ns t0) <> (0 : G)) by (intros E; apply (is_zero_spec LG) in E; congruence).
      destruct (pot_live (K := K) f D GD s Ns) as (u & v & Es & Nv). destruct (pot_live (K := K) f D GD _ Nn) as (u' & v' & En & _).
      destruct (gd_tr D f GD s u v t0 u' v' Es H0 En) as ((r & Er) & Q). rewrite Es, En.
      change (((str (ol t0), wgt t0) : G) * ((Some u', v') : G)) with ((Some (lab (ol t0) ++ u')%list, wgt t0 * v') : G). rewrite Er.
      destruct (gdiv_ok divide DE u r v _ Nv Q) as (c & -> & Hc). cbn [set_wgt wgt]. exists r, c. split; auto. split.
      - intros I. assert (X : In O (lab (ol t0) ++ u')) by (rewrite Er; apply in_or_app; auto). apply in_app_or in X as [X|X]; [exact (lab_no_eps _ X)|exact (gd_nz D f GD _ _ _ En X)].
      - unfold len. rewrite Es, En. cbn [fst]. rewrite <- app_length, <- Er, app_length. pose proof (lab_short (ol t0)). lia.
    Qed.
    Lemma h_fin_shape s w : fin_of h s = Some w -> exists v, w = ((Some [], v) : G).
    Proof.
      rewrite F. unfold fin_after. pose proof M as (_ & _ & _ & _ & _ & M'). rewrite (proj2 (M' s)). destruct (fin_of f s) as [w0|] eqn:E0; cbn [option_map].
      2: { destruct (is_zero (pot D s)); discriminate. }
      destruct (is_zero (pot D s)) eqn:Z; [intros [= <-]; exists w0; auto|].
      assert (Ns : pot D s <> (0 : G)) by (intros E; apply (is_zero_spec LG) in E; congruence).
      destruct (pot_live (K := K) f D GD s Ns) as (u & v & Es & Nv). destruct (gd_fin D f GD s u v w0 Es E0) as (-> & Q). rewrite Es.
      destruct (gdiv_ok divide DE [] [] v w0 Nv Q) as (c & Ec & Hc). change (gfin w0) with ((Some ([] ++ [])%list, w0) : G). rewrite Ec.
      intros [= <-]. eauto.
    Qed.
  End H.

  Notation pushed_gallic := (fun r => if pt_rm_affix p || pt_rm_total p
    then rbind r (fun g => remove_weight gdiv g (push_total sl_plus p (pot D a)) false) else r).

  Definition ok_result (g : vfst G) (b d : nat) (psi : list (tr G) -> list (tr G)) : Prop :=
    closed g /\ spelled sl_plus g /\ cnt g /\ visymt g = visymt f /\ vosymt g = vosymt f /\ vstart g = Some b /\
    carries (mach gf) (mach g) a b removed d psi /\ bounded g /\
    (forall s, s <> b -> trs_of g s = trs_after gdiv D ToInitial gf s /\ fin_of g s = fin_after gdiv D ToInitial gf s).

  Theorem pushed_ok : pt_rm_affix p = pt_rm_total p \/ pot D a <> (0 : G) ->
    exists g b d psi, pushed_gallic (reweight gdiv gf D ToInitial) = Ok g /\ ok_result g b d psi.
  Proof.
    intros LV. pose proof M as (Cn & Nn & Vs & S1 & S2 & M').
    destruct (reweight_paths LG gdiv D gf a C Sd ltac:(congruence) (good_divides divide DE f gf M D GD) (good_dead f gf M D GD))
      as (h & g & b & d & psi & E & Cg & Sg & Cng & I1 & I2 & Vg & CA & Hd & Vh & Nh & T & F & CS).
    rewrite E. cbn [rbind].
    destruct CS as [(P & SM)|(P1 & P0 & ST)].
    - (* nothing in front *)
      destruct SM as (_ & _ & TG & FG).
      assert (OK : removed = (1 : G) -> ok_result g b d psi).
      { intros R. split; auto. split; [split|].
        - intros s t Ht. rewrite TG in Ht. destruct (h_tr_shape h T s t Ht) as (A & u & v & B & N & _). split; auto. exists u, v. auto.
        - intros s w Hw. rewrite FG in Hw. destruct (h_fin_shape h F s w Hw) as (v & ->). exists [], v. auto.
        - split; auto. split; [congruence|]. split; [congruence|]. split; auto. split; [rewrite R; exact CA|].
          split; [|intros s _; rewrite TG, FG; auto].
          exists len. intros s t _ Ht. rewrite TG in Ht. destruct (h_tr_shape h T s t Ht) as (_ & u & v & B & _ & H). rewrite B. exact H. }
      assert (R : removed = (1 : G) /\ (push_total sl_plus p (pot D a) = (1 : G) \/ push_total sl_plus p (pot D a) = (0 : G) \/ pt_rm_affix p || pt_rm_total p = false)).
      { unfold removed, push_total. destruct P as [P|P]; rewrite P; cbn [fst snd].
        - split; [|left]; destruct (pt_rm_affix p), (pt_rm_total p); auto.
        - split; auto. destruct LV as [LV|LV]; [|contradiction]. rewrite LV. destruct (pt_rm_total p); auto. }
      destruct R as (R & [Q|[Q|Q]]).
      + exists g, b, d, psi. split; auto. destruct (pt_rm_affix p || pt_rm_total p); auto. rewrite Q. unfold remove_weight.
        replace (is_one (1 : G)) with true by (symmetry; apply (keqb_refl LG)). auto.
      + exists g, b, d, psi. split; auto. destruct (pt_rm_affix p || pt_rm_total p); auto. rewrite Q. unfold remove_weight.
        replace (is_zero (0 : G)) with true by (symmetry; apply (keqb_refl LG)). rewrite orb_true_r. auto.
      + exists g, b, d, psi. rewrite Q. auto.
    - destruct (pot_live (K := K) f D GD a P0) as (ua & va & Pa & Nva). pose proof (gd_nz D f GD a ua va Pa) as NZa.
      assert (K1 : (1 : K) <> 0) by (intros X; apply Nva; rewrite <- (ktimes_1_l _ L va), X; apply (ktimes_0_l _ L)).
      (* the shape in front: everything that leaves [b] has the potential as a left factor *)
      assert (SH : ~ on_cycle (mach g) b /\
        (forall s t, accessible (mach g) s -> In t (trs_of g s) -> ns t <> b) /\
        (forall t, In t (trs_of g b) -> il t = ol t /\ exists xs xv, wgt t = ((Some (ua ++ xs), va * xv) : G) /\ ~ In O xs /\ (length ua + length xs <= S (len (ns t)))%nat) /\
        (forall w, fin_of g b = Some w -> exists xv, w = ((Some ua, va * xv) : G)) /\
        (forall s, s <> b -> trs_of g s = trs_of h s /\ fin_of g s = fin_of h s)).
      { destruct ST as [(W1 & W2 & NC & Tg & Fg & Tq & Fq)|(W1 & W2 & _ & Tg & Fg & Tq & Fq)].
        - assert (b = a) as -> by congruence.
          assert (RE : forall s q, reach (mach g) s q -> reach (mach h) s q).
          { induction 1 as [|s t u X _ IH]; [constructor|]. cbn [mach mtrs] in X. destruct (Nat.eq_dec s a) as [->|Ne].
            - rewrite Tg in X. apply in_map_iff in X as (t0 & <- & H0). econstructor; [exact H0|exact IH].
            - rewrite Tq in X by auto. econstructor; [exact X|exact IH]. }
          assert (NG : ~ on_cycle (mach g) a).
          { intros (t & X & R). apply NC. cbn [mach mtrs] in X. rewrite Tg in X. apply in_map_iff in X as (t0 & <- & H0). exists t0. split; auto. }
          split; auto. split; [|split; [|split]].
          + intros s t (s0 & E0 & R0) Ht E1. assert (s0 = a) as -> by (cbn in E0; congruence). apply NG.
            assert (Z : forall x y, reach (mach g) x y -> x = y \/ exists t, In t (trs_of g x) /\ reach (mach g) (ns t) y) by (intros x y [|? ? ?]; eauto).
            destruct (Z _ _ R0) as [<-|(t1 & H1 & R1)].
            * exists t. split; auto. rewrite E1. constructor.
            * exists t1. split; auto. eapply reach_trans; [exact R1|]. eapply reach_step; [exact Ht|]. rewrite E1. constructor.
          + intros t Ht. rewrite Tg in Ht. apply in_map_iff in Ht as (t0 & <- & H0). destruct (h_tr_shape h T a t0 H0) as (A & u & v & B & N & H). split; auto.
            exists u, v. unfold scale. cbn [set_wgt wgt ns]. rewrite Pa, B. split; auto. split; auto. unfold len in H at 1. rewrite Pa in H. exact H.
          + intros w Hw. rewrite Fg in Hw. destruct (fin_of h a) as [w0|] eqn:E0; [|discriminate]. destruct (h_fin_shape h F a w0 E0) as (v & ->).
            injection Hw as <-. exists v. rewrite Pa. cbn. rewrite app_nil_r. auto.
          + intros s Ne. rewrite Tq, Fq by auto. auto.
        - assert (b = num_states h) as -> by congruence.
          assert (Ch : forall s t, In t (trs_of h s) -> ns t <> num_states h).
          { intros s t. rewrite T, trs_rho. intros Ht. apply in_map_iff in Ht as (t1 & <- & H1). rewrite (proj1 (rho_ns gdiv D s t1)).
            pose proof (proj1 C s t1 H1). rewrite Nh. lia. }
          assert (Na : a <> num_states h) by (rewrite Nh; pose proof (proj2 C a ltac:(congruence)); lia).
          assert (IN : forall s t, In t (trs_of g s) -> ns t <> num_states h).
          { intros s t Ht. destruct (Nat.eq_dec s (num_states h)) as [->|Ne]; [rewrite Tg in Ht; destruct Ht as [<-|[]]; exact Na|]. rewrite Tq in Ht by auto. eauto. }
          split; [|split; [|split; [|split]]].
          + intros (t & Ht & R). cbn [mach mtrs] in Ht. rewrite Tg in Ht. destruct Ht as [<-|[]]. cbn [ns] in R.
            assert (X : forall x y, reach (mach g) x y -> x <> num_states h -> y <> num_states h).
            { induction 1 as [|s t u X _ IH]; auto. intros _. apply IH. eapply IN. exact X. }
            apply (X _ _ R Na). auto.
          + intros s t _ Ht. eapply IN. exact Ht.
          + intros t Ht. rewrite Tg in Ht. destruct Ht as [<-|[]]. cbn [il ol wgt ns]. split; auto. exists [], 1. rewrite app_nil_r, (ktimes_1_r _ L). split; auto.
            split; auto. unfold len. rewrite Pa. cbn. lia.
          + intros w Hw. rewrite Fg in Hw. discriminate.
          + intros s Ne. rewrite Tq, Fq by auto. auto. }
      destruct SH as (NC & NB & TB & FB & TF).
      assert (TH : forall s t, s <> b -> In t (trs_of g s) -> In t (trs_of h s)) by (intros s t Ne; rewrite (proj1 (TF s Ne)); auto).
      assert (FH : forall s w, s <> b -> fin_of g s = Some w -> fin_of h s = Some w) by (intros s w Ne; rewrite (proj2 (TF s Ne)); auto).
      set (ca := if pt_rm_affix p then ua else []). set (cr := if pt_rm_affix p then [] else ua).
      set (cv := if pt_rm_total p then va else 1). set (cw := if pt_rm_total p then 1 else va).
      assert (EU : ua = (ca ++ cr)%list) by (unfold ca, cr; destruct (pt_rm_affix p); rewrite ?app_nil_r; auto).
      assert (EV : va = cv * cw) by (unfold cv, cw; destruct (pt_rm_total p); rewrite ?(ktimes_1_l _ L), ?(ktimes_1_r _ L); auto).
      assert (TOT : push_total sl_plus p (pot D a) = ((Some ca, cv) : G)) by (unfold push_total; rewrite Pa; unfold ca, cv; cbn [fst snd]; destruct (pt_rm_affix p), (pt_rm_total p); auto).
      assert (REM : removed = ((Some ca, cv) : G)) by (unfold removed; rewrite Pa at 1; cbn [fst]; exact TOT).
      assert (Ncv : cv <> 0) by (unfold cv; destruct (pt_rm_total p); auto).
      assert (BND : forall g' : vfst G, (forall s, accessible (mach g') s -> accessible (mach g) s) ->
         (forall s t, s <> b -> In t (trs_of g' s) -> In t (trs_of g s)) ->
         (forall t, In t (trs_of g' b) -> exists t0, In t0 (trs_of g b) /\ ns t = ns t0 /\ (length (word sl_plus (wgt t)) <= length (word sl_plus (wgt t0)))%nat) -> bounded g').
      { intros g' HA HT HB. exists (fun s => if Nat.eqb s b then O else len s). intros s t Ac Ht.
        destruct (Nat.eqb_spec s b) as [->|Ne].
        - destruct (HB t Ht) as (t0 & H0 & EN & HL). pose proof (NB b t0 (HA _ Ac) H0) as X. rewrite EN, (proj2 (Nat.eqb_neq _ _) X).
          destruct (TB t0 H0) as (_ & xs & xv & EW & _ & BL). rewrite EW in HL.
          eapply Nat.le_trans; [exact HL|]. unfold word. cbn [fst]. rewrite app_length. exact BL.
        - pose proof (NB s t (HA _ Ac) (HT s t Ne Ht)) as X. rewrite (proj2 (Nat.eqb_neq _ _) X).
          destruct (h_tr_shape h T s t (TH s t Ne (HT s t Ne Ht))) as (_ & u & v & B & _ & H). rewrite B. exact H. }
      assert (SPO : forall s t, s <> b -> In t (trs_of g s) -> il t = ol t /\ exists u v, wgt t = ((Some u, v) : G) /\ ~ In O u).
      { intros s t Ne Ht. destruct (h_tr_shape h T s t (TH s t Ne Ht)) as (A & u & v & B & N & _). split; auto. exists u, v. auto. }
      assert (SPF : forall s w, s <> b -> fin_of g s = Some w -> exists u v, w = ((Some u, v) : G) /\ ~ In O u).
      { intros s w Ne Hw. destruct (h_fin_shape h F s w (FH s w Ne Hw)) as (v & ->). exists [], v. auto. }
      assert (OK1 : removed = (1 : G) -> ok_result g b d psi).
      { intros R. split; auto. split; [split|].
        - intros s t Ht. destruct (Nat.eq_dec s b) as [->|Ne]; [|eauto]. destruct (TB t Ht) as (A & xs & xv & B & N & _). split; auto.
          eexists. eexists. split; [exact B|]. rewrite in_app_iff. tauto.
        - intros s w Hw. destruct (Nat.eq_dec s b) as [->|Ne]; [|eauto]. destruct (FB w Hw) as (xv & ->). exists ua, (va * xv). auto.
        - split; auto. split; [congruence|]. split; [congruence|]. split; auto. split; [rewrite R; exact CA|].
          split; [|intros s Ne; rewrite <- T, <- F; auto]. apply BND; auto. intros t Ht. exists t. auto. }
      destruct (keqb ((Some ca, cv) : G) (1 : G)) eqn:E1.
      { apply (keqb_true LG) in E1. exists g, b, d, psi. rewrite REM in OK1. split; [|apply OK1; auto]. destruct (pt_rm_affix p || pt_rm_total p); auto.
        rewrite TOT. unfold remove_weight. rewrite E1. replace (is_one (1 : G)) with true by (symmetry; apply (keqb_refl LG)). auto. }
      apply (keqb_false LG) in E1.
      assert (FLG : pt_rm_affix p || pt_rm_total p = true).
      { unfold ca, cv in E1. destruct (pt_rm_affix p), (pt_rm_total p); auto. }
      rewrite FLG, TOT.
      assert (DV : forall xs xv, exists c, gdiv ((Some (ua ++ xs), va * xv) : G) ((Some ca, cv) : G) Reweight.DivideLeft = Ok ((Some (cr ++ xs), c) : G) /\
         ((Some ca, cv) : G) * ((Some (cr ++ xs), c) : G) = ((Some (ua ++ xs), va * xv) : G)).
      { intros xs xv. rewrite EU, <- app_assoc. destruct (gdiv_ok divide DE ca (cr ++ xs) cv (va * xv) Ncv) as (c & Ec & Hc).
        - exists (cw * xv). rewrite (ktimes_assoc _ L), <- EV. auto.
        - exists c. split; [exact Ec|]. cbn. rewrite Hc. auto. }
      destruct (remove_paths LG gdiv g b ((Some ca, cv) : G) Cg Vg E1 ltac:(discriminate) NC) as (g' & chi & Er & Ef & Cg' & Sg' & CA' & TQ & FQ & TB' & FB' & FN').
      { intros t Ht. destruct (TB t Ht) as (_ & xs & xv & B & _). rewrite B. destruct (DV xs xv) as (c & A1 & A2). eauto. }
      { intros w Hw. destruct (FB w Hw) as (xv & ->). destruct (DV [] xv) as (c & A1 & A2). rewrite !app_nil_r in A1, A2. eauto. }
      assert (TBW : forall t, In t (trs_of g' b) -> il t = ol t /\ exists xs xv t0, wgt t = ((Some (cr ++ xs), xv) : G) /\ ~ In O xs /\ In t0 (trs_of g b) /\ ns t = ns t0 /\
           exists v0, wgt t0 = ((Some (ua ++ xs), v0) : G)).
      { intros t Ht. destruct (TB' t Ht) as (t0 & H0 & A1 & A2 & A3 & A4 & A5). destruct (TB t0 H0) as (B0 & xs & xv & B1 & B2 & _). split; [congruence|].
        rewrite B1 in A4. destruct (DV xs xv) as (c & Ec & _). assert (EC : wgt t = ((Some (cr ++ xs), c) : G)) by congruence.
        exists xs, c, t0. repeat split; auto. eauto. }
      assert (NZr : ~ In O cr) by (intros X; apply NZa; rewrite EU; apply in_or_app; auto).
      exists g', b, d. eexists. split; [exact Er|]. split; auto. split; [split|].
      + intros s t Ht. destruct (Nat.eq_dec s b) as [->|Ne]; [|rewrite TQ in Ht by auto; eauto].
        destruct (TBW t Ht) as (A & xs & xv & t0 & B & N & _). split; auto. eexists. eexists. split; [exact B|]. rewrite in_app_iff. tauto.
      + intros s w Hw. destruct (Nat.eq_dec s b) as [->|Ne]; [|rewrite FQ in Hw by auto; eauto].
        pose proof (FB' w Hw) as X. destruct (FB _ X) as (xv & EW). destruct w as [[z|] v]; [|discriminate].
        exists z, v. split; auto. intros I. assert (Y : (ca ++ z)%list = ua) by (cbn in EW; congruence). apply NZa. rewrite <- Y. apply in_or_app. auto.
      + destruct Ef as (F1 & F2 & F3 & F4 & F5). split; [apply F5; auto|]. split; [congruence|]. split; [congruence|]. split; [congruence|]. split; [|split].
        * rewrite REM. rewrite <- (ktimes_1_l _ LG ((Some ca, cv) : G)). apply (carries_d_trans LG _ _ _ _ _ _ _ _ _ _ CA CA').
          intros k q Hk Hq. assert (k = O) as -> by lia. destruct Hq as [<-|[]]. apply FN'. apply (proj1 (proj2 CA) O [] Hk). left. auto.
        * apply BND.
          -- assert (RE : forall s q, reach (mach g') s q -> reach (mach g) s q).
             { induction 1 as [|s t u X _ IH]; [constructor|]. cbn [mach mtrs] in X. destruct (Nat.eq_dec s b) as [->|Ne].
               - destruct (TBW t X) as (_ & _ & _ & t0 & _ & _ & H0 & EN & _). rewrite EN in IH. econstructor; [exact H0|exact IH].
               - rewrite TQ in X by auto. econstructor; [exact X|exact IH]. }
             intros s (s0 & E0 & R). exists s0. split; [cbn in *; congruence|auto].
          -- intros s t Ne. rewrite TQ by auto. auto.
          -- intros t Ht. destruct (TBW t Ht) as (_ & xs & xv & t0 & B & _ & H0 & EN & v0 & B0). exists t0. split; auto. split; auto.
             rewrite B, B0. unfold word. cbn [fst]. rewrite EU, !app_length. lia.
        * intros s Ne. rewrite TQ, FQ by auto. rewrite <- T, <- F. auto.
  Qed.
End Push.
