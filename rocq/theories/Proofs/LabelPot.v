(** The distances to the final states over gallic weights: what label pushing uses of them. *)
From Coq Require Import List Arith NArith Bool Lia.
From Verif Require Import Base.Util Base.Semiring Base.Machine Base.PathSum Base.PropSpec Model.Props Model.AlgoProps Model.VectorFst Model.History
  Model.Rational Model.TrMap Model.Weights Model.ShortestDistance Model.Reweight Model.LabelReach Model.Gallic.
From Verif Require Import Proofs.PropsFacts Proofs.VectorFacts Proofs.VectorProps Proofs.TrOpsFacts Proofs.OpFacts Proofs.ConnectFacts Proofs.ReverseDist
  Proofs.ReweightFacts Proofs.GallicFacts Props.C16 Props.C18 Props.C27 Props.C31 Props.C39.
Import ListNotations.
Local Open Scope K_scope.

(** No transition and no final weight is zero. *)
Definition no_zeros {K : SR} (f : vfst K) : Prop :=
  (forall s t, In t (trs_of f s) -> wgt t <> 0) /\ (forall s w, fin_of f s = Some w -> w <> 0).

Section Pot.
  Context {K : SR} (L : lsr_laws K).
  Implicit Types f : vfst K.
  Notation G := (gallicSR K).
  Let LG : lsr_laws G := gallicSR_laws K L.

  (** A string is missing exactly when the weight is zero. *)
  Definition regular (x : G) : Prop := fst x = None <-> snd x = 0.

  Lemma fst_ksum (l : list G) : fst (ksum l) = None <-> forall x, In x l -> fst x = None.
  Proof.
    induction l as [|a l IH]; cbn [ksum In]; [cbn; tauto|]. cbn [kplus gallicSR gallic_of fst]. split.
    - destruct (fst a) eqn:Ea; [destruct (fst (ksum l)); discriminate|]. cbn. intros H x [<-|Hx]; auto. apply IH; auto.
    - intros H. rewrite (H a (or_introl eq_refl)). cbn. apply IH. auto.
  Qed.
  Lemma snd_ksum (l : list G) : snd (ksum l) = ksum (map (fun x : G => snd x) l).
  Proof. induction l as [|a l IH]; cbn [ksum map]; auto. rewrite <- IH. auto. Qed.
  Lemma fst_ksum_in (l : list G) x a : In x l -> fst x = Some a -> exists u r, fst (ksum l) = Some u /\ a = (u ++ r)%list.
  Proof.
    induction l as [|y l IH]; cbn [In ksum]; [tauto|]. cbn [kplus gallicSR gallic_of fst]. intros [->|Hx] Ea.
    - rewrite Ea. destruct (fst (ksum l)) as [b|]; cbn; [|exists a, []; rewrite app_nil_r; auto].
      exists (lcp a b), (skipn (length (lcp a b)) a). split; auto. apply lcp_prefix.
    - destruct (IH Hx Ea) as (u & r & -> & ->). destruct (fst y) as [b|]; cbn; [|eauto].
      exists (lcp b u), (skipn (length (lcp b u)) u ++ r)%list. split; auto. rewrite app_assoc. f_equal. rewrite lcp_comm. apply lcp_prefix.
  Qed.

  Context (Zf : zero_sum_free K) (Zd : no_zero_divisors K).

  Lemma regular_0 : regular 0.
  Proof. split; auto. Qed.
  Lemma regular_plus (x y : G) : regular x -> regular y -> regular (x + y).
  Proof.
    unfold regular. intros Hx Hy. cbn [kplus gallicSR gallic_of fst snd]. split.
    - destruct (fst x); [destruct (fst y); discriminate|]. cbn. intros H. rewrite (proj1 Hx eq_refl), (proj1 Hy H). apply (kplus_0_l _ L).
    - intros H. rewrite (proj2 Hx (Zf _ _ H)). rewrite (kplus_comm _ L) in H. cbn. apply Hy. apply (Zf _ _ H).
  Qed.
  Lemma regular_times a (w : K) (y : G) : w <> 0 -> regular y -> regular (((Some a, w) : G) * y).
  Proof.
    unfold regular. intros Hw Hy. cbn [ktimes gallicSR gallic_of fst snd sv_times]. split.
    - destruct (fst y); [discriminate|]. intros _. rewrite (proj1 Hy eq_refl). apply (ktimes_0_r _ L).
    - intros H. destruct (Zd _ _ H) as [X|X]; [destruct (Hw X)|]. rewrite (proj2 Hy X). auto.
  Qed.
  Lemma regular_ksum (l : list G) : (forall x, In x l -> regular x) -> regular (ksum l).
  Proof. induction l as [|x l IH]; intros H; [apply regular_0|]. cbn [ksum]. apply regular_plus; [apply H|apply IH; intros; apply H]; simpl; auto. Qed.

  Section M.
    Context (m : vfst K) (gm : vfst G) (M : mapped gtr gfin m gm) (NZ : no_zeros m).
    Lemma gm_trs s : trs_of gm s = map gtr (trs_of m s).
    Proof. apply M. Qed.
    Lemma gm_fin s : fin_of gm s = option_map gfin (fin_of m s).
    Proof. apply M. Qed.
    Lemma regular_fin s : regular (fw (fin_of gm s)).
    Proof.
      rewrite gm_fin. destruct (fin_of m s) as [w|] eqn:E; cbn [option_map fw]; [|apply regular_0].
      unfold regular, gfin. cbn. split; [discriminate|]. intros Z. destruct (proj2 NZ s w E Z).
    Qed.
    Lemma regular_back k : forall s, regular (back (mach gm) k s).
    Proof.
      induction k as [|k IH]; intros s; [rewrite (back_0 LG)|rewrite (back_S LG)]; cbn [mach mfin mtrs].
      - apply regular_fin.
      - apply regular_plus; [apply regular_fin|]. apply regular_ksum. intros x Hx. apply in_map_iff in Hx as (t & <- & Ht).
        rewrite gm_trs in Ht. apply in_map_iff in Ht as (u & <- & Hu). apply regular_times; auto. apply (proj1 NZ s u Hu).
    Qed.

    (** The value part never leaves a set closed under the operations. *)
    Lemma back_value (P : K -> Prop) : P 0 -> (forall a b, P a -> P b -> P (a + b)) ->
      (forall s t, In t (trs_of m s) -> forall a, P a -> P (wgt t * a)) -> (forall s w, fin_of m s = Some w -> P w) ->
      forall k s, P (snd (back (mach gm) k s)).
    Proof.
      intros P0 P1 P2 P3.
      assert (PF : forall s, P (snd (fw (fin_of gm s)))).
      { intros s. rewrite gm_fin. destruct (fin_of m s) as [w|] eqn:E; cbn; eauto. }
      induction k as [|k IH]; intros s; [rewrite (back_0 LG)|rewrite (back_S LG)]; cbn [mach mfin mtrs]; auto.
      cbn [kplus gallicSR gallic_of snd]. apply P1; auto. rewrite snd_ksum, map_map, gm_trs, map_map.
      assert (Q : forall t, In t (trs_of m s) -> P (wgt t * snd (back (mach gm) k (ns t)))) by (intros t Ht; eapply P2; eauto).
      revert Q. generalize (trs_of m s). intros l. induction l as [|t l IHl]; intros Q; cbn [map ksum]; auto.
      apply P1; [apply (Q t); simpl; auto|apply IHl; intros; apply Q; simpl; auto].
    Qed.

    Lemma back_prop (P : G -> Prop) : P 0 -> (forall a b, P a -> P b -> P (a + b)) ->
      (forall s t, In t (trs_of m s) -> forall a, P a -> P (wgt (gtr t) * a)) -> (forall s w, fin_of m s = Some w -> P (gfin w)) ->
      forall k s, P (back (mach gm) k s).
    Proof.
      intros P0 P1 P2 P3.
      assert (PF : forall s, P (fw (fin_of gm s))).
      { intros s. rewrite gm_fin. destruct (fin_of m s) as [w|] eqn:E; cbn [option_map fw]; eauto. }
      induction k as [|k IH]; intros s; [rewrite (back_0 LG)|rewrite (back_S LG)]; cbn [mach mfin mtrs]; auto.
      apply P1; auto. rewrite gm_trs, map_map.
      assert (Q : forall t, In t (trs_of m s) -> P (wgt (gtr t) * back (mach gm) k (ns t))) by (intros t Ht; eapply P2; eauto).
      revert Q. generalize (trs_of m s). intros l. induction l as [|t l IHl]; intros Q; cbn [map ksum]; auto.
      apply P1; [apply (Q t); simpl; auto|apply IHl; intros; apply Q; simpl; auto].
    Qed.

    Context (D : list G) (Ln : (length D <= num_states gm)%nat)
      (Se : forall s, (s < num_states gm)%nat -> settles (fun k => back (mach gm) k s) (nth s D 0))
      (Eq : forall s, (s < num_states gm)%nat -> nth s D 0 = fw (fin_of gm s) + ksum (map (fun t => wgt t * nth (ns t) D 0) (trs_of gm s))).

    Lemma pot_regular s : regular (pot D s).
    Proof.
      unfold pot. destruct (Nat.lt_ge_cases s (num_states gm)) as [H|H].
      - destruct (Se s H) as [k Hk]. rewrite <- (Hk k (le_n _)). apply regular_back.
      - rewrite nth_overflow by lia. apply regular_0.
    Qed.
    Lemma pot_value (P : K -> Prop) : P 0 -> (forall a b, P a -> P b -> P (a + b)) ->
      (forall s t, In t (trs_of m s) -> forall a, P a -> P (wgt t * a)) -> (forall s w, fin_of m s = Some w -> P w) ->
      forall s, P (snd (pot D s)).
    Proof.
      intros P0 P1 P2 P3 s. unfold pot. destruct (Nat.lt_ge_cases s (num_states gm)) as [H|H].
      - destruct (Se s H) as [k Hk]. rewrite <- (Hk k (le_n _)). apply back_value; auto.
      - rewrite nth_overflow by lia. exact P0.
    Qed.

    Lemma pot_prop (P : G -> Prop) : P 0 -> (forall a b, P a -> P b -> P (a + b)) ->
      (forall s t, In t (trs_of m s) -> forall a, P a -> P (wgt (gtr t) * a)) -> (forall s w, fin_of m s = Some w -> P (gfin w)) ->
      forall s, P (pot D s).
    Proof.
      intros P0 P1 P2 P3 s. unfold pot. destruct (Nat.lt_ge_cases s (num_states gm)) as [H|H].
      - destruct (Se s H) as [k Hk]. rewrite <- (Hk k (le_n _)). apply back_prop; auto.
      - rewrite nth_overflow by lia. exact P0.
    Qed.

    (** The terms of the equation at [s]. *)
    Definition terms (s : nat) : list G := fw (fin_of gm s) :: map (fun t => wgt t * pot D (ns t)) (trs_of gm s).
    Lemma pot_terms s : pot D s = ksum (terms s).
    Proof.
      unfold terms. cbn [ksum]. destruct (Nat.lt_ge_cases s (num_states gm)) as [H|H].
      - unfold pot at 1. rewrite (Eq s H). reflexivity.
      - unfold pot at 1. rewrite nth_overflow by lia. rewrite fin_of_beyond, trs_of_oob by auto. symmetry. apply (kplus_0_r LG).
    Qed.
    Lemma term_tr s t : In t (trs_of m s) -> In (wgt (gtr t) * pot D (ns t)) (terms s).
    Proof. intros H. right. apply (in_map (fun t => wgt t * pot D (ns t)) (trs_of gm s) (gtr t)). rewrite gm_trs. apply in_map. auto. Qed.
    Lemma term_fin s w : fin_of m s = Some w -> In (gfin w) (terms s).
    Proof. intros H. left. rewrite gm_fin, H. auto. Qed.
  End M.
End Pot.

(** What the proofs need of potentials; [D] is given as a list of gallic weights. *)
Record good {K : SR} (D : list (gallicSR K)) (f : vfst K) : Prop := {
  gd_reg : forall s, pot D s = (0 : gallicSR K) \/ exists u v, pot D s = (Some u, v) /\ v <> 0;
  gd_nz : forall s u v, pot D s = (Some u, v) -> ~ In O u;
  gd_tr : forall s u v t u' v', pot D s = (Some u, v) -> In t (trs_of f s) -> pot D (ns t) = (Some u', v') ->
    (exists r, (lab (ol t) ++ u' = u ++ r)%list) /\ exists c, v * c = wgt t * v';
  gd_fin : forall s u v w, pot D s = (Some u, v) -> fin_of f s = Some w -> u = [] /\ exists c, v * c = w;
  gd_dead : forall s, pot D s = (0 : gallicSR K) -> fin_of f s = None /\ forall t, In t (trs_of f s) -> pot D (ns t) = (0 : gallicSR K)
}.

Section Good.
  Context {K : SR} (L : lsr_laws K) (Zf : zero_sum_free K) (Zd : no_zero_divisors K) (Wd : weakly_divisible K).
  Notation G := (gallicSR K).
  Context (m : vfst K) (gm : vfst G) (M : mapped gtr gfin m gm) (NZ : no_zeros m).
  Context (D : list G) (Ln : (length D <= num_states gm)%nat)
      (Se : forall s, (s < num_states gm)%nat -> settles (fun k => back (mach gm) k s) (nth s D 0))
      (Eq : forall s, (s < num_states gm)%nat -> nth s D 0 = fw (fin_of gm s) + ksum (map (fun t => wgt t * nth (ns t) D 0) (trs_of gm s))).

  Lemma ksum_split (l : list K) a : In a l -> exists r, ksum l = a + r.
  Proof.
    induction l as [|b l IH]; [intros []|]. intros [->|H]; cbn [ksum]; eauto. destruct (IH H) as (r & ->). exists (b + r).
    rewrite !(kplus_assoc _ L). f_equal. apply (kplus_comm _ L).
  Qed.
  Lemma summand_divides (l : list K) a : In a l -> ksum l <> 0 -> exists c, ksum l * c = a.
  Proof.
    intros H N. destruct (ksum_split l a H) as (r & Er). rewrite Er in *. apply (Wd a r). auto.
  Qed.

  Lemma pots_good : good D m.
  Proof.
    pose proof (pot_regular L Zf Zd m gm M NZ D Ln Se) as RG. pose proof (pot_terms L gm D Ln Eq) as PT.
    assert (VAL : forall s, snd (pot D s) = ksum (map (fun x : G => snd x) (terms gm D s))) by (intros s; rewrite (PT s) at 1; apply snd_ksum).
    assert (STR : forall s, fst (pot D s) = fst (ksum (terms gm D s))) by (intros s; rewrite (PT s) at 1; auto).
    assert (ZERO : forall s, fst (pot D s) = None -> pot D s = (0 : G)).
    { intros s H. pose proof (proj1 (RG s) H). destruct (pot D s). cbn in *. subst. auto. }
    split.
    - intros s. destruct (fst (pot D s)) as [u|] eqn:E; [right|left; auto]. exists u, (snd (pot D s)). split; [rewrite <- E; destruct (pot D s); reflexivity|].
      intros Z. apply (RG s) in Z. congruence.
    - assert (X : forall s, match fst (pot D s) with Some u => ~ In O u | None => True end).
      { apply (pot_prop L m gm M D Ln Se (fun x : G => match fst x with Some u => ~ In O u | None => True end)); [exact Logic.I| | |cbn; auto].
        - intros [[a|] ?] [[b|] ?]; cbn [fst snd kplus gallicSR gallic_of sl_plus]; auto; intros A _ I; apply A. rewrite (lcp_prefix a b). apply in_or_app. left. exact I.
        - intros s t Ht [[a|] v]; cbn [gtr wgt ktimes gallicSR gallic_of fst snd str sv_times]; auto. intros A I. apply in_app_or in I as [I|I]; auto. unfold lab in I. destruct (Nat.eqb_spec (ol t) 0); cbn in I; intuition. }
      intros s u v E. specialize (X s). rewrite E in X. exact X.
    - intros s u v t u' v' Es Ht En. pose proof (term_tr m gm M D s t Ht) as I. rewrite En in I. cbn [gtr wgt] in I.
      assert (Fs : fst (ksum (terms gm D s)) = Some u) by (rewrite <- STR, Es; auto).
      destruct (fst_ksum_in _ _ (lab (ol t) ++ u')%list I eq_refl) as (u0 & r & E0 & Er).
      split; [exists r; rewrite Er; congruence|]. pose proof (VAL s) as V. rewrite Es in V. cbn [snd] in V. rewrite V.
      apply summand_divides.
      + apply in_map_iff. exists (((str (ol t), wgt t) : G) * ((Some u', v') : G)). split; auto.
      + rewrite <- V. intros ->. pose proof (RG s) as [_ R2]. rewrite Es in R2. specialize (R2 eq_refl). discriminate.
    - intros s u v w Es Ew. pose proof (term_fin m gm M D s w Ew) as I.
      assert (Fs : fst (ksum (terms gm D s)) = Some u) by (rewrite <- STR, Es; auto).
      destruct (fst_ksum_in _ _ [] I eq_refl) as (u0 & r & E0 & Er). split.
      { symmetry in Er. apply app_eq_nil in Er as [-> _]. congruence. }
      pose proof (VAL s) as V. rewrite Es in V. cbn [snd] in V. rewrite V. apply summand_divides.
      + apply in_map_iff. exists (gfin w). split; auto.
      + rewrite <- V. intros ->. pose proof (RG s) as [_ R2]. rewrite Es in R2. specialize (R2 eq_refl). discriminate.
    - intros s Es. assert (Fs : fst (ksum (terms gm D s)) = None) by (rewrite <- STR, Es; auto).
      pose proof (proj1 (fst_ksum _) Fs) as X. split.
      + destruct (fin_of m s) as [w|] eqn:E; auto. specialize (X _ (term_fin m gm M D s w E)). discriminate.
      + intros t Ht. specialize (X _ (term_tr m gm M D s t Ht)). cbn [gtr wgt ktimes gallicSR gallic_of fst str] in X.
        apply ZERO. unfold sv_times in X. destruct (fst (pot D (ns t))); [discriminate|auto].
  Qed.
End Good.

(** ** The machine with its weights removed *)
Section Bare.
  Context {K : SR} (L : lsr_laws K).
  Notation G := (gallicSR K).
  Lemma good_bare (D : list G) (f u : vfst K) (h : K -> K) : no_zeros f -> (forall w, w <> 0 -> h w = 1) ->
    (forall s, trs_of u s = map (set_w h) (trs_of f s)) -> (forall s, fin_of u s = option_map h (fin_of f s)) ->
    (forall s a v, pot D s = (Some a, v) -> forall b, exists c, v * c = b) -> good D u -> good D f.
  Proof.
    intros [Z1 Z2] H T F V GD. split.
    - apply (gd_reg D u GD).
    - apply (gd_nz D u GD).
    - intros s a v t a' v' Es Ht En. split; [|eapply V; eauto].
      destruct (gd_tr D u GD s a v (set_w h t) a' v' Es) as (A & _); auto. rewrite T. apply in_map. auto.
    - intros s a v w Es Ew. split; [|eapply V; eauto]. apply (gd_fin D u GD s a v (h w) Es). rewrite F, Ew. auto.
    - intros s Es. destruct (gd_dead D u GD s Es) as (A & B). split.
      + rewrite F in A. destruct (fin_of f s); auto. discriminate.
      + intros t Ht. apply (B (set_w h t)). rewrite T. apply in_map. auto.
  Qed.
  Lemma bare_no_zeros (f u : vfst K) (h : K -> K) : no_zeros f -> (forall w, w <> 0 -> h w = 1) ->
    (forall s, trs_of u s = map (set_w h) (trs_of f s)) -> (forall s, fin_of u s = option_map h (fin_of f s)) -> no_zeros u.
  Proof.
    intros [Z1 Z2] H T F.
    assert (N : forall w : K, w <> 0 -> h w <> 0).
    { intros w Hw E. rewrite (H w Hw) in E. apply Hw. rewrite <- (ktimes_1_l _ L w), E. apply (ktimes_0_l _ L). }
    split.
    - intros s t. rewrite T. intros Ht. apply in_map_iff in Ht as (t0 & <- & H0). cbn. eauto.
    - intros s w. rewrite F. destruct (fin_of f s) as [v|] eqn:E; [|discriminate]. intros [= <-]. eauto.
  Qed.
End Bare.

(** ** Consequences for reweighting *)
Section Use.
  Context {K : SR} (L : lsr_laws K) (divide : K -> K -> Reweight.divide_type -> res K) (DE : divides_exactly divide).
  Notation G := (gallicSR K).
  Context (f : vfst K) (gf : vfst G) (M : mapped gtr gfin f gf) (D : list G) (GD : good D f).
  Notation gdiv := (gallic_divide (sp := sl_plus) divide true).

  Lemma pot_live s : pot D s <> (0 : G) -> exists u v, pot D s = (Some u, v) /\ v <> 0.
  Proof. intros N. destruct (gd_reg D f GD s) as [E|E]; [contradiction|auto]. Qed.

  Lemma gdiv_ok (a b : list nat) (v w : K) : v <> 0 -> (exists c, v * c = w) ->
    exists c, gdiv ((Some (a ++ b), w) : G) ((Some a, v) : G) Reweight.DivideLeft = Ok ((Some b, c) : G) /\ v * c = w.
  Proof.
    intros N E. destruct (proj1 DE w v N E) as (c & Ec & Hc). exists c. split; auto. unfold gallic_divide. cbn [fst snd divide_left rbind].
    rewrite skipn_app, skipn_all, Nat.sub_diag. cbn [skipn app]. rewrite Ec. auto.
  Qed.

  Lemma good_divides : divides_left (K := gallicSR K) gdiv D gf.
  Proof.
    destruct M as (_ & _ & _ & _ & _ & M'). split.
    - intros s t Ht N Nt. change (In t (trs_of (K := gallicSR K) gf s)) in Ht. rewrite (proj1 (M' s)) in Ht. apply in_map_iff in Ht as (t0 & <- & H0). cbn [gtr ns wgt] in *.
      destruct (pot_live _ N) as (u & v & Es & Nv). destruct (pot_live _ Nt) as (u' & v' & En & _).
      destruct (gd_tr D f GD s u v t0 u' v' Es H0 En) as ((r & Er) & Q). rewrite Es, En.
      change (((str (ol t0), wgt t0) : G) * ((Some u', v') : G)) with ((Some (lab (ol t0) ++ u')%list, wgt t0 * v') : G). rewrite Er.
      destruct (gdiv_ok u r v _ Nv Q) as (c & Ec & Hc). exists ((Some r, c) : G). split; auto. cbn. rewrite Hc. auto.
    - intros s w Hw N. change (fin_of (K := gallicSR K) gf s = Some w) in Hw. rewrite (proj2 (M' s)) in Hw. destruct (fin_of f s) as [w0|] eqn:E; [|discriminate]. injection Hw as <-.
      destruct (pot_live _ N) as (u & v & Es & Nv). destruct (gd_fin D f GD s u v w0 Es E) as (-> & Q). rewrite Es.
      destruct (gdiv_ok [] [] v w0 Nv Q) as (c & Ec & Hc). exists ((Some [], c) : G). split; auto. cbn. rewrite Hc. auto.
  Qed.
  Lemma good_dead : dead_out (K := gallicSR K) D gf.
  Proof.
    destruct M as (_ & _ & _ & _ & _ & M'). intros s Z. destruct (gd_dead D f GD s Z) as (A & B). split.
    - rewrite (proj2 (M' s)), A. auto.
    - intros t Ht. right. change (In t (trs_of (K := gallicSR K) gf s)) in Ht. rewrite (proj1 (M' s)) in Ht. apply in_map_iff in Ht as (t0 & <- & H0). exact (B t0 H0).
  Qed.
End Use.
