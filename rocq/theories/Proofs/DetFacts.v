(** Weighted subsets carry the weight of every string.

    Weights act on functions [Y -> V]: with [Y] a singleton and products this is the weight of a
    string; with [Y] the output strings it is the weight of a pair of strings. *)
From Coq Require Import List Arith NArith Bool Lia Permutation Sorted.
From Verif Require Import Base.Util Base.Semiring Base.Machine Model.Props Model.AlgoProps Model.VectorFst
  Model.TrOps Model.BiMap Model.Lazy Model.Rational Model.Determinize.
From Verif Require Import Proofs.BiMapFacts Proofs.LazyFacts Proofs.TableFacts Proofs.RationalFacts Proofs.OpFacts Proofs.VectorFacts Proofs.TrOpsFacts
  Proofs.SortFacts Proofs.ComposeFacts.
Import ListNotations.
Local Open Scope K_scope.

Lemma rtrav_ok {A B} (g : A -> res B) l r : rtrav g l = Ok r -> Forall2 (fun a b => g a = Ok b) l r.
Proof.
  revert r. induction l as [|a l IH]; intros r; cbn [rtrav]; [intros [= <-]; auto|].
  destruct (g a) as [b| |] eqn:E; cbn [rbind]; try discriminate. destruct (rtrav g l) as [m| |]; cbn [rbind]; try discriminate.
  intros [= <-]. auto.
Qed.
Lemma rtrav_total {A B} (g : A -> res B) l : (forall a, In a l -> exists b, g a = Ok b) -> exists r, rtrav g l = Ok r.
Proof.
  induction l as [|a l IH]; intros H; cbn [rtrav]; eauto. destruct (H a (or_introl eq_refl)) as [b ->]. cbn [rbind].
  destruct IH as [r ->]; [intros x Hx; apply H; right; auto|]. cbn [rbind]. eauto.
Qed.

(** ** The labels of a subset *)
Section LabelMap.
  Context {K : SR}.
  Notation lmap := (list (nat * list (nat * K))).
  Definition keys_sorted (m : lmap) : Prop := StronglySorted lt (map fst m).
  (** All pairs of a label map with their labels. *)
  Definition unmap (m : lmap) : list (nat * delt K) := flat_map (fun p => map (fun e => (fst p, e)) (snd p)) m.

  Lemma lm_push_keys (m : lmap) x k : In k (map fst (lm_push m x)) <-> k = fst x \/ In k (map fst m).
  Proof.
    induction m as [|[b l] m IH]; cbn [lm_push map fst In].
    - split; intros [H|[]]; auto.
    - destruct (Nat.ltb (fst x) b); [cbn [map fst In]; intuition congruence|].
      destruct (Nat.eqb_spec (fst x) b); cbn [map fst In]; [|rewrite IH]; intuition congruence.
  Qed.
  Lemma lm_push_sorted (m : lmap) x : keys_sorted m -> keys_sorted (lm_push m x).
  Proof.
    unfold keys_sorted. induction m as [|[b l] m IH]; intros H; cbn [lm_push map fst].
    - repeat constructor.
    - apply StronglySorted_inv in H as [H1 H2]. fold (map (@fst nat (list (nat * K))) m) in *.
      destruct (Nat.ltb_spec (fst x) b).
      + cbn [map fst]. constructor; [constructor; auto|]. constructor; auto. eapply Forall_impl; [|exact H2]. cbn. intros; lia.
      + destruct (Nat.eqb_spec (fst x) b).
        * cbn [map fst]. constructor; auto.
        * cbn [map fst]. constructor; auto. apply Forall_forall. intros k Hk. apply lm_push_keys in Hk as [->|Hk]; [lia|].
          rewrite Forall_forall in H2. auto.
  Qed.
  Lemma lm_push_unmap (m : lmap) x : Permutation (unmap (lm_push m x)) (x :: unmap m).
  Proof.
    unfold unmap. induction m as [|[b l] m IH]; cbn [lm_push flat_map fst snd map app].
    - destruct x. auto.
    - destruct (Nat.ltb (fst x) b); [destruct x; cbn [flat_map fst snd map app]; auto|].
      destruct (Nat.eqb_spec (fst x) b) as [<-|].
      + cbn [flat_map fst snd map app]. rewrite map_app. cbn [map]. destruct x as [a e]. cbn [fst snd].
        rewrite <- app_assoc. cbn [app]. symmetry. apply Permutation_middle.
      + cbn [flat_map fst snd map app]. rewrite IH. symmetry. apply Permutation_middle.
  Qed.
  Lemma lm_fold o : forall m : lmap, keys_sorted m -> keys_sorted (fold_left lm_push o m) /\
    Permutation (unmap (fold_left lm_push o m)) (unmap m ++ o).
  Proof.
    induction o as [|x o IH]; intros m S; cbn [fold_left].
    - rewrite app_nil_r. auto.
    - destruct (IH (lm_push m x) (lm_push_sorted _ _ S)) as [A B]. split; auto. rewrite B, lm_push_unmap. cbn [app].
      apply Permutation_middle.
  Qed.
  Lemma lm_nonempty o : forall (m : lmap) p, (forall p, In p m -> snd p <> []) -> In p (fold_left lm_push o m) -> snd p <> [].
  Proof.
    assert (P : forall (m : lmap) x, (forall p, In p m -> snd p <> []) -> forall p, In p (lm_push m x) -> snd p <> []).
    { induction m as [|[b l] m IH]; intros x H p; cbn [lm_push].
      - intros [<-|[]]. discriminate.
      - destruct (Nat.ltb (fst x) b); [intros [<-|Hp]; [discriminate|auto]|].
        destruct (Nat.eqb (fst x) b).
        + intros [<-|Hp]; [cbn; destruct l; discriminate|apply H; right; auto].
        + intros [<-|Hp]; [apply (H (b, l)); left; auto|]. apply IH with x; auto. intros q Hq. apply H. right. auto. }
    induction o as [|x o IH]; intros m p H; cbn [fold_left]; [exact (H p)|]. apply IH. intros q. apply P. exact H.
  Qed.
End LabelMap.

Section Act.
  Context {K : SR} (D : det_weight K) (ord : dtuple K -> nat -> list (nat * K) -> list (nat * K)) (f : vfst K).
  Context (Hord : forall t a l, Permutation (ord t a l) l).
  Context {V : SR} (LV : lsr_laws V) {Y : Type} (act : K -> (Y -> V) -> Y -> V) (start : Y -> V).
  Context (act_ext : forall k F G, (forall y, F y = G y) -> forall y, act k F y = act k G y).
  Context (act_0 : forall F y, act 0 F y = 0).
  Context (act_zero : forall k y, act k (fun _ => 0) y = 0).
  Context (act_sum : forall k F G y, act k (fun y => F y + G y) y = act k F y + act k G y).
  Context (act_1 : forall F y, act 1 F y = F y).
  Context (act_mul : forall a b F y, act (a * b) F y = act a (act b F) y).
  Context (act_plus : forall a b c F y, d_plus D a b = Ok c -> act c F y = act a F y + act b F y).
  Context (act_div : forall l d m q w z F y, rfold (fun d e => d_cd D d (snd e)) l 0 = Ok d -> rfold (np_add D) l [] = Ok m ->
    In (q, w) m -> d_div D w d = Ok z -> act d (act (d_quant D z) F) y = act w F y).

  Lemma act_ksum {A} k (F : A -> Y -> V) l y :
    act k (fun y => ksum (map (fun a => F a y) l)) y = ksum (map (fun a => act k (F a) y) l).
  Proof.
    induction l as [|a l IH]; cbn [map ksum]; [apply act_zero|]. rewrite <- IH. rewrite <- act_sum. auto.
  Qed.

  (** The weight of a string of labels (epsilon is a label like the others) from a state. *)
  Fixpoint aval (g : vfst K) (q : nat) (u : list nat) : Y -> V :=
    match u with
    | [] => act (fw (fin_of g q)) start
    | a :: u' => fun y => ksum (map (fun t => act (wgt t) (aval g (ns t) u') y) (filter (fun t => Nat.eqb (il t) a) (trs_of g q)))
    end.
  (** From a subset. *)
  Definition sval (l : list (nat * K)) (F : nat -> Y -> V) (y : Y) : V := ksum (map (fun e => act (snd e) (F (fst e)) y) l).
  Definition tval (t : dtuple K) (u : list nat) : Y -> V := sval (fst t) (fun q => aval f q u).

  (** One step from [q] with label [a], then [F]. *)
  Definition step_val (F : nat -> Y -> V) (a q : nat) (y : Y) : V :=
    ksum (map (fun t => act (wgt t) (F (ns t)) y) (filter (fun t => Nat.eqb (il t) a) (trs_of f q))).
  Lemma det_out_val (F : nat -> Y -> V) l : forall o, det_out f l = Ok o -> forall a y,
    sval l (step_val F a) y =
    ksum (map (fun x => act (snd (snd x)) (F (fst (snd x))) y) (filter (fun x => Nat.eqb (fst x) a) o)).
  Proof.
    unfold sval. induction l as [|[q v] l IH]; intros o; cbn [det_out fst snd].
    - intros [= <-]. auto.
    - destruct (get_trs f q) as [trs| |] eqn:G; cbn [rbind]; try discriminate.
      destruct (det_out f l) as [r| |]; cbn [rbind]; try discriminate. intros [= <-] a y.
      cbn [map ksum fst snd]. rewrite (IH r eq_refl). rewrite filter_app, map_app, (ksum_app LV). f_equal.
      unfold step_val. rewrite (act_ksum v (fun t => act (wgt t) (F (ns t)))).
      assert (trs_of f q = trs) as ->.
      { unfold get_trs, get_state in G. unfold trs_of. destruct (nth_error (vstates f) q); [injection G; auto|discriminate]. }
      clear G. induction trs as [|t trs IHt]; cbn [filter map ksum]; auto. cbn [fst].
      destruct (Nat.eqb (il t) a); cbn [map ksum fst snd]; rewrite IHt; auto. rewrite act_mul. auto.
  Qed.

  Lemma np_add_val (F : nat -> Y -> V) m x m' y : np_add D m x = Ok m' -> sval m' F y = sval m F y + act (snd x) (F (fst x)) y.
  Proof.
    unfold sval. revert m'. induction m as [|[q w] m IH]; intros m'; cbn [np_add].
    - intros [= <-]. cbn [map ksum]. apply (kplus_comm _ LV).
    - destruct (Nat.eqb_spec q (fst x)) as [->|].
      + destruct (d_plus D w (snd x)) as [v| |] eqn:E; cbn [rbind]; try discriminate. intros [= <-]. cbn [map ksum fst snd].
        rewrite (act_plus _ _ _ _ _ E). rewrite <- !(kplus_assoc _ LV). f_equal. apply (kplus_comm _ LV).
      + destruct (np_add D m x) as [r| |]; cbn [rbind]; try discriminate. intros [= <-]. cbn [map ksum fst snd].
        rewrite (IH r eq_refl). apply (kplus_assoc _ LV).
  Qed.
  Lemma merge_val (F : nat -> Y -> V) y l : forall m m', rfold (np_add D) l m = Ok m' -> sval m' F y = sval m F y + sval l F y.
  Proof.
    induction l as [|x l IH]; intros m m'.
    - intros [= <-]. unfold sval at 3. cbn [map ksum]. symmetry. apply (kplus_0_r LV).
    - rewrite rfold_cons. destruct (np_add D m x) as [r| |] eqn:E; cbn [rbind]; try discriminate. intros H.
      rewrite (IH _ _ H), (np_add_val F m x r y E). unfold sval at 4. cbn [map ksum]. fold (sval l F y).
      rewrite <- (kplus_assoc _ LV). auto.
  Qed.

  Lemma norm_val (F : nat -> Y -> V) t a l d r y : norm_tr D ord t a l = Ok (d, r) -> sval l F y = act d (sval r F) y.
  Proof.
    unfold norm_tr. set (s := isort _ l). assert (PS : Permutation s l) by (apply isort_perm).
    destruct (rfold (fun d e => d_cd D d (snd e)) s 0) as [d'| |] eqn:Ed; cbn [rbind]; try discriminate.
    destruct (rfold (np_add D) s []) as [m| |] eqn:Em; cbn [rbind]; try discriminate.
    destruct (rtrav _ (ord t a m)) as [r'| |] eqn:Er; cbn [rbind]; try discriminate. intros [= <- <-].
    unfold sval at 1. rewrite <- (ksum_perm_map LV _ _ _ PS). fold (sval s F y).
    transitivity (sval m F y).
    { rewrite (merge_val F y _ _ _ Em). unfold sval at 2. cbn [map ksum]. symmetry. apply (kplus_0_l _ LV). }
    unfold sval. rewrite (act_ksum d' (fun e => act (snd e) (F (fst e)))). rewrite <- (ksum_perm_map LV _ _ _ (Hord t a m)).
    apply rtrav_ok in Er. pose proof (Hord t a m) as HP.
    assert (I : forall e, In e (ord t a m) -> In e m) by (intros e He; eapply Permutation_in; eauto). clear HP. revert I.
    induction Er as [|[q w] b lo lr E Er IH]; intros I; cbn [map ksum]; auto. cbn [fst snd] in *.
    destruct (d_div D w d') as [z| |] eqn:Ez; cbn [rbind] in E; try discriminate. injection E as <-. cbn [fst snd].
    rewrite <- IH by (intros e He; apply I; right; auto). f_equal. symmetry.
    eapply act_div; eauto. apply I. left. auto.
  Qed.

  (** One step of the subset machine. *)
  Lemma det_step_any (F : nat -> Y -> V) t l : det_trs D ord f t = Ok l -> forall a y,
    sval (fst t) (step_val F a) y = ksum (map (fun x => act (tw x) (sval (fst (tn x)) F) y) (filter (fun x => Nat.eqb (ti x) a) l)).
  Proof.
    unfold det_trs. destruct (det_out f (fst t)) as [o| |] eqn:Eo; cbn [rbind]; try discriminate. intros E a y.
    rewrite (det_out_val F _ _ Eo). destruct (lm_fold o (K := K) [] (SSorted_nil _)) as [_ P]. cbn [app unmap flat_map] in P.
    apply rtrav_ok in E. revert E P. generalize (fold_left lm_push o []). intros m E P.
    rewrite (ksum_filter LV). rewrite <- (ksum_perm_map LV _ _ _ P).
    rewrite (ksum_filter LV). clear Eo P. induction E as [|p x m l' Ex E IH]; auto. change (unmap (p :: m)) with (map (fun e => (fst p, e)) (snd p) ++ unmap m).
    rewrite map_app, (ksum_app LV). etransitivity; [apply f_equal2; [reflexivity|exact IH]|]. cbn [map ksum]. f_equal. clear IH E.
    destruct p as [b es]. cbn [fst snd] in *. destruct (norm_tr D ord t b es) as [[d r]| |] eqn:En; cbn [rbind] in Ex; try discriminate.
    injection Ex as <-. cbn [ti tw tn fst snd]. rewrite map_map. cbn [fst snd]. destruct (Nat.eqb b a).
    - rewrite <- (norm_val F _ _ _ _ _ y En). auto.
    - apply (ksum_map_0 LV).
  Qed.
  Lemma det_step t l : det_trs D ord f t = Ok l -> forall a u y,
    tval t (a :: u) y = ksum (map (fun x => act (tw x) (tval (tn x) u) y) (filter (fun x => Nat.eqb (ti x) a) l)).
  Proof. intros E a u y. exact (det_step_any (fun q => aval f q u) t l E a y). Qed.

  Lemma det_trs_shape t l : det_trs D ord f t = Ok l ->
    NoDup (map ti l) /\ StronglySorted lt (map ti l) /\ (forall x, In x l -> to x = ti x).
  Proof.
    unfold det_trs. destruct (det_out f (fst t)) as [o| |] eqn:Eo; cbn [rbind]; try discriminate. intros E.
    destruct (lm_fold o (K := K) [] (SSorted_nil _)) as [S _]. apply rtrav_ok in E. revert E S. generalize (fold_left lm_push o []). intros m E S.
    assert (map ti l = map fst m /\ forall x, In x l -> to x = ti x) as [-> T].
    { clear S Eo. induction E as [|p x m l' Ex E [IH1 IH2]]; [split; auto; intros x []|].
      destruct (norm_tr _ _ _ _ _) as [[d r]| |]; cbn [rbind] in Ex; try discriminate. injection Ex as <-. cbn [map ti]. split; [congruence|].
      intros x [<-|Hx]; auto. }
    split; [|split; auto]. clear -S. unfold keys_sorted in S. induction S; constructor; auto.
    rewrite Forall_forall in H. intros I. specialize (H _ I). lia.
  Qed.

  Lemma det_fin_val t w : (forall a b : K, keqb a b = true <-> a = b) -> det_fin D f t = Ok w -> forall y, act (fw w) start y = tval t [] y.
  Proof.
    intros KE. unfold det_fin. destruct (rfold _ (fst t) 0) as [v| |] eqn:E; cbn [rbind]; try discriminate. intros [= <-] y.
    transitivity (act v start y).
    { destruct (keqb v 0) eqn:Ev; auto. apply KE in Ev. subst. auto. }
    unfold tval. assert (G : forall l a v, rfold (fun acc e => o <-- final_weight f (fst e) ;;
            d_plus D acc (snd e * match o with Some z => z | None => 0 end)) l a = Ok v ->
          act v start y = act a start y + sval l (fun q => aval f q []) y).
    { clear t v E. induction l as [|e l IH]; intros a v.
      - intros [= <-]. symmetry. apply (kplus_0_r LV).
      - rewrite rfold_cons. destruct (final_weight f (fst e)) as [o| |] eqn:F; cbn [rbind]; try discriminate.
        destruct (d_plus D a _) as [b| |] eqn:P; cbn [rbind]; try discriminate. intros H.
        rewrite (IH _ _ H), (act_plus _ _ _ _ _ P). unfold sval. cbn [map ksum]. rewrite (kplus_assoc _ LV). f_equal. f_equal.
        rewrite act_mul. cbn [aval]. unfold final_weight, get_state in F. unfold fin_of. destruct (nth_error (vstates f) (fst e)); [|discriminate].
        injection F as <-. destruct (vfin _); auto. }
    rewrite (G _ _ _ E), act_0. apply (kplus_0_l _ LV).
  Qed.

  Lemma built_val {C} (z : bimap (dtuple K) * C) g : (forall a b : K, keqb a b = true <-> a = b) ->
    built (tS (det_start f)) (tT (det_trs D ord f)) (tF (det_fin D f)) g z ->
    forall u q t y, accessible (mach g) q -> nth_error (id_to_tuple (fst z)) q = Some t -> aval g q u y = tval t u y.
  Proof.
    intros KE (_ & _ & B). destruct (vstart g) as [s|] eqn:S.
    2: { intros u q t y (s & E & _). cbn in E. congruence. }
    destruct B as (_ & _ & B & _).
    induction u as [|a u IH]; intros q t y A N; destruct (B q A) as ((t1 & l & N1 & E1 & F1) & (t2 & N2 & E2)).
    - cbn [aval]. replace t with t2 by congruence. rewrite <- (det_fin_val _ _ KE E2). auto.
    - replace t with t1 by congruence. rewrite (det_step _ _ E1). cbn [aval]. rewrite !(ksum_filter LV).
      assert (AT : forall v, In v (trs_of g q) -> accessible (mach g) (ns v)).
      { intros v Hv. destruct A as (s0 & E & R). exists s0. split; auto. eapply reach_snoc; eauto. }
      clear E1 E2 N1 N2 N A. revert F1 AT. generalize (trs_of g q). clear -IH act_ext. intros m F AT. f_equal.
      induction F as [|v w m l (H1 & H2 & H3 & H4) F IHF]; cbn [map]; auto.
      rewrite IHF by (intros; apply AT; simpl; auto). f_equal. rewrite H1, H3. destruct (Nat.eqb (ti w) a); auto.
      apply act_ext. intros y'. apply IH; auto. apply AT. simpl. auto.
  Qed.

  Lemma built_start {C} (z : bimap (dtuple K) * C) g : (forall a b : K, keqb a b = true <-> a = b) ->
    built (tS (det_start f)) (tT (det_trs D ord f)) (tF (det_fin D f)) g z ->
    match vstart g, vstart f with
    | Some q, Some s => forall u y, aval g q u y = aval f s u y
    | None, None => True
    | _, _ => False
    end.
  Proof.
    intros KE B. pose proof (built_val z g KE B) as BV. destruct B as (_ & _ & B). destruct (vstart g) as [q|] eqn:S.
    - destruct B as (_ & (t & N & E) & _). unfold det_start in E. destruct (vstart f) as [s|]; [|discriminate].
      injection E as <-. intros u y. rewrite (BV u q ([(s, 1)], s) y); auto.
      + unfold tval, sval. cbn [fst map ksum snd]. rewrite act_1. apply (kplus_0_r LV).
      + exists q. split; auto. apply reach_refl.
    - destruct B as (_ & E). cbn in E. unfold det_start in E. destruct (vstart f); [discriminate|]. auto.
  Qed.
End Act.

(** ** Runs *)
From Verif Require Import Proofs.FactorTable Proofs.DetTable.
Section Run.
  Context {K : SR} (L : lsr_laws K) (D : det_weight K)
    (ord : dtuple K -> nat -> list (nat * K) -> list (nat * K)) (f : vfst K) (in_dist : option (list K)).

  Section U.
    Context (U : dtuple K -> Prop) (Ustart : forall t, det_start f = Ok (Some t) -> U t)
      (Utrs : forall t l u, U t -> det_trs D ord f t = Ok l -> In u l -> U (tn u)).

    Definition det_sp := transfer_spec _ _ dabs (dJ D in_dist) (det_hstart D ord f in_dist) (det_htrs D ord f in_dist) (det_hfin D ord f in_dist)
      _ _ _ _ _ (table_spec dtuple_eqb (dtuple_eqb_spec L) (det_start f) (det_trs D ord f) (det_fin D f) 0%N U Ustart Utrs).

    Lemma det_zok : zok map_cache_ops map_inv (fun o => dJ D in_dist o /\ tI dtuple_eqb U (dabs o)) (fun o => tS (det_start f) (dabs o))
      (fun o => tT (det_trs D ord f) (dabs o)) (fun o => tF (det_fin D f) (dabs o)) (dt_new, map_cache_new).
    Proof. apply zok_empty; [split; [apply dJ_new|apply tI_new]|apply map_cache_empty]. Qed.

    Lemma det_built fuel g tb : det_run D ord f in_dist fuel = Some (Ok (g, tb)) ->
      d_left D = true /\ has (vprops f) ACCEPTOR = true /\ dJ D in_dist tb /\ tI dtuple_eqb U (dabs tb) /\
      (exists c : map_cache K, built (tS (det_start f)) (tT (det_trs D ord f)) (tF (det_fin D f)) g (dabs tb, c)) /\
      (vstart g <> None -> visymt g = visymt f /\ vosymt g = vosymt f).
    Proof.
      unfold det_run. destruct (d_left D); [|discriminate]. destruct (has (vprops f) ACCEPTOR); [|discriminate]. cbn [negb].
      destruct (compute _ _ fuel _ _ _) as [[[g' z]| |]|] eqn:C; cbn; try discriminate. intros [= <- <-].
      destruct (compute_ok (det_op D ord f in_dist) map_cache_ops map_inv _ _ _ _ _ map_cache_laws det_sp fuel _ _ _ _ _ det_zok C) as (Z & _ & B & S).
      split; auto. split; auto. destruct Z as ((Z1 & Z2) & _). split; auto. split; auto. split.
      - exists (snd z). exact B.
      - intros H. destruct (S H) as (S1 & S2 & _). auto.
    Qed.

    Context (TP : in_dist = None \/ forall a b, exists c, d_plus D a b = Ok c).
    Context (Ltrs : forall t, U t -> exists l, det_trs D ord f t = Ok l) (Lfin : forall t, U t -> exists w, det_fin D f t = Ok w).
    Context (univ : list (dtuple K)) (HU : forall t, U t -> In t univ).

    Lemma det_total fuel : d_left D = true -> has (vprops f) ACCEPTOR = true -> (length univ <= fuel)%nat ->
      exists x, det_run D ord f in_dist fuel = Some (Ok x).
    Proof.
      intros HL HA HF. unfold det_run. rewrite HL, HA. cbn [negb].
      assert (LS : exists o, det_start f = Ok o) by (unfold det_start; eauto).
      pose proof (table_live dtuple_eqb (det_start f) (det_trs D ord f) (det_fin D f) 0%N U Ustart LS Ltrs Lfin) as TL.
      pose proof (transfer_live _ (det_op D ord f in_dist) dabs (dJ D in_dist) _ _ _ _ _ (det_lstart D ord f in_dist TP) (det_ltrs D ord f in_dist TP)
        (det_lfin D ord f in_dist) TL) as LV.
      destruct (compute_total (det_op D ord f in_dist) map_cache_ops map_inv _ _ _ _ _ map_cache_laws det_sp _ LV (length univ)
        (fun o i H V => table_bound dtuple_eqb U univ HU (dabs o) i (proj2 H) V) fuel (visymt f) (vosymt f) _ det_zok HF) as ((g & z) & E).
      rewrite E. cbn. eauto.
    Qed.
  End U.
End Run.
