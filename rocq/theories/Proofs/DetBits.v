(** The shape of a determinized acceptor: its subsets, and what its property bits say. *)
From Coq Require Import List Arith NArith Bool Lia Permutation Sorted.
From Verif Require Import Base.Util Base.Semiring Base.Machine Base.PathSum Base.PropSpec Model.Props Model.AlgoProps Model.VectorFst
  Model.TrOps Model.BiMap Model.Lazy Model.Rational Model.Determinize.
From Verif Require Import Proofs.BiMapFacts Proofs.ConnectFacts Proofs.LazyFacts Proofs.TableFacts Proofs.RationalFacts Proofs.OpFacts Proofs.VectorFacts Proofs.TrOpsFacts
  Proofs.SortFacts Proofs.ComposeFacts Proofs.FactorTable Proofs.DetTable Proofs.DetFacts Proofs.TableReach.
Import ListNotations.
Local Open Scope K_scope.

Lemma in_perm {A} (l m : list A) x : Permutation l m -> (In x l <-> In x m).
Proof. intros P. split; apply Permutation_in; auto. symmetry. auto. Qed.

Section Support.
  Context {K : SR} (D : det_weight K) (ord : dtuple K -> nat -> list (nat * K) -> list (nat * K)) (f : vfst K).
  Context (HO : forall t a l, Permutation (ord t a l) l).

  Definition supp (l : list (nat * K)) : list nat := map fst l.

  Lemma np_add_supp m x m' q : np_add D m x = Ok m' -> (In q (supp m') <-> q = fst x \/ In q (supp m)).
  Proof.
    revert m'. induction m as [|[p w] m IH]; intros m'; cbn [np_add].
    - intros [= <-]. cbn. intuition congruence.
    - destruct (Nat.eqb_spec p (fst x)) as [->|N].
      + destruct (d_plus D w (snd x)) as [v| |]; cbn [rbind]; try discriminate. intros [= <-]. cbn. intuition congruence.
      + destruct (np_add D m x) as [r| |]; cbn [rbind]; try discriminate. intros [= <-]. cbn [supp map fst In].
        specialize (IH r eq_refl). unfold supp in IH. rewrite IH. intuition congruence.
  Qed.
  Lemma merge_supp q l : forall m m', rfold (np_add D) l m = Ok m' -> (In q (supp m') <-> In q (supp l) \/ In q (supp m)).
  Proof.
    induction l as [|x l IH]; intros m m'.
    - intros [= <-]. cbn. tauto.
    - rewrite rfold_cons. destruct (np_add D m x) as [r| |] eqn:E; cbn [rbind]; try discriminate. intros H.
      rewrite (IH _ _ H), (np_add_supp _ _ _ _ E). cbn. intuition congruence.
  Qed.
  Lemma norm_supp t a l d r q : norm_tr D ord t a l = Ok (d, r) -> (In q (supp r) <-> In q (supp l)).
  Proof.
    unfold norm_tr. set (s := isort _ l). assert (PS : Permutation s l) by apply isort_perm.
    destruct (rfold _ s 0) as [d'| |]; cbn [rbind]; try discriminate.
    destruct (rfold (np_add D) s []) as [m| |] eqn:Em; cbn [rbind]; try discriminate.
    destruct (rtrav _ (ord t a m)) as [r'| |] eqn:Er; cbn [rbind]; try discriminate. intros [= <- <-].
    apply rtrav_ok in Er. assert (E : supp r' = supp (ord t a m)).
    { clear -Er. induction Er as [|e b lo lr E Er IH]; auto. cbn [supp map]. f_equal; auto.
      destruct (d_div D (snd e) d'); cbn in E; try discriminate. injection E as <-. auto. }
    rewrite E. unfold supp. rewrite (in_perm _ _ q (Permutation_map fst (HO t a m))).
    change (map fst m) with (supp m). rewrite (merge_supp q _ _ _ Em). cbn. unfold supp.
    rewrite (in_perm _ _ q (Permutation_map fst PS)). tauto.
  Qed.

  Lemma det_out_supp l : forall o, det_out f l = Ok o -> forall a q,
    In (a, q) (map (fun x => (fst x, fst (snd x))) o) <-> exists e v, In e l /\ In v (trs_of f (fst e)) /\ il v = a /\ ns v = q.
  Proof.
    induction l as [|e l IH]; intros o; cbn [det_out].
    - intros [= <-] a q. split; [intros []|]. intros (e & v & [] & _).
    - destruct (get_trs f (fst e)) as [ts| |] eqn:G; cbn [rbind]; try discriminate.
      destruct (det_out f l) as [r| |] eqn:E; cbn [rbind]; try discriminate. intros [= <-] a q.
      rewrite map_app, in_app_iff, (IH r eq_refl), map_map. cbn [fst snd].
      assert (ts = trs_of f (fst e)) as -> by (unfold get_trs, get_state in G; unfold trs_of; destruct (nth_error (vstates f) (fst e)); cbn in G; congruence). split.
      + intros [H|(e' & v & H)].
        * apply in_map_iff in H as (v & [= <- <-] & Hv). exists e, v. cbn. auto.
        * exists e', v. cbn. tauto.
      + intros (e' & v & [<-|He] & Hv & <- & <-).
        * left. apply in_map_iff. eauto.
        * right. eauto 6.
  Qed.

  Theorem det_trs_supp t l : det_trs D ord f t = Ok l ->
    (forall x, In x l -> fst (tn x) <> [] /\
       forall q, In q (supp (fst (tn x))) <-> exists e v, In e (fst t) /\ In v (trs_of f (fst e)) /\ il v = ti x /\ ns v = q) /\
    (forall e v, In e (fst t) -> In v (trs_of f (fst e)) -> exists x, In x l /\ ti x = il v).
  Proof.
    unfold det_trs. destruct (det_out f (fst t)) as [o| |] eqn:Eo; cbn [rbind]; try discriminate. intros E.
    pose proof (det_out_supp _ _ Eo) as S. destruct (lm_fold o (K := K) [] (SSorted_nil _)) as [KS P]. cbn [app unmap flat_map] in P.
    assert (NE : forall p, In p (fold_left lm_push o []) -> snd p <> []) by (intros p; apply lm_nonempty; intros q []).
    apply rtrav_ok in E. revert E P NE KS. generalize (fold_left lm_push o []). intros m E P NE KS.
    assert (NK : forall p p', In p m -> In p' m -> fst p = fst p' -> p = p').
    { clear -KS. unfold keys_sorted in KS. induction m as [|p m IH]; intros a b; [intros []|]. cbn [map] in KS.
      apply StronglySorted_inv in KS as [K1 K2]. rewrite Forall_forall in K2.
      intros [<-|Ha] [<-|Hb] Eab; auto.
      - pose proof (K2 (fst b) (in_map fst _ _ Hb)). lia.
      - pose proof (K2 (fst a) (in_map fst _ _ Ha)). lia. }
    assert (SM : forall p q, In p m -> (In q (supp (snd p)) <-> exists e v, In e (fst t) /\ In v (trs_of f (fst e)) /\ il v = fst p /\ ns v = q)).
    { intros p q Hp. rewrite <- S. split.
      - intros H. apply in_map_iff in H as (e & <- & He). apply in_map_iff. exists (fst p, e). split; auto.
        eapply Permutation_in; [exact P|]. apply in_flat_map. exists p. split; auto. apply in_map. auto.
      - intros H. apply in_map_iff in H as (x & [= X1 X2] & Hx). apply (Permutation_in _ (Permutation_sym P)) in Hx.
        apply in_flat_map in Hx as (p' & Hp' & Hx). apply in_map_iff in Hx as (e & <- & He). cbn [fst snd] in *.
        apply NK in X1; auto. subst p'. apply in_map_iff. eauto. }
    split.
    - intros x Hx. destruct (Forall2_in_r _ _ _ _ E Hx) as (p & Hp & Ep).
      destruct (norm_tr D ord t (fst p) (snd p)) as [[d r]| |] eqn:En; cbn [rbind] in Ep; try discriminate. injection Ep as <-. cbn [tn ti fst snd].
      assert (SR' : forall q, In q (supp r) <-> In q (supp (snd p))) by (intros q; eapply norm_supp; eauto). split.
      + intros ->. specialize (NE p Hp). destruct (snd p) as [|e' l']; [congruence|]. apply (proj2 (SR' (fst e'))). left. auto.
      + intros q. rewrite SR'. auto.
    - intros e v He Hv. assert (H : In (il v, ns v) (map (fun x => (fst x, fst (snd x))) o)) by (apply S; eauto 6).
      apply in_map_iff in H as (x & [= X1 X2] & Hx). apply (Permutation_in _ (Permutation_sym P)) in Hx.
      apply in_flat_map in Hx as (p & Hp & Hx). apply in_map_iff in Hx as (e' & <- & He'). cbn [fst snd] in *.
      destruct (Forall2_in_l _ _ _ _ E Hp) as (y & Hy & Ey).
      destruct (norm_tr D ord t (fst p) (snd p)) as [[d r]| |] eqn:En; cbn [rbind] in Ey; try discriminate. injection Ey as <-.
      eexists. split; [exact Hy|]. exact X1.
  Qed.
End Support.

(** ** Long paths *)
Section Long.
  Context {K : SR} (m : machine K) (n : nat) (below : forall s t, In t (mtrs m s) -> (ns t < n)%nat).
  Lemma path_app p : forall s q, is_path m s (p ++ q) <-> is_path m s p /\ is_path m (dst s p) q.
  Proof. induction p as [|t p IH]; intros s q; simpl; [tauto|]. rewrite IH. tauto. Qed.
  Lemma path_cycle t p s : is_path m s (t :: p) -> dst s (t :: p) = s -> on_cycle m s.
  Proof. intros [Ht Hp] E. exists t. split; auto. apply reach_path. exists p. auto. Qed.
  Lemma cycle_path s : on_cycle m s -> exists t p, is_path m s (t :: p) /\ dst s (t :: p) = s.
  Proof. intros (t & Ht & R). apply reach_path in R as (p & Hp & E). exists t, p. split; [split; auto|exact E]. Qed.
  Lemma nodup_or_cycle p : forall s, is_path m s p -> NoDup (s :: map (@ns K) p) \/ exists q, on_cycle m q.
  Proof.
    induction p as [|t p IH]; intros s Hp; [left; repeat constructor; auto|].
    destruct (IH (ns t) (proj2 Hp)) as [ND|C]; [|auto].
    destruct (in_dec Nat.eq_dec s (map (@ns K) (t :: p))) as [H|H]; [right|left; constructor; auto].
    apply in_map_iff in H as (u & Eu & Hu). apply in_split in Hu as (l1 & l2 & E).
    rewrite E in Hp. change (u :: l2) with ([u] ++ l2) in Hp. rewrite app_assoc in Hp. apply path_app in Hp as [Hp _].
    exists s. destruct (l1 ++ [u]) as [|v l3] eqn:E3; [destruct l1; discriminate|]. apply (path_cycle v l3); auto.
    rewrite <- E3, dst_app. auto.
  Qed.
  Lemma long_cycle p s : (s < n)%nat -> is_path m s p -> (n <= length p)%nat -> exists q, on_cycle m q.
  Proof.
    intros Hs Hp Hl. destruct (nodup_or_cycle p s Hp) as [ND|C]; auto. exfalso.
    assert (I : incl (s :: map (@ns K) p) (seq O n)).
    { intros x [<-|Hx]; apply in_seq; [lia|]. apply in_map_iff in Hx as (u & <- & Hu).
      assert (exists s', In u (mtrs m s')) as (s' & Hs'); [|apply below in Hs'; lia].
      clear -Hp Hu. revert s Hp Hu. induction p as [|v p IH]; intros s Hp Hu; [destruct Hu|]. destruct Hp as [Hv Hp]. destruct Hu as [<-|Hu]; eauto. }
    apply NoDup_incl_length in I; auto. rewrite seq_length in I. cbn [length] in I. rewrite map_length in I. lia.
  Qed.
  Lemma cycle_long s k : on_cycle m s -> exists p, is_path m s p /\ dst s p = s /\ (k <= length p)%nat.
  Proof.
    intros H. apply cycle_path in H as (t & p & Hp & E). induction k as [|k (q & Hq & Eq & Lq)]; [exists []; cbn; auto with arith|].
    exists ((t :: p) ++ q). split; [|split].
    - apply path_app. rewrite E. auto.
    - rewrite dst_app, E. auto.
    - rewrite app_length. cbn [length]. lia.
  Qed.
End Long.

(** ** The machine of the subsets *)
Section Machine.
  Context {K : SR} (L : lsr_laws K) (D : det_weight K) (ord : dtuple K -> nat -> list (nat * K) -> list (nat * K)) (f : vfst K).
  Context (HO : forall t a l, Permutation (ord t a l) l) (CL : closed f).
  Context {in_dist : option (list K)} (fuel : nat) (g : vfst K) (tb : det_table K) (E : det_run D ord f in_dist fuel = Some (Ok (g, tb))).
  Notation met := (met (det_start f) (det_trs D ord f)).
  Notation tup s := (nth_error (id_to_tuple (dabs tb)) s).

  Lemma run_met : has (vprops f) ACCEPTOR = true /\ tI dtuple_eqb met (dabs tb) /\
    (exists c : map_cache K, built (tS (det_start f)) (tT (det_trs D ord f)) (tF (det_fin D f)) g (dabs tb, c)) /\
    (vstart g <> None -> accessible (mach g) (pred (num_states g))) /\
    traced (det_start f) (det_trs D ord f) (dabs tb).
  Proof.
    revert E. unfold det_run. destruct (d_left D); [|discriminate]. destruct (has (vprops f) ACCEPTOR); [|discriminate]. cbn [negb].
    destruct (compute _ _ fuel _ _ _) as [[[g' z]| |]|] eqn:C; cbn; try discriminate. intros [= <- <-].
    pose proof (transfer_spec _ _ dabs (dJ D in_dist) (det_hstart D ord f in_dist) (det_htrs D ord f in_dist) (det_hfin D ord f in_dist)
      _ _ _ _ _ (table_spec2 dtuple_eqb (dtuple_eqb_spec L) (det_start f) (det_trs D ord f) (det_fin D f) 0%N)) as SP.
    assert (Z0 : zok map_cache_ops map_inv (fun o => dJ D in_dist o /\ tI2 dtuple_eqb (det_start f) (det_trs D ord f) (dabs o)) (fun o => tS (det_start f) (dabs o))
      (fun o => tT (det_trs D ord f) (dabs o)) (fun o => tF (det_fin D f) (dabs o)) (dt_new, map_cache_new)).
    { apply zok_empty; [split; [apply dJ_new|apply tI2_new]|apply map_cache_empty]. }
    destruct (compute_ok (det_op D ord f in_dist) map_cache_ops map_inv _ _ _ _ _ map_cache_laws SP fuel _ _ _ _ _ Z0 C) as (Z & _ & B & S).
    split; auto. destruct Z as ((Z1 & Z2 & Z3) & _). split; auto. split; [|split; auto].
    - exists (snd z). exact B.
    - intros H. destruct (S H) as (_ & _ & _ & S3). auto.
  Qed.
  Lemma run_all s : (s < num_states g)%nat -> accessible (mach g) s.
  Proof.
    destruct run_met as (_ & I & (c & B) & H & _). intros Hs. destruct (vstart g) as [s0|] eqn:S.
    - assert (X : vstart g <> None) by congruence. apply (built_all dtuple_eqb _ _ _ (dabs tb, c) g B I X); auto. apply H. congruence.
    - destruct B as (_ & _ & B). rewrite S in B. unfold num_states in Hs. rewrite (proj1 B) in Hs. cbn in Hs. lia.
  Qed.
  Lemma run_tup s : accessible (mach g) s -> exists t, tup s = Some t /\ met t.
  Proof. destruct run_met as (_ & I & (c & B) & _). intros A. eapply (met_tuple _ _ _ _ (dabs tb, c)); eauto. Qed.
  Lemma acc_step s v : accessible (mach g) s -> In v (trs_of g s) -> accessible (mach g) (ns v).
  Proof. intros (a & Ea & R) Hv. exists a. split; auto. eapply reach_snoc; [exact R|exact Hv]. Qed.
  Lemma has_trs s v : In v (trs_of g s) -> accessible (mach g) s.
  Proof. intros Hv. apply run_all. eapply trs_of_in; eauto. Qed.

  Lemma run_trs s t : accessible (mach g) s -> tup s = Some t -> exists l, det_trs D ord f t = Ok l /\ Forall2 (TableFacts.same_tr (dabs tb)) (trs_of g s) l.
  Proof.
    intros A N. destruct run_met as (_ & _ & (c & B) & _). destruct B as (_ & _ & B). destruct (vstart g) as [s0|] eqn:S.
    - destruct B as (_ & _ & B & _). destruct (B s A) as ((t1 & l & N1 & E1 & F) & _). cbn [fst] in *. assert (t1 = t) as -> by congruence. eauto.
    - destruct A as (s1 & E1 & _). cbn in E1. congruence.
  Qed.
  Lemma run_fin s t : accessible (mach g) s -> tup s = Some t -> det_fin D f t = Ok (fin_of g s).
  Proof.
    intros A N. destruct run_met as (_ & _ & (c & B) & _). destruct B as (_ & _ & B). destruct (vstart g) as [s0|] eqn:S.
    - destruct B as (_ & _ & B & _). destruct (B s A) as (_ & (t1 & N1 & E1)). cbn [fst] in *. congruence.
    - destruct A as (s1 & E1 & _). cbn in E1. congruence.
  Qed.
  Lemma run_start s0 : vstart f = Some s0 -> exists a, vstart g = Some a /\ tup a = Some ([(s0, 1)], s0).
  Proof.
    intros S0. destruct run_met as (_ & _ & (c & B) & _). destruct B as (_ & _ & B). destruct (vstart g) as [a|].
    - destruct B as (_ & (t & N & Et) & _). cbn [fst] in *. unfold det_start in Et. rewrite S0 in Et. injection Et as <-. eauto.
    - destruct B as (_ & B). cbn in B. unfold det_start in B. rewrite S0 in B. discriminate.
  Qed.
  Lemma run_start_back a : vstart g = Some a -> exists s0, vstart f = Some s0 /\ tup a = Some ([(s0, 1)], s0).
  Proof.
    intros S. destruct (vstart f) as [s0|] eqn:S0.
    - destruct (run_start s0 S0) as (b & Eb & N). exists s0. split; auto. congruence.
    - destruct run_met as (_ & _ & (c & B) & _). destruct B as (_ & _ & B). rewrite S in B. destruct B as (_ & (t & N & Et) & _).
      unfold det_start in Et. rewrite S0 in Et. discriminate.
  Qed.

  (** A transition of the subset machine, seen from the states of the subsets. *)
  Lemma run_step s t v : accessible (mach g) s -> tup s = Some t -> In v (trs_of g s) -> ol v = il v /\
    exists t', tup (ns v) = Some t' /\ fst t' <> [] /\
      forall q, In q (supp (fst t')) <-> exists e w, In e (fst t) /\ In w (trs_of f (fst e)) /\ il w = il v /\ ns w = q.
  Proof.
    intros A N Hv. destruct (run_trs s t A N) as (l & El & F). destruct (Forall2_in_l _ _ _ _ F Hv) as (x & Hx & (X1 & X2 & X3 & X4)).
    destruct (det_trs_supp D ord f HO t l El) as [P _]. destruct (det_trs_shape D ord f t l El) as (_ & _ & TO). split; [rewrite X1, X2; auto|].
    exists (tn x). destruct (P x Hx) as [P1 P2]. split; auto. split; auto. rewrite X1. exact P2.
  Qed.
  Lemma run_cover s t e w : accessible (mach g) s -> tup s = Some t -> In e (fst t) -> In w (trs_of f (fst e)) ->
    exists v, In v (trs_of g s) /\ il v = il w.
  Proof.
    intros A N He Hw. destruct (run_trs s t A N) as (l & El & F).
    destruct (det_trs_supp D ord f HO t l El) as [_ P]. destruct (P e w He Hw) as (x & Hx & Ex).
    destruct (Forall2_in_r _ _ _ _ F Hx) as (v & Hv & (V1 & _)). exists v. split; auto. congruence.
  Qed.
  Lemma in_supp q (l : list (nat * K)) : In q (supp l) -> exists e, In e l /\ fst e = q.
  Proof. intros H. apply in_map_iff in H as (e & <- & He). eauto. Qed.
  Lemma supp_in e (l : list (nat * K)) : In e l -> In (fst e) (supp l).
  Proof. apply in_map. Qed.

  Lemma path_fwd p : forall s t q, accessible (mach g) s -> tup s = Some t -> In q (supp (fst t)) -> is_path (mach f) q p ->
    exists p' t', is_path (mach g) s p' /\ length p' = length p /\ accessible (mach g) (dst s p') /\ tup (dst s p') = Some t' /\ In (dst q p) (supp (fst t')).
  Proof.
    induction p as [|w p IH]; intros s t q A N Hq Hp.
    - exists [], t. cbn. auto.
    - destruct Hp as [Hw Hp]. apply in_supp in Hq as (e & He & <-). destruct (run_cover s t e w A N He Hw) as (v & Hv & Ev).
      destruct (run_step s t v A N Hv) as (_ & t1 & N1 & _ & P). destruct (IH (ns v) t1 (ns w)) as (p' & t' & H1 & H2 & H3 & H4 & H5); auto.
      + eapply acc_step; eauto.
      + apply P. eauto 6.
      + exists (v :: p'), t'. cbn [is_path length dst]. split; [split; auto|]. auto.
  Qed.
  Lemma path_bwd p : forall s t, accessible (mach g) s -> tup s = Some t -> is_path (mach g) s p ->
    exists t', tup (dst s p) = Some t' /\ forall q', In q' (supp (fst t')) ->
      exists q p', In q (supp (fst t)) /\ is_path (mach f) q p' /\ length p' = length p /\ dst q p' = q'.
  Proof.
    induction p as [|v p IH]; intros s t A N Hp.
    - exists t. split; auto. intros q Hq. exists q, []. cbn. auto.
    - destruct Hp as [Hv Hp]. destruct (run_step s t v A N Hv) as (_ & t1 & N1 & _ & P).
      destruct (IH (ns v) t1 (acc_step s v A Hv) N1 Hp) as (t' & N' & H). exists t'. split; auto.
      intros q' Hq'. destruct (H q' Hq') as (q1 & p' & H1 & H2 & H3 & H4). apply P in H1 as (e & w & He & Hw & _ & <-).
      exists (fst e), (w :: p'). split; [apply supp_in; auto|]. cbn [is_path length dst]. split; [split; auto|]. auto.
  Qed.
  Lemma tup_inhabited s t : accessible (mach g) s -> tup s = Some t -> fst t <> [].
  Proof.
    intros A N. destruct (run_tup s A) as (t' & N' & M). assert (t' = t) as -> by congruence. clear -M HO.
    inversion M as [t0 Et|t0 l u M0 El Hu]; subst.
    - unfold det_start in Et. destruct (vstart f); [injection Et as <-|discriminate]. discriminate.
    - destruct (det_trs_supp D ord f HO t0 l El) as [P _]. apply (P u Hu).
  Qed.
  Lemma tup_below s t q : accessible (mach g) s -> tup s = Some t -> In q (supp (fst t)) -> (q < num_states f)%nat.
  Proof.
    intros A N Hq. destruct A as (a & Ea & R). apply reach_path in R as (p & Hp & <-). destruct (run_start_back a Ea) as (s0 & S0 & Na).
    destruct (path_bwd p a _ (ex_intro _ a (conj Ea (reach_refl _ _))) Na Hp) as (t' & N' & H). assert (t' = t) as -> by congruence.
    destruct (H q Hq) as (q0 & p' & Hq0 & Hp' & _ & <-). destruct Hq0 as [<-|[]]. cbn [fst].
    pose proof (proj2 CL s0 S0) as HB. clear -CL Hp' HB. cbn [fst] in *. revert Hp' HB. generalize s0. induction p' as [|w p' IH]; intros s Hp HB; cbn; auto.
    destruct Hp as [Hw Hp]. apply IH; auto. exact (proj1 CL s w Hw).
  Qed.
  Lemma supp_of q : accessible (mach f) q -> exists s t, accessible (mach g) s /\ tup s = Some t /\ In q (supp (fst t)).
  Proof.
    intros (s0 & S0 & R). apply reach_path in R as (p & Hp & <-). destruct (run_start s0 S0) as (a & Ea & Na).
    assert (A : accessible (mach g) a) by (exists a; split; [exact Ea|apply reach_refl]).
    destruct (path_fwd p a _ s0 A Na) as (p' & t' & H1 & H2 & H3 & H4 & H5); [left; auto|auto|]. eauto.
  Qed.

  (** *** Cycles *)
  Lemma det_acyclic : (forall s, ~ on_cycle (mach f) s) -> forall s, ~ on_cycle (mach g) s.
  Proof.
    intros NC s H. assert (A : accessible (mach g) s) by (destruct H as (t & Ht & _); eapply has_trs; eauto).
    destruct (run_tup s A) as (t & N & _). destruct (cycle_long (mach g) s (num_states f) H) as (p & Hp & Ed & Hl).
    destruct (path_bwd p s t A N Hp) as (t' & N' & B). rewrite Ed in N'. assert (t' = t) as -> by congruence.
    destruct (fst t) as [|e r] eqn:Et; [apply (tup_inhabited s t A N Et)|].
    destruct (B (fst e)) as (q & p' & Hq & Hp' & Lp & _); [left; auto|]. rewrite <- Et in Hq.
    destruct (long_cycle (mach f) (num_states f) (proj1 CL) p' q) as (c & Hc); [eapply tup_below; eauto|auto|lia|]. exact (NC c Hc).
  Qed.
  Lemma det_initial_acyclic : (forall s, vstart f = Some s -> ~ on_cycle (mach f) s) -> forall s, vstart g = Some s -> ~ on_cycle (mach g) s.
  Proof.
    intros NC s Es H. assert (A : accessible (mach g) s) by (exists s; split; [exact Es|apply reach_refl]).
    destruct (run_start_back s Es) as (s0 & S0 & N). apply cycle_path in H as (t & p & Hp & Ed).
    destruct (path_bwd (t :: p) s _ A N Hp) as (t' & N' & B). rewrite Ed in N'. assert (t' = ([(s0, 1)], s0)) as -> by congruence.
    destruct (B s0) as (q & p' & Hq & Hp' & Lp & Dp); [left; auto|]. destruct Hq as [<-|[]]. cbn [fst] in *. destruct p' as [|w p']; [discriminate|].
    apply (NC s0 S0). eapply path_cycle; eauto.
  Qed.
  Lemma det_cyclic : (forall s, (s < num_states f)%nat -> accessible (mach f) s) -> (exists s, on_cycle (mach f) s) -> exists s, on_cycle (mach g) s.
  Proof.
    intros AC (q & H). assert (Hq : (q < num_states f)%nat) by (destruct H as (t & Ht & _); eapply trs_of_in; eauto).
    destruct (supp_of q (AC q Hq)) as (s & t & A & N & Iq). destruct (cycle_long (mach f) q (num_states g) H) as (p & Hp & _ & Hl).
    destruct (path_fwd p s t q A N Iq Hp) as (p' & t' & H1 & H2 & _).
    destruct run_met as (_ & _ & (c & B) & _). apply (long_cycle (mach g) (num_states g)) with (p := p') (s := s); auto.
    - exact (proj1 (proj1 (proj2 B))).
    - destruct A as (a & Ea & R). clear -R B Ea. pose proof (proj2 (proj1 (proj2 B)) a Ea) as Ha. clear Ea. induction R; auto. apply IHR.
      exact (proj1 (proj1 (proj2 B)) s t H).
    - lia.
  Qed.

  (** *** Strings *)
  Lemma tup_inj i j t : tup i = Some t -> tup j = Some t -> i = j.
  Proof.
    intros Hi Hj. destruct run_met as (_ & (OK & _) & _). apply (proj1 (NoDup_nth_error _) (bm_nodup dtuple_eqb _ OK)).
    - apply nth_error_lt in Hi. auto.
    - congruence.
  Qed.
  Lemma tup_zero t : tup 0%nat = Some t -> det_start f = Ok (Some t).
  Proof. intros N. destruct run_met as (_ & _ & _ & _ & TR). destruct (TR _ _ N) as [S|(j & _ & _ & Hj & _)]; auto. lia. Qed.

  Definition only (t : dtuple K) (i : nat) : Prop := forall q, In q (supp (fst t)) <-> q = i.
  Lemma string_supp (n : nat) : is_string n (mach f) -> num_states f = n -> forall s, (s < num_states g)%nat ->
    exists t, tup s = Some t /\ only t s /\ (s < n)%nat.
  Proof.
    intros ST Hn. destruct ST as [->|[S0 ST]].
    { intros s Hs. exfalso. destruct (run_tup s (run_all s Hs)) as (t & N & _).
      pose proof (tup_inhabited s t (run_all s Hs) N) as NE. destruct (fst t) as [|e r] eqn:Et; [congruence|].
      assert (In (fst e) (supp (fst t))) as He by (rewrite Et; left; auto). pose proof (tup_below s t _ (run_all s Hs) N He). lia. }
    assert (NX : forall i t l x, only t i -> det_trs D ord f t = Ok l -> In x l -> (S i < n)%nat /\ only (tn x) (S i) /\ forall y, In y l -> y = x).
    { intros i t l x O El Hx. destruct (det_trs_supp D ord f HO t l El) as [P _]. destruct (P x Hx) as [NE PX].
      assert (Hi : exists w, trs_of f i = [w] /\ ns w = S i /\ (S i < n)%nat).
      { destruct (fst (tn x)) as [|e r]; [congruence|]. destruct (proj1 (PX (fst e)) (or_introl eq_refl)) as (e0 & w & He & Hw & _).
        assert (fst e0 = i) as E0 by (apply O; apply supp_in; auto). rewrite E0 in Hw.
        assert (Li : (i < n)%nat) by (apply trs_of_in in Hw; lia). specialize (ST i Li). cbn [mach mtrs] in ST.
        destruct (Nat.eqb_spec (S i) n) as [En|En].
        - destruct ST as [ST _]. rewrite ST in Hw. destruct Hw.
        - destruct ST as [(w' & Ew & Nw) _]. exists w'. split; auto. split; auto. lia. }
      destruct Hi as (w & Ew & Nw & Li). split; auto.
      assert (LB : forall y, In y l -> ti y = il w).
      { intros y Hy. destruct (P y Hy) as [NEy PY]. destruct (fst (tn y)) as [|e r]; [congruence|].
        destruct (proj1 (PY (fst e)) (or_introl eq_refl)) as (e0 & w0 & He & Hw & <- & _).
        assert (fst e0 = i) as E0 by (apply O; apply supp_in; auto). rewrite E0, Ew in Hw. destruct Hw as [<-|[]]. auto. }
      split.
      - intros q. rewrite PX. split.
        + intros (e0 & w0 & He & Hw & _ & <-). assert (fst e0 = i) as E0 by (apply O; apply supp_in; auto). rewrite E0, Ew in Hw. destruct Hw as [<-|[]]. auto.
        + intros ->. destruct (in_supp i (fst t)) as (e0 & He & E0); [apply O; auto|]. exists e0, w. rewrite E0, Ew. repeat split; auto; [left; auto|]. symmetry. auto.
      - intros y Hy. destruct (det_trs_shape D ord f t l El) as (ND & _). pose proof (LB x Hx) as Lx. pose proof (LB y Hy) as Ly.
        clear -ND Hx Hy Lx Ly. induction l as [|z l IH]; [destruct Hx|]. cbn [map] in ND. apply NoDup_cons_iff in ND as [N1 N2].
        destruct Hx as [->|Hx], Hy as [->|Hy]; auto; exfalso; apply N1; [rewrite Lx, <- Ly|rewrite Ly, <- Lx]; apply in_map; auto. }
    intros s. induction s as [s IH] using (well_founded_induction lt_wf). intros Hs.
    destruct (run_tup s (run_all s Hs)) as (t & N & _). exists t. split; auto.
    destruct run_met as (_ & _ & _ & _ & TR). destruct (TR s t N) as [S|(j & t' & l & Hj & Nj & El & It)].
    - assert (s = 0%nat) as ->.
      { destruct s as [|s]; auto. destruct (IH 0%nat) as (t0 & N0 & _); [lia|lia|]. pose proof (tup_zero _ N0) as Z. assert (t0 = t) as -> by congruence.
        apply (tup_inj _ _ _ N N0). }
      unfold det_start in S. cbn [mach mstart] in S0. rewrite S0 in S. injection S as <-. split; [|].
      + intros q. cbn. intuition.
      + pose proof (proj2 CL 0%nat S0). lia.
    - apply in_map_iff in It as (x & <- & Hx). destruct (IH j Hj) as (t1 & N1 & O1 & _); [lia|]. assert (t1 = t') as -> by congruence.
      destruct (NX j t' l x O1 El Hx) as (L1 & O2 & UN). assert (s = S j) as ->; auto.
      destruct (Nat.eq_dec s (S j)) as [|Ne]; auto. exfalso. destruct (IH (S j)) as (t2 & N2 & O2' & _); [lia|lia|].
      destruct (TR _ _ N2) as [S2|(j2 & t3 & l3 & Hj2 & Nj2 & El2 & It2)].
      + unfold det_start in S2. cbn [mach mstart] in S0. rewrite S0 in S2. injection S2 as <-.
        assert (0 = S j)%nat by (apply O2'; left; auto). lia.
      + destruct (IH j2) as (t4 & N4 & O4 & _); [lia|lia|]. assert (t4 = t3) as -> by congruence.
        apply in_map_iff in It2 as (x2 & <- & Hx2). destruct (NX j2 t3 l3 x2 O4 El2 Hx2) as (_ & O5 & _).
        assert (j2 = j) as ->. { assert (S j = S j2) by (apply O5; apply O2'; auto). lia. }
        assert (t' = t3) as -> by congruence. assert (l3 = l) as -> by congruence. rewrite (UN x2 Hx2) in N2. apply Ne. symmetry. apply (tup_inj _ _ _ N2 N).
  Qed.
End Machine.
