(** Results of the three visits: connect, SCC and topological order. *)
From Coq Require Import List Arith NArith ZArith Lia Bool Sorted.
From Verif Require Import Base.Util Base.Semiring Base.Machine Base.PropSpec Model.Props Model.VectorFst
  Model.Dfs Model.Visitors Proofs.PropsFacts Proofs.DfsFacts Proofs.Tarjan Proofs.SccFacts.
Import ListNotations.

Lemma reach_last {K : SR} (m : machine K) a b : reach m a b ->
  a = b \/ exists y t, reach m a y /\ In t (mtrs m y) /\ ns t = b.
Proof.
  induction 1 as [|s t u Ht R IH]; auto. right. destruct IH as [<-|(y & t' & A & B & C)].
  - exists s, t. split; [constructor|auto].
  - exists y, t'. split; auto. econstructor; eauto.
Qed.
Lemma cycle_target {K : SR} (m : machine K) s t : In t (mtrs m s) -> reach m (ns t) s -> on_cycle m (ns t).
Proof.
  intros Ht R. remember (ns t) as a. destruct R as [u|u t' v Ht' R].
  - exists t. split; auto. rewrite <- Heqa. constructor.
  - exists t'. split; auto. eapply reach_trans; eauto. subst. econstructor; [exact Ht|constructor].
Qed.

Section S.
  Context {K : SR}.
  Variable keep : tr K -> bool.
  Variable trs : nat -> list (tr K).
  Variable n : nat.
  Variable s0 : nat.
  Variable fin : nat -> option K.
  Hypothesis closed : forall s t, s < n -> In t (trs s) -> ns t < n.
  Hypothesis Hs0 : s0 < n.

  Notation frame := (nat * list (tr K))%type.
  Notation fmm := (fm keep trs (Some s0) fin).
  Notation base := (base keep trs n).
  Notation edge := (edge keep trs).
  Notation processed := (processed keep trs).
  Notation tarjan := (tarjan keep trs n (Some s0) fin).
  Notation phase := (phase keep trs n s0 fin).
  Notation sccinv := (sccinv keep trs n s0 fin).
  Notation topo := (topo keep trs).

  Lemma tarjan_root c o r : base true c [] -> tarjan c [] o -> nth_error c r = Some White ->
    tarjan (upd c r Grey) [(r, trs r)] (core_init o r).
  Proof. intros B T H. apply tarjan_push; auto. intros g []. Qed.

  Lemma tarjan_child c o s t r k : base true c ((s, t :: r) :: k) -> tarjan c ((s, t :: r) :: k) o ->
    keep t = true -> nth_error c (ns t) = Some White ->
    tarjan (upd c (ns t) Grey) ((ns t, trs (ns t)) :: (s, t :: r) :: k) (core_init o (ns t)).
  Proof.
    intros B T Kt H. apply tarjan_push; auto. intros g Hg. eapply reach_trans.
    - apply (t_up _ _ _ _ _ _ _ _ T g s); auto.
      + eapply t_grey_stk; eauto. left; auto.
      + destruct Hg as [Hg|Hg]; [simpl in Hg; subst; auto|]. assert (S := t_gsorted _ _ _ _ _ _ _ _ T).
        simpl in S. inversion S as [|? ? _ F]; subst. rewrite Forall_forall in F. specialize (F g Hg). lia.
    - apply edge_reach. exists t. split; auto. destruct (b_pre _ _ _ _ _ _ B s (t :: r)) as (pre & Ep); [left; auto|].
      rewrite Ep. apply in_or_app. simpl; auto.
  Qed.

  Lemma tarjan_end c o : tarjan c [] o -> (forall u, u < n -> nth_error c u = Some Black) ->
    forall u, u < n -> done c o u.
  Proof.
    intros T H u Hu. split; auto. intros Hi. destruct (t_down _ _ _ _ _ _ _ _ T u Hi) as (g & [] & _).
  Qed.

  Definition isfin (s : nat) : bool := match fin s with Some _ => true | None => false end.

  (** ** Connect *)
  Definition cacc (c : list color) (a : list bool) : Prop :=
    length a = n /\ forall u, u < n -> (nth u a false = true <-> nonwhite c u /\ reach fmm s0 u).

  Lemma cacc_new c a w root : length c = n -> nth_error c w = Some White ->
    (root = s0 -> reach fmm s0 w) -> (root <> s0 -> ~ reach fmm s0 w) -> cacc c a ->
    cacc (upd c w Grey) (upd a w (Nat.eqb root s0)).
  Proof.
    intros Hl Hw H1 H2 [L A]. assert (Hwl : w < length c) by (apply nth_error_Some; congruence).
    split; [rewrite upd_length; auto|]. intros u Hu. destruct (Nat.eq_dec u w) as [->|Hne].
    - rewrite nth_upd_eq by lia. destruct (Nat.eqb_spec root s0).
      + split; auto. intros _. split; auto. left. apply nth_error_upd_eq; auto.
      + split; [discriminate|]. intros [_ H]. exfalso. apply H2; auto.
    - rewrite nth_upd_ne by auto. rewrite A by auto. unfold nonwhite. rewrite !nth_error_upd_ne; auto. tauto.
  Qed.
  Lemma cacc_black c a s : s < length c -> nonwhite c s -> cacc c a -> cacc (upd c s Black) a.
  Proof.
    intros Hl Hs [L A]. split; auto. intros u Hu. rewrite A by auto. split; intros [H1 H2]; split; auto.
    - apply nonwhite_upd; auto. congruence.
    - apply nonwhite_upd_inv in H1; auto. destruct H1 as [->|H1]; auto.
  Qed.

  Definition I_conn (root : nat) (b : bool) (c : list color) (k : list frame) (v : connect_visitor) : Prop :=
    b = true /\ tarjan c k (cv_core v) /\ phase root c k /\ cacc c (cv_access v).

  Lemma child_phase root c s t r k : base true c ((s, t :: r) :: k) -> phase root c ((s, t :: r) :: k) ->
    keep t = true -> nth_error c (ns t) = Some White ->
    (root = s0 -> reach fmm s0 (ns t)) /\ (root <> s0 -> ~ reach fmm s0 (ns t)).
  Proof.
    intros B P Kt Hw. split.
    - intros E. eapply reach_trans; [apply (ph_first _ _ _ _ _ _ _ _ P E s)|].
      + left. apply (b_grey _ _ _ _ _ _ B). left; auto.
      + apply edge_reach. exists t. split; auto. destruct (b_pre _ _ _ _ _ _ B s (t :: r)) as (pre & Ep); [left; auto|].
        rewrite Ep. apply in_or_app. simpl; auto.
    - intros E H. destruct (ph_rest _ _ _ _ _ _ _ _ P E) as (A & _). apply A in H. congruence.
  Qed.

  Lemma visit_connect_inv (f : vfst K) : trs_of f = trs -> fin_of f = fin -> vstart f = Some s0 ->
    exists v, dfs_visit (connect_visitor_fns f) keep trs n (Some s0) false
                (CV (core_new n) (repeat false n)) = Ok v /\
      length (cv_access v) = n /\
      (forall u, u < n -> nth u (cv_access v) false = true <-> reach fmm s0 u) /\
      (forall u, u < n -> co (cv_core v) u = true <-> coaccessible fmm u).
  Proof.
    intros Et Ef Es.
    assert (L0 : length (repeat White n) = n) by apply repeat_length.
    edestruct (dfs_visit_ind (connect_visitor_fns f) keep trs n closed I_conn s0 (CV (core_new n) (repeat false n)) Hs0)
      with (access_only := false) as (root & b & c & v & E & B & HI & _ & Hn0 & Hall).
    - (* init *)
      eexists. eexists. split; [reflexivity|]. split; auto. cbn [cv_core cv_access].
      assert (W : nth_error (repeat White n) s0 = Some White) by (apply nth_error_repeat; auto).
      split; [apply tarjan_root; [apply base_start|apply tarjan_start|auto]|]. split; [apply phase_start; auto|].
      rewrite Es. refine (cacc_new _ _ _ s0 L0 W _ _ _).
      + intros _. constructor.
      + intros X. exfalso. apply X. auto.
      + split; [apply repeat_length|]. intros u Hu. rewrite nth_repeat. split; [discriminate|].
        intros [[H|H] _]; apply nth_error_In in H; apply repeat_spec in H; congruence.
    - (* next root *)
      intros r r' c v B Hw Hr Hn (_ & T & P & A). eexists. eexists. split; [reflexivity|]. split; auto.
      cbn [cv_core cv_access]. split; [apply tarjan_root; auto|].
      pose proof (phase_next keep trs n s0 fin r r' c B Hw Hr Hn P) as P'. split; auto. rewrite Es.
      refine (cacc_new _ _ _ r' (b_len _ _ _ _ _ _ B) Hw _ _ A).
      + intros X. exfalso. auto.
      + intros _. apply (ph_rest _ _ _ _ _ _ _ _ P' Hr).
    - (* finish root *)
      intros root b c s r v B Hr (-> & T & P & A). destruct Hr as [Hr| ->]; [congruence|].
      destruct (tarjan_finish keep trs n (Some s0) fin c s [] (cv_core v) B T) as (o' & cl & E & T' & _).
      cbn [v_finish connect_visitor_fns]. rewrite Ef. cbn [option_map]. cbn [parent_of hd_error option_map] in E.
      rewrite E. cbn [rmap]. eexists. split; [reflexivity|]. split; auto. cbn [cv_core cv_access fst].
      split; auto. split; [eapply (phase_finish keep trs n s0 fin true root c s [] []); eauto|].
      apply cacc_black; auto.
      + rewrite (b_len _ _ _ _ _ _ B). eapply b_lt; eauto. left; eauto.
      + left. apply (b_grey _ _ _ _ _ _ B). left; auto.
    - intros root b c s r p t rp k v B Hr Kt Ent (-> & T & P & A). destruct Hr as [Hr| ->]; [congruence|].
      destruct (tarjan_finish keep trs n (Some s0) fin c s _ (cv_core v) B T) as (o' & cl & E & T' & _).
      cbn [v_finish connect_visitor_fns]. rewrite Ef. cbn [option_map fst]. cbn [parent_of hd_error option_map fst] in E.
      rewrite E. cbn [rmap]. eexists. split; [reflexivity|]. split; auto. cbn [cv_core cv_access fst].
      split; auto. split; [eapply (phase_finish keep trs n s0 fin true root c s [] ((p, t :: rp) :: k)); eauto|].
      apply cacc_black; auto.
      + rewrite (b_len _ _ _ _ _ _ B). eapply b_lt; eauto. left; eauto.
      + left. apply (b_grey _ _ _ _ _ _ B). left; auto.
    - intros root c s t r k v B Kt (_ & T & P & A). split; auto. split; [eapply tarjan_skip; eauto|].
      split; auto. eapply phase_pass; eauto.
    - intros root c s t r k v B Kt Hw (_ & T & P & A). eexists. eexists. eexists. split; [reflexivity|].
      split; [reflexivity|]. split; auto. cbn [cv_core cv_access]. split; [apply tarjan_child; auto|].
      split; [apply phase_push; auto|]. rewrite Es.
      destruct (child_phase root c s t r k B P Kt Hw). apply cacc_new; auto. apply (b_len _ _ _ _ _ _ B).
    - intros root c s t r k v B Kt Hg (_ & T & P & A). eexists. eexists. split; [reflexivity|]. split; auto.
      cbn [cv_core cv_access]. split; [eapply tarjan_back; eauto|]. split; auto. eapply phase_pass; eauto.
    - intros root c s t r k v B Kt Hg (_ & T & P & A). eexists. eexists. split; [reflexivity|]. split; auto.
      cbn [cv_core cv_access]. split; [eapply tarjan_fwd; eauto|]. split; auto. eapply phase_pass; eauto.
    - destruct HI as (-> & T & P & A). exists v. split; [exact E|]. specialize (Hall eq_refl eq_refl).
      destruct A as [A1 A2]. split; auto. split.
      + intros u Hu. rewrite A2 by auto. split; [tauto|]. intros H. split; auto. right. auto.
      + intros u Hu. split; [apply (t_co_sound _ _ _ _ _ _ _ _ T); auto|].
        apply (t_co_done _ _ _ _ _ _ _ _ T). apply tarjan_end; auto.
  Qed.

  (** ** SCC *)
  Definition sccbits : list pbit :=
    [CYCLIC; ACYCLIC; INITIAL_CYCLIC; INITIAL_ACYCLIC; ACCESSIBLE; NOT_ACCESSIBLE; COACCESSIBLE; NOT_COACCESSIBLE].
  Record pinv (root : nat) (c : list color) (k : list frame) (o : core) (p : N) : Prop := {
    p_only : forall b, has p b = true -> In b sccbits;
    p_cyc : has p ACYCLIC = negb (has p CYCLIC);
    p_cyclic : has p CYCLIC = true -> exists s, on_cycle fmm s;
    p_acyclic : has p ACYCLIC = true -> exists fl, topo c k fl;
    p_icyc : has p INITIAL_ACYCLIC = negb (has p INITIAL_CYCLIC);
    p_icyclic : has p INITIAL_CYCLIC = true -> on_cycle fmm s0;
    p_iacyclic : has p INITIAL_ACYCLIC = true -> forall y, reach fmm s0 y -> ~ processed c k y s0;
    p_acc : has p ACCESSIBLE = (root =? s0);
    p_nacc : has p NOT_ACCESSIBLE = negb (root =? s0);
    p_co : has p COACCESSIBLE = negb (has p NOT_COACCESSIBLE);
    p_coacc : has p COACCESSIBLE = true -> forall u, done c o u -> coaccessible fmm u;
    p_ncoacc : has p NOT_COACCESSIBLE = true -> exists u, u < n /\ ~ coaccessible fmm u
  }.

  Definition I_scc (root : nat) (b : bool) (c : list color) (k : list frame) (v : scc_visitor) : Prop :=
    b = true /\ tarjan c k (sv_core v) /\ phase root c k /\
    sccinv c (sv_core v) (sv_scc v) (sv_nscc v) /\
    (length (sv_access v) = n /\ forall u, u < n -> (nth u (sv_access v) false = true <-> nonwhite c u)) /\
    pinv root c k (sv_core v) (sv_props v).

  Lemma done_len c o u : length c = n -> done c o u -> u < n.
  Proof. intros L [H _]. rewrite <- L. apply nth_error_Some. congruence. Qed.

  Lemma processed_push c k y z w : base true c k -> nth_error c w = Some White ->
    processed (upd c w Grey) ((w, trs w) :: k) y z -> processed c k y z.
  Proof.
    intros B Hw. assert (Hl : w < length c) by (apply nth_error_Some; congruence).
    intros [[H1 H2]|(r & pre & t & [A1|A1] & A2 & A3 & A4)].
    - apply nth_upd_color in H1; auto. destruct H1 as [[_ H1]|[_ H1]]; [congruence|]. left. auto.
    - inversion A1; subst. rewrite <- (app_nil_l (trs y)) in A2 at 1. apply app_inv_tail in A2. subst pre. destruct A3.
    - right. exists r, pre, t. auto.
  Qed.
  Lemma done_push c o w u : w < length c -> nth_error c w = Some White ->
    done (upd c w Grey) (core_init o w) u <-> done c o u.
  Proof.
    intros Hl Hw. unfold done. simpl. rewrite nth_upd_color by auto. split.
    - intros [[[_ H]|[H1 H2]] H3]; [congruence|]. split; auto.
    - intros [H1 H2]. split; [right; split; auto; congruence|]. intros [->|H]; [congruence|auto].
  Qed.

  Lemma pinv_push root root' c k o p w : base true c k -> nth_error c w = Some White ->
    pinv root c k o p -> (root' = s0 -> root = s0) ->
    pinv root' (upd c w Grey) ((w, trs w) :: k) (core_init o w)
      (if root' =? s0 then p else pclr (pset p [NOT_ACCESSIBLE]) [ACCESSIBLE]).
  Proof.
    intros B Hw P Hr. assert (Hl : w < length c) by (apply nth_error_Some; congruence).
    assert (X : forall b, ~ In b [ACCESSIBLE; NOT_ACCESSIBLE] ->
      has (if root' =? s0 then p else pclr (pset p [NOT_ACCESSIBLE]) [ACCESSIBLE]) b = has p b).
    { intros b Hb. rewrite has_if, has_pclr, has_pset. destruct (root' =? s0); auto.
      destruct b; try reflexivity; simpl; rewrite ?orb_false_r, ?andb_true_r; auto; exfalso; apply Hb; simpl; auto. }
    constructor.
    - intros b. destruct (in_dec pbit_eq_dec b [ACCESSIBLE; NOT_ACCESSIBLE]) as [Hi|Hi].
      + intros _. simpl in Hi. unfold sccbits. simpl. intuition.
      + rewrite X by auto. apply (p_only _ _ _ _ _ P).
    - rewrite !X by (simpl; intuition congruence). apply P.
    - rewrite !X by (simpl; intuition congruence). apply P.
    - rewrite !X by (simpl; intuition congruence). intros H. destruct (p_acyclic _ _ _ _ _ P H) as (fl & T).
      exists fl. eapply topo_push; eauto.
    - rewrite !X by (simpl; intuition congruence). apply P.
    - rewrite !X by (simpl; intuition congruence). apply P.
    - rewrite !X by (simpl; intuition congruence). intros H y Hy Hp. apply processed_push in Hp; auto.
      exact (p_iacyclic _ _ _ _ _ P H y Hy Hp).
    - rewrite has_if, has_pclr, has_pset. destruct (root' =? s0) eqn:E.
      + apply Nat.eqb_eq in E. rewrite (p_acc _ _ _ _ _ P). apply Nat.eqb_eq. auto.
      + simpl. apply andb_false_r.
    - rewrite has_if, has_pclr, has_pset. destruct (root' =? s0) eqn:E.
      + apply Nat.eqb_eq in E. rewrite (p_nacc _ _ _ _ _ P). rewrite (Hr E), Nat.eqb_refl. auto.
      + simpl. rewrite orb_true_r. auto.
    - rewrite !X by (simpl; intuition congruence). apply P.
    - rewrite !X by (simpl; intuition congruence). intros H u Hu. apply done_push in Hu; auto. eapply p_coacc; eauto.
    - rewrite !X by (simpl; intuition congruence). apply P.
  Qed.

  Lemma sacc_push c a w : length c = n -> nth_error c w = Some White ->
    (length a = n /\ forall u, u < n -> (nth u a false = true <-> nonwhite c u)) ->
    (length (upd a w true) = n /\ forall u, u < n -> (nth u (upd a w true) false = true <-> nonwhite (upd c w Grey) u)).
  Proof.
    intros Hl Hw [L A]. assert (Hwl : w < length c) by (apply nth_error_Some; congruence).
    split; [rewrite upd_length; auto|]. intros u Hu. destruct (Nat.eq_dec u w) as [->|Hne].
    - rewrite nth_upd_eq by lia. split; auto. intros _. left. apply nth_error_upd_eq; auto.
    - rewrite nth_upd_ne by auto. rewrite A by auto. unfold nonwhite. rewrite !nth_error_upd_ne; auto. tauto.
  Qed.
  Lemma sacc_black c a s : s < length c -> nonwhite c s ->
    (length a = n /\ forall u, u < n -> (nth u a false = true <-> nonwhite c u)) ->
    (length a = n /\ forall u, u < n -> (nth u a false = true <-> nonwhite (upd c s Black) u)).
  Proof.
    intros Hl Hs [L A]. split; auto. intros u Hu. rewrite A by auto. split; intros H1.
    - apply nonwhite_upd; auto. congruence.
    - apply nonwhite_upd_inv in H1; auto. destruct H1 as [->|H1]; auto.
  Qed.

  (** Passing a transition. *)
  Lemma pinv_pass root c s t r k o o' p : base true c ((s, t :: r) :: k) -> phase root c ((s, t :: r) :: k) ->
    (keep t = true -> nth_error c (ns t) = Some Black) -> sstk o' = sstk o ->
    pinv root c ((s, t :: r) :: k) o p -> pinv root c ((s, r) :: k) o' p.
  Proof.
    intros B Ph Ht Eo P. constructor; try apply P.
    - intros H. destruct (p_acyclic _ _ _ _ _ P H) as (fl & T). exists fl. eapply topo_pass; eauto.
    - intros H y Hy Hp. apply (processed_pass keep trs n c s t r k y s0 B) in Hp.
      destruct Hp as [Hp|(-> & E & Kt)]; [exact (p_iacyclic _ _ _ _ _ P H y Hy Hp)|].
      (* s0 is black, so the root is not s0 and s is not reachable from s0 *)
      specialize (Ht Kt). rewrite <- E in Ht.
      destruct (Nat.eq_dec root s0) as [Er|Er].
      + destruct (ph_root _ _ _ _ _ _ _ _ Ph) as (kk & q & Ek); [congruence|].
        assert (nth_error c root = Some Grey); [|congruence].
        apply (b_grey _ _ _ _ _ _ B). rewrite Ek, map_app. apply in_or_app. right. left. auto.
      + destruct (ph_rest _ _ _ _ _ _ _ _ Ph Er) as (A & _). apply A in Hy.
        assert (nth_error c s = Some Grey) by (apply (b_grey _ _ _ _ _ _ B); left; auto). congruence.
    - intros H u Hu. eapply p_coacc; eauto. unfold done in *. rewrite <- Eo. auto.
  Qed.

  Lemma pinv_back root c s t r k o p : base true c ((s, t :: r) :: k) -> tarjan c ((s, t :: r) :: k) o ->
    keep t = true -> nth_error c (ns t) = Some Grey -> forall o', sstk o' = sstk o ->
    pinv root c ((s, t :: r) :: k) o p ->
    pinv root c ((s, r) :: k) o'
      (let p := pclr (pset p [CYCLIC]) [ACYCLIC] in
       if Nat.eqb (ns t) s0 then pclr (pset p [INITIAL_CYCLIC]) [INITIAL_ACYCLIC] else p).
  Proof.
    intros B T Kt Hg o' Eo P.
    set (q := let p := pclr (pset p [CYCLIC]) [ACYCLIC] in
       if Nat.eqb (ns t) s0 then pclr (pset p [INITIAL_CYCLIC]) [INITIAL_ACYCLIC] else p).
    assert (Q : forall b, has q b =
      match b with
      | CYCLIC => true | ACYCLIC => false
      | INITIAL_CYCLIC => has p INITIAL_CYCLIC || (ns t =? s0)
      | INITIAL_ACYCLIC => has p INITIAL_ACYCLIC && negb (ns t =? s0)
      | _ => has p b end).
    { intros b. unfold q. cbv zeta. rewrite has_if. rewrite !has_pclr, !has_pset, !has_pclr, !has_pset.
      destruct (ns t =? s0), b; simpl; rewrite ?orb_false_r, ?orb_true_r, ?andb_true_r, ?andb_false_r; auto. }
    assert (Hin : In t (trs s)).
    { destruct (b_pre _ _ _ _ _ _ B s (t :: r)) as (pre & Ep); [left; auto|]. rewrite Ep. apply in_or_app. simpl; auto. }
    assert (Gs : grey ((s, t :: r) :: k) s) by (left; auto).
    assert (Gt : grey ((s, t :: r) :: k) (ns t)) by (apply (b_grey _ _ _ _ _ _ B); auto).
    assert (R : reach fmm (ns t) s).
    { apply (t_up _ _ _ _ _ _ _ _ T); auto; [eapply t_grey_stk; eauto|].
      assert (S := t_gsorted _ _ _ _ _ _ _ _ T). simpl in S. inversion S as [|? ? _ F]; subst.
      rewrite Forall_forall in F. destruct Gt as [G|G]; [simpl in G; rewrite <- G; auto|]. specialize (F _ G). lia. }
    assert (Cs : on_cycle fmm s).
    { exists t. split; auto. simpl. apply filter_In; auto. }
    constructor.
    - intros b. rewrite Q. destruct b; try (intros H; apply (p_only _ _ _ _ _ P _ H)); intros _; unfold sccbits; simpl; auto 10.
    - rewrite !Q. auto.
    - intros _. exists s. auto.
    - rewrite Q. discriminate.
    - rewrite !Q, (p_icyc _ _ _ _ _ P), negb_orb. auto.
    - rewrite Q. intros H. apply orb_true_iff in H as [H|H]; [apply (p_icyclic _ _ _ _ _ P H)|].
      apply Nat.eqb_eq in H. assert (X : on_cycle fmm (ns t)) by (apply (cycle_target fmm s); auto; simpl; apply filter_In; auto).
      rewrite H in X. exact X.
    - rewrite Q. intros H y Hy Hp. apply andb_true_iff in H as [H1 H2].
      apply (processed_pass keep trs n c s t r k y s0 B) in Hp.
      destruct Hp as [Hp|(-> & E & _)]; [exact (p_iacyclic _ _ _ _ _ P H1 y Hy Hp)|].
      rewrite <- E, Nat.eqb_refl in H2. discriminate.
    - rewrite Q. apply P.
    - rewrite Q. apply P.
    - rewrite !Q. apply P.
    - rewrite Q. intros H u Hu. eapply p_coacc; eauto. unfold done in *. rewrite <- Eo. auto.
    - rewrite Q. apply P.
  Qed.

  (** Finishing a state. *)
  Lemma pinv_finish root c s k o o' p cl : base true c ((s, []) :: k) ->
    pinv root c ((s, []) :: k) o p ->
    phase root c ((s, []) :: k) ->
    match cl with
    | None => forall u, done (upd c s Black) o' u <-> done c o u
    | Some (comp, b) =>
        (b = true <-> coaccessible fmm s) /\ (forall u, In u comp -> reach fmm u s) /\
        (forall u, done (upd c s Black) o' u <-> done c o u \/ In u comp)
    end ->
    pinv root (upd c s Black) (advance k) o'
      (match cl with Some (_, false) => pclr (pset p [NOT_COACCESSIBLE]) [COACCESSIBLE] | _ => p end).
  Proof.
    intros B P Ph Hcl. set (q := match cl with Some (_, false) => _ | _ => p end).
    assert (Hsn : s < n) by (eapply b_lt; eauto; left; eauto).
    assert (Q : forall b, has q b = match b with
      | COACCESSIBLE => has p COACCESSIBLE && match cl with Some (_, false) => false | _ => true end
      | NOT_COACCESSIBLE => has p NOT_COACCESSIBLE || match cl with Some (_, false) => true | _ => false end
      | _ => has p b end).
    { intros b. unfold q. destruct cl as [[comp [|]]|]; rewrite ?has_pclr, ?has_pset;
      destruct b; simpl; rewrite ?orb_false_r, ?andb_true_r; auto. }
    assert (PF : forall y z, processed (upd c s Black) (advance k) y z ->
       processed c ((s, []) :: k) y z \/ (parent_of k = Some y /\ z = s)).
    { intros y z. apply (processed_finish keep trs n); auto. }
    constructor.
    - intros b. rewrite Q. destruct b; try (intros H; apply (p_only _ _ _ _ _ P _ H)); intros _; unfold sccbits; simpl; auto 10.
    - rewrite !Q. apply P.
    - rewrite Q. apply P.
    - rewrite Q. intros H. destruct (p_acyclic _ _ _ _ _ P H) as (fl & T). exists (s :: fl). eapply topo_finish; eauto.
    - rewrite !Q. apply P.
    - rewrite Q. apply P.
    - rewrite Q. intros H y Hy Hp. apply PF in Hp as [Hp|[Hp <-]]; [exact (p_iacyclic _ _ _ _ _ P H y Hy Hp)|].
      (* s = s0 has a parent: impossible, s0 is the bottom of the stack in its phase *)
      destruct (Nat.eq_dec root s0) as [Er|Er].
      + destruct (ph_root _ _ _ _ _ _ _ _ Ph) as (kk & q0 & Ek); [congruence|].
        pose proof (b_nodup _ _ _ _ _ _ B) as ND. destruct kk as [|x kk]; simpl in Ek.
        * inversion Ek; subst. discriminate Hp.
        * inversion Ek as [[E1 E2]]. rewrite E2 in ND. simpl in ND. inversion ND as [|? ? Hni _].
          apply Hni. rewrite map_app. apply in_or_app. right. left. auto.
      + destruct (ph_rest _ _ _ _ _ _ _ _ Ph Er) as (A & _). specialize (A s0 (reach_refl _ _)).
        assert (nth_error c s0 = Some Grey) by (apply (b_grey _ _ _ _ _ _ B); left; auto). congruence.
    - rewrite Q. apply P.
    - rewrite Q. apply P.
    - rewrite !Q. rewrite (p_co _ _ _ _ _ P), negb_orb. destruct cl as [[comp [|]]|]; auto.
    - rewrite Q. intros H u Hu. apply andb_true_iff in H as [H1 H2]. destruct cl as [[comp b]|].
      + destruct Hcl as (C1 & C2 & C3). apply C3 in Hu as [Hu|Hu]; [eapply p_coacc; eauto|].
        destruct b; [|discriminate]. destruct C1 as [C1 _]. destruct (C1 eq_refl) as (v & A1 & A2).
        exists v. split; auto. eapply reach_trans; eauto.
      + apply Hcl in Hu. eapply p_coacc; eauto.
    - rewrite Q. intros H. apply orb_true_iff in H as [H|H]; [apply (p_ncoacc _ _ _ _ _ P H)|].
      destruct cl as [[comp [|]]|]; try discriminate. exists s. split; auto. destruct Hcl as ([_ C] & _).
      intros H'. apply C in H'. discriminate.
  Qed.

  Lemma done_keep c s k o o' : base true c ((s, []) :: k) -> In s (sstk o) -> sstk o' = sstk o ->
    forall u, done (upd c s Black) o' u <-> done c o u.
  Proof.
    intros B Hs E u. assert (Hl : s < length c).
    { rewrite (b_len _ _ _ _ _ _ B). eapply b_lt; eauto. left; eauto. }
    unfold done. rewrite E, nth_upd_color by auto. split.
    - intros [[[-> _]|[_ H]] H2]; [contradiction|auto].
    - intros [H1 H2]. split; auto. right. split; auto. intros ->. contradiction.
  Qed.

  Lemma scc_finish_step root c s k v : base true c ((s, []) :: k) ->
    I_scc root true c ((s, []) :: k) v ->
    exists v', (r <-- core_finish (isfin s) (sv_core v) s (parent_of k) ;;
      match snd r with
      | None => Ok (SV (fst r) (sv_scc v) (sv_access v) (sv_nscc v) (sv_props v))
      | Some (comp, b) =>
          Ok (SV (fst r) (set_all_at (Z.of_nat (sv_nscc v)) comp (sv_scc v)) (sv_access v) (S (sv_nscc v))
                 (if b then sv_props v else pclr (pset (sv_props v) [NOT_COACCESSIBLE]) [COACCESSIBLE]))
      end) = Ok v' /\ I_scc root true (upd c s Black) (advance k) v'.
  Proof.
    intros B (_ & T & P & S & A & Q).
    assert (Lc := b_len _ _ _ _ _ _ B).
    assert (Hl : s < length c) by (rewrite Lc; eapply b_lt; eauto; left; eauto).
    assert (Hnw : nonwhite c s) by (left; apply (b_grey _ _ _ _ _ _ B); left; auto).
    assert (Hst : In s (sstk (sv_core v))) by (eapply t_grey_stk; eauto; left; auto).
    destruct (tarjan_finish keep trs n (Some s0) fin c s k (sv_core v) B T) as (o' & cl & E & T' & X).
    unfold isfin. rewrite E. cbn [snd fst].
    destruct cl as [[comp b]|]; cbv beta iota in X.
    - destruct X as (X1 & X2 & X3 & X4 & X5 & X6). eexists. split; [reflexivity|].
      split; auto. cbn [sv_core sv_scc sv_access sv_nscc sv_props]. split; auto.
      split; [eapply phase_finish; eauto|]. split; [|split; [apply sacc_black; auto|]].
      + eapply sccinv_close with (s := s); eauto.
        * intros u Hu. destruct (X2 u Hu) as [Y1 Y2]. split; auto. intros [_ Y]. auto.
        * intros u w Hu Hr. apply (reach_edges keep trs (Some s0) fin (fun x => done c (sv_core v) x) u w Hr); auto.
          intros. eapply t_done; eauto.
      + refine (pinv_finish root c s k (sv_core v) o' (sv_props v) (Some (comp, b)) B Q P _). auto.
    - eexists. split; [reflexivity|]. split; auto. cbn [sv_core sv_scc sv_access sv_nscc sv_props]. split; auto.
      assert (D := done_keep c s k (sv_core v) o' B Hst X).
      split; [eapply phase_finish; eauto|]. split; [|split; [apply sacc_black; auto|]].
      + eapply sccinv_ext; [| | |exact S]; auto.
        * intros u _. rewrite D. tauto.
        * rewrite upd_length. auto.
      + refine (pinv_finish root c s k (sv_core v) o' (sv_props v) None B Q P _). auto.
  Qed.

  Hypothesis beyond : forall s, n <= s -> trs s = [].

  Lemma visit_scc_inv :
    exists v, dfs_visit (scc_visitor_fns (Some s0) fin) keep trs n (Some s0) false (scc_visitor_new n) = Ok v /\
      length (sv_scc v) = n /\
      (forall u, u < n -> exists j, j < sv_nscc v /\ nth u (sv_scc v) (-1)%Z = Z.of_nat j) /\
      (forall u w, u < n -> w < n ->
         (nth u (sv_scc v) (-1)%Z = nth w (sv_scc v) (-1)%Z <-> reach fmm u w /\ reach fmm w u)) /\
      (forall u w, u < n -> w < n -> reach fmm u w -> (nth u (sv_scc v) (-1) <= nth w (sv_scc v) (-1))%Z) /\
      (forall j, j < sv_nscc v -> exists u, u < n /\ nth u (sv_scc v) (-1)%Z = Z.of_nat j) /\
      (forall u, u < n -> nth u (sv_access v) false = true) /\
      (forall u, u < n -> co (sv_core v) u = true <-> coaccessible fmm u) /\
      (forall b, has (sv_props v) b = true -> In b sccbits /\ holds b n fmm) /\
      has (sv_props v) ACYCLIC = negb (has (sv_props v) CYCLIC) /\
      has (sv_props v) INITIAL_ACYCLIC = negb (has (sv_props v) INITIAL_CYCLIC) /\
      has (sv_props v) ACCESSIBLE = negb (has (sv_props v) NOT_ACCESSIBLE) /\
      has (sv_props v) COACCESSIBLE = negb (has (sv_props v) NOT_COACCESSIBLE).
  Proof.
    assert (L0 : length (repeat White n) = n) by apply repeat_length.
    assert (W0 : forall u, nth_error (repeat White n) u <> Some Black).
    { intros u H. apply nth_error_In in H. apply repeat_spec in H. congruence. }
    edestruct (dfs_visit_ind (scc_visitor_fns (Some s0) fin) keep trs n closed I_scc s0 (scc_visitor_new n) Hs0)
      with (access_only := false) as (root & b & c & v & E & B & HI & _ & Hn0 & Hall).
    - eexists. eexists. split; [reflexivity|]. split; auto. cbn [sv_core sv_scc sv_access sv_nscc sv_props scc_visitor_new].
      assert (W : nth_error (repeat White n) s0 = Some White) by (apply nth_error_repeat; auto).
      split; [apply tarjan_root; [apply base_start|apply tarjan_start|auto]|]. split; [apply phase_start; auto|].
      split; [|split].
      + assert (N : forall u, ~ done (upd (repeat White n) s0 Grey) (core_init (core_new n) s0) u).
        { intros u H. apply done_push in H; auto; [|lia]. destruct H as [H _]. eapply W0; eauto. }
        constructor.
        * apply repeat_length.
        * intros u H. exfalso. eapply N; eauto.
        * intros u H _. apply nth_repeat.
        * intros u w H. exfalso. eapply N; eauto.
        * intros u w H. exfalso. eapply N; eauto.
        * intros j Hj. lia.
      + apply sacc_push; auto. split; [apply repeat_length|]. intros u Hu. rewrite nth_repeat. split; [discriminate|].
        intros [H|H]; apply nth_error_In in H; apply repeat_spec in H; congruence.
      + refine (pinv_push s0 s0 (repeat White n) [] (core_new n) _ s0 (base_start _ _ _) W _ (fun e => e)).
        constructor.
        * intros b0. rewrite has_mask, inb_In. unfold sccbits. simpl. tauto.
        * rewrite !has_mask. reflexivity.
        * rewrite has_mask. discriminate.
        * intros _. exists []. apply topo_start.
        * rewrite !has_mask. reflexivity.
        * rewrite has_mask. discriminate.
        * intros _ y _ [[H _]|(r & pre & t & [] & _)]. eapply W0; eauto.
        * rewrite has_mask, Nat.eqb_refl. reflexivity.
        * rewrite has_mask, Nat.eqb_refl. reflexivity.
        * rewrite !has_mask. reflexivity.
        * intros _ u [H _]. exfalso. eapply W0; eauto.
        * rewrite has_mask. discriminate.
    - intros r r' c v B Hw Hr Hn (_ & T & P & S & A & Q).
      assert (Lc := b_len _ _ _ _ _ _ B).
      eexists. eexists. split; [reflexivity|]. split; auto. cbn [sv_core sv_scc sv_access sv_nscc sv_props].
      split; [apply tarjan_root; auto|]. split; [eapply phase_next; eauto|]. split; [|split].
      + eapply sccinv_ext; [| | |exact S]; auto.
        * intros u _. rewrite done_push; auto; [tauto|]. apply nth_error_Some. congruence.
        * rewrite upd_length. auto.
      + apply sacc_push; auto.
      + refine (pinv_push r r' c [] (sv_core v) (sv_props v) r' B Hw Q _). intros; contradiction.
    - intros root b c s r v B Hr HI. assert (b = true) by apply HI. subst b. destruct Hr as [Hr| ->]; [congruence|].
      exact (scc_finish_step root c s [] v B HI).
    - intros root b c s r p t rp k v B Hr Kt Ent HI. assert (b = true) by apply HI. subst b. destruct Hr as [Hr| ->]; [congruence|].
      exact (scc_finish_step root c s ((p, t :: rp) :: k) v B HI).
    - intros root c s t r k v B Kt (_ & T & P & S & A & Q). split; auto. split; [eapply tarjan_skip; eauto|].
      split; [eapply phase_pass; eauto|]. split; auto. split; auto. eapply pinv_pass; eauto. congruence.
    - intros root c s t r k v B Kt Hw (_ & T & P & S & A & Q).
      assert (Lc := b_len _ _ _ _ _ _ B).
      eexists. eexists. eexists. split; [reflexivity|]. split; [reflexivity|]. split; auto.
      cbn [sv_core sv_scc sv_access sv_nscc sv_props].
      split; [apply tarjan_child; auto|]. split; [apply phase_push; auto|]. split; [|split].
      + eapply sccinv_ext; [| | |exact S]; auto.
        * intros u _. rewrite done_push; auto; [tauto|]. apply nth_error_Some. congruence.
        * rewrite upd_length. auto.
      + apply sacc_push; auto.
      + refine (pinv_push root root c _ (sv_core v) (sv_props v) (ns t) B Hw Q (fun e => e)).
    - intros root c s t r k v B Kt Hg (_ & T & P & S & A & Q). eexists. eexists. split; [reflexivity|]. split; auto.
      cbn [sv_core sv_scc sv_access sv_nscc sv_props]. split; [eapply tarjan_back; eauto|].
      split; [eapply phase_pass; eauto|].
      assert (Eo : sstk (core_back (sv_core v) s (ns t)) = sstk (sv_core v)).
      { unfold core_back. destruct (_ <? _); simpl; destruct (co _ _); reflexivity. }
      split; [|split; auto].
      + eapply sccinv_ext; [| | |exact S]; try apply (b_len _ _ _ _ _ _ B). intros u _. unfold done. rewrite Eo. tauto.
      + apply (pinv_back root c s t r k (sv_core v) (sv_props v) B T Kt Hg _ Eo Q).
    - intros root c s t r k v B Kt Hg (_ & T & P & S & A & Q). eexists. eexists. split; [reflexivity|]. split; auto.
      cbn [sv_core sv_scc sv_access sv_nscc sv_props]. split; [eapply tarjan_fwd; eauto|].
      split; [eapply phase_pass; eauto|].
      assert (Eo : sstk (core_fwd (sv_core v) s (ns t)) = sstk (sv_core v)).
      { unfold core_fwd. destruct (_ && _); simpl; destruct (co _ _); reflexivity. }
      split; [|split; auto].
      + eapply sccinv_ext; [| | |exact S]; try apply (b_len _ _ _ _ _ _ B). intros u _. unfold done. rewrite Eo. tauto.
      + eapply pinv_pass; eauto.
    - destruct HI as (-> & T & P & S & [A1 A2] & Q). eexists. split; [exact E|]. specialize (Hall eq_refl eq_refl).
      cbn [v_end scc_visitor_fns sv_core sv_scc sv_access sv_nscc sv_props].
      assert (D := tarjan_end c _ T Hall).
      assert (M : forall u, u < n -> nth u (map (fun x => (Z.of_nat (sv_nscc v) - 1 - x)%Z) (sv_scc v)) (-1)%Z =
                          (Z.of_nat (sv_nscc v) - 1 - nth u (sv_scc v) (-1))%Z).
      { intros u Hu. rewrite nth_indep with (d' := (Z.of_nat (sv_nscc v) - 1 - (-1))%Z).
        - apply (map_nth (fun x => (Z.of_nat (sv_nscc v) - 1 - x)%Z)).
        - rewrite map_length, (sc_len _ _ _ _ _ _ _ _ _ S). auto. }
      split; [rewrite map_length; apply (sc_len _ _ _ _ _ _ _ _ _ S)|].
      split; [|split; [|split; [|split; [|split; [|split; [|split]]]]]].
      + intros u Hu. rewrite M by auto. destruct (sc_range _ _ _ _ _ _ _ _ _ S u (D u Hu)) as (j & H1 & ->).
        exists (sv_nscc v - 1 - j). split; lia.
      + intros u w Hu Hw. rewrite !M by auto. rewrite <- (sc_same _ _ _ _ _ _ _ _ _ S u w) by auto. lia.
      + intros u w Hu Hw Hr. rewrite !M by auto. pose proof (sc_order _ _ _ _ _ _ _ _ _ S u w (D u Hu) (D w Hw) Hr). lia.
      + intros j Hj. destruct (sc_used _ _ _ _ _ _ _ _ _ S (sv_nscc v - 1 - j)) as (u & H1 & H2); [lia|].
        assert (u < n) by (apply (done_len c (sv_core v) u (b_len _ _ _ _ _ _ B) H1)).
        exists u. split; auto. rewrite M, H2 by auto. lia.
      + intros u Hu. apply A2; auto. right. auto.
      + intros u Hu. split; [apply (t_co_sound _ _ _ _ _ _ _ _ T); auto|].
        apply (t_co_done _ _ _ _ _ _ _ _ T). auto.
      + intros b Hb. split; [apply (p_only _ _ _ _ _ Q); auto|].
        pose proof (p_only _ _ _ _ _ Q b Hb) as Hi. unfold sccbits in Hi.
        destruct b; simpl in Hi; try (exfalso; intuition discriminate); cbn [holds]; clear Hi.
        * apply (p_cyclic _ _ _ _ _ Q Hb).
        * destruct (p_acyclic _ _ _ _ _ Q Hb) as (fl & TT). intros s. destruct (Nat.ltb_spec s n).
          -- eapply topo_acyclic; eauto.
          -- intros (t & Ht & _). simpl in Ht. rewrite beyond in Ht by auto. destruct Ht.
        * exists s0. split; auto. apply (p_icyclic _ _ _ _ _ Q Hb).
        * intros s Es. inversion Es; subst s. intros (t & Ht & Hr).
          assert (X : exists y, reach fmm s0 y /\ edge y s0).
          { simpl in Ht. apply filter_In in Ht as [Ht Kt]. destruct (reach_last _ _ _ Hr) as [Ex|(y & t' & R1 & R2 & R3)].
            - exists s0. split; [apply reach_refl|]. exists t. auto.
            - exists y. simpl in R2. apply filter_In in R2 as [R2 R4]. split.
              + econstructor; [|exact R1]. simpl. apply filter_In. auto.
              + exists t'. auto. }
          destruct X as (y & X1 & X2). apply (p_iacyclic _ _ _ _ _ Q Hb y X1). left. split; auto.
          apply (closed_black keep trs n s0 fin c B s0); auto.
        * intros s Hs. rewrite (p_acc _ _ _ _ _ Q) in Hb. apply Nat.eqb_eq in Hb. exists s0. split; auto.
          apply (ph_first _ _ _ _ _ _ _ _ P Hb). right. auto.
        * rewrite (p_nacc _ _ _ _ _ Q) in Hb. apply negb_true_iff, Nat.eqb_neq in Hb.
          destruct (ph_rest _ _ _ _ _ _ _ _ P Hb) as (_ & A3 & A4). exists root. split; auto.
          intros (x & Ex & Hr). inversion Ex; subst x. auto.
        * intros s Hs. apply (p_coacc _ _ _ _ _ Q Hb). auto.
        * apply (p_ncoacc _ _ _ _ _ Q Hb).
      + split; [apply Q|]. split; [apply Q|]. split; [|apply Q].
        rewrite (p_acc _ _ _ _ _ Q), (p_nacc _ _ _ _ _ Q), negb_involutive. auto.
  Qed.

  (** ** Topological order *)
  Lemma grey_reach b c k s r g : base b c ((s, r) :: k) -> grey ((s, r) :: k) g -> reach fmm g s.
  Proof.
    intros B. pose proof (b_chain _ _ _ _ _ _ B) as CH. pose proof (b_pre _ _ _ _ _ _ B) as PR. clear B. revert s r CH PR.
    induction k as [|(p, rp) k IH]; intros s r CH PR [H|H]; try (simpl in H; subst; constructor).
    - destruct H.
    - destruct CH as ((t & r' & -> & Kt & <-) & CH'). eapply reach_trans.
      + apply (IH p (t :: r') CH'); auto. intros u q Hu. apply PR. right. auto.
      + apply edge_reach. exists t. split; auto. destruct (PR p (t :: r')) as (pre & E); [right; left; auto|].
        rewrite E. apply in_or_app. simpl; auto.
  Qed.

  Definition I_top (root : nat) (b : bool) (c : list color) (k : list frame) (v : top_visitor) : Prop :=
    (b = true /\ tv_acyclic v = true /\ topo c k (tv_finish v)) \/
    (b = false /\ tv_acyclic v = false /\ exists s, on_cycle fmm s).

  Lemma visit_top_inv :
    exists v, dfs_visit top_visitor_fns keep trs n (Some s0) false (TV [] true []) = v_end (K := K) top_visitor_fns v /\
      ((tv_acyclic v = true /\ NoDup (tv_finish v) /\ (forall u, In u (tv_finish v) <-> u < n) /\
        (forall y z, edge y z -> exists a b, tv_finish v = a ++ y :: b /\ In z b) /\
        (forall s, ~ on_cycle fmm s)) \/
       (tv_acyclic v = false /\ exists s, on_cycle fmm s)).
  Proof.
    edestruct (dfs_visit_ind (K := K) top_visitor_fns keep trs n closed I_top s0 (TV [] true []) Hs0)
      with (access_only := false) as (root & b & c & v & E & B & HI & _ & Hn0 & Hall).
    - eexists. eexists. split; [reflexivity|]. left. split; auto. split; auto. simpl.
      eapply topo_push; [apply base_start|apply nth_error_repeat; auto|apply topo_start].
    - intros r r' c v B Hw Hr Hn [(_ & T & P)|(H & _)]; [|congruence].
      eexists. eexists. split; [reflexivity|]. left. split; auto. split; auto. eapply topo_push; eauto.
    - intros root b c s r v B Hr [(-> & T & P)|(-> & T & P)].
      + destruct Hr as [Hr| ->]; [congruence|]. eexists. split; [reflexivity|]. left. split; auto. split; auto.
        exact (topo_finish keep trs n fin c s [] (tv_finish v) B P).
      + eexists. split; [reflexivity|]. right. auto.
    - intros root b c s r p t rp k v B Hr Kt Ent [(-> & T & P)|(-> & T & P)].
      + destruct Hr as [Hr| ->]; [congruence|]. eexists. split; [reflexivity|]. left. split; auto. split; auto.
        exact (topo_finish keep trs n fin c s ((p, t :: rp) :: k) (tv_finish v) B P).
      + eexists. split; [reflexivity|]. right. auto.
    - intros root c s t r k v B Kt [(_ & T & P)|(H & _)]; [|congruence].
      left. split; auto. split; auto. eapply topo_pass; eauto. congruence.
    - intros root c s t r k v B Kt Hw [(_ & T & P)|(H & _)]; [|congruence].
      eexists. eexists. eexists. split; [reflexivity|]. split; [reflexivity|]. left. split; auto. split; auto.
      eapply topo_push; eauto.
    - intros root c s t r k v B Kt Hg [(_ & T & P)|(H & _)]; [|congruence].
      eexists. eexists. split; [reflexivity|]. right. split; auto. split; auto.
      exists s. exists t. split.
      + simpl. apply filter_In. split; auto. destruct (b_pre _ _ _ _ _ _ B s (t :: r)) as (pre & Ep); [left; auto|].
        rewrite Ep. apply in_or_app. simpl; auto.
      + eapply grey_reach; eauto. apply (b_grey _ _ _ _ _ _ B). auto.
    - intros root c s t r k v B Kt Hg [(_ & T & P)|(H & _)]; [|congruence].
      eexists. eexists. split; [reflexivity|]. left. split; auto. split; auto. eapply topo_pass; eauto.
    - exists v. split; [exact E|]. destruct HI as [(-> & T & P)|(-> & T & P)]; [left|right; auto].
      specialize (Hall eq_refl eq_refl). split; auto. split; [apply P|]. split; [|split].
      + intros u. rewrite (tp_in _ _ _ _ _ P). split; auto. intros H. rewrite <- (b_len _ _ _ _ _ _ B).
        apply nth_error_Some. congruence.
      + intros y z He. apply (tp_ord _ _ _ _ _ P); auto. apply Hall. destruct (Nat.ltb_spec y n); auto.
        destruct He as (t & Ht & _). rewrite beyond in Ht by auto. destruct Ht.
      + intros s. destruct (Nat.ltb_spec s n).
        * eapply topo_acyclic; eauto.
        * intros (t & Ht & _). simpl in Ht. rewrite beyond in Ht by auto. destruct Ht.
  Qed.
End S.
