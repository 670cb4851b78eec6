(** What the depth-first visitors compute: accessibility, finishing order, components. *)
From Coq Require Import List Arith NArith ZArith Lia Bool Sorted.
From Verif Require Import Base.Util Base.Semiring Base.Machine Base.PropSpec Model.Props Model.Dfs Model.Visitors
  Proofs.PropsFacts Proofs.DfsFacts Proofs.Tarjan.
Import ListNotations.

Lemma nodup_split_tail {A} (x : A) a : forall b l b2, NoDup (a ++ x :: b) -> a ++ x :: b = l ++ x :: b2 -> b = b2.
Proof.
  induction a as [|y a IH]; intros b l b2 ND E.
  - destruct l as [|z l]; simpl in E; inversion E; auto. exfalso. subst. simpl in ND. inversion ND as [|? ? Hn _]; subst.
    apply Hn. apply in_or_app. simpl; auto.
  - destruct l as [|z l]; simpl in E; inversion E; subst.
    + exfalso. simpl in ND. inversion ND as [|? ? Hn _]; subst. apply Hn. apply in_or_app. simpl; auto.
    + apply (IH _ l); auto. simpl in ND. inversion ND; auto.
Qed.

Lemma nonwhite_upd_inv c s col u : s < length c -> nonwhite (upd c s col) u -> u = s \/ nonwhite c u.
  Proof.
    unfold nonwhite. intros Hs. rewrite !nth_upd_color by auto. tauto.
  Qed.

Section S.
  Context {K : SR}.
  Variable keep : tr K -> bool.
  Variable trs : nat -> list (tr K).
  Variable n : nat.
  Variable s0 : nat.
  Variable fin : nat -> option K.
  Hypothesis closed : forall s t, s < n -> In t (trs s) -> ns t < n.
  Hypothesis Hs0 : s0 < n.

  Notation frame := (nat * list (tr K))%type.
  Notation fmm := (fm keep trs (Some s0) fin).
  Notation base := (base keep trs n).
  Notation edge := (edge keep trs).
  Notation processed := (processed keep trs).
  Notation tarjan := (tarjan keep trs n (Some s0) fin).

  (** ** Closure of the visited part when the stack is empty. *)
  Lemma closed_black c : base true c [] -> forall u v, nth_error c u = Some Black -> reach fmm u v ->
    nth_error c v = Some Black.
  Proof.
    intros B u v Hu Hr. apply (reach_edges keep trs (Some s0) fin (fun x => nth_error c x = Some Black) u v Hr); auto.
    intros a b Ha (t & A1 & A2 & <-). destruct (b_black _ _ _ _ _ _ B eq_refl a t Ha A1 A2) as [H|H]; auto.
    apply (b_grey _ _ _ _ _ _ B) in H. destruct H.
  Qed.
  Lemma nonwhite_black c u : base true c [] -> nonwhite c u -> nth_error c u = Some Black.
  Proof. intros B [H|H]; auto. apply (b_grey _ _ _ _ _ _ B) in H. destruct H. Qed.

  (** ** Phases of the visit: the first root is the start state. *)
  Record phase (root : nat) (c : list color) (k : list frame) : Prop := {
    ph_root : k <> [] -> exists kk r, k = kk ++ [(root, r)];
    ph_first : root = s0 -> forall u, nonwhite c u -> reach fmm s0 u;
    ph_rest : root <> s0 ->
      (forall u, reach fmm s0 u -> nth_error c u = Some Black) /\ ~ reach fmm s0 root /\ root < n
  }.

  Lemma phase_start : phase s0 (upd (repeat White n) s0 Grey) [(s0, trs s0)].
  Proof.
    constructor.
    - intros _. exists []. eexists. reflexivity.
    - intros _ u H. apply nonwhite_upd_inv in H; [|rewrite repeat_length; auto].
      destruct H as [->|H]; [constructor|]. exfalso.
      destruct H as [H|H]; apply nth_error_In in H; apply repeat_spec in H; congruence.
    - congruence.
  Qed.
  Lemma phase_next r r' c : base true c [] -> nth_error c r' = Some White -> r' <> s0 ->
    nonwhite c s0 -> phase r c [] -> phase r' (upd c r' Grey) [(r', trs r')].
  Proof.
    intros B Hw Hr Hn P. assert (Hl : r' < length c) by (apply nth_error_Some; congruence). constructor.
    - intros _. exists []. eexists. reflexivity.
    - congruence.
    - intros _. assert (A : forall u, reach fmm s0 u -> nth_error c u = Some Black).
      { intros u Hu. eapply closed_black; eauto. apply nonwhite_black; auto. }
      split; [|split].
      + intros u Hu. specialize (A u Hu). apply nth_upd_color; auto. right. split; auto. congruence.
      + intros H. apply A in H. congruence.
      + rewrite <- (b_len _ _ _ _ _ _ B). auto.
  Qed.
  Lemma phase_push root c s t r k : base true c ((s, t :: r) :: k) -> keep t = true ->
    nth_error c (ns t) = Some White -> phase root c ((s, t :: r) :: k) ->
    phase root (upd c (ns t) Grey) ((ns t, trs (ns t)) :: (s, t :: r) :: k).
  Proof.
    intros B Kt Hw P. assert (Hl : ns t < length c) by (apply nth_error_Some; congruence). constructor.
    - intros _. destruct (ph_root _ _ _ P) as (kk & q & E); [congruence|]. rewrite E.
      exists ((ns t, trs (ns t)) :: kk), q. reflexivity.
    - intros E u H. apply nonwhite_upd_inv in H; auto. destruct H as [->|H]; [|eapply ph_first; eauto].
      eapply reach_trans; [apply (ph_first _ _ _ P E s)|].
      + left. apply (b_grey _ _ _ _ _ _ B). left; auto.
      + apply edge_reach. exists t. split; auto. destruct (b_pre _ _ _ _ _ _ B s (t :: r)) as (pre & Ep); [left; auto|].
        rewrite Ep. apply in_or_app. simpl; auto.
    - intros E. destruct (ph_rest _ _ _ P E) as [A1 A2]. split; auto.
      intros u Hu. specialize (A1 u Hu). apply nth_upd_color; auto. right. split; auto. congruence.
  Qed.
  Lemma phase_pass root c s t r k : phase root c ((s, t :: r) :: k) -> phase root c ((s, r) :: k).
  Proof.
    intros P. constructor.
    - intros _. destruct (ph_root _ _ _ P) as (kk & q & E); [congruence|]. destruct kk as [|x kk]; simpl in E; inversion E; subst.
      + exists [], r. reflexivity.
      + exists ((s, r) :: kk), q. reflexivity.
    - apply (ph_first _ _ _ P).
    - apply (ph_rest _ _ _ P).
  Qed.
  Lemma phase_finish b root c s r k : base b c ((s, r) :: k) -> phase root c ((s, r) :: k) ->
    phase root (upd c s Black) (advance k).
  Proof.
    intros B P. assert (Hl : s < length c).
    { rewrite (b_len _ _ _ _ _ _ B). eapply b_lt; eauto. left; eauto. }
    constructor.
    - intros Hk. destruct k as [|(q, rq) k]; [simpl in Hk; congruence|].
      destruct (ph_root _ _ _ P) as (kk & q' & E); [congruence|]. destruct kk as [|x kk]; simpl in E; [inversion E|].
      inversion E as [[E1 E2]]. destruct kk as [|y kk]; simpl in E2; inversion E2; subst.
      + exists [], (tl q'). reflexivity.
      + exists ((q, tl rq) :: kk), q'. reflexivity.
    - intros E u H. apply nonwhite_upd_inv in H; auto. destruct H as [->|H]; [|eapply ph_first; eauto].
      apply (ph_first _ _ _ P E). left. apply (b_grey _ _ _ _ _ _ B). left; auto.
    - intros E. destruct (ph_rest _ _ _ P E) as [A1 A2]. split; auto.
      intros u Hu. specialize (A1 u Hu). apply nth_upd_color; auto. right. split; auto.
      intros ->. assert (nth_error c s = Some Grey) by (apply (b_grey _ _ _ _ _ _ B); left; auto). congruence.
  Qed.
  Lemma phase_end root c : base true c [] -> nonwhite c s0 -> phase root c [] ->
    (forall u, u < n -> nth_error c u = Some Black) ->
    (root = s0 /\ (forall u, u < n -> reach fmm s0 u)) \/ (root <> s0 /\ ~ reach fmm s0 root /\ root < n).
  Proof.
    intros B H P A. destruct (Nat.eq_dec root s0) as [E|E].
    - left. split; auto. intros u Hu. apply (ph_first _ _ _ P E). right. auto.
    - right. split; auto. apply (ph_rest _ _ _ P E).
  Qed.

  (** ** Finishing order when no back edge is met. *)
  Record topo (c : list color) (k : list frame) (fl : list nat) : Prop := {
    tp_nodup : NoDup fl;
    tp_in : forall u, In u fl <-> nth_error c u = Some Black;
    tp_proc : forall y z, processed c k y z -> nth_error c z = Some Black;
    tp_ord : forall y z, nth_error c y = Some Black -> edge y z -> exists a b, fl = a ++ y :: b /\ In z b
  }.

  Lemma topo_start : topo (repeat White n) [] [].
  Proof.
    assert (W : forall u, nth_error (repeat White n) u <> Some Black).
    { intros u H. apply nth_error_In in H. apply repeat_spec in H. congruence. }
    constructor.
    - constructor.
    - intros u. split; [intros []|]. intros H. exfalso. eapply W; eauto.
    - intros y z [[H _]|(r & pre & t & [] & _)]. exfalso. eapply W; eauto.
    - intros y z H. exfalso. eapply W; eauto.
  Qed.
  Lemma topo_push c k fl w : base true c k -> nth_error c w = Some White -> topo c k fl ->
    topo (upd c w Grey) ((w, trs w) :: k) fl.
  Proof.
    intros B Hw P. assert (Hl : w < length c) by (apply nth_error_Some; congruence).
    assert (BL : forall u, nth_error (upd c w Grey) u = Some Black <-> nth_error c u = Some Black).
    { intros u. rewrite nth_upd_color by auto. split; [intros [[_ H]|[_ H]]; [congruence|auto]|].
      intros H. right. split; auto. congruence. }
    constructor.
    - apply (tp_nodup _ _ _ P).
    - intros u. rewrite BL. apply (tp_in _ _ _ P).
    - intros y z H. apply BL. apply (tp_proc _ _ _ P y).
      destruct H as [[H1 H2]|(r & pre & t & [A1|A1] & A2 & A3 & A4)].
      + left. split; auto. apply BL; auto.
      + inversion A1; subst. rewrite <- (app_nil_l (trs y)) in A2 at 1. apply app_inv_tail in A2. subst pre. destruct A3.
      + right. exists r, pre, t. auto.
    - intros y z H. apply BL in H. apply (tp_ord _ _ _ P); auto.
  Qed.
  Lemma processed_pass c s t r k y z : base true c ((s, t :: r) :: k) -> processed c ((s, r) :: k) y z ->
    processed c ((s, t :: r) :: k) y z \/ (y = s /\ z = ns t /\ keep t = true).
  Proof.
    intros B [[H1 H2]|(q & pre & t' & [A1|A1] & A2 & A3 & A4 & A5)].
    - left. left. auto.
    - inversion A1; subst y q. destruct (b_pre _ _ _ _ _ _ B s (t :: r)) as (pre0 & E); [left; auto|].
      rewrite E in A2. change (t :: r) with ([t] ++ r) in A2. rewrite app_assoc in A2.
      apply app_inv_tail in A2. subst pre. apply in_app_or in A3 as [A3|[<-|[]]].
      + left. right. exists (t :: r), pre0, t'. split; [left; auto|]. auto.
      + right. auto.
    - left. right. exists q, pre, t'. split; [right; auto|]. auto.
  Qed.
  Lemma topo_pass c s t r k fl : base true c ((s, t :: r) :: k) ->
    (keep t = true -> nth_error c (ns t) = Some Black) -> topo c ((s, t :: r) :: k) fl -> topo c ((s, r) :: k) fl.
  Proof.
    intros B Ht P. constructor; try apply P.
    intros y z H. apply (processed_pass c s t r k y z B) in H as [H|(-> & -> & H)]; auto. eapply tp_proc; eauto.
  Qed.
  Lemma topo_finish c s k fl : base true c ((s, []) :: k) -> topo c ((s, []) :: k) fl ->
    topo (upd c s Black) (advance k) (s :: fl).
  Proof.
    intros B P. assert (Hl : s < length c).
    { rewrite (b_len _ _ _ _ _ _ B). eapply b_lt; eauto. left; eauto. }
    assert (Hg : nth_error c s = Some Grey) by (apply (b_grey _ _ _ _ _ _ B); left; auto).
    assert (BL : forall u, nth_error (upd c s Black) u = Some Black <-> u = s \/ nth_error c u = Some Black).
    { intros u. rewrite nth_upd_color by auto. split; [intros [[H _]|[_ H]]; auto|].
      intros [->|H]; auto. right. split; auto. congruence. }
    constructor.
    - constructor; [|apply (tp_nodup _ _ _ P)]. rewrite (tp_in _ _ _ P). congruence.
    - intros u. rewrite BL. simpl. rewrite (tp_in _ _ _ P). split; intros [H|H]; auto.
    - intros y z H. apply BL. apply (processed_finish keep trs n) in H; auto. destruct H as [H|[_ ->]]; auto.
      right. eapply tp_proc; eauto.
    - intros y z H He. apply BL in H as [->|H].
      + exists [], fl. split; auto. apply (tp_in _ _ _ P). apply (tp_proc _ _ _ P s). right.
        destruct He as (t & A1 & A2 & A3).
        destruct (b_pre _ _ _ _ _ _ B s []) as (pre & E); [left; auto|]. rewrite app_nil_r in E.
        exists [], pre, t. split; [left; auto|]. rewrite E in A1. rewrite app_nil_r. auto.
      + destruct (tp_ord _ _ _ P y z H He) as (a & b & -> & Hz). exists (s :: a), b. auto.
  Qed.
  (** Reachability goes strictly down the finishing order. *)
  Lemma topo_reach c fl : base true c [] -> topo c [] fl -> forall u v, reach fmm u v ->
    nth_error c u = Some Black -> u = v \/ exists a b, fl = a ++ u :: b /\ In v b.
  Proof.
    intros B P u v Hr. induction Hr as [|u t v Ht Hr IH]; intros Hu; auto. right.
    simpl in Ht. apply filter_In in Ht as [A1 A2].
    assert (He : edge u (ns t)) by (exists t; auto).
    destruct (tp_ord _ _ _ P u (ns t) Hu He) as (a & b & E & Hb).
    assert (Hnb : nth_error c (ns t) = Some Black).
    { apply (tp_in _ _ _ P). rewrite E. apply in_or_app. simpl; auto. }
    exists a, b. split; auto. destruct (IH Hnb) as [IE|(a' & b' & E' & Hv)]; [rewrite <- IE; auto|].
    pose proof (tp_nodup _ _ _ P) as ND. apply in_split in Hb as (b1 & b2 & ->).
    assert (X : b' = b2).
    { rewrite E' in E. replace (a ++ u :: b1 ++ ns t :: b2) with ((a ++ u :: b1) ++ ns t :: b2) in E
        by (rewrite <- app_assoc; auto).
      rewrite E' in ND. eapply nodup_split_tail; eauto. }
    subst b'. apply in_or_app. simpl; auto.
  Qed.
  Lemma topo_acyclic c fl s : base true c [] -> topo c [] fl -> nth_error c s = Some Black -> ~ on_cycle fmm s.
  Proof.
    intros B P Hs (t & Ht & Hr). simpl in Ht. apply filter_In in Ht as [A1 A2].
    destruct (tp_ord _ _ _ P s (ns t) Hs) as (a & b & E & Hb); [exists t; auto|].
    pose proof (tp_nodup _ _ _ P) as ND.
    destruct (topo_reach c fl B P (ns t) s Hr) as [X|(a' & b' & E' & Hv)].
    - apply (tp_in _ _ _ P). rewrite E. apply in_or_app. simpl; auto.
    - rewrite E, <- X in ND. apply NoDup_remove_2 in ND. apply ND. apply in_or_app. rewrite X in *. auto.
    - rewrite E in ND. apply NoDup_remove_2 in ND. apply ND. apply in_or_app.
      (* s occurs in b' which lies after ns t, itself in b *)
      apply in_split in Hb as (b1 & b2 & ->).
      assert (X : b' = b2).
      { rewrite E' in E. replace (a ++ s :: b1 ++ ns t :: b2) with ((a ++ s :: b1) ++ ns t :: b2) in E
          by (rewrite <- app_assoc; auto).
        pose proof (tp_nodup _ _ _ P) as ND'. rewrite E' in ND'.
        eapply nodup_split_tail; eauto. }
      subst b'. right. apply in_or_app. simpl; auto.
  Qed.

  (** ** Component numbers (before [finish_visit] reverses them). *)
  Record sccinv (c : list color) (o : core) (scc : list Z) (nscc : nat) : Prop := {
    sc_len : length scc = n;
    sc_range : forall u, done c o u -> exists j, j < nscc /\ nth u scc (-1)%Z = Z.of_nat j;
    sc_none : forall u, u < n -> ~ done c o u -> nth u scc (-1)%Z = (-1)%Z;
    sc_same : forall u v, done c o u -> done c o v ->
       (nth u scc (-1)%Z = nth v scc (-1)%Z <-> reach fmm u v /\ reach fmm v u);
    sc_order : forall u v, done c o u -> done c o v -> reach fmm u v -> (nth v scc (-1) <= nth u scc (-1))%Z;
    sc_used : forall j, j < nscc -> exists u, done c o u /\ nth u scc (-1)%Z = Z.of_nat j
  }.

  Lemma sccinv_ext c o c' o' scc nscc : (forall u, u < n -> done c o u <-> done c' o' u) ->
    length c = n -> length c' = n ->
    sccinv c o scc nscc -> sccinv c' o' scc nscc.
  Proof.
    intros E L1 L2 P.
    assert (N1 : forall u, done c o u -> u < n).
    { intros u [H _]. rewrite <- L1. apply nth_error_Some. congruence. }
    assert (N2 : forall u, done c' o' u -> u < n).
    { intros u [H _]. rewrite <- L2. apply nth_error_Some. congruence. }
    assert (E' : forall u, done c o u <-> done c' o' u).
    { intros u. split; intros H; apply E; auto. }
    constructor.
    - apply P.
    - intros u H. apply (sc_range _ _ _ _ P). apply E'; auto.
    - intros u H1 H2. apply (sc_none _ _ _ _ P); auto. rewrite E'. auto.
    - intros u v H1 H2. apply (sc_same _ _ _ _ P); apply E'; auto.
    - intros u v H1 H2. apply (sc_order _ _ _ _ P); apply E'; auto.
    - intros j Hj. destruct (sc_used _ _ _ _ P j Hj) as (u & H1 & H2). exists u. split; auto. apply E'; auto.
  Qed.

  Lemma sccinv_close c o c' o' scc nscc comp s :
    length c = n ->
    sccinv c o scc nscc ->
    (forall u, In u comp -> u < n /\ ~ done c o u) -> In s comp ->
    (forall u, done c' o' u <-> done c o u \/ In u comp) ->
    (forall u v, done c o u -> reach fmm u v -> done c o v) ->
    (forall u v, In u comp -> In v comp -> reach fmm u v) ->
    (forall u v, In u comp -> reach fmm u v -> In v comp \/ done c o v) ->
    sccinv c' o' (set_all_at (Z.of_nat nscc) comp scc) (S nscc).
  Proof.
    intros Lc P Hc Hs D DR M R. assert (Ls := sc_len _ _ _ _ P).
    assert (N1 : forall u, done c o u -> u < n).
    { intros u [H _]. rewrite <- Lc. apply nth_error_Some. congruence. }
    assert (VC : forall u, In u comp -> nth u (set_all_at (Z.of_nat nscc) comp scc) (-1)%Z = Z.of_nat nscc).
    { intros u H. rewrite nth_set_all by (rewrite Ls; apply Hc; auto). destruct (in_dec Nat.eq_dec u comp); tauto. }
    assert (VO : forall u, u < n -> ~ In u comp -> nth u (set_all_at (Z.of_nat nscc) comp scc) (-1)%Z = nth u scc (-1)%Z).
    { intros u H1 H2. rewrite nth_set_all by (rewrite Ls; auto). destruct (in_dec Nat.eq_dec u comp); tauto. }
    assert (VD : forall u, done c o u -> nth u (set_all_at (Z.of_nat nscc) comp scc) (-1)%Z = nth u scc (-1)%Z).
    { intros u H. apply VO; auto. intros H'. apply Hc in H'. tauto. }
    constructor.
    - rewrite set_all_length. auto.
    - intros u H. apply D in H as [H|H].
      + rewrite VD by auto. destruct (sc_range _ _ _ _ P u H) as (j & A & B). exists j. split; auto.
      + rewrite VC by auto. exists nscc. auto.
    - intros u H1 H2. rewrite D in H2. rewrite VO by tauto. apply (sc_none _ _ _ _ P); tauto.
    - intros u v H1 H2. apply D in H1, H2. destruct H1 as [H1|H1], H2 as [H2|H2].
      + rewrite !VD by auto. apply (sc_same _ _ _ _ P); auto.
      + rewrite (VC v), (VD u) by auto. destruct (sc_range _ _ _ _ P u H1) as (j & A & B). rewrite B. split; [lia|].
        intros [X _]. exfalso. apply (DR u v) in X; auto. apply Hc in H2. tauto.
      + rewrite (VC u), (VD v) by auto. destruct (sc_range _ _ _ _ P v H2) as (j & A & B). rewrite B. split; [lia|].
        intros [_ X]. exfalso. apply (DR v u) in X; auto. apply Hc in H1. tauto.
      + rewrite !VC by auto. split; [intros _; split; apply M; auto|auto].
    - intros u v H1 H2 Hr. apply D in H1, H2. destruct H1 as [H1|H1], H2 as [H2|H2].
      + rewrite !VD by auto. apply (sc_order _ _ _ _ P); auto.
      + exfalso. apply (DR u v) in Hr; auto. apply Hc in H2. tauto.
      + rewrite (VC u), (VD v) by auto. destruct (sc_range _ _ _ _ P v H2) as (j & A & B). rewrite B. lia.
      + rewrite !VC by auto. lia.
    - intros j Hj. destruct (Nat.eq_dec j nscc) as [->|Hne].
      + exists s. split; [apply D; auto|apply VC; auto].
      + destruct (sc_used _ _ _ _ P j) as (u & A & B); [lia|]. exists u. split; [apply D; auto|]. rewrite VD; auto.
  Qed.
End S.
