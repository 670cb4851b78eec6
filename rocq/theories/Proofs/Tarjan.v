(** Tarjan's invariant for the fields shared by [ConnectVisitor] and [SccVisitor]. *)
From Coq Require Import List Arith Lia Bool Sorted.
From Verif Require Import Base.Util Base.Semiring Base.Machine Model.Dfs Model.Visitors Proofs.DfsFacts.
Import ListNotations.

Lemma nth_set_all {A} (v d : A) ixs : forall l i, i < length l ->
  nth i (set_all_at v ixs l) d = if in_dec Nat.eq_dec i ixs then v else nth i l d.
Proof.
  unfold set_all_at. induction ixs as [|j ixs IH]; intros l i Hi; simpl; auto.
  rewrite IH by (rewrite upd_length; auto).
  destruct (in_dec Nat.eq_dec i ixs), (Nat.eq_dec j i); auto.
  - subst. rewrite nth_upd_eq; auto.
  - rewrite nth_upd_ne; auto.
Qed.
Lemma set_all_length {A} (v : A) ixs : forall l, length (set_all_at v ixs l) = length l.
Proof. unfold set_all_at. induction ixs; intros; simpl; auto. rewrite IHixs, upd_length. auto. Qed.

Lemma pop_until_some s l : In s l -> exists a r, pop_until s l = Some (a ++ [s], r) /\ l = a ++ s :: r /\ ~ In s a.
Proof.
  induction l as [|u l IH]; simpl; [tauto|]. intros H. destruct (Nat.eqb_spec s u).
  - subst. exists [], l. simpl. auto.
  - destruct IH as (a & r & E & El & Ha); [destruct H; congruence|]. rewrite E. exists (u :: a), r.
    simpl. rewrite El. split; auto. split; auto. intros [|]; auto.
Qed.

Section T.
  Context {K : SR}.
  Variable keep : tr K -> bool.
  Variable trs : nat -> list (tr K).
  Variable n : nat.
  Variable start : option nat.
  Variable fin : nat -> option K.
  Hypothesis closed : forall s t, s < n -> In t (trs s) -> ns t < n.

  Notation frame := (nat * list (tr K))%type.

  (** The graph visited. *)
  Definition fm : machine K := Mach start (fun s => filter keep (trs s)) fin.
  Definition edge (s u : nat) : Prop := exists t, In t (trs s) /\ keep t = true /\ ns t = u.

  Lemma edge_reach s u : edge s u -> reach fm s u.
  Proof.
    intros (t & A & B & <-). econstructor; [|constructor]. simpl. apply filter_In. auto.
  Qed.
  Lemma reach_edges (P : nat -> Prop) s u : reach fm s u -> P s ->
    (forall a b, P a -> edge a b -> P b) -> P u.
  Proof.
    induction 1; auto. intros Hs Hp. apply IHreach; auto. simpl in H. apply filter_In in H as [A B].
    eapply Hp; eauto. exists t; auto.
  Qed.

  (** Transition already examined by the visit. *)
  Definition processed (c : list color) (k : list frame) (y z : nat) : Prop :=
    (nth_error c y = Some Black /\ edge y z) \/
    (exists r pre t, In (y, r) k /\ trs y = pre ++ r /\ In t pre /\ keep t = true /\ ns t = z).

  Lemma processed_edge c k y z : processed c k y z -> edge y z.
  Proof.
    intros [[_ H]|(r & pre & t & A & B & C & D & E)]; auto. exists t. rewrite B. split; auto.
    apply in_or_app. auto.
  Qed.
  Lemma processed_nonwhite c k y z : base keep trs n true c k -> processed c k y z -> nonwhite c z.
  Proof.
    intros B [[H (t & A1 & A2 & <-)]|(r & pre & t & A1 & A2 & A3 & A4 & <-)].
    - eapply b_black; eauto.
    - eapply b_proc; eauto.
  Qed.

  Definition grey (k : list frame) (s : nat) : Prop := In s (map fst k).
  Definition done (c : list color) (o : core) (s : nat) : Prop :=
    nth_error c s = Some Black /\ ~ In s (sstk o).

  Record tarjan (c : list color) (k : list frame) (o : core) : Prop := {
    t_len : length (dfn o) = n /\ length (low o) = n /\ length (onst o) = n /\ length (coacc o) = n;
    t_stk_nw : forall s, In s (sstk o) -> nonwhite c s;
    t_grey_stk : forall s, grey k s -> In s (sstk o);
    t_sorted : StronglySorted (fun a b => df o b < df o a) (sstk o);
    t_gsorted : StronglySorted (fun a b => df o b < df o a) (map fst k);
    t_nst : forall s, In s (sstk o) -> df o s < nst o;
    t_on : forall s, s < n -> (nth s (onst o) false = true <-> In s (sstk o));
    t_done : forall s u, done c o s -> edge s u -> done c o u;
    t_up : forall g y, grey k g -> In y (sstk o) -> df o g <= df o y -> reach fm g y;
    t_down : forall y, In y (sstk o) -> exists g, grey k g /\ df o g <= df o y /\ reach fm y g;
    t_low_le : forall g, grey k g -> lw o g <= df o g;
    t_low_sound : forall g, grey k g -> exists y, In y (sstk o) /\ df o y = lw o g /\ reach fm g y;
    t_low_compl : forall g y z, grey k g -> In y (sstk o) -> df o g <= df o y ->
      (forall g', grey k g' -> df o g' <= df o y -> df o g' <= df o g) ->
      processed c k y z -> In z (sstk o) -> lw o g <= df o z;
    t_proc_old : forall g y z, grey k g -> In y (sstk o) -> df o y < df o g -> processed c k y z ->
      In z (sstk o) -> df o z < df o g;
    t_co_sound : forall s, s < n -> co o s = true -> coaccessible fm s;
    t_co_done : forall s, done c o s -> coaccessible fm s -> co o s = true;
    t_co_fin : forall s, In s (sstk o) -> nth_error c s = Some Black -> fin s <> None -> co o s = true;
    t_co_edge : forall y z, In y (sstk o) -> processed c k y z -> done c o z -> coaccessible fm z -> co o y = true
  }.

  Lemma edge_coacc s u : edge s u -> coaccessible fm u -> coaccessible fm s.
  Proof.
    intros H (v & A & B). exists v. split; auto. eapply reach_trans; eauto. apply edge_reach; auto.
  Qed.

  (** ** New root or tree child. *)
  Lemma df_init o s u : s < length (dfn o) -> df (core_init o s) u = if Nat.eqb u s then nst o else df o u.
  Proof.
    intros H. unfold df. simpl. destruct (Nat.eqb_spec u s).
    - subst. apply nth_upd_eq; auto.
    - apply nth_upd_ne; auto.
  Qed.
  Lemma lw_init o s u : s < length (low o) -> lw (core_init o s) u = if Nat.eqb u s then nst o else lw o u.
  Proof.
    intros H. unfold lw. simpl. destruct (Nat.eqb_spec u s).
    - subst. apply nth_upd_eq; auto.
    - apply nth_upd_ne; auto.
  Qed.

  (** [k'] is [k] with the new frame [(w, trs w)] pushed; the top of [k] has an edge to [w]. *)
  Lemma tarjan_push c k o w : base keep trs n true c k -> tarjan c k o -> nth_error c w = Some White ->
    (forall g, grey k g -> reach fm g w) ->
    tarjan (upd c w Grey) ((w, trs w) :: k) (core_init o w).
  Proof.
    intros B T Hw Hreach. destruct (t_len _ _ _ T) as (L1 & L2 & L3 & L4).
    assert (Hl : w < length c) by (apply nth_error_Some; congruence).
    assert (Hn : w < n) by (rewrite <- (b_len _ _ _ _ _ _ B); auto).
    assert (Hws : ~ In w (sstk o)). { intros H. apply (t_stk_nw _ _ _ T) in H. destruct H; congruence. }
    assert (Hwk : ~ grey k w). { intros H. apply Hws. eapply t_grey_stk; eauto. }
    assert (D1 : df (core_init o w) w = nst o) by (rewrite df_init, Nat.eqb_refl; auto; lia).
    assert (D2 : forall u, u <> w -> df (core_init o w) u = df o u).
    { intros u Hu. rewrite df_init by lia. destruct (Nat.eqb_spec u w); congruence. }
    assert (D3 : forall u, In u (sstk o) -> df (core_init o w) u = df o u).
    { intros u Hu. apply D2. congruence. }
    assert (D4 : forall u, grey k u -> df (core_init o w) u = df o u).
    { intros u Hu. apply D3. eapply t_grey_stk; eauto. }
    assert (W1 : lw (core_init o w) w = nst o) by (rewrite lw_init, Nat.eqb_refl; auto; lia).
    assert (W2 : forall u, u <> w -> lw (core_init o w) u = lw o u).
    { intros u Hu. rewrite lw_init by lia. destruct (Nat.eqb_spec u w); congruence. }
    assert (W4 : forall u, grey k u -> lw (core_init o w) u = lw o u).
    { intros u Hu. apply W2. congruence. }
    assert (BL : forall u, nth_error (upd c w Grey) u = Some Black <-> nth_error c u = Some Black).
    { intros u. rewrite nth_upd_color by auto. split; [intros [[_ A]|[_ A]]; congruence|].
      intros A. right. split; auto. congruence. }
    assert (DN : forall u, done (upd c w Grey) (core_init o w) u <-> done c o u).
    { intros u. unfold done. rewrite BL. simpl. split; [tauto|]. intros [A1 A2]. split; auto. intros [->|]; auto.
      congruence. }
    assert (PR : forall y z, processed (upd c w Grey) ((w, trs w) :: k) y z -> processed c k y z).
    { intros y z [[H1 H2]|(r & pre & t & A1 & A2 & A3 & A4 & A5)].
      - left. split; auto. apply BL; auto.
      - destruct A1 as [A1|A1].
        + inversion A1; subst. rewrite <- (app_nil_l (trs y)) in A2 at 1. apply app_inv_tail in A2. subst pre.
          destruct A3.
        + right. exists r, pre, t. auto. }
    constructor.
    - simpl. rewrite !upd_length. auto.
    - intros s [<-|H]; [left; apply nth_error_upd_eq; auto|].
      apply nonwhite_upd; [congruence|]. eapply t_stk_nw; eauto.
    - intros s [<-|H]; simpl; auto. right. eapply t_grey_stk; eauto.
    - simpl. constructor.
      + assert (S := t_sorted _ _ _ T). clear - S D3. induction S; constructor.
        * apply IHS. intros; apply D3; simpl; auto.
        * rewrite Forall_forall in *. intros x Hx. rewrite !D3; simpl; auto.
      + apply Forall_forall. intros x Hx. rewrite D1, D3; auto. eapply t_nst; eauto.
    - simpl. constructor.
      + assert (S := t_gsorted _ _ _ T). unfold grey in D4. clear - S D4. induction S; constructor.
        * apply IHS. intros; apply D4; simpl; auto.
        * rewrite Forall_forall in *. intros x Hx. rewrite !D4; simpl; auto.
      + apply Forall_forall. intros x Hx. rewrite D1, D4; auto. eapply t_nst; eauto. eapply t_grey_stk; eauto.
    - intros s [<-|H]; simpl; [rewrite D1; lia|]. rewrite D3; auto. apply (t_nst _ _ _ T) in H. lia.
    - intros s Hs. simpl. destruct (Nat.eq_dec s w) as [->|Hne].
      + rewrite nth_upd_eq; [tauto|lia].
      + rewrite nth_upd_ne by auto. rewrite (t_on _ _ _ T) by auto. split; auto. intros [|]; auto. congruence.
    - intros s u H E. apply DN. apply DN in H. eapply t_done; eauto.
    - intros g y [<-|Hg] [<-|Hy] Hd; simpl in *.
      + constructor.
      + rewrite D1, D3 in Hd; auto. apply (t_nst _ _ _ T) in Hy. lia.
      + auto.
      + eapply (t_up _ _ _ T); eauto. rewrite D4, D3 in Hd; auto.
    - intros y [<-|Hy]; simpl in *.
      + exists w. split; [left; auto|]. split; [lia|constructor].
      + destruct (t_down _ _ _ T y Hy) as (g & A1 & A2 & A3). exists g. split; [right; auto|].
        rewrite D4, D3; auto.
    - intros g [<-|Hg]; simpl in *; [lia|]. rewrite W4, D4; auto. eapply t_low_le; eauto.
    - intros g [<-|Hg]; simpl in *.
      + exists w. split; auto. split; [lia|constructor].
      + destruct (t_low_sound _ _ _ T g Hg) as (y & A1 & A2 & A3). exists y. split; auto.
        rewrite D3, W4; auto.
    - intros g y z Hg Hy Hd Ho Hp Hz. apply PR in Hp.
      assert (Hpz := processed_nonwhite _ _ _ _ B Hp).
      assert (Hzw : z <> w) by (intros ->; destruct Hpz; congruence).
      assert (Hyw : y <> w).
      { intros ->. destruct Hp as [[H _]|(r & pre & t & A1 & _)]; [congruence|].
        apply Hwk. unfold grey. apply in_map_iff. exists (w, r). auto. }
      assert (Hz' : In z (sstk o)) by (simpl in Hz; destruct Hz; congruence).
      assert (Hy' : In y (sstk o)) by (simpl in Hy; destruct Hy; congruence).
      assert (Hg' : grey k g).
      { destruct Hg as [<-|]; auto. simpl in Hd. rewrite D1, D3 in Hd; auto. apply (t_nst _ _ _ T) in Hy'. lia. }
      rewrite W4, D3 by auto. rewrite D4, D3 in Hd by auto. eapply (t_low_compl _ _ _ T g y z); eauto.
      intros g' Hg1 Hg2. specialize (Ho g'). rewrite (D4 g'), (D4 g), (D3 y) in Ho by auto. apply Ho; auto. right; auto.
    - intros g y z Hg Hy Hd Hp Hz. apply PR in Hp.
      assert (Hpz := processed_nonwhite _ _ _ _ B Hp).
      assert (Hzw : z <> w) by (intros ->; destruct Hpz; congruence).
      assert (Hyw : y <> w).
      { intros ->. destruct Hp as [[H _]|(r & pre & t & A1 & _)]; [congruence|].
        apply Hwk. unfold grey. apply in_map_iff. exists (w, r). auto. }
      assert (Hz' : In z (sstk o)) by (simpl in Hz; destruct Hz; congruence).
      assert (Hy' : In y (sstk o)) by (simpl in Hy; destruct Hy; congruence).
      destruct Hg as [<-|Hg].
      + simpl. rewrite D1, D3; auto. eapply t_nst; eauto.
      + rewrite (D4 g), (D3 z) by auto. rewrite (D4 g), (D3 y) in Hd by auto.
        eapply (t_proc_old _ _ _ T g y z); eauto.
    - intros s Hs. simpl. apply (t_co_sound _ _ _ T); auto.
    - intros s Hs. apply DN in Hs. apply (t_co_done _ _ _ T); auto.
    - intros s [<-|Hs] Hb; [rewrite nth_error_upd_eq in Hb; congruence|]. apply BL in Hb.
      apply (t_co_fin _ _ _ T); auto.
    - intros y z Hy Hp Hz Hc. apply DN in Hz. apply PR in Hp.
      assert (Hyw : y <> w).
      { intros ->. destruct Hp as [[H _]|(r & pre & t & A1 & _)]; [congruence|].
        apply Hwk. unfold grey. apply in_map_iff. exists (w, r). auto. }
      assert (Hy' : In y (sstk o)) by (simpl in Hy; destruct Hy; congruence).
      apply (t_co_edge _ _ _ T y z); auto.
  Qed.

  (** ** The top state passes a transition. *)
  (** [o'] is [o] with a smaller [lowlink] and more [coaccess] for [s] only. *)
  Lemma tarjan_pass c k o o' s t r :
    base keep trs n true c ((s, t :: r) :: k) -> tarjan c ((s, t :: r) :: k) o ->
    (keep t = true -> nonwhite c (ns t)) ->
    nst o' = nst o -> dfn o' = dfn o -> onst o' = onst o -> sstk o' = sstk o ->
    length (low o') = n -> length (coacc o') = n ->
    (forall u, u <> s -> lw o' u = lw o u) -> (forall u, u <> s -> co o' u = co o u) ->
    lw o' s <= lw o s ->
    (lw o' s = lw o s \/ keep t = true /\ In (ns t) (sstk o) /\ lw o' s = df o (ns t)) ->
    (keep t = true -> In (ns t) (sstk o) -> lw o' s <= df o (ns t)) ->
    (co o s = true -> co o' s = true) ->
    (co o' s = true -> co o s = true \/ keep t = true /\ coaccessible fm (ns t)) ->
    (keep t = true -> done c o (ns t) -> coaccessible fm (ns t) -> co o' s = true) ->
    tarjan c ((s, r) :: k) o'.
  Proof.
    intros B T Hnw E1 E2 E3 E4 L1 L2 Hlw Hco H1 H2 H3 H4 H5 H6.
    assert (Hpre := b_pre _ _ _ _ _ _ B s (t :: r) (or_introl eq_refl)). destruct Hpre as (pre0 & Epre).
    assert (Hin : In t (trs s)) by (rewrite Epre; apply in_or_app; simpl; auto).
    assert (GR : forall g, grey ((s, r) :: k) g <-> grey ((s, t :: r) :: k) g) by (intros g; unfold grey; simpl; tauto).
    assert (DF : forall u, df o' u = df o u) by (intros u; unfold df; rewrite E2; auto).
    assert (DN : forall u, done c o' u <-> done c o u) by (intros u; unfold done; rewrite E4; tauto).
    assert (PR : forall y z, processed c ((s, r) :: k) y z ->
       processed c ((s, t :: r) :: k) y z \/ (y = s /\ z = ns t /\ keep t = true)).
    { intros y z [H|(q & pre & u & A1 & A2 & A3 & A4 & A5)]; [left; left; auto|].
      destruct A1 as [A1|A1].
      - inversion A1; subst q y. rewrite Epre in A2. change (t :: r) with ([t] ++ r) in A2.
        rewrite app_assoc in A2. apply app_inv_tail in A2. subst pre.
        apply in_app_or in A3 as [A3|[<-|[]]]; [|right; auto].
        left. right. exists (t :: r), pre0, u. split; [left; auto|]. auto.
      - left. right. exists q, pre, u. split; [right; auto|]. auto. }
    assert (Hsg : grey ((s, t :: r) :: k) s) by (left; auto).
    assert (Hss : In s (sstk o)) by (eapply t_grey_stk; eauto).
    destruct (t_len _ _ _ T) as (Q1 & Q2 & Q3 & Q4).
    assert (Hsn : s < n). { eapply b_lt; eauto. left; eauto. }
    constructor.
    - rewrite E2, E3. auto.
    - rewrite E4. apply (t_stk_nw _ _ _ T).
    - intros u Hu. rewrite E4. apply GR in Hu. eapply t_grey_stk; eauto.
    - rewrite E4. assert (S := t_sorted _ _ _ T). clear - S DF. induction S; constructor; auto.
      rewrite Forall_forall in *. intros. rewrite !DF. auto.
    - assert (S := t_gsorted _ _ _ T). simpl in S. simpl. clear - S DF. induction S; constructor; auto.
      rewrite Forall_forall in *. intros. rewrite !DF. auto.
    - intros u. rewrite E4, E1, DF. apply (t_nst _ _ _ T).
    - intros u. rewrite E3, E4. apply (t_on _ _ _ T).
    - intros a b Ha Hab. apply DN in Ha. apply DN. eapply t_done; eauto.
    - intros g y Hg Hy. rewrite E4 in Hy. rewrite !DF. apply GR in Hg. eapply (t_up _ _ _ T); eauto.
    - intros y Hy. rewrite E4 in Hy. destruct (t_down _ _ _ T y Hy) as (g & A1 & A2 & A3).
      exists g. rewrite !DF. split; auto. 
    - intros g Hg. apply GR in Hg. rewrite DF. pose proof (t_low_le _ _ _ T g Hg).
      destruct (Nat.eq_dec g s) as [->|]; [lia|]. rewrite Hlw; auto.
    - intros g Hg. apply GR in Hg. destruct (t_low_sound _ _ _ T g Hg) as (y & A1 & A2 & A3).
      destruct (Nat.eq_dec g s) as [->|].
      + destruct H2 as [H2|(H2 & H7 & H8)].
        * exists y. rewrite E4, DF, H2. auto.
        * exists (ns t). rewrite E4, DF. split; auto. split; auto. apply edge_reach. exists t; auto.
      + exists y. rewrite E4, DF, Hlw; auto.
    - intros g y z Hg Hy Hd Ho Hp Hz. rewrite E4 in *. rewrite DF in *. rewrite DF in Hd. apply GR in Hg.
      assert (Ho' : forall g', grey ((s, t :: r) :: k) g' -> df o g' <= df o y -> df o g' <= df o g).
      { intros g' A1 A2. specialize (Ho g'). rewrite !DF in Ho. apply Ho; auto. }
      apply PR in Hp as [Hp|(-> & -> & Hk)].
      + pose proof (t_low_compl _ _ _ T g y z Hg Hy Hd Ho' Hp Hz).
        destruct (Nat.eq_dec g s) as [->|]; [lia|]. rewrite Hlw; auto.
      + destruct (Nat.eq_dec g s) as [->|Hne]; [apply H3; auto|]. exfalso.
        specialize (Ho' s Hsg (le_n _)). assert (S := t_gsorted _ _ _ T). simpl in S. inversion S as [|? ? _ F]; subst.
        rewrite Forall_forall in F. destruct Hg as [Hg|Hg]; [simpl in Hg; congruence|]. specialize (F g Hg). lia.
    - intros g y z Hg Hy Hd Hp Hz. rewrite E4 in *. rewrite !DF in *. apply GR in Hg.
      apply PR in Hp as [Hp|(-> & -> & Hk)]; [eapply (t_proc_old _ _ _ T g y z); eauto|]. exfalso.
      assert (S := t_gsorted _ _ _ T). simpl in S. inversion S as [|? ? _ F]; subst.
      rewrite Forall_forall in F. destruct Hg as [Hg|Hg]; [simpl in Hg; subst; lia|]. specialize (F g Hg). lia.
    - intros u Hu Hc. destruct (Nat.eq_dec u s) as [->|Hne].
      + destruct (H5 Hc) as [A|[A1 A2]]; [eapply t_co_sound; eauto|].
        eapply edge_coacc; eauto. exists t; auto.
      + rewrite Hco in Hc; auto. eapply t_co_sound; eauto.
    - intros u Hu Hc. apply DN in Hu. pose proof (t_co_done _ _ _ T u Hu Hc).
      destruct (Nat.eq_dec u s) as [->|Hne]; auto. rewrite Hco; auto.
    - intros u Hu Hb Hf. rewrite E4 in Hu. pose proof (t_co_fin _ _ _ T u Hu Hb Hf).
      destruct (Nat.eq_dec u s) as [->|Hne]; auto. rewrite Hco; auto.
    - intros y z Hy Hp Hz Hc. rewrite E4 in Hy. apply DN in Hz. apply PR in Hp as [Hp|(-> & -> & Hk)].
      + pose proof (t_co_edge _ _ _ T y z Hy Hp Hz Hc).
        destruct (Nat.eq_dec y s) as [->|Hne]; auto. rewrite Hco; auto.
      + auto.
  Qed.

  Lemma set_low_facts o s v : s < length (low o) ->
    lw (set_low o s v) s = v /\ (forall u, u <> s -> lw (set_low o s v) u = lw o u) /\
    (forall u, co (set_low o s v) u = co o u) /\ length (low (set_low o s v)) = length (low o).
  Proof.
    intros H. unfold lw, co, set_low; simpl. repeat split.
    - apply nth_upd_eq; auto.
    - intros. apply nth_upd_ne; auto.
    - apply upd_length.
  Qed.
  Lemma set_co_facts o s : s < length (coacc o) ->
    co (set_co o s) s = true /\ (forall u, u <> s -> co (set_co o s) u = co o u) /\
    (forall u, lw (set_co o s) u = lw o u) /\ length (coacc (set_co o s)) = length (coacc o).
  Proof.
    intros H. unfold lw, co, set_co; simpl. repeat split.
    - apply nth_upd_eq; auto.
    - intros. apply nth_upd_ne; auto.
    - apply upd_length.
  Qed.

  Lemma tarjan_skip c k o s t r :
    base keep trs n true c ((s, t :: r) :: k) -> tarjan c ((s, t :: r) :: k) o -> keep t = false ->
    tarjan c ((s, r) :: k) o.
  Proof.
    intros B T Hk. destruct (t_len _ _ _ T) as (Q1 & Q2 & Q3 & Q4).
    eapply tarjan_pass; eauto; intros; congruence.
  Qed.

  Lemma tarjan_back c k o s t r :
    base keep trs n true c ((s, t :: r) :: k) -> tarjan c ((s, t :: r) :: k) o -> keep t = true ->
    nth_error c (ns t) = Some Grey ->
    tarjan c ((s, r) :: k) (core_back o s (ns t)).
  Proof.
    intros B T Hk Hg. destruct (t_len _ _ _ T) as (Q1 & Q2 & Q3 & Q4).
    assert (Hsn : s < n). { eapply b_lt; eauto. left; eauto. }
    assert (Htn : ns t < n). { rewrite <- (b_len _ _ _ _ _ _ B). apply nth_error_Some. congruence. }
    assert (Hst : In (ns t) (sstk o)). { eapply t_grey_stk; eauto. apply (b_grey _ _ _ _ _ _ B); auto. }
    unfold core_back.
    set (o1 := if df o (ns t) <? lw o s then set_low o s (df o (ns t)) else o).
    assert (O1 : nst o1 = nst o /\ dfn o1 = dfn o /\ onst o1 = onst o /\ sstk o1 = sstk o /\
       length (low o1) = n /\ coacc o1 = coacc o /\ (forall u, u <> s -> lw o1 u = lw o u) /\
       lw o1 s = Nat.min (lw o s) (df o (ns t))).
    { unfold o1. destruct (Nat.ltb_spec (df o (ns t)) (lw o s)).
      - destruct (set_low_facts o s (df o (ns t))) as (A1 & A2 & A3 & A4); [lia|].
        do 4 (split; [reflexivity|]). split; [congruence|]. split; [reflexivity|]. split; [exact A2|lia].
      - repeat split; auto. lia. }
    destruct O1 as (R1 & R2 & R3 & R4 & R5 & R6 & R7 & R8).
    assert (R9 : forall u, co o1 u = co o u) by (intros u; unfold co; rewrite R6; auto).
    assert (Hnw : keep t = true -> nonwhite c (ns t)) by (left; auto).
    destruct (co o1 (ns t)) eqn:Ec.
    - destruct (set_co_facts o1 s) as (A1 & A2 & A3 & A4); [rewrite R6; lia|].
      refine (tarjan_pass c k o (set_co o1 s) s t r B T Hnw R1 R2 R3 R4 R5 _ _ _ _ _ _ _ _ _).
      + rewrite A4, R6. auto.
      + intros. rewrite A3. auto.
      + intros. rewrite A2, R9; auto.
      + rewrite A3. lia.
      + rewrite A3, R8. destruct (Nat.min_spec (lw o s) (df o (ns t))) as [[_ ->]|[_ ->]]; auto.
      + intros. rewrite A3. lia.
      + auto.
      + intros _. right. split; auto. rewrite R9 in Ec. eapply t_co_sound; eauto.
      + auto.
    - refine (tarjan_pass c k o _ s t r B T Hnw R1 R2 R3 R4 R5 _ _ _ _ _ _ _ _ _).
      + rewrite R6. auto.
      + auto.
      + auto.
      + lia.
      + rewrite R8. destruct (Nat.min_spec (lw o s) (df o (ns t))) as [[_ ->]|[_ ->]]; auto.
      + intros. lia.
      + rewrite R9. auto.
      + rewrite R9. auto.
      + intros _ [_ H] _. tauto.
  Qed.

  Lemma tarjan_fwd c k o s t r :
    base keep trs n true c ((s, t :: r) :: k) -> tarjan c ((s, t :: r) :: k) o -> keep t = true ->
    nth_error c (ns t) = Some Black ->
    tarjan c ((s, r) :: k) (core_fwd o s (ns t)).
  Proof.
    intros B T Hk Hg. destruct (t_len _ _ _ T) as (Q1 & Q2 & Q3 & Q4).
    assert (Hsn : s < n). { eapply b_lt; eauto. left; eauto. }
    assert (Htn : ns t < n). { rewrite <- (b_len _ _ _ _ _ _ B). apply nth_error_Some. congruence. }
    assert (Hsg : grey ((s, t :: r) :: k) s) by (left; auto).
    pose proof (t_low_le _ _ _ T s Hsg) as Hle.
    unfold core_fwd.
    set (o1 := if (df o (ns t) <? df o s) && nth (ns t) (onst o) false && (df o (ns t) <? lw o s)
               then set_low o s (df o (ns t)) else o).
    assert (O1 : nst o1 = nst o /\ dfn o1 = dfn o /\ onst o1 = onst o /\ sstk o1 = sstk o /\
       length (low o1) = n /\ coacc o1 = coacc o /\ (forall u, u <> s -> lw o1 u = lw o u) /\
       lw o1 s <= lw o s /\ (lw o1 s = lw o s \/ In (ns t) (sstk o) /\ lw o1 s = df o (ns t)) /\
       (In (ns t) (sstk o) -> lw o1 s <= df o (ns t))).
    { unfold o1. destruct (Nat.ltb_spec (df o (ns t)) (df o s)); simpl.
      2:{ repeat split; auto. intros; lia. }
      destruct (nth (ns t) (onst o) false) eqn:Eo; simpl.
      2:{ repeat split; auto. intros Hin. apply (t_on _ _ _ T) in Hin; auto. congruence. }
      apply (t_on _ _ _ T) in Eo; auto.
      destruct (Nat.ltb_spec (df o (ns t)) (lw o s)).
      - destruct (set_low_facts o s (df o (ns t))) as (A1 & A2 & A3 & A4); [lia|].
        do 4 (split; [reflexivity|]). split; [congruence|]. split; [reflexivity|]. split; [exact A2|].
        split; [lia|]. split; [right; split; auto|intros; lia].
      - repeat split; auto. }
    destruct O1 as (R1 & R2 & R3 & R4 & R5 & R6 & R7 & R8 & R8b & R8c).
    assert (R9 : forall u, co o1 u = co o u) by (intros u; unfold co; rewrite R6; auto).
    assert (Hnw : keep t = true -> nonwhite c (ns t)) by (right; auto).
    destruct (co o1 (ns t)) eqn:Ec.
    - destruct (set_co_facts o1 s) as (A1 & A2 & A3 & A4); [rewrite R6; lia|].
      refine (tarjan_pass c k o (set_co o1 s) s t r B T Hnw R1 R2 R3 R4 R5 _ _ _ _ _ _ _ _ _).
      + rewrite A4, R6. auto.
      + intros. rewrite A3. auto.
      + intros. rewrite A2, R9; auto.
      + rewrite A3. lia.
      + rewrite A3. tauto.
      + intros. rewrite A3. auto.
      + auto.
      + intros _. right. split; auto. rewrite R9 in Ec. eapply t_co_sound; eauto.
      + auto.
    - refine (tarjan_pass c k o _ s t r B T Hnw R1 R2 R3 R4 R5 _ _ _ _ _ _ _ _ _).
      + rewrite R6. auto.
      + auto.
      + auto.
      + lia.
      + tauto.
      + auto.
      + rewrite R9. auto.
      + rewrite R9. auto.
      + intros _ H1 H2. rewrite R9 in Ec. eapply t_co_done in H1; eauto. congruence.
  Qed.

  (** ** The top state is finished. *)
  Definition advance (k : list frame) : list frame :=
    match k with [] => [] | (p, rp) :: k' => (p, tl rp) :: k' end.
  Definition parent_of (k : list frame) : option nat := option_map fst (hd_error k).

  Lemma grey_advance k g : grey (advance k) g <-> grey k g.
  Proof. unfold grey. destruct k as [|(p, rp) k]; simpl; tauto. Qed.

  Lemma grey_adv1 k g : grey (advance k) g -> grey k g.
  Proof. apply grey_advance. Qed.

  Lemma processed_finish c s k y z : base keep trs n true c ((s, []) :: k) ->
    processed (upd c s Black) (advance k) y z ->
    processed c ((s, []) :: k) y z \/ (parent_of k = Some y /\ z = s).
  Proof.
    intros B. assert (Hl : s < length c).
    { rewrite (b_len _ _ _ _ _ _ B). eapply b_lt; eauto. left; eauto. }
    intros [[H1 H2]|(r & pre & t & A1 & A2 & A3 & A4 & A5)].
    - apply nth_upd_color in H1; auto. destruct H1 as [[-> _]|[_ H1]]; [|left; left; auto].
      left. right. destruct (b_pre _ _ _ _ _ _ B s []) as (pre & E); [left; auto|].
      destruct H2 as (t & Ht & Hk & Hz). exists [], pre, t. split; [left; auto|]. split; auto.
      rewrite E, app_nil_r in Ht. auto.
    - destruct k as [|(p, rp) k]; simpl in A1; [tauto|]. destruct A1 as [A1|A1].
      + inversion A1; subst y r. pose proof (b_chain _ _ _ _ _ _ B) as CH.
        destruct CH as ((t0 & r0 & -> & Kt & Et) & _). simpl in A2.
        destruct (b_pre _ _ _ _ _ _ B p (t0 :: r0)) as (pre0 & E); [right; left; auto|].
        rewrite E in A2. change (t0 :: r0) with ([t0] ++ r0) in A2. rewrite app_assoc in A2.
        apply app_inv_tail in A2. subst pre. apply in_app_or in A3 as [A3|[<-|[]]].
        * left. right. exists (t0 :: r0), pre0, t. split; [right; left; auto|]. auto.
        * right. split; [reflexivity|congruence].
      + left. right. exists r, pre, t. split; [right; right; auto|]. auto.
  Qed.

  Lemma SSorted_inj (g : nat -> nat) l a b : StronglySorted (fun x y => g y < g x) l ->
    In a l -> In b l -> g a = g b -> a = b.
  Proof.
    induction 1; simpl; [tauto|]. rewrite Forall_forall in H0. intros [<-|Ha] [<-|Hb] E; auto.
    - apply H0 in Hb. lia.
    - apply H0 in Ha. lia.
  Qed.
  Lemma SSorted_app (g : nat -> nat) a b : StronglySorted (fun x y => g y < g x) (a ++ b) ->
    StronglySorted (fun x y => g y < g x) b /\ (forall x y, In x a -> In y b -> g y < g x).
  Proof.
    induction a; simpl; intros H; [split; auto; tauto|]. inversion H as [|? ? S F]; subst.
    destruct (IHa S) as [A1 A2]. split; auto. rewrite Forall_forall in F. intros x y [<-|Hx] Hy; auto.
    apply F. apply in_or_app; auto.
  Qed.

  Section Finish.
    Variables (c : list color) (s : nat) (k : list frame) (o : core).
    Hypothesis B : base keep trs n true c ((s, []) :: k).
    Hypothesis T : tarjan c ((s, []) :: k) o.
    (** After the finality test. *)
    Variable o1 : core.
    Hypothesis o1_co : forall u, co o1 u = true <-> co o u = true \/ (u = s /\ fin s <> None).

    Let Hsn : s < n.
    Proof. eapply b_lt; eauto. left; eauto. Qed.
    Let Hl : s < length c.
    Proof. rewrite (b_len _ _ _ _ _ _ B). exact Hsn. Qed.
    Let Hgs : grey ((s, []) :: k) s := or_introl eq_refl.
    Let Hst : In s (sstk o) := t_grey_stk _ _ _ T s Hgs.
    Let Ctop : forall g, grey k g -> df o g < df o s.
    Proof.
      intros g Hg. assert (S := t_gsorted _ _ _ T). simpl in S. inversion S as [|? ? _ F]; subst.
      rewrite Forall_forall in F. apply F. exact Hg.
    Qed.
    Let Hsk : ~ grey k s.
    Proof. intros H. apply Ctop in H. lia. Qed.
    Let Cgsort : StronglySorted (fun a b => df o b < df o a) (map fst (advance k)).
    Proof.
      assert (S := t_gsorted _ _ _ T). simpl in S. inversion S as [|? ? S' F]; subst.
      destruct k as [|(p, rp) k']; simpl; auto.
    Qed.
    Let BL : forall u, nth_error (upd c s Black) u = Some Black <-> nth_error c u = Some Black \/ u = s.
    Proof.
      intros u. rewrite nth_upd_color by auto. split; [intros [[A _]|[_ A]]; auto|].
      intros [A|A]; auto. destruct (Nat.eq_dec u s); auto.
    Qed.
    Let Hgreyc : nth_error c s = Some Grey.
    Proof. apply (b_grey _ _ _ _ _ _ B). exact Hgs. Qed.
    Let Cnotgrey : forall u, In u (sstk o) -> u <> s -> ~ grey k u -> nth_error c u = Some Black.
    Proof.
      intros u Hu Hne Hg. destruct (t_stk_nw _ _ _ T u Hu) as [H|H]; auto.
      apply (b_grey _ _ _ _ _ _ B) in H. destruct H; [simpl in H; congruence|]. contradiction.
    Qed.
    Let Hparent : forall p, parent_of k = Some p -> grey k p.
    Proof. intros p. unfold parent_of, grey. destruct k as [|(q, rq) k']; simpl; intros H; inversion H; auto. Qed.
    Let Hpedge : forall p, parent_of k = Some p -> edge p s.
    Proof.
      intros p H. unfold parent_of in H. destruct k as [|(q, rq) k'] eqn:Ek; simpl in H; inversion H; subst q.
      pose proof (b_chain _ _ _ _ _ _ B) as CH. destruct CH as ((t0 & r0 & -> & Kt & Et) & _).
      exists t0. destruct (b_pre _ _ _ _ _ _ B p (t0 :: r0)) as (pre0 & E); [right; left; auto|].
      rewrite E. split; auto. apply in_or_app. simpl. auto.
    Qed.
    Let Hpmax : forall p g, parent_of k = Some p -> grey k g -> df o g <= df o p.
    Proof.
      intros p g H Hg. assert (S := t_gsorted _ _ _ T). simpl in S. inversion S as [|? ? S' F]; subst.
      unfold parent_of in H. destruct k as [|(q, rq) k']; simpl in H; inversion H; subst q.
      simpl in S'. inversion S' as [|? ? _ F']; subst. rewrite Forall_forall in F'.
      destruct Hg as [Hg|Hg]; [simpl in Hg; subst; auto|]. apply F' in Hg. lia.
    Qed.
    Let Hproc : forall y z, processed (upd c s Black) (advance k) y z ->
       processed c ((s, []) :: k) y z \/ (parent_of k = Some y /\ z = s).
    Proof. intros y z. apply processed_finish; auto. Qed.

    (** *** [s] is not the root of its component. *)
    Lemma tarjan_merge p o' : parent_of k = Some p -> lw o s <> df o s ->
      nst o' = nst o -> dfn o' = dfn o -> onst o' = onst o -> sstk o' = sstk o ->
      length (low o') = n -> length (coacc o') = n ->
      (forall u, u <> p -> lw o' u = lw o u) -> lw o' p = Nat.min (lw o p) (lw o s) ->
      (forall u, co o' u = true <-> co o1 u = true \/ (u = p /\ co o1 s = true)) ->
      tarjan (upd c s Black) (advance k) o'.
    Proof.
      intros Hp Hlow E1 E2 E3 E4 L1 L2 Hlw Hlwp Hco. destruct (t_len _ _ _ T) as (Q1 & Q2 & Q3 & Q4).
      assert (Hlt : lw o s < df o s). { pose proof (t_low_le _ _ _ T s Hgs). lia. }
      assert (DF : forall u, df o' u = df o u) by (intros u; unfold df; rewrite E2; auto).
      assert (DN : forall u, done (upd c s Black) o' u <-> done c o u).
      { intros u. unfold done. rewrite BL, E4. split; intros [A1 A2]; split; auto. destruct A1; auto.
        subst. contradiction. }
      assert (Gk := Hparent p Hp).
      assert (Hps : p <> s) by (intros ->; contradiction).
      assert (Lle : forall g, lw o' g <= lw o g).
      { intros g. destruct (Nat.eq_dec g p) as [->|]; [lia|rewrite Hlw; auto]. }
      constructor.
      - rewrite E2, E3. auto.
      - rewrite E4. intros u Hu. apply nonwhite_upd; [congruence|]. eapply t_stk_nw; eauto.
      - intros u Hu. apply grey_adv1 in Hu. rewrite E4. eapply t_grey_stk; eauto. right; auto.
      - rewrite E4. assert (S := t_sorted _ _ _ T). clear - S DF. induction S; constructor; auto.
        rewrite Forall_forall in *. intros. rewrite !DF. auto.
      - assert (S := Cgsort). clear - S DF. induction S; constructor; auto.
        rewrite Forall_forall in *. intros. rewrite !DF. auto.
      - intros u. rewrite E4, E1, DF. apply (t_nst _ _ _ T).
      - intros u. rewrite E3, E4. apply (t_on _ _ _ T).
      - intros a b Ha Hab. apply DN in Ha. apply DN. eapply t_done; eauto.
      - intros g y Hg Hy. rewrite E4 in Hy. rewrite !DF. apply grey_adv1 in Hg.
        apply (t_up _ _ _ T); auto. right; auto.
      - intros y Hy. rewrite E4 in Hy. destruct (t_down _ _ _ T y Hy) as (g & A1 & A2 & A3).
        destruct A1 as [A1|A1]; [simpl in A1; subst g|exists g; rewrite !DF, grey_advance; auto].
        destruct (t_low_sound _ _ _ T s Hgs) as (y' & B1 & B2 & B3).
        destruct (t_down _ _ _ T y' B1) as (g & C1 & C2 & C3).
        exists g. rewrite !DF, grey_advance. destruct C1 as [C1|C1]; [simpl in C1; subst g; lia|].
        split; auto. split; [lia|]. eapply reach_trans; eauto. eapply reach_trans; eauto.
      - intros g Hg. apply grey_adv1 in Hg. rewrite DF. specialize (Lle g).
        pose proof (t_low_le _ _ _ T g (or_intror Hg)). lia.
      - intros g Hg. apply grey_adv1 in Hg. destruct (t_low_sound _ _ _ T g (or_intror Hg)) as (y & A1 & A2 & A3).
        destruct (Nat.eq_dec g p) as [->|Hne].
        + rewrite Hlwp, E4. destruct (Nat.min_spec (lw o p) (lw o s)) as [[_ ->]|[_ ->]].
          * exists y. rewrite DF. auto.
          * destruct (t_low_sound _ _ _ T s Hgs) as (y' & B1 & B2 & B3). exists y'. rewrite DF.
            split; auto. split; auto. eapply reach_trans; [|eauto]. apply edge_reach. auto.
        + exists y. rewrite E4, DF, Hlw; auto.
      - intros g y z Hg Hy Hd Ho Hpr Hz. rewrite E4 in *. rewrite !DF in Hd. rewrite DF. apply grey_adv1 in Hg.
        assert (Ho' : forall g', grey k g' -> df o g' <= df o y -> df o g' <= df o g).
        { intros g' A1 A2. specialize (Ho g'). rewrite !DF, grey_advance in Ho. apply Ho; auto. }
        apply Hproc in Hpr as [Hpr|[Hpy ->]].
        + destruct (Nat.le_gt_cases (df o s) (df o y)) as [Hsy|Hsy].
          * assert (g = p).
            { specialize (Ho' p Gk). pose proof (Ctop p Gk). assert (df o p <= df o g) by (apply Ho'; lia).
              pose proof (Hpmax p g Hp Hg). assert (S := t_gsorted _ _ _ T).
              apply (SSorted_inj (df o) _ g p S); [right; auto|right; auto|lia]. }
            subst g. assert (lw o s <= df o z); [|lia].
            apply (t_low_compl _ _ _ T s y z); auto. intros g' [A|A] _; [simpl in A; subst; auto|].
            apply Ctop in A. lia.
          * assert (lw o g <= df o z); [|specialize (Lle g); lia].
            apply (t_low_compl _ _ _ T g y z); auto; [right; auto|].
            intros g' [A|A] A'; [simpl in A; subst; lia|]. apply Ho'; auto.
        + assert (y = p) by congruence. subst y. assert (g = p).
          { specialize (Ho' p Gk (le_n _)). pose proof (Hpmax p g Hp Hg). assert (S := t_gsorted _ _ _ T).
            apply (SSorted_inj (df o) _ g p S); [right; auto|right; auto|lia]. }
          subst g. lia.
      - intros g y z Hg Hy Hd Hpr Hz. rewrite E4 in *. rewrite !DF in *. apply grey_adv1 in Hg.
        apply Hproc in Hpr as [Hpr|[Hpy ->]].
        + apply (t_proc_old _ _ _ T g y z); auto. right; auto.
        + assert (y = p) by congruence. subst y. pose proof (Hpmax p g Hp Hg). lia.
      - intros u Hu Hc. apply Hco in Hc.
        assert (CS : co o1 s = true -> coaccessible fm s).
        { intros H. apply o1_co in H as [H|[_ H]]; [apply (t_co_sound _ _ _ T); auto|].
          exists s. split; [constructor|auto]. }
        destruct Hc as [Hc|[-> Hc]].
        + apply o1_co in Hc as [Hc|[-> Hc]]; [apply (t_co_sound _ _ _ T); auto|].
          apply CS. apply o1_co. auto.
        + eapply edge_coacc; eauto.
      - intros u Hu Hc. apply DN in Hu. apply Hco. left. apply o1_co. left. apply (t_co_done _ _ _ T); auto.
      - intros u Hu Hb Hf. rewrite E4 in Hu. apply Hco. left. apply o1_co. apply BL in Hb as [Hb| ->]; auto.
        left. apply (t_co_fin _ _ _ T); auto.
      - intros y z Hy Hpr Hz Hc. rewrite E4 in Hy. apply DN in Hz. apply Hco.
        apply Hproc in Hpr as [Hpr|[Hpy ->]].
        + left. apply o1_co. left. apply (t_co_edge _ _ _ T y z); auto.
        + destruct Hz. contradiction.
    Qed.

    (** *** [s] is the root of its component. *)
    Variables (a rest : list nat).
    Hypothesis Estk : sstk o = a ++ s :: rest.
    Hypothesis Hroot : lw o s = df o s.
    Let comp := a ++ [s].

    Let Hcomp : forall u, In u comp <-> In u (sstk o) /\ df o s <= df o u.
    Proof.
      intros u. unfold comp. rewrite Estk. assert (S := t_sorted _ _ _ T). rewrite Estk in S.
      destruct (SSorted_app _ _ _ S) as [S1 S2]. inversion S1 as [|? ? S3 F]; subst. rewrite Forall_forall in F.
      rewrite !in_app_iff. simpl. split.
      - intros [H|[<-|[]]]; split; auto. specialize (S2 u s H (or_introl eq_refl)). lia.
      - intros [[H|[H|H]] Hd]; auto. apply F in H. lia.
    Qed.
    Let Hrest : forall u, In u rest <-> In u (sstk o) /\ df o u < df o s.
    Proof.
      intros u. rewrite Estk. assert (S := t_sorted _ _ _ T). rewrite Estk in S.
      destruct (SSorted_app _ _ _ S) as [S1 S2]. inversion S1 as [|? ? S3 F]; subst. rewrite Forall_forall in F.
      rewrite !in_app_iff. simpl. split.
      - intros H. split; auto.
      - intros [[H|[H|H]] Hd]; auto; [|subst; lia]. specialize (S2 u s H (or_introl eq_refl)). lia.
    Qed.
    Let Hdone_edge : forall y z, In y comp -> edge y z -> In z comp \/ done c o z.
    Proof.
      intros y z Hy He. apply Hcomp in Hy as [Hy Hd].
      assert (Hpr : processed c ((s, []) :: k) y z).
      { destruct (Nat.eq_dec y s) as [->|Hne].
        - right. destruct (b_pre _ _ _ _ _ _ B s []) as (pre & E); [left; auto|].
          destruct He as (t & Ht & Hk & Hz). exists [], pre, t. split; [left; auto|]. split; auto.
          rewrite E, app_nil_r in Ht. auto.
        - left. split; auto. apply Cnotgrey; auto. intros H. apply Ctop in H. lia. }
      destruct (in_dec Nat.eq_dec z (sstk o)) as [Hz|Hz].
      - left. apply Hcomp. split; auto. rewrite <- Hroot. apply (t_low_compl _ _ _ T s y z); auto.
        intros g' [A|A] _; [simpl in A; subst; auto|]. apply Ctop in A. lia.
      - right. split; auto. destruct (processed_nonwhite _ _ _ _ B Hpr) as [H|H]; auto.
        exfalso. apply Hz. apply (t_grey_stk _ _ _ T). apply (b_grey _ _ _ _ _ _ B); auto.
    Qed.
    (** The component: mutually reachable, and maximal. *)
    Lemma comp_mutual u v : In u comp -> In v comp -> reach fm u v.
    Proof.
      assert (A : forall u, In u comp -> reach fm s u /\ reach fm u s).
      { intros w Hw. apply Hcomp in Hw as [Hw Hd]. split; [apply (t_up _ _ _ T); auto|].
        destruct (t_down _ _ _ T w Hw) as (g & C1 & C2 & C3). eapply reach_trans; [exact C3|].
        apply (t_up _ _ _ T); auto. destruct C1 as [C1|C1]; [simpl in C1; subst; auto|]. apply Ctop in C1. lia. }
      intros Hu Hv. apply A in Hu, Hv. eapply reach_trans; [apply Hu|apply Hv].
    Qed.
    Lemma comp_reach_out u v : In u comp -> reach fm u v -> In v comp \/ done c o v.
    Proof.
      intros Hu Hr. apply (reach_edges (fun x => In x comp \/ done c o x) u v Hr); auto.
      intros x y [Hx|Hx] He; [eapply Hdone_edge; eauto|]. right. eapply t_done; eauto.
    Qed.
    Lemma done_reach u v : done c o u -> reach fm u v -> done c o v.
    Proof. intros Hu Hr. apply (reach_edges (fun x => done c o x) u v Hr); auto. intros. eapply t_done; eauto. Qed.
    Lemma comp_not_done u : In u comp -> ~ done c o u.
    Proof. intros Hu [_ Hd]. apply Hd. apply Hcomp in Hu. tauto. Qed.

    Lemma comp_coacc u : In u comp -> coaccessible fm u -> exists x, In x comp /\ co o1 x = true.
    Proof.
      intros Hu (v & Hr & Hf). cut (exists x, In x comp /\ co o1 x = true); auto.
      revert Hu Hf. induction Hr as [v|u t v Ht Hr IH]; intros Hu Hf.
      - exists v. split; auto. apply o1_co. destruct (Nat.eq_dec v s) as [->|Hne]; auto.
        left. apply Hcomp in Hu as [Hu Hd]. apply (t_co_fin _ _ _ T); auto.
        apply Cnotgrey; auto. intros H. apply Ctop in H. lia.
      - assert (He : edge u (ns t)). { simpl in Ht. apply filter_In in Ht. exists t. tauto. }
        destruct (Hdone_edge u (ns t) Hu He) as [Hc|Hd]; [auto|].
        exists u. split; auto. apply o1_co. left. pose proof Hu as Hu'. apply Hcomp in Hu as [Hu Hdf].
        apply (t_co_edge _ _ _ T u (ns t)); auto; [|exists v; auto].
        destruct (Nat.eq_dec u s) as [->|Hne].
        + right. destruct (b_pre _ _ _ _ _ _ B s []) as (pre & E); [left; auto|].
          destruct He as (t' & Ht' & Hk & Hz). exists [], pre, t'. split; [left; auto|]. split; auto.
          rewrite E, app_nil_r in Ht'. auto.
        + left. split; auto. apply Cnotgrey; auto. intros H. apply Ctop in H. lia.
    Qed.

    Lemma co1_sound u : u < n -> co o1 u = true -> coaccessible fm u.
    Proof.
      intros Hu H. apply o1_co in H as [H|[-> H]]; [apply (t_co_sound _ _ _ T); auto|].
      exists s. split; [constructor|auto].
    Qed.
    Lemma stk_lt u : In u (sstk o) -> u < n.
    Proof.
      intros H. apply (t_stk_nw _ _ _ T) in H. rewrite <- (b_len _ _ _ _ _ _ B).
      apply nth_error_Some. destruct H; congruence.
    Qed.
    Lemma comp_b : existsb (co o1) comp = true <-> coaccessible fm s.
    Proof.
      rewrite existsb_exists. split.
      - intros (x & Hx & Hc). destruct (co1_sound x) as (v & Hr & Hf); auto.
        + apply Hcomp in Hx as [Hx _]. apply stk_lt; auto.
        + exists v. split; auto. eapply reach_trans; eauto. apply comp_mutual; auto. apply in_or_app. simpl; auto.
      - intros H. apply (comp_coacc s); auto. apply in_or_app. simpl; auto.
    Qed.
    Lemma done_close u o' : sstk o' = rest -> done (upd c s Black) o' u <-> done c o u \/ In u comp.
    Proof.
      intros E. unfold done. rewrite BL, E, Hrest, Hcomp. split.
      - intros [[A| ->] H2].
        + destruct (in_dec Nat.eq_dec u (sstk o)); auto. right. split; auto.
          destruct (Nat.le_gt_cases (df o s) (df o u)); auto. exfalso. apply H2. auto.
        + right. auto.
      - intros [[A1 A2]|[A1 A2]].
        + split; auto. tauto.
        + split; [|lia]. destruct (Nat.eq_dec u s); auto. left.
          apply Cnotgrey; auto. intros H. apply Ctop in H. lia.
    Qed.

    Lemma tarjan_close o' :
      nst o' = nst o -> dfn o' = dfn o -> sstk o' = rest ->
      length (low o') = n -> length (coacc o') = n -> length (onst o') = n ->
      (forall u, u < n -> nth u (onst o') false = true <-> nth u (onst o) false = true /\ ~ In u comp) ->
      (forall u, lw o' u = lw o u) ->
      (forall u, u < n -> co o' u = true <-> co o1 u = true \/ (In u comp /\ coaccessible fm s) \/
                               (parent_of k = Some u /\ coaccessible fm s)) ->
      tarjan (upd c s Black) (advance k) o'.
    Proof.
      intros E1 E2 E4 L1 L2 L3 Hon Hlw Hco. destruct (t_len _ _ _ T) as (Q1 & Q2 & Q3 & Q4).
      assert (DF : forall u, df o' u = df o u) by (intros u; unfold df; rewrite E2; auto).
      assert (DN := fun u => done_close u o' E4).
      assert (Rs : ~ In s rest) by (rewrite Hrest; lia).
      constructor.
      - rewrite E2. auto.
      - rewrite E4. intros u Hu. apply nonwhite_upd; [congruence|]. apply Hrest in Hu as [Hu _]. eapply t_stk_nw; eauto.
      - intros u Hu. apply grey_adv1 in Hu. rewrite E4. apply Hrest. split; [|apply Ctop; auto].
        eapply t_grey_stk; eauto. right; auto.
      - rewrite E4. assert (S := t_sorted _ _ _ T). rewrite Estk in S. apply SSorted_app in S as [S _].
        inversion S as [|? ? S' _]; subst. clear - S' DF. induction S'; constructor; auto.
        rewrite Forall_forall in *. intros. rewrite !DF. auto.
      - assert (S := Cgsort). clear - S DF. induction S; constructor; auto.
        rewrite Forall_forall in *. intros. rewrite !DF. auto.
      - intros u. rewrite E4, E1, DF, Hrest. intros [H _]. apply (t_nst _ _ _ T); auto.
      - intros u Hu. rewrite E4, Hon, (t_on _ _ _ T), Hrest, Hcomp by auto. split; intros [A1 A2]; split; auto; try lia.
        destruct (Nat.le_gt_cases (df o s) (df o u)); auto. exfalso. auto.
      - intros x y Hx Hxy. apply DN. apply DN in Hx as [Hx|Hx].
        + left. eapply t_done; eauto.
        + destruct (Hdone_edge x y Hx Hxy); auto.
      - intros g y Hg Hy. rewrite E4 in Hy. apply Hrest in Hy as [Hy _]. rewrite !DF. apply grey_adv1 in Hg.
        apply (t_up _ _ _ T); auto. right; auto.
      - intros y Hy. rewrite E4 in Hy. apply Hrest in Hy as [Hy Hd].
        destruct (t_down _ _ _ T y Hy) as (g & A1 & A2 & A3).
        destruct A1 as [A1|A1]; [simpl in A1; subst g; lia|exists g; rewrite !DF, grey_advance; auto].
      - intros g Hg. apply grey_adv1 in Hg. rewrite DF, Hlw. apply (t_low_le _ _ _ T g). right; auto.
      - intros g Hg. apply grey_adv1 in Hg. destruct (t_low_sound _ _ _ T g (or_intror Hg)) as (y & A1 & A2 & A3).
        exists y. rewrite E4, DF, Hlw. split; auto. apply Hrest. split; auto.
        pose proof (t_low_le _ _ _ T g (or_intror Hg)). apply Ctop in Hg. lia.
      - intros g y z Hg Hy Hd Ho Hpr Hz. rewrite E4 in *. rewrite !DF in Hd. rewrite DF, Hlw. apply grey_adv1 in Hg.
        apply Hrest in Hy as [Hy Hys]. pose proof Hz as Hz'. apply Hrest in Hz as [Hz Hzs].
        apply Hproc in Hpr as [Hpr|[Hpy ->]]; [|contradiction].
        apply (t_low_compl _ _ _ T g y z); auto; [right; auto|].
        intros g' [A|A] A'; [simpl in A; subst; lia|]. specialize (Ho g'). rewrite !DF, grey_advance in Ho.
        apply Ho; auto.
      - intros g y z Hg Hy Hd Hpr Hz. rewrite E4 in *. rewrite !DF in *. apply grey_adv1 in Hg.
        apply Hrest in Hy as [Hy Hys]. pose proof Hz as Hz'. apply Hrest in Hz as [Hz Hzs].
        apply Hproc in Hpr as [Hpr|[Hpy ->]]; [|contradiction].
        apply (t_proc_old _ _ _ T g y z); auto. right; auto.
      - intros u Hu Hc. apply Hco in Hc; auto. destruct Hc as [Hc|[[Hc Hcs]|[Hc Hcs]]].
        + apply co1_sound; auto.
        + destruct Hcs as (v & Hr & Hf). exists v. split; auto. eapply reach_trans; eauto.
          apply comp_mutual; auto. apply in_or_app; simpl; auto.
        + eapply edge_coacc; eauto.
      - intros u Hu Hc. assert (Hun : u < n).
        { rewrite <- (b_len _ _ _ _ _ _ B). destruct Hu as [Hu _].
          rewrite <- (upd_length c s Black). apply nth_error_Some. congruence. }
        apply Hco; auto. apply DN in Hu as [Hu|Hu].
        + left. apply o1_co. left. apply (t_co_done _ _ _ T); auto.
        + right. left. split; auto. destruct Hc as (v & Hr & Hf). exists v. split; auto. eapply reach_trans; eauto.
          apply comp_mutual; auto. apply in_or_app; simpl; auto.
      - intros u Hu Hb Hf. rewrite E4 in Hu. pose proof Hu as Hu'. apply Hrest in Hu as [Hu Hus].
        apply Hco; [apply stk_lt; auto|]. left. apply o1_co. apply BL in Hb as [Hb| ->]; auto.
        left. apply (t_co_fin _ _ _ T); auto.
      - intros y z Hy Hpr Hz Hc. rewrite E4 in Hy. pose proof Hy as Hy'. apply Hrest in Hy as [Hy Hys].
        apply DN in Hz. apply Hco; [apply stk_lt; auto|].
        apply Hproc in Hpr as [Hpr|[Hpy ->]].
        + left. apply o1_co. left. destruct Hz as [Hz|Hz]; [apply (t_co_edge _ _ _ T y z); auto|].
          apply Hcomp in Hz as [Hz Hzs]. pose proof (t_proc_old _ _ _ T s y z Hgs Hy Hys Hpr Hz). lia.
        + right. right. auto.
    Qed.
  End Finish.

  (** ** [core_finish]. *)
  Lemma tarjan_finish c s k o :
    base keep trs n true c ((s, []) :: k) -> tarjan c ((s, []) :: k) o ->
    exists o' cl, core_finish (match fin s with Some _ => true | None => false end) o s (parent_of k) = Ok (o', cl) /\
      tarjan (upd c s Black) (advance k) o' /\
      match cl with
      | None => sstk o' = sstk o
      | Some (comp, b) =>
          (b = true <-> coaccessible fm s) /\
          (forall u, In u comp -> In u (sstk o) /\ u < n) /\
          (forall u, done (upd c s Black) o' u <-> done c o u \/ In u comp) /\
          (forall u v, In u comp -> In v comp -> reach fm u v) /\
          (forall u v, In u comp -> reach fm u v -> In v comp \/ done c o v) /\
          In s comp
      end.
  Proof.
    intros B T. destruct (t_len _ _ _ T) as (Q1 & Q2 & Q3 & Q4).
    assert (Hsn : s < n) by (eapply b_lt; eauto; left; eauto).
    assert (Hgs : grey ((s, []) :: k) s) by (left; auto).
    unfold core_finish.
    set (o1 := if match fin s with Some _ => true | None => false end then set_co o s else o).
    assert (F1 : nst o1 = nst o /\ dfn o1 = dfn o /\ low o1 = low o /\ onst o1 = onst o /\
      sstk o1 = sstk o /\ length (coacc o1) = n).
    { unfold o1. destruct (fin s); simpl; rewrite ?upd_length; auto 10. }
    assert (F2 : forall u, co o1 u = true <-> co o u = true \/ (u = s /\ fin s <> None)).
    { intros u. unfold o1. destruct (fin s) eqn:Ef.
      - destruct (set_co_facts o s) as (A1 & A2 & _); [lia|]. destruct (Nat.eq_dec u s) as [->|Hne].
        + rewrite A1. split; auto. intros _. right. split; auto. congruence.
        + rewrite A2; auto. tauto.
      - split; auto. intros [|[_ H]]; congruence. }
    destruct F1 as (G1 & G2 & G3 & G4 & G5 & G6).
    assert (DF : forall u, df o1 u = df o u) by (intros; unfold df; rewrite G2; auto).
    assert (LW : forall u, lw o1 u = lw o u) by (intros; unfold lw; rewrite G3; auto).
    rewrite DF, LW.
    destruct (Nat.eqb_spec (df o s) (lw o s)) as [Er|Er].
    - destruct (pop_until_some s (sstk o1)) as (a & rest & Ep & Es & _).
      { rewrite G5. eapply t_grey_stk; eauto. }
      rewrite Ep. simpl. rewrite G5 in Es.
      set (comp := a ++ [s]) in *. set (b := existsb (co o1) comp).
      assert (Hb : b = true <-> coaccessible fm s).
      { apply (comp_b c s k o B T o1 F2 a rest Es). auto. }
      set (o2 := Core (nst o1) (dfn o1) (low o1) (set_all_at false comp (onst o1)) rest
                  (if b then set_all_at true comp (coacc o1) else coacc o1)).
      assert (L2 : length (coacc o2) = n) by (simpl; destruct b; rewrite ?set_all_length; auto).
      assert (C2 : forall u, u < n -> (co o2 u = true <-> co o1 u = true \/ (In u comp /\ coaccessible fm s))).
      { intros u Hu. unfold co, o2. simpl. destruct b eqn:Eb.
        - rewrite nth_set_all by lia. destruct (in_dec Nat.eq_dec u comp); [|tauto].
          split; auto. intros _. right. split; auto. apply Hb; auto.
        - split; auto. intros [|[_ H]]; auto. apply Hb in H. congruence. }
      assert (CLOSE : forall o', nst o' = nst o2 -> dfn o' = dfn o2 -> sstk o' = sstk o2 -> onst o' = onst o2 ->
        length (low o') = n -> length (coacc o') = n -> (forall u, lw o' u = lw o u) ->
        (forall u, u < n -> co o' u = true <-> co o2 u = true \/ (parent_of k = Some u /\ coaccessible fm s)) ->
        tarjan (upd c s Black) (advance k) o' /\
          (b = true <-> coaccessible fm s) /\
          (forall u, In u comp -> In u (sstk o) /\ u < n) /\
          (forall u, done (upd c s Black) o' u <-> done c o u \/ In u comp) /\
          (forall u v, In u comp -> In v comp -> reach fm u v) /\
          (forall u v, In u comp -> reach fm u v -> In v comp \/ done c o v) /\
          In s comp).
      { intros o' E1 E2 E4 E5 E6 E7 E8 E9.
        split; [|split; [exact Hb|split; [|split; [|split; [|split]]]]].
        - apply (tarjan_close c s k o B T o1 F2 a rest Es (eq_sym Er) o'); auto.
          + rewrite E1. simpl. auto.
          + rewrite E2. simpl. auto.
          + rewrite E5. simpl. rewrite set_all_length. congruence.
          + intros u Hu. rewrite E5. simpl. rewrite nth_set_all by (rewrite G4; lia). fold comp. rewrite G4.
            destruct (in_dec Nat.eq_dec u comp); split; try tauto. intros; discriminate.
          + intros u Hu. rewrite E9, C2 by auto. fold comp. tauto.
        - intros u Hu. assert (In u (sstk o)).
          { rewrite Es. unfold comp in Hu. apply in_app_or in Hu. apply in_or_app. simpl in *. tauto. }
          split; auto. eapply (stk_lt c s k o B T); eauto.
        - intros u. apply (done_close c s k o B T o1 F2 a rest Es (eq_sym Er)). rewrite E4. auto.
        - apply (comp_mutual c s k o B T o1 F2 a rest Es (eq_sym Er)).
        - apply (comp_reach_out c s k o B T o1 F2 a rest Es (eq_sym Er)).
        - apply in_or_app; simpl; auto. }
      destruct (parent_of k) as [p|] eqn:Ek.
      + assert (Hp : grey k p).
        { unfold parent_of, grey in *. destruct k as [|(q, rq) k']; simpl in *; inversion Ek; auto. }
        assert (Hpn : p < n).
        { apply (stk_lt c s k o B T). eapply t_grey_stk; eauto. right; auto. }
        assert (Hpl : lw o p < lw o s).
        { pose proof (t_low_le _ _ _ T p (or_intror Hp)). assert (S := t_gsorted _ _ _ T). simpl in S.
          inversion S as [|? ? _ F]; subst. rewrite Forall_forall in F. specialize (F p Hp). lia. }
        assert (Hcs : co o2 s = true <-> coaccessible fm s).
        { rewrite C2 by auto. split.
          - intros [H|[_ H]]; auto. eapply (co1_sound c s k o T o1 F2); eauto.
          - intros H. right. split; auto. apply in_or_app; simpl; auto. }
        set (o3 := if co o2 s then set_co o2 p else o2).
        assert (O3 : lw o3 s = lw o s /\ lw o3 p = lw o p).
        { unfold o3. destruct (co o2 s); unfold lw, o2; simpl; rewrite G3; auto. }
        destruct O3 as [O3 O4]. rewrite O3, O4. destruct (Nat.ltb_spec (lw o s) (lw o p)); [lia|].
        eexists. eexists. split; [reflexivity|]. cbv iota.
        assert (O5 : forall u, lw o3 u = lw o u).
        { intros u. unfold o3. destruct (co o2 s); unfold lw, o2; simpl; rewrite G3; auto. }
        apply CLOSE; auto; try (unfold o3; destruct (co o2 s); simpl; rewrite ?G3, ?upd_length; auto; fail).
        * intros u Hu. unfold o3. destruct (co o2 s) eqn:Ec.
          -- destruct (set_co_facts o2 p) as (A1 & A2 & _); [lia|]. destruct (Nat.eq_dec u p) as [->|Hne].
             ++ rewrite A1. split; auto. intros _. right. split; auto. apply Hcs; auto.
             ++ rewrite A2; auto. split; auto. intros [|[H1 _]]; auto. congruence.
          -- split; auto. intros [|[_ H1]]; auto. apply Hcs in H1. congruence.
      + eexists. eexists. split; [reflexivity|]. cbv iota. apply CLOSE; auto.
        * unfold o2. simpl. rewrite G3. auto.
        * intros u Hu. split; auto. intros [|[H1 _]]; auto. congruence.
    - simpl. pose proof (t_low_le _ _ _ T s Hgs).
      destruct (parent_of k) as [p|] eqn:Ek.
      + assert (Hp : grey k p).
        { unfold parent_of, grey in *. destruct k as [|(q, rq) k']; simpl in *; inversion Ek; auto. }
        assert (Hpn : p < n).
        { apply (stk_lt c s k o B T). eapply t_grey_stk; eauto. right; auto. }
        set (o3 := if co o1 s then set_co o1 p else o1).
        assert (O5 : forall u, lw o3 u = lw o u).
        { intros u. unfold o3. destruct (co o1 s); unfold lw; simpl; rewrite G3; auto. }
        rewrite !O5. set (o4 := if lw o s <? lw o p then set_low o3 p (lw o s) else o3).
        exists o4, None. split; [reflexivity|].
        assert (L3 : low o3 = low o) by (unfold o3; destruct (co o1 s); simpl; auto).
        assert (C3 : forall u, co o3 u = true <-> co o1 u = true \/ (u = p /\ co o1 s = true)).
        { intros u. unfold o3. destruct (co o1 s) eqn:Ec.
          - destruct (set_co_facts o1 p) as (A1 & A2 & _); [lia|]. destruct (Nat.eq_dec u p) as [->|Hne].
            + rewrite A1. tauto.
            + rewrite A2; auto. tauto.
          - split; auto. intros [|[_ ?]]; auto. congruence. }
        assert (O4 : nst o4 = nst o /\ dfn o4 = dfn o /\ onst o4 = onst o /\ sstk o4 = sstk o /\
                     length (low o4) = n /\ length (coacc o4) = n /\
                     (forall u, u <> p -> lw o4 u = lw o u) /\ lw o4 p = Nat.min (lw o p) (lw o s) /\
                     (forall u, co o4 u = co o3 u)).
        { assert (X : nst o3 = nst o /\ dfn o3 = dfn o /\ onst o3 = onst o /\ sstk o3 = sstk o /\ length (coacc o3) = n).
          { unfold o3. destruct (co o1 s); simpl; rewrite ?upd_length; auto 10. }
          destruct X as (X1 & X2 & X3 & X4 & X5).
          unfold o4. destruct (Nat.ltb_spec (lw o s) (lw o p)).
          - destruct (set_low_facts o3 p (lw o s)) as (A1 & A2 & A3 & A4); [rewrite L3; lia|].
            split; [exact X1|]. split; [exact X2|]. split; [exact X3|]. split; [exact X4|].
            split; [rewrite A4, L3; auto|]. split; [exact X5|].
            split; [intros u Hu; rewrite A2, O5; auto|]. split; [lia|exact A3].
          - split; [exact X1|]. split; [exact X2|]. split; [exact X3|]. split; [exact X4|].
            split; [rewrite L3; auto|]. split; [exact X5|]. split; [auto|]. split; [rewrite O5; lia|auto]. }
        destruct O4 as (X1 & X2 & X3 & X4 & X5 & X6 & X7 & X8 & X9).
        split; [|exact X4].
        apply (tarjan_merge c s k o B T o1 F2 p o4); auto.
        intros u. rewrite X9. apply C3.
      + exfalso. destruct k as [|(q, rq) k']; [|discriminate].
        destruct (t_low_sound _ _ _ T s Hgs) as (y & B1 & B2 & B3).
        destruct (t_down _ _ _ T y B1) as (g & C1 & C2 & C3).
        destruct C1 as [C1|[]]. simpl in C1. subst g. lia.
  Qed.

  Lemma tarjan_start : tarjan (repeat White n) [] (core_new n).
  Proof.
    assert (C : forall u, co (core_new n) u = false).
    { intros u. unfold co, core_new. simpl. apply nth_repeat. }
    assert (W : forall u, nth_error (repeat White n) u <> Some Black).
    { intros u H. apply nth_error_In in H. apply repeat_spec in H. congruence. }
    constructor; simpl; try (unfold grey; simpl; tauto).
    - rewrite !repeat_length. auto.
    - constructor.
    - constructor.
    - intros s Hs. split; [|tauto]. rewrite nth_repeat. congruence.
    - intros s u [H _] _. exfalso. eapply W; eauto.
    - intros s _ H. rewrite C in H. congruence.
    - intros s [H _]. exfalso. eapply W; eauto.
  Qed.
End T.
