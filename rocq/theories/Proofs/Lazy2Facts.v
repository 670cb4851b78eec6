(** [LazyFst2]: what its [compute] builds, for any operation. *)
From Coq Require Import List Arith NArith Bool Lia.
From Verif Require Import Base.Util Base.Semiring Base.Machine Model.Props Model.VectorFst Model.Dfs Model.Lazy Model.RandGen
  Proofs.VectorFacts Proofs.OpFacts Proofs.TrOpsFacts Proofs.RationalFacts Proofs.LazyFacts Proofs.RandFacts Proofs.ConnectFacts.
Import ListNotations.

Lemma nodup_both {A} (a b : list A) : NoDup a -> NoDup b -> (forall x, In x a -> ~ In x b) -> NoDup (a ++ b).
Proof.
  induction a as [|x a IH]; simpl; auto. intros Ha Hb H. inversion Ha; subst. constructor; [|apply IH; auto].
  rewrite in_app_iff. intros [Hx|Hx]; [contradiction|]. apply (H x); auto.
Qed.

Section L2.
  Context {K : SR} {O C : Type} (op : fst_op2 K O) (X : fst_cache K C) (inv : C -> Prop) (LX : cache_laws X inv).
  (** [J]: what the state of the operation satisfies; [P]: the states it is asked for;
      [okB]: what it answers. *)
  Variables (J : O -> Prop) (P : nat -> Prop) (okB : nat -> list (tr K) -> option K -> Prop).
  Hypothesis both : forall s o l w o', P s -> J o -> compute_both op s o = Ok (l, w, o') ->
    J o' /\ okB s l w /\ forall t, In t l -> P (ns t).

  Lemma existsb_eqb x l : existsb (Nat.eqb x) l = true <-> In x l.
  Proof. rewrite existsb_exists. split; [intros (y & Hy & E); apply Nat.eqb_eq in E; subst; auto|intros H; exists x; rewrite Nat.eqb_refl; auto]. Qed.

  Lemma see_all s l : forall queue seen (g : vfst K), s < num_states g ->
    exists new g', see2_all s l (queue, seen, g) = Ok (queue ++ new, rev new ++ seen, g') /\
      (forall x, In x new <-> In x (map ns l) /\ ~ In x seen) /\ NoDup new /\
      num_states g <= num_states g' /\ (forall t, In t l -> ns t < num_states g') /\
      vstart g' = vstart g /\ visymt g' = visymt g /\ vosymt g' = vosymt g /\ (cnt g -> cnt g') /\
      (forall q, trs_of g' q = if q =? s then trs_of g s ++ l else trs_of g q) /\ (forall q, fin_of g' q = fin_of g q) /\
      num_states g' <= Nat.max (num_states g) (S (list_max (map ns l))).
  Proof.
    induction l as [|t l IH]; intros queue seen g Hs.
    - exists [], g. cbn. rewrite app_nil_r. split; auto. split; [tauto|]. split; [constructor|]. split; auto. split; [tauto|].
      split; auto. split; auto. split; auto. split; auto. split; [|split; [auto|lia]]. intros q. destruct (Nat.eqb_spec q s); subst; auto. rewrite app_nil_r; auto.
    - assert (U : num_states g <= num_states (add_until g (ns t)) /\ ns t < num_states (add_until g (ns t)) /\
        num_states (add_until g (ns t)) = Nat.max (num_states g) (S (ns t)) /\
        vstart (add_until g (ns t)) = vstart g /\ visymt (add_until g (ns t)) = visymt g /\
        vosymt (add_until g (ns t)) = vosymt g /\ (cnt g -> cnt (add_until g (ns t))) /\
        (forall q, trs_of (add_until g (ns t)) q = trs_of g q) /\ (forall q, fin_of (add_until g (ns t)) q = fin_of g q)).
      { destruct (Nat.le_gt_cases (num_states g) (ns t + 1)) as [H|H].
        - destruct (add_until_ok (RC 0 0 false false) g (ns t) H) as (U1 & U). split; [lia|]. split; [lia|]. split; [lia|]. exact U.
        - assert (Eu : add_until g (ns t) = g) by (unfold add_until; replace (ns t + 1 - num_states g) with 0 by lia; reflexivity).
          rewrite Eu. split; auto. split; [lia|]. split; [lia|]. repeat split; auto. }
      destruct U as (U0 & U1 & U1' & U2 & U3 & U4 & U5 & U6 & U7).
      destruct (add_tr_eff (add_until g (ns t)) s t) as (g1 & E & (A1 & A2 & A3 & A4 & A5) & A6 & A7); [lia|].
      cbn [see2_all see2]. rewrite E. cbn [rbind].
      set (isnew := negb (existsb (Nat.eqb (ns t)) seen)).
      destruct (IH (if isnew then queue ++ [ns t] else queue) (if isnew then ns t :: seen else seen) g1) as
        (new & g' & E' & B1 & B2 & B3 & B3' & B4 & B5 & B6 & B7 & B8 & B9 & B10); [lia|].
      exists ((if isnew then [ns t] else []) ++ new), g'. rewrite E'. split.
      { f_equal. f_equal. unfold isnew. destruct (negb _); cbn [app]; rewrite <- ?app_assoc; auto. cbn [rev]. rewrite <- app_assoc. auto. }
      assert (Hn : isnew = true <-> ~ In (ns t) seen).
      { unfold isnew. rewrite negb_true_iff, <- not_true_iff_false, existsb_eqb. tauto. }
      split; [|split; [|split; [lia|split; [|split; [congruence|split; [congruence|split; [congruence|split; [auto|split; [|split]]]]]]]]].
      + intros x. cbn [map]. rewrite in_app_iff, B1. destruct isnew.
        * apply proj1 in Hn. specialize (Hn eq_refl). cbn [In]. split.
          -- intros [[<-|[]]|[H1 H2]]; auto. 
          -- intros [[H1|H1] H2]; auto. destruct (Nat.eq_dec (ns t) x); auto. right. tauto.
        * assert (In (ns t) seen).
          { destruct (in_dec Nat.eq_dec (ns t) seen); auto. exfalso. assert (false = true) by (apply Hn; auto). discriminate. }
          cbn [In]. split; [intros [[]|[H1 H2]]; auto|]. intros [[<-|H1] H2]; tauto.
      + destruct isnew; auto. cbn [app]. constructor; auto. rewrite B1. cbn [In]. tauto.
      + intros u [<-|Hu]; [lia|auto].
      + intros q. rewrite B8, !A6, !U6, Nat.eqb_refl. destruct (Nat.eqb_spec q s); auto. rewrite <- app_assoc. auto.
      + intros q. rewrite B9, A7, U7. auto.
      + change (list_max (map ns (t :: l))) with (Nat.max (ns t) (list_max (map ns l))). lia.
  Qed.

  (** [start]: the start state. Between two turns. *)
  Variable start : nat.
  Record turn (queue seen : list nat) (g : vfst K) (o : O) (c : C) : Prop := {
    tu_J : J o; tu_inv : inv c; tu_cnt : cnt g; tu_start : vstart g = Some start;
    tu_isym : visymt g = None; tu_osym : vosymt g = None;
    tu_nd : NoDup seen; tu_ndq : NoDup queue; tu_q : incl queue seen; tu_first : In start seen;
    tu_seen : forall s, In s seen -> P s /\ s < num_states g /\ reach (mach g) start s;
    tu_todo : forall s, ~ In s seen \/ In s queue -> trs_of g s = [] /\ fin_of g s = None /\ c_get_trs X s c = None;
    tu_done : forall s, In s seen -> ~ In s queue -> okB s (trs_of g s) (fin_of g s) /\ forall t, In t (trs_of g s) -> In (ns t) seen;
    tu_few : exists s, In s seen /\ num_states g = S s
  }.

  Lemma turn_step queue seen g o c s l w o' : turn (s :: queue) seen g o c -> compute_both op s o = Ok (l, w, o') ->
    exists g1 new c' , (r <-- l2_get_trs op X s (o, c) ;;
                   st <-- see2_all s (fst r) (queue, seen, g) ;;
                   w <-- l2_final_weight op X s (snd r) ;;
                   g <-- match fst w with Some x => set_final (snd st) s x | None => Ok (snd st) end ;;
                   Ok (fst st, g, snd w)) = Ok (queue ++ new, rev new ++ seen, g1, (o', c')) /\
      turn (queue ++ new) (rev new ++ seen) g1 o' c'.
  Proof.
    intros T E. destruct (tu_seen _ _ _ _ _ T s) as (Ps & Hs & Rs); [apply (tu_q _ _ _ _ _ T); left; auto|].
    destruct (both s o l w o' Ps (tu_J _ _ _ _ _ T) E) as (J' & Ok' & Pn).
    destruct (tu_todo _ _ _ _ _ T s) as (T1 & T2 & T3); [right; left; auto|].
    pose proof (tu_inv _ _ _ _ _ T) as Ic.
    unfold l2_get_trs. cbn [snd fst]. rewrite T3, E. cbn [rbind fst snd].
    set (c' := c_insert_final X s w (c_insert_trs X s l c)).
    assert (Ic1 : inv (c_insert_trs X s l c)) by (apply (inv_trs _ _ LX); auto).
    assert (Ic' : inv c') by (apply (inv_fin _ _ LX); auto).
    assert (Cf : c_get_final X s c' = Some w) by (unfold c'; rewrite (fin_fin _ _ LX), Nat.eqb_refl; auto).
    destruct (see_all s l queue seen g Hs) as (new & g' & E' & B1 & B2 & B3 & B3' & B4 & B5 & B6 & B7 & B8 & B9 & B10).
    rewrite E'. cbn [rbind fst snd]. unfold l2_final_weight. cbn [snd fst]. rewrite Cf. cbn [rbind fst snd].
    assert (Fin : exists g1, match w with Some x => set_final g' s x | None => Ok g' end = Ok g1 /\
          num_states g1 = num_states g' /\ vstart g1 = vstart g /\ visymt g1 = visymt g /\ vosymt g1 = vosymt g /\ cnt g1 /\
          (forall q, trs_of g1 q = if q =? s then l else trs_of g q) /\
          (forall q, fin_of g1 q = if q =? s then w else fin_of g q)).
    { pose proof (tu_cnt _ _ _ _ _ T) as Cn. destruct w as [x|].
      - destruct (set_final_eff g' s x) as (g1 & Eg & (A1 & A2 & A3 & A4 & A5) & A6 & A7); [lia|]. exists g1.
        split; auto. split; [lia|]. split; [congruence|]. split; [congruence|]. split; [congruence|]. split; [auto|]. split.
        + intros q. rewrite A6, B8, T1. reflexivity.
        + intros q. rewrite A7, B9. reflexivity.
      - exists g'. split; auto. split; auto. split; auto. split; auto. split; auto. split; auto. split.
        + intros q. rewrite B8, T1. reflexivity.
        + intros q. rewrite B9. destruct (Nat.eqb_spec q s); subst; auto. }
    destruct Fin as (g1 & -> & N1 & N2 & N3 & N4 & N5 & N6 & N7). cbn [rbind]. exists g1, new, c'. split; auto.
    assert (Nq : ~ In s queue) by (pose proof (tu_ndq _ _ _ _ _ T) as H; inversion H; auto).
    assert (Ss : In s seen) by (apply (tu_q _ _ _ _ _ T); left; auto).
    assert (Sub : forall q t, In t (mtrs (mach g) q) -> In t (mtrs (mach g1) q)).
    { intros q t. cbn. rewrite N6. destruct (Nat.eqb_spec q s) as [->|]; auto. rewrite T1. intros []. }
    assert (Re : forall q, In q seen -> reach (mach g1) start q).
    { intros q Hq. eapply reach_mono; [|apply (tu_seen _ _ _ _ _ T q Hq)]. intros p t. apply Sub. }
    assert (Se : forall q, In q (rev new ++ seen) <-> In q new \/ In q seen).
    { intros q. rewrite in_app_iff, <- in_rev. tauto. }
    constructor; auto.
    - rewrite N2. apply (tu_start _ _ _ _ _ T).
    - rewrite N3. apply (tu_isym _ _ _ _ _ T).
    - rewrite N4. apply (tu_osym _ _ _ _ _ T).
    - apply nodup_both; [apply NoDup_rev; auto|apply (tu_nd _ _ _ _ _ T)|]. intros q Hq Hq'. apply in_rev in Hq. apply B1 in Hq. tauto.
    - apply nodup_both; auto; [pose proof (tu_ndq _ _ _ _ _ T) as H; inversion H; auto|].
      intros q Hq Hq'. apply B1 in Hq' as [_ Hq']. apply Hq'. apply (tu_q _ _ _ _ _ T). right. auto.
    - intros q Hq. apply Se. apply in_app_iff in Hq as [Hq|Hq]; auto. right. apply (tu_q _ _ _ _ _ T). right. auto.
    - apply Se. right. apply (tu_first _ _ _ _ _ T).
    - intros q Hq. apply Se in Hq as [Hq|Hq].
      + apply B1 in Hq as [Hq _]. apply in_map_iff in Hq as (t & <- & Ht). split; [auto|]. split; [rewrite N1; auto|].
        eapply reach_trans; [apply (Re s Ss)|]. apply reach_step with t; [|constructor]. cbn. rewrite N6, Nat.eqb_refl. auto.
      + destruct (tu_seen _ _ _ _ _ T q Hq) as (H1 & H2 & _). split; auto. split; [rewrite N1; lia|auto].
    - intros q Hq. assert (Hne : q <> s).
      { intros ->. destruct Hq as [Hq|Hq]; [apply Hq, Se; auto|]. apply in_app_iff in Hq as [Hq|Hq]; [contradiction|]. apply B1 in Hq. tauto. }
      assert (Hq' : ~ In q seen \/ In q (s :: queue)).
      { destruct Hq as [Hq|Hq]; [left; intros H; apply Hq, Se; auto|]. apply in_app_iff in Hq as [Hq|Hq]; [right; right; auto|].
        left. apply B1 in Hq. tauto. }
      destruct (tu_todo _ _ _ _ _ T q Hq') as (H1 & H2 & H3). rewrite N6, N7. destruct (Nat.eqb_spec q s); [contradiction|]. split; auto. split; auto.
      unfold c'. rewrite (trs_fin _ _ LX), (trs_trs _ _ LX) by auto. destruct (Nat.eqb_spec s q); [congruence|auto].
    - intros q Hq Hq2. rewrite N6, N7. destruct (Nat.eqb_spec q s) as [->|Hne].
      + split; auto. intros t Ht. apply Se. destruct (in_dec Nat.eq_dec (ns t) seen) as [|H]; auto. left. apply B1. split; auto. apply in_map. auto.
      + assert (Hq3 : ~ In q queue) by (intros H; apply Hq2, in_app_iff; auto). apply Se in Hq as [Hq|Hq].
        * exfalso. apply Hq2, in_app_iff. auto.
        * destruct (tu_done _ _ _ _ _ T q Hq) as [H1 H2]; [intros [<-|H]; contradiction|]. split; auto. intros t Ht. apply Se. auto.
    - destruct (tu_few _ _ _ _ _ T) as (m & Hm & Em). rewrite N1. destruct (Nat.le_gt_cases (num_states g') (num_states g)) as [Hle|Hgt].
      + exists m. split; [apply Se; auto|lia].
      + assert (Hl : l <> []) by (intros ->; cbn in B10; lia).
        assert (Mx : exists t, In t l /\ ns t = list_max (map ns l)).
        { clear - Hl. induction l as [|t l IH]; [congruence|]. destruct l as [|u l]; [exists t; split; [left; auto|cbn; lia]|].
          destruct IH as (v & Hv & Ev); [discriminate|]. change (list_max (map ns (t :: u :: l))) with (Nat.max (ns t) (list_max (map ns (u :: l)))).
          destruct (Nat.le_gt_cases (ns t) (list_max (map ns (u :: l)))); [exists v; split; [right; auto|lia]|exists t; split; [left; auto|lia]]. }
        destruct Mx as (t & Ht & Et). pose proof (B3' t Ht). exists (ns t). split; [|lia]. apply Se.
        destruct (in_dec Nat.eq_dec (ns t) seen) as [|H']; auto. left. apply B1. split; auto. apply in_map. auto.
  Qed.

  (** What is built: exactly the states that can be reached, each as the operation answered. *)
  Record built2 (g : vfst K) : Prop := {
    b2_cnt : cnt g; b2_start : vstart g = Some start; b2_closed : closed g;
    b2_reach : forall s, reach (mach g) start s -> P s /\ okB s (trs_of g s) (fin_of g s);
    b2_rest : forall s, ~ reach (mach g) start s -> trs_of g s = [] /\ fin_of g s = None;
    b2_dec : forall s, reach (mach g) start s \/ ~ reach (mach g) start s;
    b2_last : exists s, reach (mach g) start s /\ num_states g = S s
  }.

  Lemma turn_built seen g o c : turn [] seen g o c -> built2 g.
  Proof.
    intros T. assert (R : forall s, reach (mach g) start s <-> In s seen).
    { intros s. split; [|intros H; apply (tu_seen _ _ _ _ _ T s H)]. intros H.
      assert (G : forall a, reach (mach g) a s -> In a seen -> In s seen); [|apply (G start H), (tu_first _ _ _ _ _ T)].
      clear H. induction 1 as [|q t u Ht H IH]; auto. intros Hq. apply IH. cbn in Ht. eapply (tu_done _ _ _ _ _ T q Hq); auto. }
    constructor.
    - apply (tu_cnt _ _ _ _ _ T).
    - apply (tu_start _ _ _ _ _ T).
    - split.
      + intros s t Ht. destruct (in_dec Nat.eq_dec s seen) as [H|H].
        * apply (tu_seen _ _ _ _ _ T). eapply (tu_done _ _ _ _ _ T s H); auto.
        * destruct (tu_todo _ _ _ _ _ T s (or_introl H)) as (E & _). rewrite E in Ht. destruct Ht.
      + intros s Es. rewrite (tu_start _ _ _ _ _ T) in Es. injection Es as <-. apply (tu_seen _ _ _ _ _ T), (tu_first _ _ _ _ _ T).
    - intros s Hs. apply R in Hs. split; [apply (tu_seen _ _ _ _ _ T s Hs)|]. apply (tu_done _ _ _ _ _ T s Hs). auto.
    - intros s Hs. destruct (tu_todo _ _ _ _ _ T s) as (H1 & H2 & _); auto. left. intros H. apply Hs, R, H.
    - intros s. destruct (in_dec Nat.eq_dec s seen) as [H|H]; [left|right]; rewrite R; auto.
    - destruct (tu_few _ _ _ _ _ T) as (s & Hs & E). exists s. split; auto. apply R. auto.
  Qed.

  Lemma bfs_built fuel : forall queue seen g o c g' z', turn queue seen g o c ->
    bfs2 op X fuel queue seen g (o, c) = Some (Ok (g', z')) -> built2 g' /\ visymt g' = None /\ vosymt g' = None.
  Proof.
    induction fuel as [|fuel IH]; intros [|s queue] seen g o c g' z' T E; cbn [bfs2] in E; try discriminate.
    - injection E as <- _. split; [eapply turn_built; eauto|split; [apply (tu_isym _ _ _ _ _ T)|apply (tu_osym _ _ _ _ _ T)]].
    - injection E as <- _. split; [eapply turn_built; eauto|split; [apply (tu_isym _ _ _ _ _ T)|apply (tu_osym _ _ _ _ _ T)]].
    - destruct (tu_todo _ _ _ _ _ T s) as (_ & _ & T3); [right; left; auto|].
      destruct (compute_both op s o) as [[[l w] o']| |] eqn:Eb.
      + destruct (turn_step _ _ _ _ _ _ _ _ _ T Eb) as (g1 & new & c' & E1 & T1). rewrite E1 in E. eapply IH; eauto.
      + unfold l2_get_trs in E. cbn [snd fst] in E. rewrite T3, Eb in E. discriminate.
      + unfold l2_get_trs in E. cbn [snd fst] in E. rewrite T3, Eb in E. discriminate.
  Qed.
End L2.

Section Whole.
  Context {K : SR} {O C : Type} (X : fst_cache K C) (inv : C -> Prop) (LX : cache_laws X inv) (c0 : C) (E0 : cache_empty X inv c0).
  (** The operation may have fuel of its own. *)
  Variable op : nat -> fst_op2 K O.
  Variables (J : O -> Prop) (P : nat -> Prop) (okB : nat -> list (tr K) -> option K -> Prop).
  Variable o0 : O.
  Hypothesis J0 : J o0.
  Variable start : nat.
  Hypothesis P0 : P start.
  Hypothesis St : forall k, compute_start2 (op k) o0 = Ok (Some start, o0).
  Hypothesis both : forall k s o l w o', P s -> J o -> compute_both (op k) s o = Ok (l, w, o') ->
    J o' /\ okB s l w /\ forall t, In t l -> P (ns t).

  Lemma first_turn : exists g, set_start (Nat.iter (start + 1) (fun g => fst (add_state g)) (@vnew K)) start = Ok g /\
    turn X inv J P okB start [start] [start] g o0 (c_insert_start X (Some start) c0).
  Proof.
    destruct E0 as (I0 & _ & Ct & Cf).
    assert (Ea : Nat.iter (start + 1) (fun g => fst (add_state g)) (@vnew K) = add_until (@vnew K) start).
    { unfold add_until. change (num_states (@vnew K)) with 0. rewrite Nat.sub_0_r. auto. }
    rewrite Ea. destruct (add_until_ok (RC 0 0 false false) (@vnew K) start) as (U1 & U2 & U3 & U4 & U5 & U6 & U7); [cbn; lia|].
    destruct (set_start_eff (add_until (@vnew K) start) start) as (g & E & S1 & S2 & S3 & S4 & S5 & S6 & S7); [lia|].
    exists g. split; auto. constructor; auto.
    - apply (inv_start _ _ LX). auto.
    - apply S5, U5. constructor.
    - rewrite S3, U3. auto.
    - rewrite S4, U4. auto.
    - repeat constructor. intros [].
    - repeat constructor. intros [].
    - apply incl_refl.
    - left; auto.
    - intros s [<-|[]]. split; auto. split; [lia|constructor].
    - intros s _. rewrite S6, S7, U6, U7, (trs_start _ _ LX), Ct by auto. destruct s; auto.
    - intros s [<-|[]] H. exfalso. apply H. left. auto.
    - exists start. split; [left; auto|lia].
  Qed.

  Theorem compute2_built k fuel isym osym g z : compute2 (op k) X fuel isym osym (o0, c0) = Some (Ok (g, z)) ->
    built2 P okB start g /\ visymt g = isym /\ vosymt g = osym /\ vprops g = op2_properties (op k).
  Proof.
    unfold compute2, l2_start. cbn [fst snd]. destruct E0 as (I0 & Cs & _). rewrite Cs, St.
    destruct first_turn as (g0 & -> & T). intros E.
    destruct (bfs2 (op k) X fuel [start] [start] g0 _) as [[[g1 z1]| |]|] eqn:Eb; try discriminate.
    injection E as <- _. destruct (bfs_built (op k) X inv LX J P okB (both k) start fuel _ _ _ _ _ _ _ T Eb) as (B & -> & ->).
    split; [|cbn; destruct isym, osym; auto]. destruct B. constructor; auto.
  Qed.

  Hypothesis stop : forall s o, P s -> J o -> exists N r, forall k, N <= k -> compute_both (op k) s o = Ok r.
  Variable B : nat.
  Hypothesis Below : forall s, P s -> s < B.

  Lemma bfs_total m : forall queue seen g o c, turn X inv J P okB start queue seen g o c -> length queue + B <= m + length seen ->
    exists N r, forall k, N <= k -> bfs2 (op k) X m queue seen g (o, c) = Some (Ok r).
  Proof.
    induction m as [|m IH]; intros [|s queue] seen g o c T Hm; cbn [bfs2]; try (exists 0; eauto; fail).
    - exfalso. cbn [length] in Hm. assert (H : length seen <= B); [|lia]. rewrite <- (seq_length B 0).
      apply NoDup_incl_length; [apply (tu_nd _ _ _ _ _ _ _ _ _ _ _ T)|]. intros q Hq. apply in_seq. apply (tu_seen _ _ _ _ _ _ _ _ _ _ _ T) in Hq as (Hq & _). apply Below in Hq. lia.
    - destruct (tu_seen _ _ _ _ _ _ _ _ _ _ _ T s) as (Ps & _); [apply (tu_q _ _ _ _ _ _ _ _ _ _ _ T); left; auto|].
      destruct (stop s o Ps (tu_J _ _ _ _ _ _ _ _ _ _ _ T)) as (N1 & [[l w] o'] & H1).
      destruct (turn_step (op N1) X inv LX J P okB (both N1) start _ _ _ _ _ _ _ _ _ T (H1 N1 (Nat.le_refl _))) as (g1 & new & c' & E1 & T1).
      destruct (IH _ _ _ _ _ T1) as (N2 & r & H2).
      { rewrite !app_length, rev_length. cbn [length] in Hm. lia. }
      exists (Nat.max N1 N2), r. intros k Hk.
      destruct (turn_step (op k) X inv LX J P okB (both k) start _ _ _ _ _ _ _ _ _ T (H1 k ltac:(lia))) as (g2 & new2 & c2 & E2 & T2).
      assert (Same : (r <-- l2_get_trs (op k) X s (o, c) ;;
                   st <-- see2_all s (fst r) (queue, seen, g) ;;
                   w <-- l2_final_weight (op k) X s (snd r) ;;
                   g <-- match fst w with Some x => set_final (snd st) s x | None => Ok (snd st) end ;;
                   Ok (fst st, g, snd w)) = (r <-- l2_get_trs (op N1) X s (o, c) ;;
                   st <-- see2_all s (fst r) (queue, seen, g) ;;
                   w <-- l2_final_weight (op N1) X s (snd r) ;;
                   g <-- match fst w with Some x => set_final (snd st) s x | None => Ok (snd st) end ;;
                   Ok (fst st, g, snd w))).
      { destruct (tu_todo _ _ _ _ _ _ _ _ _ _ _ T s) as (_ & _ & T3); [right; left; auto|]. pose proof (tu_inv _ _ _ _ _ _ _ _ _ _ _ T) as Ic.
        unfold l2_get_trs, l2_final_weight. cbn [fst snd]. rewrite T3, !H1 by lia. cbn [rbind fst snd].
        destruct (see2_all s l _) as [st| |]; auto. cbn [rbind].
        rewrite (fin_fin _ _ LX), Nat.eqb_refl by (apply (inv_trs _ _ LX); auto). reflexivity. }
      rewrite Same, E1. apply H2. lia.
  Qed.

  Theorem compute2_total isym osym fuel : B <= fuel -> exists N, forall k, N <= k -> exists g z, compute2 (op k) X fuel isym osym (o0, c0) = Some (Ok (g, z)).
  Proof.
    intros Hf. destruct first_turn as (g0 & Eg & T). destruct (bfs_total fuel _ _ _ _ _ T) as (N & [g z] & H); [cbn; lia|].
    exists N. intros k Hk. unfold compute2, l2_start. cbn [fst snd]. destruct E0 as (I0 & Cs & _). rewrite Cs, St, Eg, (H k Hk). eauto.
  Qed.
End Whole.
