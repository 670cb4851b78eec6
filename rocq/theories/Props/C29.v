(** C29: the partition refinement structure stays a partition under every history of calls. *)
From Coq Require Import List Arith Lia Bool.
From Verif Require Import Base.Util Model.Partition Proofs.PartitionFacts.
Import ListNotations.

(** The intended value: which class each element was put in, which elements were marked since
    the last [finalize_split], and how many classes exist. *)
Record apart := Ap { acls : nat -> option nat; amark : nat -> bool; anum : nat }.
Definition put {A} (f : nat -> A) (e : nat) (v : A) : nat -> A := fun x => if Nat.eqb x e then v else f x.

(** Every partition of [N] elements that a client can get, with its intended value. The
    guards are: elements and classes exist, an element is added once, and only unmarked
    elements are moved. *)
Inductive reach (N : nat) : partition -> apart -> Prop :=
| r_start : reach N (partition_new N) (Ap (fun _ => None) (fun _ => false) 0)
| r_allocate p a k : reach N p a -> reach N (p_allocate p k) (Ap (acls a) (amark a) (anum a + k))
| r_add_class p a : reach N p a -> reach N (snd (p_add_class p)) (Ap (acls a) (amark a) (S (anum a)))
| r_add p a e c p' : reach N p a -> e < N -> c < anum a -> acls a e = None ->
    p_add p e c = Ok p' -> reach N p' (Ap (put (acls a) e (Some c)) (amark a) (anum a))
| r_move p a e c p' : reach N p a -> acls a e <> None -> amark a e = false -> c < anum a ->
    p_move p e c = Ok p' -> reach N p' (Ap (put (acls a) e (Some c)) (amark a) (anum a))
| r_split_on p a e p' : reach N p a -> acls a e <> None ->
    p_split_on p e = Ok p' -> reach N p' (Ap (acls a) (put (amark a) e true) (anum a))
| r_finalize p a p' q cls : reach N p a -> p_finalize p = Ok (p', q) ->
    (forall e, acls a e = None -> cls e = None) ->
    (forall e c, acls a e = Some c -> exists c', p_class_id p' e = Ok c' /\ cls e = Some c') ->
    reach N p' (Ap cls (fun _ => false) (p_num_classes p')).

(** What a client sees is the intended value. *)
Definition shows (N : nat) (p : partition) (a : apart) : Prop :=
  p_num_classes p = anum a /\
  (forall e c, acls a e = Some c -> e < N /\ c < anum a /\ p_class_id p e = Ok c) /\
  (forall c, c < anum a ->
     p_class_size p c =
       Ok (length (filter (fun e => match acls a e with Some d => Nat.eqb d c | None => false end) (seq 0 N))) /\
     exists l, p_iter p c = Ok l /\ NoDup l /\ forall e, In e l <-> acls a e = Some c /\ amark a e = false).

Definition sim (N : nat) (p : partition) (a : apart) : Prop :=
  length (pels p) = N /\ length (pcls p) = anum a /\
  exists no yes, rep p no yes /\ (forall e c, acls a e = Some c <-> In e (no c) \/ In e (yes c)) /\
    (forall e, amark a e = true <-> exists c, In e (yes c)).

Lemma put_eq {A} (f : nat -> A) e v : put f e v e = v.
Proof. unfold put. rewrite Nat.eqb_refl. auto. Qed.
Lemma put_ne {A} (f : nat -> A) e v x : x <> e -> put f e v x = f x.
Proof. unfold put. intros H. apply Nat.eqb_neq in H. rewrite H. auto. Qed.

Lemma sim_add N p a e c : sim N p a -> e < N -> c < anum a -> acls a e = None ->
  exists p', p_add p e c = Ok p' /\ sim N p' (Ap (put (acls a) e (Some c)) (amark a) (anum a)).
Proof.
  intros (HN & Hn & no & yes & R & Hc & Hm) He Lc Ea.
  assert (Fr : forall d, ~ In e (no d) /\ ~ In e (yes d)).
  { intros d. split; intros H; [assert (X : In e (no d) \/ In e (yes d)) by auto|assert (X : In e (no d) \/ In e (yes d)) by auto];
      apply Hc in X; congruence. }
  destruct (rep_add p no yes e c R ltac:(lia) ltac:(lia) Fr) as (p' & E & R' & H1 & H2 & _).
  exists p'. split; auto. split; [lia|]. split; [cbn [anum]; lia|]. exists (ups no c (e :: no c)), yes.
  split; auto. cbn [acls amark]. split; auto.
  intros x d. destruct (Nat.eq_dec x e) as [->|Nx].
  - rewrite put_eq. destruct (Fr d). split.
    + intros [= <-]. left. rewrite ups_eq. left; auto.
    + intros [X|X]; [|contradiction]. destruct (Nat.eq_dec d c) as [->|]; auto. rewrite ups_ne in X by auto. contradiction.
  - rewrite put_ne, Hc by auto. destruct (Nat.eq_dec d c) as [->|]; [rewrite ups_eq|rewrite ups_ne by auto; tauto].
    simpl. split; [tauto|]. intros [[X|X]|X]; auto. congruence.
Qed.

Lemma sim_place p no yes a e : rep p no yes ->
  (forall e c, acls a e = Some c <-> In e (no c) \/ In e (yes c)) ->
  (forall e, amark a e = true <-> exists c, In e (yes c)) ->
  acls a e <> None -> amark a e = false -> exists c x y, acls a e = Some c /\ no c = x ++ e :: y /\
    ~ In e (x ++ y) /\ (forall d, ~ In e (yes d)) /\ (forall d, In e (no d) -> d = c).
Proof.
  intros R Hc Hm Ha Hf. destruct (acls a e) as [c|] eqn:E; [|congruence]. clear Ha.
  assert (Ny : forall d, ~ In e (yes d)).
  { intros d H. assert (amark a e = true) by (apply Hm; eauto). congruence. }
  assert (H : In e (no c)) by (apply Hc in E; destruct E as [H|H]; auto; apply Ny in H; tauto).
  destruct (in_split _ _ H) as (x & y & Es). exists c, x, y. split; auto. split; auto. split.
  - pose proof (r_ndn _ _ _ R c) as ND. rewrite Es in ND. apply NoDup_remove_2 in ND. auto.
  - split; auto. intros d Hd. destruct (r_no _ _ _ R d e Hd), (r_no _ _ _ R c e H). congruence.
Qed.

Lemma sim_move N p a e c : sim N p a -> acls a e <> None -> amark a e = false -> c < anum a ->
  exists p', p_move p e c = Ok p' /\ sim N p' (Ap (put (acls a) e (Some c)) (amark a) (anum a)).
Proof.
  intros (HN & Hn & no & yes & R & Hc & Hm) Ha Hf Lc.
  destruct (sim_place p no yes a e R Hc Hm Ha Hf) as (d & x & y & Ed & En & Nxy & Ny & Ud).
  destruct (rep_move p no yes e d c x y R En ltac:(lia)) as (p' & E & R' & H1 & H2 & _).
  exists p'. split; auto. split; [lia|]. split; [cbn [anum]; lia|]. eexists. exists yes. split; [exact R'|].
  cbn [acls amark]. split; auto. intros z f. destruct (Nat.eq_dec z e) as [->|Nz].
  - rewrite put_eq. split.
    + intros [= <-]. left. rewrite ups_eq. left; auto.
    + intros [X|X]; [|apply Ny in X; tauto]. destruct (Nat.eq_dec f c) as [->|]; auto. rewrite ups_ne in X by auto.
      destruct (Nat.eq_dec f d) as [->|]; [rewrite ups_eq in X; contradiction|rewrite ups_ne in X by auto].
      apply Ud in X. congruence.
  - rewrite put_ne, Hc by auto.
    assert (Q : forall g, In z (ups no d (x ++ y) g) <-> In z (no g)).
    { intros g. destruct (Nat.eq_dec g d) as [->|]; [rewrite ups_eq, En|rewrite ups_ne by auto; tauto].
      rewrite !in_app_iff. simpl. split; [tauto|]. intros [X|[X|X]]; auto. congruence. }
    destruct (Nat.eq_dec f c) as [->|]; [rewrite ups_eq|rewrite (ups_ne _ c) by auto; rewrite Q; tauto].
    simpl. rewrite Q. split; [tauto|]. intros [[X|X]|X]; auto. congruence.
Qed.

Lemma sim_split N p a e : sim N p a -> acls a e <> None ->
  exists p', p_split_on p e = Ok p' /\ sim N p' (Ap (acls a) (put (amark a) e true) (anum a)).
Proof.
  intros (HN & Hn & no & yes & R & Hc & Hm) Ha.
  destruct (amark a e) eqn:Hf.
  - exists p. destruct (proj1 (Hm e) Hf) as (c & Hy). split.
    + destruct (rep_lt p no yes c e R (or_intror Hy)) as [L1 L2]. destruct (r_yes _ _ _ R c e Hy) as [Ec Ey].
      unfold p_split_on. destruct (nth_error_ex _ _ L1) as (x & Ex). rewrite Ex.
      destruct (nx_at _ _ _ Ex) as (_ & _ & -> & ->). rewrite Ec, Ey.
      destruct (nth_error_ex _ _ L2) as (k & ->). rewrite Nat.eqb_refl. auto.
    + split; auto. split; auto. exists no, yes. split; auto. cbn [acls amark]. split; auto. intros x.
      destruct (Nat.eq_dec x e) as [->|]; [rewrite put_eq|rewrite put_ne by auto; auto]. split; auto. intros _. eauto.
  - destruct (sim_place p no yes a e R Hc Hm Ha Hf) as (d & x & y & Ed & En & Nxy & Ny & Ud).
    destruct (rep_split p no yes e d x y R En) as (p' & E & R' & H1 & H2 & _).
    exists p'. split; auto. split; [lia|]. split; [cbn [anum]; lia|]. do 2 eexists. split; [exact R'|].
    cbn [acls amark]. split.
    + intros z f. rewrite Hc. destruct (Nat.eq_dec f d) as [->|]; [rewrite !ups_eq, En|rewrite !ups_ne by auto; tauto].
      rewrite !in_app_iff. simpl. tauto.
    + intros z. destruct (Nat.eq_dec z e) as [->|Nz].
      * rewrite put_eq. split; auto. intros _. exists d. rewrite ups_eq. left; auto.
      * rewrite put_ne, Hm by auto. split; intros (f & Hz); exists f.
        -- destruct (Nat.eq_dec f d) as [->|]; [rewrite ups_eq; right|rewrite ups_ne by auto]; auto.
        -- destruct (Nat.eq_dec f d) as [->|]; [rewrite ups_eq in Hz|rewrite ups_ne in Hz by auto]; auto.
           destruct Hz; [congruence|auto].
Qed.

Lemma cl_id p e : e < length (pels p) -> p_class_id p e = Ok (cl (pels p) e).
Proof.
  intros H. unfold p_class_id. destruct (nth_error_ex _ _ H) as (x & Ex). rewrite Ex.
  destruct (nx_at _ _ _ Ex) as (_ & _ & -> & _). auto.
Qed.

Lemma reach_sim N p a : reach N p a -> sim N p a.
Proof.
  induction 1 as [|p a k R IH|p a R IH|p a e c p' R IH He Hc Ha E|p a e c p' R IH Ha Hm Hc E|p a e p' R IH Ha E
    |p a p' q cls R IH E Hn Hs].
  - split; [apply repeat_length|]. split; auto. exists (fun _ => []), (fun _ => []). split; [apply rep_new|].
    simpl. split; [intros; split; [discriminate|tauto]|]. intros; split; [discriminate|intros (_ & [])].
  - destruct IH as (H1 & H2 & no & yes & Rp & H3). split; auto. split; [simpl; rewrite app_length, repeat_length; lia|].
    exists no, yes. split; [apply rep_alloc; auto|exact H3].
  - destruct IH as (H1 & H2 & no & yes & Rp & H3). split; auto. split; [simpl; rewrite app_length; simpl; lia|].
    exists no, yes. split; [apply rep_alloc; auto|exact H3].
  - destruct (sim_add N p a e c IH He Hc Ha) as (p'' & E' & S). congruence.
  - destruct (sim_move N p a e c IH Ha Hm Hc) as (p'' & E' & S). congruence.
  - destruct (sim_split N p a e IH Ha) as (p'' & E' & S). congruence.
  - destruct IH as (H1 & H2 & no & yes & Rp & H3 & H4).
    destruct (finalize_ok p no yes Rp) as (p'' & q' & no' & E' & R' & L & F1 & F2 & F3 & F4 & F5 & F6).
    rewrite E in E'. injection E' as <- <-. split; [lia|]. split; auto. exists no', (fun _ => []). split; auto.
    cbn [acls amark]. split; [|intros e; split; [discriminate|intros (_ & [])]].
    intros e c. split.
    + intros Ec. destruct (acls a e) as [d|] eqn:Ea; [|rewrite Hn in Ec by auto; discriminate].
      destruct (Hs e d Ea) as (c' & Ei & Ec'). rewrite Ec in Ec'. injection Ec' as ->. apply H3 in Ea.
      assert (As : asg no yes e) by (exists d; auto). apply F1 in As. destruct As as (f & Hf). left.
      destruct (r_no _ _ _ R' f e Hf) as [Ef _]. destruct (rep_lt _ _ _ f e R' (or_introl Hf)) as [L1 _].
      rewrite cl_id in Ei by auto. congruence.
    + intros [Hc|[]]. destruct (proj1 (F1 e) (ex_intro _ c Hc)) as (d & Hd). apply H3 in Hd.
      destruct (Hs e d Hd) as (c' & Ei & ->). destruct (r_no _ _ _ R' c e Hc) as [Ef _].
      destruct (rep_lt _ _ _ c e R' (or_introl Hc)) as [L1 _]. rewrite cl_id in Ei by auto. congruence.
Qed.

(** After every history of calls: class ids are those intended, the classes are therefore
    disjoint, sizes are exact, and iterating over a class returns its unmarked elements, each
    exactly once. *)
Theorem C29_partition N p a : reach N p a -> shows N p a.
Proof.
  intros R. apply reach_sim in R. destruct R as (H1 & H2 & no & yes & Rp & H3 & H4).
  split; auto. split.
  - intros e c E. apply H3 in E as E'. destruct (rep_lt p no yes c e Rp E') as [L1 L2]. split; [lia|]. split; [lia|].
    rewrite cl_id by auto. f_equal. destruct E' as [E'|E']; [apply (r_no _ _ _ Rp)|apply (r_yes _ _ _ Rp)]; auto.
  - intros c Lc. rewrite <- H2 in Lc. split.
    + unfold p_class_size. destruct (nth_error_ex _ _ Lc) as (k & Ek). rewrite Ek.
      destruct (r_cls _ _ _ Rp c k Ek) as (_ & _ & -> & _). f_equal. rewrite <- app_length.
      assert (ND : NoDup (no c ++ yes c)).
      { assert (Dj : forall x, In x (no c) -> ~ In x (yes c)).
        { intros x X1 X2. destruct (r_no _ _ _ Rp c x X1), (r_yes _ _ _ Rp c x X2). lia. }
        pose proof (r_ndn _ _ _ Rp c) as D1. pose proof (r_ndy _ _ _ Rp c) as D2.
        revert Dj D1 D2. generalize (no c), (yes c). intros l1 l2. induction l1 as [|x l1 IH]; simpl; auto.
        intros Dj D1 D2. inversion D1 as [|? ? X1 X2]; subst. constructor; [|apply IH; auto].
        rewrite in_app_iff. intros [X|X]; auto. apply (Dj x); auto. }
      apply Nat.le_antisymm; apply NoDup_incl_length; auto.
      * intros x Hx. apply in_app_iff in Hx. apply filter_In. rewrite (proj2 (H3 x c) Hx), Nat.eqb_refl. split; auto.
        apply in_seq. destruct (rep_lt p no yes c x Rp Hx). lia.
      * apply NoDup_filter. apply seq_NoDup.
      * intros x Hx. apply filter_In in Hx. destruct Hx as [_ Hx]. apply in_app_iff. apply H3.
        destruct (acls a x) as [d|]; [|discriminate]. apply Nat.eqb_eq in Hx. congruence.
    + exists (no c). split; [apply (rep_iter p no yes c Rp Lc)|]. split; [apply (r_ndn _ _ _ Rp)|].
      intros e. rewrite H3. split.
      * intros He. split; auto. destruct (amark a e) eqn:Em; auto. apply H4 in Em. destruct Em as (d & Hd).
        destruct (r_no _ _ _ Rp c e He), (r_yes _ _ _ Rp d e Hd). lia.
      * intros [[He|He] Em]; auto. assert (amark a e = true) by (apply H4; eauto). congruence.
Qed.

(** Calls that respect the guards never panic, and [add_class] returns the next class id. *)
Theorem C29_progress N p a : reach N p a ->
  fst (p_add_class p) = anum a /\
  (forall e c, e < N -> c < anum a -> acls a e = None -> exists p', p_add p e c = Ok p') /\
  (forall e c, acls a e <> None -> amark a e = false -> c < anum a -> exists p', p_move p e c = Ok p') /\
  (forall e, acls a e <> None -> exists p', p_split_on p e = Ok p').
Proof.
  intros R. apply reach_sim in R. split; [apply R|]. split; [|split].
  - intros e c H1 H2 H3. destruct (sim_add N p a e c R H1 H2 H3) as (p' & E & _). eauto.
  - intros e c H1 H2 H3. destruct (sim_move N p a e c R H1 H2 H3) as (p' & E & _). eauto.
  - intros e H1. destruct (sim_split N p a e R H1) as (p' & E & _). eauto.
Qed.

(** [finalize_split] never panics. Two elements share a class afterwards exactly when they
    shared one before and both or neither were marked; the part that leaves gets a new class
    id, is nonempty, and is not larger than the nonempty part that stays; the new ids are
    enqueued, once each, in increasing order. *)
Theorem C29_finalize N p a : reach N p a -> exists p' q, p_finalize p = Ok (p', q) /\
  (forall e c e' c', acls a e = Some c -> acls a e' = Some c' ->
     exists d d', p_class_id p' e = Ok d /\ p_class_id p' e' = Ok d' /\
       (d = d' <-> c = c' /\ amark a e = amark a e') /\
       (d = c \/ In d q)) /\
  anum a <= p_num_classes p' /\ q = seq (anum a) (p_num_classes p' - anum a) /\
  (forall d, In d q -> exists c n m, c < anum a /\ p_class_size p' d = Ok n /\ p_class_size p' c = Ok m /\
     0 < n <= m /\ forall e, acls a e <> None -> p_class_id p' e = Ok d -> acls a e = Some c).
Proof.
  intros R. apply reach_sim in R. destruct R as (H1 & H2 & no & yes & Rp & H3 & H4).
  destruct (finalize_ok p no yes Rp) as (p' & q & no' & E & R' & L & F1 & F2 & F3 & F4 & F5 & F6).
  assert (As : forall e c, acls a e = Some c -> asg no yes e /\ cl (pels p) e = c /\ e < length (pels p) /\ (mk p yes e <-> amark a e = true)).
  { intros e c Ea. apply H3 in Ea. destruct (rep_lt _ _ _ c e Rp Ea) as [Le _]. split; [exists c; auto|]. split.
    - destruct Ea as [X|X]; [apply (r_no _ _ _ Rp)|apply (r_yes _ _ _ Rp)]; auto.
    - split; auto. rewrite H4. unfold mk. split; [eauto|]. intros (d & Hd). destruct (r_yes _ _ _ Rp d e Hd) as [-> _]. auto. }
  assert (Inq : forall d, In d q <-> anum a <= d < length (pcls p')).
  { intros d. rewrite F5, in_seq. rewrite <- H2. lia. }
  assert (Sz : forall c, c < length (pcls p') -> p_class_size p' c = Ok (length (no' c))).
  { intros c Lc. unfold p_class_size. destruct (nth_error_ex _ _ Lc) as (k & Ek). rewrite Ek.
    destruct (r_cls _ _ _ R' c k Ek) as (_ & _ & -> & _). simpl. rewrite Nat.add_0_r. auto. }
  assert (Pl : forall e c, acls a e = Some c -> In e (no' (cl (pels p') e)) /\ cl (pels p') e < length (pcls p')).
  { intros e c Ea. destruct (As e c Ea) as (A & _). apply F1 in A. destruct A as (d & Hd).
    destruct (r_no _ _ _ R' d e Hd) as [-> _]. split; auto. apply (rep_lt _ _ _ d e R' (or_introl Hd)). }
  exists p', q. split; auto. split; [|split; [|split]].
  - intros e c e' c' Ea Ea'. destruct (As e c Ea) as (A1 & A2 & A3 & A4). destruct (As e' c' Ea') as (B1 & B2 & B3 & B4).
    exists (cl (pels p') e), (cl (pels p') e'). rewrite !cl_id by lia. split; auto. split; auto. split.
    + rewrite F2, A2, B2, A4, B4 by auto. split; intros [X Y]; split; auto.
      * destruct (amark a e), (amark a e'); auto; [symmetry|]; apply Y; auto.
      * rewrite Y. tauto.
    + destruct (F3 e A1) as [X|X]; [left; congruence|right]. apply Inq. rewrite <- H2. split; auto. apply (Pl e c Ea).
  - rewrite <- H2. auto.
  - rewrite <- H2. auto.
  - intros d Hd. apply Inq in Hd. rewrite <- H2 in *. destruct (F6 d Hd) as (G1 & c & G2 & G3 & G4 & G5).
    exists c, (length (no' d)), (length (no' c)). split; auto. split; [apply Sz; lia|]. split; [apply Sz; lia|]. split.
    + destruct (no' d); [congruence|simpl in *; lia].
    + intros e Ne Ei. destruct (acls a e) as [c1|] eqn:Ea; [|congruence]. destruct (As e c1 Ea) as (A1 & A2 & A3 & A4).
      rewrite cl_id in Ei by lia. injection Ei as Ei. destruct (Pl e c1 Ea) as [P1 _]. rewrite Ei in P1.
      apply G5 in P1. congruence.
Qed.

(** The guard on [move_element] is needed: moving a marked element leaves its old class with
    a dangling count, and the next [finalize_split] panics on [size - yes_size]. *)
Theorem C29_move_marked_refuted :
  exists N p a e c p', reach N p a /\ acls a e <> None /\ amark a e = true /\ c < anum a /\
    p_move p e c = Ok p' /\ p_finalize p' = Panic.
Proof.
  exists 1. do 2 eexists. exists 0, 1. eexists. split.
  - eapply r_split_on with (e := 0).
    + eapply r_add with (e := 0) (c := 0); [apply r_allocate with (k := 2); apply r_start|lia|simpl; lia|reflexivity|].
      vm_compute. reflexivity.
    + simpl. discriminate.
    + vm_compute. reflexivity.
  - split; [simpl; discriminate|]. split; [reflexivity|]. split; [simpl; lia|]. split; vm_compute; reflexivity.
Qed.

Print Assumptions C29_partition.
Print Assumptions C29_progress.
Print Assumptions C29_finalize.
Print Assumptions C29_move_marked_refuted.

(** Three elements in one class, one of them marked, split off into class 1. *)
Example C29_instance : exists p a p', reach 3 p a /\ acls a 0 = Some 0 /\ amark a 1 = true /\ amark a 0 = false /\
  p_finalize p = Ok (p', [1]) /\ p_class_id p' 0 = Ok 0 /\ p_class_id p' 1 = Ok 1 /\ p_class_id p' 2 = Ok 0.
Proof.
  do 3 eexists. split.
  - eapply r_split_on with (e := 1).
    + eapply r_add with (e := 2) (c := 0);
        [eapply r_add with (e := 1) (c := 0);
          [eapply r_add with (e := 0) (c := 0);
            [apply r_allocate with (k := 1); apply r_start|lia|simpl; lia|reflexivity|vm_compute; reflexivity]
          |lia|simpl; lia|reflexivity|vm_compute; reflexivity]
        |lia|simpl; lia|reflexivity|vm_compute; reflexivity].
    + simpl. discriminate.
    + vm_compute. reflexivity.
  - repeat split; vm_compute; reflexivity.
Qed.
