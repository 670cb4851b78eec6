(** C42: what the multi-epsilon matcher's label set answers. *)
From Coq Require Import List Arith NArith Bool Lia.
From Verif Require Import Base.Util Model.CompactSet.
Import ListNotations.
Local Open Scope N_scope.

(** Which labels should be in the set after a history of calls. *)
Definition live1 (o : cs_op) (k : N) (b : bool) : bool :=
  match o with
  | OInsert j => if j =? 0 then b else (j =? k) || b
  | OErase j => if j =? 0 then b else negb (j =? k) && b
  | OClear => false
  end.
Fixpoint live_from (l : list cs_op) (k : N) (b : bool) : bool :=
  match l with [] => b | o :: l' => live_from l' k (live1 o k b) end.
Definition live (l : list cs_op) (k : N) : bool := live_from l k false.

(** [NO_LABEL] itself is not a label. *)
Definition op_ok (o : cs_op) : Prop :=
  match o with OInsert k => k < no_key | OErase k => k < no_key | OClear => True end.

Definition inv (c : compact_set) : Prop :=
  NoDup (cs_set c) /\
  (forall x, In x (cs_set c) -> 0 < x < no_key /\ min_key c <= x) /\
  ((min_key c = no_key /\ max_key c = no_key /\ cs_set c = []) \/
   (min_key c < no_key /\ max_key c < no_key /\ cs_set c <> [] /\
    (max_key c < min_key c \/ (min_key c = max_key c /\ In (min_key c) (cs_set c))))).

Lemma mem_in l k : cs_mem l k = true <-> In k l.
Proof.
  unfold cs_mem. rewrite existsb_exists. split.
  - intros (x & I & E). apply N.eqb_eq in E. congruence.
  - intros I. exists k. rewrite N.eqb_refl. auto.
Qed.

Lemma dense_bound l a b : NoDup l -> (forall x, In x l -> a <= x < b) -> a <= b ->
  N.of_nat (length l) <= b - a.
Proof.
  intros ND H AB.
  assert (L : (length l <= length (map (fun i => (a + N.of_nat i)%N) (seq 0 (N.to_nat (b - a)))))%nat).
  { apply NoDup_incl_length; auto. intros x I. destruct (H x I).
    apply in_map_iff. exists (N.to_nat (x - a)). split; [lia|]. apply in_seq. lia. }
  rewrite map_length, seq_length in L. lia.
Qed.

Lemma inv_insert c k : inv c -> 0 < k < no_key -> inv (cs_insert c k).
Proof.
  intros (ND & B & M) Hk. unfold inv, cs_insert; simpl.
  set (s' := if cs_mem (cs_set c) k then cs_set c else k :: cs_set c).
  assert (S : forall x, In x s' <-> x = k \/ In x (cs_set c)).
  { intros x. unfold s'. destruct (cs_mem (cs_set c) k) eqn:E; simpl.
    - apply mem_in in E. split; [tauto|]. intros [->|?]; auto.
    - split; intros [?|?]; auto. }
  split.
  { unfold s'. destruct (cs_mem (cs_set c) k) eqn:E; auto. constructor; auto.
    rewrite <- mem_in. congruence. }
  split.
  { intros x I. apply S in I as [->|I].
    - split; auto. destruct (N.eqb_spec (min_key c) no_key); simpl; [lia|].
      destruct (N.ltb_spec k (min_key c)); lia.
    - destruct (B x I) as [? ?]. split; auto. destruct (N.eqb_spec (min_key c) no_key); simpl; [lia|].
      destruct (N.ltb_spec k (min_key c)); lia. }
  right.
  assert (NE : s' <> []).
  { intros E. assert (X : In k s') by (apply S; auto). rewrite E in X. inversion X. }
  destruct M as [(M1 & M2 & M3)|(M1 & M2 & M3 & M4)].
  - rewrite M1, M2, N.eqb_refl. simpl. repeat (split; [lia || auto|]). right. split; auto. apply S; auto.
  - destruct (N.eqb_spec (min_key c) no_key); [lia|]. destruct (N.eqb_spec (max_key c) no_key); [lia|].
    simpl. destruct (N.ltb_spec k (min_key c)); destruct (N.ltb_spec k (max_key c));
      repeat (split; [lia || auto|]).
    + right. split; auto. apply S; auto.
    + destruct (N.eq_dec k (max_key c)); [right; split; auto; apply S; auto | left; lia].
    + lia.
    + destruct M4 as [M4|[M4 M5]]; auto. right. split; auto. apply S; auto.
Qed.

Lemma inv_erase c k : inv c -> 0 < k < no_key -> exists c', cs_erase c k = Ok c' /\ inv c' /\
  cs_set c' = filter (fun x => negb (x =? k)) (cs_set c).
Proof.
  intros (ND & B & M) Hk. unfold cs_erase.
  assert (S : forall x, In x (filter (fun x => negb (x =? k)) (cs_set c)) <-> In x (cs_set c) /\ x <> k).
  { intros x. rewrite filter_In. destruct (N.eqb_spec x k); simpl; intuition congruence. }
  assert (ND' : NoDup (filter (fun x => negb (x =? k)) (cs_set c))) by (apply NoDup_filter; auto).
  revert S ND'. generalize (filter (fun x => negb (x =? k)) (cs_set c)). intros s' S ND'.
  destruct s' as [|y s''].
  { eexists. split; [reflexivity|]. split; auto. split; [constructor|]. split; [simpl; tauto|]. left; auto. }
  assert (Iy : In y (cs_set c) /\ y <> k) by (apply S; left; auto).
  destruct Iy as [Iy Ny]. destruct (B _ Iy) as [By By'].
  destruct M as [(_ & _ & M3)|(M1 & M2 & _ & M4)]; [rewrite M3 in Iy; inversion Iy|].
  destruct (N.eqb_spec k (min_key c)) as [->|N1].
  - unfold key_add. destruct (N.ltb_spec no_key (min_key c + 1)); [lia|]. simpl.
    eexists. split; [reflexivity|]. split; auto. split; auto. split.
    + intros x I. apply S in I as [I1 I2]. destruct (B _ I1). simpl. lia.
    + right. simpl. repeat (split; [lia || discriminate|]). left. lia.
  - destruct (N.eqb_spec k (max_key c)) as [->|N2].
    + unfold key_sub. destruct (N.ltb_spec (max_key c) 1); [lia|]. simpl.
      eexists. split; [reflexivity|]. split; auto. split; auto. split.
      * intros x I. apply S in I as [I1 I2]. destruct (B _ I1). simpl. lia.
      * right. simpl. repeat (split; [lia || discriminate|]). left. lia.
    + eexists. split; [reflexivity|]. split; auto. split; auto. split.
      * intros x I. apply S in I as [I1 I2]. destruct (B _ I1). simpl. lia.
      * right. simpl. repeat (split; [lia || discriminate|]). destruct M4 as [?|[M4 M5]]; auto.
        right. split; auto. apply (S (min_key c)). auto.
Qed.

Lemma run_inv l : forall c, inv c -> Forall op_ok l -> exists c', cs_run c l = Ok c' /\ inv c' /\
  forall k, cs_mem (cs_set c') k = live_from l k (cs_mem (cs_set c) k).
Proof.
  induction l as [|o l IH]; intros c I F; [exists c; simpl; auto|].
  inversion F; subst. simpl. destruct o as [j|j|]; simpl in *.
  - destruct (N.eqb_spec j 0) as [->|N].
    + apply IH; auto.
    + destruct (IH (cs_insert c j)) as (c' & R & I' & L); auto; [apply inv_insert; auto; lia|].
      exists c'. split; auto. split; auto. intros k. rewrite L. f_equal. simpl.
      apply eq_true_iff_eq. rewrite orb_true_iff, N.eqb_eq, !mem_in.
      destruct (cs_mem (cs_set c) j) eqn:E; simpl; [apply mem_in in E; intuition congruence | tauto].
  - destruct (N.eqb_spec j 0) as [->|N].
    + apply IH; auto.
    + destruct (inv_erase c j I) as (c1 & R1 & I1 & E1); [lia|]. rewrite R1.
      destruct (IH c1 I1 H2) as (c' & R & I' & L).
      exists c'. split; auto. split; auto. intros k. rewrite L, E1. f_equal.
      apply eq_true_iff_eq. rewrite andb_true_iff, negb_true_iff, N.eqb_neq, !mem_in, filter_In.
      destruct (N.eqb_spec k j); simpl; intuition congruence.
  - apply IH; auto. split; [constructor|]. split; [simpl; tauto|]. left; auto.
Qed.

Lemma inv_new : inv cs_new.
Proof. split; [constructor|]. split; [simpl; tauto|]. left; auto. Qed.

Lemma contains_inv c k : inv c -> cs_contains c k =
  Ok ((min_key c =? k) && (max_key c =? k) && negb (k =? no_key)).
Proof.
  intros (ND & B & M). unfold cs_contains.
  destruct M as [(M1 & M2 & M3)|(M1 & M2 & M3 & M4)].
  { rewrite M1, M2, N.eqb_refl. cbn [orb].
    destruct (N.eqb_spec no_key k) as [<-|]; cbn [andb]; [now rewrite N.eqb_refl | reflexivity]. }
  destruct (N.eqb_spec (min_key c) no_key); [lia|].
  destruct (N.ltb_spec k (min_key c)); simpl.
  { destruct (N.eqb_spec (min_key c) k); [lia|reflexivity]. }
  destruct (N.ltb_spec (max_key c) k); simpl.
  { destruct (N.eqb_spec (max_key c) k); [lia|]. now rewrite andb_false_r. }
  destruct M4 as [?|[M4 M5]]; [lia|].
  assert (k = min_key c) as -> by lia.
  assert (DB : N.of_nat (length (cs_set c)) <= no_key - min_key c).
  { apply dense_bound; auto; [|lia]. intros x I. destruct (B x I). lia. }
  unfold key_add.
  destruct (N.ltb_spec no_key (max_key c + 1)); [lia|].
  destruct (N.ltb_spec no_key (min_key c + N.of_nat (length (cs_set c)))); [lia|].
  cbn [rbind]. rewrite <- M4, !N.eqb_refl.
  destruct (N.eqb_spec (min_key c) no_key); [lia|]. simpl.
  destruct (_ =? _); auto. f_equal. apply mem_in; auto.
Qed.

(** Over every history of add / remove / clear calls with labels other than [NO_LABEL]: no
    call panics, the labels listed by [iter] are exactly the live ones, [contains] does not
    panic and never claims a label that is not live. *)
Theorem C42_no_false_positive (l : list cs_op) : Forall op_ok l ->
  exists c, cs_run cs_new l = Ok c /\
    NoDup (cs_set c) /\
    (forall k, In k (cs_set c) <-> live l k = true) /\
    (forall k, exists b, cs_contains c k = Ok b /\ (b = true -> live l k = true)).
Proof.
  intros F. destruct (run_inv l cs_new inv_new F) as (c & R & I & L).
  exists c. split; auto. split; [apply I|]. split; [intros k; rewrite <- mem_in, L; reflexivity|].
  intros k. eexists. split; [apply contains_inv; auto|].
  rewrite !andb_true_iff, negb_true_iff, N.eqb_neq, !N.eqb_eq. intros [[<- E2] NE].
  unfold live. change false with (cs_mem (cs_set cs_new) (min_key c)). rewrite <- L. apply mem_in.
  destruct I as (ND & B & [(M1 & _)|(M1 & M2 & M3 & [M4|[M4 M5]])]); auto; lia.
Qed.
Print Assumptions C42_no_false_positive.

(** What [contains] answers after inserting any labels: yes for the smallest one, no for all
    the others. *)
Theorem C42_contains_is_minimum (keys : list N) : Forall (fun k => 0 < k < no_key) keys ->
  exists c, cs_run cs_new (map OInsert keys) = Ok c /\
    forall k, cs_contains c k = Ok true <-> In k keys /\ forall j, In j keys -> k <= j.
Proof.
  intros F.
  assert (G : forall ks c, inv c -> Forall (fun k => 0 < k < no_key) ks -> min_key c = max_key c ->
            exists c', cs_run c (map OInsert ks) = Ok c' /\ inv c' /\ min_key c' = max_key c' /\
              forall x, In x (cs_set c') <-> In x (cs_set c) \/ In x ks).
  { induction ks as [|k ks IH]; simpl; intros c I Fk E.
    - exists c. split; auto. split; auto. split; auto. tauto.
    - inversion Fk; subst. destruct (N.eqb_spec k 0); [lia|].
      destruct (IH (cs_insert c k)) as (c' & R & I' & E' & S'); auto; [apply inv_insert; auto|simpl; now rewrite E|].
      exists c'. split; auto. split; auto. split; auto. intros x. rewrite S'. simpl.
      destruct (cs_mem (cs_set c) k) eqn:M; simpl; [apply mem_in in M|]; intuition congruence. }
  destruct (G keys cs_new inv_new F eq_refl) as (c & R & I & E & S).
  exists c. split; auto. intros k. rewrite contains_inv by auto. rewrite <- E, andb_diag. simpl in S.
  destruct I as (ND & B & M). rewrite Forall_forall in F. split.
  - intros [= H]. apply andb_true_iff in H as [H1 H2].
    apply N.eqb_eq in H1. apply negb_true_iff, N.eqb_neq in H2. subst k.
    destruct M as [(M1 & _)|(M1 & M2 & M3 & [M4|[M4 M5]])]; try lia.
    apply S in M5. split; [tauto|]. intros j J. apply (B j). apply S; auto.
  - intros [J1 J2]. f_equal. destruct M as [(M1 & M2 & M3)|(M1 & M2 & M3 & [M4|[M4 M5]])]; try lia.
    + exfalso. assert (X : In k (cs_set c)) by (apply S; auto). rewrite M3 in X. inversion X.
    + specialize (F k J1). assert (X : In k (cs_set c)) by (apply S; auto).
      assert (Y : In (min_key c) keys) by (apply S in M5; tauto).
      specialize (J2 _ Y). destruct (B _ X) as [_ Z].
      destruct (N.eqb_spec (min_key c) k); [|lia]. destruct (N.eqb_spec k no_key); [lia|auto].
Qed.
Print Assumptions C42_contains_is_minimum.

(** So the set does not contain what was inserted: label 2 is lost. *)
Theorem C42_contains_refuted :
  ~ (forall l, Forall op_ok l -> forall c, cs_run cs_new l = Ok c ->
       forall k, live l k = true -> cs_contains c k = Ok true).
Proof.
  intros H.
  assert (F : Forall op_ok [OInsert 1; OInsert 2]) by (repeat constructor).
  specialize (H _ F _ eq_refl 2 eq_refl). vm_compute in H. discriminate.
Qed.
Print Assumptions C42_contains_refuted.

Example C42_witness : exists c,
  cs_run cs_new [OInsert 5; OInsert 3; OInsert 9; OErase 3; OInsert 0; OInsert 4; OErase 9] = Ok c /\
  cs_set c = [4; 5] /\ cs_contains c 4 = Ok false /\ cs_contains c 5 = Ok false.
Proof. eexists. split; [vm_compute; reflexivity|]. repeat (split; [reflexivity|]). reflexivity. Qed.
