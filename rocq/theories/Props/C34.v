(** C34: interval sets represent unions of ranges. *)
From Coq Require Import List Arith Bool Lia Permutation Sorted.
From Verif Require Import Base.Util Model.TrOps Model.IntervalSet Proofs.TrOpsFacts.
Import ListNotations.

(** [x] lies in one of the half-open intervals. *)
Definition covered (l : list ival) (x : nat) : Prop :=
  exists i, In i l /\ ibegin i <= x < iend i.
Definition nonempty (i : ival) : Prop := ibegin i < iend i.
(** Sorted, disjoint and not adjacent. *)
Definition separated (l : list ival) : Prop := StronglySorted (fun a b => iend a < ibegin b) l.
(** [n] points satisfy [P]. *)
Definition counts (n : nat) (P : nat -> Prop) : Prop :=
  exists pts, NoDup pts /\ (forall x, In x pts <-> P x) /\ length pts = n.

Definition bsorted (l : list ival) : Prop := StronglySorted (fun a b => ibegin a <= ibegin b) l.

Lemma covered_cons i l x : covered (i :: l) x <-> ibegin i <= x < iend i \/ covered l x.
Proof.
  split.
  - intros (j & [<-|I] & H); auto. right. exists j; auto.
  - intros [H|(j & I & H)]; [exists i | exists j]; simpl; auto.
Qed.

Lemma absorb_ok l : forall c c' r, absorb c l = (c', r) -> nonempty c ->
  Forall (fun j => ibegin c <= ibegin j /\ nonempty j) l -> bsorted l ->
  nonempty c' /\ ibegin c' = ibegin c /\ length r <= length l /\
  bsorted r /\ Forall (fun j => nonempty j /\ iend c' < ibegin j) r /\
  (forall x, covered (c' :: r) x <-> covered (c :: l) x).
Proof.
  induction l as [|j l IH]; simpl; intros c c' r E N F S.
  - injection E as <- <-. repeat (split; [auto; constructor|]). tauto.
  - inversion F; subst. inversion S; subst. destruct (Nat.ltb_spec (iend c) (ibegin j)).
    + injection E as <- <-. split; [auto|]. split; [auto|]. split; [simpl; lia|]. split; [auto|].
      split; [|tauto]. constructor; [tauto|].
      rewrite Forall_forall in *. intros k K. specialize (H2 k K). specialize (H4 k K). simpl in *. split; [tauto|lia].
    + assert (EE : (if iend c <? iend j then iend j else iend c) = Nat.max (iend c) (iend j))
        by (destruct (Nat.ltb_spec (iend c) (iend j)); lia).
      rewrite EE in E. clear EE.
      destruct (IH _ _ _ E) as (A & B & C & D & G & H'); auto.
      { unfold nonempty in *. simpl. lia. }
      split; [auto|]. split; [auto|]. split; [lia|]. split; [auto|]. split; [auto|].
      intros x. rewrite H', !covered_cons. simpl. unfold nonempty in *.
      split; [intros [?|?]|intros [?|[?|?]]]; auto; try lia.
Qed.

Lemma norm_ok fuel : forall l count, length l < fuel -> Forall nonempty l -> bsorted l ->
  exists out n, norm_loop fuel l count = Ok (out, count + n) /\
    Forall nonempty out /\ separated out /\ (forall x, covered out x <-> covered l x) /\
    (forall b, Forall (fun j => b < ibegin j) l -> Forall (fun j => b < ibegin j) out) /\
    counts n (covered l).
Proof.
  induction fuel as [|fuel IH]; intros l count L F S; [lia|]. destruct l as [|c l]; simpl.
  - exists [], 0. rewrite Nat.add_0_r. split; [auto|]. split; [constructor|]. split; [constructor|].
    split; [tauto|]. split; [auto|].
    exists []. split; [constructor|]. split; auto. intros x. split; [inversion 1|].
    intros (i & [] & _).
  - inversion F; subst. inversion S; subst.
    destruct (Nat.eqb_spec (ibegin c) (iend c)) as [E|_]; [unfold nonempty in *; lia|].
    destruct (absorb c l) as [c' r] eqn:A.
    destruct (absorb_ok _ _ _ _ A) as (N & B & LE & D & G & H'); auto.
    { rewrite Forall_forall in *. auto. }
    destruct (Nat.ltb_spec (iend c') (ibegin c')) as [X|_]; [unfold nonempty in *; lia|].
    destruct (IH r (count + (iend c' - ibegin c'))) as (out & n & R & O1 & O2 & O3 & O4 & O5); auto.
    { simpl in L. lia. }
    { eapply Forall_impl; [|exact G]. simpl. tauto. }
    rewrite R. simpl. exists (c' :: out), ((iend c' - ibegin c') + n).
    split; [do 2 f_equal; lia|]. split; [constructor; auto|].
    assert (GO : Forall (fun j => iend c' < ibegin j) out).
    { apply O4. eapply Forall_impl; [|exact G]. simpl. tauto. }
    split; [constructor; auto|].
    split; [intros x; rewrite <- H', !covered_cons, O3; tauto|].
    split.
    { intros b Fb. inversion Fb; subst. constructor; [lia|].
      unfold nonempty in N. eapply Forall_impl; [|exact GO]. simpl. intros j. lia. }
    destruct O5 as (pts & P1 & P2 & P3).
    exists (seq (ibegin c') (iend c' - ibegin c') ++ pts). split; [|split].
    + assert (DJ : forall x, In x pts -> iend c' < x).
      { intros x I. apply P2, O3 in I as (i & Ii & Hi). rewrite Forall_forall in GO.
        specialize (GO i Ii). lia. }
      assert (DS : forall x, In x (seq (ibegin c') (iend c' - ibegin c')) -> x < iend c').
      { intros x I. apply in_seq in I. lia. }
      revert DS. generalize (seq_NoDup (iend c' - ibegin c') (ibegin c')).
      generalize (seq (ibegin c') (iend c' - ibegin c')). clear - P1 DJ.
      induction l as [|y l IHl]; simpl; intros ND DS; auto. inversion ND; subst. constructor; auto.
      rewrite in_app_iff. intros [?|I]; auto. apply DJ in I. specialize (DS y). lia.
    + intros x. rewrite in_app_iff, in_seq, P2, <- H', covered_cons. unfold nonempty in *.
      assert ((ibegin c' <= x < ibegin c' + (iend c' - ibegin c')) <-> ibegin c' <= x < iend c') by lia.
      tauto.
    + rewrite app_length, seq_length. lia.
Qed.

Lemma member_ok l n v : Forall nonempty l -> separated l -> (is_member (IS l n) v = true <-> covered l v).
Proof.
  unfold is_member. cbn [ivals]. intros F S. induction l as [|i l IH]; simpl.
  { split; [discriminate|]. intros (i & [] & _). }
  inversion F; subst. inversion S; subst. specialize (IH H2 H3). rewrite covered_cons.
  unfold ival_lt at 1. simpl. unfold nonempty in H1.
  destruct (Nat.ltb_spec (ibegin i) v); [|destruct (Nat.eqb_spec (ibegin i) v)]; simpl.
  3:{ split; [discriminate|]. intros [?|(j & J & Hj)]; [lia|]. rewrite Forall_forall in H4.
      specialize (H4 j J). lia. }
  2: destruct (Nat.ltb_spec v (iend i)); [|lia].
  all: destruct (lower_bound l (IV v v)) as [|k] eqn:E; simpl.
  1,3: rewrite Nat.ltb_lt; split; [lia|]; intros [?|X]; [lia|apply IH in X; discriminate].
  all: rewrite IH; split; [auto|]; intros [?|?]; auto; exfalso.
  all: destruct l as [|j l]; simpl in E; [discriminate|].
  all: apply Forall_inv in H4; unfold ival_lt in E; simpl in E.
  all: destruct (Nat.ltb_spec (ibegin j) v); [lia|]; destruct (Nat.eqb_spec (ibegin j) v); [lia|]; discriminate.
Qed.

Lemma ival_le_total a b : ival_le a b = true \/ ival_le b a = true.
Proof.
  unfold ival_le. destruct (Nat.ltb_spec (ibegin a) (ibegin b)); auto.
  destruct (Nat.ltb_spec (ibegin b) (ibegin a)); auto.
  assert (ibegin a = ibegin b) as -> by lia. rewrite Nat.eqb_refl. simpl. rewrite !Nat.leb_le. lia.
Qed.
Lemma ival_le_iff a b : ival_le a b = true <->
  ibegin a < ibegin b \/ (ibegin a = ibegin b /\ iend b <= iend a).
Proof. unfold ival_le. now rewrite orb_true_iff, andb_true_iff, Nat.ltb_lt, Nat.eqb_eq, Nat.leb_le. Qed.
Lemma ival_le_trans a b c : ival_le a b = true -> ival_le b c = true -> ival_le a c = true.
Proof. rewrite !ival_le_iff. lia. Qed.

Lemma sort_bsorted l : bsorted (isort ival_le l).
Proof.
  assert (S : StronglySorted (fun a b => ival_le a b = true) (isort ival_le l)).
  { apply isort_sorted; [apply ival_le_total | apply ival_le_trans]. }
  induction S; constructor; auto. eapply Forall_impl; [|eassumption].
  intros j. simpl. rewrite ival_le_iff. lia.
Qed.

Lemma covered_perm l l' x : Permutation l l' -> covered l x <-> covered l' x.
Proof.
  intros P. split; intros (i & I & H); exists i; split; auto.
  - eapply Permutation_in; eauto.
  - eapply Permutation_in; [symmetry; eauto|auto].
Qed.

(** Any number of sets built by pushes and unions. *)
Inductive build := BNew | BPush (b : build) (i : ival) | BUnion (a b : build).
Fixpoint built (b : build) : iset :=
  match b with
  | BNew => is_new
  | BPush b i => is_push (built b) i
  | BUnion a b => is_union (built a) (built b)
  end.
(** The points it stands for. *)
Fixpoint points (b : build) (x : nat) : Prop :=
  match b with
  | BNew => False
  | BPush b i => points b x \/ ibegin i <= x < iend i
  | BUnion a b => points a x \/ points b x
  end.
Fixpoint all_nonempty (b : build) : Prop :=
  match b with
  | BNew => True
  | BPush b i => all_nonempty b /\ nonempty i
  | BUnion a b => all_nonempty a /\ all_nonempty b
  end.

Lemma built_points b x : covered (ivals (built b)) x <-> points b x.
Proof.
  assert (AP : forall l1 l2, covered (l1 ++ l2) x <-> covered l1 x \/ covered l2 x).
  { intros l1 l2. induction l1 as [|i l1 IH]; simpl.
    - split; auto. intros [(i & [] & _)|?]; auto.
    - rewrite !covered_cons, IH. tauto. }
  induction b; simpl.
  - split; [intros (i & [] & _)|tauto].
  - rewrite AP, IHb, covered_cons. split; [intros [?|[?|(j & [] & _)]]; auto|intros [?|?]; auto].
  - rewrite AP, IHb1, IHb2. tauto.
Qed.
Lemma built_nonempty b : all_nonempty b -> Forall nonempty (ivals (built b)).
Proof.
  induction b; simpl; intros H; [constructor| |]; apply Forall_app; intuition.
Qed.

(** Normalising any set built from non-empty intervals stops within [length] + 1 rounds; the
    result covers the same points, its intervals are non-empty, sorted, disjoint and not
    adjacent, the count is the number of points covered, and [member] answers exactly. *)
Theorem C34_normalize (b : build) (fuel : nat) : all_nonempty b -> length (ivals (built b)) < fuel ->
  exists s n, is_normalize fuel (built b) = Ok s /\
    (forall x, covered (ivals s) x <-> points b x) /\
    Forall nonempty (ivals s) /\ separated (ivals s) /\
    icount s = Some n /\ counts n (points b) /\
    (forall x, is_member s x = true <-> points b x).
Proof.
  intros NE L. unfold is_normalize.
  set (l := ivals (built b)) in *.
  assert (P := isort_perm ival_le l).
  destruct (norm_ok fuel (isort ival_le l) 0) as (out & n & R & O1 & O2 & O3 & _ & O5).
  { rewrite (Permutation_length P). auto. }
  { rewrite P. apply built_nonempty; auto. }
  { apply sort_bsorted. }
  rewrite R. simpl. exists (IS out (Some n)), n. simpl.
  assert (C : forall x, covered out x <-> points b x).
  { intros x. rewrite O3, (covered_perm _ _ x P). apply built_points. }
  split; [auto|]. split; [auto|]. split; [auto|]. split; [auto|]. split; [auto|]. split.
  - destruct O5 as (pts & P1 & P2 & P3). exists pts. split; auto. split; auto.
    intros x. rewrite P2, (covered_perm _ _ x P). apply built_points.
  - intros x. rewrite member_ok; auto.
Qed.
Print Assumptions C34_normalize.

(** Two sets of points have the same normal form. *)
Lemma separated_unique l1 : forall l2, Forall nonempty l1 -> Forall nonempty l2 -> separated l1 -> separated l2 ->
  (forall x, covered l1 x <-> covered l2 x) -> l1 = l2.
Proof.
  assert (LO : forall i l x, nonempty i -> separated (i :: l) -> covered (i :: l) x -> ibegin i <= x).
  { intros i l x N S C. inversion S; subst. apply covered_cons in C as [?|(j & J & Hj)]; [lia|].
    rewrite Forall_forall in H2. specialize (H2 j J). unfold nonempty in N. lia. }
  induction l1 as [|a l1 IH]; intros [|b l2] F1 F2 S1 S2 E.
  - auto.
  - exfalso. inversion F2; subst. destruct (proj2 (E (ibegin b))) as (i & [] & _).
    apply covered_cons. left. unfold nonempty in *. lia.
  - exfalso. inversion F1; subst. destruct (proj1 (E (ibegin a))) as (i & [] & _).
    apply covered_cons. left. unfold nonempty in *. lia.
  - inversion F1 as [|? ? H1 G1]; subst. inversion F2 as [|? ? H3 G3]; subst. pose proof S1 as S1'. pose proof S2 as S2'.
    inversion S1 as [|? ? G5 H7]; subst. inversion S2 as [|? ? G6 H9]; subst. unfold nonempty in H1, H3.
    assert (CA : forall x, ibegin a <= x < iend a -> covered (b :: l2) x) by (intros; apply E, covered_cons; auto).
    assert (CB : forall x, ibegin b <= x < iend b -> covered (a :: l1) x) by (intros; apply E, covered_cons; auto).
    assert (B : ibegin a = ibegin b).
    { pose proof (LO b l2 _ H3 S2' (CA (ibegin a) ltac:(lia))).
      pose proof (LO a l1 _ H1 S1' (CB (ibegin b) ltac:(lia))). lia. }
    assert (GA : forall x, covered l1 x -> iend a < x).
    { intros x (j & J & Hj). rewrite Forall_forall in H7. specialize (H7 j J). lia. }
    assert (GB : forall x, covered l2 x -> iend b < x).
    { intros x (j & J & Hj). rewrite Forall_forall in H9. specialize (H9 j J). lia. }
    assert (EN : iend a = iend b).
    { destruct (Nat.lt_trichotomy (iend a) (iend b)) as [X|[X|X]]; auto; exfalso.
      - specialize (CB (iend a) ltac:(lia)). apply covered_cons in CB as [?|C]; [lia|]. apply GA in C. lia.
      - specialize (CA (iend b) ltac:(lia)). apply covered_cons in CA as [?|C]; [lia|]. apply GB in C. lia. }
    assert (a = b) as -> by (destruct a, b; simpl in *; congruence).
    f_equal. apply IH; auto. intros x. specialize (E x). rewrite !covered_cons in E.
    split; intros C.
    + assert (X := GA x C). destruct (proj1 E (or_intror C)); auto. lia.
    + assert (X := GB x C). destruct (proj2 E (or_intror C)); auto. lia.
Qed.

(** Normalising gives a canonical form: sets with the same points become equal (so normalising
    twice changes nothing). *)
Theorem C34_canonical (b1 b2 : build) (s1 s2 : iset) fuel1 fuel2 :
  all_nonempty b1 -> all_nonempty b2 ->
  length (ivals (built b1)) < fuel1 -> length (ivals (built b2)) < fuel2 ->
  is_normalize fuel1 (built b1) = Ok s1 -> is_normalize fuel2 (built b2) = Ok s2 ->
  ((forall x, points b1 x <-> points b2 x) <-> s1 = s2).
Proof.
  intros N1 N2 L1 L2 R1 R2.
  destruct (C34_normalize b1 fuel1 N1 L1) as (t1 & n1 & E1 & A1 & B1 & C1 & D1 & F1 & _).
  destruct (C34_normalize b2 fuel2 N2 L2) as (t2 & n2 & E2 & A2 & B2 & C2 & D2 & F2 & _).
  assert (t1 = s1) by congruence. assert (t2 = s2) by congruence. subst t1 t2. split.
  - intros E. assert (V : ivals s1 = ivals s2).
    { apply separated_unique; auto. intros x. rewrite A1, A2. auto. }
    assert (n1 = n2).
    { destruct F1 as (p1 & X1 & Y1 & Z1). destruct F2 as (p2 & X2 & Y2 & Z2). subst.
      apply Permutation_length, NoDup_Permutation; auto. intros x. rewrite Y1, Y2. auto. }
    destruct s1, s2; simpl in *; congruence.
  - intros -> x. rewrite <- A1, A2. tauto.
Qed.
Print Assumptions C34_canonical.

(** The non-emptiness guard is needed: with an empty interval no number of rounds is enough
    (the [continue] of line 167 skips the increment). *)
Theorem C34_empty_interval_refuted : forall fuel i,
  ibegin i = iend i -> is_normalize fuel (built (BPush BNew i)) = Panic.
Proof.
  intros fuel i E. unfold is_normalize. simpl.
  assert (X : forall c, norm_loop fuel [i] c = Panic).
  { induction fuel; intros c; simpl; auto. rewrite E, Nat.eqb_refl. auto. }
  now rewrite X.
Qed.
Print Assumptions C34_empty_interval_refuted.

(** Overlapping, nested, adjacent and separate intervals. *)
Example C34_witness :
  let b := BPush (BUnion (BPush (BPush BNew (IV 7 9)) (IV 0 5))
                         (BPush (BPush BNew (IV 3 4)) (IV 5 6))) (IV 2 6) in
  all_nonempty b /\ is_normalize 6 (built b) = Ok (IS [IV 0 6; IV 7 9] (Some 8)).
Proof. split; [simpl; unfold nonempty; simpl; lia|reflexivity]. Qed.
