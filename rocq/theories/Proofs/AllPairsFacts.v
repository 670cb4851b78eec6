(** Elimination. *)
From Coq Require Import List Arith Bool Lia.
From Verif Require Import Base.Util Base.Semiring Base.Machine Base.PathSum Model.VectorFst Model.History Model.AllPairs Proofs.VectorFacts Proofs.SdFacts.
Import ListNotations.
Local Open Scope K_scope.

Section Matrix.
  Context {K : SR} (L : sr_laws K) (n : nat).
  Implicit Types d : list (list K).

  Definition square d : Prop := length d = n /\ forall i, (i < n)%nat -> length (nth i d []) = n.

  Lemma nth_upd {A} (l : list A) i x j z : nth j (upd l i x) z = if Nat.eqb i j && Nat.ltb j (length l) then x else nth j l z.
  Proof.
    revert i j. induction l as [|a l IH]; intros i j; cbn; [destruct i, j; cbn; rewrite ?andb_false_r; auto|].
    destruct i, j; cbn; auto. rewrite IH. reflexivity.
  Qed.

  Lemma square_mset d i j v : square d -> square (mset d i j v).
  Proof.
    intros [H1 H2]. unfold mset. split; [rewrite upd_length; auto|]. intros a Ha. rewrite nth_upd, H1.
    destruct (Nat.eqb_spec i a); cbn [andb]; [subst a|auto]. destruct (Nat.ltb_spec i n); [|lia]. rewrite upd_length. auto.
  Qed.

  Lemma mget_mset d i j v a b : square d -> (i < n)%nat -> (j < n)%nat ->
    mget (mset d i j v) a b = if Nat.eqb a i && Nat.eqb b j then v else mget d a b.
  Proof.
    intros [H1 H2] Hi Hj. unfold mget, mset. rewrite nth_upd, H1, (Nat.eqb_sym i a).
    destruct (Nat.eqb_spec a i) as [->|]; cbn [andb]; auto. destruct (Nat.ltb_spec i n); [|lia].
    rewrite nth_upd, H2, (Nat.eqb_sym j b) by auto. destruct (Nat.eqb_spec b j) as [->|]; cbn [andb]; auto. destruct (Nat.ltb_spec j n); auto. lia.
  Qed.

  Lemma mget_out d a b : square d -> (n <= b)%nat -> mget d a b = 0.
  Proof.
    intros [H1 H2] Hb. unfold mget. destruct (Nat.lt_ge_cases a n) as [Ha|Ha].
    - apply nth_overflow. rewrite H2; auto.
    - rewrite (nth_overflow d) by lia. destruct b; auto.
  Qed.

  Definition inl (b : nat) (l : list nat) : bool := existsb (Nat.eqb b) l.
  Lemma inl_In b l : inl b l = true <-> In b l.
  Proof.
    unfold inl. rewrite existsb_exists. split; [intros (x & Hx & E); apply Nat.eqb_eq in E as ->; auto|].
    intros H. exists b. split; auto. apply Nat.eqb_refl.
  Qed.
  Lemma inl_notin b l : ~ In b l -> inl b l = false.
  Proof. intros H. destruct (inl b l) eqn:E; auto. apply inl_In in E. contradiction. Qed.
  Lemma others_In k b : In b (others n k) <-> (b < n)%nat /\ b <> k.
  Proof. unfold others. rewrite filter_In, in_seq, negb_true_iff, Nat.eqb_neq. split; intros [H1 H2]; split; auto; lia. Qed.
  Lemma inl_others k b : inl b (others n k) = Nat.ltb b n && negb (Nat.eqb b k).
  Proof.
    apply eq_true_iff_eq. rewrite inl_In, others_In, andb_true_iff, Nat.ltb_lt, negb_true_iff, Nat.eqb_neq. tauto.
  Qed.
  Lemma others_nodup k : NoDup (others n k).
  Proof. apply NoDup_filter, seq_NoDup. Qed.

  Lemma inner_ok k c i : (k < n)%nat -> (i < n)%nat -> i <> k -> forall js d, square d -> NoDup js -> (forall j, In j js -> (j < n)%nat /\ j <> k) ->
    square (ap_inner k c i js d) /\
    forall a b, mget (ap_inner k c i js d) a b = if Nat.eqb a i && inl b js then mget d i b + mget d i k * c * mget d k b else mget d a b.
  Proof.
    intros Hk Hi Nik. induction js as [|j js IH]; intros d Sq Nd H; cbn [ap_inner fold_left].
    - split; auto. intros a b. cbn. rewrite andb_false_r. auto.
    - apply NoDup_cons_iff in Nd as [Nj Nd]. destruct (H j (or_introl eq_refl)) as [Hj Njk].
      set (d' := mset d i j (mget d i j + mget d i k * c * mget d k j)).
      assert (Sq' : square d') by (apply square_mset; auto).
      destruct (IH d' Sq' Nd) as [A B]; [intros; apply H; right; auto|]. split; auto. fold (ap_inner k c i js d'). intros a b. rewrite B.
      unfold d'. rewrite !mget_mset by auto. rewrite Nat.eqb_refl. destruct (Nat.eqb_spec k i) as [->|_]; [congruence|]. destruct (Nat.eqb_spec k j) as [->|_]; [congruence|].
      cbn [andb]. unfold inl at 2. cbn [existsb]. fold (inl b js). destruct (Nat.eqb_spec a i) as [->|]; cbn [andb]; auto.
      destruct (Nat.eqb_spec b j) as [->|]; cbn [orb]; auto. rewrite inl_notin by auto. auto.
  Qed.

  Lemma outer_ok k c : (k < n)%nat -> forall is_ d, square d -> NoDup is_ -> (forall i, In i is_ -> (i < n)%nat /\ i <> k) ->
    square (fold_left (fun d i => ap_inner k c i (others n k) d) is_ d) /\
    forall a b, mget (fold_left (fun d i => ap_inner k c i (others n k) d) is_ d) a b =
      if inl a is_ && inl b (others n k) then mget d a b + mget d a k * c * mget d k b else mget d a b.
  Proof.
    intros Hk. induction is_ as [|i is_ IH]; intros d Sq Nd H; cbn [fold_left]; auto.
    apply NoDup_cons_iff in Nd as [Ni Nd]. destruct (H i (or_introl eq_refl)) as [Hi Nik].
    destruct (inner_ok k c i Hk Hi Nik (others n k) d Sq (others_nodup k)) as [Sq' B]; [apply others_In|].
    destruct (IH (ap_inner k c i (others n k) d) Sq' Nd) as [A C]; [intros; apply H; right; auto|]. split; auto. intros a b. rewrite C, !B.
    assert (inl k (others n k) = false) as -> by (apply inl_notin; rewrite others_In; tauto). rewrite andb_false_r.
    destruct (Nat.eqb_spec k i) as [->|_]; [congruence|]. cbn [andb]. change (inl a (i :: is_)) with (Nat.eqb a i || inl a is_).
    destruct (Nat.eqb_spec a i) as [->|]; cbn [andb orb]; auto. rewrite (inl_notin i is_) by auto. cbn [andb]. auto.
  Qed.

  Lemma cross_ok k c : (k < n)%nat -> forall is_ d, square d -> NoDup is_ -> (forall i, In i is_ -> (i < n)%nat /\ i <> k) ->
    square (ap_cross k c is_ d) /\
    forall a b, mget (ap_cross k c is_ d) a b =
      if Nat.eqb a k && inl b is_ then c * mget d k b else if inl a is_ && Nat.eqb b k then mget d a k * c else mget d a b.
  Proof.
    intros Hk. induction is_ as [|i is_ IH]; intros d Sq Nd H; cbn [ap_cross fold_left].
    - split; auto. intros a b. cbn. rewrite andb_false_r. auto.
    - apply NoDup_cons_iff in Nd as [Ni Nd]. destruct (H i (or_introl eq_refl)) as [Hi Nik].
      set (d1 := mset d k i (c * mget d k i)). set (d2 := mset d1 i k (mget d1 i k * c)).
      assert (Sq1 : square d1) by (apply square_mset; auto). assert (Sq2 : square d2) by (apply square_mset; auto).
      destruct (IH d2 Sq2 Nd) as [A B]; [intros; apply H; right; auto|]. split; auto. fold (ap_cross k c is_ d2). intros a b. rewrite B.
      assert (E : forall x y, mget d2 x y = if Nat.eqb x i && Nat.eqb y k then mget d i k * c else if Nat.eqb x k && Nat.eqb y i then c * mget d k i else mget d x y).
      { intros x y. unfold d2. rewrite mget_mset by auto. destruct (_ && _); [|unfold d1; apply mget_mset; auto]. unfold d1. rewrite mget_mset by auto.
        destruct (Nat.eqb_spec i k); [congruence|]. auto. }
      rewrite !E. change (inl a (i :: is_)) with (Nat.eqb a i || inl a is_). change (inl b (i :: is_)) with (Nat.eqb b i || inl b is_).
      assert (Nki : Nat.eqb k i = false) by (apply Nat.eqb_neq; auto). assert (Nik' : Nat.eqb i k = false) by (apply Nat.eqb_neq; auto).
      assert (Ik : inl k is_ = false) by (apply inl_notin; intros X; apply (H k); [right; auto|auto]).
      assert (Ii : inl i is_ = false) by (apply inl_notin; auto).
      destruct (Nat.eqb_spec a k) as [->|Nak]; [|destruct (Nat.eqb_spec a i) as [->|Nai]];
        (destruct (Nat.eqb_spec b k) as [->|Nbk]; [|destruct (Nat.eqb_spec b i) as [->|Nbi]]);
        repeat (rewrite ?Nki, ?Nik', ?Ik, ?Ii, ?Nat.eqb_refl; cbn [andb orb]); auto; destruct (inl a is_); cbn [andb]; auto.
  Qed.

  Lemma round_ok closure k d : square d -> (k < n)%nat -> square (ap_round closure n d k) /\
    forall a b, (a < n)%nat -> (b < n)%nat ->
      mget (ap_round closure n d k) a b =
        if Nat.eqb a k then (if Nat.eqb b k then closure (mget d k k) else closure (mget d k k) * mget d k b)
        else if Nat.eqb b k then mget d a k * closure (mget d k k)
        else mget d a b + mget d a k * closure (mget d k k) * mget d k b.
  Proof.
    intros Sq Hk. unfold ap_round. set (c := closure (mget d k k)).
    destruct (outer_ok k c Hk (others n k) d Sq (others_nodup k)) as [S1 E1]; [apply others_In|].
    destruct (cross_ok k c Hk (others n k) _ S1 (others_nodup k)) as [S2 E2]; [apply others_In|].
    split; [apply square_mset; auto|]. intros a b Ha Hb. rewrite mget_mset by auto. rewrite E2, !E1, !inl_others.
    apply Nat.ltb_lt in Ha, Hb, Hk. rewrite Ha, Hb, Hk, Nat.eqb_refl. cbn [andb negb].
    destruct (Nat.eqb a k), (Nat.eqb b k); cbn [andb negb]; auto.
  Qed.

  (** ** The matrix of the nonempty paths with inner states below [k]. *)
  Variable closure : K -> K.
  Variable A : nat -> nat -> K.
  Fixpoint B (k : nat) (i j : nat) : K :=
    match k with
    | O => A i j
    | S k' => B k' i j + B k' i k' * closure (B k' k' k') * B k' k' j
    end.

  Definition star_at (x : K) : Prop := closure x = 1 + x * closure x /\ closure x = 1 + closure x * x.

  Lemma rounds_ok k d : square d -> (k <= n)%nat -> (forall i j, (i < n)%nat -> (j < n)%nat -> mget d i j = A i j) ->
    (forall q, (q < k)%nat -> star_at (B q q q)) ->
    square (fold_left (ap_round closure n) (seq 0 k) d) /\
    forall i j, (i < n)%nat -> (j < n)%nat ->
      mget (fold_left (ap_round closure n) (seq 0 k) d) i j = (if Nat.eqb i j && Nat.ltb j k then 1 else 0) + B k i j.
  Proof.
    intros Sq Hk H0 St. induction k as [|k IH]; [cbn [seq fold_left B]|].
    - split; auto. intros i j Hi Hj. replace (j <? 0)%nat with false by (symmetry; apply Nat.ltb_ge; lia). rewrite andb_false_r, (kplus_0_l _ L). auto.
    - rewrite seq_S, fold_left_app. cbn [fold_left Nat.add].
      destruct IH as [S1 E1]; [lia|intros; apply St; lia|]. set (D := fold_left _ (seq 0 k) d) in *.
      destruct (round_ok closure k D S1 ltac:(lia)) as [S2 E2]. split; auto. intros i j Hi Hj. rewrite E2 by auto. rewrite !E1 by (auto; lia).
      rewrite Nat.eqb_refl, Nat.ltb_irrefl. cbn [andb]. rewrite !(kplus_0_l _ L).
      destruct (St k ltac:(lia)) as [Sa Sb]. set (c := closure (B k k k)) in *. cbn [B]. fold c.
      assert (Ek : forall j, B k k j + B k k k * c * B k k j = c * B k k j).
      { intros q. rewrite Sa at 2. rewrite (kdistr_r _ L), (ktimes_1_l _ L). auto. }
      assert (El : forall i, B k i k + B k i k * c * B k k k = B k i k * c).
      { intros q. rewrite Sb at 2. rewrite (kdistr_l _ L), (ktimes_1_r _ L), (ktimes_assoc _ L). auto. }
      destruct (Nat.eqb_spec i k) as [->|Ni], (Nat.eqb_spec j k) as [->|Nj]; cbn [andb].
      + rewrite Nat.eqb_refl. replace (k <? S k)%nat with true by (symmetry; apply Nat.ltb_lt; lia). cbn [andb].
        rewrite El. rewrite Sa at 1. auto.
      + destruct (Nat.eqb_spec k j); [congruence|]. cbn [andb]. rewrite !(kplus_0_l _ L). rewrite Ek. auto.
      + destruct (Nat.eqb_spec i k); [congruence|]. cbn [andb]. rewrite !(kplus_0_l _ L). rewrite El. auto.
      + destruct (Nat.eqb_spec k j); [congruence|]. destruct (Nat.eqb_spec i k); [congruence|]. cbn [andb]. rewrite !(kplus_0_l _ L).
        rewrite (kplus_assoc _ L). f_equal. f_equal. destruct (Nat.ltb_spec j k), (Nat.ltb_spec j (S k)); auto; lia.
  Qed.

  Lemma ksum_seq_S (F : nat -> K) k : ksum (map F (seq 0 (S k))) = ksum (map F (seq 0 k)) + F k.
  Proof. rewrite seq_S, map_app, (ksum_app L). cbn. rewrite (kplus_0_r L). auto. Qed.

  Lemma B_left k : (forall q, (q < k)%nat -> star_at (B q q q)) -> forall i j,
    B k i j = A i j + ksum (map (fun q => A i q * B k q j) (seq 0 k)).
  Proof.
    induction k as [|k IH]; intros St i j; [cbn; rewrite (kplus_0_r L); auto|].
    assert (IH' : forall i j, B k i j = A i j + ksum (map (fun q => A i q * B k q j) (seq 0 k))) by (apply IH; intros; apply St; lia).
    destruct (St k ltac:(lia)) as [Sa Sb]. set (c := closure (B k k k)) in *.
    assert (Ek : forall j, B k k j + B k k k * c * B k k j = c * B k k j).
    { intros q. rewrite Sa at 2. rewrite (kdistr_r _ L), (ktimes_1_l _ L). auto. }
    rewrite ksum_seq_S. cbn [B]. fold c. rewrite (IH' i j), (IH' i k), Ek.
    rewrite !(kdistr_r _ L), <- (kplus_assoc _ L). f_equal.
    rewrite (kplus_comm _ L (A i k * c * B k k j)), (kplus_assoc _ L). f_equal; [|symmetry; apply (ktimes_assoc _ L)].
    rewrite (ksum_times_r L), map_map, (ksum_times_r L), map_map, <- (ksum_map_plus L). apply ksum_map_ext. intros q _.
    rewrite (kdistr_l _ L), !(ktimes_assoc _ L). auto.
  Qed.

  Lemma B_right k : (forall q, (q < k)%nat -> star_at (B q q q)) -> forall i j,
    B k i j = A i j + ksum (map (fun q => B k i q * A q j) (seq 0 k)).
  Proof.
    induction k as [|k IH]; intros St i j; [cbn; rewrite (kplus_0_r L); auto|].
    assert (IH' : forall i j, B k i j = A i j + ksum (map (fun q => B k i q * A q j) (seq 0 k))) by (apply IH; intros; apply St; lia).
    destruct (St k ltac:(lia)) as [Sa Sb]. set (c := closure (B k k k)) in *.
    assert (El : forall i, B k i k + B k i k * c * B k k k = B k i k * c).
    { intros q. rewrite Sb at 2. rewrite (kdistr_l _ L), (ktimes_1_r _ L), (ktimes_assoc _ L). auto. }
    rewrite ksum_seq_S. cbn [B]. fold c. rewrite (IH' i j), (IH' k j), El.
    rewrite !(kdistr_l _ L), <- (kplus_assoc _ L). f_equal.
    rewrite (kplus_comm _ L (B k i k * c * A k j)), (kplus_assoc _ L). f_equal.
    rewrite (ksum_times_l L), map_map, <- (ksum_map_plus L). apply ksum_map_ext. intros q _.
    rewrite (kdistr_r _ L), !(ktimes_assoc _ L). auto.
  Qed.
End Matrix.

Section Init.
  Context {K : SR} (L : sr_laws K) (f : vfst K) (C : closed f).
  Let n := num_states f.

  (** The total weight of the transitions from [i] to [j]. *)
  Definition step (i j : nat) : K := ksum (map (fun t => if Nat.eqb (ns t) j then wgt t else 0) (trs_of f i)).

  Lemma square_0 : square n (repeat (repeat (0 : K) n) n).
  Proof.
    split; [apply repeat_length|]. intros i Hi. rewrite (nth_indep _ [] (repeat 0 n)) by (rewrite repeat_length; auto).
    rewrite nth_repeat. apply repeat_length.
  Qed.
  Lemma mget_0 i j : mget (repeat (repeat (0 : K) n) n) i j = 0.
  Proof.
    unfold mget. destruct (Nat.lt_ge_cases i n) as [Hi|Hi].
    - rewrite (nth_indep _ [] (repeat 0 n)) by (rewrite repeat_length; auto). rewrite !nth_repeat. auto.
    - rewrite (nth_overflow (repeat (repeat _ _) _)) by (rewrite repeat_length; auto). destruct j; auto.
  Qed.

  Lemma row_ok s : (s < n)%nat -> forall l (d : list (list K)), square n d -> (forall t, In t l -> (ns t < n)%nat) ->
    exists d', ap_row n s (Ok d) l = Ok d' /\ square n d' /\
      forall i j, mget d' i j = if Nat.eqb i s then mget d s j + ksum (map (fun t => if Nat.eqb (ns t) j then wgt t else 0) l) else mget d i j.
  Proof.
    intros Hs. induction l as [|t l IH]; intros d Sq H.
    - exists d. split; [reflexivity|]. split; auto. intros i j. cbn. rewrite (kplus_0_r L). destruct (Nat.eqb_spec i s); subst; auto.
    - unfold ap_row. cbn [fold_left rbind]. pose proof (H t (or_introl eq_refl)) as Ht. destruct (Nat.ltb_spec (ns t) n); [|lia].
      destruct (IH (mset d s (ns t) (mget d s (ns t) + wgt t))) as (d' & E & Sq' & G); [apply square_mset; auto|intros; apply H; right; auto|].
      exists d'. split; [exact E|]. split; auto. intros i j. rewrite G, !(mget_mset n) by auto. rewrite Nat.eqb_refl. cbn [andb map ksum].
      destruct (Nat.eqb_spec i s) as [->|]; cbn [andb]; auto. rewrite (Nat.eqb_sym j (ns t)). destruct (Nat.eqb_spec (ns t) j) as [->|].
      + rewrite <- (kplus_assoc _ L). auto.
      + rewrite (kplus_0_l _ L). auto.
  Qed.

  Lemma init_ok : exists d, ap_init f = Ok d /\ square n d /\ forall i j, (i < n)%nat -> mget d i j = step i j.
  Proof.
    unfold ap_init. fold n.
    assert (H : forall k, (k <= n)%nat -> exists d, fold_left (fun r s => ap_row n s r (trs_of f s)) (seq 0 k) (Ok (repeat (repeat (0 : K) n) n)) = Ok d /\ square n d /\
      forall i j, mget d i j = if Nat.ltb i k then step i j else 0).
    { induction k as [|k IH]; intros Hk.
      - eexists. split; [reflexivity|]. split; [apply square_0|]. intros i j. cbn. apply mget_0.
      - destruct IH as (d & E & Sq & G); [lia|]. rewrite seq_S, fold_left_app. cbn [fold_left Nat.add]. rewrite E.
        destruct (row_ok k ltac:(lia) (trs_of f k) d Sq) as (d' & E' & Sq' & G'); [intros t Ht; apply (proj1 C k t Ht)|].
        exists d'. split; auto. split; auto. intros i j. rewrite G', !G. destruct (Nat.eqb_spec i k) as [->|].
        + rewrite Nat.ltb_irrefl. destruct (Nat.ltb_spec k (S k)); [|lia]. rewrite (kplus_0_l _ L). auto.
        + destruct (Nat.ltb_spec i k), (Nat.ltb_spec i (S k)); auto; lia. }
    destruct (H n (le_n n)) as (d & E & Sq & G). exists d. split; auto. split; auto. intros i j Hi. rewrite G. destruct (Nat.ltb_spec i n); auto. lia.
  Qed.

  Lemma adj_step T q : adj (mach f) n T q = ksum (map (fun p => T p * step p q) (seq 0 n)).
  Proof.
    unfold adj. apply ksum_map_ext. intros p _. unfold step. rewrite (ksum_times_l L), map_map. apply ksum_map_ext. intros t _.
    destruct (Nat.eqb (ns t) q); auto. symmetry. apply (ktimes_0_r _ L).
  Qed.
  Lemma step_out p q : (n <= q)%nat -> step p q = 0.
  Proof. intros Hq. apply (ksum_map_zero L). intros t Ht. destruct (Nat.eqb_spec (ns t) q); auto. pose proof (proj1 C p t Ht). fold n in H. lia. Qed.
End Init.

(** Finite sums of paths. *)
Section Sums.
  Context {K : SR} (L : sr_laws K) (m : machine K).

  Definition pathsum (ne : bool) (i j : nat) (v : K) : Prop := exists l, v = ksum (map pw l) /\
    forall p, In p l -> is_path m i p /\ dst i p = j /\ (ne = true -> p <> []).

  Lemma pathsum_plus ne i j v w : pathsum ne i j v -> pathsum ne i j w -> pathsum ne i j (v + w).
  Proof.
    intros (l & -> & H) (l' & -> & H'). exists (l ++ l'). rewrite map_app, (ksum_app L). split; auto.
    intros p Hp. apply in_app_iff in Hp as [Hp|Hp]; auto.
  Qed.
  Lemma pathsum_0 ne i j : pathsum ne i j 0.
  Proof. exists []. split; auto. intros p []. Qed.
  Lemma pathsum_weak ne i j v : pathsum ne i j v -> pathsum false i j v.
  Proof. intros (l & -> & H). exists l. split; auto. intros p Hp. destruct (H p Hp) as (A & B & _). repeat split; auto. discriminate. Qed.
  Lemma pathsum_1 i : pathsum false i i 1.
  Proof. exists [[]]. split; [cbn; symmetry; apply (kplus_0_r L)|]. intros p [<-|[]]. cbn. repeat split; auto. discriminate. Qed.
  Lemma pathsum_times ne ne' i j k v w : pathsum ne i j v -> pathsum ne' j k w -> pathsum (ne || ne') i k (v * w).
  Proof.
    intros (l & -> & H) (l' & -> & H'). exists (flat_map (fun p => map (fun q => p ++ q) l') l). split.
    - rewrite (ksum_times_r L), map_map. rewrite flat_map_concat_map, concat_map, map_map.
      induction l as [|p l IH]; cbn [map ksum concat]; auto. rewrite (ksum_app L), <- IH by (intros; apply H; right; auto). f_equal.
      rewrite map_map, (ksum_times_l L), map_map. apply ksum_map_ext. intros q _. symmetry. apply (pw_app L).
    - intros p Hp. apply in_flat_map in Hp as (p1 & H1 & Hp). apply in_map_iff in Hp as (p2 & <- & H2).
      destruct (H p1 H1) as (A1 & A2 & A3), (H' p2 H2) as (B1 & B2 & B3). split; [apply is_path_app; rewrite A2; auto|].
      rewrite dst_app, A2. split; auto. intros E X. apply app_eq_nil in X as [-> ->]. destruct ne, ne'; try discriminate; [apply A3|apply A3|apply B3]; auto.
  Qed.
End Sums.
