(** The cyclic minimizer computes a congruence, and separates only states that differ. *)
From Coq Require Import List Arith ZArith NArith Bool Lia Permutation Sorted.
From Verif Require Import Base.Util Base.Semiring Base.Machine Model.Props Model.VectorFst Model.TrOps Model.Rational Model.Partition Model.Minimize
  Proofs.VectorFacts Proofs.PartitionFacts Proofs.RationalFacts Proofs.TrOpsFacts Proofs.MergeFacts Proofs.CyclicHeap Proofs.CyclicRefine
  Props.C05 Props.C10 Props.C29.
Import ListNotations.

Lemma dedup_labels_In l : forall x, In x (dedup_labels l) <-> In x l.
Proof.
  induction l as [|a l IH]; intros x; [reflexivity|]. cbn [dedup_labels]. destruct l as [|b l']; [reflexivity|].
  destruct (Nat.eqb_spec a b) as [<-|]; [rewrite IH; simpl; tauto|]. cbn [In]. rewrite IH. simpl. tauto.
Qed.

(** A partition given by the class of each element, in order. *)
Lemma add_all N : forall l i p a, reach N p a -> i + length l <= N -> (forall e, i <= e -> acls a e = None) -> (forall c, In c l -> c < anum a) ->
  exists p', rfold (fun p e => p_add p (fst e) (snd e)) (combine (seq i (length l)) l) p = Ok p' /\
    exists a', reach N p' a' /\ amark a' = amark a /\ anum a' = anum a /\
      forall e, acls a' e = if e <? i then acls a e else nth_error l (e - i).
Proof.
  induction l as [|c l IH]; intros i p a R Hl Hn Hc.
  - exists p. split; [reflexivity|]. exists a. split; auto. split; auto. split; auto. intros e. destruct (Nat.ltb_spec e i); auto.
    rewrite Hn by auto. destruct (e - i); auto.
  - cbn [length seq combine]. rewrite rfold_cons. cbn [fst snd].
    destruct (C29_progress N p a R) as (_ & Pa & _). simpl in Hl.
    destruct (Pa i c) as (p1 & E1); [lia|apply Hc; left; auto|apply Hn; auto|]. rewrite E1. cbn [rbind].
    pose proof (r_add N p a i c p1 R ltac:(lia) (Hc c (or_introl eq_refl)) (Hn i (le_n i)) E1) as R1.
    destruct (IH (S i) p1 _ R1) as (p' & E' & a' & R' & M' & N' & A').
    { lia. } { intros e He. cbn [acls]. rewrite put_ne by lia. apply Hn. lia. } { intros d Hd. cbn [anum]. apply Hc. right; auto. }
    exists p'. split; auto. exists a'. split; auto. split; auto. split; auto. intros e. rewrite A'. cbn [acls].
    destruct (Nat.ltb_spec e (S i)), (Nat.ltb_spec e i); try lia.
    + rewrite put_ne by lia. auto.
    + assert (e = i) by lia. subst e. rewrite put_eq, Nat.sub_diag. auto.
    + replace (e - i) with (S (e - S i)) by lia. auto.
Qed.

(** A partition with every element in a class, no class empty and nothing marked. *)
Lemma total_parts N p a : reach N p a -> total N a -> (forall e, amark a e = false) ->
  parts N p (fun e => match acls a e with Some c => c | None => 0 end) (anum a).
Proof.
  intros R [T1 T2] M. pose proof (C29_partition N p a R) as (S1 & S2 & S3). split; auto. split.
  - intros e He. apply T1 in He. destruct (acls a e) as [c|] eqn:E; [|congruence]. destruct (S2 e c E) as (_ & A & B). auto.
  - intros c Hc. destruct (S3 c Hc) as (_ & l & El & Nd & Il). exists l. split; auto. split; auto.
    assert (I : forall e, In e l <-> e < N /\ match acls a e with Some c => c | None => 0 end = c).
    { intros e. rewrite Il. split.
      - intros [E _]. rewrite E. split; auto. apply (S2 e c E).
      - intros [He E]. split; auto. apply T1 in He. destruct (acls a e); congruence. }
    split; auto. destruct (T2 c Hc) as (e & E). intros ->. apply (proj2 (I e)). rewrite E. split; auto. apply (S2 e c E).
Qed.

Section C.
  Context {K K' : SR} (L' : psr_laws K') (rv : K -> K') (orc : nat -> nat).
  Implicit Types (f : vfst K).

  Definition isfin f (s : nat) : bool := match fin_of f s with Some _ => true | None => false end.
  Definition labels f (s : nat) : list nat := dedup_labels (map il (trs_of f s)).

  Lemma lm_find_cons x c m l : lm_find ((x, c) :: m) l = if leqb x l then Some c else lm_find m l.
  Proof. reflexivity. Qed.

  Record pre_inv f (i : nat) (x : prest) : Prop := PreInv {
    pi_len : length (pr_cls x) = i;
    pi_lt : forall c, In c (pr_cls x) -> c < pr_next x;
    pi_onto : forall c, c < pr_next x -> In c (pr_cls x);
    pi_same : forall s t, s < i -> t < i -> (nth s (pr_cls x) 0 = nth t (pr_cls x) 0 <-> isfin f s = isfin f t /\ labels f s = labels f t);
    pi_find : forall (b : bool) ls c, lm_find (if b then pr_fin x else pr_non x) ls = Some c ->
      exists s, s < i /\ nth s (pr_cls x) 0 = c /\ isfin f s = b /\ labels f s = ls;
    pi_all : forall s, s < i -> lm_find (if isfin f s then pr_fin x else pr_non x) (labels f s) = Some (nth s (pr_cls x) 0) }.

  Lemma leqb_sym a b : leqb a b = leqb b a.
  Proof.
    destruct (leqb a b) eqn:X.
    - apply leqb_true in X. subst. symmetry. apply leqb_true. auto.
    - destruct (leqb b a) eqn:Y; auto. apply leqb_true in Y. subst. rewrite (proj2 (leqb_true a a) eq_refl) in X. discriminate.
  Qed.

  Lemma pre_step f i x : i < num_states f -> pre_inv f i x -> exists y, pre_state f x i = Ok y /\ pre_inv f (S i) y.
  Proof.
    intros Hi [P1 P2 P3 P4 P5 P6]. unfold pre_state. rewrite (proj2 (Nat.ltb_lt _ _) Hi). fold (isfin f i). fold (labels f i).
    assert (Old : forall c s, s < i -> nth s (pr_cls x ++ [c]) 0 = nth s (pr_cls x) 0) by (intros; apply app_nth1; lia).
    assert (New : forall c, nth i (pr_cls x ++ [c]) 0 = c) by (intros; rewrite app_nth2, P1, Nat.sub_diag by lia; auto).
    destruct (lm_find (if isfin f i then pr_fin x else pr_non x) (labels f i)) as [c|] eqn:Ef.
    - destruct (P5 _ _ _ Ef) as (s0 & H0 & H1 & H2 & H3). eexists. split; [reflexivity|]. constructor; cbn [pr_fin pr_non pr_next pr_cls].
      + rewrite app_length. simpl. lia.
      + intros d Hd. apply in_app_iff in Hd as [Hd|[<-|[]]]; auto. apply P2. rewrite <- H1. apply nth_In. lia.
      + intros d Hd. apply in_app_iff. auto.
      + assert (Ri : forall s, s < i -> (nth s (pr_cls x) 0 = c <-> isfin f s = isfin f i /\ labels f s = labels f i)).
        { intros s Hs. rewrite <- H1, <- H2, <- H3. apply P4; auto. }
        intros s t Hs Ht. destruct (Nat.eq_dec s i) as [->|Ns], (Nat.eq_dec t i) as [->|Nt]; rewrite ?New, ?Old by lia; [tauto| | |apply P4; lia].
        * specialize (Ri t ltac:(lia)). split; [intros H; symmetry in H; apply Ri in H as [-> ->]; auto|intros [H H']; symmetry; apply Ri; auto].
        * apply Ri. lia.
      + intros b ls d Hd. destruct (P5 b ls d Hd) as (s & A & B & C). exists s. rewrite Old by auto. split; [lia|auto].
      + intros s Hs. destruct (Nat.eq_dec s i) as [->|Ns]; [rewrite New; auto|rewrite Old by lia; apply P6; lia].
    - eexists. split; [reflexivity|]. constructor; cbn [pr_fin pr_non pr_next pr_cls].
      + rewrite app_length. simpl. lia.
      + intros d Hd. apply in_app_iff in Hd as [Hd|[<-|[]]]; [apply P2 in Hd; lia|lia].
      + intros d Hd. apply in_app_iff. destruct (Nat.eq_dec d (pr_next x)) as [->|]; [right; left; auto|left; apply P3; lia].
      + assert (Ri : forall s, s < i -> (nth s (pr_cls x) 0 = pr_next x <-> isfin f s = isfin f i /\ labels f s = labels f i)).
        { intros s Hs. split.
          - intros H. assert (X : In (nth s (pr_cls x) 0) (pr_cls x)) by (apply nth_In; lia). apply P2 in X. lia.
          - intros [A B]. specialize (P6 s Hs). rewrite A, B, Ef in P6. discriminate. }
        intros s t Hs Ht. destruct (Nat.eq_dec s i) as [->|Ns], (Nat.eq_dec t i) as [->|Nt]; rewrite ?New, ?Old by lia; [tauto| | |apply P4; lia].
        * specialize (Ri t ltac:(lia)). split; [intros H; symmetry in H; apply Ri in H as [-> ->]; auto|intros [H H']; symmetry; apply Ri; auto].
        * apply Ri. lia.
      + intros b ls d Hd.
        assert (X : (b = isfin f i /\ ls = labels f i /\ d = pr_next x) \/ lm_find (if b then pr_fin x else pr_non x) ls = Some d).
        { destruct b, (isfin f i) eqn:Efi; auto; rewrite lm_find_cons in Hd; destruct (leqb (labels f i) ls) eqn:El; auto;
            apply leqb_true in El; left; split; auto; split; congruence. }
        destruct X as [(-> & -> & ->)|X]; [exists i; rewrite New; auto|].
        destruct (P5 b ls d X) as (s & A & B & C). exists s. rewrite Old by auto. split; [lia|auto].
      + intros s Hs. destruct (Nat.eq_dec s i) as [->|Ns].
        * rewrite New. destruct (isfin f i); rewrite lm_find_cons, (proj2 (leqb_true _ _) eq_refl); auto.
        * rewrite Old by lia. specialize (P6 s ltac:(lia)).
          destruct (isfin f s) eqn:Es, (isfin f i) eqn:Ei; auto; rewrite lm_find_cons; destruct (leqb (labels f i) (labels f s)) eqn:El; auto;
            apply leqb_true in El; rewrite El, P6 in Ef; discriminate.
  Qed.

  Lemma pre_all f : forall k i x, i + k <= num_states f -> pre_inv f i x ->
    exists y, rfold (pre_state f) (seq i k) x = Ok y /\ pre_inv f (i + k) y.
  Proof.
    induction k as [|k IH]; intros i x H P; [exists x; rewrite Nat.add_0_r; split; [reflexivity|auto]|].
    cbn [seq]. rewrite rfold_cons. destruct (pre_step f i x ltac:(lia) P) as (y & -> & Py). cbn [rbind].
    destruct (IH (S i) y ltac:(lia) Py) as (z & Ez & Pz). exists z. split; auto. replace (i + S k) with (S i + k) by lia. auto.
  Qed.

  Lemma pre_partition_ok f : exists p a, pre_partition f (partition_new (num_states f)) = Ok (p, rev (seq 0 (anum a))) /\
    reach (num_states f) p a /\ total (num_states f) a /\ (forall e, amark a e = false) /\
    forall s t, s < num_states f -> t < num_states f -> (acls a s = acls a t <-> isfin f s = isfin f t /\ labels f s = labels f t).
  Proof.
    set (N := num_states f). unfold pre_partition. fold N.
    destruct (pre_all f N 0 (PR [] [] 0 [])) as (x & -> & [P1 P2 P3 P4 P5 P6]); [unfold N; lia| |].
    { constructor; simpl; try lia; try tauto. intros b ls c. destruct b; discriminate. }
    cbn [rbind plus] in *.
    pose proof (r_allocate N _ _ (pr_next x) (r_start N)) as R0.
    destruct (add_all N (pr_cls x) 0 _ _ R0) as (p & Ep & a & R & Ma & Na & Aa).
    { lia. } { auto. } { cbn [anum]. intros c Hc. apply P2 in Hc. lia. }
    rewrite P1 in Ep. rewrite Ep. cbn [rbind]. exists p, a. cbn [anum plus] in Na. rewrite Na. split; auto. split; auto.
    assert (A : forall e, acls a e = nth_error (pr_cls x) e) by (intros e; rewrite Aa, Nat.sub_0_r; reflexivity).
    split; [split|split].
    - intros e. rewrite A, nth_error_Some, P1. reflexivity.
    - intros c Hc. rewrite Na in Hc. apply P3 in Hc. apply In_nth_error in Hc as (e & He). exists e. rewrite A. auto.
    - intros e. rewrite Ma. auto.
    - intros s t Hs Ht. rewrite !A, !(nth_error_nth' (pr_cls x) 0) by lia. rewrite <- P4 by auto. split; [intros [= ->]; auto|intros ->; auto].
  Qed.

  Context (f : vfst K) (D : nat -> nat -> Prop).
  Notation N := (num_states f).
  Definition edge (s a u : nat) : Prop := exists t, In t (trs_of f s) /\ il t = a /\ ns t = u.
  Context (Hc : closed f) (HD : forall s, NoDup (map il (trs_of f s))).
  Context (Dsym : forall s t, D s t -> D t s) (Dstep : forall s t a u v, edge s a u -> edge t a v -> D u v -> D s t).
  Context (Dbase : forall s t, s < N -> t < N -> isfin f s <> isfin f t \/ labels f s <> labels f t -> D s t).

  Lemma NoDup_map_inv' {A B} (g : A -> B) l x y : NoDup (map g l) -> In x l -> In y l -> g x = g y -> x = y.
  Proof.
    induction l as [|z l IH]; simpl; [tauto|]. intros Nd. inversion Nd as [|? ? H1 H2]; subst. intros [->|Hx] [->|Hy] E; auto.
    - exfalso. apply H1. rewrite E. apply in_map. auto.
    - exfalso. apply H1. rewrite <- E. apply in_map. auto.
  Qed.
  Lemma edge_det s a u v : edge s a u -> edge s a v -> u = v.
  Proof. intros (t & H1 & H2 & H3) (t' & H1' & H2' & H3'). assert (t = t') by (eapply NoDup_map_inv'; eauto; congruence). congruence. Qed.
  Lemma edge_lt s a u : edge s a u -> s < N /\ u < N.
  Proof.
    intros (t & H1 & H2 & <-). split; [|apply (proj1 Hc s t H1)]. destruct (Nat.lt_ge_cases s N) as [H|H]; auto.
    rewrite trs_of_oob in H1 by auto. destruct H1.
  Qed.

  Theorem cyclic_ok : exists p cls k, cyclic_minimize rv orc f = Ok p /\ parts N p cls k /\
    (forall s t, s < N -> t < N -> cls s = cls t ->
       isfin f s = isfin f t /\ forall x, In x (trs_of f s) -> exists y, In y (trs_of f t) /\ il y = il x /\ cls (ns y) = cls (ns x)) /\
    (forall s t, s < N -> t < N -> cls s <> cls t -> D s t).
  Proof.
    unfold cyclic_minimize. destruct (reverse_eff rv f Hc) as (g0 & -> & G1 & _ & _ & _ & _ & _ & G2 & _). cbn [rbind].
    destruct (C10_tr_sort L' g0) as [(g & -> & (S1 & _ & _ & S2 & S3 & _) & _) _]. cbn [rbind]. rewrite S1, G1.
    destruct (pre_partition_ok f) as (p & a & -> & R & T & Mk & Sm). cbn [rbind fst snd].
    assert (Lab : forall s x, In x (trs_of f s) -> In (il x) (labels f s)) by (intros s x Hx; unfold labels; apply dedup_labels_In, in_map; auto).
    assert (Hg : forall s, s < N -> exists l, get_trs g (s + 1) = Ok l /\ StronglySorted le (map il l) /\
      (forall t, In t l -> exists r, ns t = Datatypes.S r /\ edge r (il t) s) /\
      (forall r b, edge r b s -> exists t, In t l /\ il t = b /\ ns t = Datatypes.S r)).
    { intros s Hs. exists (trs_of g (s + 1)). rewrite Nat.add_1_r. split; [|split; [|split]].
      - unfold get_trs, get_state, trs_of. destruct (nth_error (vstates g) (S s)) eqn:E; auto.
        apply nth_error_None in E. unfold num_states in S1, G1. unfold num_states in Hs. lia.
      - apply S3.
      - intros t Ht. apply (Permutation_in _ (S2 (S s))) in Ht. rewrite G2 in Ht by auto. apply in_flat_map in Ht as (r & Hr & Ht).
        unfold rev_trs in Ht. apply in_map_iff in Ht as (x & <- & Hx). apply filter_In in Hx as [Hx E]. apply Nat.eqb_eq in E.
        exists r. unfold rt. cbn [ns il]. split; [apply Nat.add_1_r|]. exists x. auto.
      - intros r b He. pose proof (edge_lt _ _ _ He) as [Hr _]. destruct He as (x & Hx & <- & Ex).
        exists (Tr (il x) (ol x) (rv (wgt x)) (S r)). split; [|auto]. apply (Permutation_in _ (Permutation_sym (S2 (S s)))). rewrite G2 by auto.
        apply in_flat_map. exists r. split; [apply in_seq; lia|]. unfold rev_trs. apply in_map_iff. exists x.
        split; [unfold rt; rewrite Nat.add_1_r; auto|]. apply filter_In. split; auto. apply Nat.eqb_eq. auto. }
    destruct (cyc_loop_ok N edge D edge_det edge_lt Dsym Dstep orc g Hg (S N) p a (rev (seq 0 (anum a))) 0) as (p' & a' & -> & R' & T' & F' & Mk' & P' & Rf'); auto.
    - split.
      + intros s t l u Est (x & Hx & E1 & E2). assert (Hs : s < N) by (apply (edge_lt s l u); exists x; auto).
        assert (Ht : t < N). { apply T. rewrite <- Est. apply T. auto. }
        apply Sm in Est; auto. destruct Est as [_ El]. specialize (Lab s x Hx). rewrite El in Lab. unfold labels in Lab. apply (proj1 (dedup_labels_In _ _)) in Lab.
        apply in_map_iff in Lab as (y & Ey & Hy). exists (ns y), y. split; auto. split; congruence.
      + intros s t Hs Ht Ne. apply Dbase; auto. destruct (bool_dec (isfin f s) (isfin f t)) as [E|]; auto. right. intros E'. apply Ne. apply Sm; auto.
    - intros s t l u v H Eu Ev. right; left. destruct (edge_lt _ _ _ Eu) as [_ Hu]. apply T in Hu. destruct (acls a u) as [c|] eqn:Ec; [|congruence].
      exists c. split; auto. apply in_rev. rewrite rev_involutive. apply in_seq. pose proof (C29_partition N p a R) as (_ & X & _).
      destruct (X u c Ec) as (_ & Y & _). lia.
    - rewrite rev_length, seq_length. lia.
    - intros c Hq. apply in_rev in Hq. apply in_seq in Hq. lia.
    - exists p', (fun e => match acls a' e with Some c => c | None => 0 end), (anum a'). split; auto.
      split; [apply total_parts; auto|].
      assert (Q : forall s t, s < N -> t < N -> (match acls a' s with Some c => c | None => 0 end = match acls a' t with Some c => c | None => 0 end <-> acls a' s = acls a' t)).
      { intros s t Hs Ht. apply T' in Hs, Ht. destruct (acls a' s), (acls a' t); try congruence. split; congruence. }
      split.
      + intros s t Hs Ht E. apply Q in E; auto. pose proof (Rf' _ _ E) as E0. apply Sm in E0; auto. split; [apply E0|].
        intros x Hx. assert (Ex : edge s (il x) (ns x)) by (exists x; auto). destruct (proj1 F' s t _ _ E Ex) as (v & Ev).
        pose proof (P' s t _ _ _ E Ex Ev) as [X|[(c & _ & [])|[(c & _ & [])|[_ [[[] _]|[[] _]]]]]].
        destruct (edge_lt _ _ _ Ex) as [_ Hx']. destruct (edge_lt _ _ _ Ev) as [_ Hv]. destruct Ev as (y & Hy & E1 & E2). exists y. split; auto. split; auto.
        subst v. apply Q; auto.
      + intros s t Hs Ht Ne. apply (proj2 F'); auto. intros X. apply Ne. apply Q; auto.
  Qed.
End C.
