(** Hopcroft's refinement: what the loop over the queue of splitters achieves. *)
From Coq Require Import List Arith ZArith NArith Bool Lia Permutation Sorted.
From Verif Require Import Base.Util Base.Semiring Base.Machine Model.VectorFst Model.Rational Model.Partition Model.Minimize
  Proofs.PartitionFacts Proofs.RationalFacts Proofs.CyclicHeap Props.C29.
Import ListNotations.

Section R.
  (** [E s a u]: a transition from [s] to [u] with label [a]; [D]: states told apart. *)
  Context (N : nat) (E : nat -> nat -> nat -> Prop) (D : nat -> nat -> Prop).
  Context (Edet : forall s a u v, E s a u -> E s a v -> u = v) (Elt : forall s a u, E s a u -> s < N /\ u < N).
  Context (Dsym : forall s t, D s t -> D t s) (Dstep : forall s t a u v, E s a u -> E t a v -> D u v -> D s t).
  Implicit Types (p : partition) (a : apart).

  Definition total a : Prop := (forall e, e < N <-> acls a e <> None) /\ (forall c, c < anum a -> exists e, acls a e = Some c).
  Definition inq a (q : list nat) (u : nat) : Prop := exists c, acls a u = Some c /\ In c q.
  Definition qok a (q : list nat) : Prop := forall c, In c q -> c < anum a.
  (** Classes only hold states with the same labels, and separate only states told apart. *)
  Definition fine a : Prop :=
    (forall s t l u, acls a s = acls a t -> E s l u -> exists v, E t l v) /\
    (forall s t, s < N -> t < N -> acls a s <> acls a t -> D s t).
  (** The splitters still to process account for every disagreement. *)
  Definition pending a (q : list nat) (S : nat -> Prop) (done : nat -> Prop) : Prop :=
    forall s t l u v, acls a s = acls a t -> E s l u -> E t l v ->
      acls a u = acls a v \/ inq a q u \/ inq a q v \/ (~ done l /\ ((S u /\ ~ S v) \/ (S v /\ ~ S u))).

  Lemma finalize_step p a q S done (done' : nat -> Prop) : reach N p a -> total a -> fine a -> qok a q -> pending a q S done ->
    (forall l, done' l -> done l \/ forall s t u v, acls a s = acls a t -> amark a s = amark a t -> E s l u -> E t l v -> (S u <-> S v)) ->
    (forall s t, s < N -> t < N -> acls a s = acls a t -> amark a s <> amark a t -> D s t) ->
    exists p' q' a', finalize_into p q = Ok (p', q') /\ reach N p' a' /\ total a' /\ fine a' /\ qok a' q' /\ pending a' q' S done' /\
      (forall e, amark a' e = false) /\ length q' + anum a = length q + anum a' /\
      (forall s t, acls a' s = acls a' t -> acls a s = acls a t).
  Proof.
    intros R (T1 & T2) (F1 & F2) Qk0 P Hd Hm. destruct (C29_finalize N p a R) as (p' & q0 & Ef & A & B & Cq & Z).
    pose proof (C29_partition N p a R) as (Sh1 & Sh2 & _).
    set (cls := fun e => match acls a e with None => None | Some _ => match p_class_id p' e with Ok c => Some c | _ => None end end).
    assert (Cls : forall e, e < N -> exists c d, acls a e = Some c /\ p_class_id p' e = Ok d /\ cls e = Some d /\ (d = c \/ In d q0)).
    { intros e He. apply T1 in He. destruct (acls a e) as [c|] eqn:Ec; [|congruence]. destruct (A e c e c Ec Ec) as (d & _ & E1 & _ & _ & E2).
      exists c, d. unfold cls. rewrite Ec, E1. auto. }
    set (a' := Ap cls (fun _ => false) (p_num_classes p')).
    assert (R' : reach N p' a').
    { eapply r_finalize; eauto.
      - intros e He. unfold cls. rewrite He. auto.
      - intros e c He. assert (Hn : e < N) by (apply T1; congruence). destruct (Cls e Hn) as (c' & d & X1 & X2 & X3 & _). eauto. }
    assert (Same : forall s t, s < N -> t < N -> (cls s = cls t <-> acls a s = acls a t /\ amark a s = amark a t)).
    { intros s t Hs Ht. destruct (Cls s Hs) as (c & d & X1 & X2 & X3 & _), (Cls t Ht) as (c' & d' & Y1 & Y2 & Y3 & _).
      destruct (A s c t c' X1 Y1) as (e1 & e2 & Z1 & Z2 & Z3 & _). assert (e1 = d) by congruence. assert (e2 = d') by congruence. subst e1 e2.
      rewrite X3, Y3, X1, Y1. split.
      - intros [= Hd']. apply Z3 in Hd' as [-> ->]. auto.
      - intros [[= ->] H]. f_equal. apply Z3. auto. }
    assert (None' : forall e, cls e = None <-> acls a e = None).
    { intros e. unfold cls at 1. destruct (acls a e) as [c|] eqn:Ec; [|tauto]. assert (Hn : e < N) by (apply T1; congruence).
      destruct (Cls e Hn) as (_ & d & _ & X & _). rewrite X. split; discriminate. }
    assert (Ref : forall s t, cls s = cls t -> acls a s = acls a t).
    { intros s t H. destruct (cls s) as [d|] eqn:Es.
      - assert (s < N) by (apply T1; intros X; apply None' in X; congruence). assert (t < N) by (apply T1; intros X; apply None' in X; congruence).
        apply Same; congruence.
      - rewrite (proj1 (None' s) Es). symmetry. apply None'. auto. }
    exists p', (rev q0 ++ q), a'. split; [unfold finalize_into; rewrite Ef; auto|]. split; auto.
    assert (Sz : forall c, c < p_num_classes p' -> forall m, p_class_size p' c = Ok m -> 0 < m -> exists e, cls e = Some c).
    { intros c Lc m Em Hp. destruct (C29_partition N p' a' R') as (_ & _ & X). destruct (X c Lc) as [X1 _]. rewrite Em in X1. injection X1 as ->.
      destruct (filter _ _) as [|e l] eqn:Ef'; [simpl in Hp; lia|]. exists e.
      assert (He : In e (e :: l)) by (left; auto). rewrite <- Ef' in He. apply filter_In in He as [_ He]. cbn [acls a'] in He.
      destruct (cls e) as [d|]; [|discriminate]. apply Nat.eqb_eq in He. congruence. }
    split; [split|split; [split|split; [|split; [|split; [|split]]]]].
    - intros e. cbn [acls a']. rewrite None'. apply T1.
    - cbn [anum acls a']. intros c Lc. destruct (Nat.lt_ge_cases c (anum a)) as [Hc|Hc].
      + destruct (T2 c Hc) as (e & Ee). assert (Hn : e < N) by (apply T1; congruence).
        destruct (Cls e Hn) as (c' & d & X1 & X2 & X3 & [->|X4]); [exists e; congruence|].
        destruct (Z d X4) as (c2 & n & m & _ & _ & G1 & G2 & G3). assert (c2 = c).
        { specialize (G3 e ltac:(congruence) X2). congruence. } subst c2. apply (Sz c Lc m); auto. lia.
      + assert (Hq : In c q0) by (rewrite Cq; apply in_seq; lia). destruct (Z c Hq) as (c2 & n & m & _ & G0 & _ & G2 & _).
        apply (Sz c Lc n); auto. lia.
    - intros s t l u H. apply F1. apply Ref. auto.
    - intros s t Hs Ht H. cbn [acls a'] in H. destruct (Cls s Hs) as (c & _ & X1 & _), (Cls t Ht) as (c' & _ & Y1 & _).
      destruct (Nat.eq_dec c c') as [<-|Ne]; [|apply F2; auto; congruence].
      destruct (bool_dec (amark a s) (amark a t)) as [Em|Em].
      + exfalso. apply H. apply Same; auto. split; congruence.
      + apply Hm; auto. congruence.
    - intros c Hc. cbn [anum a']. apply in_app_iff in Hc as [Hc|Hc]; [apply in_rev in Hc; rewrite Cq in Hc; apply in_seq in Hc; lia|].
      specialize (Qk0 c Hc). lia.
    - intros s t l u v H Eu Ev. cbn [acls a'] in H.
      destruct (Elt _ _ _ Eu) as [Hs Hu], (Elt _ _ _ Ev) as [Ht Hv].
      pose proof (proj1 (Same s t Hs Ht) H) as [H1 H2].
      assert (Qk : forall x, x < N -> forall d, inq a q x -> cls x = Some d -> inq a' (rev q0 ++ q) x).
      { intros x Hx d (c & Ec & Hc) Ed. destruct (Cls x Hx) as (c' & d' & X1 & _ & X3 & X4). exists d. split; auto. apply in_app_iff.
        assert (d' = d) by congruence. subst d'. destruct X4 as [->|X4]; [right; congruence|left; apply in_rev in X4; auto]. }
      destruct (Cls u Hu) as (cu & du & U1 & U2 & U3 & U4), (Cls v Hv) as (cv & dv & V1 & V2 & V3 & V4).
      destruct (P s t l u v H1 Eu Ev) as [X|[X|[X|[Nd X]]]].
      + cbn [acls a']. assert (cu = cv) by congruence. subst cv. rewrite U3, V3.
        destruct U4 as [->|U4]; [|right; left; exists du; split; auto; apply in_app_iff; left; apply in_rev in U4; auto].
        destruct V4 as [->|V4]; [auto|right; right; left; exists dv; split; auto; apply in_app_iff; left; apply in_rev in V4; auto].
      + right; left. eapply Qk; eauto.
      + right; right; left. eapply Qk; eauto.
      + right; right; right. split; auto. intros Hl. destruct (Hd l Hl) as [X1|X1]; [tauto|]. specialize (X1 s t u v H1 H2 Eu Ev). tauto.
    - auto.
    - rewrite app_length, rev_length, Cq, seq_length. cbn [anum a']. lia.
    - exact Ref.
  Qed.

  Definition below (prev : option nat) (l : nat) : Prop := match prev with Some c => l < c | None => False end.
  (** Between two transitions: the marks are those of the current label. *)
  Record midway (S : nat -> Prop) p a q (prev : option nat) (todo : list (nat * nat)) : Prop := Midway {
    mw_reach : reach N p a; mw_total : total a; mw_fine : fine a; mw_pend : pending a q S (below prev);
    mw_mark : forall s, amark a s = true -> exists l u, prev = Some l /\ E s l u /\ S u;
    mw_seen : forall s l u, prev = Some l -> E s l u -> S u -> amark a s = true \/ (forall t, acls a t = acls a s -> t = s) \/ In (l, s) todo;
    mw_rest : forall s l u, (forall c, prev = Some c -> c < l) -> E s l u -> S u -> In (l, s) todo;
    mw_from : forall l s, In (l, s) todo -> exists u, E s l u /\ S u;
    mw_sort : StronglySorted le (map fst todo);
    mw_low : forall c l s, prev = Some c -> In (l, s) todo -> c <= l;
    mw_apart : forall u v, S u -> ~ S v -> v < N -> D u v;
    mw_dec : forall u, S u \/ ~ S u; mw_q : qok a q }.

  (** Closing the current label before one of the remaining transitions, or at the end. *)
  Lemma close_label S p a q prev todo (done' : nat -> Prop) : midway S p a q prev todo ->
    (forall l s, In (l, s) todo -> forall l', done' l' -> l' < l) -> (forall c, prev = Some c -> done' c) ->
    exists p' q' a', finalize_into p q = Ok (p', q') /\ reach N p' a' /\ total a' /\ fine a' /\ qok a' q' /\ pending a' q' S done' /\
      (forall e, amark a' e = false) /\ length q' + anum a = length q + anum a' /\
      (forall s t, acls a' s = acls a' t -> acls a s = acls a t).
  Proof.
    intros M H1 H2. pose proof M as [M1 M2 M3 M4 M5 M6 M7 M8 M9 M10 M11 M12 M13].
    apply (finalize_step p a q S (below prev)); auto.
    - intros l Hl. destruct (le_lt_dec (match prev with Some c => c | None => 0 end) l) as [Hle|Hlt].
      2: { left. unfold below. destruct prev; auto. lia. }
      right.
      assert (Seen : forall s u, E s l u -> S u -> amark a s = true \/ (forall t, acls a t = acls a s -> t = s)).
      { intros s u Hs Hu. destruct prev as [c|].
        - destruct (Nat.eq_dec c l) as [->|Ne].
          + destruct (M6 s l u eq_refl Hs Hu) as [X|[X|X]]; auto. specialize (H1 l s X l Hl). lia.
          + assert (X : In (l, s) todo) by (apply (M7 s l u); auto; intros c' [= <-]; lia). specialize (H1 l s X l Hl). lia.
        - assert (X : In (l, s) todo) by (apply (M7 s l u); auto; discriminate). specialize (H1 l s X l Hl). lia. }
      assert (G : forall s t u v, acls a s = acls a t -> amark a s = amark a t -> E s l u -> E t l v -> S u -> S v).
      { intros s t u v Es Em Eu Ev Hu. destruct (Seen s u Eu Hu) as [X|X].
        - assert (Mt : amark a t = true) by congruence. destruct (M5 s X) as (l1 & u1 & Hp & Q1 & Q2). destruct (M5 t Mt) as (l2 & v2 & Hp' & Q3 & Q4).
          assert (l2 = l1) by congruence. subst l2. destruct (Nat.eq_dec l1 l) as [->|Ne].
          + rewrite (Edet _ _ _ _ Ev Q3). auto.
          + assert (Y : In (l, s) todo) by (apply (M7 s l u); auto; intros c Hc; rewrite Hp in *; injection Hc as <-; lia).
            specialize (H1 l s Y l Hl). lia.
        - assert (t = s) by (apply X; auto). subst t. rewrite (Edet _ _ _ _ Ev Eu). auto. }
      intros s t u v Es Em Eu Ev. split; intros HS; [apply (G s t u v)|apply (G t s v u)]; auto.
    - assert (G : forall s t, s < N -> t < N -> acls a s = acls a t -> amark a s = true -> amark a t = false -> D s t).
      { intros s t Hs Ht Es X Y. destruct (M5 s X) as (l & u & Hp & Eu & Su). destruct M3 as [F1 F2]. destruct (F1 s t l u Es Eu) as (v & Ev).
        destruct (M12 v) as [Sv|Sv].
        - destruct (M6 t l v Hp Ev Sv) as [Z|[Z|Z]]; [congruence| |].
          + assert (s = t) by (apply Z; auto). congruence.
          + specialize (H1 l t Z l (H2 l Hp)). lia.
        - eapply Dstep; eauto. apply M11; auto. apply (Elt _ _ _ Ev). }
      intros s t Hs Ht Es Ne. destruct (amark a s) eqn:X, (amark a t) eqn:Y; try congruence; [apply G; auto|apply Dsym; apply G; auto].
  Qed.

  Lemma sort_tail (l s : nat) (todo : list (nat * nat)) : StronglySorted le (map fst ((l, s) :: todo)) ->
    StronglySorted le (map fst todo) /\ forall l' s', In (l', s') todo -> l <= l'.
  Proof.
    intros H. inversion H as [|? ? A B]; subst. split; auto. intros l' s' Hin. rewrite Forall_forall in B. apply (B l').
    apply (in_map fst) in Hin. auto.
  Qed.

  Lemma take_step S p a q prev l s todo : midway S p a q prev ((l, s) :: todo) ->
    exists p' a' q', take_one (p, q, prev) (l, s) = Ok (p', q', Some l) /\ midway S p' a' q' (Some l) todo /\
      length q' + anum a = length q + anum a' /\ (forall x y, acls a' x = acls a' y -> acls a x = acls a y).
  Proof.
    intros M. pose proof (sort_tail _ _ _ (mw_sort _ _ _ _ _ _ M)) as [St Lo].
    (* first the marks of an earlier label are used up *)
    assert (X : exists p1 a1 q1, (if match prev with Some a => Nat.eqb a l | None => false end then Ok (p, q) else finalize_into p q) = Ok (p1, q1) /\
      midway S p1 a1 q1 (Some l) ((l, s) :: todo) /\ length q1 + anum a = length q + anum a1 /\
      (forall x y, acls a1 x = acls a1 y -> acls a x = acls a y)).
    { destruct (match prev with Some a => Nat.eqb a l | None => false end) eqn:Eb.
      - destruct prev as [c|]; [|discriminate]. apply Nat.eqb_eq in Eb. subst c. exists p, a, q. split; auto.
      - assert (Ne : forall c, prev = Some c -> c < l).
        { intros c Hc. subst prev. apply Nat.eqb_neq in Eb. pose proof (mw_low _ _ _ _ _ _ M c l s eq_refl (or_introl eq_refl)). lia. }
        destruct (close_label S p a q prev ((l, s) :: todo) (fun l' => l' < l) M) as (p' & q' & a' & Ef & R' & T' & F' & Q' & P' & Mk & Len & Ref).
        { intros l1 s1 [[= <- <-]|Hin] l' Hl'; auto. specialize (Lo l1 s1 Hin). lia. } { exact Ne. }
        exists p', a', q'. split; auto. split; [|split; auto]. destruct M as [M1 M2 M3 M4 M5 M6 M7 M8 M9 M10 M11 M12 M13]. constructor; auto.
        + intros x Hx. rewrite Mk in Hx. discriminate.
        + intros x l' u [= <-] Eu Su. right; right. apply (M7 x l u); auto.
        + intros x l' u Hl' Eu Su. apply (M7 x l' u); auto. intros c Hc. specialize (Ne c Hc). specialize (Hl' l eq_refl). lia.
        + intros c l' s' [= <-] [[= <- <-]|Hin]; auto. apply (Lo l' s'); auto. }
    destruct X as (p1 & a1 & q1 & E1 & M1 & Len & Ref). unfold take_one. cbn [fst snd]. rewrite E1. cbn [rbind fst snd].
    destruct M1 as [M1 M2 M3 M4 M5 M6 M7 M8 M9 M10 M11 M12 M13].
    pose proof (C29_partition N p1 a1 M1) as (Sh1 & Sh2 & Sh3).
    destruct (M8 l s (or_introl eq_refl)) as (u0 & Eu0 & Su0). destruct (Elt _ _ _ Eu0) as [Hs _].
    assert (Hs' := Hs). apply (proj1 M2) in Hs'. destruct (acls a1 s) as [c|] eqn:Ec; [|congruence].
    destruct (Sh2 s c Ec) as (_ & Lc & Ei). rewrite Ei. cbn [rbind]. destruct (Sh3 c Lc) as [Esz _]. rewrite Esz. cbn [rbind].
    set (mem := filter _ _) in *.
    assert (Im : forall e, In e mem <-> acls a1 e = Some c).
    { intros e. unfold mem. rewrite filter_In, in_seq. split.
      - intros [_ H]. destruct (acls a1 e) as [d|]; [|discriminate]. apply Nat.eqb_eq in H. congruence.
      - intros H. rewrite H, Nat.eqb_refl. split; auto. split; [lia|]. cbn. apply (proj1 M2). congruence. }
    assert (Low' : forall c0 l' s', Some l = Some c0 -> In (l', s') todo -> c0 <= l') by (intros c0 l' s' [= <-]; apply Lo).
    destruct (Nat.ltb_spec 1 (length mem)) as [Big|Small].
    - destruct (C29_progress N p1 a1 M1) as (_ & _ & _ & Pr). destruct (Pr s) as (p2 & Ep2); [congruence|]. rewrite Ep2. cbn [rbind].
      set (a2 := Ap (acls a1) (put (amark a1) s true) (anum a1)).
      exists p2, a2, q1. split; auto. split; [|split; auto]. constructor; auto.
      + apply (r_split_on N p1 a1 s p2 M1); [congruence|auto].
      + cbn [amark a2]. intros x Hx. destruct (Nat.eq_dec x s) as [->|Nx]; [exists l, u0; auto|rewrite put_ne in Hx by auto; auto].
      + cbn [amark acls a2]. intros x l' u Hp Eu Su. destruct (Nat.eq_dec x s) as [->|Nx]; [left; apply put_eq|]. rewrite put_ne by auto.
        destruct (M6 x l' u Hp Eu Su) as [X|[X|[X|X]]]; auto. congruence.
      + intros x l' u Hl' Eu Su. destruct (M7 x l' u Hl' Eu Su) as [X|X]; auto. injection X as <- <-. specialize (Hl' l eq_refl). lia.
      + intros l' x Hin. apply M8. right; auto.
    - exists p1, a1, q1. split; auto. split; [|split; auto]. constructor; auto.
      + intros x l' u Hp Eu Su. destruct (M6 x l' u Hp Eu Su) as [X|[X|[X|X]]]; auto. injection X as <- <-. right; left. intros t Ht.
        rewrite Ec in Ht. apply Im in Ht. assert (Hx : In s mem) by (apply Im; auto). destruct mem as [|y [|z m]]; simpl in *; try lia; intuition congruence.
      + intros x l' u Hl' Eu Su. destruct (M7 x l' u Hl' Eu Su) as [X|X]; auto. injection X as <- <-. specialize (Hl' l eq_refl). lia.
      + intros l' x Hin. apply M8. right; auto.
  Qed.

  Lemma take_all S todo : forall p a q prev, midway S p a q prev todo ->
    exists p' a' q' prev', rfold take_one todo (p, q, prev) = Ok (p', q', prev') /\ midway S p' a' q' prev' [] /\
      length q' + anum a = length q + anum a' /\ (forall x y, acls a' x = acls a' y -> acls a x = acls a y).
  Proof.
    induction todo as [|[l s] todo IH]; intros p a q prev M; [exists p, a, q, prev; split; [reflexivity|auto]|].
    rewrite rfold_cons. destruct (take_step S p a q prev l s todo M) as (p1 & a1 & q1 & -> & M1 & L1 & R1). cbn [rbind].
    destruct (IH p1 a1 q1 (Some l) M1) as (p2 & a2 & q2 & prev2 & E2 & M2 & L2 & R2). exists p2, a2, q2, prev2. split; auto. split; auto.
    split; [lia|auto].
  Qed.

  Definition nothing (l : nat) : Prop := False.
  Definition nobody (u : nat) : Prop := False.

  Lemma pending_weaken a q S (done : nat -> Prop) : (forall l, done l) -> pending a q S done -> pending a q nobody nothing.
  Proof. intros Hd P s t l u v H Eu Ev. destruct (P s t l u v H Eu Ev) as [X|[X|[X|[X _]]]]; auto. destruct (X (Hd l)). Qed.

  Lemma anum_le a p : reach N p a -> total a -> anum a <= N.
  Proof.
    intros R [T1 T2]. rewrite <- (seq_length (anum a) 0), <- (seq_length N 0).
    assert (X : incl (seq 0 (anum a)) (map (fun e => match acls a e with Some c => c | None => 0 end) (seq 0 N))).
    { intros c Hc. apply in_seq in Hc. destruct (T2 c) as (e & Ee); [lia|]. apply in_map_iff. exists e. rewrite Ee. split; auto.
      apply in_seq. split; [lia|]. cbn. apply T1. congruence. }
    apply NoDup_incl_length in X; [|apply seq_NoDup]. rewrite map_length in X. auto.
  Qed.

  (** One splitter. [its] is its heap: one sorted list of transitions per state of the class. *)
  Context {K : SR} (orc : nat -> nat) (g : vfst K).
  Context (Hg : forall s, s < N -> exists l, get_trs g (s + 1) = Ok l /\ StronglySorted le (map il l) /\
    (forall t, In t l -> exists r, ns t = Datatypes.S r /\ E r (il t) s) /\
    (forall r b, E r b s -> exists t, In t l /\ il t = b /\ ns t = Datatypes.S r)).

  Lemma collect_ok its : (forall s, In s its -> s < N) -> exists heap, collect g its = Ok heap /\ Forall good heap /\
    forall l r, In (l, r) (map key (List.concat heap)) <-> exists s, In s its /\ E r l s.
  Proof.
    unfold collect.
    assert (G : forall its acc, (forall s, In s its -> s < N) -> exists heap,
      rfold (fun l s => ts <-- get_trs g (s + 1) ;; Ok (match ts with [] => l | _ => l ++ [ts] end)) its acc = Ok (acc ++ heap) /\ Forall good heap /\
      forall l r, In (l, r) (map key (List.concat heap)) <-> exists s, In s its /\ E r l s).
    { induction its0 as [|s its0 IH]; intros acc Hi.
      - exists []. rewrite app_nil_r. split; [reflexivity|]. split; auto. intros l r. cbn. split; [intros []|intros (s & [] & _)].
      - rewrite rfold_cons. destruct (Hg s (Hi s (or_introl eq_refl))) as (ts & -> & S1 & S2 & S3). cbn [rbind].
        assert (Ks : forall l r, In (l, r) (map key ts) <-> E r l s).
        { intros l r. rewrite in_map_iff. split.
          - intros (t & Ek & Ht). destruct (S2 t Ht) as (r' & E1 & E2). unfold key in Ek. rewrite E1 in Ek. cbn in Ek. injection Ek as <- <-. auto.
          - intros He. destruct (S3 r l He) as (t & Ht & E1 & E2). exists t. split; auto. unfold key. rewrite E1, E2. auto. }
        destruct ts as [|t ts].
        + destruct (IH acc) as (heap & Eh & Gh & Ih); [intros; apply Hi; right; auto|]. exists heap. split; auto. split; auto.
          intros l r. rewrite Ih. split; [intros (s' & H1 & H2); exists s'; split; [right|]; auto|].
          intros (s' & [<-|H1] & H2); [apply Ks in H2; destruct H2|eauto].
        + destruct (IH (acc ++ [t :: ts])) as (heap & Eh & Gh & Ih); [intros; apply Hi; right; auto|]. exists ((t :: ts) :: heap).
          split; [rewrite Eh, <- app_assoc; reflexivity|]. split.
          * constructor; auto. split; [discriminate|]. split; auto. intros u Hu. destruct (S2 u Hu) as (r & -> & _). discriminate.
          * intros l r. cbn [List.concat]. rewrite map_app, in_app_iff, Ks, Ih. split.
            -- intros [H|(s' & H1 & H2)]; [exists s; split; [left|]; auto|exists s'; split; [right|]; auto].
            -- intros (s' & [<-|H1] & H2); eauto. }
    intros Hi. destruct (G its [] Hi) as (heap & Eh & Gh & Ih). exists heap. split; auto.
  Qed.

  Lemma concat_len {A} (l : list (list A)) : length (List.concat l) = list_sum (map (@length A) l).
  Proof. induction l; simpl; auto. rewrite app_length, IHl. auto. Qed.

  Lemma cyc_loop_ok : forall fuel p a q n, reach N p a -> total a -> fine a -> (forall e, amark a e = false) ->
    pending a q nobody nothing -> N + 1 + length q <= fuel + anum a -> qok a q ->
    exists p' a', cyc_loop orc fuel g p q n = Ok p' /\ reach N p' a' /\ total a' /\ fine a' /\ (forall e, amark a' e = false) /\
      pending a' [] nobody nothing /\ (forall x y, acls a' x = acls a' y -> acls a x = acls a y).
  Proof.
    induction fuel as [|fuel IH]; intros p a q n R T F Mk P Hf Hq.
    - pose proof (anum_le a p R T). destruct q; simpl in Hf; lia.
    - destruct q as [|c q]; [exists p, a; split; [reflexivity|]; auto 10|].
      cbn [cyc_loop]. pose proof (C29_partition N p a R) as (Sh1 & Sh2 & Sh3).
      assert (Lc : c < anum a) by (apply Hq; left; auto). destruct (Sh3 c Lc) as (_ & its & Ei & Nd & Iits). rewrite Ei. cbn [rbind].
      destruct (collect_ok its) as (heap & Eh & Gh & Ih). { intros s Hs. apply Iits in Hs as [Hs _]. apply (Sh2 s c Hs). } rewrite Eh. cbn [rbind].
      destruct (split_loop_pops orc (length (List.concat heap)) (S (list_sum (map (@length _) heap))) p q n None heap eq_refl) as (todo & Pt & Stt & Es).
      { rewrite concat_len. lia. } { auto. } rewrite Es. clear Es.
      set (S := fun u => acls a u = Some c).
      assert (It : forall l r, In (l, r) todo <-> exists s, S s /\ E r l s).
      { intros l r. transitivity (In (l, r) (map key (List.concat heap))).
        - split; apply Permutation_in; auto. symmetry; auto.
        - rewrite Ih. split; intros (s & H1 & H2); exists s; split; auto; [apply Iits; auto|apply Iits; auto]. }
      assert (M : midway S p a q None todo).
      { constructor; auto.
        - intros s t l u v Hst Eu Ev. destruct (P s t l u v Hst Eu Ev) as [X|[X|[X|[_ [[[] _]|[[] _]]]]]]; auto.
          + destruct X as (d & Ed & [<-|Hd]); [|right; left; exists d; auto].
            destruct (acls a v) as [d'|] eqn:Ev'; [destruct (Nat.eq_dec d' c) as [->|Nd']; [left; auto|]|];
              right; right; right; (split; [intros []|left; split; [exact Ed|unfold S; rewrite Ev'; congruence]]).
          + destruct X as (d & Ed & [<-|Hd]); [|right; right; left; exists d; auto].
            destruct (acls a u) as [d'|] eqn:Eu'; [destruct (Nat.eq_dec d' c) as [->|Nd']; [left; auto|]|];
              right; right; right; (split; [intros []|right; split; [exact Ed|unfold S; rewrite Eu'; congruence]]).
        - intros s Hs. rewrite Mk in Hs. discriminate.
        - discriminate.
        - intros s l u _ Eu Su. apply It. eauto.
        - intros l s Hin. apply It in Hin as (u & H1 & H2). eauto.
        - discriminate.
        - intros u v Hu Hv Lv. destruct F as [_ F2]. apply F2; auto; [apply (Sh2 u c Hu)|]. intros Heq. apply Hv. unfold S in *. congruence.
        - intros u. unfold S. destruct (acls a u) as [d|]; [destruct (Nat.eq_dec d c); [left|right]; congruence|right; discriminate].
        - intros d Hd. apply Hq. right; auto. }
      destruct (take_all S todo p a q None M) as (p1 & a1 & q1 & prev1 & E1 & M1 & L1 & R1). rewrite E1. cbn [rbind fst snd].
      destruct (close_label S p1 a1 q1 prev1 [] (fun _ => True) M1) as (p2 & q2 & a2 & E2 & Rc2 & T2 & F2 & Q2 & P2 & Mk2 & L2 & R2); auto.
      { intros l s []. }
      rewrite E2. cbn [rbind fst snd].
      destruct (IH p2 a2 q2 (n + length todo)) as (p' & a' & E' & B1 & B2 & B3 & B4 & B5 & B6); auto.
      { apply (pending_weaken a2 q2 S (fun _ => True)); [intros; exact I|exact P2]. }
      { simpl in Hf. lia. }
      exists p', a'. auto 10.
  Qed.
End R.
