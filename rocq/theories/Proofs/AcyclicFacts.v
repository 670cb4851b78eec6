(** The acyclic minimizer: classes refined height by height are a congruence, and separate only
    states that differ. *)
From Coq Require Import List Arith ZArith NArith Bool Lia Permutation Sorted.
From Verif Require Import Base.Util Base.Semiring Base.Machine Base.PropSpec Model.Props Model.VectorFst Model.Rational Model.Partition Model.Minimize
  Proofs.VectorFacts Proofs.OpFacts Proofs.PartitionFacts Proofs.RationalFacts Proofs.SdFacts Proofs.ReverseDist Proofs.MergeFacts
  Proofs.CyclicFacts Proofs.CyclicRefine Proofs.AcyclicDepth Props.C29.
Import ListNotations.

(** Lexicographic comparison. *)
Fixpoint lexcmp (a b : list nat) : comparison :=
  match a, b with
  | [], [] => Eq
  | [], _ => Lt
  | _, [] => Gt
  | x :: a', y :: b' => match Nat.compare x y with Eq => lexcmp a' b' | c => c end
  end.
Lemma lexcmp_eq a : forall b, lexcmp a b = Eq <-> a = b.
Proof.
  induction a as [|x a IH]; intros [|y b]; simpl; try (split; congruence).
  destruct (Nat.compare_spec x y); [subst; rewrite IH; split; congruence|split; [discriminate|intros [= -> _]; lia]|split; [discriminate|intros [= -> _]; lia]].
Qed.
Lemma lexcmp_refl a : lexcmp a a = Eq.
Proof. apply lexcmp_eq. auto. Qed.
Lemma lexcmp_sym a : forall b, lexcmp b a = CompOpp (lexcmp a b).
Proof.
  induction a as [|x a IH]; intros [|y b]; simpl; auto. rewrite (Nat.compare_antisym x y). destruct (Nat.compare x y); simpl; auto.
Qed.
Lemma lexcmp_trans a : forall b c, lexcmp a b = Lt -> lexcmp b c = Lt -> lexcmp a c = Lt.
Proof.
  induction a as [|x a IH]; intros [|y b] [|z c]; simpl; try congruence.
  destruct (Nat.compare_spec x y), (Nat.compare_spec y z), (Nat.compare_spec x z); try congruence; try lia; subst; try lia; apply IH.
Qed.

(** ** The search tree *)
Section T.
  Context (cmp : nat -> nat -> res comparison) (key : nat -> list nat) (P : nat -> Prop).
  Context (Hcmp : forall x y, P x -> P y -> cmp x y = Ok (lexcmp (key x) (key y))).
  Definition before (x y : nat * nat) : Prop := lexcmp (key (fst x)) (key (fst y)) = Lt.

  Lemma tm_get_spec m : forall e, P e -> (forall k v, In (k, v) m -> P k) -> StronglySorted before m ->
    exists o, tm_get cmp m e = Ok o /\ (forall v, o = Some v <-> exists k, In (k, v) m /\ key k = key e).
  Proof.
    induction m as [|[x v] m IH]; intros e He Hm S; cbn [tm_get].
    - exists None. split; auto. intros w. split; [discriminate|intros (k & [] & _)].
    - inversion S as [|? ? S1 S2]; subst. rewrite Forall_forall in S2.
      assert (Px : P x) by (apply (Hm x v); left; auto). rewrite Hcmp by auto. cbn [rbind].
      destruct (lexcmp (key e) (key x)) eqn:Ec.
      + apply lexcmp_eq in Ec. exists (Some v). split; auto. intros w. split; [intros [= <-]; exists x; split; [left; auto|congruence]|].
        intros (k & [[= <- <-]|Hk] & E); auto. specialize (S2 _ Hk). unfold before in S2. cbn [fst] in S2. rewrite E, Ec, lexcmp_refl in S2. discriminate.
      + exists None. split; auto. intros w. split; [discriminate|]. intros (k & [[= <- <-]|Hk] & E).
        * rewrite <- E, lexcmp_refl in Ec. discriminate.
        * specialize (S2 _ Hk). unfold before in S2. cbn [fst] in S2. rewrite E in S2.
          rewrite lexcmp_sym, S2 in Ec. discriminate.
      + destruct (IH e He) as (o & Eo & Ho); auto. { intros k w Hk. apply (Hm k w). right; auto. }
        exists o. split; auto. intros w. rewrite Ho. split; intros (k & Hk & E); exists k; [split; [right|]; auto|].
        destruct Hk as [[= -> ->]|Hk]; auto. rewrite E, lexcmp_refl in Ec. discriminate.
  Qed.

  Lemma tm_put_spec m e v : P e -> (forall k w, In (k, w) m -> P k) -> StronglySorted before m -> (forall k w, In (k, w) m -> key k <> key e) ->
    exists m', tm_put cmp m e v = Ok m' /\ Permutation m' ((e, v) :: m) /\ StronglySorted before m'.
  Proof.
    induction m as [|[x w] m IH]; intros He Hm S Ne; cbn [tm_put].
    - exists [(e, v)]. split; auto. split; auto. repeat constructor.
    - inversion S as [|? ? S1 S2]; subst.
      assert (Px : P x) by (apply (Hm x w); left; auto). rewrite Hcmp by auto. cbn [rbind].
      destruct (lexcmp (key e) (key x)) eqn:Ec.
      + apply lexcmp_eq in Ec. destruct (Ne x w (or_introl eq_refl)). auto.
      + exists ((e, v) :: (x, w) :: m). split; auto. split; auto. constructor; auto. constructor; auto.
        rewrite Forall_forall in S2 |- *. intros y Hy. specialize (S2 y Hy). unfold before in *. cbn [fst] in *. eapply lexcmp_trans; eauto.
      + destruct IH as (m' & E' & P' & S'); auto. { intros k w' Hk. apply (Hm k w'). right; auto. } { intros k w' Hk. apply (Ne k w'). right; auto. }
        rewrite E'. cbn [rbind]. eexists. split; [reflexivity|]. split; [rewrite P'; apply perm_swap|]. constructor; auto.
        rewrite Forall_forall in S2 |- *. intros y Hy. apply (Permutation_in _ P') in Hy as [<-|Hy]; [|apply S2; auto].
        unfold before. cbn [fst]. rewrite lexcmp_sym, Ec. auto.
  Qed.
End T.

Section A.
  Context {K : SR} (wlt : K -> K -> bool) (f : vfst K) (s0 : nat) (D : nat -> nat -> Prop).
  Notation N := (num_states f).
  Context (Hc : closed f) (Ha : acyclic (mach f)) (Hs : vstart f = Some s0) (Hacc : forall s, s < N -> accessible (mach f) s).
  Context (HD : forall s, NoDup (map il (trs_of f s))).
  Context (W0 : wlt kzero kzero = false) (W1 : wlt kone kone = false) (W01 : wlt kone kzero = negb (wlt kzero kone)).
  Context (HF : forall s w, fin_of f s = Some w -> w = kone).
  Context (Dsym : forall s t, D s t -> D t s) (Dstep : forall s t a u v, edge f s a u -> edge f t a v -> D u v -> D s t).
  Context (Dbase : forall s t, s < N -> t < N -> isfin f s <> isfin f t \/ map il (trs_of f s) <> map il (trs_of f t) -> D s t).
  Notation ht := (ht f).

  (** What the comparator looks at. *)
  Definition frank (b : bool) : nat := if eqb b (wlt kzero kone) then 1 else 0.
  Definition skey (c : nat -> nat) (s : nat) : list nat :=
    frank (isfin f s) :: length (trs_of f s) :: flat_map (fun t => [il t; c (ns t)]) (trs_of f s).
  Definition cof (a : apart) (e : nat) : nat := match acls a e with Some c => c | None => 0 end.

  Lemma cmp_trs_ok p c : forall l1 l2, length l1 = length l2 -> (forall t, In t l1 \/ In t l2 -> p_class_id p (ns t) = Ok (c (ns t))) ->
    cmp_trs p l1 l2 = Ok (match lexcmp (flat_map (fun t : tr K => [il t; c (ns t)]) l1) (flat_map (fun t : tr K => [il t; c (ns t)]) l2) with Lt => true | _ => false end).
  Proof.
    induction l1 as [|t l1 IH]; intros [|u l2] Hl Hp; try discriminate; [reflexivity|]. cbn [cmp_trs flat_map app lexcmp].
    destruct (Nat.compare_spec (il t) (il u)) as [E|E|E].
    - rewrite (proj2 (Nat.ltb_ge _ _)), (proj2 (Nat.ltb_ge _ _)) by lia.
      rewrite (Hp t (or_introl (or_introl eq_refl))), (Hp u (or_intror (or_introl eq_refl))).
      cbn [rbind]. destruct (Nat.compare_spec (c (ns t)) (c (ns u))) as [E'|E'|E'].
      + rewrite (proj2 (Nat.ltb_ge _ _)), (proj2 (Nat.ltb_ge _ _)) by lia. apply IH; [simpl in Hl; lia|]. intros v [Hv|Hv]; apply Hp; [left|right]; right; auto.
      + rewrite (proj2 (Nat.ltb_lt _ _)) by lia. auto.
      + rewrite (proj2 (Nat.ltb_ge _ _)), (proj2 (Nat.ltb_lt _ _)) by lia. auto.
    - rewrite (proj2 (Nat.ltb_lt _ _)) by lia. auto.
    - rewrite (proj2 (Nat.ltb_ge _ _)), (proj2 (Nat.ltb_lt _ _)) by lia. auto.
  Qed.

  Definition fwt (s : nat) : K := match fin_of f s with Some w => w | None => kzero end.
  Lemma fwt_rank s t : (if wlt (fwt s) (fwt t) then Lt else if wlt (fwt t) (fwt s) then Gt else Eq) = Nat.compare (frank (isfin f s)) (frank (isfin f t)).
  Proof.
    unfold fwt, isfin, frank. destruct (fin_of f s) as [w|] eqn:E1, (fin_of f t) as [w'|] eqn:E2;
      try (rewrite (HF _ _ E1)); try (rewrite (HF _ _ E2)); rewrite ?W0, ?W1, ?W01; destruct (wlt kzero kone); auto.
  Qed.

  Lemma do_compare_ok p c s t : s < N -> t < N -> (forall x u, (x = s \/ x = t) -> In u (trs_of f x) -> p_class_id p (ns u) = Ok (c (ns u))) ->
    do_compare wlt p f s t = Ok (match lexcmp (skey c s) (skey c t) with Lt => true | _ => false end).
  Proof.
    intros H1 H2 Hp. unfold do_compare, fweight, final_weight, num_trs, get_trs, get_state.
    destruct (nth_state f s H1) as (st & -> & T1 & F1), (nth_state f t H2) as (st' & -> & T2 & F2). cbn [rmap rbind].
    rewrite <- T1, <- T2, <- F1, <- F2. fold (fwt s) (fwt t). unfold skey. cbn [lexcmp]. rewrite <- fwt_rank.
    destruct (wlt (fwt s) (fwt t)); auto. destruct (wlt (fwt t) (fwt s)); auto.
    destruct (Nat.compare_spec (length (trs_of f s)) (length (trs_of f t))) as [E|E|E].
    - rewrite (proj2 (Nat.ltb_ge _ _)), (proj2 (Nat.ltb_ge _ _)) by lia. apply cmp_trs_ok; auto. intros u [Hu|Hu]; [apply (Hp s u)|apply (Hp t u)]; auto.
    - rewrite (proj2 (Nat.ltb_lt _ _)) by lia. auto.
    - rewrite (proj2 (Nat.ltb_ge _ _)), (proj2 (Nat.ltb_lt _ _)) by lia. auto.
  Qed.

  Lemma state_compare_ok p c s t : s < N -> t < N -> (forall x u, (x = s \/ x = t) -> In u (trs_of f x) -> p_class_id p (ns u) = Ok (c (ns u))) ->
    state_compare wlt p f s t = Ok (lexcmp (skey c s) (skey c t)).
  Proof.
    intros H1 H2 Hp. unfold state_compare. destruct (Nat.eqb_spec s t) as [->|Ne]; [rewrite lexcmp_refl; auto|].
    rewrite (do_compare_ok p c s t), (do_compare_ok p c t s); auto. 2: { intros x u [Hx|Hx]; apply Hp; auto. }
    cbn [unwrap rbind]. rewrite (lexcmp_sym (skey c s) (skey c t)). destruct (lexcmp (skey c s) (skey c t)); auto.
  Qed.

  Lemma skey_ext c c' s : (forall t, In t (trs_of f s) -> c (ns t) = c' (ns t)) -> skey c s = skey c' s.
  Proof. intros H. unfold skey. f_equal. f_equal. induction (trs_of f s) as [|t l IH]; auto. cbn [flat_map]. rewrite H, IH; auto; [|left; auto]. intros; apply H; right; auto. Qed.

  (** Equal keys: same finality, same labels and same classes of the targets. *)
  Lemma skey_eq c s t : skey c s = skey c t ->
    isfin f s = isfin f t /\ forall x, In x (trs_of f s) -> exists y, In y (trs_of f t) /\ il y = il x /\ c (ns y) = c (ns x).
  Proof.
    unfold skey. intros E. injection E as E1 E2 E3. split.
    - unfold frank in E1. destruct (isfin f s), (isfin f t), (wlt kzero kone); simpl in E1; congruence.
    - clear E1. revert E2 E3. generalize (trs_of f t). induction (trs_of f s) as [|x l IH]; intros [|y l'] E2 E3; try discriminate; [intros x []|].
      cbn [flat_map app] in E3. injection E3 as A B C. intros z [<-|Hz]; [exists y; split; [left|]; auto|].
      destruct (IH l' ltac:(simpl in E2; lia) C z Hz) as (w & W & W'). exists w. split; [right|]; auto.
  Qed.

  Lemma skey_ne c s t : s < N -> t < N -> skey c s <> skey c t ->
    (forall x y, In x (trs_of f s) -> In y (trs_of f t) -> c (ns x) <> c (ns y) -> D (ns x) (ns y)) -> D s t.
  Proof.
    intros H1 H2 Ne HD'. destruct (bool_dec (isfin f s) (isfin f t)) as [E|E]; [|apply Dbase; auto].
    destruct (list_eq_dec Nat.eq_dec (map il (trs_of f s)) (map il (trs_of f t))) as [E'|E']; [|apply Dbase; auto].
    assert (X : exists x y, In x (trs_of f s) /\ In y (trs_of f t) /\ il x = il y /\ c (ns x) <> c (ns y)).
    { assert (Ne' : flat_map (fun t => [il t; c (ns t)]) (trs_of f s) <> flat_map (fun t => [il t; c (ns t)]) (trs_of f t)).
      { intros E2. apply Ne. unfold skey. rewrite E, E2. rewrite <- (map_length il (trs_of f s)), E', map_length. auto. }
      clear - E' Ne'. revert E' Ne'. generalize (trs_of f t). induction (trs_of f s) as [|x l IH]; intros [|y l'] E' Ne'; try discriminate; [congruence|].
      cbn [map] in E'. injection E' as A B. cbn [flat_map app] in Ne'. destruct (Nat.eq_dec (c (ns x)) (c (ns y))) as [Ec|Ec].
      - destruct (IH l' B) as (x' & y' & Q1 & Q2 & Q3); [intros Hf; apply Ne'; congruence|]. exists x', y'. split; [right|split; [right|]]; auto.
      - exists x, y. split; [left|split; [left|]]; auto. }
    destruct X as (x & y & Q1 & Q2 & Q3 & Q4). eapply (Dstep s t (il x) (ns x) (ns y)); [exists x; auto|exists y; auto|]. apply HD'; auto.
  Qed.

  Lemma ht_apart : forall k s t, ht s + ht t < k -> s < N -> t < N -> ht s <> ht t -> D s t.
  Proof.
    assert (G : forall k s t, ht s + ht t < k -> s < N -> t < N -> ht s < ht t -> D s t).
    { induction k as [|k IH]; intros s t Hk H1 H2 H; [lia|].
      destruct (ht_pred f Hc Ha t H2 ltac:(lia)) as (y & Hy & Ey).
      destruct (list_eq_dec Nat.eq_dec (map il (trs_of f s)) (map il (trs_of f t))) as [E'|E']; [|apply Dbase; auto].
      assert (X : In (il y) (map il (trs_of f s))) by (rewrite E'; apply in_map; auto). apply in_map_iff in X as (x & Ex & Hx).
      pose proof (ht_edge f Hc Ha s x H1 Hx). eapply (Dstep s t (il y) (ns x) (ns y)); [exists x; auto|exists y; auto|].
      apply IH; [lia|apply (proj1 Hc s x Hx)|apply (proj1 Hc t y Hy)|lia]. }
    intros k s t Hk H1 H2 Ne. destruct (Nat.lt_ge_cases (ht s) (ht t)); [eapply G; eauto|]. apply Dsym. apply (G k); auto; lia.
  Qed.

  (** ** One height *)
  Record upto (k0 h : nat) (p : partition) (a : apart) : Prop := Upto {
    up_reach : reach N p a; up_total : total N a; up_mark : forall e, amark a e = false; up_k : k0 <= anum a;
    up_high : forall e, e < N -> h <= ht e -> acls a e = Some (ht e);
    up_low : forall e, e < N -> ht e < h -> exists c, acls a e = Some c /\ (c = ht e \/ k0 <= c);
    up_same : forall s t, s < N -> t < N -> ht s < h -> ht t < h -> acls a s = acls a t -> ht s = ht t /\ skey (cof a) s = skey (cof a) t;
    up_diff : forall s t, s < N -> t < N -> ht s < h -> ht t < h -> acls a s <> acls a t -> D s t;
    up_below : forall e, e < N -> ht e < k0 }.

  (** Progress within a height [h], started in [a0]: the elements of that height are [it]. *)
  Record inside (h : nat) (a0 : apart) (m : list (nat * nat)) (p : partition) (a : apart) : Prop := Inside {
    is_reach : reach N p a; is_mark : forall e, amark a e = false; is_num : anum a0 <= anum a;
    is_rest : forall e, e < N -> ht e <> h -> acls a e = acls a0 e;
    is_sort : StronglySorted (before (skey (cof a0))) m;
    is_keys : forall k v, In (k, v) m -> k < N /\ ht k = h /\ v < anum a /\ (v = h \/ anum a0 <= v);
    is_vals : NoDup (map snd m);
    is_onto : forall v, anum a0 <= v -> v < anum a -> exists k, In (k, v) m }.

  Lemma inside_cmp h a0 m p a : total N a0 -> inside h a0 m p a -> forall x y, (x < N /\ ht x = h) -> (y < N /\ ht y = h) ->
    state_compare wlt p f x y = Ok (lexcmp (skey (cof a0) x) (skey (cof a0) y)).
  Proof.
    intros [T1 T2] [I1 I2 I3 I4 _ _ _ _] x y [Hx Ex] [Hy Ey]. apply state_compare_ok; auto.
    intros z u Hz Hu. assert (z < N /\ ht z = h) as [Lz Ez] by (destruct Hz as [->| ->]; auto).
    pose proof (ht_edge f Hc Ha z u Lz Hu). assert (Hn : ns u < N) by (apply (proj1 Hc z u Hu)).
    pose proof (C29_partition N p a I1) as (_ & S2 & _). assert (E : acls a (ns u) = acls a0 (ns u)) by (apply I4; auto; lia).
    apply T1 in Hn. unfold cof. rewrite <- E in *. destruct (acls a (ns u)) as [c|] eqn:Ec; [|congruence]. apply (S2 _ _ Ec).
  Qed.

  Lemma classes_ok h a0 : total N a0 -> h < anum a0 -> forall rest m p a, inside h a0 m p a -> (forall e, In e rest -> e < N /\ ht e = h) ->
    (forall e, e < N -> ht e = h -> acls a e = Some h) ->
    exists m' p' a', rfold (class_for wlt f) rest (m, p) = Ok (m', p') /\ inside h a0 m' p' a' /\ incl m m' /\
      (forall e, In e rest -> exists k v, In (k, v) m' /\ skey (cof a0) k = skey (cof a0) e) /\
      (forall e, e < N -> ht e = h -> acls a' e = Some h) /\ (forall k v, In (k, v) m' -> In (k, v) m \/ In k rest).
  Proof.
    intros T Hh. induction rest as [|e rest IH]; intros m p a I Hr He.
    - exists m, p, a. split; [reflexivity|]. split; auto. split; [apply incl_refl|]. split; [intros e []|]. split; auto.
    - rewrite rfold_cons. destruct (Hr e (or_introl eq_refl)) as [Le Ee].
      pose proof I as [I1 I2 I3 I4 I5 I6 I7 I8].
      assert (Cm := inside_cmp h a0 m p a T I).
      destruct (tm_get_spec (state_compare wlt p f) (skey (cof a0)) (fun x => x < N /\ ht x = h) Cm m e) as (o & Eo & Ho); auto.
      { intros k v Hk. destruct (I6 k v Hk) as (A & B & _). auto. }
      unfold class_for at 1. cbn [fst snd]. rewrite Eo. cbn [rbind]. destruct o as [v|].
      + destruct (proj1 (Ho v) eq_refl) as (k & Hk & Ek). cbn [rbind].
        destruct (IH m p a I) as (m' & p' & a' & E' & I' & M' & R' & A' & B'); auto. { intros x Hx. apply Hr. right; auto. }
        exists m', p', a'. split; auto. split; auto. split; auto. split; [|split; auto].
        * intros x [<-|Hx]; auto. exists k, v. split; auto.
        * intros k' v' H'. destruct (B' k' v' H'); auto. right; right; auto.
      + pose proof (C29_progress N p a I1) as (Pc & _). pose proof (r_add_class N p a I1) as R1.
        destruct (p_add_class p) as [c p1] eqn:Ep. cbn [fst snd] in Pc, R1. subst c.
        set (a1 := Ap (acls a) (amark a) (S (anum a))) in *.
        assert (Cm1 : forall x y, (x < N /\ ht x = h) -> (y < N /\ ht y = h) -> state_compare wlt p1 f x y = Ok (lexcmp (skey (cof a0) x) (skey (cof a0) y))).
        { intros x y [Hx Ex] [Hy Ey]. apply state_compare_ok; auto. intros z u Hz Hu.
          assert (z < N /\ ht z = h) as [Lz Ez] by (destruct Hz as [->| ->]; auto).
          pose proof (ht_edge f Hc Ha z u Lz Hu). assert (Hn : ns u < N) by (apply (proj1 Hc z u Hu)).
          pose proof (C29_partition N p1 a1 R1) as (_ & S2 & _). assert (E : acls a1 (ns u) = acls a0 (ns u)) by (apply I4; auto; lia).
          apply T in Hn. unfold cof. rewrite <- E in *. destruct (acls a1 (ns u)) as [c|] eqn:Ec; [|congruence]. apply (S2 _ _ Ec). }
        destruct (tm_put_spec (state_compare wlt p1 f) (skey (cof a0)) (fun x => x < N /\ ht x = h) Cm1 m e (anum a)) as (m1 & E1 & P1 & S1); auto.
        { intros k v Hk. destruct (I6 k v Hk) as (A & B & _). auto. }
        { intros k v Hk Ek. assert (X : None = Some v) by (apply Ho; eauto). discriminate. }
        rewrite E1. cbn [rbind].
        assert (I' : inside h a0 m1 p1 a1).
        { constructor; auto.
          - cbn [anum a1]. lia.
          - intros k v Hk. apply (Permutation_in _ P1) in Hk as [[= <- <-]|Hk]; [cbn [anum a1]; auto 8|].
            destruct (I6 k v Hk) as (A & B & C & F). cbn [anum a1]. auto 8.
          - apply (Permutation_NoDup (l := map snd ((e, anum a) :: m))); [apply Permutation_map; symmetry; auto|]. cbn [map snd]. constructor; auto.
            intros Hin. apply in_map_iff in Hin as ([k v] & E2 & Hk). cbn [snd] in E2. subst v. destruct (I6 k _ Hk) as (_ & _ & C & _). lia.
          - cbn [anum a1]. intros v L1 L2. destruct (Nat.eq_dec v (anum a)) as [->|Nv].
            + exists e. apply (Permutation_in _ (Permutation_sym P1)). left; auto.
            + destruct (I8 v L1 ltac:(lia)) as (k & Hk). exists k. apply (Permutation_in _ (Permutation_sym P1)). right; auto. }
        destruct (IH m1 p1 a1 I') as (m' & p' & a' & E' & Iz & M' & R' & A' & B'); auto. { intros x Hx. apply Hr. right; auto. }
        exists m', p', a'. split; auto. split; auto. split; [|split; [|split; auto]].
        * intros x Hx. apply M'. apply (Permutation_in _ (Permutation_sym P1)). right; auto.
        * intros x [<-|Hx]; auto. exists e, (anum a). split; auto. apply M'. apply (Permutation_in _ (Permutation_sym P1)). left; auto.
        * intros k' v' H'. destruct (B' k' v' H') as [X|X]; [|right; right; auto]. apply (Permutation_in _ P1) in X as [[= <- <-]|X]; auto. right; left; auto.
  Qed.

  Lemma moves_ok h a0 m : total N a0 -> forall it p a, inside h a0 m p a -> h < anum a -> NoDup it -> (forall e, In e it -> e < N /\ ht e = h /\ acls a e = Some h) ->
    (forall e, In e it -> exists k v, In (k, v) m /\ skey (cof a0) k = skey (cof a0) e) ->
    exists p' a', rfold (move_to wlt f m) it p = Ok p' /\ inside h a0 m p' a' /\ anum a' = anum a /\
      (forall e, In e it -> exists k v, In (k, v) m /\ skey (cof a0) k = skey (cof a0) e /\ acls a' e = Some v) /\
      (forall e, ~ In e it -> acls a' e = acls a e).
  Proof.
    intros T. induction it as [|e it IH]; intros p a I Hh Nd Hr Hm.
    - exists p, a. split; [reflexivity|]. split; auto. split; auto. split; [intros e []|auto].
    - rewrite rfold_cons. destruct (Hr e (or_introl eq_refl)) as (Le & Ee & Ce). inversion Nd as [|? ? N1 N2]; subst.
      pose proof I as [I1 I2 I3 I4 I5 I6 I7 I8].
      assert (Cm := inside_cmp (ht e) a0 m p a T I).
      destruct (tm_get_spec (state_compare wlt p f) (skey (cof a0)) (fun x => x < N /\ ht x = ht e) Cm m e) as (o & Eo & Ho); auto.
      { intros k v Hk. destruct (I6 k v Hk) as (A & B & _). auto. }
      destruct (Hm e (or_introl eq_refl)) as (k & v & Hk & Ek). assert (o = Some v) by (apply Ho; eauto). subst o.
      pose proof (C29_partition N p a I1) as (_ & S2 & _). destruct (S2 e (ht e) Ce) as (_ & _ & Ei).
      unfold move_to at 1. rewrite Ei. cbn [rbind]. rewrite Eo. cbn [rbind].
      destruct (Nat.eqb_spec (ht e) v) as [Ev|Ev].
      + cbn [rbind]. destruct (IH p a I) as (p' & a' & E' & I' & Na & R' & O'); auto.
        { intros x Hx. apply Hr. right; auto. } { intros x Hx. apply Hm. right; auto. }
        exists p', a'. split; auto. split; auto. split; auto. split.
        * intros x [<-|Hx]; auto. exists k, v. split; auto. split; auto. rewrite O' by auto. congruence.
        * intros x Hx. apply O'. intros Hin. apply Hx. right; auto.
      + destruct (I6 k v Hk) as (_ & _ & Lv & _).
        destruct (C29_progress N p a I1) as (_ & _ & Pm & _). destruct (Pm e v) as (p1 & E1); auto. { congruence. } rewrite E1. cbn [rbind].
        pose proof (r_move N p a e v p1 I1 ltac:(congruence) (I2 e) Lv E1) as R1. set (a1 := Ap (put (acls a) e (Some v)) (amark a) (anum a)) in *.
        assert (I' : inside (ht e) a0 m p1 a1).
        { constructor; auto. intros x Hx Nx. cbn [acls a1]. rewrite put_ne by congruence. auto. }
        destruct (IH p1 a1 I') as (p' & a' & E' & Iz & Na & R' & O'); auto.
        { intros x Hx. destruct (Hr x (or_intror Hx)) as (A & B & C). split; auto. split; auto. cbn [acls a1]. rewrite put_ne; auto. intros ->. auto. }
        { intros x Hx. apply Hm. right; auto. }
        exists p', a'. split; auto. split; auto. split; auto. split.
        * intros x [<-|Hx]; auto. exists k, v. split; auto. split; auto. rewrite O' by auto. cbn [acls a1]. apply put_eq.
        * intros x Hx. rewrite O' by (intros Hin; apply Hx; right; auto). cbn [acls a1]. apply put_ne. intros ->. apply Hx. left; auto.
  Qed.

  Lemma height_ok k0 h p a : upto k0 h p a -> h < k0 -> exists p' a', refine_height wlt f p h = Ok p' /\ upto k0 (S h) p' a'.
  Proof.
    intros U Hh. pose proof U as [U1 U2 U3 U4 U5 U6 U7 U8 U9]. pose proof (C29_partition N p a U1) as (_ & S2 & S3).
    destruct (S3 h ltac:(lia)) as (_ & it & Ei & Nd & Ii). unfold refine_height. rewrite Ei. cbn [rbind].
    assert (It : forall e, In e it <-> e < N /\ ht e = h).
    { intros e. rewrite Ii. split.
      - intros [Ce _]. destruct (S2 e h Ce) as (Le & _). split; auto. destruct (Nat.lt_ge_cases (ht e) h) as [Hl|Hl].
        + destruct (U6 e Le Hl) as (c & Ec & [Hx|Hx]); [congruence|]. assert (c = h) by congruence. lia.
        + rewrite U5 in Ce by auto. congruence.
      - intros [Le Ee]. split; auto. rewrite U5 by (auto; lia). congruence. }
    destruct it as [|x rest].
    { destruct U2 as [_ T2]. destruct (T2 h ltac:(lia)) as (e & Ee). exfalso. apply (proj2 (Ii e)). auto. }
    destruct (proj1 (It x) (or_introl eq_refl)) as [Lx Ex].
    assert (I0 : inside h a [(x, h)] p a).
    { constructor; auto.
      - repeat constructor.
      - intros k v [[= <- <-]|[]]. split; auto. split; auto. split; [lia|auto].
      - repeat constructor. intros [].
      - intros; lia. }
    destruct (classes_ok h a U2 ltac:(lia) rest [(x, h)] p a I0) as (m & p1 & a1 & E1 & I1 & M1 & R1 & A1 & B1).
    { intros e He. apply It. right; auto. } { intros e Le Ee. rewrite U5 by (auto; lia). congruence. }
    rewrite E1. cbn [rbind fst snd].
    assert (Keys : forall e, In e (x :: rest) -> exists k v, In (k, v) m /\ skey (cof a) k = skey (cof a) e).
    { intros e [<-|He]; auto. exists x, h. split; auto. apply M1. left; auto. }
    destruct (moves_ok h a m U2 (x :: rest) p1 a1 I1) as (p' & a' & E' & I' & Na & R' & O'); auto.
    { pose proof (is_num _ _ _ _ _ I1). lia. } { intros e He. apply It in He as [Le Ee]. auto. }
    rewrite E'. exists p', a'. split; auto.
    destruct I' as [J1 J2 J3 J4 J5 J6 J7 J8].
    assert (Val : forall k k' v, In (k, v) m -> In (k', v) m -> k = k').
    { intros k k' v H1 H2. assert (X : (k, v) = (k', v)) by (eapply (NoDup_map_inv' snd); eauto). congruence. }
    assert (Own : forall k v, In (k, v) m -> acls a' k = Some v).
    { intros k v Hk. destruct (J6 k v Hk) as (Lk & Ek & _). destruct (R' k) as (k2 & v2 & Hk2 & Ek2 & Ev2); [apply It; auto|].
      assert (X : v2 = v). { 
        assert (tm1 : forall l, StronglySorted (before (skey (cof a))) l -> forall y z, In y l -> In z l -> skey (cof a) (fst y) = skey (cof a) (fst z) -> y = z).
        { induction l as [|w l IHl]; intros Sl y z Hy Hz Eyz; [destruct Hy|]. inversion Sl as [|? ? Sa Sb]; subst. rewrite Forall_forall in Sb.
          destruct Hy as [<-|Hy], Hz as [<-|Hz]; auto.
          - specialize (Sb _ Hz). unfold before in Sb. rewrite Eyz, lexcmp_refl in Sb. discriminate.
          - specialize (Sb _ Hy). unfold before in Sb. rewrite <- Eyz, lexcmp_refl in Sb. discriminate. }
        assert (Y : (k2, v2) = (k, v)) by (apply (tm1 m J5); auto). congruence. }
      congruence. }
    assert (Same : forall e, e < N -> ht e <> h -> acls a' e = acls a e) by (intros; auto).
    assert (At : forall e, e < N -> ht e = h -> exists k v, In (k, v) m /\ skey (cof a) k = skey (cof a) e /\ acls a' e = Some v) by (intros e Le Ee; apply R'; apply It; auto).
    assert (Cof : forall s, s < N -> ht s <= h -> skey (cof a') s = skey (cof a) s).
    { intros s Ls Hle. apply skey_ext. intros t Ht. pose proof (ht_edge f Hc Ha s t Ls Ht). unfold cof. rewrite Same; auto; [|lia]. apply (proj1 Hc s t Ht). }
    (* a class of this height is not one of a lower height *)
    assert (Apart : forall s t, s < N -> t < N -> ht s < h -> ht t = h -> acls a' s <> acls a' t).
    { intros s t Ls Lt Hs' Ht E. rewrite Same in E by (auto; lia). destruct (U6 s Ls Hs') as (c & Ec & Hcs). destruct (At t Lt Ht) as (k & v & Hk & _ & Ev).
      destruct (J6 k v Hk) as (_ & _ & _ & Hv). assert (c = v) by congruence. subst c. destruct (S2 s v Ec) as (_ & Lv & _). lia. }
    constructor; auto.
    - split.
      + intros e. split.
        * intros Le. destruct (Nat.eq_dec (ht e) h) as [Ee|Ee]; [destruct (At e Le Ee) as (k & v & _ & _ & ->); discriminate|].
          rewrite Same by auto. apply U2. auto.
        * intros Hn. destruct (acls a' e) as [c|] eqn:Ec; [|congruence]. pose proof (C29_partition N p' a' J1) as (_ & Q & _). apply (Q e c Ec).
      + intros c Lc. destruct (Nat.lt_ge_cases c (anum a)) as [Hl|Hl].
        * destruct (proj2 U2 c Hl) as (e & Ec). destruct (S2 e c Ec) as (Le & _). destruct (Nat.eq_dec (ht e) h) as [Ee|Ee].
          -- rewrite U5 in Ec by (auto; lia). exists x. rewrite (Own x h); [congruence|]. apply M1. left; auto.
          -- exists e. rewrite Same; auto.
        * destruct (J8 c Hl Lc) as (k & Hk). exists k. auto.
    - lia.
    - intros e Le He. rewrite Same by (auto; lia). apply U5; auto. lia.
    - intros e Le He. destruct (Nat.eq_dec (ht e) h) as [Ee|Ee].
      + destruct (At e Le Ee) as (k & v & Hk & _ & Ev). exists v. split; auto. destruct (J6 k v Hk) as (_ & _ & _ & [->|Hv]); [left; auto|right; lia].
      + rewrite Same by auto. apply U6; auto. lia.
    - intros s t Ls Lt H1 H2 E. rewrite !Cof by (auto; lia).
      destruct (Nat.eq_dec (ht s) h) as [E1'|E1'], (Nat.eq_dec (ht t) h) as [E2'|E2'].
      + split; [congruence|]. destruct (At s Ls E1') as (k & v & Hk & Ks & Ev), (At t Lt E2') as (k' & v' & Hk' & Kt & Ev').
        assert (v' = v) by congruence. subst v'. rewrite (Val _ _ _ Hk' Hk) in Kt. congruence.
      + exfalso. apply (Apart t s); auto. lia.
      + exfalso. apply (Apart s t); auto. lia.
      + rewrite !Same in E by auto. apply U7; auto; lia.
    - intros s t Ls Lt H1 H2 Ne. destruct (Nat.eq_dec (ht s) (ht t)) as [Eh|Eh]; [|eapply ht_apart; eauto].
      destruct (Nat.eq_dec (ht s) h) as [E1'|E1'].
      + apply (skey_ne (cof a)); auto.
        * intros Ek. apply Ne. destruct (At s Ls E1') as (k & v & Hk & Ks & Ev), (At t Lt ltac:(congruence)) as (k' & v' & Hk' & Kt & Ev').
          rewrite Ev, Ev'. f_equal. assert (Z : acls a' k = acls a' k'); [|rewrite (Own _ _ Hk), (Own _ _ Hk') in Z; congruence].
          assert (Ekk : skey (cof a) k = skey (cof a) k') by congruence.
          destruct (R' k) as (k2 & v2 & Hk2 & Ek2 & Ev2). { apply It. destruct (J6 k v Hk) as (A & B & _). auto. }
          assert (tm1 : forall l, StronglySorted (before (skey (cof a))) l -> forall y z, In y l -> In z l -> skey (cof a) (fst y) = skey (cof a) (fst z) -> y = z).
          { induction l as [|w l IHl]; intros Sl y z Hy Hz Eyz; [destruct Hy|]. inversion Sl as [|? ? Sa Sb]; subst. rewrite Forall_forall in Sb.
            destruct Hy as [<-|Hy], Hz as [<-|Hz]; auto.
            - specialize (Sb _ Hz). unfold before in Sb. rewrite Eyz, lexcmp_refl in Sb. discriminate.
            - specialize (Sb _ Hy). unfold before in Sb. rewrite <- Eyz, lexcmp_refl in Sb. discriminate. }
          assert (Y : (k, v) = (k', v')) by (apply (tm1 m J5); auto). congruence.
        * intros u w Hu Hw Ncl. pose proof (ht_edge f Hc Ha s u Ls Hu). pose proof (ht_edge f Hc Ha t w Lt Hw).
          apply U8; [apply (proj1 Hc s u Hu)|apply (proj1 Hc t w Hw)|lia|lia|]. intros E2. apply Ncl. unfold cof. rewrite E2. auto.
      + rewrite !Same in Ne by (auto; lia). apply U8; auto; lia.
  Qed.

  Theorem acyclic_ok : exists p cls k, acyclic_minimizer wlt f = Ok p /\ parts N p cls k /\
    (forall s t, s < N -> t < N -> cls s = cls t ->
       isfin f s = isfin f t /\ forall x, In x (trs_of f s) -> exists y, In y (trs_of f t) /\ il y = il x /\ cls (ns y) = cls (ns x)) /\
    (forall s t, s < N -> t < N -> cls s <> cls t -> D s t).
  Proof.
    destruct (acyclic_initialize_ok f Hc Ha s0 Hs Hacc) as (p0 & a0 & E0 & R0 & T0 & M0 & A0).
    unfold acyclic_minimizer. rewrite E0. cbn [rbind]. unfold acyclic_refine.
    pose proof (C29_partition N p0 a0 R0) as (Sn & S2 & _). rewrite Sn.
    assert (G : forall k h p a, h + k = anum a0 -> upto (anum a0) h p a -> exists p' a', rfold (refine_height wlt f) (seq h k) p = Ok p' /\ upto (anum a0) (anum a0) p' a').
    { induction k as [|k IH]; intros h p a Hk U; [exists p, a; split; [reflexivity|]; rewrite <- Hk, Nat.add_0_r in *; auto|].
      cbn [seq]. rewrite rfold_cons. destruct (height_ok (anum a0) h p a U ltac:(lia)) as (p1 & a1 & -> & U1). cbn [rbind].
      apply (IH (S h) p1 a1); auto. lia. }
    destruct (G (anum a0) 0 p0 a0 eq_refl) as (p & a & E & [U1 U2 U3 U4 U5 U6 U7 U8 U9]).
    { constructor; auto; try (intros; lia). intros e Le. destruct (S2 e (ht e) (A0 e Le)) as (_ & X & _). auto. }
    exists p, (cof a), (anum a). split; auto. split; [apply total_parts; auto|].
    assert (Q : forall s t, s < N -> t < N -> (cof a s = cof a t <-> acls a s = acls a t)).
    { intros s t Ls Lt. apply U2 in Ls, Lt. unfold cof. destruct (acls a s), (acls a t); try congruence. split; congruence. }
    split.
    - intros s t Ls Lt E1. apply Q in E1; auto. apply U7 in E1; auto. apply skey_eq. apply E1.
    - intros s t Ls Lt Ne. apply U8; auto. intros E1. apply Ne. apply Q; auto.
  Qed.
End A.
