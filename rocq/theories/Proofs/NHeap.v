(** The heap of the n-shortest-path search keeps its elements and pops a greatest one. *)
From Coq Require Import List Arith Bool Lia Permutation.
From Verif Require Import Base.Util Base.Semiring Base.Machine Model.NShortest.
Import ListNotations.

Lemma perm_hswap {V} (d : list V) i j x y : i <> j -> nth_error d i = Some x -> nth_error d j = Some y -> Permutation d (hswap d i j x y).
Proof.
  intros N Hi Hj. pose proof (nth_error_lt _ _ _ Hi) as Li. pose proof (nth_error_lt _ _ _ Hj) as Lj. apply Permutation_nth_error. unfold hswap.
  split; [rewrite !upd_length; auto|]. exists (fun k => if k =? i then j else if k =? j then i else k). split.
  - intros a b. destruct (Nat.eqb_spec a i), (Nat.eqb_spec a j), (Nat.eqb_spec b i), (Nat.eqb_spec b j); subst; congruence.
  - intros k. destruct (Nat.eqb_spec k i) as [->|Ni].
    + rewrite nth_error_upd_ne by auto. rewrite nth_error_upd_eq by auto. congruence.
    + destruct (Nat.eqb_spec k j) as [->|Nj].
      * rewrite nth_error_upd_eq by (rewrite upd_length; auto). congruence.
      * rewrite !nth_error_upd_ne by auto. auto.
Qed.
Lemma nth_hswap {V} (d : list V) i j x y k : i < length d -> j < length d -> i <> j ->
  nth_error (hswap d i j x y) k = if k =? j then Some x else if k =? i then Some y else nth_error d k.
Proof.
  intros Hi Hj N. unfold hswap. destruct (Nat.eqb_spec k j) as [->|Nj].
  - apply nth_error_upd_eq. rewrite upd_length. auto.
  - rewrite nth_error_upd_ne by auto. destruct (Nat.eqb_spec k i) as [->|Ni]; [apply nth_error_upd_eq; auto|apply nth_error_upd_ne; auto].
Qed.

Section H.
  Context {V : Type} (less : V -> V -> res bool) (dom : V -> Prop) (lt : V -> V -> bool).
  Hypothesis Less : forall x y, dom x -> dom y -> less x y = Ok (lt x y).
  (** [x] is at least [y]. *)
  Definition ge (x y : V) : Prop := lt x y = false.
  Hypothesis Ge_trans : forall x y z, dom x -> dom y -> dom z -> ge x y -> ge y z -> ge x z.
  Hypothesis Ge_total : forall x y, dom x -> dom y -> lt x y = true -> ge y x.
  Implicit Types d : list V.

  Lemma ge_refl x : dom x -> ge x x.
  Proof. intros D. unfold ge. destruct (lt x x) eqn:E; auto. pose proof (Ge_total x x D D E). unfold ge in *. congruence. Qed.

  Definition par (i : nat) : nat := Nat.div (i - 1) 2.
  Lemma par_lt i : 0 < i -> par i < i.
  Proof. intros H. unfold par. apply Nat.div_lt_upper_bound; lia. Qed.
  Lemma par_child i c : 0 < c -> (par c = i <-> c = 2 * i + 1 \/ c = 2 * i + 2).
  Proof.
    intros H. unfold par. pose proof (Nat.div_mod (c - 1) 2). pose proof (Nat.mod_upper_bound (c - 1) 2). split; intros E; [lia|].
    destruct E as [->| ->].
    - replace (2 * i + 1 - 1) with (i * 2) by lia. apply Nat.div_mul. lia.
    - replace (2 * i + 2 - 1) with (1 + i * 2) by lia. rewrite Nat.div_add by lia. reflexivity.
  Qed.

  Definition okat d (i : nat) : Prop := forall x y, nth_error d (par i) = Some x -> nth_error d i = Some y -> ge x y.
  Definition heap d : Prop := forall i, 0 < i -> okat d i.
  Definition bridge d (idx : nat) : Prop :=
    forall i x y, 0 < i -> 0 < idx -> par i = idx -> nth_error d (par idx) = Some x -> nth_error d i = Some y -> ge x y.

  Lemma dom_perm d d' : Forall dom d -> Permutation d d' -> Forall dom d'.
  Proof. intros F P. rewrite Forall_forall in *. intros x Hx. apply F. eapply Permutation_in; [symmetry; eauto|auto]. Qed.
  Lemma dom_nth d i x : Forall dom d -> nth_error d i = Some x -> dom x.
  Proof. intros F H. rewrite Forall_forall in F. apply F. eapply nth_error_In; eauto. Qed.

  Lemma heap_top d x y : Forall dom d -> heap d -> nth_error d 0 = Some x -> In y d -> ge x y.
  Proof.
    intros F H Hx Hy. apply In_nth_error in Hy as [i Hi]. revert y Hi. induction i as [i IH] using lt_wf_ind. intros y Hi.
    destruct (Nat.eq_dec i 0) as [->|Ni]; [assert (x = y) by congruence; subst; apply ge_refl; eapply dom_nth; eauto|].
    pose proof (par_lt i ltac:(lia)) as Lp. destruct (nth_error_ex d (par i)) as [z Hz]; [apply nth_error_lt in Hi; lia|].
    apply (Ge_trans x z y); eauto using dom_nth. apply (H i ltac:(lia) z y Hz Hi).
  Qed.

  Lemma sift_up_ok fuel : forall d idx, Forall dom d -> idx < length d -> idx < fuel -> (forall i, 0 < i -> i <> idx -> okat d i) -> bridge d idx ->
    exists d', sift_up less fuel d idx = Ok d' /\ heap d' /\ Permutation d d'.
  Proof.
    induction fuel as [|fuel IH]; intros d idx F Hl Hf O B; [lia|]. cbn [sift_up]. destruct idx as [|j].
    - exists d. split; auto. split; auto. intros i Hi. apply O; lia.
    - set (i := S j) in *. assert (Ep : Nat.div j 2 = par i) by (unfold par, i; cbn; rewrite Nat.sub_0_r; auto). rewrite Ep.
      pose proof (par_lt i ltac:(lia)) as Lp. destruct (nth_error_ex d (par i)) as [x Hx]; [lia|]. destruct (nth_error_ex d i Hl) as [y Hy].
      unfold hget. rewrite Hx, Hy. cbn [got rbind]. rewrite (Less x y) by eauto using dom_nth. cbn [rbind]. destruct (lt x y) eqn:E.
      + pose proof (Ge_total x y (dom_nth _ _ _ F Hx) (dom_nth _ _ _ F Hy) E) as Gyx.
        assert (N : i <> par i) by lia. pose proof (perm_hswap d i (par i) y x N Hy Hx) as P.
        pose proof (fun k => nth_hswap d i (par i) y x k Hl ltac:(lia) N) as Nt.
        destruct (IH (hswap d i (par i) y x) (par i)) as (d' & E1 & H1 & P1).
        * eapply dom_perm; eauto.
        * rewrite <- (Permutation_length P). lia.
        * lia.
        * intros k Hk Nk u v. rewrite !Nt. destruct (Nat.eqb_spec k (par i)); [lia|]. destruct (Nat.eqb_spec k i) as [->|Nki].
          { rewrite Nat.eqb_refl. intros [= <-] [= <-]. auto. }
          destruct (Nat.eqb_spec (par k) (par i)) as [Ek|_].
          { intros [= <-] Hv. apply (Ge_trans y x v); eauto using dom_nth. rewrite <- Ek in Hx. apply (O k Hk Nki x v Hx Hv). }
          destruct (Nat.eqb_spec (par k) i) as [Ek|_].
          { intros [= <-] Hv. apply (B k x v); auto. lia. }
          apply (O k Hk Nki).
        * intros k u v Hk Hp Ek. rewrite !Nt. pose proof (par_lt (par i) Hp) as Lpp.
          replace (par (par i) =? par i) with false by (symmetry; apply Nat.eqb_neq; lia).
          replace (par (par i) =? i) with false by (symmetry; apply Nat.eqb_neq; lia).
          pose proof (par_lt k Hk) as Lk. replace (k =? par i) with false by (symmetry; apply Nat.eqb_neq; lia).
          intros Hu Hv. assert (Gux : ge u x) by (apply (O (par i) Hp ltac:(lia) u x Hu Hx)).
          destruct (Nat.eqb_spec k i) as [->|Nki]; [injection Hv as <-; auto|].
          apply (Ge_trans u x v); eauto using dom_nth. rewrite <- Ek in Hx. apply (O k Hk Nki x v Hx Hv).
        * exists d'. split; auto. split; auto. etransitivity; eauto.
      + exists d. split; auto. split; auto. intros k Hk. destruct (Nat.eq_dec k i) as [->|Nk]; [|apply O; auto].
        intros u v Hu Hv. unfold ge. congruence.
  Qed.

  Lemma hpush_ok d v : Forall dom d -> dom v -> heap d -> exists d', hpush less d v = Ok d' /\ heap d' /\ Permutation (v :: d) d'.
  Proof.
    intros F D H. unfold hpush. destruct (sift_up_ok (S (length d)) (d ++ [v]) (length d)) as (d' & E & H' & P).
    - apply Forall_app. auto.
    - rewrite app_length. cbn. lia.
    - lia.
    - intros i Hi Ni x y Hx Hy. pose proof (nth_error_lt _ _ _ Hy) as Ly. rewrite app_length in Ly. cbn in Ly.
      pose proof (par_lt i Hi). rewrite nth_error_app1 in Hx, Hy by lia. apply (H i Hi x y Hx Hy).
    - intros i x y Hi Hn Ei _ Hy. pose proof (nth_error_lt _ _ _ Hy) as Ly. rewrite app_length in Ly. cbn in Ly. pose proof (par_lt i Hi). lia.
    - exists d'. split; auto. split; auto. rewrite <- P. apply Permutation_cons_append.
  Qed.

  Lemma sift_down_ok fuel : forall d idx, Forall dom d -> idx < length d -> length d <= fuel + idx ->
    (forall i, 0 < i -> par i <> idx -> okat d i) -> bridge d idx ->
    exists d', sift_down less fuel d idx = Ok d' /\ heap d' /\ Permutation d d'.
  Proof.
    induction fuel as [|fuel IH]; intros d idx F Hl Hf O B; [lia|]. cbn [sift_down]. destruct (nth_error_ex d idx Hl) as [cur Hc].
    unfold hget. rewrite Hc. cbn [got rbind]. set (c1 := 2 * idx + 1). set (c2 := 2 * idx + 2).
    assert (P1 : par c1 = idx) by (apply par_child; unfold c1; lia). assert (P2 : par c2 = idx) by (apply par_child; unfold c1, c2; lia).
    assert (Ch : forall i, 0 < i -> par i = idx -> i = c1 \/ i = c2) by (intros i Hi Ei; apply par_child in Ei; auto).
    destruct (Nat.leb_spec (length d) c1) as [H1|H1]; cbn [andb].
    { replace (length d <=? c2) with true by (symmetry; apply Nat.leb_le; unfold c1, c2 in *; lia). cbn [andb].
      exists d. split; auto. split; auto. intros i Hi. destruct (Nat.eq_dec (par i) idx) as [Ei|Ni]; [|apply O; auto].
      intros x y _ Hy. apply nth_error_lt in Hy. destruct (Ch i Hi Ei); subst i; unfold c1, c2 in *; lia. }
    replace (c1 <? length d) with true by (symmetry; apply Nat.ltb_lt; auto). cbn [andb].
    assert (Step : forall big z, (big = c1 \/ big = c2) -> nth_error d big = Some z ->
      (forall i y, i = c1 \/ i = c2 -> nth_error d i = Some y -> ge z y) ->
      exists d', (b <-- less z cur ;; if negb b then sift_down less fuel (hswap d idx big cur z) big else Ok d) = Ok d' /\ heap d' /\ Permutation d d').
    { intros big z Eb Hz Gz. assert (Pb : par big = idx) by (destruct Eb; congruence). assert (Lb : idx < big) by (unfold c1, c2 in *; lia).
      rewrite (Less z cur) by eauto using dom_nth. cbn [rbind]. destruct (lt z cur) eqn:E; cbn [negb].
      - exists d. split; auto. split; auto. intros i Hi. destruct (Nat.eq_dec (par i) idx) as [Ei|Ni]; [|apply O; auto].
        intros x y Hx Hy. rewrite Ei in Hx. assert (x = cur) by congruence. subst x.
        apply (Ge_trans cur z y); eauto using dom_nth.
      - pose proof (nth_error_lt _ _ _ Hz) as Lz. assert (N : idx <> big) by lia. pose proof (perm_hswap d idx big cur z N Hc Hz) as P.
        pose proof (fun k => nth_hswap d idx big cur z k Hl Lz N) as Nt.
        destruct (IH (hswap d idx big cur z) big) as (d' & E1 & H2 & P3).
        + eapply dom_perm; eauto.
        + rewrite <- (Permutation_length P). auto.
        + rewrite <- (Permutation_length P). lia.
        + intros k Hk Nk u v. rewrite !Nt. destruct (Nat.eqb_spec (par k) big) as [Ek|_]; [congruence|].
          pose proof (par_lt k Hk). destruct (Nat.eqb_spec (par k) idx) as [Ek|Nki].
          * intros [= <-]. destruct (Nat.eqb_spec k big) as [->|Nkb]; [intros [= <-]; exact E|].
            destruct (Nat.eqb_spec k idx); [lia|]. intros Hv. apply (Gz k v); auto.
          * destruct (Nat.eqb_spec k big) as [->|Nkb]; [congruence|]. destruct (Nat.eqb_spec k idx) as [->|Nkx].
            { intros Hu [= <-]. apply (B big u z); auto; lia. }
            apply (O k Hk Nki).
        + intros k u v Hk Hb Ek. rewrite !Nt. rewrite Pb. replace (idx =? big) with false by (symmetry; apply Nat.eqb_neq; lia).
          rewrite Nat.eqb_refl. intros [= <-]. pose proof (par_lt k Hk). destruct (Nat.eqb_spec k big); [lia|].
          destruct (Nat.eqb_spec k idx); [lia|]. intros Hv. rewrite <- Ek in Hz. apply (O k Hk ltac:(lia) z v Hz Hv).
        + exists d'. split; auto. split; auto. etransitivity; eauto. }
    destruct (Nat.leb_spec (length d) c2) as [H2|H2]; cbn [rbind].
    - destruct (nth_error_ex d c1 H1) as [z Hz]. rewrite Hz. cbn [got rbind]. apply (Step c1 z); auto.
      intros i y [->| ->] Hy; [|apply nth_error_lt in Hy; lia]. assert (y = z) by congruence. subst y. apply ge_refl. eapply dom_nth; eauto.
    - destruct (nth_error_ex d c1 H1) as [x Hx]. destruct (nth_error_ex d c2 H2) as [y Hy]. rewrite Hx, Hy. cbn [got rbind].
      pose proof (dom_nth _ _ _ F Hx) as Dx. pose proof (dom_nth _ _ _ F Hy) as Dy.
      rewrite (Less x y) by auto. cbn [rbind]. destruct (lt x y) eqn:E; [rewrite Hy|rewrite Hx]; cbn [got rbind].
      + apply (Step c2 y); auto. intros i v [->| ->] Hv; [assert (v = x) by congruence|assert (v = y) by congruence]; subst v; auto. apply ge_refl; auto.
      + apply (Step c1 x); auto. intros i v [->| ->] Hv; [assert (v = x) by congruence|assert (v = y) by congruence]; subst v; auto. apply ge_refl; auto.
  Qed.

  Lemma hpop_ok d : Forall dom d -> heap d -> d <> [] ->
    exists x d', hpop less d = Ok (x, d') /\ heap d' /\ Permutation d (x :: d') /\ (forall y, In y d -> ge x y).
  Proof.
    intros F H N. unfold hpop, hget. destruct d as [|x l]; [congruence|]. cbn [nth_error got rbind]. exists x.
    assert (Top : forall y, In y (x :: l) -> ge x y) by (intros y Hy; apply (heap_top (x :: l)); auto).
    destruct (Nat.eqb_spec (length (x :: l)) 1) as [E1|N1].
    - exists []. split; auto. split; [|split; auto].
      + intros i Hi u v _ Hv. destruct i; discriminate.
      + destruct l; [auto|discriminate].
    - destruct (exists_last (l := l)) as (l1 & y & El); [intros ->; apply N1; auto|]. subst l.
      assert (Hy : nth_error (x :: l1 ++ [y]) (length (x :: l1 ++ [y]) - 1) = Some y).
      { cbn [length]. rewrite app_length. cbn [length]. replace (S (length l1 + 1) - 1) with (S (length l1)) by lia.
        cbn [nth_error]. rewrite nth_error_app2, Nat.sub_diag by auto. auto. }
      rewrite Hy. cbn [got rbind]. replace (removelast (x :: l1 ++ [y])) with (x :: l1) by (change (x :: l1 ++ [y]) with ((x :: l1) ++ [y]); rewrite removelast_last; auto).
      cbn [upd]. destruct (sift_down_ok (length (x :: l1 ++ [y])) (y :: l1) 0) as (d' & E & H' & P).
      + apply Forall_cons; [eapply dom_nth; eauto|]. inversion F; subst. apply Forall_app in H3 as [H3 _]. auto.
      + cbn. lia.
      + cbn. rewrite app_length. cbn. lia.
      + intros i Hi Ni u v Hu Hv. pose proof (nth_error_lt _ _ _ Hv) as Lv. cbn in Lv.
        assert (Same : forall k, 0 < k -> k < S (length l1) -> nth_error (x :: l1 ++ [y]) k = nth_error (y :: l1) k).
        { intros k Hk Lk. destruct k; [lia|]. cbn. apply nth_error_app1. lia. }
        pose proof (par_lt i Hi). apply (H i Hi u v); rewrite Same by lia; auto.
      + intros i u v Hi Hn. lia.
      + rewrite E. cbn [rbind]. exists d'. split; auto. split; auto. split; auto. apply perm_skip. rewrite <- P.
        rewrite Permutation_app_comm. auto.
  Qed.
End H.
