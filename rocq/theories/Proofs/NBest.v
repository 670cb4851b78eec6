(** What the n-shortest-path search has found when it stops. *)
From Coq Require Import List Arith NArith Bool Lia Permutation.
From Verif Require Import Base.Util Base.Semiring Base.Machine Model.VectorFst Model.Rational Model.FstPath Model.NShortest
  Proofs.VectorFacts Proofs.TrOpsFacts Proofs.OpFacts Proofs.RationalFacts Proofs.ShortestTree Proofs.NHeap Proofs.ConnectFacts Proofs.NSearch Proofs.NLoop.
Import ListNotations.
Local Open Scope K_scope.

Lemma choose_distinct {A B} (R : A -> B -> Prop) l : NoDup l -> (forall i, In i l -> exists c, R i c) -> (forall i j c, R i c -> R j c -> i = j) ->
  exists l', NoDup l' /\ length l' = length l /\ forall c, In c l' -> exists i, In i l /\ R i c.
Proof.
  induction l as [|i l IH]; intros N H J.
  - exists []. split; [constructor|]. split; auto. intros c [].
  - inversion N; subst. destruct (H i (or_introl eq_refl)) as [c Hc]. destruct IH as (l' & N' & L' & H'); auto; [intros; apply H; right; auto|].
    exists (c :: l'). split; [|split; [cbn; congruence|]].
    + constructor; auto. intros Hin. destruct (H' c Hin) as (j & Hj & Rj). assert (i = j) by (eapply J; eauto). congruence.
    + intros d [<-|Hd]; [exists i; split; auto; left; auto|]. destruct (H' d Hd) as (j & Hj & Rj). exists j. split; auto. right. auto.
Qed.

Section S.
  Context {K K' : SR} (rb : K' -> K) (L : sr_laws K) (Pp : path_plus K).
  Context (I : vfst K') (dist : list K) (n : nat) (r0 : nat).
  Hypothesis D1 : forall q t, In t (trs_of I q) -> le (nth q dist 0) (nth (ns t) dist 0 * rb (wgt t)).
  Hypothesis D2 : forall q w, fin_of I q = Some w -> le (nth q dist 0) (rb w).
  Notation prio := (prio dist).
  Notation contrib := (contrib rb I).
  Notation gext := (gext rb I).
  Notation inv := (inv rb I dist n r0).
  Implicit Types (nodes : list (node (K := K))) (st : nst (K := K)) (ex sk dn : list nat).

  (** From [q] a final state can be reached so that weights below the mark stay below it. *)
  Inductive good (low : K -> Prop) : nat -> Prop :=
  | good_end q w : fin_of I q = Some w -> rb w <> 0 -> (forall v, low (nth q dist 0 * v) -> low (rb w * v)) -> good low q
  | good_arc q t : In t (trs_of I q) -> (forall v, low (nth q dist 0 * v) -> low (nth (ns t) dist 0 * (rb (wgt t) * v))) -> good low (ns t) -> good low q.

  (** The distance of [q] is that of a path all of whose ends are shortest. *)
  Inductive optimal : nat -> Prop :=
  | opt_end q w : fin_of I q = Some w -> rb w <> 0 -> nth q dist 0 = rb w -> optimal q
  | opt_arc q t : In t (trs_of I q) -> nth q dist 0 = nth (ns t) dist 0 * rb (wgt t) -> optimal (ns t) -> optimal q.
  Lemma optimal_good low q : optimal q -> good low q.
  Proof.
    induction 1 as [q w F N E|q t H E _ IH].
    - eapply good_end; eauto. rewrite E. auto.
    - eapply good_arc; eauto. rewrite E. intros v. rewrite (ktimes_assoc _ L). auto.
  Qed.

  Lemma flood st nodes ex sk dn (low : K -> Prop) : inv st nodes ex sk dn -> (forall x y, le x y -> low y -> low x) ->
    (forall i, In i (n_heap st) -> ~ low (prio (nd nodes i))) ->
    forall q, good low q -> forall l, NoDup l -> (n <= length l)%nat ->
      (forall j, In j l -> In j ex /\ nd_st (nd nodes j) = Some q /\ low (prio (nd nodes j))) ->
    exists l', NoDup l' /\ (n <= length l')%nat /\ forall j, In j l' -> In j dn /\ low (prio (nd nodes j)).
  Proof.
    intros V Down Heap q G. induction G as [q w F N S1|q t H S1 _ IH]; intros l Nl Ll Hl.
    - destruct (choose_distinct (fun i c => (1 <= c < length nodes)%nat /\ nd nodes c = end_child rb i (nd nodes i) w) l Nl) as (l' & N' & L' & H').
      + intros i Hi. destruct (Hl i Hi) as (H1 & H2 & H3). apply (i_end _ _ _ _ _ _ _ _ _ _ V i q w); auto.
      + intros i j c [_ E1] [_ E2]. rewrite E1 in E2. unfold end_child in E2. congruence.
      + exists l'. split; auto. split; [lia|]. intros c Hc. destruct (H' c Hc) as (i & Hi & Rc & Ec). destruct (Hl i Hi) as (H1 & H2 & H3).
        assert (Lc : low (prio (nd nodes c))).
        { rewrite Ec. unfold NSearch.prio in *. rewrite H2 in H3. cbn [end_child nd_st nd_suf pweight consr pwgt] in *. rewrite (ktimes_1_l _ L). auto. }
        split; auto. apply (inv_range _ _ _ _ _ _ _ _ _ _ V) in Rc. rewrite !in_app_iff in Rc. destruct Rc as [Rc|[Rc|[Rc|Rc]]]; auto.
        * exfalso. apply (Heap c); auto.
        * exfalso. apply (i_open _ _ _ _ _ _ _ _ _ _ V c); [apply in_or_app; auto|]. rewrite Ec. auto.
        * exfalso. apply (i_open _ _ _ _ _ _ _ _ _ _ V c); [apply in_or_app; auto|]. rewrite Ec. auto.
    - destruct (choose_distinct (fun i c => (1 <= c < length nodes)%nat /\ nd nodes c = arc_child rb i (nd nodes i) t) l Nl) as (l' & N' & L' & H').
      + intros i Hi. destruct (Hl i Hi) as (H1 & H2 & H3). apply (i_arc _ _ _ _ _ _ _ _ _ _ V i q t); auto.
      + intros i j c [_ E1] [_ E2]. rewrite E1 in E2. unfold arc_child in E2. congruence.
      + assert (Lw : forall c, In c l' -> nd_st (nd nodes c) = Some (ns t) /\ low (prio (nd nodes c)) /\ (In c ex \/ In c sk)).
        { intros c Hc. destruct (H' c Hc) as (i & Hi & Rc & Ec). destruct (Hl i Hi) as (H1 & H2 & H3).
          assert (Lc : low (prio (nd nodes c))).
          { rewrite Ec. unfold NSearch.prio in *. rewrite H2 in H3. cbn [arc_child nd_st nd_suf pweight consr pwgt] in *. auto. }
          assert (Sc : nd_st (nd nodes c) = Some (ns t)) by (rewrite Ec; auto).
          split; auto. split; auto. apply (inv_range _ _ _ _ _ _ _ _ _ _ V) in Rc. rewrite !in_app_iff in Rc. destruct Rc as [Rc|[Rc|[Rc|Rc]]]; auto.
          - exfalso. apply (Heap c); auto.
          - apply (i_done _ _ _ _ _ _ _ _ _ _ V) in Rc. congruence. }
        destruct (Forall_Exists_dec (fun c => In c ex) (fun c => in_dec Nat.eq_dec c ex) l') as [F|F].
        * rewrite Forall_forall in F. apply (IH l'); auto; [lia|]. intros c Hc. destruct (Lw c Hc) as (A & B & _). auto.
        * apply Exists_exists in F as (c & Hc & Nc). destruct (Lw c Hc) as (A & B & [C|C]); [congruence|].
          destruct (i_sk _ _ _ _ _ _ _ _ _ _ V c (ns t) C A) as (l2 & N2 & L2 & H2). apply (IH l2); auto.
          intros j Hj. destruct (H2 j Hj) as (J1 & J2 & J3). split; auto. split; auto. eapply Down; eauto.
  Qed.

  Lemma gext_low k : forall s suf x, In x (gext k s suf) -> le (pweight dist s * pwgt suf) (pwgt x).
  Proof.
    induction k as [|k IH]; intros [q|] suf x H; cbn [NSearch.gext] in H.
    - destruct H.
    - destruct H as [<-|[]]. cbn [pweight]. rewrite (ktimes_1_l _ L). apply (le_refl Pp).
    - cbn [pweight]. apply in_app_or in H as [H|H].
      + apply in_flat_map in H as (t & Ht & H). apply IH in H. cbn [pweight consr pwgt] in H. rewrite (ktimes_assoc _ L) in H.
        eapply (le_trans L); [|exact H]. apply (le_mult_r L). auto.
      + destruct (fin_of I q) as [w|] eqn:F; [|destruct H]. destruct (keqb (rb w) 0); [destruct H|]. apply IH in H. cbn [pweight consr pwgt] in H.
        rewrite (ktimes_1_l _ L) in H. eapply (le_trans L); [|exact H]. apply (le_mult_r L). eauto.
    - destruct H.
  Qed.
  Lemma gext_live k : forall q suf x, In x (gext k (Some q) suf) -> good (fun _ => True) q.
  Proof.
    induction k as [|k IH]; intros q suf x H; cbn [NSearch.gext] in H; [destruct H|]. apply in_app_or in H as [H|H].
    - apply in_flat_map in H as (t & Ht & H). apply IH in H. eapply good_arc; eauto.
    - destruct (fin_of I q) as [w|] eqn:F; [|destruct H]. destruct (keqb (rb w) 0) eqn:Z; [destruct H|]. apply (keqb_false L) in Z. eapply good_end; eauto.
  Qed.

  (** The complete paths found, and the rest. *)
  Lemma outcome st nodes ex sk dn : inv st nodes ex sk dn -> (forall q, nth q dist 0 <> 0 -> optimal q) ->
    ((n_heap st = [] /\ (length dn < n)%nat) \/
       (length dn = n /\ exists c, In c dn /\ (forall i, In i (ex ++ sk ++ dn) -> le (prio (nd nodes i)) (prio (nd nodes c))) /\
          forall i, In i (n_heap st) -> le (prio (nd nodes c)) (prio (nd nodes i)))) ->
    exists rest : nat -> list (fpath K),
      (forall k, Permutation (gext k (Some r0) (FP [] [] 1)) (map (fun i => nd_suf (nd nodes i)) (filter (fun i => Nat.eqb (nd_len (nd nodes i)) k) dn) ++ rest k)) /\
      ((length dn < n)%nat -> forall k, rest k = []) /\
      (forall k x i, In x (rest k) -> In i dn -> le (pwgt (nd_suf (nd nodes i))) (pwgt x)).
  Proof.
    intros V Op Case. exists (fun k => flat_map (fun i => contrib k (nd nodes i)) (n_heap st ++ sk)).
    assert (Pd : forall i, In i dn -> prio (nd nodes i) = pwgt (nd_suf (nd nodes i))).
    { intros i Hi. unfold NSearch.prio. rewrite (i_done _ _ _ _ _ _ _ _ _ _ V i Hi). cbn [pweight]. apply (ktimes_1_l _ L). }
    split; [|split].
    - intros k. rewrite (i_ext _ _ _ _ _ _ _ _ _ _ V k). rewrite app_assoc, flat_map_app, Permutation_app_comm. apply Permutation_app_tail.
      assert (Dn := i_done _ _ _ _ _ _ _ _ _ _ V). clear Case Pd V. induction dn as [|i l IH]; cbn [flat_map filter map]; auto.
      rewrite IH by (intros; apply Dn; right; auto). unfold NSearch.contrib at 1. rewrite (Dn i) by (left; auto).
      destruct (Nat.leb_spec (nd_len (nd nodes i)) k) as [H|H], (Nat.eqb_spec (nd_len (nd nodes i)) k) as [E|E]; try lia.
      + rewrite E, Nat.sub_diag. auto.
      + destruct (k - nd_len (nd nodes i))%nat eqn:Ek; [lia|]. auto.
      + auto.
    - intros Lt k. destruct Case as [[Eh _]|[El _]]; [|lia]. rewrite Eh. cbn [app].
      apply flat_map_all_nil. intros i Hi. destruct (contrib k (nd nodes i)) as [|x xs] eqn:Ec; auto. exfalso.
      assert (Hx : In x (contrib k (nd nodes i))) by (rewrite Ec; left; auto). unfold NSearch.contrib in Hx.
      destruct (Nat.leb (nd_len (nd nodes i)) k); [|destruct Hx].
      destruct (nd_st (nd nodes i)) as [q|] eqn:Eq; [|apply (i_open _ _ _ _ _ _ _ _ _ _ V i); auto; apply in_or_app; auto].
      apply gext_live in Hx. destruct (i_sk _ _ _ _ _ _ _ _ _ _ V i q Hi Eq) as (l & Nl & Ll & Hl).
      destruct (flood st nodes ex sk dn (fun _ => True) V) with (q := q) (l := l) as (l' & N' & L' & H'); auto.
      + intros j Hj. rewrite Eh in Hj. destruct Hj.
      + intros j Hj. destruct (Hl j Hj) as (J1 & J2 & _). auto.
      + assert (length l' <= length dn)%nat; [|lia]. apply NoDup_incl_length; auto. intros j Hj. apply H'. auto.
    - intros k x i Hx Hi. apply in_flat_map in Hx as (j & Hj & Hx). unfold NSearch.contrib in Hx.
      destruct (Nat.leb (nd_len (nd nodes j)) k); [|destruct Hx].
      apply gext_low in Hx. change (pweight dist (nd_st (nd nodes j)) * pwgt (nd_suf (nd nodes j))) with (prio (nd nodes j)) in Hx.
      rewrite <- (Pd i Hi). eapply (le_trans L); [|exact Hx]. clear Hx.
      apply in_app_or in Hj as [Hj|Hj].
      + apply (i_mono _ _ _ _ _ _ _ _ _ _ V); auto. rewrite !in_app_iff. auto.
      + destruct Case as [[Eh Lt]|(El & c & Hc & Mc & Hp)].
        * (* nothing skipped is below *)
          destruct (le_total L Pp (prio (nd nodes i)) (prio (nd nodes j))) as [H|H]; auto. destruct (keqb (prio (nd nodes i)) (prio (nd nodes j))) eqn:Q.
          { apply (keqb_true L) in Q. rewrite Q. apply (le_refl Pp). }
          exfalso. apply (keqb_false L) in Q.
          destruct (nd_st (nd nodes j)) as [q|] eqn:Eq; [|apply (i_open _ _ _ _ _ _ _ _ _ _ V j); auto; apply in_or_app; auto].
          destruct (i_sk _ _ _ _ _ _ _ _ _ _ V j q Hj Eq) as (l & Nl & Ll & Hl).
          assert (Dq : nth q dist 0 <> 0).
          { intros E. apply Q. unfold NSearch.prio in H at 1. rewrite Eq in H. cbn [pweight] in H. rewrite E, (ktimes_0_l _ L) in H.
            unfold NSearch.prio at 2. rewrite Eq. cbn [pweight]. rewrite E, (ktimes_0_l _ L). apply (le_0_eq L). auto. }
          destruct (flood st nodes ex sk dn (fun _ => True) V) with (q := q) (l := l) as (l' & N' & L' & H'); auto.
          { intros h Hh. rewrite Eh in Hh. destruct Hh. }
          { apply optimal_good. auto. }
          { intros h Hh. destruct (Hl h Hh) as (J1 & J2 & _). auto. }
          assert (length l' <= length dn)%nat; [|lia]. apply NoDup_incl_length; auto. intros h Hh. apply H'. auto.
        * apply (le_trans L _ (prio (nd nodes c))); [apply Mc; rewrite !in_app_iff; auto|].
          destruct (le_total L Pp (prio (nd nodes c)) (prio (nd nodes j))) as [H|H]; auto. destruct (keqb (prio (nd nodes c)) (prio (nd nodes j))) eqn:Q.
          { apply (keqb_true L) in Q. rewrite Q. apply (le_refl Pp). }
          exfalso. apply (keqb_false L) in Q.
          destruct (nd_st (nd nodes j)) as [q|] eqn:Eq; [|apply (i_open _ _ _ _ _ _ _ _ _ _ V j); auto; apply in_or_app; auto].
          destruct (i_sk _ _ _ _ _ _ _ _ _ _ V j q Hj Eq) as (l & Nl & Ll & Hl).
          assert (Dq : nth q dist 0 <> 0).
          { intros E. apply Q. unfold NSearch.prio in H at 1. rewrite Eq in H. cbn [pweight] in H. rewrite E, (ktimes_0_l _ L) in H.
            unfold NSearch.prio at 2. rewrite Eq. cbn [pweight]. rewrite E, (ktimes_0_l _ L). apply (le_0_eq L). auto. }
          set (C := prio (nd nodes c)) in *. set (low := fun v => le v C /\ v <> C).
          assert (Down : forall x y, le x y -> low y -> low x).
          { intros u v Huv [A B]. split; [eapply (le_trans L); eauto|]. intros ->. apply B. apply (le_antisym L); auto. }
          destruct (flood st nodes ex sk dn low V Down) with (q := q) (l := l) as (l' & N' & L' & H'); auto.
          { intros h Hh [A B]. apply B. apply (le_antisym L); auto. }
          { apply optimal_good. auto. }
          { intros h Hh. destruct (Hl h Hh) as (J1 & J2 & J3). split; auto. split; auto. apply (Down _ (prio (nd nodes j))); auto. split; auto. }
          assert (length (c :: l') <= length dn)%nat; [|cbn in *; lia]. apply NoDup_incl_length.
          { constructor; auto. intros Hin. destruct (H' c Hin) as [_ [_ B]]. apply B. auto. }
          { intros h [<-|Hh]; auto. apply H'. auto. }
  Qed.
End S.
