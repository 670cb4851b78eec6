(** The tree of parents kept by the single-shortest-path loop. *)
From Coq Require Import List Arith NArith Bool Lia.
From Verif Require Import Base.Util Base.Semiring Base.Machine Base.PathSum Proofs.SdFacts.
Import ListNotations.
Local Open Scope K_scope.

Section Order.
  Context {K : SR} (L : sr_laws K) (Pp : path_plus K).
  (** [a] is at least as good as [b]. *)
  Definition le (a b : K) : Prop := a + b = a.
  Lemma le_refl a : le a a.
  Proof. unfold le. destruct (Pp a a); auto. Qed.
  Lemma le_trans a b c : le a b -> le b c -> le a c.
  Proof. unfold le. intros H1 H2. rewrite <- H1, <- (kplus_assoc _ L), H2. auto. Qed.
  Lemma le_antisym a b : le a b -> le b a -> a = b.
  Proof. unfold le. intros H1 H2. rewrite <- H1, (kplus_comm _ L), H2. auto. Qed.
  Lemma le_0 a : le a 0.
  Proof. unfold le. apply (kplus_0_r L). Qed.
  Lemma le_0_eq a : le 0 a -> a = 0.
  Proof. intros H. apply le_antisym; auto. apply le_0. Qed.
  Lemma le_mult_r a b c : le a b -> le (a * c) (b * c).
  Proof. unfold le. intros H. rewrite <- (kdistr_r _ L), H. auto. Qed.
  Lemma le_mult_l a b c : le a b -> le (c * a) (c * b).
  Proof. unfold le. intros H. rewrite <- (kdistr_l _ L), H. auto. Qed.
  Lemma le_plus a b : a <> a + b -> a + b = b /\ le b a /\ b <> a.
  Proof.
    intros H. destruct (Pp a b) as [E|E]; [congruence|]. split; auto. split; [unfold le; rewrite (kplus_comm _ L); auto|].
    intros ->. congruence.
  Qed.
  Lemma le_cycle a c : 1 + c = 1 -> le a (a * c).
  Proof. unfold le. intros H. rewrite <- (ktimes_1_r _ L a) at 1. rewrite <- (kdistr_l _ L), H. apply (ktimes_1_r _ L). Qed.
End Order.

Section Tree.
  Context {K : SR} (L : sr_laws K) (Pp : path_plus K) (m : machine K) (a : nat).
  (** No cycle improves on the empty path. *)
  Hypothesis Cy : forall s p, is_path m s p -> dst s p = s -> 1 + pw p = 1.
  Implicit Types (D : nat -> K) (P : nat -> option (nat * nat)) (dn : nat -> nat -> Prop).

  Lemma path_app s p q : is_path m s (p ++ q) <-> is_path m s p /\ is_path m (dst s p) q.
  Proof. revert s. induction p as [|t p IH]; intros s; simpl; [tauto|]. rewrite IH. tauto. Qed.

  Lemma pw_snoc (p : list (tr K)) t : pw (p ++ [t]) = pw p * wgt t.
  Proof. rewrite (pw_app L). cbn [pw]. rewrite (ktimes_1_r _ L). auto. Qed.

  Inductive rooted P : nat -> Prop :=
  | rooted_src : P a = None -> rooted P a
  | rooted_step v s i : P v = Some (s, i) -> rooted P s -> rooted P v.

  Record tree D P dn : Prop := {
    t_src : D a = 1;
    t_root : P a = None;
    t_par : forall v s i, P v = Some (s, i) ->
      exists t, nth_error (mtrs m s) i = Some t /\ ns t = v /\ le (D s * wgt t) (D v) /\ (dn s i -> D v = D s * wgt t);
    t_rel : forall s i t, dn s i -> nth_error (mtrs m s) i = Some t -> le (D (ns t)) (D s * wgt t);
    t_rooted : forall v, D v <> 0 -> rooted P v;
    t_simple : forall v, D v <> 0 -> exists p, is_path m a p /\ dst a p = v /\ pw p = D v /\ NoDup (a :: map ns p) /\
      forall p1 p2, p = p1 ++ p2 -> le (D (dst a p1)) (pw p1)
  }.

  Lemma tree_ext D P dn D' P' dn' : tree D P dn -> (forall u, D' u = D u) -> (forall u, P' u = P u) ->
    (forall s i t, dn' s i -> nth_error (mtrs m s) i = Some t -> dn s i) -> tree D' P' dn'.
  Proof.
    intros [A B C E F G] HD HP H. split.
    - rewrite HD. auto.
    - rewrite HP. auto.
    - intros v s i Hp. rewrite HP in Hp. destruct (C v s i Hp) as (t & T1 & T2 & T3 & T4). exists t. rewrite !HD. eauto 8.
    - intros s i t Hd Ht. rewrite !HD. eauto.
    - intros v Hv. rewrite HD in Hv. specialize (F v Hv). clear Hv. induction F as [Ha|v s i Hp R IH]; [apply rooted_src; rewrite HP; auto|].
      eapply rooted_step; [rewrite HP; exact Hp|]. auto.
    - intros v Hv. rewrite HD in Hv. destruct (G v Hv) as (p & G1 & G2 & G3 & G4 & G5). exists p. rewrite HD. repeat (split; auto).
      intros p1 p2 Ep. rewrite HD. eauto.
  Qed.

  Lemma tree_keep D P dn dn' s i t : tree D P dn -> nth_error (mtrs m s) i = Some t -> D (ns t) = D (ns t) + D s * wgt t ->
    (forall x j, dn' x j -> dn x j \/ (x = s /\ j = i)) -> tree D P dn'.
  Proof.
    intros [A B C E F G] Ht Eq H. split; auto.
    - intros v x j Hp. destruct (C v x j Hp) as (u & T1 & T2 & T3 & T4). exists u. split; auto. split; auto. split; auto.
      intros Hd. destruct (H x j Hd) as [Hd'|[-> ->]]; auto. rewrite Ht in T1. injection T1 as <-. subst v.
      apply (le_antisym L); auto. unfold le. auto.
    - intros x j u Hd Hu. destruct (H x j Hd) as [Hd'|[-> ->]]; eauto. rewrite Ht in Hu. injection Hu as <-. unfold le. auto.
  Qed.

  (** Either [v] is not above [s] in the tree, or there is a path from [v] to [s]. *)
  Lemma above D P dn P' v : tree D P dn -> (forall u, u <> v -> P' u = P u) -> forall s, rooted P s ->
    (rooted P' s /\ v <> s) \/ exists p, is_path m v p /\ dst v p = s /\ le (D v * pw p) (D s).
  Proof.
    intros T E. induction 1 as [Ha|s u i Hp R IH].
    - destruct (Nat.eq_dec v a) as [->|N]; [right|left].
      + exists []. cbn. split; auto. split; auto. rewrite (ktimes_1_r _ L). apply (le_refl Pp).
      + split; auto. constructor. rewrite E; auto.
    - destruct (Nat.eq_dec v s) as [->|N]; [right|].
      + exists []. cbn. split; auto. split; auto. rewrite (ktimes_1_r _ L). apply (le_refl Pp).
      + destruct IH as [[IH _]|(p & I1 & I2 & I3)].
        * left. split; auto. apply rooted_step with (s := u) (i := i); auto. rewrite E; auto.
        * right. destruct (t_par _ _ _ T s u i Hp) as (t & T1 & T2 & T3 & _). exists (p ++ [t]).
          split; [apply path_app; split; auto; rewrite I2; split; cbn; auto; eapply nth_error_In; eauto|].
          split; [rewrite dst_app; auto|]. rewrite pw_snoc, (ktimes_assoc _ L). eapply (le_trans L); [|exact T3].
          apply (le_mult_r L). auto.
  Qed.

  Lemma tree_update D P dn D' P' dn' s i t : tree D P dn -> nth_error (mtrs m s) i = Some t ->
    D (ns t) <> D (ns t) + D s * wgt t ->
    D' (ns t) = D (ns t) + D s * wgt t -> P' (ns t) = Some (s, i) ->
    (forall u, u <> ns t -> D' u = D u /\ P' u = P u) ->
    (forall x j, dn' x j -> x <> ns t /\ (dn x j \/ (x = s /\ j = i))) ->
    tree D' P' dn' /\ ns t <> s /\ ns t <> a /\ le (D' (ns t)) (D (ns t)) /\ D' (ns t) <> D (ns t) /\
    exists p, is_path m a p /\ pw p = D' (ns t) /\ NoDup (a :: map ns p).
  Proof.
    intros T Ht Hne ED EP Eo Hd. set (v := ns t) in *.
    destruct (le_plus L Pp _ _ Hne) as (Ew & Lw & Nw). rewrite Ew in ED.
    assert (Hs0 : D s <> 0). { intros E. rewrite E, (ktimes_0_l _ L) in Hne. apply Hne. rewrite (kplus_0_r L). auto. }
    assert (NC : forall p, is_path m v p -> dst v p = s -> ~ le (D v * pw p) (D s)).
    { intros p P1 P2 Lp. apply Nw. apply (le_antisym L); auto.
      eapply (le_trans L); [|exact (le_mult_r L _ _ (wgt t) Lp)]. rewrite <- (ktimes_assoc _ L), <- pw_snoc.
      apply (le_cycle L). apply (Cy v); [apply path_app; rewrite P2; cbn; repeat split; auto; eapply nth_error_In; eauto|].
      rewrite dst_app. reflexivity. }
    assert (AB : forall x, rooted P x -> (rooted P' x /\ v <> x) \/ exists p, is_path m v p /\ dst v p = x /\ le (D v * pw p) (D x)).
    { intros x. apply (above D P dn P' v T). intros u Hu. apply Eo. auto. }
    pose proof (t_rooted _ _ _ T s Hs0) as Rs. destruct (AB s Rs) as [[Rs' Nvs]|(p & P1 & P2 & P3)]; [|destruct (NC p P1 P2 P3)].
    assert (Nva : v <> a).
    { intros E. assert (X : forall x, rooted P x -> rooted P' x -> P' a = None).
      { intros x _ R. induction R; auto. }
      rewrite <- E in X. rewrite (X s Rs Rs') in EP. discriminate. }
    assert (Rv' : rooted P' v) by (eapply rooted_step; eauto).
    assert (RR : forall x, rooted P x -> rooted P' x).
    { intros x R. induction R as [Ha|x u j Hp R IH]; [apply rooted_src; rewrite (proj2 (Eo a (not_eq_sym Nva))); auto|].
      destruct (Nat.eq_dec x v) as [->|N]; auto. eapply rooted_step; [rewrite (proj2 (Eo x N)); exact Hp|auto]. }
    assert (LD : forall u, le (D' u) (D u)).
    { intros u. destruct (Nat.eq_dec u v) as [->|N]; [rewrite ED; auto|]. rewrite (proj1 (Eo u N)). apply (le_refl Pp). }
    destruct (t_simple _ _ _ T s Hs0) as (p & S1 & S2 & S3 & S4 & S5).
    assert (Sv : ~ In v (a :: map ns p)).
    { intros Hin. assert (exists p1 p2, p = p1 ++ p2 /\ dst a p1 = v) as (p1 & p2 & -> & E1).
      { clear - Hin. destruct Hin as [<-|Hin]; [exists [], p; auto|]. apply in_map_iff in Hin as (u & Eu & Hu).
        apply in_split in Hu as (l1 & l2 & ->). exists (l1 ++ [u]), l2. rewrite <- app_assoc, dst_app. auto. }
      specialize (S5 p1 p2 eq_refl). rewrite E1 in S5. apply path_app in S1 as [S1 S1']. rewrite E1 in S1'. rewrite dst_app, E1 in S2.
      apply (NC p2 S1' S2). rewrite <- S3, (pw_app L). apply (le_mult_r L). auto. }
    assert (Pv : is_path m a (p ++ [t]) /\ dst a (p ++ [t]) = v /\ pw (p ++ [t]) = D' v /\ NoDup (a :: map ns (p ++ [t]))).
    { split; [apply path_app; rewrite S2; cbn; repeat split; auto; eapply nth_error_In; eauto|]. split; [rewrite dst_app; auto|].
      split; [rewrite pw_snoc, S3, ED; auto|]. rewrite map_app. change (a :: map ns p ++ map ns [t])%list with ((a :: map ns p) ++ [v])%list.
      apply NoDup_app_snoc; auto. }
    split; [|split; [auto|split; [auto|split; [apply LD|split; [rewrite ED; auto|exists (p ++ [t]); tauto]]]]]. split.
    - rewrite (proj1 (Eo a (not_eq_sym Nva))). apply (t_src _ _ _ T).
    - rewrite (proj2 (Eo a (not_eq_sym Nva))). apply (t_root _ _ _ T).
    - intros u x j Hp. destruct (Nat.eq_dec u v) as [->|N].
      + rewrite EP in Hp. injection Hp as <- <-. exists t. split; auto. split; auto. rewrite (proj1 (Eo s (not_eq_sym Nvs))), ED.
        split; [apply (le_refl Pp)|auto].
      + destruct (Eo u N) as [Eu1 Eu2]. rewrite Eu2 in Hp. destruct (t_par _ _ _ T u x j Hp) as (t' & T1 & T2 & T3 & T4).
        exists t'. split; auto. split; auto. rewrite Eu1. split.
        * eapply (le_trans L); [|exact T3]. apply (le_mult_r L). auto.
        * intros Hx. destruct (Hd x j Hx) as [Nx [Hx'|[-> ->]]].
          -- rewrite (proj1 (Eo x Nx)). auto.
          -- rewrite Ht in T1. injection T1 as <-. exfalso. apply N. auto.
    - intros x j u Hx Hu. destruct (Hd x j Hx) as [Nx [Hx'|[Ex Ej]]]; rewrite (proj1 (Eo x Nx)).
      + eapply (le_trans L); [apply LD|]. eapply (t_rel _ _ _ T); eauto.
      + subst x j. rewrite Ht in Hu. injection Hu as <-. fold v. rewrite ED. apply (le_refl Pp).
    - intros u Hu. destruct (Nat.eq_dec u v) as [->|N]; auto. apply RR. apply (t_rooted _ _ _ T). rewrite <- (proj1 (Eo u N)). auto.
    - intros u Hu. destruct (Nat.eq_dec u v) as [->|N].
      + exists (p ++ [t]). destruct Pv as (V1 & V2 & V3 & V4). repeat (split; auto). intros p1 p2 E.
        destruct p2 as [|y p2 _] using rev_ind.
        * rewrite app_nil_r in E. subst p1. rewrite V2, V3. apply (le_refl Pp).
        * rewrite app_assoc in E. apply app_inj_tail in E as [-> _]. eapply (le_trans L); [apply LD|]. eapply S5; eauto.
      + rewrite (proj1 (Eo u N)) in Hu. destruct (t_simple _ _ _ T u Hu) as (q & Q1 & Q2 & Q3 & Q4 & Q5). exists q.
        rewrite (proj1 (Eo u N)). repeat (split; auto). intros p1 p2 E. eapply (le_trans L); [apply LD|]. eapply Q5; eauto.
  Qed.

  (** Once everything is processed the tree holds best paths. *)
  Lemma tree_best D P : tree D P (fun _ _ => True) -> forall p, is_path m a p -> le (D (dst a p)) (pw p).
  Proof.
    intros T p. induction p as [|t p IH] using rev_ind; intros Hp; cbn.
    - rewrite (t_src _ _ _ T). apply (le_refl Pp).
    - apply path_app in Hp as [Hp [Ht _]]. rewrite dst_app, pw_snoc. cbn [dst]. apply In_nth_error in Ht as (i & Ht).
      eapply (le_trans L); [apply (t_rel _ _ _ T (dst a p) i t); auto|]. apply (le_mult_r L). auto.
  Qed.
End Tree.
