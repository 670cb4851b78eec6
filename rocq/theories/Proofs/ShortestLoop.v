(** The loop of the single-shortest-path search. *)
From Coq Require Import List Arith NArith Bool Lia.
From Verif Require Import Base.Util Base.Semiring Base.Machine Base.PathSum
  Model.Props Model.VectorFst Model.Queues Model.ShortestDistance Model.ShortestPath
  Proofs.VectorFacts Proofs.ConnectFacts Proofs.SdFacts Proofs.ShortestTree.
Import ListNotations.
Local Open Scope K_scope.

Lemma filter_strict {A} (P P' : A -> bool) l x : (forall y, P' y = true -> P y = true) -> In x l -> P x = true -> P' x = false ->
  (length (filter P' l) < length (filter P l))%nat.
Proof.
  intros H Hin Hx Hx'. assert (Le : forall l, (length (filter P' l) <= length (filter P l))%nat).
  { induction l0 as [|y l0 IH]; simpl; auto. specialize (H y). destruct (P' y), (P y); simpl; try lia; discriminate H; auto. }
  apply in_split in Hin as (l1 & l2 & ->). rewrite !filter_app, !app_length. cbn [filter]. rewrite Hx, Hx'. cbn [length].
  pose proof (Le l1). pose proof (Le l2). lia.
Qed.

Lemma sum_change (g h : nat -> nat) n v d : (v < n)%nat -> (g v + d <= h v)%nat -> (forall u, u <> v -> g u = h u) ->
  (list_sum (map g (seq O n)) + d <= list_sum (map h (seq O n)))%nat.
Proof.
  intros Hv H E. replace n with (v + S (n - S v))%nat by lia. rewrite seq_app, !map_app, !list_sum_app. cbn [seq map list_sum fold_right Nat.add].
  assert (X : forall j k, (v < j \/ j + k <= v)%nat -> map g (seq j k) = map h (seq j k)).
  { intros j k Hjk. apply map_ext_in. intros u Hu. apply in_seq in Hu. apply E. lia. }
  rewrite (X O v), (X (S v) _) by lia. unfold list_sum. lia.
Qed.

Section Loop.
  Context {K : SR} (L : sr_laws K) (Pp : path_plus K) (Q : qops) (f : vfst K) (a : nat).
  Let n := num_states f.
  Let m := mach f.
  Hypothesis C : closed f.
  Hypothesis Ha : (a < n)%nat.
  Hypothesis Cy : forall s p, is_path m s p -> dst s p = s -> 1 + pw p = 1.
  Variable ok : Q -> (nat -> nat) -> option nat -> Prop.
  Hypothesis QS : qspec Q (kmach f (fun _ => true)) n ok.
  Hypothesis QU : forall q M last s, ok q M last -> (0 < M s)%nat -> exists q', qo_update Q q s = Ok q' /\ ok q' M last.

  Implicit Types st : spst K Q.
  Definition cl st v : pcell K := nth v (sp_cells _ st) pcell0.
  Definition Dq st v := p_dist (cl st v).
  Definition Pq st v := p_par (cl st v).
  Definition Eq st v := p_enq (cl st v).

  Definition fin_ok (D : nat -> K) (E : nat -> bool) (fd : K) (fp : option nat) : Prop :=
    match fp with
    | None => fd = 0
    | Some q => exists w, fin_of f q = Some w /\ fd <> 0 /\ le (D q * w) fd /\ (E q = false -> fd = D q * w)
    end /\
    forall s w, E s = false -> fin_of f s = Some w -> le fd (D s * w).

  (** [dn x j]: the transition [j] of [x] has been followed since [x] got its distance. *)
  Definition linv st M last (dn : nat -> nat -> Prop) : Prop :=
    length (sp_cells _ st) = n /\ ok (sp_queue _ st) M last /\ (forall v, M v = if Eq st v then 1 else 0)%nat /\
    tree m a (Dq st) (Pq st) dn /\ fin_ok (Dq st) (Eq st) (sp_fd _ st) (sp_fp _ st).

  (** Weights of short paths that would still improve an entry. *)
  Definition pool : list K := flat_map (fun k => map pw (paths m k a)) (seq O n).
  Definition better (y x : K) : bool := keqb (x + y) x && negb (keqb x y).
  Definition mu (y : K) : nat := length (filter (better y) pool).
  Definition meas st : nat := list_sum (map (fun v => mu (Dq st v) + (if Eq st v then 1 else 0))%nat (seq O n)).

  Lemma betterP y x : better y x = true <-> le x y /\ x <> y.
  Proof.
    unfold better. rewrite andb_true_iff, negb_true_iff. unfold le. split; intros [H1 H2].
    - split; [apply (keqb_true L); auto|]. intros ->. rewrite (keqb_refl L) in H2. discriminate.
    - split; [rewrite H1; apply (keqb_refl L)|]. apply (keqb_false L). auto.
  Qed.

  Lemma mu_dec x y : In x pool -> le x y -> x <> y -> (mu x < mu y)%nat.
  Proof.
    intros Hin H1 H2. unfold mu. apply filter_strict with (x := x); auto.
    - intros z Hz. apply betterP in Hz as [Z1 Z2]. apply betterP. split; [eapply (le_trans L); eauto|].
      intros ->. apply H2. apply (le_antisym L); auto.
    - apply betterP. auto.
    - destruct (better x x) eqn:E; auto. apply betterP in E as [_ E]. congruence.
  Qed.

  Lemma path_below s p : (s < n)%nat -> is_path m s p -> forall v, In v (s :: map ns p) -> (v < n)%nat.
  Proof.
    revert s. induction p as [|t p IH]; intros s Hs Hp v Hv.
    - destruct Hv as [<-|[]]; auto.
    - destruct Hp as [Ht Hp]. destruct Hv as [<-|Hv]; auto. apply (IH (ns t)); auto. apply (proj1 C s t Ht).
  Qed.

  Lemma in_pool p : is_path m a p -> NoDup (a :: map ns p) -> In (pw p) pool.
  Proof.
    intros Hp Nd. apply in_flat_map. exists (length p). split.
    - apply in_seq. assert (length (a :: map ns p) <= length (seq O n))%nat; [|rewrite seq_length in *; simpl in *; rewrite map_length in *; lia].
      apply NoDup_incl_length; auto. intros v Hv. apply in_seq. pose proof (path_below a p Ha Hp v Hv). lia.
    - apply in_map. apply paths_is_path. auto.
  Qed.

  Definition upto_pos st s i : nat -> nat -> Prop := fun x j => Eq st x = false /\ (x <> s \/ (j < i)%nat).

  Lemma cl_upd st c v u : (v < length (sp_cells _ st))%nat -> forall q fd fp,
    cl (SP Q q (upd (sp_cells _ st) v c) fd fp) u = if Nat.eqb u v then c else cl st u.
  Proof.
    intros Hv q fd fp. unfold cl. cbn [sp_cells]. destruct (Nat.eqb_spec u v) as [->|N]; [apply nth_upd_eq; auto|apply nth_upd_ne; auto].
  Qed.

  Lemma tr_step st M s i t : linv st M (Some s) (upto_pos st s i) -> (s < n)%nat -> Eq st s = false ->
    nth_error (trs_of f s) i = Some t ->
    exists st' M', sp_tr Q s (Dq st s) st i t = Ok st' /\ linv st' M' (Some s) (upto_pos st' s (S i)) /\
      Eq st' s = false /\ Dq st' s = Dq st s /\ (meas st' <= meas st)%nat.
  Proof.
    intros (I1 & I2 & I3 & I4 & I5) Hs Es Ht. unfold sp_tr.
    pose proof (nth_error_In _ _ Ht) as Hin. pose proof (proj1 C s t Hin) as Hv. fold n in Hv.
    rewrite (nth_error_nth _ (ns t) pcell0) by (rewrite I1; auto). fold (cl st (ns t)).
    change (p_dist (cl st (ns t))) with (Dq st (ns t)). change (p_enq (cl st (ns t))) with (Eq st (ns t)).
    destruct (keqbP L (Dq st (ns t)) (Dq st (ns t) + Dq st s * wgt t)) as [E|N].
    - exists st, M. split; auto. split; [|auto]. split; auto. split; auto. split; auto. split; auto.
      eapply (tree_keep L m a _ _ _ _ s i t I4 Ht E). intros x j [X1 X2].
      destruct (Nat.eq_dec x s) as [->|]; [|left; split; auto]. destruct (Nat.eq_dec j i) as [->|]; auto. left. split; auto. right. destruct X2; [congruence|lia].
    - set (v := ns t) in *. set (c := PC (Dq st v + Dq st s * wgt t) (Some (s, i)) true).
      assert (U : exists q' M', (if negb (Eq st v) then q <-- qo_enqueue Q (sp_queue _ st) v ;; Ok (SP Q q (upd (sp_cells _ st) v c) (sp_fd _ st) (sp_fp _ st))
         else q <-- qo_update Q (sp_queue _ st) v ;; Ok (SP Q q (upd (sp_cells _ st) v c) (sp_fd _ st) (sp_fp _ st))) =
           Ok (SP Q q' (upd (sp_cells _ st) v c) (sp_fd _ st) (sp_fp _ st)) /\ ok q' M' (Some s) /\ M' v = 1%nat /\ forall u, u <> v -> M' u = M u).
      { destruct (Eq st v) eqn:Ev; cbn [negb].
        - destruct (QU _ _ _ v I2) as (q' & -> & O'); [rewrite I3, Ev; lia|]. exists q', M. split; auto. split; auto. split; auto. rewrite I3, Ev. auto.
        - destruct (qs_enqueue _ _ _ _ QS _ _ _ v I2 Hv) as (q' & M' & -> & O' & B1 & B2).
          { intros u E. injection E as <-. exists t. split; auto. cbn. apply filter_In. auto. }
          exists q', M'. split; auto. split; auto. split; auto. rewrite I3, Ev in B1. lia. }
      destruct U as (q' & M' & -> & O' & Mv & Mo). set (st' := SP Q q' (upd (sp_cells _ st) v c) (sp_fd _ st) (sp_fp _ st)).
      assert (Ecl : forall u, cl st' u = if Nat.eqb u v then c else cl st u) by (intros u; apply cl_upd; rewrite I1; auto).
      assert (Ec : forall u, u <> v -> cl st' u = cl st u) by (intros u Hu; rewrite Ecl, (proj2 (Nat.eqb_neq _ _) Hu); auto).
      assert (Ev : cl st' v = c) by (rewrite Ecl, Nat.eqb_refl; auto).
      assert (EE : forall u, Eq st' u = false -> u <> v /\ Eq st u = false).
      { intros u Hu. destruct (Nat.eq_dec u v) as [->|Nu]; [unfold Eq in Hu; rewrite Ev in Hu; discriminate|]. split; auto. unfold Eq in *. rewrite <- Ec; auto. }
      destruct (tree_update L Pp m a Cy (Dq st) (Pq st) (upto_pos st s i) (Dq st') (Pq st') (upto_pos st' s (S i)) s i t I4 Ht N)
        as (T & Nvs & Nva & Lv & Nv & p & P1 & P2 & P3).
      { unfold Dq at 1. fold v. rewrite Ev. reflexivity. }
      { unfold Pq. fold v. rewrite Ev. reflexivity. }
      { intros u Hu. unfold Dq, Pq. rewrite Ec by auto. auto. }
      { intros x j [X1 X2]. apply EE in X1 as [X0 X1]. split; auto. destruct (Nat.eq_dec x s) as [->|]; [|left; split; auto].
        destruct (Nat.eq_dec j i) as [->|]; auto. left. split; auto. right. destruct X2; [congruence|lia]. }
      fold v in Nvs, Nva, Lv, Nv, P2.
      assert (Ds : Dq st' s = Dq st s) by (unfold Dq; rewrite Ec; auto).
      assert (LD : forall u, le (Dq st' u) (Dq st u)).
      { intros u. destruct (Nat.eq_dec u v) as [->|Nu]; auto. unfold Dq. rewrite Ec by auto. apply (le_refl Pp). }
      exists st', M'. split; auto. split; [split; [|split; [|split; [|split]]]|split; [|split]]; auto.
      + cbn [sp_cells st']. rewrite upd_length. auto.
      + intros u. destruct (Nat.eq_dec u v) as [->|Nu]; [unfold Eq; rewrite Ev; auto|]. rewrite Mo, I3 by auto. unfold Eq. rewrite Ec; auto.
      + cbn [sp_fd sp_fp st']. destruct I5 as [F1 F2]. split.
        * destruct (sp_fp _ st) as [q|]; auto. destruct F1 as (w & W1 & W2 & W3 & W4). exists w. split; auto. split; auto. split.
          -- eapply (le_trans L); [apply (le_mult_r L _ _ w (LD q))|auto].
          -- intros Hq. apply EE in Hq as [Nq Hq]. rewrite (W4 Hq). unfold Dq. rewrite Ec; auto.
        * intros x w Hx Hw. apply EE in Hx as [Nx Hx]. unfold Dq. rewrite Ec by auto. apply F2; auto.
      + unfold Eq in *. rewrite Ec; auto.
      + assert (X : (list_sum (map (fun u => mu (Dq st' u) + (if Eq st' u then 1 else 0)) (seq O n)) + 0 <= meas st)%nat); [|unfold meas in *; lia].
        apply sum_change with (v := v); auto.
        * assert (mu (Dq st' v) < mu (Dq st v))%nat; [|destruct (Eq st' v), (Eq st v); lia].
          apply mu_dec; auto. rewrite <- P2. apply in_pool; auto.
        * intros u Nu. unfold Dq, Eq. rewrite Ec; auto.
  Qed.

  Lemma trs_step s : (s < n)%nat -> forall l i st M, linv st M (Some s) (upto_pos st s i) -> Eq st s = false ->
    (forall j t, nth_error l j = Some t -> nth_error (trs_of f s) (i + j) = Some t) ->
    exists st' M', sp_trs Q s (Dq st s) i l st = Ok st' /\ linv st' M' (Some s) (upto_pos st' s (i + length l)) /\ (meas st' <= meas st)%nat.
  Proof.
    intros Hs. induction l as [|t l IH]; intros i st M I Es Hl; cbn [sp_trs].
    - exists st, M. cbn [length]. rewrite Nat.add_0_r. auto.
    - destruct (tr_step st M s i t I Hs Es) as (st1 & M1 & -> & I1 & E1 & D1 & Me1).
      { specialize (Hl O t eq_refl). rewrite Nat.add_0_r in Hl. auto. }
      cbn [rbind]. rewrite <- D1. destruct (IH (S i) st1 M1 I1 E1) as (st2 & M2 & -> & I2 & Me2).
      { intros j u Hj. specialize (Hl (S j) u Hj). replace (S i + j)%nat with (i + S j)%nat by lia. auto. }
      exists st2, M2. split; auto. cbn [length]. replace (i + S (length l))%nat with (S i + length l)%nat by lia. split; auto. lia.
  Qed.

  Definition settled st : nat -> nat -> Prop := fun x _ => Eq st x = false.

  Lemma loop_step st M last : linv st M last (settled st) ->
    (exists q, qo_dequeue Q (sp_queue _ st) = Ok (None, q) /\ forall v, Eq st v = false) \/
    exists s q c st' M', qo_dequeue Q (sp_queue _ st) = Ok (Some s, q) /\ nth_error (sp_cells _ st) s = Some c /\ (s < n)%nat /\
      sp_trs Q s (p_dist c) 0%nat (trs_of f s) (sp_final Q f s (p_dist c) (SP Q q (upd (sp_cells _ st) s (PC (p_dist c) (p_par c) false)) (sp_fd _ st) (sp_fp _ st))) = Ok st' /\
      linv st' M' (Some s) (settled st') /\ (meas st' < meas st)%nat.
  Proof.
    intros (I1 & I2 & I3 & I4 & I5).
    destruct (qs_dequeue _ _ _ _ QS _ _ _ I2) as (o & q & Eq1 & H). destruct o as [s|].
    2:{ left. exists q. split; auto. intros v. destruct H as [H _]. specialize (H v). rewrite I3 in H. destruct (Eq st v); auto. discriminate. }
    right. destruct H as (M1 & O1 & Ms & Mo).
    assert (Es : Eq st s = true) by (rewrite I3 in Ms; destruct (Eq st s); auto; discriminate).
    assert (Hs : (s < n)%nat).
    { destruct (Nat.lt_ge_cases s n); auto. exfalso. unfold Eq, cl in Es. rewrite nth_overflow in Es by lia. discriminate. }
    set (c := cl st s). exists s, q, c.
    set (st1 := SP Q q (upd (sp_cells _ st) s (PC (p_dist c) (p_par c) false)) (sp_fd _ st) (sp_fp _ st)).
    set (st2 := sp_final Q f s (p_dist c) st1).
    assert (E2 : sp_queue _ st2 = q /\ sp_cells _ st2 = sp_cells _ st1).
    { unfold st2, sp_final. destruct (fin_of f s); auto. destruct (keqb _ _); auto. }
    destruct E2 as [E2q E2c].
    assert (Ecl : forall u, cl st2 u = if Nat.eqb u s then PC (p_dist c) (p_par c) false else cl st u).
    { intros u. unfold cl at 1. rewrite E2c. apply (cl_upd st _ s u) with (q := q) (fd := 0) (fp := None). rewrite I1; auto. }
    assert (ED : forall u, Dq st2 u = Dq st u).
    { intros u. unfold Dq. rewrite Ecl. destruct (Nat.eqb_spec u s) as [->|]; auto. }
    assert (EP : forall u, Pq st2 u = Pq st u).
    { intros u. unfold Pq. rewrite Ecl. destruct (Nat.eqb_spec u s) as [->|]; auto. }
    assert (EE : forall u, Eq st2 u = if Nat.eqb u s then false else Eq st u).
    { intros u. unfold Eq. rewrite Ecl. destruct (Nat.eqb u s); auto. }
    assert (Ess : Eq st2 s = false) by (rewrite EE, Nat.eqb_refl; auto).
    assert (Inv2 : linv st2 M1 (Some s) (upto_pos st2 s O)).
    { split; [rewrite E2c; cbn; rewrite upd_length; auto|]. split; [rewrite E2q; auto|]. split; [|split].
      - intros u. rewrite EE. destruct (Nat.eqb_spec u s) as [->|Nu]; [|rewrite Mo, I3; auto]. rewrite I3, Es in Ms. lia.
      - apply (tree_ext m a _ _ _ _ _ _ I4 ED EP). intros x j t [X1 X2] _. unfold settled. rewrite EE in X1.
        destruct (Nat.eqb_spec x s) as [->|Nx]; auto. destruct X2; [congruence|lia].
      - destruct I5 as [F1 F2].
        assert (G : forall x w, Eq st2 x = false -> fin_of f x = Some w -> x <> s -> le (sp_fd _ st) (Dq st x * w)).
        { intros x w Hx Hw Nx. rewrite EE, (proj2 (Nat.eqb_neq _ _) Nx) in Hx. apply F2; auto. }
        unfold st2 in *. unfold sp_final in *. change (p_dist c) with (Dq st s) in *. cbn [sp_fd sp_fp st1] in *.
        destruct (fin_of f s) as [w|] eqn:Ef.
        2:{ change (sp_fd Q st1) with (sp_fd Q st). change (sp_fp Q st1) with (sp_fp Q st). split.
            - destruct (sp_fp _ st) as [z|]; auto. destruct F1 as (w & W1 & W2 & W3 & W4). exists w. rewrite ED. split; auto. split; auto. split; auto.
              intros Hz. apply W4. rewrite EE in Hz. destruct (Nat.eqb_spec z s) as [->|]; auto. congruence.
            - intros x w Hx Hw. rewrite ED. destruct (Nat.eq_dec x s) as [->|Nx]; [congruence|auto]. }
        destruct (keqbP L (sp_fd _ st) (sp_fd _ st + Dq st s * w)) as [E|N].
        + split.
          * change (sp_fd Q st1) with (sp_fd Q st). change (sp_fp Q st1) with (sp_fp Q st). destruct (sp_fp _ st) as [z|]; auto.
            destruct F1 as (w' & W1 & W2 & W3 & W4). exists w'. rewrite ED. split; auto. split; auto. split; auto.
            intros Hz. rewrite EE in Hz. destruct (Nat.eqb_spec z s) as [Ez|]; [|auto]. rewrite Ez in *.
            replace w' with w in * by congruence. apply (le_antisym L); auto. unfold le. auto.
          * change (sp_fd Q st1) with (sp_fd Q st). intros x w' Hx Hw. rewrite ED. destruct (Nat.eq_dec x s) as [->|Nx]; [|auto].
            replace w' with w by congruence. unfold le. auto.
        + destruct (le_plus L Pp _ _ N) as (N1 & N2 & N3). cbn [sp_fd sp_fp]. split.
          * exists w. split; auto. rewrite ED, N1. split; [|split; [apply (le_refl Pp)|auto]].
            intros E0. rewrite E0 in N2. apply (le_0_eq L) in N2. congruence.
          * intros x w' Hx Hw. rewrite ED, N1. destruct (Nat.eq_dec x s) as [->|Nx]; [replace w' with w by congruence; apply (le_refl Pp)|].
            eapply (le_trans L); [exact N2|]. auto. }
    destruct (trs_step s Hs (trs_of f s) O st2 M1 Inv2 Ess) as (st3 & M3 & E3 & (J1 & J2 & J3 & J4 & J5) & Me); [auto|].
    rewrite (ED s) in E3. exists st3, M3. split; auto. split; [apply nth_error_nth; rewrite I1; auto|]. split; auto. split; [exact E3|]. split.
    - split; auto. split; auto. split; auto. split; auto.
      eapply tree_ext; [exact J4|auto|auto|]. intros x j t Hx Ht. split; auto. destruct (Nat.eq_dec x s) as [->|]; auto. right.
      cbn. apply nth_error_Some. cbn in Ht. congruence.
    - enough (meas st2 + 1 <= meas st)%nat by lia. unfold meas. apply sum_change with (v := s); auto.
      + rewrite ED, Ess, Es. lia.
      + intros u Nu. rewrite ED, EE, (proj2 (Nat.eqb_neq _ _) Nu). auto.
  Qed.

  Lemma loop_correct fuel : forall st M last, linv st M last (settled st) -> forall R, sp_loop Q fuel f st = Some R ->
    exists st', R = Ok st' /\ length (sp_cells _ st') = n /\ tree m a (Dq st') (Pq st') (fun _ _ => True) /\
      fin_ok (Dq st') (fun _ => false) (sp_fd _ st') (sp_fp _ st').
  Proof.
    induction fuel as [|fuel IH]; intros st M last I R; cbn [sp_loop]; [discriminate|].
    destruct (loop_step st M last I) as [(q & -> & Z)|(s & q & c & st' & M' & -> & -> & Hs & E & I' & _)].
    - intros H. injection H as <-. eexists. split; [reflexivity|]. destruct I as (I1 & I2 & I3 & I4 & F1 & F2). split; auto. split.
      + eapply tree_ext; [exact I4|auto|auto|]. intros x j t _ _. apply Z.
      + cbn [sp_fd sp_fp]. split; [|intros x w _; apply F2; auto]. destruct (sp_fp _ st) as [z|]; auto.
        destruct F1 as (w & W1 & W2 & W3 & W4). exists w. auto.
    - fold n. rewrite (proj2 (Nat.leb_gt _ _) Hs), E. apply (IH st' M' (Some s) I').
  Qed.

  Lemma loop_terminates fuel : forall st M last, linv st M last (settled st) -> (meas st < fuel)%nat -> exists R, sp_loop Q fuel f st = Some R.
  Proof.
    induction fuel as [|fuel IH]; intros st M last I Hf; [lia|]. cbn [sp_loop].
    destruct (loop_step st M last I) as [(q & -> & Z)|(s & q & c & st' & M' & -> & -> & Hs & E & I' & Me)]; eauto.
    fold n. rewrite (proj2 (Nat.leb_gt _ _) Hs), E. apply (IH st' M' (Some s) I'). lia.
  Qed.

  Lemma run_start q M last : ok q M last -> exists q1 q2 M2, qo_clear Q q = Ok q1 /\ qo_enqueue Q q1 a = Ok q2 /\
    linv (SP Q q2 (upd (repeat pcell0 n) a (PC 1 None true)) 0 None) M2 None (settled (SP Q q2 (upd (repeat pcell0 n) a (PC 1 None true)) 0 None)).
  Proof.
    intros O. destruct (qs_clear _ _ _ _ QS _ _ _ O) as (q1 & E1 & O1).
    destruct (qs_enqueue _ _ _ _ QS _ _ _ a O1 Ha) as (q2 & M2 & E2 & O2 & Ms & Mx); [discriminate|].
    exists q1, q2, M2. split; auto. split; auto. set (st := SP Q q2 _ 0 None).
    assert (Ecl : forall u, cl st u = if Nat.eqb u a then PC 1 None true else pcell0).
    { intros u. unfold cl. cbn. destruct (Nat.eqb_spec u a) as [->|N]; [apply nth_upd_eq; rewrite repeat_length; auto|].
      rewrite nth_upd_ne by auto. apply nth_repeat. }
    assert (Ep : forall u, Pq st u = None) by (intros u; unfold Pq; rewrite Ecl; destruct (Nat.eqb u a); auto).
    assert (E0 : forall u, Eq st u = false -> Dq st u = 0) by (intros u; unfold Eq, Dq; rewrite Ecl; destruct (Nat.eqb u a); [discriminate|auto]).
    assert (Da : Dq st a = 1) by (unfold Dq; rewrite Ecl, Nat.eqb_refl; auto).
    assert (E1' : forall u, Dq st u <> 0 -> u = a) by (intros u; unfold Dq; rewrite Ecl; destruct (Nat.eqb_spec u a); auto; intros H; destruct H; reflexivity).
    split; [cbn; rewrite upd_length, repeat_length; auto|]. split; [auto|]. split; [|split].
    - intros u. unfold Eq. rewrite Ecl. destruct (Nat.eqb_spec u a) as [->|N]; cbn; [lia|]. rewrite Mx; auto.
    - split; auto.
      + intros v s i Hp. rewrite Ep in Hp. discriminate.
      + intros s i t Hd _. rewrite (E0 s Hd), (ktimes_0_l _ L). apply (le_0 L).
      + intros v Hv. rewrite (E1' v Hv). apply rooted_src. auto.
      + intros v Hv. rewrite (E1' v Hv). exists []. cbn. split; auto. split; auto. split; auto. split; [constructor; [intros []|constructor]|].
        intros p1 p2 E. symmetry in E. apply app_eq_nil in E as [-> ->]. cbn. rewrite Da. apply (le_refl Pp).
    - split; cbn; auto. intros s w Hs _. rewrite (E0 s Hs), (ktimes_0_l _ L). apply (le_0 L).
  Qed.

  Lemma run_correct fuel q M last R : ok q M last -> single_shortest_path Q true fuel f a q = Some R ->
    exists st', R = Ok st' /\ length (sp_cells _ st') = n /\ tree m a (Dq st') (Pq st') (fun _ _ => True) /\
      fin_ok (Dq st') (fun _ => false) (sp_fd _ st') (sp_fp _ st').
  Proof.
    intros O. destruct (run_start q M last O) as (q1 & q2 & M2 & E1 & E2 & I). unfold single_shortest_path. rewrite E1. cbn [negb].
    fold n. rewrite (proj2 (Nat.leb_gt _ _) Ha), E2. intros E. eapply loop_correct; eauto.
  Qed.

  Lemma run_terminates q M last : ok q M last -> exists fuel0, forall fuel, (fuel0 <= fuel)%nat -> exists R, single_shortest_path Q true fuel f a q = Some R.
  Proof.
    intros O. destruct (run_start q M last O) as (q1 & q2 & M2 & E1 & E2 & I). unfold single_shortest_path. rewrite E1. cbn [negb].
    fold n. rewrite (proj2 (Nat.leb_gt _ _) Ha), E2. eexists. intros fuel Hf. eapply loop_terminates; eauto.
  Qed.
End Loop.
