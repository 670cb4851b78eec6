(** The loop of [expand]: visited states and merged transitions. *)
From Coq Require Import List Arith NArith Bool Lia Permutation.
From Verif Require Import Base.Util Base.Semiring Base.Machine Base.PathSum Model.Props Model.VectorFst Model.Dfs Model.Visitors Model.Rational
  Model.Queues Model.ShortestDistance Model.RmEpsilon
  Proofs.VectorFacts Proofs.RationalFacts Proofs.Tarjan Proofs.SdFacts Proofs.EpsFacts.
Import ListNotations.
Local Open Scope K_scope.

Lemma elt_eqb_true a b : elt_eqb a b = true <-> a = b.
Proof.
  destruct a as [[a1 a2] a3], b as [[b1 b2] b3]. unfold elt_eqb. cbn. rewrite !andb_true_iff, !Nat.eqb_eq. split; [intros [[-> ->] ->]; auto|].
  intros H; injection H as -> -> ->. auto.
Qed.

Lemma nth_grown l i q : nth q (grown l i) false = nth q l false.
Proof.
  unfold grown. destruct (Nat.lt_ge_cases q (length l)); [apply app_nth1; auto|]. rewrite app_nth2, (nth_overflow l) by lia.
  destruct (Nat.lt_ge_cases (q - length l) (S i - length l)); [apply nth_repeat|rewrite nth_overflow; auto; rewrite repeat_length; lia].
Qed.
Lemma grown_length l i : (i < length (grown l i))%nat.
Proof. unfold grown. rewrite app_length, repeat_length. lia. Qed.

Section Expand.
  Context {K : SR} (L : sr_laws K) (f : vfst K).
  Let n := num_states f.
  Hypothesis C : closed f.
  Notation weights := (nat -> list nat -> list nat -> K).
  Notation km := (kmach f epsilon_filter).

  (** [take] splits off the weight. *)
  Definition rest (e : elt) (V : weights) (x y : list nat) : K :=
    match strip (fst (fst e)) x, strip (snd (fst e)) y with Some x', Some y' => V (snd e) x' y' | _, _ => 0 end.
  Lemma take_rest t V x y : take t V x y = wgt t * rest (elt_of t) V x y.
  Proof. unfold take, rest, elt_of. cbn [fst snd]. destruct (strip (il t) x), (strip (ol t) y); auto; symmetry; apply (ktimes_0_r _ L). Qed.

  Definition tsum (l : list (tr K)) V x y : K := ksum (map (fun t => take t V x y) l).

  Lemma tsum_app l l' V x y : tsum (l ++ l') V x y = tsum l V x y + tsum l' V x y.
  Proof. unfold tsum. rewrite map_app. apply (ksum_app L). Qed.

  Lemma tsum_upd l i u w V x y : nth_error l i = Some u ->
    tsum (upd l i (Tr (il u) (ol u) (wgt u + w) (ns u))) V x y = tsum l V x y + w * rest (elt_of u) V x y.
  Proof.
    revert i. induction l as [|t l IH]; intros [|i]; simpl; try discriminate.
    - intros [= ->]. unfold tsum. cbn [map ksum]. rewrite !take_rest. change (elt_of (Tr (il u) (ol u) (wgt u + w) (ns u))) with (elt_of u).
      cbn [wgt]. rewrite (kdistr_r _ L), <- !(kplus_assoc _ L). f_equal. apply (kplus_comm _ L).
    - intros E. unfold tsum in *. cbn [map ksum]. rewrite (IH i E). apply (kplus_assoc _ L).
  Qed.

  (** The map points to the collected transitions. *)
  Definition mapok (id : nat) (trs : list (tr K)) (m : emap) : Prop :=
    forall e j i, em_get e m = Some (j, i) -> (j <= id)%nat /\ (j = id -> exists u, nth_error trs i = Some u /\ elt_of u = e).

  Definition from (l trs : list (tr K)) : Prop :=
    forall t, In t trs -> exists u, In u l /\ epsilon_filter u = false /\ elt_of u = elt_of t.

  Lemma from_weak l l' trs : incl l l' -> from l trs -> from l' trs.
  Proof. intros H F t Ht. destruct (F t Ht) as (u & Hu & ?). exists u. auto. Qed.

  Lemma ex_trs_ok id d l : forall x, mapok id (ex_trs x) (ex_map x) ->
    exists x', rfold (ex_tr id d) l x = Ok x' /\ mapok id (ex_trs x') (ex_map x') /\
      (forall q, nth q (ex_vis x') false = nth q (ex_vis x) false) /\
      (length (ex_vis x) <= length (ex_vis x'))%nat /\
      (exists new, ex_stack x' = new ++ ex_stack x /\ (length new <= length l)%nat /\
         forall q, In q new -> exists t, In t l /\ epsilon_filter t = true /\ ns t = q) /\
      (forall t, In t l -> epsilon_filter t = true -> nth (ns t) (ex_vis x) false = true \/ In (ns t) (ex_stack x')) /\
      (forall V u v, tsum (ex_trs x') V u v = tsum (ex_trs x) V u v + d * tsum (filter noneps l) V u v) /\
      (forall l0, from l0 (ex_trs x) -> from (l ++ l0) (ex_trs x')).
  Proof.
    induction l as [|t l IH]; intros x Mo.
    - exists x. split; [reflexivity|]. split; auto. split; auto. split; auto. split; [exists []; split; auto; split; auto; intros q []|].
      split; [intros t []|]. split; [|auto]. intros V u v. unfold tsum at 3. cbn [filter map ksum]. rewrite (ktimes_0_r _ L). symmetry. apply (kplus_0_r L).
    - rewrite rfold_cons.
      assert (exists x1, ex_tr id d x t = Ok x1 /\ mapok id (ex_trs x1) (ex_map x1) /\
        (forall q, nth q (ex_vis x1) false = nth q (ex_vis x) false) /\ (length (ex_vis x) <= length (ex_vis x1))%nat /\
        (exists new, ex_stack x1 = new ++ ex_stack x /\ (length new <= 1)%nat /\ forall q, In q new -> epsilon_filter t = true /\ ns t = q) /\
        (epsilon_filter t = true -> nth (ns t) (ex_vis x) false = true \/ In (ns t) (ex_stack x1)) /\
        (forall V u v, tsum (ex_trs x1) V u v = tsum (ex_trs x) V u v + (if epsilon_filter t then 0 else d * take t V u v)) /\
        (forall l0, from l0 (ex_trs x) -> from (t :: l0) (ex_trs x1)))
        as (x1 & E1 & M1 & V1 & Ln1 & (new1 & S1 & N1 & F1) & T1 & U1 & G1).
      { unfold ex_tr. destruct (epsilon_filter t) eqn:Et.
        - eexists. split; [reflexivity|]. cbn [ex_trs ex_map ex_vis ex_stack]. split; auto. split; [intros; apply nth_grown|]. split.
          { unfold grown. rewrite app_length. lia. }
          rewrite nth_grown. split; [|split; [|split]].
          + destruct (nth (ns t) (ex_vis x) false); [exists []|exists [ns t]]; simpl; split; auto; split; auto; intros q []; subst; auto. destruct H.
          + intros _. destruct (nth (ns t) (ex_vis x) false); auto. right. left. auto.
          + intros V u v. symmetry. apply (kplus_0_r L).
          + intros l0 F. eapply from_weak; [|exact F]. intros z Hz. right. auto.
        - assert (A : let x1 := EX (ex_stack x) (ex_trs x ++ [Tr (il t) (ol t) (d * wgt t) (ns t)]) ((elt_of t, (id, length (ex_trs x))) :: ex_map x) (ex_vis x) in
            mapok id (ex_trs x1) (ex_map x1) /\
            (forall V u v, tsum (ex_trs x1) V u v = tsum (ex_trs x) V u v + d * take t V u v) /\
            (forall l0, from l0 (ex_trs x) -> from (t :: l0) (ex_trs x1))).
          { cbn [ex_trs ex_map ex_vis ex_stack]. split; [|split].
            - intros e j i. cbn [em_get]. destruct (elt_eqb e (elt_of t)) eqn:Ee.
              + apply elt_eqb_true in Ee. subst e. intros [= <- <-]. split; auto. intros _. eexists. split; [|].
                * rewrite nth_error_app2, Nat.sub_diag by auto. reflexivity.
                * reflexivity.
              + intros H. apply Mo in H as [H1 H2]. split; auto. intros Hj. destruct (H2 Hj) as (u & Hu & Eu). exists u. split; auto.
                rewrite nth_error_app1; auto. apply nth_error_lt in Hu. auto.
            - intros V u v. rewrite tsum_app. f_equal. unfold tsum. cbn [map ksum]. rewrite (kplus_0_r L), !take_rest.
              cbn [wgt]. symmetry. apply (ktimes_assoc _ L).
            - intros l0 F z Hz. apply in_app_iff in Hz as [Hz|[<-|[]]].
              + destruct (F z Hz) as (w & Hw & ?). exists w. split; [right; auto|auto].
              + exists t. split; [left; auto|]. split; auto. }
          cbv zeta in A. destruct A as (A1 & A2 & A3).
          assert (Add : forall x1, x1 = EX (ex_stack x) (ex_trs x ++ [Tr (il t) (ol t) (d * wgt t) (ns t)]) ((elt_of t, (id, length (ex_trs x))) :: ex_map x) (ex_vis x) ->
            mapok id (ex_trs x1) (ex_map x1) /\ (forall q, nth q (ex_vis x1) false = nth q (ex_vis x) false) /\ (length (ex_vis x) <= length (ex_vis x1))%nat /\
            (exists new, ex_stack x1 = new ++ ex_stack x /\ (length new <= 1)%nat /\ forall q, In q new -> false = true /\ ns t = q) /\
            (false = true -> nth (ns t) (ex_vis x) false = true \/ In (ns t) (ex_stack x1)) /\
            (forall V u v, tsum (ex_trs x1) V u v = tsum (ex_trs x) V u v + d * take t V u v) /\
            (forall l0, from l0 (ex_trs x) -> from (t :: l0) (ex_trs x1))).
          { intros x1 ->. cbn [ex_trs ex_map ex_vis ex_stack]. split; auto. split; auto. split; auto. split; [exists []; simpl; split; auto; split; auto; intros q []|].
            split; [discriminate|]. split; auto. }
          destruct (em_get (elt_of t) (ex_map x)) as [[j i]|] eqn:Eg; [|eexists; split; [reflexivity|apply Add; reflexivity]].
          destruct (Nat.eqb_spec j id) as [->|Hj]; [|eexists; split; [reflexivity|apply Add; reflexivity]].
          apply Mo in Eg as [_ Eg]. destruct (Eg eq_refl) as (u & Hu & Eu). rewrite Hu. eexists. split; [reflexivity|]. cbn [ex_trs ex_map ex_vis ex_stack].
          split; [|split; [auto|split; [auto|split; [exists []; simpl; split; auto; split; auto; intros q []|split; [discriminate|split]]]]].
          + intros e j' i' H. apply Mo in H as [H1 H2]. split; auto. intros Hj. destruct (H2 Hj) as (u' & Hu' & Eu').
            destruct (Nat.eq_dec i i') as [<-|Hne].
            * eexists. split; [apply nth_error_upd_eq; eapply nth_error_lt; eauto|]. rewrite Hu in Hu'. injection Hu' as <-. exact Eu'.
            * exists u'. split; auto. rewrite nth_error_upd_ne; auto.
          + intros V a b. rewrite (tsum_upd _ i u) by auto. rewrite take_rest, Eu, (ktimes_assoc _ L). auto.
          + intros l0 F z Hz. apply In_nth_error' in Hz as (k & Hk). destruct (Nat.eq_dec i k) as [<-|Hne].
            * rewrite nth_error_upd_eq in Hk by (eapply nth_error_lt; eauto). injection Hk as <-.
              exists t. split; [left; auto|]. split; auto.
            * rewrite nth_error_upd_ne in Hk by auto. destruct (F z) as (w & Hw & ?); [apply In_nth_error'; eauto|]. exists w. split; [right; auto|auto]. }
      rewrite E1. cbn [rbind]. destruct (IH x1 M1) as (x' & E2 & M2 & V2 & Ln2 & (new2 & S2 & N2 & F2) & T2 & U2 & G2).
      exists x'. split; auto. split; auto. split; [intros q; rewrite V2; auto|]. split; [lia|]. split; [|split; [|split]].
      + exists (new2 ++ new1). rewrite S2, S1, app_assoc. split; auto. rewrite app_length. simpl. split; [lia|].
        intros q Hq. apply in_app_iff in Hq as [Hq|Hq].
        * destruct (F2 q Hq) as (z & Hz & ?). exists z. split; auto. 
        * exists t. split; [left; auto|]. apply F1. auto.
      + intros z [<-|Hz] Ez.
        * destruct (T1 Ez) as [|H]; auto. right. rewrite S2. apply in_app_iff. auto.
        * rewrite <- V1. auto.
      + intros V u v. rewrite U2, U1, <- (kplus_assoc _ L). f_equal. cbn [filter]. unfold noneps at 2. destruct (epsilon_filter t); cbn [negb].
        * apply (kplus_0_l _ L).
        * unfold tsum. cbn [map ksum]. symmetry. apply (kdistr_l _ L).
      + intros l0 F z Hz. destruct (G2 (t :: l0) (G1 l0 F) z Hz) as (w & Hw & ?). exists w. split; auto.
        apply in_app_iff in Hw as [Hw|[<-|Hw]]; [right; apply in_app_iff; auto|left; auto|right; apply in_app_iff; auto].
  Qed.

  Variables (id : nat) (dist : list K) (a : nat).
  Hypothesis Ha : (a < n)%nat.
  Hypothesis Dl : forall q, reach km a q -> (q < length dist)%nat.
  Let d q := nth q dist 0.

  Definition todo (seen : list nat) : nat :=
    list_sum (map (fun q => if in_dec Nat.eq_dec q seen then O else length (trs_of f q)) (seq O n)).

  Lemma todo_cons s seen : (s < n)%nat -> ~ In s seen -> (todo (s :: seen) + length (trs_of f s) = todo seen)%nat.
  Proof.
    intros Hs Hn. unfold todo. replace n with (s + S (n - S s))%nat by lia. rewrite seq_app, !map_app, !list_sum_app. cbn [seq map Nat.add].
    assert (X : forall j k, (s < j \/ j + k <= s)%nat -> map (fun q => if in_dec Nat.eq_dec q (s :: seen) then O else length (trs_of f q)) (seq j k) =
      map (fun q => if in_dec Nat.eq_dec q seen then O else length (trs_of f q)) (seq j k)).
    { intros j k H. apply map_ext_in. intros q Hq. apply in_seq in Hq. destruct (in_dec Nat.eq_dec q (s :: seen)) as [[->|]|N]; destruct (in_dec Nat.eq_dec q seen); auto; try lia; try tauto.
      exfalso. apply N. right. auto. }
    rewrite (X O s), (X (S s)) by lia. rewrite !list_sum_cons.
    destruct (in_dec Nat.eq_dec s (s :: seen)) as [|N]; [|exfalso; apply N; left; auto].
    destruct (in_dec Nat.eq_dec s seen); [tauto|]. lia.
  Qed.

  Definition part (F : nat -> K) (seen : list nat) : K := ksum (map (fun q => d q * F q) seen).

  Definition einv (x : exl K) (seen : list nat) (fin : K) : Prop :=
    mapok id (ex_trs x) (ex_map x) /\
    (forall q, nth q (ex_vis x) false = true <-> In q seen) /\ NoDup seen /\
    (forall q, In q seen \/ In q (ex_stack x) -> reach km a q) /\
    (In a seen \/ In a (ex_stack x)) /\
    (forall q t, In q seen -> In t (trs_of f q) -> epsilon_filter t = true -> In (ns t) seen \/ In (ns t) (ex_stack x)) /\
    (forall V u v, tsum (ex_trs x) V u v = part (fun q => tsum (filter noneps (trs_of f q)) V u v) seen) /\
    fin = part (fun q => fw (fin_of f q)) seen /\
    (forall t, In t (ex_trs x) -> exists q u, In u (trs_of f q) /\ epsilon_filter u = false /\ elt_of u = elt_of t).

  Lemma reach_n q : reach km a q -> (q < n)%nat.
  Proof. intros H. induction H as [|s t u Ht H IH]; auto. apply IH; auto. apply (kbelow f epsilon_filter C) in Ht. auto. intros q Hq. apply Dl. econstructor; eauto. Qed.

  Lemma ex_loop_ok fuel : forall x seen fin, einv x seen fin -> (length (ex_stack x) + todo seen < fuel)%nat ->
    exists x' seen' fin', ex_loop fuel id dist f x seen fin = Ok (x', seen', fin') /\ einv x' seen' fin' /\ ex_stack x' = [].
  Proof.
    induction fuel as [|fuel IH]; intros x seen fin I Hf; [lia|]. cbn [ex_loop].
    destruct (ex_stack x) as [|s stk] eqn:Es; [exists x, seen, fin; auto|].
    destruct I as (I1 & I2 & I3 & I4 & I5 & I6 & I7 & I8 & I9). rewrite Es in I4, I5, I6. cbv zeta. rewrite nth_grown.
    destruct (nth s (ex_vis x) false) eqn:Ev.
    - assert (Is : In s seen) by (apply I2; auto). apply IH; [|cbn; simpl in Hf; lia].
      split; auto. cbn [ex_trs ex_map ex_vis ex_stack]. split; [intros q; rewrite nth_grown; auto|]. split; auto. split; [intros q [H|H]; apply I4; auto; right; right; auto|].
      split; [destruct I5 as [|[<-|]]; auto|]. split; auto.
      intros q t Hq Ht Et. destruct (I6 q t Hq Ht Et) as [|[<-|]]; auto.
    - assert (Ns : ~ In s seen) by (intros H; apply I2 in H; congruence).
      assert (Rs : reach km a s) by (apply I4; right; left; auto). pose proof (reach_n s Rs) as Hs.
      rewrite (proj2 (final_weight_ok f s Hs)). cbn [rbind]. rewrite (nth_error_nth' dist 0 (Dl s Rs)). fold (d s).
      destruct (ex_trs_ok id (d s) (trs_of f s) (EX stk (ex_trs x) (ex_map x) (upd (grown (ex_vis x) s) s true))) as
        (x' & E & M1 & V1 & Ln1 & (new & S1 & N1 & F1) & T1 & U1 & G1); [exact I1|]. cbn [ex_trs ex_map ex_vis ex_stack] in *.
      rewrite E. cbn [rbind]. rewrite (proj1 (final_weight_ok f s Hs)). cbn [rbind]. fold (fw (fin_of f s)).
      assert (Vs : forall q, nth q (ex_vis x') false = true <-> In q (s :: seen)).
      { intros q. rewrite V1. destruct (Nat.eq_dec s q) as [->|Hne].
        - rewrite nth_upd_eq by apply grown_length. split; auto. intros _. left. auto.
        - rewrite nth_upd_ne, nth_grown, I2 by auto. split; [right; auto|]. intros [|]; auto. contradiction. }
      apply IH.
      + split; auto. split; auto. split; [constructor; auto|]. split; [|split; [|split; [|split; [|split]]]].
        * intros q [[<-|H]|H]; auto. rewrite S1 in H. apply in_app_iff in H as [H|H]; [|apply I4; right; right; auto].
          destruct (F1 q H) as (t & Ht & Et & <-). eapply reach_trans; [exact Rs|]. apply reach_step with t; [|constructor].
          cbn. apply filter_In. auto.
        * destruct I5 as [H|[<-|H]]; [left; right; auto|left; left; auto|]. right. rewrite S1. apply in_app_iff. auto.
        * intros q t [<-|Hq] Ht Et.
          -- destruct (T1 t Ht Et) as [H|H]; auto. left. rewrite <- V1 in H. apply Vs in H. auto.
          -- destruct (I6 q t Hq Ht Et) as [H|[<-|H]]; [left; right; auto|left; left; auto|]. right. rewrite S1. apply in_app_iff. auto.
        * intros V u v. rewrite U1, I7. unfold part. cbn [map ksum]. apply (kplus_comm _ L).
        * rewrite I8. unfold part. cbn [map ksum]. apply (kplus_comm _ L).
        * intros t Ht.
          assert (F0 : from (flat_map (trs_of f) (seq O n)) (ex_trs x)).
          { intros z Hz. destruct (I9 z Hz) as (q & u & Hu & ?). exists u. split; auto. apply in_flat_map. exists q. split; auto.
            apply in_seq. pose proof (trs_of_in f q u Hu). unfold n. lia. }
          destruct (G1 _ F0 t Ht) as (u & Hu & Eu). apply in_app_iff in Hu as [Hu|Hu]; [exists s, u; auto|].
          apply in_flat_map in Hu as (q & _ & Hu). exists q, u. auto.
      + rewrite S1, app_length. pose proof (todo_cons s seen Hs Ns). simpl in Hf. lia.
  Qed.

  (** The whole loop. *)
  Lemma expand_loop st_map st_vis : (forall e j i, em_get e st_map = Some (j, i) -> (j < id)%nat) ->
    (forall q, nth q st_vis false = false) ->
    exists x' seen' fin', ex_loop (ex_fuel f) id dist f (EX [a] [] st_map st_vis) [] 0 = Ok (x', seen', fin') /\
      mapok id (ex_trs x') (ex_map x') /\
      (forall q, nth q (set_all_at false seen' (ex_vis x')) false = false) /\
      NoDup seen' /\ (forall q, In q seen' <-> reach km a q) /\
      (forall V u v, tsum (ex_trs x') V u v = part (fun q => tsum (filter noneps (trs_of f q)) V u v) seen') /\
      fin' = part (fun q => fw (fin_of f q)) seen' /\
      (forall t, In t (ex_trs x') -> exists q u, In u (trs_of f q) /\ epsilon_filter u = false /\ elt_of u = elt_of t).
  Proof.
    intros Hm Hv. destruct (ex_loop_ok (ex_fuel f) (EX [a] [] st_map st_vis) [] 0) as (x' & seen & fin & E & I & Es).
    - split; [|split; [|split; [|split; [|split; [|split; [|split; [|split]]]]]]]; cbn [ex_trs ex_map ex_vis ex_stack].
      + intros e j i H. apply Hm in H. split; [lia|]. intros ->. lia.
      + intros q. rewrite Hv. split; [discriminate|intros []].
      + constructor.
      + intros q [[]|[<-|[]]]. apply reach_refl.
      + right. left. auto.
      + intros q t [].
      + intros V u v. reflexivity.
      + reflexivity.
      + intros t [].
    - cbn [ex_stack length]. unfold ex_fuel, todo.
      replace (map (fun q => if in_dec Nat.eq_dec q [] then O else length (trs_of f q)) (seq O n)) with (map (fun s => length (vtrs s)) (vstates f)); [lia|].
      unfold n, num_states, trs_of. clear. induction (vstates f) as [|s l IH] using rev_ind; auto.
      rewrite app_length, Nat.add_1_r, seq_S, !map_app, IH. f_equal.
      + apply map_ext_in. intros q Hq. apply in_seq in Hq. rewrite nth_error_app1 by lia. auto.
      + cbn. rewrite nth_error_app2, Nat.sub_diag by lia. auto.
    - exists x', seen, fin. split; auto. destruct I as (I1 & I2 & I3 & I4 & I5 & I6 & I7 & I8 & I9). rewrite Es in *.
      split; auto. split; [|split; [auto|split; [|auto]]].
      + intros q. destruct (Nat.lt_ge_cases q (length (ex_vis x'))) as [Hq|Hq].
        * rewrite nth_set_all by auto. destruct (in_dec Nat.eq_dec q seen); auto. destruct (nth q (ex_vis x') false) eqn:Eq; auto. apply I2 in Eq. contradiction.
        * apply nth_overflow. rewrite set_all_length. auto.
      + intros q. split; [intros; apply I4; auto|].
        destruct I5 as [I5|[]]. intros Hr. clear - Hr I5 I6. revert I5. induction Hr as [|s t u Ht Hr IH]; auto. intros Hs.
        cbn in Ht. apply filter_In in Ht as [Ht Et]. destruct (I6 s t Hs Ht Et) as [H|[]]. auto.
  Qed.

  (** Labels and targets of the collected transitions. *)
  Definition elts (x : exl K) : list elt := map elt_of (ex_trs x).

  Lemma elts_upd trs i (u : tr K) w : nth_error trs i = Some u -> map elt_of (upd trs i (Tr (il u) (ol u) w (ns u))) = map elt_of trs.
  Proof. revert i. induction trs as [|t trs IH]; intros [|i] E; simpl in *; try discriminate; [injection E as ->; reflexivity|]. f_equal. auto. Qed.

  Lemma ex_tr_elts z x t x' : mapok id (ex_trs x) (ex_map x) -> ex_tr id z x t = Ok x' ->
    forall e, In e (elts x') <-> In e (elts x) \/ (epsilon_filter t = false /\ e = elt_of t).
  Proof.
    intros Mo. unfold ex_tr. destruct (epsilon_filter t) eqn:Et.
    - intros [= <-] e. unfold elts. cbn [ex_trs]. intuition discriminate.
    - assert (A : forall m v st e, In e (elts (EX st (ex_trs x ++ [Tr (il t) (ol t) (z * wgt t) (ns t)]) m v)) <-> In e (elts x) \/ (false = false /\ e = elt_of t)).
      { intros m v st e. unfold elts. cbn [ex_trs]. rewrite map_app, in_app_iff. cbn [map In]. unfold elt_of at 2. cbn [il ol ns]. fold (elt_of t). intuition. }
      destruct (em_get (elt_of t) (ex_map x)) as [[j i]|] eqn:Eg; [|intros [= <-]; apply A].
      destruct (Nat.eqb_spec j id) as [->|Hj]; [|intros [= <-]; apply A].
      apply Mo in Eg as [_ Eg]. destruct (Eg eq_refl) as (u & Hu & Eu). rewrite Hu. intros [= <-] e. unfold elts. cbn [ex_trs]. rewrite elts_upd by auto.
      split; auto. intros [H|[_ ->]]; auto. rewrite <- Eu. apply in_map. eapply nth_error_In; eauto.
  Qed.

  Lemma ex_trs_elts z l : forall x x', mapok id (ex_trs x) (ex_map x) -> rfold (ex_tr id z) l x = Ok x' ->
    forall e, In e (elts x') <-> In e (elts x) \/ exists t, In t l /\ epsilon_filter t = false /\ e = elt_of t.
  Proof.
    induction l as [|t l IH]; intros x x' Mo E e.
    - injection E as <-. split; auto. intros [|(t & [] & _)]; auto.
    - rewrite rfold_cons in E. destruct (ex_tr id z x t) as [x1| |] eqn:E1; try discriminate. cbn [rbind] in E.
      assert (M1 : mapok id (ex_trs x1) (ex_map x1)).
      { destruct (ex_trs_ok id z [t] x Mo) as (x2 & E2 & M2 & _). rewrite rfold_cons, E1 in E2. cbn in E2. injection E2 as <-. auto. }
      rewrite (IH x1 x' M1 E e), (ex_tr_elts z x t x1 Mo E1 e). split.
      + intros [[H|[H1 H2]]|(u & Hu & H)]; auto; right; [exists t|exists u]; cbn [In]; auto.
      + intros [H|(u & [<-|Hu] & H)]; auto. right. eauto.
  Qed.

  Lemma ex_loop_elts fuel : forall x seen fin x' seen' fin', mapok id (ex_trs x) (ex_map x) ->
    ex_loop fuel id dist f x seen fin = Ok (x', seen', fin') ->
    exists new, seen' = new ++ seen /\
      forall e, In e (elts x') <-> In e (elts x) \/ exists q t, In q new /\ In t (trs_of f q) /\ epsilon_filter t = false /\ e = elt_of t.
  Proof.
    induction fuel as [|fuel IH]; intros x seen fin x' seen' fin' Mo E; [discriminate|]. cbn [ex_loop] in E.
    destruct (ex_stack x) as [|s stk] eqn:Es.
    { injection E as <- <- <-. exists []. split; auto. intros e. split; auto. intros [|(q & t & [] & _)]; auto. }
    cbv zeta in E. destruct (nth s (grown (ex_vis x) s) false).
    { destruct (IH (EX stk (ex_trs x) (ex_map x) (grown (ex_vis x) s)) _ _ _ _ _ Mo E) as (new & -> & H). exists new. split; auto. }
    destruct (Nat.lt_ge_cases s n) as [Hs|Hs].
    2:{ unfold get_trs, get_state in E. rewrite (proj2 (nth_error_None (vstates f) s)) in E by exact Hs. discriminate. }
    rewrite (proj2 (final_weight_ok f s Hs)) in E. cbn [rbind] in E. destruct (nth_error dist s) as [d0|]; [|discriminate].
    set (x0 := EX stk (ex_trs x) (ex_map x) (upd (grown (ex_vis x) s) s true)) in *.
    destruct (rfold (ex_tr id d0) (trs_of f s) x0) as [x1| |] eqn:E1; try discriminate. cbn [rbind] in E.
    rewrite (proj1 (final_weight_ok f s Hs)) in E. cbn [rbind] in E.
    assert (M1 : mapok id (ex_trs x1) (ex_map x1)).
    { destruct (ex_trs_ok id d0 (trs_of f s) x0 Mo) as (x2 & E2 & M2 & _). rewrite E1 in E2. injection E2 as <-. auto. }
    destruct (IH _ _ _ _ _ _ M1 E) as (new & -> & H). exists (new ++ [s]). split; [rewrite <- app_assoc; auto|].
    intros e. rewrite H, (ex_trs_elts d0 (trs_of f s) x0 x1 Mo E1 e). change (elts x0) with (elts x). split.
    - intros [[H1|(t & Ht & H1)]|(q & t & Hq & H1)]; auto; right; [exists s, t|exists q, t]; rewrite in_app_iff; cbn [In]; auto.
    - intros [H1|(q & t & Hq & Ht & H1)]; auto. apply in_app_iff in Hq as [Hq|[<-|[]]]; [right; eauto|left; right; eauto].
  Qed.
End Expand.
