(** The loop of the n-shortest-path search. *)
From Coq Require Import List Arith NArith Bool Lia Permutation.
From Verif Require Import Base.Util Base.Semiring Base.Machine Model.VectorFst Model.Rational Model.FstPath Model.NShortest
  Proofs.VectorFacts Proofs.TrOpsFacts Proofs.OpFacts Proofs.RationalFacts Proofs.ShortestTree Proofs.NHeap Proofs.ConnectFacts Proofs.VectorProps Proofs.HistoryFacts Proofs.NSearch.
Import ListNotations.
Local Open Scope K_scope.

Lemma list_sum_at (l : list nat) (F F' : nat -> nat) a c : NoDup l -> In a l -> (forall x, In x l -> x <> a -> F' x = F x) -> (F' a + c = F a)%nat ->
  (list_sum (map F' l) + c = list_sum (map F l))%nat.
Proof.
  induction l as [|x l IH]; intros N H E Ea; [destruct H|]. inversion N; subst. cbn [map list_sum fold_right].
  change (fold_right Nat.add 0%nat) with list_sum. destruct (Nat.eq_dec x a) as [->|Nx].
  - assert (map F' l = map F l) as -> by (apply map_ext_in; intros y Hy; apply E; [right; auto|intros ->; auto]). lia.
  - destruct H as [->|H]; [congruence|]. rewrite (E x) by (auto; left; auto). rewrite <- IH; auto; [lia|intros; apply E; auto; right; auto].
Qed.

Lemma nodup_mid {A} (a b c : list A) : NoDup (a ++ b ++ c) -> NoDup b.
Proof.
  intros H. induction a as [|x a IH]; cbn in H; [|inversion H; auto].
  induction b as [|y b IH]; [constructor|]. cbn in H. inversion H; subst. constructor; auto. rewrite in_app_iff in *. tauto.
Qed.

Lemma bump_nth r i j : nth j (bump r i) O = if Nat.eqb j i then S (nth i r O) else nth j r O.
Proof.
  unfold bump. set (r' := r ++ repeat O (S i - length r)).
  assert (E : forall k, nth k r' O = nth k r O).
  { intros k. unfold r'. destruct (Nat.ltb_spec k (length r)); [apply app_nth1; auto|]. rewrite app_nth2 by auto. rewrite nth_repeat, nth_overflow; auto. }
  assert (Ln : (i < length r')%nat) by (unfold r'; rewrite app_length, repeat_length; lia).
  destruct (Nat.eqb_spec j i) as [->|N]; [rewrite nth_upd_eq, E; auto|]. rewrite nth_upd_ne by auto. apply E.
Qed.

Section S.
  Context {K K' : SR} (rb : K' -> K) (L : sr_laws K) (Pp : path_plus K) (Cm : commutative_times K).
  Context (I : vfst K') (dist : list K) (n : nat) (r0 : nat).
  Hypothesis Cl : forall q t, In t (trs_of I q) -> (ns t < num_states I)%nat.
  Hypothesis D1 : forall q t, In t (trs_of I q) -> le (nth q dist 0) (nth (ns t) dist 0 * rb (wgt t)).
  Hypothesis D2 : forall q w, fin_of I q = Some w -> le (nth q dist 0) (rb w).
  Notation prio := (prio dist).
  Notation contrib := (contrib rb I).
  Notation gext := (gext rb I).
  Notation kids := (kids rb I).
  Implicit Types (nodes : list (node (K := K))) (st : nst (K := K)) (ex sk dn : list nat).

  Definition atq nodes (q i : nat) : bool := match nd_st (nd nodes i) with Some q' => Nat.eqb q' q | None => false end.
  Definition cntq nodes q (l : list nat) : nat := length (filter (atq nodes q) l).

  Record inv st nodes ex sk dn : Prop := {
    i_shape : shape dist st nodes;
    i_len : (2 <= length nodes)%nat;
    i_perm : Permutation (seq 1 (length nodes - 1)) (n_heap st ++ ex ++ sk ++ dn);
    i_root : nd nodes 1 = root r0;
    i_trs0 : trs_of (n_fst st) O = map (fun i => Tr O O 1 i) dn;
    i_fin0 : fin_of (n_fst st) O = None;
    i_trs1 : trs_of (n_fst st) 1%nat = [];
    i_fin1 : fin_of (n_fst st) 1%nat = Some 1;
    i_edge : forall i, (2 <= i < length nodes)%nat -> fin_of (n_fst st) i = None /\
      exists a b w p, trs_of (n_fst st) i = [Tr a b w p] /\ (1 <= p < i)%nat /\ nd_par (nd nodes i) = p /\
        nd_suf (nd nodes i) = consr a b w (nd_suf (nd nodes p)) /\ nd_len (nd nodes i) = S (nd_len (nd nodes p));
    i_stlt : forall i q, nd_st (nd nodes i) = Some q -> (q < num_states I)%nat;
    i_r0 : nth 0 (n_r st) O = length dn;
    i_rS : forall q, nth (S q) (n_r st) O = (cntq nodes q ex + cntq nodes q sk)%nat;
    i_exn : forall q, (cntq nodes q ex <= n)%nat;
    i_sk : forall i q, In i sk -> nd_st (nd nodes i) = Some q ->
      exists l, NoDup l /\ (n <= length l)%nat /\
        forall j, In j l -> In j ex /\ nd_st (nd nodes j) = Some q /\ le (prio (nd nodes j)) (prio (nd nodes i));
    i_open : forall i, In i (ex ++ sk) -> nd_st (nd nodes i) <> None;
    i_done : forall i, In i dn -> nd_st (nd nodes i) = None;
    i_mono : forall i j, In i (ex ++ sk ++ dn) -> In j (n_heap st) -> le (prio (nd nodes i)) (prio (nd nodes j));
    i_arc : forall i q t, In i ex -> nd_st (nd nodes i) = Some q -> In t (trs_of I q) ->
      exists c, (1 <= c < length nodes)%nat /\ nd nodes c = arc_child rb i (nd nodes i) t;
    i_end : forall i q w, In i ex -> nd_st (nd nodes i) = Some q -> fin_of I q = Some w -> rb w <> 0 ->
      exists c, (1 <= c < length nodes)%nat /\ nd nodes c = end_child rb i (nd nodes i) w;
    i_ext : forall k, Permutation (gext k (Some r0) (FP [] [] 1))
      (flat_map (fun i => contrib k (nd nodes i)) (n_heap st ++ sk ++ dn)) }.

  Lemma inv_range st nodes ex sk dn : inv st nodes ex sk dn ->
    forall i, In i (n_heap st ++ ex ++ sk ++ dn) <-> (1 <= i < length nodes)%nat.
  Proof.
    intros V i. pose proof (i_perm _ _ _ _ _ V) as P. pose proof (i_len _ _ _ _ _ V). split; intros H1.
    - apply (Permutation_in _ (Permutation_sym P)) in H1. apply in_seq in H1. lia.
    - apply (Permutation_in _ P). apply in_seq. lia.
  Qed.
  Lemma inv_nodup st nodes ex sk dn : inv st nodes ex sk dn -> NoDup (n_heap st ++ ex ++ sk ++ dn).
  Proof. intros V. eapply Permutation_NoDup; [apply (i_perm _ _ _ _ _ V)|apply seq_NoDup]. Qed.

  Lemma kid_prio i x q ct : nd_st x = Some q -> In ct (kids i x q) -> le (prio x) (prio (fst ct)).
  Proof.
    intros E H. unfold NSearch.prio at 1. rewrite E. cbn [pweight]. unfold NSearch.kids in H. apply in_app_or in H as [H|H].
    - apply in_map_iff in H as (t & <- & Ht). unfold NSearch.prio. cbn [fst arc_child nd_st nd_suf pweight consr pwgt].
      rewrite (ktimes_assoc _ L). apply (le_mult_r L). auto.
    - destruct (fin_of I q) as [w|] eqn:F; [|destruct H]. destruct (keqb (rb w) 0); [destruct H|]. destruct H as [<-|[]].
      unfold NSearch.prio. cbn [fst end_child nd_st nd_suf pweight consr pwgt]. rewrite (ktimes_1_l _ L). apply (le_mult_r L). auto.
  Qed.

  (** A step of the loop takes a best element off the heap. *)
  Lemma inv_pop st nodes ex sk dn : inv st nodes ex sk dn -> n_heap st <> [] ->
    exists x h, hpop (sp_compare (n_pairs st) dist) (n_heap st) = Ok (x, h) /\ heap (ltx dist nodes) h /\ Forall (dom nodes) h /\
      Permutation (n_heap st) (x :: h) /\ (1 <= x < length nodes)%nat /\ nth_error (n_pairs st) x = Some (pr (nd nodes x)) /\
      (forall y, In y (n_heap st) -> le (prio (nd nodes x)) (prio (nd nodes y))) /\
      (forall i j, In i ((ex ++ sk ++ dn) ++ [x]) -> In j h -> le (prio (nd nodes i)) (prio (nd nodes j))).
  Proof.
    intros V N. pose proof (i_shape _ _ _ _ _ V) as Sh.
    destruct (hpop_ok (sp_compare (map pr nodes) dist) (dom nodes) (ltx dist nodes) (compare_eq dist nodes) (ltx_trans L Pp dist nodes) (ltx_total L Pp dist nodes) (n_heap st))
      as (x & h & E & Hh & Ph & G); auto; [apply (s_dom _ _ _ Sh)|apply (s_heap _ _ _ Sh)|].
    rewrite (s_pairs _ _ _ Sh). exists x, h. split; auto. split; auto.
    assert (Rx : (1 <= x < length nodes)%nat).
    { apply (inv_range _ _ _ _ _ V). apply in_or_app. left. apply (Permutation_in _ (Permutation_sym Ph)). left. auto. }
    assert (Fx : Forall (dom nodes) (x :: h)) by (eapply dom_perm; [apply (s_dom _ _ _ Sh)|auto]).
    assert (Gx : forall y, In y (n_heap st) -> le (prio (nd nodes x)) (prio (nd nodes y))) by (intros y Hy; apply (ltn_ge L Pp dist); apply (G y Hy)).
    split; [inversion Fx; auto|]. split; auto. split; auto. split; [|split; auto].
    - rewrite nth_error_map, (nth_error_nth' _ nd0) by lia. auto.
    - intros i j Hi Hj. assert (Hj' : In j (n_heap st)) by (apply (Permutation_in _ (Permutation_sym Ph)); right; auto).
      apply in_app_or in Hi as [Hi|[->|[]]]; [apply (i_mono _ _ _ _ _ V); auto|apply Gx; auto].
  Qed.

  Lemma cntq_app nodes q l m : cntq nodes q (l ++ m) = (cntq nodes q l + cntq nodes q m)%nat.
  Proof. unfold cntq. rewrite filter_app, app_length. auto. Qed.
  Lemma cntq_one nodes q x q' : nd_st (nd nodes x) = Some q' -> cntq nodes q [x] = if Nat.eqb q q' then 1%nat else O.
  Proof. intros E. unfold cntq. cbn [filter]. unfold atq. rewrite E, Nat.eqb_sym. destruct (q =? q'); auto. Qed.

  Lemma inv_done st nodes ex sk dn x h g : inv st nodes ex sk dn ->
    heap (ltx dist nodes) h -> Forall (dom nodes) h -> Permutation (n_heap st) (x :: h) -> (1 <= x < length nodes)%nat ->
    (forall i j, In i ((ex ++ sk ++ dn) ++ [x]) -> In j h -> le (prio (nd nodes i)) (prio (nd nodes j))) ->
    nd_st (nd nodes x) = None -> add_tr (n_fst st) O (Tr O O 1 x) = Ok g ->
    inv (NST g (n_pairs st) h (bump (n_r st) O)) nodes ex sk (dn ++ [x]).
  Proof.
    intros V Hh Dh Ph Rx Gx Ex Eg. pose proof (i_shape _ _ _ _ _ V) as Sh. pose proof (s_num _ _ _ Sh) as Nm. pose proof (i_len _ _ _ _ _ V) as Ln.
    destruct (add_tr_eff (n_fst st) O (Tr O O 1 x)) as (g' & E' & Fg & Tg & Ng); [lia|]. assert (g' = g) by congruence. subst g'. clear E'.
    destruct Fg as (F1 & F2 & _ & _ & F5).
    assert (Ts : forall q, q <> O -> trs_of g q = trs_of (n_fst st) q) by (intros q Hq; rewrite Tg; destruct (Nat.eqb_spec q 0); [lia|auto]).
    split; cbn [n_fst n_pairs n_heap n_r]; try apply V.
    - split; cbn [n_fst n_pairs n_heap n_r]; auto; try apply Sh; [lia|rewrite F2; apply Sh|apply F5, Sh|apply (fsound_add_tr (sr_lsr _ L) _ _ _ _ (s_sound _ _ _ Sh) Eg)].
    - rewrite (i_perm _ _ _ _ _ V), Ph. cbn [app]. rewrite Permutation_cons_append, <- !app_assoc. auto.
    - rewrite Tg, Nat.eqb_refl, (i_trs0 _ _ _ _ _ V), map_app. auto.
    - rewrite Ng. apply V.
    - rewrite Ts by lia. apply V.
    - rewrite Ng. apply V.
    - intros i Hi. rewrite Ng, Ts by lia. apply V. auto.
    - rewrite bump_nth. cbn [Nat.eqb]. rewrite (i_r0 _ _ _ _ _ V), app_length. cbn. lia.
    - intros q. rewrite bump_nth. cbn [Nat.eqb]. apply V.
    - intros i Hi. apply in_app_or in Hi as [Hi|[<-|[]]]; auto. apply V. auto.
    - intros i j Hi. apply Gx. rewrite <- !app_assoc. auto.
    - intros k. rewrite (i_ext _ _ _ _ _ V k). apply Permutation_flat_map. rewrite Ph. cbn [app]. rewrite Permutation_cons_append, <- !app_assoc. auto.
  Qed.

  Lemma inv_skip st nodes ex sk dn x h q : inv st nodes ex sk dn ->
    heap (ltx dist nodes) h -> Forall (dom nodes) h -> Permutation (n_heap st) (x :: h) -> (1 <= x < length nodes)%nat ->
    (forall y, In y (n_heap st) -> le (prio (nd nodes x)) (prio (nd nodes y))) ->
    (forall i j, In i ((ex ++ sk ++ dn) ++ [x]) -> In j h -> le (prio (nd nodes i)) (prio (nd nodes j))) ->
    nd_st (nd nodes x) = Some q -> (n < nth (S q) (bump (n_r st) (S q)) O)%nat ->
    inv (NST (n_fst st) (n_pairs st) h (bump (n_r st) (S q))) nodes ex (sk ++ [x]) dn.
  Proof.
    intros V Hh Dh Ph Rx Mx Gx Ex Hn. pose proof (i_shape _ _ _ _ _ V) as Sh.
    assert (Hx : In x (n_heap st)) by (apply (Permutation_in _ (Permutation_sym Ph)); left; auto).
    split; cbn [n_fst n_pairs n_heap n_r]; try apply V.
    - split; cbn [n_fst n_pairs n_heap n_r]; auto; apply Sh.
    - rewrite (i_perm _ _ _ _ _ V), Ph. cbn [app]. rewrite <- (app_assoc sk [x] dn). cbn [app].
      replace (h ++ ex ++ sk ++ dn) with ((h ++ ex ++ sk) ++ dn) by (rewrite <- !app_assoc; auto).
      replace (h ++ ex ++ sk ++ x :: dn) with ((h ++ ex ++ sk) ++ x :: dn) by (rewrite <- !app_assoc; auto). apply Permutation_middle.
    - rewrite bump_nth. cbn [Nat.eqb]. apply V.
    - intros q'. rewrite bump_nth, cntq_app, (cntq_one nodes q' x q Ex). cbn [Nat.eqb]. pose proof (i_rS _ _ _ _ _ V q').
      destruct (Nat.eqb_spec q' q) as [->|]; lia.
    - intros i q' Hi Ei. apply in_app_or in Hi as [Hi|[<-|[]]]; [apply (i_sk _ _ _ _ _ V); auto|].
      assert (q' = q) by congruence. subst q'. rewrite bump_nth, Nat.eqb_refl, (i_rS _ _ _ _ _ V) in Hn.
      destruct (filter (atq nodes q) sk) as [|y ys] eqn:Esk.
      + assert (C0 : cntq nodes q sk = O) by (unfold cntq; rewrite Esk; auto). exists (filter (atq nodes q) ex). split; [|split].
        * apply NoDup_filter. pose proof (inv_nodup _ _ _ _ _ V) as Nd. eapply nodup_mid; eauto.
        * fold (cntq nodes q ex). lia.
        * intros j Hj. apply filter_In in Hj as [J1 J2]. split; auto. split.
          { unfold atq in J2. destruct (nd_st (nd nodes j)) as [q'|]; [|discriminate]. apply Nat.eqb_eq in J2. congruence. }
          apply (i_mono _ _ _ _ _ V); auto. apply in_or_app. auto.
      + assert (Hy : In y (filter (atq nodes q) sk)) by (rewrite Esk; left; auto). apply filter_In in Hy as [Y1 Y2].
        assert (Ey : nd_st (nd nodes y) = Some q) by (unfold atq in Y2; destruct (nd_st (nd nodes y)) as [q'|]; [|discriminate]; apply Nat.eqb_eq in Y2; congruence).
        destruct (i_sk _ _ _ _ _ V y q Y1 Ey) as (l & Nl & Ll & Hl). exists l. split; auto. split; auto. intros j Hj. destruct (Hl j Hj) as (J1 & J2 & J3).
        split; auto. split; auto. apply (i_mono _ _ _ _ _ V); auto. apply in_or_app. auto.
    - intros i Hi. rewrite app_assoc in Hi. apply in_app_or in Hi as [Hi|[<-|[]]]; [apply V; auto|congruence].
    - intros i j Hi. apply Gx. rewrite !in_app_iff in *. tauto.
    - intros k. rewrite (i_ext _ _ _ _ _ V k). apply Permutation_flat_map. rewrite Ph. cbn [app]. rewrite <- (app_assoc sk [x] dn). cbn [app].
      rewrite !app_assoc. apply Permutation_middle.
  Qed.

  Lemma kids_nth i x q j ct : nth_error (kids i x q) j = Some ct ->
    exists a b w, snd ct = Tr a b w i /\ nd_par (fst ct) = i /\ nd_suf (fst ct) = consr a b w (nd_suf x) /\ nd_len (fst ct) = S (nd_len x) /\
      (forall q', nd_st (fst ct) = Some q' -> (q' < num_states I)%nat).
  Proof.
    intros H. apply nth_error_In in H. unfold NSearch.kids in H. apply in_app_or in H as [H|H].
    - apply in_map_iff in H as (t & <- & Ht). cbn [fst snd arc_child nd_par nd_suf nd_len nd_st]. do 3 eexists. split; [reflexivity|].
      split; auto. split; auto. split; auto. intros q' [= <-]. eauto.
    - destruct (fin_of I q) as [w|] eqn:F; [|destruct H]. destruct (keqb (rb w) 0); [destruct H|]. destruct H as [<-|[]].
      cbn [fst snd end_child nd_par nd_suf nd_len nd_st]. do 3 eexists. split; [reflexivity|]. split; auto. split; auto. split; auto. discriminate.
  Qed.
  Lemma kids_length i x q : (length (kids i x q) <= S (length (trs_of I q)))%nat.
  Proof.
    unfold NSearch.kids. rewrite app_length, map_length. destruct (fin_of I q) as [w|]; cbn; [|lia]. destruct (keqb (rb w) 0); cbn; lia.
  Qed.

  Lemma inv_expand st nodes ex sk dn x h q : inv st nodes ex sk dn ->
    heap (ltx dist nodes) h -> Forall (dom nodes) h -> Permutation (n_heap st) (x :: h) -> (1 <= x < length nodes)%nat ->
    (forall y, In y (n_heap st) -> le (prio (nd nodes x)) (prio (nd nodes y))) ->
    (forall i j, In i ((ex ++ sk ++ dn) ++ [x]) -> In j h -> le (prio (nd nodes i)) (prio (nd nodes j))) ->
    nd_st (nd nodes x) = Some q -> (nth (S q) (bump (n_r st) (S q)) O <= n)%nat ->
    exists st', n_expand rb I dist x q (pwgt (nd_suf (nd nodes x))) (NST (n_fst st) (n_pairs st) h (bump (n_r st) (S q))) = Ok st' /\
      inv st' (nodes ++ map fst (kids x (nd nodes x) q)) (ex ++ [x]) sk dn /\
      length (n_heap st') = (length (kids x (nd nodes x) q) + length h)%nat /\
      (cntq nodes q ex < n)%nat.
  Proof.
    intros V Hh Dh Ph Rx Mx Gx Ex Hn. pose proof (i_shape _ _ _ _ _ V) as Sh. pose proof (i_len _ _ _ _ _ V) as Ln.
    assert (Hx : In x (n_heap st)) by (apply (Permutation_in _ (Permutation_sym Ph)); left; auto).
    rewrite bump_nth, Nat.eqb_refl, (i_rS _ _ _ _ _ V) in Hn.
    assert (Hq : (q < num_states I)%nat) by (apply (i_stlt _ _ _ _ _ V x); auto).
    rewrite (expand_eq rb Cm I dist x (nd nodes x) q) by auto. set (cts := kids x (nd nodes x) q). set (nodes' := nodes ++ map fst cts).
    destruct (grow_ok L Pp dist cts (NST (n_fst st) (n_pairs st) h (bump (n_r st) (S q))) nodes) as (st' & E & S' & P & R & T & TN & F).
    { split; cbn [n_fst n_pairs n_heap n_r]; auto; apply Sh. }
    cbn [n_fst n_pairs n_heap n_r] in *. fold nodes' in S'. exists st'. split; auto.
    assert (Lh : length (n_heap st') = (length cts + length h)%nat) by (rewrite <- (Permutation_length P), app_length, seq_length; auto).
    assert (Ln' : length nodes' = (length nodes + length cts)%nat) by (unfold nodes'; rewrite app_length, map_length; auto).
    assert (Old : forall i, (i < length nodes)%nat -> nd nodes' i = nd nodes i) by (intros i Hi; apply nd_old; auto).
    assert (New : forall i, (length nodes <= i < length nodes')%nat -> exists ct, nth_error cts (i - length nodes) = Some ct /\ nd nodes' i = fst ct).
    { intros i Hi. destruct (nth_error_ex cts (i - length nodes)) as [ct Hc]; [lia|]. exists ct. split; auto. unfold nodes'.
      replace i with (length nodes + (i - length nodes))%nat by lia. rewrite nd_new. apply nth_error_nth. replace (length nodes + (i - length nodes) - length nodes)%nat with (i - length nodes)%nat by lia. rewrite nth_error_map, Hc. auto. }
    assert (Rg : forall i, In i (n_heap st ++ ex ++ sk ++ dn) -> (i < length nodes)%nat) by (intros i Hi; apply (inv_range _ _ _ _ _ V) in Hi; lia).
    assert (Re : forall i, In i (ex ++ [x]) -> nd nodes' i = nd nodes i /\ (1 <= i < length nodes)%nat).
    { intros i Hi. assert (1 <= i < length nodes)%nat; [|split; auto; apply Old; lia].
      apply in_app_or in Hi as [Hi|[<-|[]]]; auto. apply (inv_range _ _ _ _ _ V). rewrite !in_app_iff. auto. }
    assert (Cq : forall q' l, (forall i, In i l -> (i < length nodes)%nat) -> cntq nodes' q' l = cntq nodes q' l).
    { intros q' l H. unfold cntq. f_equal. apply filter_ext_in. intros i Hi. unfold atq. rewrite Old by auto. auto. }
    assert (Lo : (cntq nodes q ex < n)%nat) by lia.
    assert (Cs : cntq nodes q sk = O).
    { destruct (filter (atq nodes q) sk) as [|y ys] eqn:Esk; [unfold cntq; rewrite Esk; auto|]. exfalso.
      assert (Hy : In y (filter (atq nodes q) sk)) by (rewrite Esk; left; auto). apply filter_In in Hy as [Y1 Y2].
      assert (Ey : nd_st (nd nodes y) = Some q) by (unfold atq in Y2; destruct (nd_st (nd nodes y)) as [q'|]; [|discriminate]; apply Nat.eqb_eq in Y2; congruence).
      destruct (i_sk _ _ _ _ _ V y q Y1 Ey) as (l & Nl & Ll & Hl). assert (length l <= cntq nodes q ex)%nat; [|lia].
      apply NoDup_incl_length; auto. intros j Hj. destruct (Hl j Hj) as (J1 & J2 & _). apply filter_In. split; auto. unfold atq. rewrite J2. apply Nat.eqb_refl. }
    split; [|split; auto]. split; auto; fold nodes'.
    - lia.
    - rewrite Ln'. replace (length nodes + length cts - 1)%nat with ((length nodes - 1) + length cts)%nat by lia. rewrite seq_app.
      replace (1 + (length nodes - 1))%nat with (length nodes) by lia. rewrite (i_perm _ _ _ _ _ V), <- P, Ph. cbn [app].
      rewrite <- (app_assoc ex [x]). cbn [app]. rewrite <- (app_assoc (seq _ _)). 
      transitivity (seq (length nodes) (length cts) ++ (x :: h ++ ex ++ sk ++ dn)); [rewrite (Permutation_app_comm (seq _ _)); auto|].
      apply Permutation_app_head. rewrite !app_assoc. rewrite <- !(app_assoc (h ++ ex)). apply Permutation_middle.
    - rewrite Old by lia. apply V.
    - rewrite T by lia. apply V.
    - rewrite F. apply V.
    - rewrite T by lia. apply V.
    - rewrite F. apply V.
    - intros i Hi. rewrite F. destruct (Nat.ltb_spec i (length nodes)) as [Hl|Hl].
      + rewrite T, Old by auto. destruct (i_edge _ _ _ _ _ V i) as (A & a & b & w & p & E1 & E2 & E3 & E4 & E5); [lia|]. split; auto.
        exists a, b, w, p. rewrite (Old p) by lia. auto.
      + destruct (New i) as (ct & C1 & C2); [lia|]. destruct (kids_nth _ _ _ _ _ C1) as (a & b & w & E1 & E2 & E3 & E4 & _). split.
        * apply fin_of_beyond. rewrite (s_num _ _ _ Sh). auto.
        * exists a, b, w, x. specialize (TN _ _ C1). replace (length nodes + (i - length nodes))%nat with i in TN by lia.
          rewrite TN, E1, C2, Old by lia. repeat (split; auto; try lia).
    - intros i q' Hi. destruct (Nat.ltb_spec i (length nodes)) as [Hl|Hl]; [rewrite Old in Hi by auto; eapply (i_stlt _ _ _ _ _ V); eauto|].
      destruct (Nat.ltb_spec i (length nodes')) as [Hl'|Hl'].
      + destruct (New i) as (ct & C1 & C2); [lia|]. rewrite C2 in Hi. destruct (kids_nth _ _ _ _ _ C1) as (a & b & w & _ & _ & _ & _ & E5). auto.
      + unfold nd in Hi. rewrite nth_overflow in Hi by auto. discriminate.
    - rewrite R, bump_nth. cbn [Nat.eqb]. apply V.
    - intros q'. rewrite R, bump_nth, cntq_app. cbn [Nat.eqb]. rewrite !Cq.
      + rewrite (cntq_one nodes q' x q Ex). pose proof (i_rS _ _ _ _ _ V q'). destruct (Nat.eqb_spec q' q) as [->|]; lia.
      + intros i Hi. apply Rg. rewrite !in_app_iff. auto.
      + intros i [<-|[]]. lia.
      + intros i Hi. apply Rg. rewrite !in_app_iff. auto.
    - intros q'. rewrite Cq by (intros i Hi; apply Re; auto). rewrite cntq_app, (cntq_one nodes q' x q Ex). pose proof (i_exn _ _ _ _ _ V q').
      destruct (Nat.eqb_spec q' q) as [->|]; lia.
    - intros i q' Hi. assert (Hl : (i < length nodes)%nat) by (apply Rg; rewrite !in_app_iff; auto). rewrite Old by auto. intros Ei.
      destruct (i_sk _ _ _ _ _ V i q' Hi Ei) as (l & Nl & Ll & Hl'). exists l. split; auto. split; auto. intros j Hj. destruct (Hl' j Hj) as (J1 & J2 & J3).
      rewrite Old by (apply Rg; rewrite !in_app_iff; auto). split; auto. apply in_or_app. auto.
    - intros i Hi. assert (Hl : (i < length nodes)%nat).
      { apply in_app_or in Hi as [Hi|Hi]; [apply Re; auto|apply Rg; rewrite !in_app_iff; auto]. }
      rewrite Old by auto. rewrite !in_app_iff in Hi. destruct Hi as [[Hi|[<-|[]]]|Hi]; [| congruence |]; apply V; apply in_or_app; auto.
    - intros i Hi. rewrite Old by (apply Rg; rewrite !in_app_iff; auto). apply V. auto.
    - intros i j Hi Hj.
      assert (Hi' : In i ((ex ++ sk ++ dn) ++ [x])) by (rewrite !in_app_iff in *; cbn in *; tauto).
      assert (Hli : (i < length nodes)%nat).
      { apply in_app_or in Hi' as [H|[<-|[]]]; [apply Rg; apply in_or_app; auto|lia]. }
      rewrite (Old i) by auto. apply (Permutation_in _ (Permutation_sym P)) in Hj. apply in_app_or in Hj as [Hj|Hj].
      + apply in_seq in Hj. destruct (New j) as (ct & C1 & C2); [lia|]. rewrite C2.
        apply (le_trans L _ (prio (nd nodes x))); [|eapply kid_prio; eauto; eapply nth_error_In; eauto].
        apply in_app_or in Hi' as [H|[<-|[]]]; [apply (i_mono _ _ _ _ _ V); auto|apply (le_refl Pp)].
      + rewrite (Old j); [apply Gx; auto|]. rewrite Forall_forall in Dh. apply (Dh j Hj).
    - intros i q' t Hi. destruct (Re i Hi) as [Ei Li]. rewrite Ei. intros Es Ht. apply in_app_or in Hi as [Hi|[<-|[]]].
      + destruct (i_arc _ _ _ _ _ V i q' t Hi Es Ht) as (c & C1 & C2). exists c. rewrite Old by lia. split; auto. lia.
      + assert (q' = q) by congruence. subst q'. apply In_nth_error in Ht as [j Hj].
        assert (Hc : nth_error cts j = Some (arc_child rb x (nd nodes x) t, Tr (il t) (ol t) (rb (wgt t)) x)).
        { unfold cts, NSearch.kids. rewrite nth_error_app1 by (rewrite map_length; eapply nth_error_lt; eauto). rewrite nth_error_map, Hj. auto. }
        pose proof (nth_error_lt _ _ _ Hc) as Lj. exists (length nodes + j)%nat. split; [lia|]. unfold nodes'. rewrite nd_new.
        apply nth_error_nth. rewrite nth_error_map, Hc. auto.
    - intros i q' w Hi. destruct (Re i Hi) as [Ei Li]. rewrite Ei. intros Es Hw Nw. apply in_app_or in Hi as [Hi|[<-|[]]].
      + destruct (i_end _ _ _ _ _ V i q' w Hi Es Hw Nw) as (c & C1 & C2). exists c. rewrite Old by lia. split; auto. lia.
      + assert (q' = q) by congruence. subst q'. apply (keqb_false L) in Nw.
        assert (Hc : nth_error cts (length (trs_of I q)) = Some (end_child rb x (nd nodes x) w, Tr O O (rb w) x)).
        { unfold cts, NSearch.kids. rewrite nth_error_app2 by (rewrite map_length; lia). rewrite map_length, Nat.sub_diag, Hw, Nw. auto. }
        pose proof (nth_error_lt _ _ _ Hc) as Lj. exists (length nodes + length (trs_of I q))%nat. split; [lia|]. unfold nodes'. rewrite nd_new.
        apply nth_error_nth. rewrite nth_error_map, Hc. auto.
    - intros k. rewrite (i_ext _ _ _ _ _ V k). 
      assert (E1 : Permutation (flat_map (fun i => contrib k (nd nodes i)) (n_heap st ++ sk ++ dn))
                  (contrib k (nd nodes x) ++ flat_map (fun i => contrib k (nd nodes i)) (h ++ sk ++ dn))).
      { rewrite (Permutation_flat_map _ (Permutation_app Ph (Permutation_refl (sk ++ dn)))). cbn [app flat_map]. auto. }
      rewrite E1. rewrite (Permutation_flat_map _ (Permutation_app (Permutation_sym P) (Permutation_refl (sk ++ dn)))).
      rewrite <- (app_assoc (seq _ _)), (flat_map_app _ (seq _ _)). apply Permutation_app.
      + rewrite (contrib_kids rb I k x (nd nodes x) q Ex). fold cts.
        assert (E2 : map fst cts = map (nd nodes') (seq (length nodes) (length cts))).
        { apply nth_ext with (d := nd0) (d' := nd nodes' 0); [rewrite !map_length, seq_length; auto|]. rewrite map_length. intros j Hj.
          rewrite (map_nth (nd nodes')), seq_nth by auto. unfold nodes'. rewrite nd_new. auto. }
        rewrite E2, flat_map_map'. auto.
      + erewrite flat_map_ext_in; [reflexivity|]. intros i Hi. cbn beta. rewrite Old; auto.
        apply in_app_or in Hi as [Hi|Hi]; [rewrite Forall_forall in Dh; apply (Dh i Hi)|].
        apply Rg. rewrite !in_app_iff in *. tauto.
  Qed.

  Definition measure st nodes ex : nat :=
    (length (n_heap st) + list_sum (map (fun q => (n - cntq nodes q ex) * S (length (trs_of I q))) (seq 0 (num_states I))))%nat.

  Lemma loop_ok limit : limit = 0 -> forall fuel st nodes ex sk dn, inv st nodes ex sk dn -> (length dn < n)%nat -> (measure st nodes ex <= fuel)%nat ->
    exists st' nodes' ex' sk' dn', n_loop rb fuel I dist n limit st = Ok st' /\ inv st' nodes' ex' sk' dn' /\
      ((n_heap st' = [] /\ (length dn' < n)%nat) \/
       (length dn' = n /\ exists c, In c dn' /\ (forall i, In i (ex' ++ sk' ++ dn') -> le (prio (nd nodes' i)) (prio (nd nodes' c))) /\
          forall i, In i (n_heap st') -> le (prio (nd nodes' c)) (prio (nd nodes' i)))).
  Proof.
    intros Zl. induction fuel as [|fuel IH]; intros st nodes ex sk dn V Hd Hm.
    - unfold measure in Hm. destruct (n_heap st) eqn:Eh; [|cbn in Hm; lia]. exists st, nodes, ex, sk, dn. cbn [n_loop]. rewrite Eh. auto.
    - cbn [n_loop]. destruct (n_heap st) as [|h0 hs] eqn:Eh.
      { exists st, nodes, ex, sk, dn. rewrite Eh. auto. }
      destruct (inv_pop st nodes ex sk dn V) as (x & h & Ep & Hh & Dh & Ph & Rx & Px & Mx & Gx); [congruence|].
      rewrite <- Eh. rewrite Ep. cbn [rbind]. rewrite Px. cbn [got rbind fst snd pr].
      replace (natural_less limit (pweight dist (nd_st (nd nodes x)) * pwgt (nd_suf (nd nodes x)))) with false
        by (symmetry; apply (nl_false L Pp); rewrite Zl; apply (le_0 L)).
      assert (Lh : length (n_heap st) = S (length h)) by (rewrite (Permutation_length Ph); auto).
      assert (Mh : forall st', n_heap st' = h -> (measure st' nodes ex <= fuel)%nat) by (intros st' E; unfold measure in *; rewrite E; lia).
      destruct (nd_st (nd nodes x)) as [q|] eqn:Ex.
      + destruct (Nat.ltb_spec n (nth (S q) (bump (n_r st) (S q)) O)) as [H|H].
        * apply (IH _ nodes ex (sk ++ [x]) dn); auto. eapply inv_skip; eauto.
        * destruct (inv_expand st nodes ex sk dn x h q V Hh Dh Ph Rx Mx Gx Ex H) as (st' & E & V' & L' & Lo). rewrite E. cbn [rbind].
          eapply IH; eauto. unfold measure in *. rewrite L'. set (nodes' := nodes ++ _) in *.
          assert (Hq : (q < num_states I)%nat) by (apply (i_stlt _ _ _ _ _ V x); auto).
          assert (Cq : forall q', cntq nodes' q' (ex ++ [x]) = (cntq nodes q' ex + if Nat.eqb q' q then 1 else 0)%nat).
          { intros q'. rewrite <- (cntq_one nodes q' x q Ex), <- cntq_app. unfold cntq. f_equal. apply filter_ext_in. intros i Hi. unfold atq, nodes'. rewrite nd_old; auto.
            apply in_app_or in Hi as [Hi|[<-|[]]]; [|lia]. assert (In i (n_heap st ++ ex ++ sk ++ dn)) as B by (rewrite !in_app_iff; auto).
            apply (inv_range _ _ _ _ _ V) in B. lia. }
          pose proof (list_sum_at (seq 0 (num_states I)) (fun q => (n - cntq nodes q ex) * S (length (trs_of I q)))%nat
            (fun q => (n - cntq nodes' q (ex ++ [x])) * S (length (trs_of I q)))%nat q (S (length (trs_of I q)))) as Sum.
          assert ((forall y, In y (seq 0 (num_states I)) -> y <> q -> (n - cntq nodes' y (ex ++ [x])) * S (length (trs_of I y)) = (n - cntq nodes y ex) * S (length (trs_of I y)))%nat) as S1.
          { intros y _ Ny. rewrite Cq. destruct (Nat.eqb_spec y q); [lia|]. rewrite Nat.add_0_r. auto. }
          specialize (Sum (seq_NoDup _ _)). specialize (Sum ltac:(apply in_seq; lia) S1).
          assert (A : ((n - cntq nodes' q (ex ++ [x])) * S (length (trs_of I q)) + S (length (trs_of I q)) = (n - cntq nodes q ex) * S (length (trs_of I q)))%nat).
          { rewrite Cq, Nat.eqb_refl. replace (n - cntq nodes q ex)%nat with (S (n - (cntq nodes q ex + 1))) by lia. lia. }
          specialize (Sum A). pose proof (kids_length x (nd nodes x) q). lia.
      + pose proof (i_shape _ _ _ _ _ V) as Sh. rewrite (s_start _ _ _ Sh). cbn [got rbind].
        destruct (add_tr_eff (n_fst st) O (Tr O O 1 x)) as (g & Eg & _); [rewrite (s_num _ _ _ Sh); pose proof (i_len _ _ _ _ _ V); lia|].
        rewrite Eg. cbn [rbind]. pose proof (inv_done _ _ _ _ _ x h g V Hh Dh Ph Rx Gx Ex Eg) as V'.
        pose proof (i_r0 _ _ _ _ _ V') as R0. cbn [n_r] in R0. rewrite R0. destruct (Nat.eqb_spec (length (dn ++ [x])) n) as [En|Nn].
        * do 5 eexists. split; [reflexivity|]. split; [exact V'|]. right. split; auto. exists x. split; [apply in_or_app; right; left; auto|]. cbn [n_heap]. split.
          { intros i Hi. assert (Hx : In x (n_heap st)) by (apply (Permutation_in _ (Permutation_sym Ph)); left; auto).
            rewrite !app_assoc in Hi. apply in_app_or in Hi as [Hi|[<-|[]]]; [|apply (le_refl Pp)]. apply (i_mono _ _ _ _ _ V); auto. rewrite <- !app_assoc in Hi. auto. }
          { intros i Hi. apply Gx; auto. apply in_or_app. right. left. auto. }
        * eapply IH; eauto. rewrite app_length in *. cbn in *. lia.
  Qed.
End S.
