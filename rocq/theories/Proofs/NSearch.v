(** The n-shortest-path search: its heap order, its growing table of partial paths, and what
    it has found when it stops. *)
From Coq Require Import List Arith NArith Bool Lia Permutation.
From Verif Require Import Base.Util Base.Semiring Base.Machine Model.VectorFst Model.Rational Model.FstPath Model.NShortest
  Proofs.VectorFacts Proofs.TrOpsFacts Proofs.OpFacts Proofs.RationalFacts Proofs.ShortestTree Proofs.NHeap Proofs.ConnectFacts Proofs.VectorProps Proofs.HistoryFacts.
Import ListNotations.
Local Open Scope K_scope.

Section Less.
  Context {K : SR} (L : sr_laws K) (Pp : path_plus K).
  Lemma nl_true (a b : K) : natural_less a b = true <-> le a b /\ a <> b.
  Proof. unfold natural_less, le. rewrite andb_true_iff, negb_true_iff, (keqb_true L), (keqb_false L). tauto. Qed.
  Lemma le_total (a b : K) : le a b \/ le b a.
  Proof. unfold le. destruct (Pp a b) as [H|H]; auto. right. rewrite (kplus_comm _ L). auto. Qed.
  Lemma nl_false (a b : K) : natural_less a b = false <-> le b a.
  Proof.
    destruct (natural_less a b) eqn:E.
    - apply nl_true in E as [E1 E2]. split; [discriminate|]. intros H. exfalso. apply E2. apply (le_antisym L); auto.
    - split; auto. intros _. destruct (le_total a b) as [H|H]; auto. destruct (keqb a b) eqn:Q.
      + apply (keqb_true L) in Q. subst. auto.
      + exfalso. apply (keqb_false L) in Q. assert (natural_less a b = true) by (apply nl_true; auto). congruence.
  Qed.
End Less.

Section S.
  Context {K K' : SR} (rb : K' -> K) (L : sr_laws K) (Pp : path_plus K) (Cm : commutative_times K).
  Context (I : vfst K') (dist : list K) (n : nat) (r0 : nat).

  (** A partial path: the state it has reached, the output state it continues to, what it
      reads, writes and weighs, and its number of transitions. *)
  Record node := ND { nd_st : option nat; nd_par : nat; nd_suf : fpath K; nd_len : nat }.
  Definition nd0 : node := ND None 0 (FP [] [] 0) 0.
  Definition root : node := ND (Some r0) 0 (FP [] [] 1) 0.
  Definition pr (x : node) : @pair K := (nd_st x, pwgt (nd_suf x)).
  Definition prio (x : node) : K := pweight dist (nd_st x) * pwgt (nd_suf x).
  Definition consr (i o : nat) (w : K) (p : fpath K) : fpath K := FP (lab i ++ pil p) (lab o ++ pol p) (w * pwgt p).
  Definition arc_child (i : nat) (x : node) (t : tr K') : node :=
    ND (Some (ns t)) i (consr (il t) (ol t) (rb (wgt t)) (nd_suf x)) (S (nd_len x)).
  Definition end_child (i : nat) (x : node) (w : K') : node := ND None i (consr O O (rb w) (nd_suf x)) (S (nd_len x)).
  Definition kids (i : nat) (x : node) (q : nat) : list (node * tr K) :=
    map (fun t => (arc_child i x t, Tr (il t) (ol t) (rb (wgt t)) i)) (trs_of I q) ++
    match fin_of I q with
    | Some w => if keqb (rb w) 0 then [] else [(end_child i x w, Tr O O (rb w) i)]
    | None => []
    end.

  (** The order of the heap. *)
  Definition ltn (x y : node) : bool :=
    match nd_st x, nd_st y with
    | None, Some _ => natural_less (prio y) (prio x) || keqb (prio x) (prio y)
    | Some _, None => natural_less (prio y) (prio x) && negb (keqb (prio x) (prio y))
    | _, _ => natural_less (prio y) (prio x)
    end.
  Lemma ltn_ge x y : ltn x y = false -> le (prio x) (prio y).
  Proof.
    unfold ltn. intros H.
    assert (N : natural_less (prio y) (prio x) = false \/ prio x = prio y).
    { destruct (nd_st x), (nd_st y); auto.
      - destruct (natural_less (prio y) (prio x)); auto. cbn in H. apply negb_false_iff, (keqb_true L) in H. auto.
      - apply orb_false_iff in H as [H _]. auto. }
    destruct N as [N|E]; [apply (nl_false L Pp); auto|]. rewrite E. apply (le_refl Pp).
  Qed.
  Lemma ltn_total x y : ltn x y = true -> ltn y x = false.
  Proof.
    unfold ltn. intros H. destruct (nd_st x), (nd_st y).
    - apply (nl_false L Pp). apply (nl_true L) in H as [H _]. auto.
    - apply andb_true_iff in H as [H1 H2]. apply (nl_true L) in H1 as [H1 H3]. apply orb_false_iff. split; [apply (nl_false L Pp); auto|].
      apply (keqb_false L). auto.
    - apply andb_false_iff. apply orb_true_iff in H as [H|H].
      + apply (nl_true L) in H as [H _]. left. apply (nl_false L Pp). auto.
      + apply (keqb_true L) in H. right. apply negb_false_iff. apply (keqb_true L). auto.
    - apply (nl_false L Pp). apply (nl_true L) in H as [H _]. auto.
  Qed.
  Lemma ltn_eq x y : le (prio x) (prio y) -> prio x <> prio y -> ltn x y = false.
  Proof.
    intros H N. assert (A : natural_less (prio y) (prio x) = false) by (apply (nl_false L Pp); auto).
    unfold ltn. rewrite A. apply (keqb_false L) in N. rewrite N. destruct (nd_st x), (nd_st y); auto.
  Qed.
  Lemma ltn_trans x y z : ltn x y = false -> ltn y z = false -> ltn x z = false.
  Proof.
    intros H1 H2. pose proof (ltn_ge _ _ H1) as G1. pose proof (ltn_ge _ _ H2) as G2. pose proof (le_trans L _ _ _ G1 G2) as G3.
    destruct (keqb (prio x) (prio z)) eqn:E.
    - apply (keqb_true L) in E. assert (E2 : prio x = prio y) by (apply (le_antisym L); auto; rewrite E; auto). unfold ltn in *. rewrite <- E, <- E2 in *.
      assert (Nx : natural_less (prio x) (prio x) = false) by (apply (nl_false L Pp), (le_refl Pp)).
      destruct (nd_st x), (nd_st y), (nd_st z); auto.
    - apply (keqb_false L) in E. apply ltn_eq; auto.
  Qed.

  Implicit Types (nodes : list node) (st : nst (K := K)).
  Definition nd nodes (i : nat) : node := nth i nodes nd0.
  Definition ltx nodes (x y : nat) : bool := ltn (nd nodes x) (nd nodes y).
  Definition dom nodes (x : nat) : Prop := (x < length nodes)%nat.

  Lemma compare_eq nodes x y : dom nodes x -> dom nodes y -> sp_compare (map pr nodes) dist x y = Ok (ltx nodes x y).
  Proof.
    unfold dom. intros Hx Hy. unfold sp_compare. rewrite !nth_error_map.
    rewrite (nth_error_nth' _ nd0 Hx), (nth_error_nth' _ nd0 Hy). reflexivity.
  Qed.
  Lemma ltx_trans nodes x y z : dom nodes x -> dom nodes y -> dom nodes z -> ge (ltx nodes) x y -> ge (ltx nodes) y z -> ge (ltx nodes) x z.
  Proof. intros _ _ _. unfold ge, ltx. apply ltn_trans. Qed.
  Lemma ltx_total nodes x y : dom nodes x -> dom nodes y -> ltx nodes x y = true -> ge (ltx nodes) y x.
  Proof. intros _ _. unfold ge, ltx. apply ltn_total. Qed.

  Lemma heap_ext nodes nodes' h : (forall i, (i < length nodes)%nat -> nd nodes' i = nd nodes i) -> Forall (dom nodes) h ->
    heap (ltx nodes) h -> heap (ltx nodes') h.
  Proof.
    intros E F H i Hi x y Hx Hy. pose proof (dom_nth _ _ _ _ F Hx) as Dx. pose proof (dom_nth _ _ _ _ F Hy) as Dy.
    specialize (H i Hi x y Hx Hy). unfold ge, ltx in *. rewrite !E by auto. auto.
  Qed.

  (** The data structures of the code agree with the table. *)
  Record shape st nodes : Prop := {
    s_pairs : n_pairs st = map pr nodes;
    s_num : num_states (n_fst st) = length nodes;
    s_start : vstart (n_fst st) = Some O;
    s_cnt : cnt (n_fst st);
    s_sound : fsound (n_fst st);
    s_dom : Forall (dom nodes) (n_heap st);
    s_heap : heap (ltx nodes) (n_heap st) }.

  Lemma nd_old nodes cs i : (i < length nodes)%nat -> nd (nodes ++ cs) i = nd nodes i.
  Proof. intros H. unfold nd. apply app_nth1. auto. Qed.
  Lemma nd_new nodes cs j : nd (nodes ++ cs) (length nodes + j) = nth j cs nd0.
  Proof. unfold nd. rewrite app_nth2 by lia. f_equal. lia. Qed.

  Lemma child_ok st nodes c t : shape st nodes ->
    exists st', n_child dist st (pr c) t = Ok st' /\ shape st' (nodes ++ [c]) /\ Permutation (length nodes :: n_heap st) (n_heap st') /\
      n_r st' = n_r st /\
      (forall q, trs_of (n_fst st') q = if Nat.eqb q (length nodes) then [t] else trs_of (n_fst st) q) /\
      (forall q, fin_of (n_fst st') q = fin_of (n_fst st) q).
  Proof.
    intros [Sp Sn Ss Sc So Sd Sh].
    assert (A7 : fsound (fst (add_state (n_fst st)))) by (rewrite add_state_eq; apply (fsound_add_states _ 1); auto). unfold n_child. destruct (add_state_eff (n_fst st)) as (E1 & E2 & E3 & E4 & E5 & E6 & E7 & E8).
    destruct (add_state (n_fst st)) as [g next]. cbn [fst snd] in *. subst next.
    destruct (add_tr_eff g (num_states (n_fst st)) t) as (g' & Eg & Fg & Tg & Ng); [lia|]. rewrite Eg. cbn [rbind].
    rewrite Sp, Sn. set (nodes' := nodes ++ [c]). replace (map pr nodes ++ [pr c]) with (map pr nodes') by (unfold nodes'; rewrite map_app; auto).
    assert (Ln : length nodes' = S (length nodes)) by (unfold nodes'; rewrite app_length; cbn; lia).
    assert (Old : forall i, (i < length nodes)%nat -> nd nodes' i = nd nodes i) by (intros i Hi; apply nd_old; auto).
    assert (Dm : Forall (dom nodes') (n_heap st)) by (eapply Forall_impl; [|exact Sd]; unfold dom; intros; lia).
    destruct (hpush_ok (sp_compare (map pr nodes') dist) (dom nodes') (ltx nodes') (compare_eq nodes') (ltx_trans nodes') (ltx_total nodes') (n_heap st) (length nodes))
      as (h & Eh & Hh & Ph); auto; [unfold dom; lia|eapply heap_ext; eauto|].
    rewrite Eh. cbn [rbind]. eexists. split; [reflexivity|]. cbn [n_fst n_pairs n_heap n_r]. split; [split|]; cbn [n_fst n_pairs n_heap n_r]; auto.
    - rewrite (eff_n _ _ Fg), E2. lia.
    - destruct Fg as (_ & Fs & _). rewrite Fs, E3. auto.
    - destruct Fg as (_ & _ & _ & _ & Fc). apply Fc. apply E6. auto.
    - apply (fsound_add_tr (sr_lsr _ L) _ _ _ _ A7 Eg).
    - eapply dom_perm; [|exact Ph]. constructor; auto. unfold dom. lia.
    - split; auto. split; auto. split.
      + intros q. rewrite Tg, Sn. destruct (Nat.eqb_spec q (length nodes)) as [->|]; auto. rewrite E7, trs_of_beyond by lia. auto.
      + intros q. rewrite Ng. auto.
  Qed.

  Lemma grow_ok : forall cts st nodes, shape st nodes ->
    exists st', rfold (fun st (ct : node * tr K) => n_child dist st (pr (fst ct)) (snd ct)) cts st = Ok st' /\
      shape st' (nodes ++ map fst cts) /\ Permutation (seq (length nodes) (length cts) ++ n_heap st) (n_heap st') /\
      n_r st' = n_r st /\
      (forall q, (q < length nodes)%nat -> trs_of (n_fst st') q = trs_of (n_fst st) q) /\
      (forall j ct, nth_error cts j = Some ct -> trs_of (n_fst st') (length nodes + j) = [snd ct]) /\
      (forall q, fin_of (n_fst st') q = fin_of (n_fst st) q).
  Proof.
    induction cts as [|ct cts IH]; intros st nodes Sh.
    - exists st. cbn [map seq length app]. rewrite app_nil_r. split; auto. split; auto. split; auto. split; auto. split; auto. split; auto.
      intros j ct. rewrite nth_error_nil'. discriminate.
    - rewrite rfold_cons. destruct (child_ok st nodes (fst ct) (snd ct) Sh) as (st1 & E1 & Sh1 & P1 & R1 & T1 & F1). rewrite E1. cbn [rbind].
      destruct (IH st1 _ Sh1) as (st' & E & S' & P & R & T & TN & F). exists st'. split; auto.
      rewrite app_length in *. cbn [length map] in *. replace (length nodes + 1)%nat with (S (length nodes)) in * by lia. rewrite <- app_assoc in S'. split; auto. split; [|split; [congruence|split; [|split]]].
      + rewrite <- P. cbn [seq app]. rewrite <- P1. rewrite Permutation_middle. auto.
      + intros q Hq. rewrite T by lia. rewrite T1. destruct (Nat.eqb_spec q (length nodes)); [lia|auto].
      + intros j c Hj. destruct j as [|j].
        * injection Hj as <-. rewrite Nat.add_0_r, T by lia. rewrite T1, Nat.eqb_refl. auto.
        * rewrite <- (TN j c Hj). f_equal. lia.
      + intros q. rewrite F. auto.
  Qed.

  Lemma rfold_map {A B C} (g : B -> C -> res B) (h : A -> C) l b : rfold g (map h l) b = rfold (fun b a => g b (h a)) l b.
  Proof. revert b. induction l as [|a l IH]; intros b; cbn [map]; rewrite ?rfold_cons; auto. destruct (g b (h a)); cbn [rbind]; auto. Qed.
  Lemma rfold_one {A B} (g : B -> A -> res B) a b : rfold g [a] b = g b a.
  Proof. rewrite rfold_cons. destruct (g b a); auto. Qed.
  Lemma rfold_ext {A B} (g h : B -> A -> res B) l b : (forall b a, g b a = h b a) -> rfold g l b = rfold h l b.
  Proof. intros E. revert b. induction l as [|a l IH]; intros b; rewrite ?rfold_cons; auto. rewrite E. destruct (h b a); cbn [rbind]; auto. Qed.

  Lemma expand_eq i x q st : (q < num_states I)%nat ->
    n_expand rb I dist i q (pwgt (nd_suf x)) st = rfold (fun st (ct : node * tr K) => n_child dist st (pr (fst ct)) (snd ct)) (kids i x q) st.
  Proof.
    intros Hq. unfold n_expand, kids. apply Nat.ltb_lt in Hq. rewrite Hq, rfold_app, rfold_map.
    rewrite (rfold_ext _ (fun b (a : tr K') => n_child dist b (pr (fst (arc_child i x a, Tr (il a) (ol a) (rb (wgt a)) i))) (snd (arc_child i x a, Tr (il a) (ol a) (rb (wgt a)) i)))).
    - destruct (rfold _ _ st) as [st1| |]; cbn [rbind]; auto. destruct (fin_of I q) as [w|]; auto. destruct (keqb (rb w) 0); auto.
      rewrite rfold_one. cbn [fst snd]. unfold pr, end_child. cbn [nd_st nd_suf consr pwgt]. rewrite Cm. auto.
    - intros b t. cbn [fst snd]. unfold pr, arc_child. cbn [nd_st nd_suf consr pwgt]. rewrite Cm. auto.
  Qed.

  (** Every way to complete a partial path with [k] more transitions. *)
  Fixpoint gext (k : nat) (s : option nat) (suf : fpath K) : list (fpath K) :=
    match s, k with
    | None, O => [suf]
    | None, S _ => []
    | Some _, O => []
    | Some q, S k' =>
        flat_map (fun t => gext k' (Some (ns t)) (consr (il t) (ol t) (rb (wgt t)) suf)) (trs_of I q) ++
        match fin_of I q with
        | Some w => if keqb (rb w) 0 then [] else gext k' None (consr O O (rb w) suf)
        | None => []
        end
    end.
  Definition contrib (k : nat) (x : node) : list (fpath K) :=
    if Nat.leb (nd_len x) k then gext (k - nd_len x) (nd_st x) (nd_suf x) else [].

  Lemma flat_map_all_nil {A B} (h : A -> list B) l : (forall a, In a l -> h a = []) -> flat_map h l = [].
  Proof. induction l as [|a l IH]; intros H; cbn; auto. rewrite H by (left; auto). apply IH. intros; apply H; right; auto. Qed.
  Lemma flat_map_map' {A B C} (h : B -> list C) (g : A -> B) l : flat_map h (map g l) = flat_map (fun a => h (g a)) l.
  Proof. induction l; cbn; congruence. Qed.
  Lemma flat_map_ext_in {A B} (h h' : A -> list B) l : (forall a, In a l -> h a = h' a) -> flat_map h l = flat_map h' l.
  Proof. induction l as [|a l IH]; intros H; cbn; auto. rewrite H by (left; auto). f_equal. apply IH. intros; apply H; right; auto. Qed.

  Lemma contrib_kids k i x q : nd_st x = Some q -> contrib k x = flat_map (contrib k) (map fst (kids i x q)).
  Proof.
    intros E. unfold kids. rewrite map_app, flat_map_app, map_map, flat_map_map'. cbn [fst]. unfold contrib at 1. rewrite E.
    destruct (Nat.leb_spec (nd_len x) k) as [H|H].
    - destruct (k - nd_len x)%nat as [|k'] eqn:Ek; cbn [gext].
      + symmetry. rewrite flat_map_all_nil.
        * destruct (fin_of I q) as [w|]; auto. destruct (keqb (rb w) 0); auto. cbn [map flat_map fst]. unfold contrib. cbn [nd_len end_child].
          replace (S (nd_len x) <=? k) with false by (symmetry; apply Nat.leb_gt; lia). auto.
        * intros t _. unfold contrib. cbn [nd_len arc_child]. replace (S (nd_len x) <=? k) with false by (symmetry; apply Nat.leb_gt; lia). auto.
      + f_equal.
        * apply flat_map_ext_in. intros t _. unfold contrib. cbn [nd_len arc_child nd_st nd_suf].
          replace (S (nd_len x) <=? k) with true by (symmetry; apply Nat.leb_le; lia). f_equal. lia.
        * destruct (fin_of I q) as [w|]; auto. destruct (keqb (rb w) 0); auto. cbn [map flat_map fst]. rewrite app_nil_r. unfold contrib. cbn [nd_len end_child nd_st nd_suf].
          replace (S (nd_len x) <=? k) with true by (symmetry; apply Nat.leb_le; lia). f_equal. lia.
    - symmetry. rewrite flat_map_all_nil.
      + destruct (fin_of I q) as [w|]; auto. destruct (keqb (rb w) 0); auto. cbn [map flat_map fst]. unfold contrib. cbn [nd_len end_child].
        replace (S (nd_len x) <=? k) with false by (symmetry; apply Nat.leb_gt; lia). auto.
      + intros t _. unfold contrib. cbn [nd_len arc_child]. replace (S (nd_len x) <=? k) with false by (symmetry; apply Nat.leb_gt; lia). auto.
  Qed.
End S.
