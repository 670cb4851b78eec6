(** C45: minimization of deterministic unweighted acceptors. *)
From Coq Require Import List Arith NArith ZArith Bool Lia Permutation Sorted.
From Verif Require Import Base.Util Base.Semiring Base.Machine Base.PropSpec Base.Instances Base.TropZ
  Model.Props Model.VectorFst Model.TrOps Model.AlgoProps Model.History Model.Visitors Model.Relabel Model.Rational Model.ShortestPath Model.Weights Model.Partition Model.Reweight Model.ComputeProps Model.Minimize
  Proofs.PropsFacts Proofs.VectorFacts Proofs.DelStates Proofs.VectorProps Proofs.TrOpsFacts Proofs.HistoryFacts Proofs.ClosedB
  Proofs.OpFacts Proofs.ConnectFacts Proofs.RationalFacts Proofs.ReverseDist Proofs.MinFacts Props.C38 Props.C43.
Import ListNotations.
Local Open Scope K_scope.

(** ** Specification *)

(** The comparison of weights tells [0] from [1], in whichever order. *)
Definition tells_apart {K : SR} (wlt : K -> K -> bool) : Prop :=
  wlt kzero kzero = false /\ wlt kone kone = false /\ wlt kone kzero = negb (wlt kzero kone).
(** A machine with [n] states. *)
Definition has_states {K : SR} (m : machine K) (n : nat) : Prop :=
  (forall s t, In t (mtrs m s) -> (ns t < n)%nat) /\ (forall s, mstart m = Some s -> (s < n)%nat).
(** The transitions of every state are sorted by label. *)
Definition label_sorted {K : SR} (f : vfst K) : Prop := forall s, StronglySorted le (map il (trs_of f s)).

Section C45.
  Context {K K' : SR} (L : lsr_laws K) (L' : psr_laws K') (rv : K -> K') (wlt : K -> K -> bool) (orc : nat -> nat).
  Context (W : tells_apart wlt) (H01 : (kone : K) <> kzero).
  Implicit Types (f g h : vfst K).

  Lemma choose_injective (R : nat -> nat -> Prop) (k n : nat) : (forall q, (q < k)%nat -> exists r, (r < n)%nat /\ R q r) ->
    (forall q q' r, (q < k)%nat -> (q' < k)%nat -> R q r -> R q' r -> q = q') -> (k <= n)%nat.
  Proof.
    intros H1 H2.
    assert (X : forall j, (j <= k)%nat -> exists l, length l = j /\ NoDup l /\ forall r, In r l -> (r < n)%nat /\ exists q, (q < j)%nat /\ R q r).
    { induction j as [|j IH]; intros Hj; [exists []; split; auto; split; [constructor|intros r []]|].
      destruct (IH ltac:(lia)) as (l & A & B & C). destruct (H1 j ltac:(lia)) as (r & Hr & Rr). exists (r :: l). split; [simpl; lia|]. split.
      - constructor; auto. intros Hin. destruct (C r Hin) as (_ & q & Hq & Rq). assert (q = j) by (apply (H2 q j r); auto; lia). lia.
      - intros x [<-|Hx]; [split; auto; exists j; auto|]. destruct (C x Hx) as (Hx' & q & Hq & Rq). split; auto. exists q. split; auto. }
    destruct (X k (le_n k)) as (l & A & B & C). rewrite <- A, <- (seq_length n 0). apply NoDup_incl_length; auto. intros r Hr.
    apply in_seq. destruct (C r Hr). lia.
  Qed.

  (** The weight of a word is the weight of its one path. *)
  Lemma run_word (m : machine K) : deterministic m -> forall u v s, spell m s (u ++ v) <> 0 ->
    exists a r, (forall w, spell m s (u ++ w) = a * spell m r w) /\ Machine.reach m s r.
  Proof.
    intros D. induction u as [|x u IH]; intros v s H.
    - exists 1, s. split; [intros w; symmetry; apply (ktimes_1_l _ L)|constructor].
    - destruct (in_dec Nat.eq_dec x (map il (mtrs m s))) as [Hx|Hx]; [|exfalso; apply H; cbn [app]; apply (spell_none L); auto].
      apply in_map_iff in Hx as (t & <- & Ht). cbn [app] in H. rewrite (spell_step L) in H by auto.
      destruct (IH v (ns t)) as (a & r & Ha & Hr). { intros Z. apply H. rewrite Z. apply (ktimes_0_r _ L). }
      exists (wgt t * a), r. split; [|econstructor; eauto]. intros w. cbn [app]. rewrite (spell_step L) by auto. rewrite Ha. apply (ktimes_assoc _ L).
  Qed.
  Lemma reach_word (m : machine K) s q : deterministic m -> plain_acceptor m -> Machine.reach m s q ->
    exists u, forall w, spell m s (u ++ w) = spell m q w.
  Proof.
    intros D [P _] R. induction R as [s|s t q Ht R IH]; [exists []; auto|]. destruct IH as (u & Hu). exists (il t :: u). intros w.
    cbn [app]. rewrite (spell_step L) by auto. rewrite Hu, (proj2 (P _ _ Ht)). apply (ktimes_1_l _ L).
  Qed.

  (** What a caller gets. *)
  Definition minimal_of f h : Prop :=
    closed h /\ cnt h /\ deterministic (mach h) /\ plain_acceptor (mach h) /\
    (forall b, has (vprops h) b = true -> holds b (num_states h) (mach h)) /\
    (forall s, (s < num_states h)%nat -> accessible (mach h) s /\ coaccessible (mach h) s) /\
    (forall u, spelled (mach h) u = spelled (mach f) u) /\
    (forall n x y, rel (mach h) n x y = rel (mach f) n x y) /\
    visymt h = visymt f /\ vosymt h = vosymt f /\ (num_states h <= num_states f)%nat.

  Lemma no_smaller h : closed h -> deterministic (mach h) -> plain_acceptor (mach h) ->
    (forall s, (s < num_states h)%nat -> accessible (mach h) s /\ coaccessible (mach h) s) ->
    (forall s t, (s < num_states h)%nat -> (t < num_states h)%nat -> s <> t -> told h s t) ->
    (forall a b : K, a * b = b * a) ->
    forall m n, has_states m n -> deterministic m -> (forall u, spelled m u = spelled (mach h) u) -> (num_states h <= n)%nat.
  Proof.
    intros C D P T A Comm m n [M1 M2] Dm Em.
    destruct (mstart m) as [r0|] eqn:E0.
    2: { destruct (num_states h) eqn:En; [lia|]. exfalso. destruct (T O ltac:(lia)) as [(s1 & E1 & R1) Co].
         destruct (reach_word (mach h) s1 O D P R1) as (u & Hu). destruct (spell_some L (mach h) O D P Co) as (w & Ew).
         specialize (Em (u ++ w)). unfold spelled in Em. rewrite E0, E1, Hu, Ew in Em. congruence. }
    apply (choose_injective (fun q r => exists s0 u a, mstart (mach h) = Some s0 /\ (forall w, spell (mach h) s0 (u ++ w) = spell (mach h) q w) /\
      (forall w, spell m r0 (u ++ w) = a * spell m r w))).
    - intros q Hq. destruct (T q Hq) as [(s1 & E1 & R1) Co]. destruct (reach_word (mach h) s1 q D P R1) as (u & Hu).
      destruct (spell_some L (mach h) q D P Co) as (v & Ev).
      destruct (run_word m Dm u v r0) as (a & r & Ha & Hr).
      { specialize (Em (u ++ v)). unfold spelled in Em. rewrite E0, E1, Hu, Ev in Em. rewrite Em. auto. }
      exists r. split; [|exists s1, u, a; auto].
      assert (G : forall x y, Machine.reach m x y -> (x < n)%nat -> (y < n)%nat) by (induction 1; intros; eauto).
      apply (G r0 r Hr). auto.
    - intros q q' r Hq Hq' (s1 & u & a & E1 & Hu & Ha) (s2 & u' & a' & E2 & Hu' & Ha'). assert (s2 = s1) by congruence. subst s2.
      destruct (Nat.eq_dec q q') as [|Ne]; auto. exfalso. destruct (A q q' Hq Hq' Ne) as (w & Hw).
      assert (V : forall x, spell (mach h) q x = a * spell m r x).
      { intros x. rewrite <- Hu, <- Ha. specialize (Em (u ++ x)). unfold spelled in Em. rewrite E0, E1 in Em. auto. }
      assert (V' : forall x, spell (mach h) q' x = a' * spell m r x).
      { intros x. rewrite <- Hu', <- Ha'. specialize (Em (u' ++ x)). unfold spelled in Em. rewrite E0, E1 in Em. auto. }
      (* one of the two words has weight 1 and the other 0 *)
      assert (G : forall b b' y : K, b * y = 1 -> b' * y = 0 -> forall z : K, b' * z = 1 -> False).
      { intros b b' y B1 B2 z B3. apply H01. rewrite <- B3. replace b' with (b' * y * b); [rewrite B2, !(ktimes_0_l _ L); auto|].
        rewrite <- (ktimes_assoc _ L), (Comm y b), B1. apply (ktimes_1_r _ L). }
      destruct (T q Hq) as [_ Cq], (T q' Hq') as [_ Cq'].
      destruct (spell_some L _ _ D P Cq) as (z & Ez), (spell_some L _ _ D P Cq') as (z' & Ez').
      rewrite V in Ez. rewrite V' in Ez'.
      destruct (spell_bool L (mach h) D P w q) as [X|X], (spell_bool L (mach h) D P w q') as [Y|Y]; try congruence; rewrite V in X; rewrite V' in Y.
      + exact (G a a' _ X Y _ Ez').
      + exact (G a' a _ Y X _ Ez).
  Qed.

  (** The algorithm, with what distinguishes the states of the result. *)
  Lemma acceptor_minimize_told f allow : closed f -> cnt f -> vstart f <> None ->
    (forall b, has (vprops f) b = true -> holds b (num_states f) (mach f)) ->
    plain_acceptor (mach f) -> deterministic (mach f) ->
    exists h, acceptor_minimize rv wlt orc f allow = Ok h /\ minimal_of f h /\
      ((allow = true /\ (forall s, ~ on_cycle (mach f) s)) \/ label_sorted f ->
       forall s t, (s < num_states h)%nat -> (t < num_states h)%nat -> s <> t -> told h s t).
  Proof.
    intros C N St So P D. destruct (vstart f) as [s0|] eqn:Es; [clear St|congruence].
    assert (Z : no_zero_final f) by (intros s w Hw ->; apply (proj2 P s kzero) in Hw; auto).
    destruct (C43_compute_and_update L f (mask [ACCEPTOR; UNWEIGHTED; ACYCLIC]) C) as (f1 & q & Ef & E1 & E2 & E3 & E4 & E5 & Q);
      [congruence|auto|auto|]. unfold acceptor_minimize. rewrite Ef. cbn [rbind fst snd].
    assert (QA : has q ACCEPTOR = true).
    { apply Q. split; [reflexivity|]. intros s t Ht. symmetry. apply (proj1 P s t Ht). }
    assert (QU : has q UNWEIGHTED = true).
    { apply Q. split; [reflexivity|]. split; [intros s t Ht; right; apply (proj1 P s t Ht)|intros s w Hw; right; apply (proj2 P s w Hw)]. }
    rewrite QA, QU. cbn [andb].
    assert (M1 : mach f1 = mach f) by (unfold mach, trs_of, fin_of; rewrite E1, E2; auto).
    assert (T1 : forall s, trs_of f1 s = trs_of f s) by (intros s; unfold trs_of; rewrite E1; auto).
    assert (N1 : num_states f1 = num_states f) by (unfold num_states; rewrite E1; auto).
    assert (C1 : closed f1). { split; [intros s t; rewrite T1, N1; apply C|intros s; rewrite N1, E2; apply C]. }
    assert (Cn : cnt f1) by (unfold cnt; rewrite E1; auto).
    assert (S1 : fsound f1) by (intros b Hb; rewrite M1, N1; auto).
    destruct (connect_ready L f1 s0 C1 Cn S1 ltac:(congruence) ltac:(rewrite M1; auto) ltac:(rewrite M1; auto)) as
      (g & -> & Cg & Ng & Sg & Pg & Dg & Spg & Rg & Y1 & Y2 & Szg & Srt & Cyc & Alt). cbn [rbind].
    rewrite M1 in Spg, Rg, Cyc.
    destruct Alt as [[Hz Hs]|(k & R)].
    - rewrite Hz. cbn [Nat.eqb]. exists g. split; auto. split.
      + split; auto. split; auto. split; auto. split; auto. split; auto. split; [intros s Hs'; rewrite Hz in Hs'; lia|]. split; auto. split; auto.
        split; [congruence|]. split; [congruence|]. lia.
      + intros. lia.
    - assert (Hk : (k < num_states g)%nat) by (apply Cg; apply R). destruct (Nat.eqb_spec (num_states g) 0) as [X|_]; [lia|].
      destruct W as (W0 & W1 & W01).
      assert (Fin : forall h (sep : Prop), minimized g h sep -> minimal_of f h /\
        (sep -> forall s t, (s < num_states h)%nat -> (t < num_states h)%nat -> s <> t -> told h s t)).
      { intros h sep [Z1 Z2 Z3 Z4 Z5 Z6 Z7 Z8 Z9 Z10 Z11]. split.
        - split; auto. split; auto. split; auto. split; auto. split; auto. split; auto. split; [intros u; rewrite Z7; auto|]. split; [intros n x y; rewrite Z8; auto|].
          destruct Z9 as [-> ->]. split; [congruence|]. split; [congruence|]. lia.
        - exact Z11. }
      destruct (allow && has q ACYCLIC) eqn:Ea.
      + apply andb_true_iff in Ea as [-> Ea]. apply Q in Ea as [_ Ea]. cbn [holds] in Ea.
        destruct (acyclic_case L wlt W0 W1 W01 H01 g k R (Cyc Ea)) as (h & Eh & Mh). exists h. split; [exact Eh|].
        destruct (Fin h True Mh) as [F1 F2]. split; [exact F1|]. intros _. exact (F2 I).
      + destruct (cyclic_case L L' rv orc H01 g k R) as (h & Eh & Mh). exists h. split; [exact Eh|].
        destruct (Fin h _ Mh) as [F1 F2]. split; auto. intros Hc. apply F2. apply Srt. intros s. rewrite T1.
        destruct Hc as [[-> Hc]|Hc]; [|apply Hc]. exfalso. cbn [andb] in Ea.
        assert (X : has q ACYCLIC = true) by (apply Q; split; [reflexivity|exact Hc]). congruence.
  Qed.


  (** A deterministic unweighted acceptor is minimized: same language, deterministic, trim, bits and
      tables right.  No deterministic machine over the same weights has fewer states when the
      specialised acyclic algorithm is used, or when the transitions were sorted. *)
  Theorem C45_acceptor_minimize f allow : closed f -> cnt f -> vstart f <> None ->
    (forall b, has (vprops f) b = true -> holds b (num_states f) (mach f)) ->
    plain_acceptor (mach f) -> deterministic (mach f) ->
    exists h, acceptor_minimize rv wlt orc f allow = Ok h /\ minimal_of f h /\
      ((allow = true /\ (forall s, ~ on_cycle (mach f) s)) \/ label_sorted f -> (forall a b : K, a * b = b * a) ->
       forall m n, has_states m n -> deterministic m -> (forall u, spelled m u = spelled (mach f) u) -> (num_states h <= n)%nat).
  Proof.
    intros C N St So P D. destruct (acceptor_minimize_told f allow C N St So P D) as (h & E & M & T). exists h. split; auto. split; auto.
    intros Hc Comm m n Hm Dm Em. destruct M as (Z1 & Z2 & Z3 & Z4 & _ & Z6 & Z7 & _).
    apply (no_smaller h Z1 Z3 Z4 Z6 (T Hc) Comm m n Hm Dm). intros u. rewrite Z7. auto.
  Qed.

  (** The entry point: for such a machine [minimize] is that algorithm, with the acyclic variant allowed. *)
  Theorem C45_minimize divide quant idem pathp rightp rb nondet fuel f : closed f -> cnt f -> vstart f <> None ->
    (forall b, has (vprops f) b = true -> holds b (num_states f) (mach f)) ->
    plain_acceptor (mach f) -> deterministic (mach f) ->
    exists h, minimize_acceptor rv wlt orc divide quant idem pathp rightp rb nondet fuel f = Some (Ok h) /\ minimal_of f h /\
      ((forall s, ~ on_cycle (mach f) s) \/ label_sorted f -> (forall a b : K, a * b = b * a) ->
       forall m n, has_states m n -> deterministic m -> (forall u, spelled m u = spelled (mach f) u) -> (num_states h <= n)%nat).
  Proof.
    intros C N St So P D.
    assert (Z : no_zero_final f) by (intros s w Hw ->; apply (proj2 P s kzero) in Hw; auto).
    destruct (C43_compute_and_update L f (mask [ACCEPTOR; I_DETERMINISTIC; WEIGHTED; UNWEIGHTED]) C) as (f1 & q & Ef & E1 & E2 & E3 & E4 & E5 & Q); auto.
    unfold minimize_acceptor. rewrite Ef.
    assert (QA : has q ACCEPTOR = true).
    { apply Q. split; [reflexivity|]. intros s t Ht. symmetry. apply (proj1 P s t Ht). }
    assert (QD : has q I_DETERMINISTIC = true) by (apply Q; split; [reflexivity|exact D]).
    assert (QW : has q WEIGHTED = false).
    { destruct (has q WEIGHTED) eqn:X; auto. exfalso. apply Q in X as [_ X]. cbn [holds] in X.
      destruct X as [(s & t & Ht & Hp)|(s & w & Hw & Hp)]; apply Hp; right; [apply (proj1 P s t Ht)|apply (proj2 P s w Hw)]. }
    rewrite QA, QD, QW. cbn [negb andb].
    assert (M1 : mach f1 = mach f) by (unfold mach, trs_of, fin_of; rewrite E1, E2; auto).
    assert (T1 : forall s, trs_of f1 s = trs_of f s) by (intros s; unfold trs_of; rewrite E1; auto).
    assert (N1 : num_states f1 = num_states f) by (unfold num_states; rewrite E1; auto).
    destruct (C45_acceptor_minimize f1 true) as (h & Eh & Mh & Lh).
    - split; [intros s t; rewrite T1, N1; apply C|intros s; rewrite N1, E2; apply C].
    - unfold cnt; rewrite E1; auto.
    - congruence.
    - intros b Hb; rewrite M1, N1; auto.
    - rewrite M1; auto.
    - rewrite M1; auto.
    - exists h. rewrite Eh. split; auto. split.
      + unfold minimal_of in *. rewrite M1, N1, E3, E4 in Mh. auto.
      + rewrite M1 in Lh. intros Hc. apply Lh. destruct Hc as [Hc|Hc]; [left; auto|right; intros s; rewrite T1; apply Hc].
  Qed.
End C45.

(** ** Concrete cases *)
Definition c45_wlt (a b : boolSR) : bool := negb a && b.
Definition c45_div (a b : boolSR) (_ : divide_type) : res boolSR := Ok a.
Definition c45_min (nondet : bool) (f : vfst boolSR) : option (res (vfst boolSR)) :=
  minimize_acceptor (K' := boolSR) (fun w => w) c45_wlt (fun _ => O) c45_div (fun w => w) true true true (fun w => w) nondet 10 f.
Definition c45_get (o : option (res (vfst boolSR))) : vfst boolSR := match o with Some (Ok f) => f | _ => vnew end.
Definition c45_run (l : list (op boolSR)) : vfst boolSR := match run vnew l with Ok f => f | _ => vnew end.
Definition c45_t (a q : nat) : tr boolSR := Tr a a true q.

(** A cyclic acceptor with two states that can be merged, and a state that leads nowhere. *)
Definition c45_calls : list (op boolSR) :=
  [OAddStates 5; OSetStart 0; OAddTr 0 (c45_t 1 1); OAddTr 0 (c45_t 2 2); OAddTr 1 (c45_t 1 3); OAddTr 2 (c45_t 1 3); OAddTr 3 (c45_t 2 0); OAddTr 3 (c45_t 3 4);
   OSetFinal 3 true].
Example C45_witness : let f := c45_run c45_calls in
  closed f /\ vstart f <> None /\ deterministic (mach f) /\ plain_acceptor (mach f) /\ label_sorted f /\
  let h := c45_get (c45_min false f) in
  num_states h = 3%nat /\ spelled (mach h) [2; 1; 2; 1; 1] = true /\ spelled (mach f) [2; 1; 2; 1; 1] = true /\ spelled (mach h) [2; 2] = false.
Proof.
  cbv zeta. split; [apply closedb_ok; vm_compute; reflexivity|]. split; [vm_compute; discriminate|].
  split; [intros [|[|[|[|[|[|s]]]]]]; vm_compute; repeat constructor; simpl; intuition discriminate|].
  split; [split; intros [|[|[|[|[|[|s]]]]]]; vm_compute; intuition (subst; auto; try discriminate; try congruence)|].
  split; [intros [|[|[|[|[|[|s]]]]]]; vm_compute; repeat constructor|].
  vm_compute. repeat split.
Qed.
(** The acyclic algorithm. *)
Definition c45_acyclic : list (op boolSR) :=
  [OAddStates 6; OSetStart 0; OAddTr 0 (c45_t 2 1); OAddTr 0 (c45_t 1 2); OAddTr 1 (c45_t 2 3); OAddTr 1 (c45_t 1 4); OAddTr 2 (c45_t 1 4); OAddTr 2 (c45_t 2 3);
   OAddTr 3 (c45_t 1 5); OAddTr 4 (c45_t 1 5); OSetFinal 5 true; OSetFinal 3 true].
Example C45_acyclic_witness : let f := c45_run c45_acyclic in
  closed f /\ has (vprops (c45_get (Some (r <-- compute_and_update_properties f (mask [ACYCLIC]) ;; Ok (fst r))))) ACYCLIC = true /\
  let h := c45_get (c45_min false f) in num_states h = 5%nat /\ spelled (mach h) [1; 2; 1] = true.
Proof. cbv zeta. split; [apply closedb_ok; vm_compute; reflexivity|]. vm_compute. repeat split. Qed.

(** A nondeterministic acceptor over an idempotent semiring, as the documentation of [minimize]
    allows: a word is accepted afterwards that was not before. *)
Definition c45_nondet : list (op boolSR) :=
  [OAddStates 8; OSetStart 0; OAddTr 0 (c45_t 3 1); OAddTr 0 (c45_t 4 2); OAddTr 0 (c45_t 5 7);
   OAddTr 1 (c45_t 1 5); OAddTr 1 (c45_t 1 6); OAddTr 2 (c45_t 1 5); OSetFinal 3 true; OAddTr 4 (c45_t 6 3);
   OAddTr 5 (c45_t 2 3); OAddTr 6 (c45_t 2 4); OAddTr 7 (c45_t 2 4)].
Theorem C45_nondeterministic_refuted : exists f h, run vnew c45_nondet = Ok f /\ closed f /\ plain_acceptor (mach f) /\ label_sorted f /\
  c45_min true f = Some (Ok h) /\ spelled (mach f) [4; 1; 2; 6] = false /\ spelled (mach h) [4; 1; 2; 6] = true.
Proof.
  exists (c45_run c45_nondet), (c45_get (c45_min true (c45_run c45_nondet))).
  split; [vm_compute; reflexivity|]. split; [apply closedb_ok; vm_compute; reflexivity|].
  split; [split; intros [|[|[|[|[|[|[|[|[|s]]]]]]]]]; vm_compute; intuition (subst; auto; try discriminate; try congruence)|].
  split; [intros [|[|[|[|[|[|[|[|[|s]]]]]]]]]; vm_compute; repeat constructor|].
  split; [vm_compute; reflexivity|]. split; vm_compute; reflexivity.
Qed.

(** A deterministic cyclic acceptor whose transitions are not sorted: two equivalent states stay apart. *)
Definition c45_unsorted : list (op boolSR) :=
  [OAddStates 3; OSetStart 0; OAddTr 0 (c45_t 1 1); OAddTr 0 (c45_t 2 0); OAddTr 1 (c45_t 2 1); OAddTr 1 (c45_t 1 0); OSetFinal 0 true; OSetFinal 1 true].
Definition c45_one : machine boolSR := Mach (Some O) (fun s => match s with O => [c45_t 1 0; c45_t 2 0] | _ => [] end) (fun s => match s with O => Some true | _ => None end).
Theorem C45_unsorted_refuted : exists f h, run vnew c45_unsorted = Ok f /\ closed f /\ plain_acceptor (mach f) /\ deterministic (mach f) /\
  c45_min false f = Some (Ok h) /\ num_states h = 2%nat /\ has_states c45_one 1 /\ deterministic c45_one /\
  forall u, spelled c45_one u = spelled (mach f) u.
Proof.
  exists (c45_run c45_unsorted), (c45_get (c45_min false (c45_run c45_unsorted))).
  split; [vm_compute; reflexivity|]. split; [apply closedb_ok; vm_compute; reflexivity|].
  split; [split; intros [|[|[|[|s]]]]; vm_compute; intuition (subst; auto; try discriminate; try congruence)|].
  split; [intros [|[|[|[|s]]]]; vm_compute; repeat constructor; simpl; intuition discriminate|].
  split; [vm_compute; reflexivity|]. split; [vm_compute; reflexivity|].
  split; [split; [intros [|s] t; vm_compute; intuition (subst; auto)|intros s; vm_compute; intros [= <-]; auto]|].
  split; [intros [|s]; vm_compute; repeat constructor; simpl; intuition discriminate|].
  assert (F0 : trs_of (c45_run c45_unsorted) 0 = [c45_t 1 1; c45_t 2 0]) by reflexivity.
  assert (F1 : trs_of (c45_run c45_unsorted) 1 = [c45_t 2 1; c45_t 1 0]) by reflexivity.
  assert (G0 : fin_of (c45_run c45_unsorted) 0 = Some (true : boolSR)) by reflexivity.
  assert (G1 : fin_of (c45_run c45_unsorted) 1 = Some (true : boolSR)) by reflexivity.
  assert (St : vstart (c45_run c45_unsorted) = Some O) by reflexivity.
  set (f := c45_run c45_unsorted) in *. clearbody f.
  assert (X : forall u, spell c45_one 0 u = spell (mach f) 0 u /\ spell c45_one 0 u = spell (mach f) 1 u).
  { induction u as [|a u [IH0 IH1]]; cbn [spell c45_one mtrs mfin mach]; [rewrite G0, G1; auto|]. rewrite F0, F1. unfold c45_t. cbn [filter il].
    destruct (Nat.eqb_spec 1 a) as [<-|Na].
    - cbn [Nat.eqb map ksum wgt ns]. rewrite <- IH0, <- IH1. auto.
    - destruct (Nat.eqb 2 a); cbn [map ksum wgt ns]; rewrite <- ?IH0, <- ?IH1; auto. }
  intros u. unfold spelled. cbn [mach mstart c45_one]. rewrite St. apply X.
Qed.

(** Transitions of weight [0] count as unweighted, and are confused with those of weight [1]. *)
Definition c45_zero : list (op boolSR) :=
  [OAddStates 4; OSetStart 0; OAddTr 0 (c45_t 3 1); OAddTr 0 (c45_t 4 2); OAddTr 1 (c45_t 1 3); OAddTr 2 (Tr 1 1 false 3); OAddTr 3 (c45_t 2 0); OSetFinal 3 true].
Theorem C45_zero_weight_refuted : exists f h, run vnew c45_zero = Ok f /\ closed f /\ is_acceptor (mach f) /\ deterministic (mach f) /\ label_sorted f /\
  c45_min false f = Some (Ok h) /\ spelled (mach f) [4; 1] = false /\ spelled (mach h) [4; 1] = true.
Proof.
  exists (c45_run c45_zero), (c45_get (c45_min false (c45_run c45_zero))).
  split; [vm_compute; reflexivity|]. split; [apply closedb_ok; vm_compute; reflexivity|].
  split; [intros [|[|[|[|[|s]]]]]; vm_compute; intuition (subst; auto)|].
  split; [intros [|[|[|[|[|s]]]]]; vm_compute; repeat constructor; simpl; intuition discriminate|].
  split; [intros [|[|[|[|[|s]]]]]; vm_compute; repeat constructor|].
  split; [vm_compute; reflexivity|]. split; vm_compute; reflexivity.
Qed.

Print Assumptions C45_acceptor_minimize.
Print Assumptions C45_minimize.
Print Assumptions C45_nondeterministic_refuted.
Print Assumptions C45_unsorted_refuted.
Print Assumptions C45_zero_weight_refuted.
