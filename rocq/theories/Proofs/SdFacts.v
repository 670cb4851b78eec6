(** Lemmas on generic shortest distance. *)
From Coq Require Import List Arith NArith ZArith Lia Bool Wellfounded Relations.
From Verif Require Import Base.Util Base.Semiring Base.Machine Base.PathSum Model.Props Model.VectorFst
  Model.Queues Model.ShortestDistance Proofs.VectorFacts.
Import ListNotations.
Local Open Scope K_scope.
Local Coercion rsr_psr : rsr_laws >-> psr_laws.

(** ** Sums over paths ending in a given state. *)
Section Paths.
  Context {K : SR} (L : rsr_laws K) (m : machine K).

  (** Sum of the weights of the paths of [k] transitions from [a] to [q]. *)
  Definition to_sum (k a q : nat) : K := psum m k a (fun p => if Nat.eqb (dst a p) q then pw p else 0).
  (** The same with at most [k] transitions. *)
  Definition upto (k a q : nat) : K := ksum (map (fun i => to_sum i a q) (seq O (S k))).

  (** One more transition, the first vector being indexed by states below [n]. *)
  Definition adj (n : nat) (T : nat -> K) (q : nat) : K :=
    ksum (map (fun p => ksum (map (fun t => if Nat.eqb (ns t) q then T p * wgt t else 0) (mtrs m p))) (seq O n)).
  Definition unit_at (a q : nat) : K := if Nat.eqb a q then 1 else 0.

  Lemma adj_ext n T U q : (forall p, (p < n)%nat -> T p = U p) -> adj n T q = adj n U q.
  Proof.
    intros H. unfold adj. apply ksum_map_ext. intros p Hp. apply in_seq in Hp. apply ksum_map_ext. intros t _.
    rewrite H by lia. auto.
  Qed.
  Lemma adj_plus n T U q : adj n (fun p => T p + U p) q = adj n T q + adj n U q.
  Proof.
    unfold adj. rewrite <- (ksum_map_plus L). apply ksum_map_ext. intros p _. rewrite <- (ksum_map_plus L).
    apply ksum_map_ext. intros t _. destruct (Nat.eqb (ns t) q); [apply (r_kdistr_r _ L)|symmetry; apply (kplus_0_l _ L)].
  Qed.
  Lemma adj_0 n q : adj n (fun _ => 0) q = 0.
  Proof.
    unfold adj. apply (ksum_map_zero L). intros p _. apply (ksum_map_zero L). intros t _.
    destruct (Nat.eqb (ns t) q); auto. apply (ktimes_0_l _ L).
  Qed.
  Lemma adj_at n s (r : K) q : (s < n)%nat -> adj n (fun p => if Nat.eqb p s then r else 0) q =
    ksum (map (fun t => if Nat.eqb (ns t) q then r * wgt t else 0) (mtrs m s)).
  Proof.
    intros Hs. unfold adj. replace n with (s + S (n - S s))%nat by lia. rewrite seq_app, map_app, (ksum_app L).
    cbn [seq map ksum Nat.add]. rewrite Nat.eqb_refl.
    rewrite (ksum_map_zero L), (kplus_0_l _ L). 2:{
      intros p Hp. apply in_seq in Hp. apply (ksum_map_zero L). intros t _. rewrite (proj2 (Nat.eqb_neq p s)) by lia.
      destruct (Nat.eqb (ns t) q); auto. apply (ktimes_0_l _ L). }
    rewrite (ksum_map_zero L (fun p => _) (seq (S s) (n - S s))). apply (kplus_0_r L).
    intros p Hp. apply in_seq in Hp. apply (ksum_map_zero L). intros t _. rewrite (proj2 (Nat.eqb_neq p s)) by lia.
    destruct (Nat.eqb (ns t) q); auto. apply (ktimes_0_l _ L).
  Qed.

  Lemma pw_app p q : pw (p ++ q : list (tr K)) = pw p * pw q.
  Proof.
    induction p as [|t p IH]; simpl; [symmetry; apply (ktimes_1_l _ L)|]. rewrite IH. apply (ktimes_assoc _ L).
  Qed.
  Lemma to_sum_0 a q : to_sum O a q = unit_at a q.
  Proof. unfold to_sum. rewrite (psum_O L). reflexivity. Qed.

  Lemma ksum_pick (F : nat -> K) d k : (d < k)%nat -> ksum (map (fun s => if Nat.eqb d s then F s else 0) (seq O k)) = F d.
  Proof.
    intros Hd. replace k with (d + S (k - S d))%nat by lia. rewrite seq_app, map_app, (ksum_app L).
    cbn [seq map ksum Nat.add]. rewrite Nat.eqb_refl.
    rewrite (ksum_map_zero L _ (seq O d)), (kplus_0_l _ L). 2:{ intros s Hs. apply in_seq in Hs. rewrite (proj2 (Nat.eqb_neq _ _)) by lia. auto. }
    rewrite (ksum_map_zero L _ (seq (S d) _)); [apply (kplus_0_r L)|]. intros s Hs. apply in_seq in Hs. rewrite (proj2 (Nat.eqb_neq _ _)) by lia. auto.
  Qed.

  (** States of the machine are below [n]. *)
  Variable n : nat.
  Hypothesis below : forall s t, In t (mtrs m s) -> (ns t < n)%nat.
  Lemma dst_below a p : (a < n)%nat -> is_path m a p -> (dst a p < n)%nat.
  Proof.
    revert a. induction p as [|t p IH]; intros a Ha; simpl; auto. intros [Ht Hp]. apply IH; auto. eapply below; eauto.
  Qed.
  Lemma to_sum_S k a q : (a < n)%nat -> to_sum (S k) a q = adj n (to_sum k a) q.
  Proof.
    intros Ha. unfold to_sum at 1. rewrite (psum_snoc L).
    transitivity (psum m k a (fun p => ksum (map (fun s => if Nat.eqb (dst a p) s then
        ksum (map (fun t => if Nat.eqb (ns t) q then pw p * wgt t else 0) (mtrs m s)) else 0) (seq O n)))).
    - apply (psum_ext). intros p Hp. apply paths_is_path in Hp as [Hp _].
      pose proof (dst_below a p Ha Hp) as Hd.
      rewrite (ksum_pick (fun s => ksum (map (fun t => if Nat.eqb (ns t) q then pw p * wgt t else 0) (mtrs m s)))) by auto.
      apply ksum_map_ext. intros t _. rewrite dst_app. cbn [dst]. rewrite pw_app. cbn [pw]. rewrite (ktimes_1_r _ L). auto.
    - unfold psum. rewrite (ksum_swap L). unfold adj. apply ksum_map_ext. intros s _.
      transitivity (ksum (map (fun p => ksum (map (fun t => if Nat.eqb (dst a p) s then (if Nat.eqb (ns t) q then pw p * wgt t else 0) else 0) (mtrs m s))) (paths m k a))).
      + apply ksum_map_ext. intros p _. destruct (Nat.eqb (dst a p) s); auto. symmetry. apply (ksum_map_zero L). auto.
      + rewrite (ksum_swap L). apply ksum_map_ext. intros t _. destruct (Nat.eqb (ns t) q).
        * unfold to_sum, psum. rewrite (r_ksum_times_r L), map_map. apply ksum_map_ext. intros p _.
          destruct (Nat.eqb (dst a p) s); auto. symmetry. apply (ktimes_0_l _ L).
        * apply (ksum_map_zero L). intros p _. destruct (Nat.eqb (dst a p) s); auto.
  Qed.

  Lemma upto_0 a q : upto O a q = unit_at a q.
  Proof. unfold upto. cbn [seq map ksum]. rewrite (kplus_0_r L). apply to_sum_0. Qed.
  Lemma upto_snoc k a q : upto (S k) a q = upto k a q + to_sum (S k) a q.
  Proof.
    unfold upto. rewrite (seq_S (S k)), map_app, (ksum_app L). cbn [map ksum Nat.add]. rewrite (kplus_0_r L). auto.
  Qed.
  Lemma upto_S k a q : (a < n)%nat -> upto (S k) a q = unit_at a q + adj n (upto k a) q.
  Proof.
    intros Ha. revert q. induction k as [|k IH]; intros q.
    - rewrite upto_snoc, upto_0, to_sum_S by auto. f_equal. apply adj_ext. intros p _. rewrite to_sum_0. symmetry. apply upto_0.
    - rewrite upto_snoc, IH, to_sum_S, <- (kplus_assoc _ L), <- adj_plus by auto. f_equal. apply adj_ext. intros p _.
      symmetry. apply upto_snoc.
  Qed.

  (** ** Fixed points of the path equation. *)
  Definition fixed (a : nat) (D : nat -> K) : Prop := forall q, D q = unit_at a q + adj n D q.
  Fixpoint adjn (k : nat) (D : nat -> K) : nat -> K := match k with O => D | S k' => adj n (adjn k' D) end.
  Lemma adj_swap k D q : adj n (adjn k D) q = adjn k (adj n D) q.
  Proof. revert q. induction k as [|k IH]; intros q; simpl; auto. apply adj_ext. intros p _. apply IH. Qed.

  Lemma fixed_unroll a D k q : (a < n)%nat -> fixed a D -> D q = upto k a q + adjn (S k) D q.
  Proof.
    intros Ha F. revert q. induction k as [|k IH]; intros q.
    - rewrite upto_0. apply F.
    - rewrite (F q) at 1. rewrite (adj_ext n D (fun p => upto k a p + adjn (S k) D p)) by (intros; apply IH).
      rewrite adj_plus, (kplus_assoc _ L), <- upto_S by auto. auto.
  Qed.

  (** Without a long path the sum over long paths vanishes. *)
  Lemma adjn_zero k D : forall q, (forall s p, (s < n)%nat -> is_path m s p -> dst s p = q -> (length p < S k)%nat) -> adjn (S k) D q = 0.
  Proof.
    induction k as [|k IH]; intros q H.
    - cbn [adjn]. unfold adj. apply (ksum_map_zero L). intros s Hs. apply in_seq in Hs. apply (ksum_map_zero L).
      intros t Ht. destruct (Nat.eqb_spec (ns t) q); auto. specialize (H s [t] ltac:(lia)). simpl in H.
      specialize (H (conj Ht I) e). lia.
    - change (adj n (adjn (S k) D) q = 0). unfold adj. apply (ksum_map_zero L). intros s Hs. apply (ksum_map_zero L).
      intros t Ht. destruct (Nat.eqb_spec (ns t) q); auto. rewrite IH; [apply (ktimes_0_l _ L)|].
      intros s' p Hs' Hp Hd. assert (X : (length (p ++ [t]) < S (S k))%nat).
      { apply (H s'); auto.
        - clear - Hp Hd Ht. revert s' Hp Hd. induction p as [|u p IH]; simpl; intros s' Hp Hd; [subst; auto|].
          destruct Hp; split; auto.
        - rewrite dst_app, Hd. auto. }
      rewrite app_length in X. simpl in X. lia.
  Qed.

  (** Paths of an acyclic machine are short. *)
  Definition acyclic : Prop := forall s p, is_path m s p -> p <> [] -> dst s p <> s.
  Lemma is_path_app p : forall s q, is_path m s (p ++ q) <-> is_path m s p /\ is_path m (dst s p) q.
  Proof. induction p as [|t p IH]; intros s q; simpl; [tauto|]. rewrite IH. tauto. Qed.
  Lemma acyclic_short : acyclic -> forall p s, (s < n)%nat -> is_path m s p -> (length p < n)%nat.
  Proof.
    intros A p s Hs Hp. assert (ND : NoDup (s :: map (@ns K) p)).
    { clear Hs. revert s Hp. induction p as [|t p IH]; intros s Hp; [repeat constructor; auto|].
      constructor; [|apply IH; apply Hp].
      intros H. change (In s (map (@ns K) (t :: p))) in H. apply in_map_iff in H as (u & Eu & Hu). apply in_split in Hu as (l1 & l2 & E).
      rewrite E in Hp. change (u :: l2) with ([u] ++ l2) in Hp. rewrite app_assoc in Hp. apply is_path_app in Hp as [Hp _].
      apply (A s (l1 ++ [u])); auto; [destruct l1; discriminate|]. rewrite dst_app. auto. }
    assert (I : incl (s :: map (@ns K) p) (seq O n)).
    { intros x [<-|Hx]; apply in_seq; [lia|]. apply in_map_iff in Hx as (u & <- & Hu).
      assert (exists s', In u (mtrs m s')) as (s' & Hs'); [|apply below in Hs'; lia].
      clear - Hp Hu. revert s Hp. induction p as [|t p IH]; intros s Hp; [destruct Hu|]. destruct Hp as [Ht Hp].
      destruct Hu as [<-|Hu]; eauto. }
    apply (NoDup_incl_length ND) in I. simpl in I. rewrite map_length, seq_length in I. lia.
  Qed.

  Theorem fixed_acyclic a D : (a < n)%nat -> acyclic -> fixed a D -> forall k q, (n <= k)%nat -> upto k a q = D q.
  Proof.
    intros Ha A F k q Hk. rewrite (fixed_unroll a D k q Ha F), adjn_zero, (kplus_0_r L); auto.
    intros s p Hs Hp _. apply acyclic_short in Hp; auto. lia.
  Qed.

  (** In an idempotent semiring a fixed point absorbs every partial sum. *)
  Lemma fixed_above a D : idempotent_plus K -> (a < n)%nat -> fixed a D -> forall k q, D q + upto k a q = D q.
  Proof.
    intros Id Ha F. induction k as [|k IH]; intros q.
    - rewrite upto_0, (F q). rewrite (kplus_comm _ L (unit_at a q)), <- (kplus_assoc _ L), (Id (unit_at a q)). auto.
    - rewrite upto_S by auto. rewrite (F q). rewrite (kplus_swap L), (Id (unit_at a q)), <- adj_plus. f_equal.
      apply adj_ext. intros p _. apply IH.
  Qed.
  Lemma upto_mono a k j q : idempotent_plus K -> (k <= j)%nat -> upto j a q + upto k a q = upto j a q.
  Proof.
    intros Id H. induction H as [|j H IH]; [apply Id|].
    rewrite upto_snoc, (kplus_comm _ L (upto j a q)), <- (kplus_assoc _ L), IH. auto.
  Qed.
End Paths.

(** ** What the algorithm needs of a queue. [ok q M last]: [q] is a reachable queue holding
    every state [s] exactly [M s] times; [last] was dequeued last. A queue may merge a state
    with a waiting copy. *)
Record qspec {K : SR} (Q : qops) (m : machine K) (n : nat) (ok : Q -> (nat -> nat) -> option nat -> Prop) : Prop := {
  qs_clear : forall q M last, ok q M last -> exists q', qo_clear Q q = Ok q' /\ ok q' (fun _ => O) None;
  qs_enqueue : forall q M last s, ok q M last -> (s < n)%nat ->
    (forall u, last = Some u -> exists t, In t (mtrs m u) /\ ns t = s) ->
    exists q' M', qo_enqueue Q q s = Ok q' /\ ok q' M' last /\ (0 < M' s <= S (M s))%nat /\ forall x, x <> s -> M' x = M x;
  qs_dequeue : forall q M last, ok q M last ->
    exists o q', qo_dequeue Q q = Ok (o, q') /\
      match o with
      | None => (forall s, M s = O) /\ ok q' M last
      | Some s => exists M', ok q' M' (Some s) /\ M s = S (M' s) /\ forall x, x <> s -> M' x = M x
      end
}.

Section Loop.
  Context {K : SR} (L : rsr_laws K) (Q : qops) (f : vfst K) (keep : tr K -> bool) (retain : bool).
  Let n := num_states f.
  (** The machine of the kept transitions. *)
  Definition kmach : machine K := Mach (vstart f) (fun s => filter keep (trs_of f s)) (fin_of f).
  Hypothesis C : closed f.
  Variable ok : Q -> (nat -> nat) -> option nat -> Prop.
  Hypothesis QS : qspec Q kmach n ok.

  Lemma kbelow s t : In t (mtrs kmach s) -> (ns t < n)%nat.
  Proof. cbn. intros H. apply filter_In in H as [H _]. apply (proj1 C s t H). Qed.

  Implicit Types st : sdst K Q.
  Definition cellq st q : cell K := nth q (sd_cells _ st) cell0.
  Definition live st q : bool := negb retain || src_is (nth q (sd_src _ st) None) (sd_id _ st).
  Definition dq st q : K := if live st q then c_dist (cellq st q) else 0.
  Definition rq st q : K := if live st q then c_radd (cellq st q) else 0.
  Definition wf st : Prop := forall q, live st q = true -> c_add (cellq st q) = c_dist (cellq st q).

  (** Nothing is forgotten. *)
  Definition grows st st' : Prop :=
    sd_id _ st' = sd_id _ st /\ (length (sd_cells _ st) <= length (sd_cells _ st'))%nat /\
    (forall q, live st q = true -> live st' q = true).

  Lemma nth_ensure l i j : nth j (ensure_cells (K := K) l i) cell0 = nth j l cell0.
  Proof.
    unfold ensure_cells. destruct (Nat.lt_ge_cases j (length l)); [apply app_nth1; auto|].
    rewrite app_nth2, (nth_overflow l) by auto. destruct (Nat.lt_ge_cases (j - length l) (S i - length l)).
    - apply nth_repeat.
    - apply nth_overflow. rewrite repeat_length. auto.
  Qed.
  Lemma nth_ensure_src l i j : nth j (ensure_src l i) None = nth j l None.
  Proof.
    unfold ensure_src. destruct (Nat.lt_ge_cases j (length l)); [apply app_nth1; auto|].
    rewrite app_nth2, (nth_overflow l) by auto. apply nth_repeat.
  Qed.
  Lemma ensure_len l i : (i < length (ensure_cells (K := K) l i))%nat /\ (length l <= length (ensure_cells (K := K) l i))%nat.
  Proof. unfold ensure_cells. rewrite app_length, repeat_length. lia. Qed.
  Lemma ensure_src_len l i : (i < length (ensure_src l i))%nat.
  Proof. unfold ensure_src. rewrite app_length, repeat_length. lia. Qed.
  Lemma src_is_refl i : src_is (Some i) i = true.
  Proof. apply Nat.eqb_refl. Qed.

  Lemma nth_error_nth {A} (l : list A) i d : (i < length l)%nat -> nth_error l i = Some (nth i l d).
  Proof. apply nth_error_nth'. Qed.

  (** The state once index [i] is there and fresh. *)
  Definition touch st i : sdst K Q :=
    let cells := ensure_cells (sd_cells _ st) i in
    let src := if retain then ensure_src (sd_src _ st) i else sd_src _ st in
    let stale := retain && negb (src_is (nth i src None) (sd_id _ st)) in
    SD Q (sd_queue _ st) (if stale then upd cells i cell0 else cells) (if stale then upd src i (Some (sd_id _ st)) else src) (sd_id _ st).

  Lemma touch_ok st i : wf st ->
    wf (touch st i) /\ grows st (touch st i) /\ live (touch st i) i = true /\ (i < length (sd_cells _ (touch st i)))%nat /\
    (forall q, dq (touch st i) q = dq st q) /\ (forall q, rq (touch st i) q = rq st q) /\
    (forall q, live st q = true -> cellq (touch st i) q = cellq st q) /\
    (forall q, live (touch st i) q = true -> live st q = true \/ q = i).
  Proof.
    intros W. pose proof (ensure_len (sd_cells _ st) i) as [L1 L2]. pose proof (ensure_src_len (sd_src _ st) i) as L3.
    unfold touch, live, dq, rq, cellq, wf, grows, live, cellq in *. cbn [sd_cells sd_src sd_id sd_queue].
    destruct retain; cbn [negb orb andb].
    2:{ repeat split; auto; intros; rewrite ?nth_ensure; auto. }
    rewrite nth_ensure_src. destruct (src_is (nth i (sd_src _ st) None) (sd_id _ st)) eqn:E; cbn [negb].
    - repeat split; auto; intros; rewrite ?nth_ensure, ?nth_ensure_src in *; auto.
    - rewrite !upd_length.
      assert (N : forall q, q <> i -> nth q (upd (ensure_src (sd_src _ st) i) i (Some (sd_id _ st))) None = nth q (sd_src _ st) None).
      { intros q Hq. rewrite nth_upd_ne by auto. apply nth_ensure_src. }
      assert (N' : nth i (upd (ensure_src (sd_src _ st) i) i (Some (sd_id _ st))) None = Some (sd_id _ st)).
      { apply nth_upd_eq. auto. }
      assert (Ce : forall q, q <> i -> nth q (upd (ensure_cells (sd_cells _ st) i) i cell0) cell0 = nth q (sd_cells _ st) cell0).
      { intros q Hq. rewrite nth_upd_ne by auto. apply nth_ensure. }
      assert (Ce' : nth i (upd (ensure_cells (sd_cells _ st) i) i cell0) cell0 = cell0 (K := K)) by (apply nth_upd_eq; auto).
      split; [|split; [split; [auto|split; [auto|]]|split; [|split; [auto|split; [|split; [|split]]]]]].
      + intros q. destruct (Nat.eq_dec q i) as [->|Hq]; [rewrite Ce'; auto|]. rewrite N, Ce by auto. apply W.
      + intros q Hq. destruct (Nat.eq_dec q i) as [->|Hi]; [rewrite N'; apply src_is_refl|]. rewrite N; auto.
      + rewrite N'. apply src_is_refl.
      + intros q. destruct (Nat.eq_dec q i) as [->|Hi]; [rewrite N', Ce', E, src_is_refl; auto|]. rewrite N, Ce; auto.
      + intros q. destruct (Nat.eq_dec q i) as [->|Hi]; [rewrite N', Ce', E, src_is_refl; auto|]. rewrite N, Ce; auto.
      + intros q Hq. apply Ce. intros ->. congruence.
      + intros q. destruct (Nat.eq_dec q i) as [->|Hi]; auto. rewrite N; auto.
  Qed.

  Lemma sd_tr_touch s r st t : keep t = true ->
    sd_tr Q retain keep s r st t =
    let st1 := touch st (ns t) in
    match nth_error (sd_cells _ st1) (ns t) with
    | None => Panic
    | Some c =>
        let w := r * wgt t in
        if keqb (c_dist c) (c_dist c + w) then Ok st1
        else
          let cells := upd (sd_cells _ st1) (ns t) (Cell (c_add c + w) (c_add c + w) (c_radd c + w) (c_enq c)) in
          match nth_error cells s with
          | None => Panic
          | Some cs =>
              if negb (c_enq cs) then
                q <-- qo_enqueue Q (sd_queue _ st) (ns t) ;;
                Ok (SD Q q (upd cells (ns t) (Cell (c_add c + w) (c_add c + w) (c_radd c + w) true)) (sd_src _ st1) (sd_id _ st))
              else
                q <-- qo_update Q (sd_queue _ st) (ns t) ;;
                Ok (SD Q q cells (sd_src _ st1) (sd_id _ st))
          end
    end.
  Proof. intros E. unfold sd_tr. rewrite E. reflexivity. Qed.

  (** One transition. *)
  Lemma tr_effect s r st t : wf st -> keep t = true -> (s < length (sd_cells _ st))%nat -> live st s = true ->
    c_enq (cellq st s) = false ->
    let w := r * wgt t in
    (dq st (ns t) + w = dq st (ns t) ->
       exists st', sd_tr Q retain keep s r st t = Ok st' /\ sd_queue _ st' = sd_queue _ st /\ wf st' /\ grows st st' /\
         (forall q, dq st' q = dq st q) /\ (forall q, rq st' q = rq st q) /\ c_enq (cellq st' s) = false /\
         live st' (ns t) = true /\ (forall q, live st' q = true -> live st q = true \/ q = ns t)) /\
    (dq st (ns t) + w <> dq st (ns t) -> ns t <> s -> forall q1, qo_enqueue Q (sd_queue _ st) (ns t) = Ok q1 ->
       exists st', sd_tr Q retain keep s r st t = Ok st' /\ sd_queue _ st' = q1 /\ wf st' /\ grows st st' /\
         (forall q, dq st' q = if Nat.eqb (ns t) q then dq st q + w else dq st q) /\
         (forall q, rq st' q = if Nat.eqb (ns t) q then rq st q + w else rq st q) /\ c_enq (cellq st' s) = false /\
         live st' (ns t) = true /\ (forall q, live st' q = true -> live st q = true \/ q = ns t) /\
         (ns t < length (sd_cells _ st'))%nat).
  Proof.
    intros W Hk Hs Ls Es w. rewrite (sd_tr_touch s r st t Hk). cbv zeta. fold w.
    destruct (touch_ok st (ns t) W) as (W1 & G1 & Lv & Ln & D1 & R1 & Ce & Lb). set (st1 := touch st (ns t)) in *.
    rewrite (nth_error_nth (sd_cells _ st1) (ns t) cell0 Ln). fold (cellq st1 (ns t)).
    assert (Ed : c_dist (cellq st1 (ns t)) = dq st (ns t)) by (rewrite <- D1; unfold dq; rewrite Lv; auto).
    assert (Ea : c_add (cellq st1 (ns t)) = dq st (ns t)) by (rewrite W1; auto).
    assert (Er : c_radd (cellq st1 (ns t)) = rq st (ns t)) by (rewrite <- R1; unfold rq; rewrite Lv; auto).
    rewrite Ed, Ea, Er. split.
    - intros H. rewrite H, (keqb_refl L). exists st1. split; auto. split; auto. split; auto. split; auto. split; auto.
      split; auto. split; [rewrite Ce; auto|]. split; auto.
    - intros H Hn q1 Eq. rewrite (proj2 (keqb_false L _ _)) by congruence.
      destruct G1 as (G1 & G2 & G3).
      rewrite (nth_error_nth _ s cell0) by (rewrite upd_length; lia). rewrite nth_upd_ne by auto.
      fold (cellq st1 s). rewrite Ce, Es by auto. cbn [negb]. rewrite Eq. cbn [rbind].
      set (st' := SD Q q1 _ _ _). exists st'. split; auto. split; auto.
      assert (Lq : forall q, live st' q = live st1 q) by (intros q; unfold live, st'; cbn [sd_src sd_id]; auto).
      assert (Cn : cellq st' (ns t) = Cell (dq st (ns t) + w) (dq st (ns t) + w) (rq st (ns t) + w) true).
      { unfold cellq, st'. cbn [sd_cells]. apply nth_upd_eq. rewrite upd_length. auto. }
      assert (Co : forall q, q <> ns t -> cellq st' q = cellq st1 q).
      { intros q Hq. unfold cellq, st'. cbn [sd_cells]. rewrite !nth_upd_ne by auto. auto. }
      split; [|split; [|split; [|split; [|split; [|split; [|split]]]]]].
      + intros q Hq. destruct (Nat.eq_dec q (ns t)) as [->|Hne]; [rewrite Cn; auto|]. rewrite Co by auto. apply W1. rewrite <- Lq. auto.
      + split; auto. split; [unfold st'; cbn [sd_cells]; rewrite !upd_length; lia|]. intros q Hq. rewrite Lq. auto.
      + intros q. rewrite <- (D1 q). unfold dq. rewrite Lq. destruct (Nat.eqb_spec (ns t) q) as [<-|Hne].
        * rewrite Lv, Cn, Ed. auto.
        * rewrite Co by auto. auto.
      + intros q. rewrite <- (R1 q). unfold rq. rewrite Lq. destruct (Nat.eqb_spec (ns t) q) as [<-|Hne].
        * rewrite Lv, Cn, Er. auto.
        * rewrite Co by auto. auto.
      + rewrite Co, Ce by auto. auto.
      + rewrite Lq. auto.
      + intros q. rewrite Lq. auto.
      + unfold st'. cbn [sd_cells]. rewrite !upd_length. auto.
  Qed.

  (** ** All transitions of a state. *)
  Definition inflow (r : K) (l : list (tr K)) (q : nat) : K :=
    ksum (map (fun t => if Nat.eqb (ns t) q then r * wgt t else 0) (filter keep l)).

  (** A value grew. *)
  Definition kup (a b : K) : Prop := a <> b /\ exists c, a = b + c.
  Inductive vstep : list K -> list K -> Prop :=
  | vs_here a b l : kup a b -> vstep (a :: l) (b :: l)
  | vs_later a l l' : vstep l l' -> vstep (a :: l) (a :: l').
  Definition vec st : list K := map (dq st) (seq O n).

  Lemma vstep_upd (D D' : nat -> K) i k j : (j <= i < j + k)%nat -> kup (D' i) (D i) -> (forall q, q <> i -> D' q = D q) ->
    vstep (map D' (seq j k)) (map D (seq j k)).
  Proof.
    revert j. induction k as [|k IH]; intros j H Hu Ho; [lia|]. cbn [seq map].
    destruct (Nat.eq_dec i j) as [->|Hn].
    - assert (map D' (seq (S j) k) = map D (seq (S j) k)) as ->.
      { apply map_ext_in. intros q Hq. apply in_seq in Hq. apply Ho. lia. }
      constructor. auto.
    - rewrite (Ho j) by auto. constructor. apply IH; auto. lia.
  Qed.

  Definition pend_ok st (M : nat -> nat) : Prop :=
    (forall q, rq st q <> 0 -> (0 < M q)%nat) /\
    (forall q, (0 < M q)%nat -> (q < n)%nat /\ live st q = true /\ (q < length (sd_cells _ st))%nat).

  Lemma trs_step s r l : (s < n)%nat -> forall st M Tn, incl l (trs_of f s) -> wf st -> ok (sd_queue _ st) M (Some s) ->
    live st s = true -> (s < length (sd_cells _ st))%nat -> c_enq (cellq st s) = false ->
    (forall q, dq st q = Tn q + rq st q) -> pend_ok st M ->
    (forall t, In t l -> keep t = true -> ns t = s -> dq st s + r * wgt t = dq st s) ->
    exists st' M', sd_trs Q retain keep s r l st = Ok st' /\ wf st' /\ ok (sd_queue _ st') M' (Some s) /\ grows st st' /\
      (forall q, dq st' q = Tn q + rq st' q) /\ pend_ok st' M' /\
      (forall q, dq st' q = dq st q + inflow r l q) /\
      (forall q, (M' q <= M q + count (fun t => Nat.eqb (ns t) q) (filter keep l))%nat) /\
      (forall q, live st' q = true -> live st q = true \/ exists t, In t l /\ keep t = true /\ ns t = q) /\
      (forall t, In t l -> keep t = true -> live st' (ns t) = true) /\
      ((vec st' = vec st /\ forall q, M' q = M q) \/ clos_trans _ vstep (vec st') (vec st)).
  Proof.
    intros Hs. induction l as [|t l IH]; intros st M Tn Inc W O Ls Hl Es A P Self.
    - exists st, M. cbn [sd_trs]. split; auto. split; auto. split; auto. split; [split; auto|]. split; auto. split; auto.
      split; [intros q; unfold inflow; simpl; symmetry; apply (kplus_0_r L)|]. split; [intros; simpl; lia|].
      split; auto.
    - cbn [sd_trs]. assert (Inc' : incl l (trs_of f s)) by (intros x Hx; apply Inc; right; auto).
      destruct (keep t) eqn:Ek.
      2:{ unfold sd_tr at 1. rewrite Ek. cbn [negb rbind].
          destruct (IH st M Tn Inc' W O Ls Hl Es A P) as (st' & M' & H1 & H2 & H3 & H4 & H5 & H6 & H7 & H8 & H9 & H10 & H11).
          { intros u Hu. apply Self. right; auto. }
          exists st', M'. split; auto. split; auto. split; auto. split; auto. split; auto. split; auto.
          split; [intros q; rewrite H7; unfold inflow; simpl; rewrite Ek; auto|].
          split; [intros q; specialize (H8 q); simpl; rewrite Ek; auto|].
          split; [intros q Hq; apply H9 in Hq as [|(u & Hu & ?)]; auto; right; exists u; split; [right|]; auto|].
          split; auto. intros u [<-|Hu] Hk; [congruence|auto]. }
      assert (Hn : (ns t < n)%nat) by (apply (proj1 C s t); apply Inc; left; auto).
      destruct (tr_effect s r st t W Ek Hl Ls Es) as [Ab Up].
      assert (exists st1 M1, sd_tr Q retain keep s r st t = Ok st1 /\ wf st1 /\ ok (sd_queue _ st1) M1 (Some s) /\ grows st st1 /\
        (forall q, dq st1 q = Tn q + rq st1 q) /\ pend_ok st1 M1 /\ c_enq (cellq st1 s) = false /\
        (forall q, dq st1 q = dq st q + (if Nat.eqb (ns t) q then r * wgt t else 0)) /\
        (forall q, (M1 q <= M q + (if Nat.eqb (ns t) q then 1 else 0))%nat) /\
        (forall q, live st1 q = true -> live st q = true \/ q = ns t) /\ live st1 (ns t) = true /\
        ((vec st1 = vec st /\ forall q, M1 q = M q) \/ vstep (vec st1) (vec st)))
        as (st1 & M1 & E1 & W1 & O1 & G1 & A1 & P1 & Es1 & D1 & Mb1 & Lb1 & Ln1 & V1).
      { destruct (keqbP L (dq st (ns t) + r * wgt t) (dq st (ns t))) as [Eab|Nab].
        - destruct (Ab Eab) as (st1 & E1 & Q1 & W1 & G1 & D1 & R1 & Es1 & Ln1 & Lb1). exists st1, M. split; auto. split; auto.
          rewrite Q1. split; auto. split; auto. split; [intros q; rewrite D1, R1; auto|]. split; [|split; auto].
          + split; [intros q; rewrite R1; apply P|]. intros q Hq. destruct (proj2 P q Hq) as (X1 & X2 & X3).
            split; auto. split; [apply G1; auto|]. destruct G1 as (_ & G1 & _). lia.
          + split; [intros q; rewrite D1; destruct (Nat.eqb_spec (ns t) q) as [<-|]; [auto|symmetry; apply (kplus_0_r L)]|].
            split; [intros; lia|]. split; auto. split; auto. left. split; auto. unfold vec. apply map_ext. auto.
        - assert (Hns : ns t <> s) by (intros E; apply Nab; rewrite E; apply Self; auto; left; auto).
          destruct (qs_enqueue _ _ _ _ QS _ M (Some s) (ns t) O Hn) as (q1 & M1 & Eq & O1 & Mn & Mo).
          { intros u [= <-]. exists t. split; auto. cbn. apply filter_In. split; auto. apply Inc. left; auto. }
          destruct (Up Nab Hns q1 Eq) as (st1 & E1 & Q1 & W1 & G1 & D1 & R1 & Es1 & Ln1 & Lb1 & Ll1).
          exists st1, M1. split; auto. split; auto. rewrite Q1. split; auto. split; auto. split.
          { intros q. rewrite D1, R1, A. destruct (Nat.eqb (ns t) q); auto. symmetry. apply (kplus_assoc _ L). }
          split.
          { split.
            - intros q Hq. rewrite R1 in Hq. destruct (Nat.eqb_spec (ns t) q) as [Ee|Hne]; [rewrite <- Ee; apply Mn|]. rewrite Mo by auto. apply P. auto.
            - intros q Hq. destruct (Nat.eq_dec q (ns t)) as [->|Hne]; [auto|]. rewrite Mo in Hq by auto.
              destruct (proj2 P q Hq) as (X1 & X2 & X3). split; auto. split; [apply G1; auto|]. destruct G1 as (_ & G1 & _). lia. }
          split; auto. split.
          { intros q. rewrite D1. destruct (Nat.eqb (ns t) q); auto. symmetry. apply (kplus_0_r L). }
          split.
          { intros q. destruct (Nat.eqb_spec (ns t) q) as [Ee|Hne]; [rewrite <- Ee; lia|]. rewrite Mo by auto. lia. }
          split; auto. split; auto. right. apply vstep_upd with (i := ns t); [lia| |].
          + rewrite D1, Nat.eqb_refl. split; eauto.
          + intros q Hq. rewrite D1, (proj2 (Nat.eqb_neq _ _)) by auto. auto. }
      rewrite E1. cbn [rbind]. pose proof G1 as (Gi & Gl & Gv).
      destruct (IH st1 M1 Tn Inc' W1 O1 (Gv s Ls)) as (st' & M' & H1 & H2 & H3 & H4 & H5 & H6 & H7 & H8 & H9 & H10 & H11); auto; [lia| |].
      { intros u Hu Hku Eu. specialize (Self u (or_intror Hu) Hku Eu). rewrite D1. destruct (Nat.eqb (ns t) s).
        - rewrite <- (kplus_assoc _ L), (kplus_comm _ L (r * wgt t)), (kplus_assoc _ L), Self. auto.
        - rewrite (kplus_0_r L). auto. }
      exists st', M'. split; auto. split; auto. split; auto. split.
      { destruct H4 as (J1 & J2 & J3). split; [congruence|]. split; [lia|]. auto. }
      split; auto. split; auto. split.
      { intros q. rewrite H7, D1. unfold inflow. cbn [filter]. rewrite Ek. cbn [map ksum]. symmetry. apply (kplus_assoc _ L). }
      split.
      { intros q. specialize (H8 q). specialize (Mb1 q). cbn [filter]. rewrite Ek, count_cons. lia. }
      split.
      { intros q Hq. apply H9 in Hq as [Hq|(u & Hu & Hu')].
        - apply Lb1 in Hq as [Hq| ->]; auto. right. exists t. split; [left|]; auto.
        - right. exists u. split; [right|]; auto. }
      split.
      { intros u [<-|Hu] Hku; [|auto]. apply H4. auto. }
      destruct H11 as [[V2 M2]|V2], V1 as [[V1 M1']|V1].
      + left. split; [congruence|]. intros q. rewrite M2. auto.
      + right. rewrite V2. apply t_step. auto.
      + right. rewrite <- V1. auto.
      + right. eapply t_trans; [exact V2|]. apply t_step. auto.
  Qed.

  (** ** The loop. *)
  Variable a : nat.
  Hypothesis Ha : (a < n)%nat.
  Definition calm : Prop := forall s t, In t (mtrs kmach s) -> ns t = s -> forall r : K, r + r * wgt t = r.
  Hypothesis Calm : calm.

  Definition loop_inv st (M : nat -> nat) (last : option nat) (T : nat -> K) : Prop :=
    wf st /\ ok (sd_queue _ st) M last /\
    (forall q, dq st q = T q + rq st q) /\
    (forall q, dq st q = unit_at a q + adj kmach n T q) /\
    pend_ok st M /\
    (idempotent_plus K -> exists k, forall q, upto kmach k a q + dq st q = upto kmach k a q).

  Lemma final_weight_ok s : (s < n)%nat -> final_weight f s = Ok (fin_of f s) /\ get_trs f s = Ok (trs_of f s).
  Proof.
    intros H. unfold final_weight, get_trs, get_state, fin_of, trs_of.
    destruct (nth_error_ex (vstates f) s H) as (x & ->). auto.
  Qed.

  (** One iteration without the [first_path] shortcut. *)
  Lemma loop_step st M last T : loop_inv st M last T ->
    (exists q, qo_dequeue Q (sd_queue _ st) = Ok (None, q) /\ (forall s, M s = O) /\ ok q M last) \/
    (exists s q c st' M' T', qo_dequeue Q (sd_queue _ st) = Ok (Some s, q) /\ (s < n)%nat /\
       nth_error (sd_cells _ st) s = Some c /\
       sd_trs Q retain keep s (c_radd c) (trs_of f s) (SD Q q (upd (sd_cells _ st) s (Cell (c_dist c) (c_add c) 0 false)) (sd_src _ st) (sd_id _ st)) = Ok st' /\
       loop_inv st' M' (Some s) T' /\ (grows st st' /\ forall q, T' q <> 0 -> T q <> 0 \/ q = s) /\
       (0 < M s)%nat /\
       (forall q, (M' q + (if Nat.eqb q s then 1 else 0) <= M q + count (fun t => Nat.eqb (ns t) q) (mtrs kmach s))%nat) /\
       (forall q, live st' q = true -> live st q = true \/ exists t, In t (mtrs kmach s) /\ ns t = q) /\
       (forall t, In t (mtrs kmach s) -> live st' (ns t) = true) /\
       ((vec st' = vec st /\ forall q, (M' q + (if Nat.eqb q s then 1 else 0) = M q)%nat) \/ clos_trans _ vstep (vec st') (vec st))).
  Proof.
    intros (W & O & A & B & P & U).
    destruct (qs_dequeue _ _ _ _ QS _ M last O) as (o & q & E & H). destruct o as [s|]; [right|left; exists q; auto].
    destruct H as (M1 & O1 & Ms & Mo). assert (Pos : (0 < M s)%nat) by lia.
    destruct (proj2 P s Pos) as (Hs & Ls & Hl). pose proof (nth_error_nth (sd_cells _ st) s cell0 Hl) as Ec. fold (cellq st s) in Ec.
    set (c := cellq st s) in *. set (st1 := SD Q q (upd (sd_cells _ st) s (Cell (c_dist c) (c_add c) 0 false)) (sd_src _ st) (sd_id _ st)).
    assert (Rs : rq st s = c_radd c) by (unfold rq; rewrite Ls; auto).
    assert (Lv : forall x, live st1 x = live st x) by reflexivity.
    assert (Cs : cellq st1 s = Cell (c_dist c) (c_add c) 0 false) by (unfold cellq, st1; cbn [sd_cells]; apply nth_upd_eq; auto).
    assert (Co : forall x, x <> s -> cellq st1 x = cellq st x) by (intros x Hx; unfold cellq, st1; cbn [sd_cells]; apply nth_upd_ne; auto).
    assert (D1 : forall x, dq st1 x = dq st x).
    { intros x. unfold dq. rewrite Lv. destruct (Nat.eq_dec x s) as [->|Hx]; [rewrite Cs|rewrite Co by auto]; auto. }
    assert (R1 : forall x, rq st1 x = if Nat.eqb x s then 0 else rq st x).
    { intros x. unfold rq. rewrite Lv. destruct (Nat.eqb_spec x s) as [->|Hx]; [rewrite Cs, Ls|rewrite Co by auto]; auto. }
    set (r := c_radd c) in *.
    set (Tn := fun x => T x + (if Nat.eqb x s then r else 0)).
    assert (An : forall x, dq st1 x = Tn x + rq st1 x).
    { intros x. rewrite D1, R1, A. unfold Tn. destruct (Nat.eqb_spec x s) as [->|Hx].
      - rewrite Rs, (kplus_0_r L). auto.
      - rewrite (kplus_0_r L). auto. }
    assert (W1 : wf st1).
    { intros x Hx. destruct (Nat.eq_dec x s) as [->|Hne]; [rewrite Cs; apply (W s Ls)|]. rewrite Co by auto. apply W. auto. }
    assert (P1 : pend_ok st1 M1).
    { split.
      - intros x Hx. rewrite R1 in Hx. destruct (Nat.eqb_spec x s) as [Ee|Hne]; [congruence|]. rewrite Mo by auto. apply P; auto.
      - intros x Hx. assert (Hx' : (0 < M x)%nat) by (destruct (Nat.eq_dec x s) as [->|Hne]; [lia|rewrite <- Mo; auto]).
        destruct (proj2 P x Hx') as (X1 & X2 & X3). split; auto. split; auto. unfold st1. cbn [sd_cells]. rewrite upd_length. auto. }
    destruct (trs_step s r (trs_of f s) Hs st1 M1 Tn) as (st' & M' & H1 & H2 & H3 & H4 & H5 & H6 & H7 & H8 & H9 & H10 & H11); auto.
    { intros x; auto. }
    { unfold st1. cbn [sd_cells]. rewrite upd_length. auto. }
    { rewrite Cs. auto. }
    { intros t Ht Hk En. rewrite D1, A, Rs. fold r. rewrite <- (kplus_assoc _ L). f_equal.
      apply (Calm s t); auto. cbn. apply filter_In. auto. }
    assert (Din : forall x, dq st' x = dq st x + ksum (map (fun t => if Nat.eqb (ns t) x then r * wgt t else 0) (mtrs kmach s))).
    { intros x. rewrite H7, D1. auto. }
    exists s, q, c, st', M', Tn. split; auto. split; auto. split; auto. split; auto. split; [|split].
    - split; auto. split; auto. split; auto. split; [|split; auto].
      + intros x. rewrite Din, B. unfold Tn. rewrite (adj_plus L), (adj_at L) by auto. symmetry. apply (kplus_assoc _ L).
      + intros Id. destruct (U Id) as (k & Hk). exists (S k). intros x.
        assert (Rb : upto kmach k a s + r = upto kmach k a s).
        { rewrite <- (Hk s), A, Rs. fold r. rewrite <- !(kplus_assoc _ L), (Id r). auto. }
        rewrite Din, (kplus_assoc _ L).
        assert (upto kmach (S k) a x + dq st x = upto kmach (S k) a x) as ->.
        { rewrite <- (upto_mono L kmach a k (S k) x Id) at 2 by lia. rewrite <- (Hk x), (kplus_assoc _ L), (upto_mono L) by (auto; lia). auto. }
        rewrite (upto_S L kmach n kbelow) by auto. rewrite <- (kplus_assoc _ L). f_equal.
        rewrite <- (adj_at L kmach n s r x Hs), <- (adj_plus L). apply adj_ext. intros p _.
        destruct (Nat.eqb_spec p s) as [->|]; [auto|apply (kplus_0_r L)].
    - destruct H4 as (J1 & J2 & J3). split.
      + split; auto. split; auto. unfold st1 in J2. cbn [sd_cells] in J2. rewrite upd_length in J2. auto.
      + intros x. unfold Tn. destruct (Nat.eqb_spec x s) as [->|]; auto. rewrite (kplus_0_r L). auto.
    - split; auto. split; [|split; [|split]].
      + intros x. specialize (H8 x). cbn [mtrs kmach]. destruct (Nat.eqb_spec x s) as [->|Hne]; [lia|]. rewrite Mo in H8 by auto. lia.
      + intros x Hx. apply H9 in Hx as [Hx|(t & Ht & Hk & En)]; auto. right. exists t. split; auto. cbn. apply filter_In; auto.
      + intros t Ht. cbn in Ht. apply filter_In in Ht as [Ht Hk]. auto.
      + destruct H11 as [[V Mm]|V].
        * left. split; [rewrite V; unfold vec; apply map_ext; auto|]. intros x. rewrite Mm.
          destruct (Nat.eqb_spec x s) as [->|Hne]; [lia|]. rewrite Mo by auto. lia.
        * right. replace (vec st) with (vec st1); auto. unfold vec. apply map_ext. auto.
  Qed.

  (** Whenever the loop stops, it has computed a solution of the path equation. *)
  Lemma loop_correct fuel : forall st M last T, loop_inv st M last T -> forall R, sd_loop Q false retain keep fuel f st = Some R ->
    exists st' M' last', R = Ok st' /\ wf st' /\ ok (sd_queue _ st') M' last' /\ sd_id _ st' = sd_id _ st /\
      fixed kmach n a (dq st') /\
      (idempotent_plus K -> exists k, forall q, upto kmach k a q + dq st' q = upto kmach k a q).
  Proof.
    induction fuel as [|fuel IH]; intros st M last T I R E; [discriminate|]. cbn [sd_loop] in E.
    destruct (loop_step st M last T I) as [(q & Eq & Z & Oz)|(s & q & c & st' & M' & T' & Eq & Hs & Ec & Et & I' & G & _)]; rewrite Eq in E.
    - injection E as <-. destruct I as (W & O & A & B & P & U). eexists. exists M, last. split; [reflexivity|].
      split; auto. split; [exact Oz|]. split; auto.
      assert (Er : forall x, rq st x = 0).
      { intros x. destruct (keqbP L (rq st x) 0) as [|N]; auto. apply (proj1 P) in N. rewrite Z in N. lia. }
      assert (ET : forall x, dq st x = T x) by (intros x; rewrite A, Er, (kplus_0_r L); auto).
      split; [|exact U]. intros x. change (dq st x = unit_at a x + adj kmach n (dq st) x). rewrite B. f_equal. apply adj_ext. auto.
    - rewrite Ec, (proj2 (final_weight_ok s Hs)) in E. rewrite Et in E.
      destruct (IH st' M' (Some s) T' I' R E) as (st2 & M2 & l2 & H1 & H2 & H3 & H4 & H5). exists st2, M2, l2.
      split; auto. split; auto. split; auto. split; [|auto]. destruct G as ((G & _) & _). congruence.
  Qed.

  (** ** Termination. *)
  Lemma Acc_vstep_cons x l : Acc kup x -> Acc vstep l -> Acc vstep (x :: l).
  Proof.
    intros Hx. revert l. induction Hx as [x Hx IHx]. intros l Hl. induction Hl as [l Hl IHl].
    constructor. intros y Hy. inversion Hy; subst; auto. apply IHx; auto. constructor. auto.
  Qed.
  Lemma wf_vstep : well_founded kup -> well_founded vstep.
  Proof.
    intros H l. induction l as [|x l IH]; [constructor; intros y Hy; inversion Hy|]. apply Acc_vstep_cons; auto.
  Qed.
  Definition total (M : nat -> nat) : nat := list_sum (map M (seq O n)).

  Lemma total_dec M M' s : (s < n)%nat -> (forall q, (M' q + (if Nat.eqb q s then 1 else 0) = M q)%nat) -> (total M = S (total M'))%nat.
  Proof.
    intros Hs H. unfold total. replace n with (s + S (n - S s))%nat by lia. rewrite !seq_app, !map_app, !list_sum_app.
    cbn [seq map list_sum fold_right Nat.add]. specialize (H s) as H0. rewrite Nat.eqb_refl in H0.
    assert (X : forall j k, (s < j \/ j + k <= s)%nat -> map M (seq j k) = map M' (seq j k)).
    { intros j k Hjk. apply map_ext_in. intros q Hq. apply in_seq in Hq. rewrite <- H, (proj2 (Nat.eqb_neq _ _)) by lia. lia. }
    rewrite (X O s), (X (S s) _) by lia. lia.
  Qed.

  Lemma loop_terminates : well_founded kup -> forall st M last T, loop_inv st M last T ->
    exists fuel R, sd_loop Q false retain keep fuel f st = Some R.
  Proof.
    intros Wf st M. remember (vec st) as v eqn:Ev. revert st M Ev.
    induction v as [v IHv] using (well_founded_induction (wf_clos_trans _ _ (wf_vstep Wf))).
    intros st M. remember (total M) as k eqn:Ek. revert st M Ek.
    induction k as [|k IHk]; intros st M Ek Ev last T I.
    - destruct (loop_step st M last T I) as [(q & Eq & Z & Oz)|(s & q & c & st' & M' & T' & Eq & Hs & Ec & Et & I' & G & Pos & _)].
      + exists 1%nat. eexists. cbn [sd_loop]. rewrite Eq. reflexivity.
      + exfalso. unfold total in Ek. assert (X : (M s <= list_sum (map M (seq O n)))%nat); [|lia].
        { clear - Hs. replace n with (s + S (n - S s))%nat by lia. rewrite seq_app, map_app, list_sum_app. simpl. lia. }
    - destruct (loop_step st M last T I) as [(q & Eq & Z & Oz)|(s & q & c & st' & M' & T' & Eq & Hs & Ec & Et & I' & G & Pos & _ & _ & _ & V)].
      + exists 1%nat. eexists. cbn [sd_loop]. rewrite Eq. reflexivity.
      + assert (exists fuel R, sd_loop Q false retain keep fuel f st' = Some R) as (fuel & R & E).
        { destruct V as [[V Mm]|V].
          - apply (IHk st' M') with (last := Some s) (T := T'); auto; [|congruence]. apply (total_dec M M' s Hs) in Mm. lia.
          - apply (IHv (vec st')) with (M := M') (last := Some s) (T := T'); auto. subst v. auto. }
        exists (S fuel), R. cbn [sd_loop]. rewrite Eq, Ec, (proj2 (final_weight_ok s Hs)), Et. auto.
  Qed.

  (** Acyclic machines: every pending state costs at most the number of paths from it. *)
  Lemma list_sum_cons x l : list_sum (x :: l) = (x + list_sum l)%nat.
  Proof. reflexivity. Qed.
  Definition npaths (s : nat) : nat := list_sum (map (fun k => length (paths kmach k s)) (seq O n)).
  Definition cost (M : nat -> nat) : nat := list_sum (map (fun s => M s * npaths s)%nat (seq O n)).

  Lemma npaths_S s : acyclic kmach -> (s < n)%nat -> (npaths s = S (list_sum (map (fun t => npaths (ns t)) (mtrs kmach s))))%nat.
  Proof.
    intros Ac Hs. unfold npaths.
    assert (Z : forall x, (x < n)%nat -> length (paths kmach n x) = O).
    { intros x Hx. destruct (paths kmach n x) as [|p l] eqn:E; auto. assert (In p (paths kmach n x)) as Hp by (rewrite E; left; auto).
      apply paths_is_path in Hp as [Hp Hl]. apply (acyclic_short kmach n kbelow Ac) in Hp; auto. lia. }
    assert (X : list_sum (map (fun k => length (paths kmach k s)) (seq O (S n))) =
      S (list_sum (map (fun t => list_sum (map (fun k => length (paths kmach k (ns t))) (seq O n))) (mtrs kmach s)))).
    { cbn [seq map]. rewrite list_sum_cons. cbn [paths length Nat.add]. f_equal. rewrite <- seq_shift, map_map.
      generalize (seq O n) as ks. induction ks as [|k ks IH].
      - cbn. induction (filter keep (trs_of f s)); simpl; auto.
      - cbn [map]. rewrite !list_sum_cons, IH. clear IH.
        assert (length (paths kmach (S k) s) = list_sum (map (fun t => length (paths kmach k (ns t))) (mtrs kmach s))) as ->.
        { cbn [paths]. induction (mtrs kmach s) as [|t l IHl]; simpl; auto. rewrite app_length, map_length, IHl. auto. }
        induction (mtrs kmach s) as [|t l IHl]; cbn [map]; auto. rewrite !list_sum_cons. lia. }
    rewrite <- X, (seq_S n), map_app, list_sum_app. cbn [map list_sum fold_right Nat.add]. rewrite Z by auto. lia.
  Qed.

  Lemma list_sum_le (g h : nat -> nat) l : (forall x, In x l -> (g x <= h x)%nat) -> (list_sum (map g l) <= list_sum (map h l))%nat.
  Proof. induction l as [|x l IH]; simpl; intros H; auto. specialize (IH (fun y Hy => H y (or_intror Hy))). specialize (H x (or_introl eq_refl)). lia. Qed.

  Lemma cost_count (l : list (tr K)) : (forall t, In t l -> (ns t < n)%nat) ->
    list_sum (map (fun q => count (fun t => Nat.eqb (ns t) q) l * npaths q)%nat (seq O n)) = list_sum (map (fun t => npaths (ns t)) l).
  Proof.
    induction l as [|t l IH]; intros H.
    - simpl. generalize (seq O n). intros ks. induction ks; simpl; auto.
    - cbn [map]. rewrite list_sum_cons. rewrite <- IH by (intros; apply H; right; auto).
      assert (Ht : (ns t < n)%nat) by (apply H; left; auto).
      assert (X : list_sum (map (fun q => (if Nat.eqb (ns t) q then 1 else 0) * npaths q)%nat (seq O n)) = npaths (ns t)).
      { clear - Ht. replace n with (ns t + S (n - S (ns t)))%nat at 1 by lia. rewrite seq_app, map_app, list_sum_app.
        cbn [seq map Nat.add]. rewrite list_sum_cons, Nat.eqb_refl.
        assert (Z : forall j k, (ns t < j \/ j + k <= ns t)%nat -> list_sum (map (fun q => (if Nat.eqb (ns t) q then 1 else 0) * npaths q)%nat (seq j k)) = O).
        { intros j k. revert j. induction k as [|k IH]; intros j Hj; simpl; auto. rewrite (proj2 (Nat.eqb_neq _ _)) by lia. apply IH. lia. }
        rewrite (Z O (ns t)), (Z (S (ns t))) by lia. lia. }
      rewrite <- X. generalize (seq O n) as ks. induction ks as [|q ks IHk]; cbn [map]; auto.
      rewrite !list_sum_cons, count_cons, IHk. destruct (Nat.eqb (ns t) q); lia.
  Qed.

  Lemma loop_terminates_acyclic : acyclic kmach -> forall fuel st M last T, loop_inv st M last T -> (cost M < fuel)%nat ->
    exists R, sd_loop Q false retain keep fuel f st = Some R.
  Proof.
    intros Ac. induction fuel as [|fuel IH]; intros st M last T I Hf; [lia|].
    destruct (loop_step st M last T I) as [(q & Eq & Z & Oz)|(s & q & c & st' & M' & T' & Eq & Hs & Ec & Et & I' & G & Pos & Mb & _)].
    - eexists. cbn [sd_loop]. rewrite Eq. reflexivity.
    - destruct (IH st' M' (Some s) T' I') as (R & E).
      + assert (X : (cost M' + npaths s <= cost M + list_sum (map (fun t => npaths (ns t)) (mtrs kmach s)))%nat).
        { rewrite <- cost_count by (intros t; apply kbelow). unfold cost.
          assert (Y : npaths s = list_sum (map (fun q => (if Nat.eqb q s then 1 else 0) * npaths q)%nat (seq O n))).
          { clear - Hs. replace n with (s + S (n - S s))%nat at 1 by lia. rewrite seq_app, map_app, list_sum_app.
            cbn [seq map Nat.add]. rewrite list_sum_cons, Nat.eqb_refl.
            assert (Z : forall j k, (s < j \/ j + k <= s)%nat -> list_sum (map (fun q => (if Nat.eqb q s then 1 else 0) * npaths q)%nat (seq j k)) = O).
            { intros j k. revert j. induction k as [|k IH]; intros j Hj; simpl; auto. rewrite (proj2 (Nat.eqb_neq _ _)) by lia. apply IH. lia. }
            rewrite (Z O s), (Z (S s)) by lia. lia. }
          rewrite Y. clear - Mb. induction (seq O n) as [|q ks IH]; cbn [map]; auto.
          rewrite !list_sum_cons. specialize (Mb q). destruct (Nat.eqb q s); nia. }
        rewrite (npaths_S s Ac Hs) in X. lia.
      + exists R. cbn [sd_loop]. rewrite Eq, Ec, (proj2 (final_weight_ok s Hs)), Et. auto.
  Qed.
End Loop.
