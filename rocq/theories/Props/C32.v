(** C32: the paths iterator lists the accepting paths, each once, shortest first; linear machines
    have one accepting path and decoding recovers it. *)
From Coq Require Import List Arith NArith Bool Lia.
From Verif Require Import Base.Util Base.Semiring Base.Machine Base.Instances Base.PathSum
  Model.VectorFst Model.History Model.FstPath Model.Rational Model.Paths
  Proofs.VectorFacts Proofs.SdFacts Proofs.PathsFacts Proofs.LinearFacts.
Import ListNotations.

(** The accepting paths with exactly [k] transitions, each with its labels and weight; a path
    occurs as often as the machine contains it. *)
Definition accepting {K : SR} (f : vfst K) (k : nat) : list (fpath K) :=
  match vstart f with
  | None => []
  | Some s =>
      flat_map (fun p => match mfin (mach f) (dst s p) with
                         | Some w => [FP (ilabs p) (olabs p) (ktimes (pw p) w)]
                         | None => []
                         end) (paths (mach f) k s)
  end.
(** Those with fewer than [k] transitions, shortest first. *)
Definition accepted {K : SR} (f : vfst K) (k : nat) : list (fpath K) := flat_map (accepting f) (seq 0 k).
(** No path at all has [k] transitions. *)
Definition no_path {K : SR} (f : vfst K) (k : nat) : Prop :=
  match vstart f with None => True | Some s => forall p, is_path (mach f) s p -> length p <> k end.

Section C32.
  Context {K : SR} (L : lsr_laws K).

  Lemma accepted_outs (f : vfst K) s k : vstart f = Some s -> accepted f k = outs f s (levels f s k).
  Proof.
    intros S0. unfold accepted, outs, levels, accepting. rewrite S0. generalize (seq 0 k) as ks. intros ks.
    induction ks as [|i ks IH]; cbn [flat_map]; auto. rewrite IH, flat_map_app. auto.
  Qed.
  Lemma no_path_nil (f : vfst K) s k : vstart f = Some s -> (no_path f k <-> paths (mach f) k s = []).
  Proof.
    intros S0. unfold no_path. rewrite S0. split.
    - intros H. destruct (paths (mach f) k s) as [|p l] eqn:E; auto. exfalso.
      assert (I : In p (paths (mach f) k s)) by (rewrite E; left; auto). apply paths_is_path in I as [I1 I2]. apply (H p I1 I2).
    - intros H p Hp E. assert (I : In p (paths (mach f) k s)) by (apply paths_is_path; auto). rewrite H in I. destruct I.
  Qed.

  (** Whatever number of times [next] is called, if the calls return they do not panic and answer
      with the first accepting paths in order of length, followed by [None]s. *)
  Theorem C32_lists (f : vfst K) fuel n r : closed f -> pi_calls fuel f n (pi_new f) = Some r ->
    exists rs, r = Ok rs /\ (In None rs -> exists k, no_path f k) /\
      exists k0, forall k, k0 <= k -> rs = firstn n (map Some (accepted f k) ++ repeat None n).
  Proof.
    intros C E. destruct (vstart f) as [s|] eqn:S0.
    - destruct (calls_ok L f C s S0 fuel n [] _ r (pinv_new f s S0) E) as (rs & -> & H1 & k0 & H2). exists rs. split; auto. split.
      + intros I. destruct (H1 I) as [k Hk]. exists k. apply (no_path_nil f s k S0). auto.
      + exists k0. intros k Hk. destruct (H2 k Hk) as (Q & E1 & E2). rewrite (accepted_outs f s k S0), E1. auto.
    - unfold pi_new in E. rewrite S0 in E. exists (repeat None n). split; [|split].
      + clear S0. revert r E. induction n as [|n IH]; cbn [pi_calls]; intros r E; [cbn; congruence|].
        replace (pi_next fuel f []) with (Some (Ok (@None (fpath K), @nil (nat * fpath K)))) in E by (destruct fuel; auto).
        destruct (pi_calls fuel f n []) as [r2|]; [|discriminate]. rewrite (IH r2 eq_refl) in E. cbn. congruence.
      + intros _. exists 0. unfold no_path. rewrite S0. exact I.
      + exists 0. intros k _. assert (accepted f k = []) as ->.
        { unfold accepted. induction (seq 0 k); cbn [flat_map]; auto. unfold accepting at 1. rewrite S0. auto. }
        cbn. rewrite firstn_all2; auto. rewrite repeat_length. auto.
  Qed.

  (** Every accepting path is found: the calls return as long as accepting paths are left. *)
  Theorem C32_finds_all (f : vfst K) n k : closed f -> n <= length (accepted f k) ->
    exists fuel, forall fuel', fuel <= fuel' -> pi_calls fuel' f n (pi_new f) <> None.
  Proof.
    intros C Hn. destruct (vstart f) as [s|] eqn:S0.
    - exists (length (levels f s k)). intros fuel Hf.
      apply (calls_find L f C s S0 n fuel [] _ k (levels f s k) (pinv_new f s S0)); auto. rewrite <- accepted_outs; auto.
    - assert (accepted f k = []) as X.
      { unfold accepted. induction (seq 0 k); cbn [flat_map]; auto. unfold accepting at 1. rewrite S0. auto. }
      rewrite X in Hn. cbn in Hn. replace n with 0 by lia. exists 0. intros. discriminate.
  Qed.
  (** On a machine with finitely many paths, an acyclic one in particular, every call returns. *)
  Theorem C32_ends (f : vfst K) n k : closed f -> no_path f k ->
    exists fuel, forall fuel', fuel <= fuel' -> pi_calls fuel' f n (pi_new f) <> None.
  Proof.
    intros C H. destruct (vstart f) as [s|] eqn:S0.
    - apply (no_path_nil f s k S0) in H. exists (length (levels f s k)). intros fuel Hf.
      apply (calls_end L f C s S0 n fuel [] _ k (levels f s k) (pinv_new f s S0)); auto.
    - exists 0. intros fuel _. unfold pi_new. rewrite S0. induction n as [|n IH]; cbn [pi_calls]; [discriminate|].
      replace (pi_next fuel f []) with (Some (Ok (@None (fpath K), @nil (nat * fpath K)))) by (destruct fuel; auto).
      destruct (pi_calls fuel f n []) as [[l| |]|]; congruence.
  Qed.
  Theorem C32_acyclic_ends (f : vfst K) n : closed f -> acyclic (mach f) ->
    exists fuel, forall fuel', fuel <= fuel' -> pi_calls fuel' f n (pi_new f) <> None.
  Proof.
    intros C A. apply (C32_ends f n (num_states f) C). unfold no_path. destruct (vstart f) as [s|] eqn:S0; auto.
    intros p Hp E. assert (s < num_states f) as Hs by (apply (proj2 C); auto).
    pose proof (acyclic_short (mach f) (num_states f) (proj1 C) A p s Hs Hp). lia.
  Qed.

  (** The listed weights are those of the relation: the paths reading [x] and writing [y] sum to
      what the machine assigns to the pair. *)
  Theorem C32_sums (f : vfst K) k x y :
    ksum (map (@pwgt K) (filter (fun p => leqb (pil p) x && leqb (pol p) y) (accepting f k))) = rel (mach f) k x y.
  Proof.
    rewrite (ksum_filter L). unfold rel, accepting. cbn [mach mstart]. destruct (vstart f) as [s|]; [|reflexivity].
    rewrite (wt_psum L). unfold psum. generalize (paths (mach f) k s) as ps. intros ps.
    induction ps as [|p ps IH]; [reflexivity|]. cbn [flat_map map]. rewrite map_app, (ksum_app L), IH. cbn [map ksum fold_right].
    f_equal. unfold reads, apw, fw. destruct (mfin (mach f) (dst s p)); cbn [map pil pol pwgt].
    - destruct (leqb (ilabs p) x && leqb (olabs p) y); apply (kplus_0_r L).
    - rewrite (ktimes_0_r K L). destruct (leqb (ilabs p) x && leqb (olabs p) y); auto.
  Qed.

  (** Decoding: the answer is the only accepting path, or the empty path of weight one when there
      is none; the error means at least two. *)
  Theorem C32_decode (f : vfst K) fuel r : closed f -> decode_linear_fst fuel f = Some r ->
    exists k0, forall k, k0 <= k ->
      match r with
      | Ok p => accepted f k = [p] \/ (accepted f k = [] /\ p = path_default)
      | Err => 2 <= length (accepted f k)
      | Panic => False
      end.
  Proof.
    intros C E. assert (X : forall o1 o2 q1 q2, pi_next fuel f (pi_new f) = Some (Ok (o1, q1)) -> pi_next fuel f q1 = Some (Ok (o2, q2)) ->
      exists k0, forall k, k0 <= k -> [o1; o2] = firstn 2 (map Some (accepted f k) ++ [None; None])).
    { intros o1 o2 q1 q2 E1 E2. destruct (C32_lists f fuel 2 (Ok [o1; o2]) C) as (rs & E3 & _ & k0 & H).
      - cbn [pi_calls]. rewrite E1, E2. auto.
      - injection E3 as <-. exists k0. exact H. }
    assert (Y : pi_next fuel f (pi_new f) <> Some Panic /\ pi_next fuel f (pi_new f) <> Some Err).
    { destruct (pi_next fuel f (pi_new f)) as [r0|] eqn:E0; [|split; discriminate].
      destruct (C32_lists f fuel 1 (match r0 with Ok (o, _) => Ok [o] | _ => Panic end) C) as (rs & H & _).
      - cbn [pi_calls]. rewrite E0. destruct r0 as [[o q]| |]; auto.
      - destruct r0 as [[o q]| |]; try discriminate. split; discriminate. }
    unfold decode_linear_fst in E. destruct (pi_next fuel f (pi_new f)) as [[[o1 q1]| |]|] eqn:E1; try (exfalso; destruct Y; congruence).
    destruct (pi_next fuel f q1) as [r2|] eqn:E2; [|discriminate].
    assert (Z : exists o2 q2, r2 = Ok (o2, q2)).
    { destruct (C32_lists f fuel 2 (match r2 with Ok (o, _) => Ok [o1; o] | _ => Panic end) C) as (rs & H & _).
      - cbn [pi_calls]. rewrite E1, E2. destruct r2 as [[o q]| |]; auto.
      - destruct r2 as [[o q]| |]; try discriminate. eauto. }
    destruct Z as (o2 & q2 & ->). destruct (X o1 o2 q1 q2 eq_refl E2) as [k0 H]. exists k0. intros k Hk. specialize (H k Hk).
    destruct o2 as [p2|]; injection E as <-.
    - destruct (accepted f k) as [|a [|b l]]; cbn in H; try discriminate. cbn. lia.
    - destruct (accepted f k) as [|a [|b l]]; cbn in H; injection H as ->; try discriminate; auto.
  Qed.

  (** Linear machines: one accepting path, of the expected length, and decoding finds it. *)
  Definition one_path (f : vfst K) (n : nat) (p : fpath K) : Prop :=
    closed f /\ (forall k, accepting f k = if k =? n then [p] else []) /\ no_path f (S n) /\
    (exists fuel, forall fuel', fuel <= fuel' -> decode_linear_fst fuel' f = Some (Ok p)).
  Lemma linear_one l (w : K) : exists g, linear_fst l w = Ok g /\
    one_path g (length l) (FP (real (map fst l)) (real (map snd l)) w).
  Proof.
    destruct (linear_eff l w) as (g & E & _ & V & _). exists g. split; auto.
    assert (C : closed g) by (eapply linear_closed; eauto).
    assert (A : forall k, accepting g k = if k =? length l then [FP (real (map fst l)) (real (map snd l)) w] else []).
    { intros k. unfold accepting. rewrite V. apply (linear_levels L l w g k E). }
    assert (N : no_path g (S (length l))).
    { apply (no_path_nil g 0 _ V). rewrite (linear_paths l w g E) by lia. cbn [skipn]. rewrite hops_all.
      destruct (Nat.leb_spec (S (length l)) (length l)); [lia|auto]. }
    split; auto. split; auto. split; auto. destruct (C32_ends g 2 _ C N) as [fuel Hf]. exists fuel. intros fuel' Hf'.
    specialize (Hf fuel' Hf'). destruct (decode_linear_fst fuel' g) as [r|] eqn:D.
    - destruct (C32_decode g fuel' r C D) as [k0 H]. specialize (H (k0 + S (length l)) ltac:(lia)).
      assert (X : accepted g (k0 + S (length l)) = [FP (real (map fst l)) (real (map snd l)) w]).
      { unfold accepted. replace (k0 + S (length l)) with (length l + S k0) by lia. rewrite seq_app, flat_map_app.
        cbn [Nat.add seq flat_map]. rewrite A, Nat.eqb_refl.
        assert (Z : forall a b, (forall i, In i (seq a b) -> i <> length l) -> flat_map (accepting g) (seq a b) = []).
        { intros a b. generalize (seq a b) as is. induction is as [|i is IH]; intros H1; cbn [flat_map]; auto.
          rewrite A, (proj2 (Nat.eqb_neq _ _)) by (apply H1; left; auto). apply IH. intros j Hj. apply H1. right; auto. }
        rewrite !Z; auto; intros i Hi; apply in_seq in Hi; lia. }
      rewrite X in H. destruct r as [p| |]; [|cbn in H; lia|destruct H]. destruct H as [[= ->]|[H _]]; [auto|discriminate].
    - exfalso. apply Hf. unfold decode_linear_fst in D. cbn [pi_calls].
      destruct (pi_next fuel' g (pi_new g)) as [[[o q]| |]|]; try discriminate; auto.
      destruct (pi_next fuel' g q) as [[[[?|] ?]| |]|]; try discriminate; auto.
  Qed.

  (** [real] drops the zero labels: label 0 is epsilon, so a string containing it is not recovered. *)
  Theorem C32_acceptor (xs : list nat) (w : K) : exists g, acceptor xs w = Ok g /\
    one_path g (length xs) (FP (real xs) (real xs) w).
  Proof.
    destruct (linear_one (map (fun x => (x, x)) xs) w) as (g & E & H). exists g. split; auto.
    rewrite !map_map, map_length in H. cbn in H. rewrite map_id in H. auto.
  Qed.
  Lemma nth_seq_all (xs : list nat) n : length xs <= n ->
    map (fun i => nth i xs 0) (seq 0 n) = xs ++ repeat 0 (n - length xs).
  Proof.
    revert xs. induction n as [|n IH]; intros xs H; cbn [seq map].
    - destruct xs; [auto|cbn in H; lia].
    - rewrite <- seq_shift, map_map. destruct xs as [|x xs]; cbn [nth].
      + specialize (IH [] ltac:(cbn; lia)). cbn in *. rewrite Nat.sub_0_r in IH. f_equal. rewrite <- IH. apply map_ext. intros [|i]; auto.
      + cbn [length Nat.sub app]. f_equal. apply IH. cbn in H. lia.
  Qed.
  Lemma real_pad xs n : real (xs ++ repeat 0 n) = real xs.
  Proof. unfold real. rewrite filter_app. replace (filter _ (repeat 0 n)) with (@nil nat); [apply app_nil_r|]. induction n; auto. Qed.
  Theorem C32_transducer (xs ys : list nat) (w : K) : exists g, transducer xs ys w = Ok g /\
    one_path g (Nat.max (length xs) (length ys)) (FP (real xs) (real ys) w).
  Proof.
    unfold transducer. set (n := Nat.max (length xs) (length ys)).
    destruct (linear_one (map (fun i => (nth i xs 0, nth i ys 0)) (seq 0 n)) w) as (g & E & H). exists g. split; auto.
    rewrite !map_map, map_length, seq_length in H. cbn [fst snd] in H. rewrite !nth_seq_all, !real_pad in H by (unfold n; lia). auto.
  Qed.
  Theorem C32_round_trip (xs : list nat) (w : K) : ~ In 0 xs -> exists g fuel, acceptor xs w = Ok g /\
    decode_linear_fst fuel g = Some (Ok (FP xs xs w)).
  Proof.
    intros H. destruct (C32_acceptor xs w) as (g & E & _ & _ & _ & fuel & D). exists g, fuel. split; auto. rewrite (D fuel) by auto.
    assert (real xs = xs) as ->; auto. unfold real. clear - H. induction xs as [|x xs IH]; cbn [filter]; auto.
    destruct (Nat.eqb_spec x 0) as [->|]; [exfalso; apply H; left; auto|]. cbn. f_equal. apply IH. intros I. apply H. right; auto.
  Qed.
  (** The epsilon machine accepts exactly the empty pair, with weight one. *)
  Theorem C32_epsilon_machine : exists g, @epsilon_machine K = Ok g /\ one_path g 0 path_default.
  Proof.
    destruct (linear_one [] (@kone K)) as (g & E & H). exists g. split; [|exact H]. rewrite <- E. reflexivity.
  Qed.
End C32.

(** Decoding answers the empty path of weight one for a machine that accepts nothing: the answer
    need not be an accepted path, in spite of "retrieves the only path recognized". *)
Theorem C32_decode_accepts_refuted : exists (f : vfst natSR) p, closed f /\
  decode_linear_fst 5 f = Some (Ok p) /\ forall k, ~ In p (accepted f k).
Proof.
  exists vnew, path_default. split; [split; cbn; intros [|s]; cbn; tauto || discriminate|]. split; [reflexivity|].
  intros k. unfold accepted. rewrite in_flat_map. intros (i & _ & []).
Qed.

(** The iterator may run for ever: a loop that never accepts. *)
Theorem C32_always_returns_refuted : exists f : vfst natSR, closed f /\
  forall fuel, pi_calls fuel f 1 (pi_new f) = None.
Proof.
  exists (VF [VS None [Tr 1 1 (1 : natSR) 0] 0 0] (Some 0) None None 0%N). split.
  - split; cbn; [|intros s [= <-]; auto]. intros [|[|s]] t; cbn; try tauto. intros [<-|[]]; cbn; lia.
  - intros fuel. cbn [pi_calls].
    assert (H : forall p, pi_next fuel (VF [VS None [Tr 1 1 (1 : natSR) 0] 0 0] (Some 0) None None 0%N) [(0, p)] = None).
    { induction fuel as [|fuel IH]; intros p; auto. cbn. apply IH. }
    unfold pi_new. cbn [vstart]. rewrite H. auto.
Qed.

(** Two accepting paths of lengths 0 and 2, a dead branch, epsilon labels: four calls. *)
Example C32_case :
  match run (@vnew natSR) [OAddStates 4; OSetStart 0; OAddTr 0 (Tr 1 0 (2 : natSR) 1); OAddTr 0 (Tr 5 5 (7 : natSR) 3);
    OAddTr 1 (Tr 0 2 (3 : natSR) 2); OSetFinal 0 (9 : natSR); OSetFinal 2 (5 : natSR)] with
  | Ok f => pi_calls 10 f 3 (pi_new f) = Some (Ok [Some (FP [] [] (9 : natSR)); Some (FP [1] [2] (30 : natSR)); None]) /\
      accepted f 4 = [FP [] [] (9 : natSR); FP [1] [2] (30 : natSR)] /\
      decode_linear_fst 10 f = Some Err
  | _ => False
  end.
Proof. vm_compute. repeat split; reflexivity. Qed.
Example C32_linear_case :
  match transducer (K := natSR) [3; 4] [7] 5 with
  | Ok g => decode_linear_fst 10 g = Some (Ok (FP [3; 4] [7] (5 : natSR)))
  | _ => False
  end.
Proof. vm_compute. reflexivity. Qed.

Print Assumptions C32_lists.
Print Assumptions C32_finds_all.
Print Assumptions C32_ends.
Print Assumptions C32_acyclic_ends.
Print Assumptions C32_sums.
Print Assumptions C32_decode.
Print Assumptions C32_acceptor.
Print Assumptions C32_transducer.
Print Assumptions C32_round_trip.
Print Assumptions C32_epsilon_machine.
Print Assumptions C32_decode_accepts_refuted.
Print Assumptions C32_always_returns_refuted.
