(** Heights: the longest path leaving each state of an acyclic machine. *)
From Coq Require Import List Arith ZArith NArith Bool Lia Permutation Sorted.
From Verif Require Import Base.Util Base.Semiring Base.Machine Base.PropSpec Model.Props Model.VectorFst Model.Rational Model.Partition Model.Minimize
  Proofs.VectorFacts Proofs.OpFacts Proofs.PartitionFacts Proofs.RationalFacts Proofs.SdFacts Proofs.ReverseDist Proofs.CyclicFacts Proofs.CyclicRefine Props.C29.
Import ListNotations.

Section H.
  Context {K : SR} (f : vfst K).
  Notation N := (num_states f).
  Context (Hc : closed f) (Ha : acyclic (mach f)).

  Fixpoint hgt (k s : nat) : nat :=
    match k with
    | O => O
    | S k' => list_max (map (fun t => S (hgt k' (ns t))) (trs_of f s))
    end.
  Definition ht (s : nat) : nat := hgt N s.

  Lemma list_max_In l : l <> [] -> In (list_max l) l.
  Proof.
    induction l as [|a [|b l] IH]; intros H; [congruence|left; simpl; lia|].
    change (list_max (a :: b :: l)) with (Nat.max a (list_max (b :: l))).
    destruct (Nat.max_spec a (list_max (b :: l))) as [[_ ->]|[_ ->]]; [right; apply IH; discriminate|left; auto].
  Qed.
  Lemma list_max_ge l x : In x l -> x <= list_max l.
  Proof. intros H. pose proof (proj1 (list_max_le l (list_max l)) (le_n _)) as F. rewrite Forall_forall in F. auto. Qed.

  Lemma hgt_path k : forall s, exists p, is_path (mach f) s p /\ length p = hgt k s.
  Proof.
    induction k as [|k IH]; intros s; [exists []; split; [exact I|reflexivity]|]. cbn [hgt].
    destruct (trs_of f s) as [|t l] eqn:E; [exists []; split; [exact I|reflexivity]|].
    pose proof (list_max_In (map (fun t => S (hgt k (ns t))) (t :: l)) ltac:(discriminate)) as H. apply in_map_iff in H as (u & E1 & E2).
    destruct (IH (ns u)) as (p & P1 & P2). exists (u :: p). split; [split; auto; change (In u (trs_of f s)); rewrite E; auto|]. rewrite <- E1. simpl. auto.
  Qed.
  Lemma path_hgt k : forall s p, is_path (mach f) s p -> length p <= k -> length p <= hgt k s.
  Proof.
    induction k as [|k IH]; intros s p H L; [lia|]. destruct p as [|t p]; [simpl; lia|]. destruct H as [H1 H2]. simpl in L.
    cbn [hgt length]. specialize (IH (ns t) p H2 ltac:(lia)).
    pose proof (list_max_ge (map (fun t => S (hgt k (ns t))) (trs_of f s)) (S (hgt k (ns t)))) as X.
    specialize (X (in_map (fun t => S (hgt k (ns t))) _ _ H1)). lia.
  Qed.
  Lemma path_ht s p : s < N -> is_path (mach f) s p -> length p <= ht s.
  Proof. intros H P. apply path_hgt; auto. pose proof (acyclic_short (mach f) N (proj1 Hc) Ha p s H P). lia. Qed.
  Lemma ht_path s : exists p, is_path (mach f) s p /\ length p = ht s.
  Proof. apply hgt_path. Qed.
  Lemma ht_lt s : s < N -> ht s < N.
  Proof. intros H. destruct (ht_path s) as (p & P1 & <-). apply (acyclic_short (mach f) N (proj1 Hc) Ha p s H P1). Qed.
  Lemma ht_edge s t : s < N -> In t (trs_of f s) -> ht (ns t) < ht s.
  Proof. intros H Ht. destruct (ht_path (ns t)) as (p & P1 & P2). assert (X : length (t :: p) <= ht s) by (apply path_ht; auto; split; auto). simpl in X. lia. Qed.
  Lemma ht_pred s : s < N -> 0 < ht s -> exists t, In t (trs_of f s) /\ ht s = S (ht (ns t)).
  Proof.
    intros H P. destruct (ht_path s) as (p & P1 & P2). destruct p as [|t p]; [simpl in P2; lia|]. destruct P1 as [A B].
    exists t. split; auto. pose proof (ht_edge s t H A). assert (ns t < N) by (apply (proj1 Hc s t A)).
    pose proof (path_ht (ns t) p ltac:(auto) B). simpl in P2. lia.
  Qed.
  Lemma ht_max s : s < N -> ht s = list_max (map (fun t => S (ht (ns t))) (trs_of f s)).
  Proof.
    intros H. apply Nat.le_antisymm.
    - destruct (Nat.eq_dec (ht s) 0) as [E|E]; [lia|]. destruct (ht_pred s H ltac:(lia)) as (t & A & B). rewrite B. apply list_max_ge.
      apply (in_map (fun t => S (ht (ns t)))). auto.
    - apply list_max_le. apply Forall_forall. intros x Hx. apply in_map_iff in Hx as (t & <- & Ht). apply ht_edge; auto.
  Qed.

  (** ** The recursion *)
  Definition finished (d : depth) (x : nat) : Prop :=
    nth_error (dp_hts d) x = Some (Z.of_nat (ht x)) /\ forall t, In t (trs_of f x) -> In (ns t) (dp_acc d).
  Definition dgood (d : depth) (stk : list nat) : Prop :=
    length (dp_hts d) <= N /\ (forall x, In x (dp_acc d) -> x < length (dp_hts d)) /\ (forall x, In x (dp_acc d) -> In x stk \/ finished d x).

  Lemma existsb_eqb x l : existsb (Nat.eqb x) l = true <-> In x l.
  Proof. rewrite existsb_exists. split; [intros (y & H & E); apply Nat.eqb_eq in E; congruence|intros H; exists x; split; auto; apply Nat.eqb_refl]. Qed.

  Lemma depth_ok : forall fuel s d stk, ht s < fuel -> s < N -> ~ In s (dp_acc d) -> dgood d stk -> (forall x, In x stk -> ht s < ht x) ->
    exists d', fst_depth fuel f s d = Ok d' /\ dgood d' stk /\ In s (dp_acc d') /\ incl (dp_acc d) (dp_acc d') /\
      length (dp_hts d) <= length (dp_hts d').
  Proof.
    induction fuel as [|fuel IH]; intros s d stk Hf Hs Hn (G1 & G2 & G3) Hst; [lia|]. cbn [fst_depth].
    destruct (nth_state f s Hs) as (st & E & E1 & _). unfold get_trs, get_state. rewrite E. cbn [rmap rbind]. rewrite <- E1. clear E E1 st.
    set (step := fun x (t : tr K) => _).
    assert (Loop : forall l d v, (forall t, In t l -> In t (trs_of f s)) -> dgood d (s :: stk) ->
      exists d', rfold step l (d, Z.of_nat v) = Ok (d', Z.of_nat (Nat.max v (list_max (map (fun t => S (ht (ns t))) l)))) /\ dgood d' (s :: stk) /\
        (forall t, In t l -> In (ns t) (dp_acc d')) /\ incl (dp_acc d) (dp_acc d') /\ length (dp_hts d) <= length (dp_hts d')).
    { induction l as [|t l IHl]; intros d0 v Hl Gd.
      - exists d0. simpl. rewrite Nat.max_0_r. split; [reflexivity|]. split; auto. split; [intros t []|]. split; [apply incl_refl|auto].
      - rewrite rfold_cons. assert (Ht : In t (trs_of f s)) by (apply Hl; left; auto). pose proof (ht_edge s t Hs Ht) as Hlt.
        assert (Hnt : ns t < N) by (apply (proj1 Hc s t Ht)).
        assert (X : exists d1, (if existsb (Nat.eqb (ns t)) (dp_acc d0) then Ok d0 else fst_depth fuel f (ns t) d0) = Ok d1 /\ dgood d1 (s :: stk) /\
          In (ns t) (dp_acc d1) /\ incl (dp_acc d0) (dp_acc d1) /\ length (dp_hts d0) <= length (dp_hts d1)).
        { destruct (existsb (Nat.eqb (ns t)) (dp_acc d0)) eqn:Ex.
          - apply existsb_eqb in Ex. exists d0. split; auto. split; auto. split; auto. split; [apply incl_refl|auto].
          - apply (IH (ns t) d0 (s :: stk)); auto; [lia| |].
            + intros Hin. apply existsb_eqb in Hin. congruence.
            + intros x [<-|Hx]; auto. specialize (Hst x Hx). lia. }
        destruct X as (d1 & E1 & Gd1 & A1 & A2 & A3). unfold step at 1. cbn [fst snd]. rewrite E1. cbn [rbind].
        assert (Fin : finished d1 (ns t)).
        { destruct Gd1 as (_ & _ & G). destruct (G (ns t) A1) as [[X|X]|X]; auto; [rewrite <- X in Hlt; lia|specialize (Hst _ X); lia]. }
        destruct Fin as [Fin _]. rewrite Fin. cbn [rbind].
        replace (Z.max (Z.of_nat v) (1 + Z.of_nat (ht (ns t)))) with (Z.of_nat (Nat.max v (S (ht (ns t))))) by lia.
        destruct (IHl d1 (Nat.max v (S (ht (ns t))))) as (d2 & E2 & Gd2 & B1 & B2 & B3); auto. { intros u Hu. apply Hl. right; auto. }
        exists d2. split; [rewrite E2; cbn [map]; change (list_max (S (ht (ns t)) :: ?x)) with (Nat.max (S (ht (ns t))) (list_max x)); rewrite Nat.max_assoc; auto|].
        split; auto. split; [|split].
        + intros u [<-|Hu]; auto.
        + intros x Hx. auto.
        + lia. }
    destruct (Loop (trs_of f s) (DP (s :: dp_acc d) (dp_hts d ++ repeat (-1)%Z (S s - length (dp_hts d)))) 0) as (d1 & E1 & (H1 & H2 & H3) & Sx & In1 & Ln1); auto.
    { split; [|split]; cbn [dp_hts dp_acc].
      - rewrite app_length, repeat_length. lia.
      - rewrite app_length, repeat_length. intros x [<-|Hx]; [lia|]. specialize (G2 x Hx). lia.
      - intros x [<-|Hx]; [left; left; auto|]. destruct (G3 x Hx) as [X|[X Y]]; [left; right; auto|]. right. split; cbn [dp_hts dp_acc].
        + rewrite nth_error_app1; auto.
        + intros t Ht. right. auto. }
    change (Z.of_nat 0) with 0%Z in E1. rewrite E1. cbn [rbind fst snd]. rewrite Nat.max_0_l, <- ht_max by auto. cbn [dp_acc dp_hts] in *.
    assert (Ls : s < length (dp_hts d1)) by (apply H2, In1; left; auto). rewrite (proj2 (Nat.ltb_lt _ _) Ls).
    eexists. split; [reflexivity|]. cbn [dp_acc dp_hts]. split; [|split; [|split]].
    - split; [|split]; cbn [dp_acc dp_hts]; [rewrite upd_length; auto|intros x Hx; rewrite upd_length; auto|].
      intros x Hx. destruct (Nat.eq_dec x s) as [->|Ne].
      + right. split; cbn [dp_acc dp_hts]; auto. rewrite nth_error_upd, Nat.eqb_refl. destruct (Nat.ltb_spec s (length (dp_hts d1))); auto. lia.
      + destruct (H3 x Hx) as [[<-|X]|[X Y]]; [congruence|left; auto|]. right. split; cbn [dp_acc dp_hts]; auto.
        rewrite nth_error_upd_ne by auto. auto.
    - apply In1. left; auto.
    - intros x Hx. apply In1. right; auto.
    - rewrite upd_length. rewrite app_length in Ln1. lia.
  Qed.

  Context (s0 : nat) (Hs : vstart f = Some s0) (Hacc : forall s, s < N -> accessible (mach f) s).

  Lemma fst_depth_ok : exists d, fst_depth (S N) f s0 (DP [] []) = Ok d /\ dp_hts d = map (fun s => Z.of_nat (ht s)) (seq 0 N).
  Proof.
    assert (Hs0 : s0 < N) by (apply (proj2 Hc); auto). pose proof (ht_lt s0 Hs0).
    destruct (depth_ok (S N) s0 (DP [] []) []) as (d & E & (G1 & G2 & G3) & Hin & _).
    { lia. } { auto. } { intros []. } { split; [simpl; lia|]. split; intros x []. } { intros x []. }
    exists d. split; auto.
    assert (All : forall x, x < N -> In x (dp_acc d)).
    { intros x Hx. destruct (Hacc x Hx) as (s & E0 & R). cbn in E0. assert (s = s0) by congruence. subst s. clear - R Hin G3.
      induction R as [|y t x Ht R' IHr]; auto. apply IHr; auto. destruct (G3 _ Hin) as [[]|[_ Y]]. apply Y. auto. }
    assert (Ln : length (dp_hts d) = N).
    { apply Nat.le_antisymm; auto. destruct (Nat.eq_dec N 0); [lia|]. specialize (G2 (N - 1) (All (N - 1) ltac:(lia))). lia. }
    apply nth_ext with (d := 0%Z) (d' := 0%Z); [rewrite map_length, seq_length; auto|]. rewrite Ln. intros x Hx.
    destruct (G3 x (All x Hx)) as [[]|[X _]]. rewrite (List.nth_error_nth _ _ _ X).
    symmetry. apply List.nth_error_nth. rewrite nth_error_map, (nth_error_nth' _ 0) by (rewrite seq_length; auto). rewrite seq_nth by auto. auto.
  Qed.

  Lemma ht_onto s c : s < N -> c <= ht s -> exists e, e < N /\ ht e = c.
  Proof.
    intros H Hc'. remember (ht s - c) as k eqn:Ek. revert s H Hc' Ek. induction k as [|k IH]; intros s H Hc' Ek; [exists s; split; auto; lia|].
    destruct (ht_pred s H ltac:(lia)) as (t & A & B). apply (IH (ns t)); [apply (proj1 Hc s t A)|lia|lia].
  Qed.

  Lemma add_all_z p : forall l i, rfold (fun p (x : nat * Z) => if (snd x <? 0)%Z then Panic else p_add p (fst x) (Z.to_nat (snd x)))
      (combine (seq i (length l)) (map Z.of_nat l)) p = rfold (fun p e => p_add p (fst e) (snd e)) (combine (seq i (length l)) l) p.
  Proof.
    intros l; revert p. induction l as [|c l IH]; intros p i; [reflexivity|]. cbn [length seq combine map]. rewrite !rfold_cons. cbn [fst snd].
    destruct (Z.ltb_spec (Z.of_nat c) 0); [lia|]. rewrite Nat2Z.id. destruct (p_add p i c); cbn [rbind]; auto.
  Qed.

  Lemma acyclic_initialize_ok : exists p a, acyclic_initialize f = Ok p /\ reach N p a /\ total N a /\ (forall e, amark a e = false) /\
    forall e, e < N -> acls a e = Some (ht e).
  Proof.
    assert (Hs0 : s0 < N) by (apply (proj2 Hc); auto).
    unfold acyclic_initialize. rewrite Hs. destruct fst_depth_ok as (d & -> & Eh). cbn [rbind]. cbv zeta. rewrite Eh. clear Eh.
    destruct (map (fun s => Z.of_nat (ht s)) (seq 0 N)) as [|z l0] eqn:El; [destruct N; [lia|discriminate]|]. rewrite <- El. clear El z l0.
    rewrite map_length, seq_length. set (hs := map ht (seq 0 N)).
    replace (map (fun s => Z.of_nat (ht s)) (seq 0 N)) with (map Z.of_nat hs) by (unfold hs; rewrite map_map; auto).
    assert (Lh : length hs = N) by (unfold hs; rewrite map_length, seq_length; auto).
    assert (Mx : (fold_right Z.max (-1) (map Z.of_nat hs) + 1 = Z.of_nat (S (list_max hs)))%Z).
    { assert (X : forall l, fold_right Z.max (-1)%Z (map Z.of_nat l) = if match l with [] => true | _ => false end then (-1)%Z else Z.of_nat (list_max l)).
      { induction l as [|a l IH]; auto. cbn [map fold_right]. rewrite IH. change (list_max (a :: l)) with (Nat.max a (list_max l)). destruct l; simpl; lia. }
      rewrite X. destruct hs; [simpl in Lh; lia|]. lia. }
    rewrite Mx, Nat2Z.id. replace (seq 0 N) with (seq 0 (length hs)) by (rewrite Lh; auto). rewrite (add_all_z _ hs 0).
    pose proof (r_allocate N _ _ (S (list_max hs)) (r_start N)) as R0.
    destruct (add_all N hs 0 _ _ R0) as (p & Ep & a & R & Ma & Na & Aa).
    { lia. } { auto. } { cbn [anum]. intros c Hc'. apply list_max_ge in Hc'. lia. }
    cbn [anum] in Na.
    assert (A : forall e, e < N -> acls a e = Some (ht e)).
    { intros e He. rewrite Aa, Nat.sub_0_r. cbn. unfold hs. rewrite nth_error_map, (nth_error_nth' _ 0) by (rewrite seq_length; auto). rewrite seq_nth by auto. auto. }
    exists p, a. split; auto. split; auto. split; [split|split; auto].
    - intros e. split; [intros He; rewrite A by auto; discriminate|]. rewrite Aa, Nat.sub_0_r. cbn. rewrite nth_error_Some. lia.
    - intros c Hc'. rewrite Na in Hc'. cbn in Hc'.
      assert (Hm : In (list_max hs) hs) by (apply list_max_In; destruct hs; [simpl in Lh; lia|discriminate]).
      unfold hs in Hm at 2. apply in_map_iff in Hm as (s & E1 & E2). apply in_seq in E2.
      destruct (ht_onto s c) as (e & He & E3); [lia|lia|]. exists e. rewrite A by auto. congruence.
    - intros e. rewrite Ma. auto.
  Qed.
End H.
