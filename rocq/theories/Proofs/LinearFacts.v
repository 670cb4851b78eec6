(** The linear machines of labels_to_fst.rs. *)
From Coq Require Import List Arith NArith Bool Lia.
From Verif Require Import Base.Util Base.Semiring Base.Machine Base.PathSum Model.Props Model.VectorFst Model.History
  Model.FstPath Model.Rational Model.Paths Proofs.VectorFacts Proofs.DelStates Proofs.VectorProps Proofs.TrOpsFacts Proofs.HistoryFacts Proofs.OpFacts Proofs.RationalFacts Proofs.PathsFacts.
Import ListNotations.

Section Q.
  Context {K : SR} (L : lsr_laws K).

  Definition hop (q : nat) (io : nat * nat) : tr K := Tr (fst io) (snd io) (@kone K) (S q).

  Lemma linear_eff (l : list (nat * nat)) (w : K) : exists g, linear_fst l w = Ok g /\
    num_states g = S (length l) /\ vstart g = Some 0 /\ cnt g /\
    (forall q, trs_of g q = match nth_error l q with Some io => [hop q io] | None => [] end) /\
    (forall q, fin_of g q = if q =? length l then Some w else None).
  Proof.
    assert (A : forall f1 : vfst K, num_states f1 = 1 -> vstart f1 = Some 0 -> cnt f1 -> (forall q, trs_of f1 q = []) -> (forall q, fin_of f1 q = None) ->
      exists g, rfold linear_step l (f1, 0) = Ok (g, length l) /\ num_states g = S (length l) /\ vstart g = Some 0 /\ cnt g /\
        (forall q, trs_of g q = match nth_error l q with Some io => [hop q io] | None => [] end) /\ (forall q, fin_of g q = None)).
    { intros f1 N1 V1 C1 T1 F1. induction l as [|io l IH] using rev_ind.
      - exists f1. repeat split; auto. intros q. rewrite T1. destruct q; auto.
      - destruct IH as (g & E & N & V & Cg & T & F). rewrite rfold_app, E. cbn [rbind]. rewrite rfold_cons.
        unfold linear_step at 1. cbn [fst snd].
        destruct (add_state_eff g) as (B1 & B2 & B3 & B4 & B5 & B6 & B7 & B8). destruct (add_state g) as [h s] eqn:Eh.
        cbn [fst snd] in *.
        destruct (add_tr_eff h (length l) (Tr (fst io) (snd io) (@kone K) s)) as (k & E1 & E2 & E3 & E4); [lia|].
        rewrite (unwrap_ok _ _ E1). cbn [rbind]. exists k.
        assert (s = S (length l)) as -> by congruence.
        rewrite app_length. cbn [length]. split; [cbn [rfold fold_left]; f_equal; f_equal; lia|].
        destruct E2 as (D1 & D2 & D3 & D4 & D5).
        split; [lia|]. split; [congruence|]. split; [auto|]. split.
        + intros q. rewrite E3, !B7, !T. destruct (Nat.eqb_spec q (length l)) as [->|Nq].
          * rewrite (proj2 (nth_error_None l (length l))) by lia. rewrite nth_error_app2, Nat.sub_diag by lia. reflexivity.
          * destruct (lt_dec q (length l)).
            -- rewrite nth_error_app1 by lia. auto.
            -- rewrite (proj2 (nth_error_None l q)) by lia. rewrite (proj2 (nth_error_None (l ++ [io]) q)); auto.
               rewrite app_length; cbn; lia.
        + intros q. rewrite E4, B8, F. auto. }
    unfold linear_fst. destruct (add_state_eff (@vnew K)) as (B1 & B2 & B3 & B4 & B5 & B6 & B7 & B8).
    destruct (add_state (@vnew K)) as [f0 s0]. cbn [fst snd] in *. cbn in B1. subst s0.
    destruct (set_start_eff f0 0) as (f1 & E1 & D1 & D2 & D3 & D4 & D5 & D6 & D7); [rewrite B2; cbn; lia|].
    rewrite (unwrap_ok _ _ E1). cbn [rbind].
    destruct (A f1) as (g & E & N & V & Cg & T & F); auto.
    - rewrite D1, B2. reflexivity.
    - apply D5, B6. constructor.
    - intros q. rewrite D6, B7. destruct q; auto.
    - intros q. rewrite D7, B8. destruct q; auto.
    - rewrite E. cbn [rbind fst snd]. destruct (set_final_eff g (length l) w) as (h & H1 & H2 & H3 & H4); [lia|].
      rewrite (unwrap_ok _ _ H1). exists h. destruct H2 as (G1 & G2 & G3 & G4 & G5).
      split; auto. split; [lia|]. split; [congruence|]. split; auto. split.
      + intros q. rewrite H3, T. auto.
      + intros q. rewrite H4, F. auto.
  Qed.

  Lemma linear_closed l (w : K) g : linear_fst l w = Ok g -> closed g.
  Proof.
    intros E. destruct (linear_eff l w) as (g' & E' & N & V & _ & T & _). rewrite E in E'. injection E' as <-. split.
    - intros s t. rewrite T. destruct (nth_error l s) eqn:X; [|intros []]. intros [<-|[]]. cbn.
      assert (s < length l) by (apply nth_error_Some; congruence). lia.
    - intros s. rewrite V, N. intros [= <-]. lia.
  Qed.

  (** The paths from state [q]. *)
  Fixpoint hops (k q : nat) (l : list (nat * nat)) : list (list (tr K)) :=
    match k with
    | 0 => [[]]
    | S k' => match l with [] => [] | io :: l' => map (cons (hop q io)) (hops k' (S q) l') end
    end.
  Lemma linear_paths l (w : K) g : linear_fst l w = Ok g -> forall k q, q <= length l ->
    paths (mach g) k q = hops k q (skipn q l).
  Proof.
    intros E. destruct (linear_eff l w) as (g' & E' & N & V & _ & T & _). rewrite E in E'. injection E' as <-.
    induction k as [|k IH]; intros q Hq; [reflexivity|]. cbn [paths hops]. change (mtrs (mach g) q) with (trs_of g q). rewrite T.
    destruct (lt_dec q (length l)) as [H|H].
    - destruct (nth_error l q) as [io|] eqn:X; [|apply nth_error_None in X; lia].
      assert (Y : skipn q l = io :: skipn (S q) l).
      { clear - X. revert q X. induction l as [|a l IHl]; intros [|q] X; cbn in *; try discriminate; [congruence|]. apply IHl in X. exact X. }
      rewrite Y. cbn [flat_map]. rewrite app_nil_r. cbn [hop ns]. rewrite IH by lia. auto.
    - rewrite (proj2 (nth_error_None l q)) by lia. rewrite skipn_all2 by lia. auto.
  Qed.
  Lemma hops_all l : forall k q, hops k q l = if k <=? length l then [map (fun x => hop (fst x) (snd x)) (combine (seq q k) l)] else [].
  Proof.
    induction l as [|io l IH]; intros [|k] q; cbn [hops]; auto. rewrite IH. cbn [length Nat.leb].
    destruct (k <=? length l); auto.
  Qed.
  Lemma hops_dst l : forall q k, k <= length l -> dst q (map (fun x => hop (fst x) (snd x)) (combine (seq q k) l)) = q + k.
  Proof.
    induction l as [|io l IH]; intros q [|k] Hk; cbn in *; try lia. rewrite IH by lia. lia.
  Qed.
  Definition real (l : list nat) : list nat := filter (fun x => negb (x =? 0)) l.
  Lemma hops_labels l : forall q, ilabs (map (fun x => hop (fst x) (snd x)) (combine (seq q (length l)) l)) = real (map fst l) /\
    olabs (map (fun x => hop (fst x) (snd x)) (combine (seq q (length l)) l)) = real (map snd l).
  Proof.
    unfold ilabs, olabs, real. induction l as [|[i o] l IH]; intros q; cbn; auto. destruct (IH (S q)) as [A B]. rewrite A, B.
    unfold lab. destruct (i =? 0), (o =? 0); auto.
  Qed.
  Lemma hops_pw l : forall q, pw (map (fun x => hop (fst x) (snd x)) (combine (seq q (length l)) l)) = @kone K.
  Proof. induction l as [|io l IH]; intros q; cbn [length seq combine map pw]; auto. rewrite IH. apply (ktimes_1_l K L). Qed.

  Lemma linear_levels l (w : K) g k : linear_fst l w = Ok g ->
    outs g 0 (paths (mach g) k 0) = if k =? length l then [FP (real (map fst l)) (real (map snd l)) w] else [].
  Proof.
    intros E. rewrite (linear_paths l w g E) by lia. cbn [skipn]. rewrite hops_all.
    destruct (linear_eff l w) as (g' & E' & N & V & _ & T & F). rewrite E in E'. injection E' as <-.
    destruct (Nat.leb_spec k (length l)).
    - unfold outs. cbn [flat_map]. rewrite app_nil_r, hops_dst by auto. cbn [mach mfin]. rewrite F. cbn [Nat.add].
      destruct (Nat.eqb_spec k (length l)) as [->|]; auto. destruct (hops_labels l 0) as [-> ->].
      rewrite hops_pw, (ktimes_1_l K L). auto.
    - destruct (Nat.eqb_spec k (length l)); [lia|]. auto.
  Qed.
End Q.
