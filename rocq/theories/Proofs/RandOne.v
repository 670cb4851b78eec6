(** Some stream of random numbers makes random generation draw any given path. *)
From Coq Require Import List Arith NArith Lia Bool.
From Verif Require Import Base.Util Base.Semiring Base.Machine Model.Props Model.VectorFst Model.RandGen
  Proofs.VectorFacts Proofs.RandFacts Proofs.RandTree.
Import ListNotations.

Section O.
  Context {K : SR}.
  Variable cfg : rconfig.
  Variable nlog : nat -> nat -> K.
  Variable f : vfst K.
  Variable a : nat.
  Hypothesis C : closed f.
  Hypothesis Ha : vstart f = Some a.
  Hypothesis N1 : rc_npath cfg = 1.
  Variable ps : list nat.
  Variable p : list (tr K).
  Hypothesis F : follow f a ps = Some p.
  Hypothesis Fin : fin_of f (dst a p) <> None.
  Hypothesis Hlen : length ps < rc_max cfg.

  Let z := dst a p.
  Definition steer : nat -> nat := fun i => nth i ps (length (trs_of f z)).

  Definition good (nds : list gnode) (o : rop) : Prop :=
    (forall i m1 cf b, nth_error nds i = Some (m1, cf, b) ->
       (i < length ps -> m1 = [(nth i ps 0, 1)] /\ cf = 0 /\ b = S i) /\ (i = length ps -> m1 = [] /\ cf = 1)) /\
    (length nds <= length ps -> length (ro_table o) = S (length nds) /\ ro_rng o = length nds /\
       exists q p', nth_error (ro_table o) (length nds) = Some (RS (Some q) 1 (length nds)) /\
         follow f q (skipn (length nds) ps) = Some p' /\ dst q p' = z).

  Lemma good_init : good [] (RO [RS (Some a) (rc_npath cfg) 0] None 0).
  Proof.
    split; [intros [|i] *; discriminate|]. intros _. cbn. split; auto. split; auto. exists a, p. rewrite N1. auto.
  Qed.

  Lemma one_draw q i : q < num_states f -> nth i ps (length (trs_of f z)) < alts f q ->
    sample steer f (rc_max cfg) (RS (Some q) 1 i) i = Ok ([(steer i, 1)], S i) \/ rc_max cfg = i.
  Proof.
    intros Hq Hp. destruct (Nat.eq_dec (rc_max cfg) i) as [|Hm]; auto. left. unfold sample. cbn [rs_state rs_length rs_nsamples].
    destruct (acc_ok f q Hq) as (E1 & E2 & _). rewrite E1, E2. cbn [rbind].
    assert (Ea : (match fin_of f q with Some _ => length (trs_of f q) + 1 | None => length (trs_of f q) end) = alts f q).
    { unfold alts. destruct (fin_of f q); lia. }
    assert (Eb : (length (trs_of f q) =? 0) && match fin_of f q with Some _ => false | None => true end || (i =? rc_max cfg) = false).
    { destruct (Nat.eqb_spec i (rc_max cfg)); [lia|]. rewrite orb_false_r. unfold alts in Hp. destruct (fin_of f q); [apply andb_false_r|].
      rewrite andb_true_r. apply Nat.eqb_neq. lia. }
    rewrite Eb. cbn [draws snd fst]. unfold select_tr. rewrite E1, E2. cbn [rbind]. rewrite Ea.
    destruct (Nat.eqb_spec (alts f q) 0); [lia|]. cbn [rbind bt_incr]. unfold steer. rewrite Nat.mod_small by auto. reflexivity.
  Qed.

  Lemma good_step nds o g m1 cf base o' : inv nlog cfg f a nds o g -> length nds < length (ro_table o) -> good nds o ->
    stepped steer cfg f (length nds) o m1 cf base o' -> good (nds ++ [(m1, cf, base)]) o'.
  Proof.
    intros IV Hlt [G1 G2] ST. unfold good. rewrite app_length. cbn [length]. rewrite Nat.add_1_r.
    destruct (Nat.lt_ge_cases (length ps) (length nds)) as [Hi|Hi].
    { split; [|lia]. intros i m1' cf' b' H. destruct (nth_snoc _ _ _ _ H) as [[_ H']|[-> _]]; [apply G1 with (b := b'); auto|lia]. }
    destruct (G2 Hi) as (L & R & q & p' & Et & Ef & Ed). clear G2.
    destruct (iv_tab _ _ _ _ _ _ _ IV _ _ _ _ Et) as (Hq & _ & _).
    destruct (ST _ _ _ Et) as (S1 & S2 & S3 & ext & S4 & S5). rewrite R in S1.
    assert (Hs : steer (length nds) = match skipn (length nds) ps with [] => length (trs_of f q) | x :: _ => x end /\
                 steer (length nds) < alts f q /\ (length nds < length ps -> steer (length nds) < length (trs_of f q)) /\
                 (length nds = length ps -> q = z /\ p' = [])).
    { unfold steer. destruct (Nat.eq_dec (length nds) (length ps)) as [e|Hne].
      - rewrite skipn_all2 in * by lia. cbn in Ef. injection Ef as <-. cbn in Ed. subst q. rewrite nth_overflow by lia.
        split; auto. split; [unfold alts; fold z in Fin; destruct (fin_of f z); [lia|congruence]|]. split; [lia|auto].
      - assert (Es : skipn (length nds) ps = nth (length nds) ps (length (trs_of f z)) :: skipn (S (length nds)) ps).
        { assert (X : length nds < length ps) by lia. clear - X. revert X. generalize (length nds) as i. induction ps as [|x l IH]; intros [|i] H; cbn in *; try lia; auto. apply IH. lia. }
        rewrite Es in *. cbn [follow] in Ef. destruct (nth_error (trs_of f q) (nth (length nds) ps (length (trs_of f z)))) eqn:En; [|discriminate].
        apply nth_error_lt in En. split; auto. split; [unfold alts; lia|]. split; auto. lia. }
    destruct Hs as (Hs1 & Hs2 & Hs3 & Hs4).
    destruct (one_draw q (length nds) Hq Hs2) as [E|E]; [|lia]. fold steer in E. rewrite E in S1. injection S1 as S1 Er.
    assert (Cs : (length nds < length ps -> m1 = [(nth (length nds) ps 0, 1)] /\ cf = 0) /\ (length nds = length ps -> m1 = [] /\ cf = 1)).
    { split; intros Hc.
      - specialize (Hs3 Hc). destruct (Nat.eqb_spec cf 0) as [->|Hn].
        + rewrite app_nil_r in S1. rewrite <- S1. split; auto. unfold steer. rewrite (nth_indep ps (length (trs_of f z)) 0 Hc). auto.
        + destruct m1 as [|x m1]; [cbn [app] in S1; injection S1 as S1 _; lia|]. injection S1 as _ S1. destruct m1; discriminate.
      - destruct (Nat.eqb_spec cf 0) as [->|Hn].
        + rewrite app_nil_r in S1. subst m1. inversion S2 as [|? ? X _]. cbn in X. rewrite Hs1, Hc, skipn_all2 in X by lia. lia.
        + destruct m1 as [|x m1]; [|injection S1 as _ S1; destruct m1; discriminate]. cbn in S1. injection S1 as _ <-. auto. }
    split.
    - intros i m1' cf' b' H. destruct (nth_snoc _ _ _ _ H) as [[_ H']|[-> [= -> -> ->]]]; [apply G1 with (b := b'); auto|].
      split; intros X; [|apply Cs; auto]. destruct Cs as [Cs _]. destruct (Cs X). split; auto. split; auto. lia.
    - intros Hlt'. destruct (proj1 Cs Hlt') as [-> ->]. rewrite S4, (S5 eq_refl), app_nil_r. cbn [krs map fst snd].
      rewrite app_length. cbn [length]. split; [lia|]. split; auto.
      assert (Es : skipn (length nds) ps = nth (length nds) ps 0 :: skipn (S (length nds)) ps).
      { clear - Hlt'. revert Hlt'. generalize (length nds) as i. induction ps as [|x l IH]; intros [|i] H; cbn in *; try lia; auto. apply IH. lia. }
      rewrite Es in Ef. cbn [follow] in Ef. destruct (nth_error (trs_of f q) (nth (length nds) ps 0)) as [t|] eqn:En; [|discriminate].
      destruct (follow f (ns t) (skipn (S (length nds)) ps)) as [p2|] eqn:Ef2; [|discriminate]. cbn in Ef. injection Ef as <-. cbn [dst] in Ed.
      exists (ns t), p2. split; auto. rewrite nth_error_app2 by lia. replace (S (length nds) - length (ro_table o)) with 0 by lia. cbn.
      rewrite Nat.add_1_r. do 3 f_equal. unfold att. f_equal. apply nth_error_nth; auto.
  Qed.

  Lemma good_leaves nds o : good nds o -> length nds = length (ro_table o) -> leaves nds (length (ro_table o)) 0 = [(ps, 1)].
  Proof.
    intros [G1 G2] LN. assert (Hl : length ps < length nds).
    { destruct (Nat.lt_ge_cases (length ps) (length nds)) as [|H]; auto. destruct (G2 H) as [X _]. lia. }
    assert (X : forall d k i, i + d = length ps -> d < k -> leaves nds k i = [(skipn i ps, 1)]).
    { induction d as [|d IH]; intros [|k] i Hd Hk; try lia; cbn [leaves].
      - destruct (nth_error_ex nds i) as ([[m1 cf] b] & E); [lia|]. rewrite E. destruct (G1 _ _ _ _ E) as [_ X]. destruct X as [-> ->]; [lia|].
        cbn. rewrite skipn_all2 by lia. reflexivity.
      - destruct (nth_error_ex nds i) as ([[m1 cf] b] & E); [lia|]. rewrite E. destruct (G1 _ _ _ _ E) as [X _]. destruct X as (-> & -> & ->); [lia|].
        cbn [length seq combine map concat fst snd]. rewrite (IH k (S i)) by lia. cbn. do 2 f_equal.
        assert (H : i < length ps) by lia. clear - H. revert i H. induction ps as [|x l IHl]; intros [|i] H; cbn in *; try lia; auto. apply IHl. lia. }
    apply (X (length ps)); lia.
  Qed.
End O.
