(** The state table of determinization behaves like the generic two-way table. *)
From Coq Require Import List Arith NArith Bool Lia.
From Verif Require Import Base.Util Base.Semiring Base.Machine Model.Props Model.AlgoProps Model.VectorFst
  Model.BiMap Model.Lazy Model.Rational Model.Determinize.
From Verif Require Import Proofs.BiMapFacts Proofs.LazyFacts Proofs.FactorTable Proofs.RationalFacts Proofs.OpFacts.
Import ListNotations.

Section BiHash.
  Context {T : Type} (eqb : T -> T -> bool).

  Lemma assoc_right_get (l : list (nat * T)) e : assoc eqb (map (fun p => (snd p, fst p)) l) e = right_get eqb l e.
  Proof. induction l as [|[i x] l IH]; simpl; auto. destruct (eqb e x); auto. Qed.

  Lemma left_get_nth (l : list (nat * T)) : map fst l = rev (seq 0 (length l)) ->
    forall i, left_get l i = nth_error (rev (map snd l)) i.
  Proof.
    induction l as [|[j x] l IH]; intros H i.
    - destruct i; auto.
    - cbn [length] in H. rewrite seq_S, rev_app_distr in H. cbn in H. injection H as H1 H2. subst j.
      cbn [left_get map snd rev]. destruct (Nat.eqb_spec (length l) i) as [<-|N].
      + rewrite nth_error_app2; rewrite rev_length, map_length; auto. rewrite Nat.sub_diag. auto.
      + rewrite IH by auto. destruct (lt_dec i (length l)).
        * rewrite nth_error_app1; auto. rewrite rev_length, map_length. auto.
        * rewrite (proj2 (nth_error_None _ _)), (proj2 (nth_error_None _ _)); auto;
            rewrite ?app_length, rev_length, map_length; cbn; lia.
  Qed.

  Lemma left_ids_below (l : list (nat * T)) p : map fst l = rev (seq 0 (length l)) -> In p l -> fst p < length l.
  Proof.
    intros H I. apply (in_map fst) in I. rewrite H in I. apply in_rev in I. apply in_seq in I. lia.
  Qed.

  Lemma right_get_none (l : list (nat * T)) e p : right_get eqb l e = None -> In p l -> eqb e (snd p) = false.
  Proof.
    induction l as [|[i x] l IH]; intros H []; simpl in H.
    - subst. simpl. destruct (eqb e x); auto. discriminate.
    - destruct (eqb e x); [discriminate|]. auto.
  Qed.

  Lemma bi_put_new (l : list (nat * T)) e : map fst l = rev (seq 0 (length l)) -> right_get eqb l e = None ->
    bi_put eqb l (length l) e = (length l, e) :: l.
  Proof.
    intros H N. unfold bi_put. f_equal.
    assert (forall m, incl m l -> filter (fun p => negb (Nat.eqb (fst p) (length l)) && negb (eqb e (snd p))) m = m) as F.
    { induction m as [|p m IH]; intros I; simpl; auto. rewrite (right_get_none l e p N) by (apply I; simpl; auto).
      pose proof (left_ids_below l p H (I p (or_introl eq_refl))).
      destruct (Nat.eqb_spec (fst p) (length l)); [lia|]. simpl. f_equal. apply IH. intros q Hq. apply I. right. auto. }
    apply F. intros x; auto.
  Qed.
End BiHash.

Section Dt.
  Context {K : SR} (L : lsr_laws K) (D : det_weight K)
    (ord : dtuple K -> nat -> list (nat * K) -> list (nat * K)) (f : vfst K) (in_dist : option (list K)).
  Notation tuple := (dtuple K).

  Lemma pairs_eqb_spec : forall a b : list (nat * K), reflect (a = b) (pairs_eqb a b).
  Proof.
    induction a as [|[q w] a IH]; intros [|[p v] b]; simpl; try (constructor; congruence).
    destruct (Nat.eqb_spec q p); [|constructor; congruence]. destruct (keqbP L w v); [|constructor; congruence].
    destruct (IH b); constructor; congruence.
  Qed.
  Lemma dtuple_eqb_spec (a b : tuple) : reflect (a = b) (dtuple_eqb a b).
  Proof.
    destruct a as [a i], b as [b j]. unfold dtuple_eqb. cbn [fst snd].
    destruct (pairs_eqb_spec a b); [|constructor; congruence]. destruct (Nat.eqb_spec i j); constructor; congruence.
  Qed.

  Definition dabs (t : det_table K) : bimap tuple :=
    BM (map (fun p => (snd p, fst p)) (dt_map t)) (rev (map snd (dt_map t))).
  (** With distances: one per subset, the one computed from it. *)
  Definition dJ (t : det_table K) : Prop :=
    map fst (dt_map t) = rev (seq 0 (length (dt_map t))) /\
    forall dist, in_dist = Some dist ->
      Forall2 (fun o (e : tuple) => exists w, o = Some w /\ compute_distance D dist (fst e) = Ok w) (dt_out t) (rev (map snd (dt_map t))).

  Lemma dJ_new : dJ dt_new.
  Proof. split; auto. intros. constructor. Qed.

  Lemma dt_tuple_ok t id : dJ t -> dt_tuple t id = find_tuple (dabs t) id.
  Proof.
    intros [H _]. unfold dt_tuple, find_tuple, get_tuple_unchecked. rewrite left_get_nth by auto. auto.
  Qed.

  Lemma upd_last {A} (l : list A) a b : upd (l ++ [a]) (length l) b = l ++ [b].
  Proof. induction l; simpl; congruence. Qed.

  Lemma dt_find_ok t e t' i : dJ t -> dt_find D in_dist t e = Ok (t', i) -> dJ t' /\ find_id dtuple_eqb (dabs t) e = (dabs t', i).
  Proof.
    intros [H U]. unfold dt_find, find_id, get_id_or_insert, dabs at 1. cbn [tuple_to_id].
    rewrite assoc_right_get. destruct (right_get dtuple_eqb (dt_map t) e) as [j|] eqn:E.
    { intros [= <- <-]. split; [split; auto|auto]. }
    rewrite bi_put_new by auto.
    assert (M : map fst ((length (dt_map t), e) :: dt_map t) = rev (seq 0 (length ((length (dt_map t), e) :: dt_map t)))).
    { cbn [length map fst]. rewrite seq_S, rev_app_distr, H. auto. }
    assert (A : forall o, (BM ((e, length (id_to_tuple (dabs t))) :: map (fun p => (snd p, fst p)) (dt_map t)) (id_to_tuple (dabs t) ++ [e]), length (id_to_tuple (dabs t)))
        = (dabs (DT ((length (dt_map t), e) :: dt_map t) o), length (dt_map t))).
    { intros o. unfold dabs; cbn [id_to_tuple tuple_to_id dt_map map snd fst rev]; rewrite rev_length, map_length; auto. }
    destruct in_dist as [dist|] eqn:Ed.
    - pose proof (U dist eq_refl) as UF. pose proof (Forall2_len _ _ _ UF) as LEN. rewrite rev_length, map_length in LEN.
      destruct (Nat.leb_spec (length (dt_out t)) (length (dt_map t))); [|lia].
      replace (length (dt_map t) + 1 - length (dt_out t)) with 1 by lia. cbn [repeat].
      rewrite nth_error_app2 by lia. rewrite LEN, Nat.sub_diag. cbn [nth_error].
      destruct (compute_distance D dist (fst e)) as [w| |] eqn:W; cbn [rbind]; try discriminate. intros [= <- <-].
      rewrite <- LEN at 2. rewrite upd_last. split; [|apply A]. split; [exact M|].
      intros d Hd. assert (d = dist) as -> by congruence. cbn [dt_out dt_map map snd rev]. apply Forall2_app; auto. constructor; auto. eauto.
    - intros [= <- <-]. split; [|apply A]. split; [exact M|]. intros d Hd. congruence.
  Qed.

  Lemma dt_number_ok l : forall t t' r, dJ t -> dt_number D in_dist t l = Ok (t', r) -> dJ t' /\
    exists is, find_ids dtuple_eqb (dabs t) (map tn l) = (dabs t', is) /\
      r = map (fun p => Tr (ti (fst p)) (to (fst p)) (tw (fst p)) (snd p)) (combine l is).
  Proof.
    induction l as [|u l IH]; intros t t' r J; cbn [dt_number map find_ids].
    - intros [= <- <-]. split; auto. exists []. auto.
    - destruct (dt_find D in_dist t (tn u)) as [[t1 n]| |] eqn:E1; cbn [rbind fst snd]; try discriminate.
      destruct (dt_number D in_dist t1 l) as [[t2 r2]| |] eqn:E2; cbn [rbind fst snd]; try discriminate.
      intros [= <- <-]. destruct (dt_find_ok _ _ _ _ J E1) as [J1 F1]. destruct (IH _ _ _ J1 E2) as (J2 & is & F2 & ->).
      split; auto. rewrite F1, F2. exists (n :: is). auto.
  Qed.

  Definition det_top : fst_op K (bimap tuple) :=
    table_op dtuple_eqb (det_start f) (det_trs D ord f) (det_fin D f) 0%N.
  Notation dop := (det_op D ord f in_dist).

  Lemma det_hstart o s o' : dJ o -> compute_start dop o = Ok (s, o') -> dJ o' /\ compute_start det_top (dabs o) = Ok (s, dabs o').
  Proof.
    intros J. cbn. destruct (vstart f) as [q|].
    - destruct (dt_find D in_dist o ([(q, kone)], q)) as [[t n]| |] eqn:E; cbn [rbind fst snd]; try discriminate. intros [= <- <-].
      destruct (dt_find_ok _ _ _ _ J E) as [J1 F1]. rewrite F1. auto.
    - intros [= <- <-]. auto.
  Qed.
  Lemma det_htrs i o s o' : dJ o -> compute_trs dop i o = Ok (s, o') -> dJ o' /\ compute_trs det_top i (dabs o) = Ok (s, dabs o').
  Proof.
    intros J. cbn [compute_trs det_op det_top table_op]. rewrite dt_tuple_ok by auto.
    destruct (find_tuple (dabs o) i) as [e| |]; cbn [rbind]; try discriminate.
    destruct (det_trs D ord f e) as [l| |]; cbn [rbind]; try discriminate.
    destruct (dt_number D in_dist o l) as [[t r]| |] eqn:E; cbn [rbind fst snd]; try discriminate. intros [= <- <-].
    destruct (dt_number_ok _ _ _ _ J E) as (J1 & is & F & ->). rewrite F. auto.
  Qed.
  Lemma det_hfin i o s o' : dJ o -> compute_final_weight dop i o = Ok (s, o') -> dJ o' /\ compute_final_weight det_top i (dabs o) = Ok (s, dabs o').
  Proof.
    intros J. cbn [compute_final_weight det_op det_top table_op]. rewrite dt_tuple_ok by auto.
    destruct (find_tuple (dabs o) i) as [e| |]; cbn [rbind]; try discriminate.
    destruct (det_fin D f e) as [l| |]; cbn [rbind]; try discriminate.
    intros [= <- <-]. auto.
  Qed.

  Context (TP : in_dist = None \/ forall a b, exists c, d_plus D a b = Ok c).
  Lemma dt_find_live t e : dJ t -> exists x, dt_find D in_dist t e = Ok x.
  Proof.
    intros [H U]. unfold dt_find. destruct (right_get _ _ _); eauto. destruct in_dist as [dist|] eqn:Ed; eauto.
    pose proof (U dist eq_refl) as UF. pose proof (Forall2_len _ _ _ UF) as LEN. rewrite rev_length, map_length in LEN.
    destruct (Nat.leb_spec (length (dt_out t)) (length (dt_map t))); [|lia].
    replace (length (dt_map t) + 1 - length (dt_out t)) with 1 by lia. cbn [repeat].
    rewrite nth_error_app2 by lia. rewrite LEN, Nat.sub_diag. cbn [nth_error].
    destruct TP as [TP'|TP']; [discriminate|].
    assert (G : forall l a, exists w, rfold (fun acc e0 => d_plus D acc (ktimes (snd e0) (nth (fst e0) dist kzero))) l a = Ok w).
    { induction l as [|x l IH]; intros a; [exists a; reflexivity|]. rewrite rfold_cons.
      destruct (TP' a (ktimes (snd x) (nth (fst x) dist kzero))) as [c ->]. cbn [rbind]. apply IH. }
    unfold compute_distance. destruct (G (fst e) kzero) as [w ->]. cbn [rbind]. eauto.
  Qed.
  Lemma dt_number_live l : forall t, dJ t -> exists x, dt_number D in_dist t l = Ok x.
  Proof.
    induction l as [|u l IH]; intros t J; cbn [dt_number]; eauto.
    destruct (dt_find_live t (tn u) J) as [[t1 n] E]. rewrite E. cbn [rbind fst snd].
    destruct (dt_find_ok _ _ _ _ J E) as [J1 _]. destruct (IH t1 J1) as [[t2 r] ->]. cbn [rbind]. eauto.
  Qed.
  Lemma det_lstart o r : dJ o -> compute_start det_top (dabs o) = Ok r -> exists r', compute_start dop o = Ok r'.
  Proof.
    intros J _. cbn. destruct (vstart f) as [q|]; eauto. destruct (dt_find_live o ([(q, kone)], q) J) as [x ->]. cbn [rbind]. eauto.
  Qed.
  Lemma det_ltrs i o r : dJ o -> compute_trs det_top i (dabs o) = Ok r -> exists r', compute_trs dop i o = Ok r'.
  Proof.
    intros J. cbn [compute_trs det_op det_top table_op]. rewrite dt_tuple_ok by auto.
    destruct (find_tuple (dabs o) i) as [e| |]; cbn [rbind]; try discriminate.
    destruct (det_trs D ord f e) as [l| |]; cbn [rbind]; try discriminate.
    destruct (dt_number_live l o J) as [x ->]. cbn [rbind]. eauto.
  Qed.
  Lemma det_lfin i o r : dJ o -> compute_final_weight det_top i (dabs o) = Ok r -> exists r', compute_final_weight dop i o = Ok r'.
  Proof.
    intros J. cbn [compute_final_weight det_op det_top table_op]. rewrite dt_tuple_ok by auto.
    destruct (find_tuple (dabs o) i) as [e| |]; cbn [rbind]; try discriminate.
    destruct (det_fin D f e) as [l| |]; cbn [rbind]; try discriminate. eauto.
  Qed.
End Dt.
