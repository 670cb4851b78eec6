(** The state table of weight factoring behaves like the generic two-way table. *)
From Coq Require Import List Arith NArith Bool Lia.
From Verif Require Import Base.Util Base.Semiring Base.Machine Model.Props Model.AlgoProps Model.VectorFst
  Model.BiMap Model.Lazy Model.FactorWeight.
From Verif Require Import Proofs.BiMapFacts Proofs.LazyFacts.
Import ListNotations.

(** ** Operations that differ only in the representation of their private state *)
Section Transfer.
  Context {K : SR} {O O' : Type} (op : fst_op K O) (op' : fst_op K O') (abs : O' -> O) (J : O' -> Prop).
  Context (Hstart : forall o s o', J o -> compute_start op' o = Ok (s, o') -> J o' /\ compute_start op (abs o) = Ok (s, abs o')).
  Context (Htrs : forall i o s o', J o -> compute_trs op' i o = Ok (s, o') -> J o' /\ compute_trs op i (abs o) = Ok (s, abs o')).
  Context (Hfin : forall i o s o', J o -> compute_final_weight op' i o = Ok (s, o') -> J o' /\ compute_final_weight op i (abs o) = Ok (s, abs o')).
  Context (I : O -> Prop) (le : O -> O -> Prop) (okS : O -> option nat -> Prop)
    (okT : O -> nat -> list (tr K) -> Prop) (okF : O -> nat -> option K -> Prop) (V : O -> nat -> Prop).

  Lemma transfer_spec : op_spec op I le okS okT okF ->
    op_spec op' (fun o => J o /\ I (abs o)) (fun a b => le (abs a) (abs b)) (fun o => okS (abs o))
      (fun o => okT (abs o)) (fun o => okF (abs o)).
  Proof.
    intros S. split.
    - intros o. apply (le_refl _ _ _ _ _ _ S).
    - intros a b c. apply (le_trans _ _ _ _ _ _ S).
    - intros a b s. apply (okS_mono _ _ _ _ _ _ S).
    - intros a b i l. apply (okT_mono _ _ _ _ _ _ S).
    - intros a b i l. apply (okF_mono _ _ _ _ _ _ S).
    - intros o s o' [HJ HI] E. destruct (Hstart _ _ _ HJ E) as [J' E'].
      destruct (op_start _ _ _ _ _ _ S _ _ _ HI E') as (A & B & D). auto.
    - intros i o s o' [HJ HI] E. destruct (Htrs _ _ _ _ HJ E) as [J' E'].
      destruct (op_trs _ _ _ _ _ _ S _ _ _ _ HI E') as (A & B & D). auto.
    - intros i o s o' [HJ HI] E. destruct (Hfin _ _ _ _ HJ E) as [J' E'].
      destruct (op_fin _ _ _ _ _ _ S _ _ _ _ HI E') as (A & B & D). auto.
  Qed.

  Context (Lstart : forall o r, J o -> compute_start op (abs o) = Ok r -> exists r', compute_start op' o = Ok r').
  Context (Ltrs : forall i o r, J o -> compute_trs op i (abs o) = Ok r -> exists r', compute_trs op' i o = Ok r').
  Context (Lfin : forall i o r, J o -> compute_final_weight op i (abs o) = Ok r -> exists r', compute_final_weight op' i o = Ok r').

  Lemma transfer_live : op_live op I okS okT le V ->
    op_live op' (fun o => J o /\ I (abs o)) (fun o => okS (abs o)) (fun o => okT (abs o))
      (fun a b => le (abs a) (abs b)) (fun o => V (abs o)).
  Proof.
    intros S. split.
    - intros a b i. apply (V_mono _ _ _ _ _ _ S).
    - intros o s. apply (V_start _ _ _ _ _ _ S).
    - intros o i l t. apply (V_trs _ _ _ _ _ _ S).
    - intros o [HJ HI]. destruct (live_start _ _ _ _ _ _ S _ HI) as [r E]. eauto.
    - intros i o [HJ HI] HV. destruct (live_trs _ _ _ _ _ _ S _ _ HI HV) as [r E]. eauto.
    - intros i o [HJ HI] HV. destruct (live_fin _ _ _ _ _ _ S _ _ HI HV) as [r E]. eauto.
  Qed.
End Transfer.

Section Fwt.
  Context {K : SR} (L : lsr_laws K) (arc : bool).
  Notation elt := (element K).

  Lemma elt_eqb_spec (a b : elt) : reflect (a = b) (elt_eqb a b).
  Proof.
    destruct a as [[s|] w], b as [[t|] v]; unfold elt_eqb; cbn [fst snd andb]; try (constructor; congruence).
    - destruct (Nat.eqb_spec s t); [|constructor; congruence]. destruct (keqbP L w v); constructor; congruence.
    - destruct (keqbP L w v); constructor; congruence.
  Qed.

  Definition fabs (t : fw_table K) : bimap elt :=
    BM (map (fun p => (snd p, fst p)) (fwt_map t)) (rev (map snd (fwt_map t))).
  Definition fJ (t : fw_table K) : Prop :=
    map fst (fwt_map t) = rev (seq 0 (length (fwt_map t))) /\
    (arc = false -> forall s, lookup (fwt_unfactored t) s = by_right (fwt_map t) (Some s, kone)).

  Lemma assoc_by_right (l : list (nat * elt)) e : assoc elt_eqb (map (fun p => (snd p, fst p)) l) e = by_right l e.
  Proof. induction l as [|[i x] l IH]; simpl; auto. destruct (elt_eqb e x); auto. Qed.

  Lemma by_left_nth (l : list (nat * elt)) : map fst l = rev (seq 0 (length l)) ->
    forall i, by_left l i = nth_error (rev (map snd l)) i.
  Proof.
    induction l as [|[j x] l IH]; intros H i.
    - destruct i; auto.
    - cbn [length] in H. rewrite seq_S, rev_app_distr in H. cbn in H. injection H as H1 H2. subst j.
      cbn [by_left map snd rev]. destruct (Nat.eqb_spec (length l) i) as [<-|N].
      + rewrite nth_error_app2; rewrite rev_length, map_length; auto. rewrite Nat.sub_diag. auto.
      + rewrite IH by auto. destruct (lt_dec i (length l)).
        * rewrite nth_error_app1; auto. rewrite rev_length, map_length. auto.
        * rewrite (proj2 (nth_error_None _ _)), (proj2 (nth_error_None _ _)); auto;
            rewrite ?app_length, rev_length, map_length; cbn; lia.
  Qed.

  Lemma ids_below (l : list (nat * elt)) p : map fst l = rev (seq 0 (length l)) -> In p l -> fst p < length l.
  Proof.
    intros H I. apply (in_map fst) in I. rewrite H in I. apply in_rev in I. apply in_seq in I. lia.
  Qed.

  Lemma by_right_none (l : list (nat * elt)) e p : by_right l e = None -> In p l -> elt_eqb e (snd p) = false.
  Proof.
    induction l as [|[i x] l IH]; intros H []; simpl in H.
    - subst. simpl. destruct (elt_eqb e x); auto. discriminate.
    - destruct (elt_eqb e x); [discriminate|]. auto.
  Qed.

  Lemma bi_insert_new (l : list (nat * elt)) e : map fst l = rev (seq 0 (length l)) -> by_right l e = None ->
    bi_insert l (length l) e = (length l, e) :: l.
  Proof.
    intros H N. unfold bi_insert. f_equal.
    assert (forall m, incl m l -> filter (fun p => negb (Nat.eqb (fst p) (length l)) && negb (elt_eqb e (snd p))) m = m) as F.
    { induction m as [|p m IH]; intros I; simpl; auto. rewrite (by_right_none l e p N) by (apply I; simpl; auto).
      pose proof (ids_below l p H (I p (or_introl eq_refl))).
      destruct (Nat.eqb_spec (fst p) (length l)); [lia|]. simpl. f_equal. apply IH. intros q Hq. apply I. right. auto. }
    apply F. intros x; auto.
  Qed.

  Lemma fJ_new : fJ fwt_new.
  Proof. split; auto. Qed.

  Lemma fw_tuple t id : fJ t -> fw_find_tuple t id = find_tuple (fabs t) id.
  Proof.
    intros [H _]. unfold fw_find_tuple, find_tuple, get_tuple_unchecked. rewrite by_left_nth by auto. auto.
  Qed.

  Lemma fw_state t e t' i : fJ t -> fw_find_state arc t e = (t', i) -> fJ t' /\ find_id elt_eqb (fabs t) e = (fabs t', i).
  Proof.
    intros [H U].
    assert (P : find_id_or_insert t e = (t', i) -> (arc = false -> forall s, e <> (Some s, kone)) ->
      fJ t' /\ find_id elt_eqb (fabs t) e = (fabs t', i)).
    { unfold find_id_or_insert, find_id, get_id_or_insert, fabs at 1. cbn [tuple_to_id].
      rewrite assoc_by_right. destruct (by_right (fwt_map t) e) as [j|] eqn:E.
      - intros [= <- <-]. split; [split; auto|auto].
      - intros [= <- <-] NE. rewrite bi_insert_new by auto. split.
        + split; cbn [fwt_map fwt_unfactored].
          * cbn [length map fst]. rewrite seq_S, rev_app_distr, H. auto.
          * intros Ha s. rewrite (U Ha). cbn [by_right]. destruct (elt_eqb_spec (Some s, kone) e); auto.
            exfalso. eapply NE; eauto.
        + f_equal; unfold fabs; cbn [id_to_tuple tuple_to_id fwt_map map snd fst rev]; rewrite rev_length, map_length; auto. }
    unfold fw_find_state. destruct (fst e) as [s|] eqn:Es.
    - destruct (negb arc && keqb (snd e) kone) eqn:C.
      + apply andb_true_iff in C as [C1 C2]. apply negb_true_iff in C1. apply (keqb_true L) in C2.
        assert (e = (Some s, kone)) as -> by (destruct e; simpl in *; congruence). rewrite (U C1 s).
        unfold find_id, get_id_or_insert, fabs at 1. cbn [tuple_to_id].
        rewrite assoc_by_right. destruct (by_right (fwt_map t) (Some s, kone)) as [j|] eqn:E.
        * intros [= <- <-]. split; [split; auto|auto].
        * intros [= <- <-]. rewrite bi_insert_new by auto. split.
          -- split; cbn [fwt_map fwt_unfactored].
             ++ cbn [length map fst]. rewrite seq_S, rev_app_distr, H. auto.
             ++ intros _ q. rewrite lookup_insert. rewrite (U C1). cbn [by_right].
                destruct (Nat.eqb_spec s q) as [->|N].
                ** destruct (elt_eqb_spec (Some q, @kone K) (Some q, kone)); congruence.
                ** destruct (elt_eqb_spec (Some q, @kone K) (Some s, kone)); congruence.
          -- f_equal; unfold fabs; cbn [id_to_tuple tuple_to_id fwt_map map snd fst rev]; rewrite rev_length, map_length; auto.
      + intros E. apply P; auto. intros -> q ->. simpl in C. rewrite (keqb_refl L) in C. discriminate.
    - intros E. apply P; auto. intros _ q ->. discriminate.
  Qed.

  Lemma fw_number_ok l : forall t t' r, fJ t -> fw_number arc t l = (t', r) -> fJ t' /\
    exists is, find_ids elt_eqb (fabs t) (map tn l) = (fabs t', is) /\
      r = map (fun p => Tr (ti (fst p)) (to (fst p)) (tw (fst p)) (snd p)) (combine l is).
  Proof.
    induction l as [|u l IH]; intros t t' r J; cbn [fw_number map find_ids].
    - intros [= <- <-]. split; auto. exists []. auto.
    - destruct (fw_find_state arc t (tn u)) as [t1 n] eqn:E1. destruct (fw_number arc t1 l) as [t2 r2] eqn:E2.
      intros [= <- <-]. destruct (fw_state _ _ _ _ J E1) as [J1 F1]. destruct (IH _ _ _ J1 E2) as (J2 & is & F2 & ->).
      split; auto. rewrite F1, F2. exists (n :: is). auto.
  Qed.

  Context (FI : factor_iter K) (opts : fw_opts K) (f : vfst K) (Harc : fw_arc opts = arc).

  Definition fw_top : fst_op K (bimap elt) :=
    table_op elt_eqb (fw_start f) (fw_trs FI opts f) (fw_fin FI opts f) (factor_weight_properties (vprops f)).

  Lemma fw_hstart o s o' : fJ o -> compute_start (fw_op FI opts f) o = Ok (s, o') ->
    fJ o' /\ compute_start fw_top (fabs o) = Ok (s, fabs o').
  Proof.
    intros J. cbn. rewrite Harc. destruct (vstart f) as [q|].
    - destruct (fw_find_state arc o (Some q, kone)) as [t n] eqn:E. intros [= <- <-].
      destruct (fw_state _ _ _ _ J E) as [J1 F1]. rewrite F1. auto.
    - intros [= <- <-]. auto.
  Qed.
  Lemma fw_htrs i o s o' : fJ o -> compute_trs (fw_op FI opts f) i o = Ok (s, o') ->
    fJ o' /\ compute_trs fw_top i (fabs o) = Ok (s, fabs o').
  Proof.
    intros J. cbn [compute_trs fw_op fw_top table_op]. rewrite Harc, fw_tuple by auto.
    destruct (find_tuple (fabs o) i) as [e| |]; cbn [rbind]; try discriminate.
    destruct (fw_trs FI opts f e) as [l| |]; cbn [rbind]; try discriminate.
    destruct (fw_number arc o l) as [t r] eqn:E. intros [= <- <-].
    destruct (fw_number_ok _ _ _ _ J E) as (J1 & is & F & ->). rewrite F. auto.
  Qed.
  Lemma fw_hfin i o s o' : fJ o -> compute_final_weight (fw_op FI opts f) i o = Ok (s, o') ->
    fJ o' /\ compute_final_weight fw_top i (fabs o) = Ok (s, fabs o').
  Proof.
    intros J. cbn [compute_final_weight fw_op fw_top table_op]. rewrite fw_tuple by auto.
    destruct (find_tuple (fabs o) i) as [e| |]; cbn [rbind]; try discriminate.
    destruct (fw_fin FI opts f e) as [l| |]; cbn [rbind]; try discriminate.
    intros [= <- <-]. auto.
  Qed.
  Lemma fw_lstart o r : fJ o -> compute_start fw_top (fabs o) = Ok r -> exists r', compute_start (fw_op FI opts f) o = Ok r'.
  Proof.
    intros J _. cbn. destruct (vstart f); eauto. destruct (fw_find_state (fw_arc opts) o (Some n, kone)). eauto.
  Qed.
  Lemma fw_ltrs i o r : fJ o -> compute_trs fw_top i (fabs o) = Ok r -> exists r', compute_trs (fw_op FI opts f) i o = Ok r'.
  Proof.
    intros J. cbn [compute_trs fw_op fw_top table_op]. rewrite fw_tuple by auto.
    destruct (find_tuple (fabs o) i) as [e| |]; cbn [rbind]; try discriminate.
    destruct (fw_trs FI opts f e) as [l| |]; cbn [rbind]; try discriminate.
    destruct (fw_number (fw_arc opts) o l). eauto.
  Qed.
  Lemma fw_lfin i o r : fJ o -> compute_final_weight fw_top i (fabs o) = Ok r -> exists r', compute_final_weight (fw_op FI opts f) i o = Ok r'.
  Proof.
    intros J. cbn [compute_final_weight fw_op fw_top table_op]. rewrite fw_tuple by auto.
    destruct (find_tuple (fabs o) i) as [e| |]; cbn [rbind]; try discriminate.
    destruct (fw_fin FI opts f e) as [l| |]; cbn [rbind]; try discriminate. eauto.
  Qed.
End Fwt.
