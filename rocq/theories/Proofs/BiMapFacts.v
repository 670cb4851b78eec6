(** Facts about two-way tables. *)
From Coq Require Import List Arith Bool Lia.
From Verif Require Import Base.Util Model.BiMap.
Import ListNotations.

Section BiMap.
  Context {T : Type} (eqb : T -> T -> bool) (eqb_spec : forall a b, reflect (a = b) (eqb a b)).
  Implicit Types (b : bimap T) (t : T).

  (** The invariant of a table. *)
  Definition bm_ok b :=
    (forall t i, assoc eqb (tuple_to_id b) t = Some i <-> nth_error (id_to_tuple b) i = Some t).

  Lemma eqb_refl t : eqb t t = true.
  Proof. destruct (eqb_spec t t); congruence. Qed.

  Lemma bm_new_ok : bm_ok bm_new.
  Proof. intros t i. simpl. destruct i; simpl; split; discriminate. Qed.

  Lemma bm_none b t : bm_ok b -> (assoc eqb (tuple_to_id b) t = None <-> ~ In t (id_to_tuple b)).
  Proof.
    intros H. split.
    - intros A I. apply In_nth_error in I as [i I]. apply H in I. congruence.
    - intros A. destruct (assoc _ _ t) eqn:E; auto. apply H in E. apply nth_error_In in E. tauto.
  Qed.

  Lemma bm_nodup b : bm_ok b -> NoDup (id_to_tuple b).
  Proof.
    intros H. apply NoDup_nth_error. intros i j Hi E.
    destruct (nth_error (id_to_tuple b) i) as [t|] eqn:A.
    - apply H in A. symmetry in E. apply H in E. congruence.
    - apply nth_error_None in A. lia.
  Qed.

  Lemma find_id_ok b t b' i : bm_ok b -> find_id eqb b t = (b', i) ->
    bm_ok b' /\ nth_error (id_to_tuple b') i = Some t /\
    ((In t (id_to_tuple b) /\ b' = b) \/
     (~ In t (id_to_tuple b) /\ id_to_tuple b' = id_to_tuple b ++ [t] /\ i = length (id_to_tuple b))).
  Proof.
    unfold find_id, get_id_or_insert. intros H.
    destruct (assoc eqb (tuple_to_id b) t) as [j|] eqn:E; intros [= <- <-].
    - apply H in E. split; auto. split; auto. left. split; auto. eapply nth_error_In; eauto.
    - pose proof (proj1 (bm_none b t H) E) as NI. split; [|split].
      + intros t' i. simpl. destruct (eqb_spec t' t) as [->|N].
        * split.
          -- intros [= <-]. rewrite nth_error_app2, Nat.sub_diag; auto.
          -- intros A. f_equal.
             destruct (lt_dec i (length (id_to_tuple b))) as [L|L].
             ++ rewrite nth_error_app1 in A by auto. apply nth_error_In in A. tauto.
             ++ assert (i < length (id_to_tuple b ++ [t])) by (apply nth_error_Some; congruence).
                rewrite app_length in *. simpl in *. lia.
        * rewrite (H t' i). split.
          -- intros A. rewrite nth_error_app1; auto. apply nth_error_Some. congruence.
          -- intros A. destruct (lt_dec i (length (id_to_tuple b))) as [L|L].
             ++ rewrite nth_error_app1 in A by auto. auto.
             ++ rewrite nth_error_app2 in A by lia.
                destruct (i - length (id_to_tuple b)) as [|k]; simpl in A;
                  [congruence | destruct k; discriminate].
      + simpl. rewrite nth_error_app2, Nat.sub_diag; auto.
      + right. auto.
  Qed.

  Lemma find_ids_app b l1 l2 : find_ids eqb b (l1 ++ l2) =
    (let (b1, i1) := find_ids eqb b l1 in let (b2, i2) := find_ids eqb b1 l2 in (b2, i1 ++ i2)).
  Proof.
    revert b. induction l1 as [|t l1 IH]; intros b; simpl.
    - destruct (find_ids eqb b l2); auto.
    - destruct (find_id eqb b t) as [b1 i]. rewrite IH.
      destruct (find_ids eqb b1 l1) as [b2 i1]. destruct (find_ids eqb b2 l2) as [b3 i2]. auto.
  Qed.

  Lemma find_ids_ok l : forall b b' is, bm_ok b -> find_ids eqb b l = (b', is) ->
    bm_ok b' /\ length is = length l /\
    (exists ext, id_to_tuple b' = id_to_tuple b ++ ext) /\
    (forall t, In t (id_to_tuple b') <-> In t (id_to_tuple b) \/ In t l) /\
    (forall k t, nth_error l k = Some t -> exists i, nth_error is k = Some i /\ nth_error (id_to_tuple b') i = Some t).
  Proof.
    induction l as [|t l IH]; simpl; intros b b' is H E.
    - injection E as <- <-. split; auto. split; auto. split; [exists []; rewrite app_nil_r; auto|].
      split; [tauto|]. intros [|k] t'; discriminate.
    - destruct (find_id eqb b t) as [b1 i] eqn:E1. destruct (find_ids eqb b1 l) as [b2 is'] eqn:E2.
      injection E as <- <-. destruct (find_id_ok _ _ _ _ H E1) as (H1 & A & B).
      destruct (IH _ _ _ H1 E2) as (H2 & L & [ext X] & M & C).
      split; auto. split; [simpl; lia|]. split.
      { destruct B as [[_ ->]|(_ & B & _)]; [eauto|]. rewrite B in X. rewrite <- app_assoc in X. eauto. }
      split.
      { intros t'. rewrite M. destruct B as [[I ->]|(_ & B & _)].
        - split; [tauto|]. intros [?|[<-|?]]; auto.
        - rewrite B, in_app_iff. simpl. tauto. }
      intros [|k] t' N; simpl in *; auto.
      injection N as ->. exists i. split; auto. rewrite X, nth_error_app1; auto.
      apply nth_error_Some. congruence.
  Qed.
End BiMap.
