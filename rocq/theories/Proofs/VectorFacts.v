(** View lemmas for [VectorFst] operations. *)
From Coq Require Import List Arith NArith Lia Bool Permutation.
From Verif Require Import Base.Util Base.Semiring Base.Machine Model.Props Model.VectorFst.
Import ListNotations.

Section F.
  Context {K : SR}.
  Implicit Types (f : vfst K) (t : tr K) (s : nat).

  Definition with_trs (m : machine K) (s : nat) (l : list (tr K)) : machine K :=
    Mach (mstart m) (fun q => if Nat.eqb q s then l else mtrs m q) (mfin m).
  Definition with_fin (m : machine K) (s : nat) (w : option K) : machine K :=
    Mach (mstart m) (mtrs m) (fun q => if Nat.eqb q s then w else mfin m q).

  Lemma trs_of_oob f s : num_states f <= s -> trs_of f s = [].
  Proof.
    intros H. unfold trs_of. destruct (nth_error (vstates f) s) eqn:E; auto.
    apply nth_error_lt in E. unfold num_states in H. lia.
  Qed.
  Lemma fin_of_oob f s : num_states f <= s -> fin_of f s = None.
  Proof.
    intros H. unfold fin_of. destruct (nth_error (vstates f) s) eqn:E; auto.
    apply nth_error_lt in E. unfold num_states in H. lia.
  Qed.
  Lemma trs_of_in f s t : In t (trs_of f s) -> s < num_states f.
  Proof.
    unfold trs_of. destruct (nth_error (vstates f) s) eqn:E; simpl; [|tauto].
    intros _. apply nth_error_lt in E. exact E.
  Qed.
  Lemma fin_of_some f s w : fin_of f s = Some w -> s < num_states f.
  Proof.
    unfold fin_of. destruct (nth_error (vstates f) s) eqn:E; simpl; [|discriminate].
    intros _. apply nth_error_lt in E. exact E.
  Qed.

  Lemma trs_of_upd f s st p q :
    s < num_states f ->
    trs_of (upd_state f s st p) q = if Nat.eqb q s then vtrs st else trs_of f q.
  Proof.
    intros H. unfold trs_of, upd_state; simpl. rewrite nth_error_upd.
    rewrite (Nat.eqb_sym q s). destruct (Nat.eqb_spec s q).
    - subst. apply Nat.ltb_lt in H. unfold num_states in H. rewrite H. reflexivity.
    - reflexivity.
  Qed.
  Lemma fin_of_upd f s st p q :
    s < num_states f ->
    fin_of (upd_state f s st p) q = if Nat.eqb q s then vfin st else fin_of f q.
  Proof.
    intros H. unfold fin_of, upd_state; simpl. rewrite nth_error_upd.
    rewrite (Nat.eqb_sym q s). destruct (Nat.eqb_spec s q).
    - subst. apply Nat.ltb_lt in H. unfold num_states in H. rewrite H. reflexivity.
    - reflexivity.
  Qed.

  Lemma num_states_upd f s st p : num_states (upd_state f s st p) = num_states f.
  Proof. apply upd_length. Qed.

  Lemma trs_of_add_states f n q : trs_of (add_states f n) q = trs_of f q.
  Proof.
    unfold trs_of, add_states; simpl. destruct (Nat.ltb_spec q (length (vstates f))).
    - rewrite nth_error_app1 by auto. reflexivity.
    - rewrite nth_error_app2 by auto.
      rewrite (proj2 (nth_error_None (vstates f) q)) by auto.
      destruct (nth_error (repeat new_state n) (q - length (vstates f))) eqn:E; auto.
      apply nth_error_In, repeat_spec in E. subst. reflexivity.
  Qed.
  Lemma fin_of_add_states f n q : fin_of (add_states f n) q = fin_of f q.
  Proof.
    unfold fin_of, add_states; simpl. destruct (Nat.ltb_spec q (length (vstates f))).
    - rewrite nth_error_app1 by auto. reflexivity.
    - rewrite nth_error_app2 by auto.
      rewrite (proj2 (nth_error_None (vstates f) q)) by auto.
      destruct (nth_error (repeat new_state n) (q - length (vstates f))) eqn:E; auto.
      apply nth_error_In, repeat_spec in E. subst. reflexivity.
  Qed.
  Lemma add_state_eq f : fst (add_state f) = add_states f 1.
  Proof. reflexivity. Qed.
  Lemma num_states_add_states f n : num_states (add_states f n) = num_states f + n.
  Proof. unfold num_states, add_states; simpl. rewrite app_length, repeat_length. reflexivity. Qed.

  Lemma get_state_nth f s st : get_state f s = Ok st <-> nth_error (vstates f) s = Some st.
  Proof. unfold get_state. destruct (nth_error (vstates f) s); split; congruence. Qed.

  (** No transition leaves the state set. *)
  Definition closed (f : vfst K) : Prop :=
    (forall s t, In t (trs_of f s) -> ns t < num_states f) /\
    (forall s, vstart f = Some s -> s < num_states f).
End F.
