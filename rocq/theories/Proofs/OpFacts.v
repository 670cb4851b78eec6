(** What each elementary mutating call does to the observable content of a machine. *)
From Coq Require Import List Arith NArith Bool Lia.
From Verif Require Import Base.Util Base.Semiring Base.Machine Base.PropSpec
  Model.Props Model.VectorFst Model.TrOps Model.History
  Proofs.PropsFacts Proofs.VectorFacts Proofs.DelStates Proofs.VectorProps Proofs.TrOpsFacts Proofs.HistoryFacts.
Import ListNotations.

Section O.
  Context {K : SR}.
  Implicit Types (f g h : vfst K).

  (** Same states, tables and consistent counters; start and content may differ. *)
  Definition eff f g : Prop :=
    num_states g = num_states f /\ vstart g = vstart f /\ visymt g = visymt f /\ vosymt g = vosymt f /\
    (cnt f -> cnt g).
  Lemma eff_refl f : eff f f.
  Proof. repeat split; auto. Qed.
  Lemma eff_trans f g h : eff f g -> eff g h -> eff f h.
  Proof. intros (A1 & A2 & A3 & A4 & A5) (B1 & B2 & B3 & B4 & B5). repeat split; try congruence. auto. Qed.
  Lemma eff_upd f s st p : (cnt f -> cnt_ok st) -> eff f (upd_state f s st p).
  Proof.
    intros H. repeat split; auto.
    - apply num_states_upd.
    - intros C. apply cnt_upd; auto.
  Qed.

  Lemma nth_state f s : s < num_states f -> exists st, nth_error (vstates f) s = Some st /\ trs_of f s = vtrs st /\ fin_of f s = vfin st.
  Proof.
    intros H. destruct (nth_error_ex _ _ H) as [st E]. exists st. unfold trs_of, fin_of. rewrite E. auto.
  Qed.

  Lemma if_same {A} (s q : nat) (g : nat -> A) : (if q =? s then g s else g q) = g q.
  Proof. destruct (Nat.eqb_spec q s); subst; auto. Qed.

  Lemma add_tr_eff f s t : s < num_states f -> exists g, add_tr f s t = Ok g /\ eff f g /\
    (forall q, trs_of g q = if q =? s then trs_of f s ++ [t] else trs_of f q) /\ (forall q, fin_of g q = fin_of f q).
  Proof.
    intros H. destruct (nth_state f s H) as (st & E & E1 & E2). unfold add_tr. rewrite E. eexists. split; [reflexivity|].
    split; [|split].
    - apply eff_upd. intros C. destruct (cnt_nth _ _ _ C E) as [A B].
      change (il t =? 0) with (ieps t). change (ol t =? 0) with (oeps t).
      split; simpl; rewrite count_app, count_cons, count_nil; unfold b2n; lia.
    - intros q. rewrite trs_of_upd, E1; auto.
    - intros q. rewrite fin_of_upd by auto. simpl. rewrite <- E2. apply if_same.
  Qed.
  Lemma set_final_eff f s w : s < num_states f -> exists g, set_final f s w = Ok g /\ eff f g /\
    (forall q, trs_of g q = trs_of f q) /\ (forall q, fin_of g q = if q =? s then Some w else fin_of f q).
  Proof.
    intros H. destruct (nth_state f s H) as (st & E & E1 & E2). unfold set_final. rewrite E. eexists. split; [reflexivity|].
    split; [|split].
    - apply eff_upd. intros C. apply cnt_ok_fin. eapply cnt_nth; eauto.
    - intros q. rewrite trs_of_upd by auto. simpl. rewrite <- E1. apply if_same.
    - intros q. rewrite fin_of_upd by auto. auto.
  Qed.
  Lemma del_final_eff f s : s < num_states f -> exists g, delete_final_weight f s = Ok g /\ eff f g /\
    (forall q, trs_of g q = trs_of f q) /\ (forall q, fin_of g q = if q =? s then None else fin_of f q).
  Proof.
    intros H. destruct (nth_state f s H) as (st & E & E1 & E2). unfold delete_final_weight. rewrite E. eexists. split; [reflexivity|].
    split; [|split].
    - apply eff_upd. intros C. apply cnt_ok_fin. eapply cnt_nth; eauto.
    - intros q. rewrite trs_of_upd by auto. simpl. rewrite <- E1. apply if_same.
    - intros q. rewrite fin_of_upd by auto. auto.
  Qed.
  Lemma delete_trs_eff f s : s < num_states f -> exists g, delete_trs f s = Ok g /\ eff f g /\
    (forall q, trs_of g q = if q =? s then [] else trs_of f q) /\ (forall q, fin_of g q = fin_of f q).
  Proof.
    intros H. destruct (nth_state f s H) as (st & E & E1 & E2). unfold delete_trs. rewrite E. eexists. split; [reflexivity|].
    split; [|split].
    - apply eff_upd. intros C. split; reflexivity.
    - intros q. rewrite trs_of_upd by auto. auto.
    - intros q. rewrite fin_of_upd by auto. simpl. rewrite <- E2. apply if_same.
  Qed.
  Lemma set_start_eff f s : s < num_states f -> exists g, set_start f s = Ok g /\
    num_states g = num_states f /\ vstart g = Some s /\ visymt g = visymt f /\ vosymt g = vosymt f /\ (cnt f -> cnt g) /\
    (forall q, trs_of g q = trs_of f q) /\ (forall q, fin_of g q = fin_of f q).
  Proof.
    intros H. destruct (nth_state f s H) as (st & E & E1 & E2). unfold set_start. rewrite E. eexists. split; [reflexivity|].
    repeat split; auto.
  Qed.
  Lemma add_states_eff f n : num_states (add_states f n) = num_states f + n /\ vstart (add_states f n) = vstart f /\
    visymt (add_states f n) = visymt f /\ vosymt (add_states f n) = vosymt f /\ (cnt f -> cnt (add_states f n)) /\
    (forall q, trs_of (add_states f n) q = trs_of f q) /\ (forall q, fin_of (add_states f n) q = fin_of f q).
  Proof.
    split; [apply num_states_add_states|]. split; auto. split; auto. split; auto.
    split; [|split; [intros q; apply trs_of_add_states|intros q; apply fin_of_add_states]].
    intros H. unfold cnt; simpl. apply Forall_app. split; auto.
    apply Forall_forall. intros x Hx. apply repeat_spec in Hx. subst. split; reflexivity.
  Qed.
  Lemma set_props_eff f p k : eff f (set_properties_with_mask f p k) /\
    (forall q, trs_of (set_properties_with_mask f p k) q = trs_of f q) /\
    (forall q, fin_of (set_properties_with_mask f p k) q = fin_of f q).
  Proof. repeat split; auto. Qed.
End O.
