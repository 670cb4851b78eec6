(** Every state of a machine built from a table of tuples is accessible. *)
From Coq Require Import List Arith NArith Bool Lia.
From Verif Require Import Base.Util Base.Semiring Base.Machine Model.Props Model.VectorFst Model.BiMap Model.Lazy.
From Verif Require Import Proofs.VectorFacts Proofs.TrOpsFacts Proofs.OpFacts Proofs.BiMapFacts Proofs.ConnectFacts Proofs.LazyFacts Proofs.TableFacts.
Import ListNotations.

Section Table.
  Context {K : SR} {T : Type} (eqb : T -> T -> bool) (eqb_spec : forall a b, reflect (a = b) (eqb a b)).
  Context (tstart : res (option T)) (ttrs : T -> res (list (ttr K T))) (tfin : T -> res (option K)).

  (** The tuples met from the first one. *)
  Inductive met : T -> Prop :=
  | met_start t : tstart = Ok (Some t) -> met t
  | met_trs t l u : met t -> ttrs t = Ok l -> In u l -> met (tn u).

  Context {C : Type} (z : bimap T * C).
  Notation tup i := (nth_error (id_to_tuple (fst z)) i).

  Context (g : vfst K) (B : built (tS tstart) (tT ttrs) (tF tfin) g z).

  Lemma met_accessible t : vstart g <> None -> met t -> exists i, tup i = Some t /\ accessible (mach g) i.
  Proof.
    intros HS. destruct B as (_ & _ & B'). destruct (vstart g) as [s|] eqn:S; [|congruence]. destruct B' as (_ & (t0 & N0 & E0) & BA & _).
    induction 1 as [t E|t l u M (i & N & A) E Hu].
    - exists s. assert (t = t0) as -> by congruence. split; auto. exists s. split; [exact S|]. apply reach_refl.
    - destruct (BA i A) as ((t1 & l1 & N1 & E1 & F) & _). assert (t1 = t) as -> by congruence. assert (l1 = l) as -> by congruence.
      destruct (Forall2_in_r _ _ _ _ F Hu) as (v & Hv & (_ & _ & _ & N2)). exists (ns v). split; auto.
      destruct A as (s1 & E2 & R). exists s1. split; auto. eapply reach_snoc; [exact R|exact Hv].
  Qed.

  Theorem built_all : tI eqb met (fst z) -> vstart g <> None -> accessible (mach g) (pred (num_states g)) ->
    forall s, s < num_states g -> accessible (mach g) s.
  Proof.
    intros [OK UM] HS HL s Hs. pose proof B as (_ & _ & B'). destruct (vstart g) as [s0|] eqn:S; [|congruence]. destruct B' as (_ & _ & BA & _).
    destruct (BA _ HL) as ((t1 & _ & N1 & _) & _). apply nth_error_lt in N1.
    assert (H : s < length (id_to_tuple (fst z))) by lia.
    destruct (nth_error_ex _ _ H) as [t N].
    destruct (met_accessible t) as (i & Ni & A); [congruence|apply UM; eapply nth_error_In; eauto|].
    assert (i = s) as ->; auto.
    pose proof (proj1 (NoDup_nth_error (id_to_tuple (fst z))) (bm_nodup eqb _ OK)) as ND. apply ND; [apply nth_error_lt in Ni; auto|congruence].
  Qed.
  Lemma met_tuple : forall s, accessible (mach g) s -> tI eqb met (fst z) -> exists t, tup s = Some t /\ met t.
  Proof.
    intros s A [_ UM]. destruct B as (_ & _ & B'). destruct (vstart g) as [s0|] eqn:S.
    - destruct B' as (_ & _ & BA & _). destruct (BA _ A) as ((t & _ & N & _) & _). exists t. split; auto. apply UM. eapply nth_error_In; eauto.
    - destruct A as (s1 & E & _). cbn in E. congruence.
  Qed.
End Table.

(** ** Tuples are numbered after the tuple they were met from. *)
Section Traced.
  Context {K : SR} {T : Type} (eqb : T -> T -> bool) (eqb_spec : forall a b, reflect (a = b) (eqb a b)).
  Context (tstart : res (option T)) (ttrs : T -> res (list (ttr K T))) (tfin : T -> res (option K)) (props : N).
  Notation met := (met tstart ttrs).

  Definition traced (b : bimap T) : Prop := forall k t, nth_error (id_to_tuple b) k = Some t ->
    tstart = Ok (Some t) \/ exists j t' l, j < k /\ nth_error (id_to_tuple b) j = Some t' /\ ttrs t' = Ok l /\ In t (map tn l).
  Definition tI2 (b : bimap T) : Prop := tI eqb met b /\ traced b.

  Lemma tI2_new : tI2 bm_new.
  Proof. split; [apply tI_new|]. intros [|k] t; discriminate. Qed.

  Lemma traced_mono b b' : tle b b' -> traced b ->
    (forall k t, length (id_to_tuple b) <= k -> nth_error (id_to_tuple b') k = Some t ->
      tstart = Ok (Some t) \/ exists j t' l, j < k /\ nth_error (id_to_tuple b') j = Some t' /\ ttrs t' = Ok l /\ In t (map tn l)) -> traced b'.
  Proof.
    intros LE TR H k t N. destruct (le_lt_dec (length (id_to_tuple b)) k) as [Hk|Hk]; [auto|].
    destruct LE as [ext LE]. pose proof N as N'. rewrite LE, nth_error_app1 in N' by auto. destruct (TR k t N') as [S|(j & t' & l & Hj & Nj & El & It)]; auto.
    right. exists j, t', l. split; auto. split; auto. rewrite LE, nth_error_app1 by lia. auto.
  Qed.

  Lemma table_spec2 : op_spec (table_op eqb tstart ttrs tfin props) tI2 tle (tS tstart) (tT ttrs) (tF tfin).
  Proof.
    assert (US : forall t, tstart = Ok (Some t) -> met t) by (intros; apply met_start; auto).
    assert (UT : forall t l u, met t -> ttrs t = Ok l -> In u l -> met (tn u)) by (intros; eapply met_trs; eauto).
    pose proof (table_spec eqb eqb_spec tstart ttrs tfin props met US UT) as SP.
    split; try apply SP.
    - intros b s b' [H TR] E. destruct (op_start _ _ _ _ _ _ SP _ _ _ H E) as (H' & LE & OK). split; [|split; auto]. split; auto.
      apply (traced_mono b); auto. intros k t Hk N. left. cbn in E. destruct tstart as [[t0|]| |] eqn:Et; try discriminate; cbn in E.
      + destruct (find_id eqb b t0) as [b1 i] eqn:F. injection E as <- <-.
        destruct (find_id_ok eqb eqb_spec _ _ _ _ (proj1 H) F) as (_ & _ & [[_ ->]|(_ & D & _)]).
        * apply nth_error_lt in N. lia.
        * rewrite D, nth_error_app2 in N by lia. destruct (k - length (id_to_tuple b)) as [|j]; [cbn in N; congruence|].
          destruct j; discriminate.
      + injection E as <- <-. apply nth_error_lt in N. lia.
    - intros i b l b' [H TR] E. destruct (op_trs _ _ _ _ _ _ SP _ _ _ _ H E) as (H' & LE & OK). split; [|split; auto]. split; auto.
      apply (traced_mono b); auto. intros k t Hk N. right. cbn in E. unfold find_tuple, get_tuple_unchecked in E.
      destruct (nth_error (id_to_tuple b) i) as [t0|] eqn:N0; try discriminate. cbn in E.
      destruct (ttrs t0) as [u| |] eqn:Eu; try discriminate. cbn in E.
      destruct (find_ids eqb b (map tn u)) as [b1 is] eqn:F. injection E as _ <-.
      destruct (find_ids_ok eqb eqb_spec _ _ _ _ (proj1 H) F) as (H1 & _ & X & M & _).
      pose proof (nth_error_lt _ _ _ N0) as Li. exists i, t0, u. split; [lia|]. split; [eapply tup_mono; eauto|]. split; auto.
      destruct (proj1 (M t) (nth_error_In _ _ N)) as [Ht|Ht]; auto. exfalso.
      apply In_nth_error in Ht as [j Nj]. pose proof (nth_error_lt _ _ _ Nj) as Lj. pose proof (tup_mono _ _ _ _ LE Nj) as Nj'.
      pose proof (proj1 (NoDup_nth_error (id_to_tuple b1)) (bm_nodup eqb _ H1) j k (nth_error_lt _ _ _ Nj')) as Q.
      rewrite Nj', N in Q. specialize (Q eq_refl). lia.
    - intros i b w b' [H TR] E. destruct (op_fin _ _ _ _ _ _ SP _ _ _ _ H E) as (H' & LE & OK). split; [|split; auto]. split; auto.
      cbn in E. unfold find_tuple, get_tuple_unchecked in E. destruct (nth_error (id_to_tuple b) i) as [t0|]; try discriminate. cbn in E.
      destruct (tfin t0); try discriminate. cbn in E. injection E as _ <-. auto.
  Qed.
End Traced.
