(** Table-driven lazy operations denote the machine of their tuples. *)
From Coq Require Import List Arith NArith Bool Lia.
From Verif Require Import Base.Util Base.Semiring Base.Machine Model.Props Model.VectorFst Model.BiMap Model.Lazy.
From Verif Require Import Proofs.VectorFacts Proofs.TrOpsFacts Proofs.OpFacts Proofs.BiMapFacts Proofs.LazyFacts.
Import ListNotations.
Local Open Scope K_scope.

Section Tuples.
  Context {K : SR} {T : Type} (ttrs : T -> res (list (ttr K T))) (tfin : T -> res (option K)).

  Definition trs_at (t : T) : list (ttr K T) := match ttrs t with Ok l => l | _ => [] end.
  Definition fin_at (t : T) : option K := match tfin t with Ok w => w | _ => None end.

  (** [wt] for a machine whose states are tuples. *)
  Fixpoint gwt (n : nat) (t : T) (x y : list nat) : K :=
    match n with
    | O => if isnil x && isnil y then fw (fin_at t) else 0
    | S n' =>
        ksum (map (fun u =>
          match strip (ti u) x, strip (to u) y with
          | Some x', Some y' => tw u * gwt n' (tn u) x' y'
          | _, _ => 0
          end) (trs_at t))
    end.

  Definition grel (start : res (option T)) (n : nat) (x y : list nat) : K :=
    match start with Ok (Some t) => gwt n t x y | _ => 0 end.
End Tuples.

Local Close Scope K_scope.
Section Table.
  Context {K : SR} {T : Type} (eqb : T -> T -> bool) (eqb_spec : forall a b, reflect (a = b) (eqb a b)).
  Context (tstart : res (option T)) (ttrs : T -> res (list (ttr K T))) (tfin : T -> res (option K)) (props : N).
  Context (U : T -> Prop).
  Context (Ustart : forall t, tstart = Ok (Some t) -> U t).
  Context (Utrs : forall t l u, U t -> ttrs t = Ok l -> In u l -> U (tn u)).

  Notation tup b i := (nth_error (id_to_tuple b) i).
  Definition tI (b : bimap T) : Prop := bm_ok eqb b /\ forall t, In t (id_to_tuple b) -> U t.
  Definition tle (b b' : bimap T) : Prop := exists ext, id_to_tuple b' = id_to_tuple b ++ ext.
  (** A transition with a numbered target, read through the table. *)
  Definition same_tr (b : bimap T) (t : tr K) (u : ttr K T) : Prop :=
    il t = ti u /\ ol t = to u /\ wgt t = tw u /\ tup b (ns t) = Some (tn u).
  Definition tS (b : bimap T) (s : option nat) : Prop :=
    match s with None => tstart = Ok None | Some i => exists t, tup b i = Some t /\ tstart = Ok (Some t) end.
  Definition tT (b : bimap T) (i : nat) (l : list (tr K)) : Prop :=
    exists t u, tup b i = Some t /\ ttrs t = Ok u /\ Forall2 (same_tr b) l u.
  Definition tF (b : bimap T) (i : nat) (w : option K) : Prop :=
    exists t, tup b i = Some t /\ tfin t = Ok w.

  Lemma tup_mono b b' i t : tle b b' -> tup b i = Some t -> tup b' i = Some t.
  Proof. intros [ext E] H. rewrite E, nth_error_app1; auto. apply nth_error_Some. congruence. Qed.

  Lemma same_tr_mono b b' t u : tle b b' -> same_tr b t u -> same_tr b' t u.
  Proof. intros L (A & B & C & D). repeat split; auto. eapply tup_mono; eauto. Qed.

  Lemma number_trs b (l : list (ttr K T)) b' is : bm_ok eqb b -> find_ids eqb b (map tn l) = (b', is) ->
    Forall2 (same_tr b') (map (fun p => Tr (ti (fst p)) (to (fst p)) (tw (fst p)) (snd p)) (combine l is)) l.
  Proof.
    intros H E. destruct (find_ids_ok eqb eqb_spec _ _ _ _ H E) as (_ & LE & _ & _ & P).
    rewrite map_length in LE.
    assert (Q : forall k u, nth_error l k = Some u -> exists i, nth_error is k = Some i /\ tup b' i = Some (tn u)).
    { intros k u N. apply P. rewrite nth_error_map, N. auto. }
    clear H E P. revert is LE Q. induction l as [|u l IH]; intros [|i is] LE Q; simpl in *; try lia; constructor.
    - destruct (Q 0 u eq_refl) as (j & [= <-] & Hj). repeat split; auto.
    - apply IH; [lia|]. intros k v N. apply (Q (S k) v N).
  Qed.

  Lemma table_spec : op_spec (table_op eqb tstart ttrs tfin props) tI tle tS tT tF.
  Proof.
    assert (TR : forall a, tle a a) by (intros a; exists []; rewrite app_nil_r; auto).
    split.
    - exact TR.
    - intros a b c [e1 E1] [e2 E2]. exists (e1 ++ e2). rewrite E2, E1, app_assoc. auto.
    - intros a b [i|] L; auto. intros (t & A & B). exists t. split; auto. eapply tup_mono; eauto.
    - intros a b i l L (t & u & A & B & F). exists t, u. split; [eapply tup_mono; eauto|]. split; auto.
      eapply Forall2_imp; [|eauto]. intros. eapply same_tr_mono; eauto.
    - intros a b i w L (t & A & B). exists t. split; auto. eapply tup_mono; eauto.
    - intros b s b' [H HU]. cbn. destruct tstart as [[t|]| |] eqn:E; try discriminate; cbn.
      + destruct (find_id eqb b t) as [b1 i] eqn:F. intros [= <- <-].
        destruct (find_id_ok eqb eqb_spec _ _ _ _ H F) as (H1 & A & D).
        split; [split; auto|split].
        * intros t' Ht. destruct D as [[_ ->]|(_ & D & _)]; auto. rewrite D in Ht.
          apply in_app_or in Ht as [Ht|[<-|[]]]; auto.
        * destruct D as [[_ ->]|(_ & D & _)]; [exists []; rewrite app_nil_r; auto|exists [t]; auto].
        * exists t. auto.
      + intros [= <- <-]. split; [split; auto|]. split; [auto|]. exact E.
    - intros i b l b' [H HU]. cbn. unfold find_tuple, get_tuple_unchecked.
      destruct (tup b i) as [t|] eqn:N; try discriminate. cbn.
      destruct (ttrs t) as [u| |] eqn:E; try discriminate. cbn.
      destruct (find_ids eqb b (map tn u)) as [b1 is] eqn:F. intros [= <- <-].
      destruct (find_ids_ok eqb eqb_spec _ _ _ _ H F) as (H1 & LE & X & M & P).
      assert (HT : U t) by (apply HU; eapply nth_error_In; eauto).
      split; [split; auto|split; [exact X|]].
      + intros t' Ht. apply M in Ht as [Ht|Ht]; auto. apply in_map_iff in Ht as (v & <- & Hv).
        eapply Utrs; eauto.
      + exists t, u. split; [eapply tup_mono; [exact X|eauto]|]. split; auto. exact (number_trs _ _ _ _ H F).
    - intros i b w b' [H HU]. cbn. unfold find_tuple, get_tuple_unchecked.
      destruct (tup b i) as [t|] eqn:N; try discriminate. cbn.
      destruct (tfin t) as [u| |] eqn:E; try discriminate. cbn. intros [= <- <-].
      split; [split; auto|split; auto]. exists t. auto.
  Qed.

  Lemma tI_new : tI bm_new.
  Proof. split; [apply bm_new_ok|]. intros t []. Qed.

  Context (Lstart : exists o, tstart = Ok o) (Ltrs : forall t, U t -> exists l, ttrs t = Ok l)
    (Lfin : forall t, U t -> exists w, tfin t = Ok w).

  Definition tV (b : bimap T) (i : nat) : Prop := i < length (id_to_tuple b).

  Lemma table_live : op_live (table_op eqb tstart ttrs tfin props) tI tS tT tle tV.
  Proof.
    assert (G : forall i b, tI b -> tV b i -> exists t, tup b i = Some t /\ U t).
    { intros i b [_ H] V. destruct (nth_error_ex _ _ V) as [t E]. exists t. split; auto.
      apply H. eapply nth_error_In; eauto. }
    split.
    - intros a b i [e E] H. unfold tV in *. rewrite E, app_length. lia.
    - intros b s (t & A & _). eapply nth_error_lt; eauto.
    - intros b i l t _ (v & u & _ & _ & F) H. destruct (Forall2_in_l _ _ _ _ F H) as (w & _ & (_ & _ & _ & N)).
      eapply nth_error_lt; eauto.
    - intros b _. cbn. destruct Lstart as [[t|] ->]; cbn; [destruct (find_id eqb b t)|]; eauto.
    - intros i b H V. destruct (G _ _ H V) as (t & E & Ut). cbn. unfold find_tuple, get_tuple_unchecked. rewrite E. cbn.
      destruct (Ltrs t Ut) as [l ->]. cbn. destruct (find_ids eqb b (map tn l)). eauto.
    - intros i b H V. destruct (G _ _ H V) as (t & E & Ut). cbn. unfold find_tuple, get_tuple_unchecked. rewrite E. cbn.
      destruct (Lfin t Ut) as [l ->]. cbn. eauto.
  Qed.

  Lemma table_bound (univ : list T) : (forall t, U t -> In t univ) ->
    forall b i, tI b -> tV b i -> i < length univ.
  Proof.
    intros HU b i [H HI] V. apply Nat.lt_le_trans with (length (id_to_tuple b)); auto.
    apply NoDup_incl_length; [eapply bm_nodup; eauto|]. intros t Ht. auto.
  Qed.

  (** The static machine denotes what the tuples denote. *)
  Context {C : Type} (z : bimap T * C).

  Lemma built_wt g : built tS tT tF g z -> forall n q t x y, accessible (mach g) q -> tup (fst z) q = Some t ->
    wt (mach g) n q x y = gwt ttrs tfin n t x y.
  Proof.
    intros (_ & _ & B). destruct (vstart g) as [s|] eqn:S.
    2: { intros n q t x y (s & E & _). cbn in E. congruence. }
    destruct B as (_ & _ & B & _).
    induction n as [|n IH]; intros q t x y A N; destruct (B q A) as ((t1 & u & N1 & E1 & F1) & (t2 & N2 & E2)).
    - cbn [wt gwt mach mfin]. unfold fin_at. replace t with t2 by congruence. rewrite E2. auto.
    - cbn [wt gwt mach mtrs]. unfold trs_at. replace t with t1 by congruence. rewrite E1.
      assert (AT : forall v, In v (trs_of g q) -> accessible (mach g) (ns v)).
      { intros v Hv. destruct A as (s0 & E & R). exists s0. split; auto. eapply reach_snoc; eauto. }
      revert F1 AT. generalize (trs_of g q). clear -IH. intros l F AT. f_equal.
      induction F as [|v w l u (H1 & H2 & H3 & H4) F IHF]; cbn [map]; auto.
      rewrite IHF by (intros; apply AT; simpl; auto). f_equal. rewrite H1, H2, H3.
      destruct (strip (ti w) x); auto. destruct (strip (to w) y); auto. f_equal. apply IH; auto.
      apply AT. simpl. auto.
  Qed.

  Theorem built_rel g : built tS tT tF g z -> forall n x y, rel (mach g) n x y = grel ttrs tfin tstart n x y.
  Proof.
    intros B n x y. pose proof B as (_ & _ & B'). unfold rel, grel. cbn [mach mstart].
    destruct (vstart g) as [s|] eqn:S.
    - destruct B' as (_ & (t & N & E) & _). rewrite E. apply (built_wt g B); auto.
      exists s. split; auto. apply reach_refl.
    - destruct B' as (_ & E). cbn in E. rewrite E. auto.
  Qed.
End Table.
