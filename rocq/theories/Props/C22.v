(** C22: state tables are bijections over every history of lookups. *)
From Coq Require Import List Arith Bool Lia.
From Verif Require Import Base.Util Model.BiMap Proofs.BiMapFacts.
Import ListNotations.

(** The distinct elements of a list in order of first appearance. *)
Fixpoint first_seen {T} (eqb : T -> T -> bool) (seen l : list T) : list T :=
  match l with
  | [] => seen
  | t :: l' => first_seen eqb (if existsb (eqb t) seen then seen else seen ++ [t]) l'
  end.

Section C22.
  Context {T : Type} (eqb : T -> T -> bool) (eqb_spec : forall a b, reflect (a = b) (eqb a b)).

  Lemma existsb_in t l : existsb (eqb t) l = true <-> In t l.
  Proof.
    rewrite existsb_exists. split.
    - intros (x & I & E). destruct (eqb_spec t x); congruence.
    - intros I. exists t. split; auto. apply eqb_refl; auto.
  Qed.

  Lemma find_ids_first l : forall b b' is, bm_ok eqb b -> find_ids eqb b l = (b', is) ->
    id_to_tuple b' = first_seen eqb (id_to_tuple b) l.
  Proof.
    induction l as [|t l IH]; simpl; intros b b' is H E; [congruence|].
    destruct (find_id eqb b t) as [b1 i] eqn:E1. destruct (find_ids eqb b1 l) as [b2 is'] eqn:E2.
    injection E as <- <-. destruct (find_id_ok _ eqb_spec _ _ _ _ H E1) as (H1 & A & B).
    rewrite (IH _ _ _ H1 E2). f_equal.
    destruct (existsb (eqb t) (id_to_tuple b)) eqn:X.
    - apply existsb_in in X. destruct B as [[_ ->]|[B _]]; tauto.
    - destruct B as [[B _]|(_ & B & _)]; auto. apply existsb_in in B. congruence.
  Qed.

  (** After any history [calls] of lookups on a new table:
      - one id comes back per call;
      - the tuples with ids 0, 1, 2, … are the distinct tuples asked for, in first-seen order,
        without repetition, and looking up any other id panics;
      - each returned id reads back as the tuple it was returned for;
      - so two calls return the same id exactly when they asked for the same tuple;
      - asking again for a known tuple returns its old id and leaves the table as it was;
      - further lookups never change what an id or a tuple maps to. *)
  Theorem C22_state_table (calls : list T) :
    let (b, ids) := find_ids eqb bm_new calls in
    length ids = length calls /\
    (forall i, find_tuple b i =
       match nth_error (first_seen eqb [] calls) i with Some t => Ok t | None => Panic end) /\
    NoDup (first_seen eqb [] calls) /\
    (forall t, In t (first_seen eqb [] calls) <-> In t calls) /\
    (forall k t, nth_error calls k = Some t ->
       exists i, nth_error ids k = Some i /\ find_tuple b i = Ok t) /\
    (forall j k, j < length calls -> k < length calls ->
       (nth_error ids j = nth_error ids k <-> nth_error calls j = nth_error calls k)) /\
    (forall t, In t calls -> exists i, find_id eqb b t = (b, i) /\ find_tuple b i = Ok t) /\
    (forall more b' ids', find_ids eqb b more = (b', ids') ->
       (forall i t, find_tuple b i = Ok t -> find_tuple b' i = Ok t /\ find_id eqb b' t = (b', i)) /\
       find_ids eqb bm_new (calls ++ more) = (b', ids ++ ids')).
  Proof.
    destruct (find_ids eqb bm_new calls) as [b ids] eqn:E.
    destruct (find_ids_ok _ eqb_spec _ _ _ _ (bm_new_ok eqb) E) as (H & L & _ & M & C).
    pose proof (find_ids_first _ _ _ _ (bm_new_ok eqb) E) as F. simpl in F, M.
    assert (RT : forall i t, find_tuple b i = Ok t <-> nth_error (id_to_tuple b) i = Some t).
    { intros i t. unfold find_tuple, get_tuple_unchecked.
      destruct (nth_error (id_to_tuple b) i); split; congruence. }
    assert (ND := bm_nodup _ _ H).
    split; auto. split; [intros i; unfold find_tuple, get_tuple_unchecked; now rewrite F|].
    split; [now rewrite <- F|].
    split; [intros t; rewrite <- F, M; tauto|].
    split; [intros k t N; destruct (C k t N) as (i & A & B); exists i; rewrite RT; auto|].
    split.
    { intros j k Hj Hk. apply nth_error_Some in Hj, Hk.
      destruct (nth_error calls j) as [t|] eqn:Ej; [|congruence].
      destruct (nth_error calls k) as [u|] eqn:Ek; [|congruence].
      destruct (C _ _ Ej) as (i1 & A1 & B1). destruct (C _ _ Ek) as (i2 & A2 & B2).
      rewrite A1, A2. split; intros [= ->]; [congruence|].
      f_equal. apply (proj1 (NoDup_nth_error _) ND); [apply nth_error_Some; congruence | congruence]. }
    assert (OLD : forall b0 t i, bm_ok eqb b0 -> nth_error (id_to_tuple b0) i = Some t ->
              find_id eqb b0 t = (b0, i)).
    { intros b0 t i H0 A. apply H0 in A. unfold find_id, get_id_or_insert. now rewrite A. }
    split.
    { intros t I. destruct (In_nth_error _ _ I) as [k N]. destruct (C _ _ N) as (i & A & B).
      exists i. rewrite RT. auto. }
    intros more b' ids' E'. destruct (find_ids_ok _ eqb_spec _ _ _ _ H E') as (H' & L' & [ext X] & _).
    split.
    - intros i t A. apply RT in A.
      assert (A' : nth_error (id_to_tuple b') i = Some t).
      { rewrite X, nth_error_app1; auto. apply nth_error_Some. congruence. }
      split; auto. unfold find_tuple, get_tuple_unchecked. now rewrite A'.
    - rewrite find_ids_app, E, E'. auto.
  Qed.
End C22.

Print Assumptions C22_state_table.

(** Repeated and new tuples. *)
Example C22_witness : find_ids Nat.eqb bm_new [7; 3; 7; 5; 3] =
  (BM [(5, 2); (3, 1); (7, 0)] [7; 3; 5], [0; 1; 0; 2; 1]) /\
  find_tuple (fst (find_ids Nat.eqb bm_new [7; 3; 7; 5; 3])) 3 = Panic.
Proof. split; reflexivity. Qed.
