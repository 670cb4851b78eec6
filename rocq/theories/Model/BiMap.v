(** The two-way table shared by lazy state tables and symbol tables.

    rustfst/src/algorithms/lazy/state_table.rs (BiHashMap 19-64, StateTable 66-125).
    The hash map is an association list (newest entry first); only [get]/[insert] of keys
    are used here, so its iteration order plays no part.  The mutex is not modelled (one
    thread).  [eqb] is the tuple type's [Eq]. *)
From Coq Require Import List Arith Bool.
From Verif Require Import Base.Util.
Import ListNotations.

(** state_table.rs 20-23. *)
Record bimap (T : Type) := BM { tuple_to_id : list (T * nat); id_to_tuple : list T }.
Arguments BM {T}.
Arguments tuple_to_id {T}.
Arguments id_to_tuple {T}.

Section BiMap.
  Context {T : Type} (eqb : T -> T -> bool).
  Implicit Types (b : bimap T) (t : T).

  (** state_table.rs 32-37. *)
  Definition bm_new : bimap T := BM [] [].

  (** [HashMap::get]. *)
  Fixpoint assoc (l : list (T * nat)) t : option nat :=
    match l with
    | [] => None
    | (t', i) :: l' => if eqb t t' then Some i else assoc l' t
    end.

  (** state_table.rs 49-59. *)
  Definition get_id_or_insert b t : bimap T * nat :=
    match assoc (tuple_to_id b) t with
    | Some i => (b, i)
    | None =>
        let n := length (id_to_tuple b) in
        (BM ((t, n) :: tuple_to_id b) (id_to_tuple b ++ [t]), n)
    end.

  (** state_table.rs 61-63: indexing panics out of range. *)
  Definition get_tuple_unchecked b (i : nat) : res T :=
    match nth_error (id_to_tuple b) i with Some t => Ok t | None => Panic end.

  (** state_table.rs 110-113, 115-118 and 121-124. *)
  Definition find_id := get_id_or_insert.
  Definition find_tuple := get_tuple_unchecked.

  (** A history of [find_id] calls, with the ids returned. *)
  Fixpoint find_ids b (l : list T) : bimap T * list nat :=
    match l with
    | [] => (b, [])
    | t :: l' => let (b1, i) := find_id b t in
                 let (b2, is) := find_ids b1 l' in (b2, i :: is)
    end.
End BiMap.
