(** Algorithms that rewrite every label in place: rustfst/src/algorithms/
    {inversion,projection,relabel_pairs}.rs. *)
From Coq Require Import List Arith NArith Lia Bool.
From Verif Require Import Base.Util Base.Semiring Base.Machine Model.Props Model.VectorFst
  Model.TrOps Model.AlgoProps.
Import ListNotations.

Section R.
  Context {K : SR}.
  Implicit Types (f : vfst K).

  (** [for idx_tr in 0..it_tr.len()] over the mutable transition iterator of one state. *)
  Definition for_trs (body : vfst K -> nat -> nat -> res (vfst K)) f (s : nat) : res (vfst K) :=
    fold_left (fun r i => h <-- r ;; body h s i) (seq 0 (length (trs_of f s))) (Ok f).

  (** [let tr = it_tr.get_unchecked(idx)] then an edit computed from [tr]. *)
  Definition with_tr f (s i : nat) (k : tr K -> res (vfst K)) : res (vfst K) :=
    match nth_error (trs_of f s) i with Some t => k t | None => Panic end.

  (** inversion.rs 32-48. *)
  Definition invert f : res (vfst K) :=
    g <-- for_states (for_trs (fun h s i => with_tr h s i (fun t =>
            iter_set_labels h s i (ol t) (il t)))) f ;;
    Ok (set_properties_with_mask g (invert_properties (vprops f)) all_properties).

  (** projection.rs 65-93. *)
  Definition project f (pt : project_type) : res (vfst K) :=
    g <-- match pt with
          | ProjectInput => for_states (for_trs (fun h s i => with_tr h s i (fun t =>
                              iter_set_olabel h s i (il t)))) f
          | ProjectOutput => for_states (for_trs (fun h s i => with_tr h s i (fun t =>
                              iter_set_ilabel h s i (ol t)))) f
          end ;;
    Ok (set_properties_with_mask g (project_properties (vprops f) pt) all_properties).

  (** relabel_pairs.rs 10-24: a hash map as an association list. *)
  Definition lookup (m : list (nat * nat)) (k : nat) : option nat :=
    option_map snd (find (fun p => Nat.eqb (fst p) k) m).
  Fixpoint to_hashmap (m : list (nat * nat)) (pairs : list (nat * nat)) : res (list (nat * nat)) :=
    match pairs with
    | [] => Ok m
    | (a, b) :: l => match lookup m a with
                     | Some _ => Err
                     | None => to_hashmap (m ++ [(a, b)]) l
                     end
    end.
  (** relabel_pairs.rs 48-79. *)
  Definition relabel_pairs f (ipairs opairs : list (nat * nat)) : res (vfst K) :=
    mi <-- to_hashmap [] ipairs ;;
    mo <-- to_hashmap [] opairs ;;
    for_states (for_trs (fun h s i => with_tr h s i (fun t =>
      match lookup mi (il t), lookup mo (ol t) with
      | Some a, Some b => iter_set_labels h s i a b
      | Some a, None => iter_set_ilabel h s i a
      | None, Some b => iter_set_olabel h s i b
      | None, None => Ok h
      end))) f.
End R.
