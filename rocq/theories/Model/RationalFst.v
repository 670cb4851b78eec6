(** The delayed rational operations: rustfst/src/algorithms/{union,concat,closure}/*_fst.rs.

    Each is a replacement (Model/Replace.v) in a small root machine whose transitions call the arguments;
    the calls are named [NO_LABEL] and [NO_LABEL - 1].  Labels are unary numbers here, so [NO_LABEL]
    (u32::MAX) is a parameter. *)
From Coq Require Import List Arith NArith Bool.
From Verif Require Import Base.Util Base.Semiring Base.Machine Model.Props Model.AlgoProps Model.VectorFst
  Model.BiMap Model.Lazy Model.Rational Model.Replace Model.ShortestPath.
Import ListNotations.

Section R.
  Context {K : SR} (no_label : nat).
  Implicit Types f : vfst K.

  (** closure_fst.rs 30-55: the root machine. The symbol tables are copied. *)
  Definition closure_root f (ct : closure_type) : res (vfst K) :=
    let r := set_symts_from_fst vnew f in
    match ct with
    | ClosureStar =>
        let r := fst (add_state r) in
        let r := set_start_unchecked r 0 in
        r <-- unwrap (set_final r 0 kone) ;;
        unwrap (add_tr r 0 (Tr 0 no_label kone 0))
    | ClosurePlus =>
        let r := add_states r 2 in
        let r := set_start_unchecked r 0 in
        r <-- unwrap (set_final r 1 kone) ;;
        r <-- unwrap (add_tr r 0 (Tr 0 no_label kone 1)) ;;
        unwrap (add_tr r 1 (Tr 0 0 kone 0))
    end.
  (** union_fst.rs 29-41. *)
  Definition union_root f : res (vfst K) :=
    let r := add_states vnew 2 in
    r <-- set_start r 0 ;;
    r <-- unwrap (set_final r 1 kone) ;;
    let r := set_symts_from_fst r f in
    r <-- unwrap (add_tr r 0 (Tr 0 no_label kone 1)) ;;
    unwrap (add_tr r 0 (Tr 0 (no_label - 1) kone 1)).
  (** concat_fst.rs 29-40. *)
  Definition concat_root f : res (vfst K) :=
    let r := add_states vnew 3 in
    let r := set_start_unchecked r 0 in
    r <-- unwrap (set_final r 2 kone) ;;
    let r := set_symts_from_fst r f in
    r <-- unwrap (add_tr r 0 (Tr 0 no_label kone 1)) ;;
    unwrap (add_tr r 1 (Tr 0 (no_label - 1) kone 2)).

  (** closure_fst.rs 56-58, union_fst.rs 43 and concat_fst.rs 42: the arguments of [ReplaceFst::new]. *)
  Definition closure_tuples f ct : res (list (nat * vfst K)) :=
    r <-- closure_root f ct ;; Ok [(0, r); (no_label, f)].
  Definition union_tuples f1 f2 : res (list (nat * vfst K)) :=
    r <-- union_root f1 ;; Ok [(0, r); (no_label, f1); (no_label - 1, f2)].
  Definition concat_tuples f1 f2 : res (list (nat * vfst K)) :=
    r <-- concat_root f1 ;; Ok [(0, r); (no_label, f1); (no_label - 1, f2)].

  (** closure_fst.rs 19, union_fst.rs 17, concat_fst.rs 17: the delayed machine: the operation of the inner [ReplaceFst] and the property word
      that [properties()] answers. *)
  Definition rational_fst := (replace_env K * N)%type.
  (** [ReplaceFst::new(fst_tuples, 0, false)]. *)
  Definition rational_opts : replace_opts := replace_opts_new 0 false.

  (** closure_fst.rs 28-64. *)
  Definition closure_fst_new f ct : res rational_fst :=
    l <-- closure_tuples f ct ;; E <-- replace_new l rational_opts ;; Ok (E, closure_properties (vprops f) true).
  (** union_fst.rs 26-49. *)
  Definition union_fst_new f1 f2 : res rational_fst :=
    l <-- union_tuples f1 f2 ;; E <-- replace_new l rational_opts ;; Ok (E, union_properties (vprops f1) (vprops f2) true).
  (** concat_fst.rs 26-48. *)
  Definition concat_fst_new f1 f2 : res rational_fst :=
    l <-- concat_tuples f1 f2 ;; E <-- replace_new l rational_opts ;; Ok (E, concat_properties (vprops f1) (vprops f2) true).

  (** [compute] of a newly made machine: closure_fst.rs 66-69, union_fst.rs 51-54, concat_fst.rs 50-53. *)
  Definition computed (l : res (list (nat * vfst K))) (fuel : nat) : option (res (vfst K)) :=
    match l with
    | Ok l => replace l 0 false fuel
    | Err => Some Err
    | Panic => Some Panic
    end.
  Definition closure_fst f ct fuel : option (res (vfst K)) := computed (closure_tuples f ct) fuel.
  Definition union_fst f1 f2 fuel : option (res (vfst K)) := computed (union_tuples f1 f2) fuel.
  Definition concat_fst f1 f2 fuel : option (res (vfst K)) := computed (concat_tuples f1 f2) fuel.
End R.
