(** Per-state transition rewriting: sort, unique, sum.
    rustfst/src/fst_impls/vector_fst/mutable_fst.rs 349-405,
    rustfst/src/algorithms/{tr_sort,tr_unique,tr_sum}.rs. *)
From Coq Require Import List Arith NArith Lia Bool.
From Verif Require Import Base.Util Base.Semiring Base.Machine Model.Props Model.VectorFst.
Import ListNotations.

(** [slice::sort_by] is a stable sort; on a total preorder all stable sorts agree, the
    model uses insertion. *)
Section Sort.
  Context {A : Type} (le : A -> A -> bool).
  Fixpoint insert (x : A) (l : list A) : list A :=
    match l with
    | [] => [x]
    | y :: l' => if le x y then x :: y :: l' else y :: insert x l'
    end.
  Fixpoint isort (l : list A) : list A :=
    match l with [] => [] | x :: l' => insert x (isort l') end.
End Sort.

Section T.
  Context {K : SR}.
  Implicit Types (f : vfst K) (t : tr K).

  (** tr_sort.rs 17-19, 35-37: [compare(a, b) != Greater]. *)
  Definition ilabel_le (a b : tr K) : bool := Nat.leb (il a) (il b).
  Definition olabel_le (a b : tr K) : bool := Nat.leb (ol a) (ol b).
  (** tr_unique.rs 8-34 [tr_compare]: input label, output label, next state. *)
  Definition tr_le (a b : tr K) : bool :=
    if Nat.ltb (il a) (il b) then true
    else if Nat.ltb (il b) (il a) then false
    else if Nat.ltb (ol a) (ol b) then true
    else if Nat.ltb (ol b) (ol a) then false
    else if Nat.ltb (ns a) (ns b) then true
    else if Nat.ltb (ns b) (ns a) then false
    else true.
  (** mutable_fst.rs 20-22 [equal_tr]. *)
  Definition equal_tr (a b : tr K) : bool :=
    Nat.eqb (il a) (il b) && Nat.eqb (ol a) (ol b) && Nat.eqb (ns a) (ns b).
  (** Derived [PartialEq] of Tr, tr.rs 6. *)
  Definition tr_eqb (a b : tr K) : bool :=
    Nat.eqb (il a) (il b) && Nat.eqb (ol a) (ol b) && keqb (wgt a) (wgt b) && Nat.eqb (ns a) (ns b).

  (** mutable_fst.rs 350-355. *)
  Definition sort_state (le : tr K -> tr K -> bool) (st : vstate K) : vstate K :=
    VS (vfin st) (isort le (vtrs st)) (vnie st) (vnoe st).

  (** [Vec::dedup]: drop an element equal to the last one kept. *)
  Fixpoint dedup_from (last : tr K) (l : list (tr K)) : list (tr K) :=
    match l with
    | [] => [last]
    | t :: l' => if tr_eqb t last then dedup_from last l' else last :: dedup_from t l'
    end.
  Definition dedup (l : list (tr K)) : list (tr K) :=
    match l with [] => [] | t :: l' => dedup_from t l' end.

  (** mutable_fst.rs 358-377. The counters are recounted only when one of them is not 0. *)
  Definition unique_state (st : vstate K) : vstate K :=
    let l := dedup (isort tr_le (vtrs st)) in
    if Nat.eqb (vnie st) 0 && Nat.eqb (vnoe st) 0
    then VS (vfin st) l (vnie st) (vnoe st)
    else VS (vfin st) l (count ieps l) (count oeps l).

  (** mutable_fst.rs 380-405. The [swap]s only park already consumed elements beyond the
      write position; the model keeps the written prefix ([last] is its last element). *)
  Fixpoint sum_from (last : tr K) (l : list (tr K)) (ni no : nat) : res (list (tr K) * nat * nat) :=
    match l with
    | [] => Ok ([last], ni, no)
    | t :: l' =>
        if equal_tr t last then
          ni1 <-- dec_if (Nat.eqb (il t) 0) ni ;;
          no1 <-- dec_if (Nat.eqb (ol t) 0) no ;;
          sum_from (Tr (il last) (ol last) (kplus (wgt last) (wgt t)) (ns last)) l' ni1 no1
        else
          r <-- sum_from t l' ni no ;;
          let '(l2, ni2, no2) := r in Ok (last :: l2, ni2, no2)
    end.
  Definition sum_trs (l : list (tr K)) (ni no : nat) : res (list (tr K) * nat * nat) :=
    match l with [] => Ok ([], ni, no) | t :: l' => sum_from t l' ni no end.
  Definition sum_state (st : vstate K) : res (vstate K) :=
    r <-- sum_trs (isort tr_le (vtrs st)) (vnie st) (vnoe st) ;;
    let '(l, ni, no) := r in Ok (VS (vfin st) l ni no).

  (** The three unchecked per-state calls; they do not touch the property bits. *)
  Definition sort_trs_unchecked (le : tr K -> tr K -> bool) f (s : nat) : res (vfst K) :=
    match nth_error (vstates f) s with
    | None => Panic | Some st => Ok (upd_state f s (sort_state le st) (vprops f))
    end.
  Definition unique_trs_unchecked f (s : nat) : res (vfst K) :=
    match nth_error (vstates f) s with
    | None => Panic | Some st => Ok (upd_state f s (unique_state st) (vprops f))
    end.
  Definition sum_trs_unchecked f (s : nat) : res (vfst K) :=
    match nth_error (vstates f) s with
    | None => Panic
    | Some st => st' <-- sum_state st ;; Ok (upd_state f s st' (vprops f))
    end.

  (** A [for s in 0..num_states] loop of per-state calls. *)
  Definition for_states (body : vfst K -> nat -> res (vfst K)) f : res (vfst K) :=
    fold_left (fun r s => g <-- r ;; body g s) (seq 0 (num_states f)) (Ok f).

  (** tr_sort.rs 21-28, 39-46. *)
  Definition ilabel_sort_properties (p : N) : N :=
    let out := pset (pkeep p pm_arcsort_properties) [I_LABEL_SORTED] in
    if has p ACCEPTOR then pset out [O_LABEL_SORTED] else out.
  Definition olabel_sort_properties (p : N) : N :=
    let out := pset (pkeep p pm_arcsort_properties) [O_LABEL_SORTED] in
    if has p ACCEPTOR then pset out [I_LABEL_SORTED] else out.

  (** tr_sort.rs 51-62. *)
  Definition tr_sort (le : tr K -> tr K -> bool) (pf : N -> N) f : res (vfst K) :=
    g <-- for_states (sort_trs_unchecked le) f ;;
    Ok (set_properties_with_mask g (pf (vprops f)) all_properties).
  Definition tr_sort_i := tr_sort ilabel_le ilabel_sort_properties.
  Definition tr_sort_o := tr_sort olabel_le olabel_sort_properties.

  (** tr_unique.rs 38-51. *)
  Definition tr_unique f : res (vfst K) :=
    g <-- for_states unique_trs_unchecked f ;;
    let out := pkeep (pkeep (vprops f) pm_arcsort_properties) pm_delete_arcs_properties in
    let out := if Nat.eqb (num_states g) 0 then pset out pm_null_properties else out in
    Ok (set_properties_with_mask g out all_properties).

  (** tr_sum.rs 7-22. *)
  Definition tr_sum f : res (vfst K) :=
    g <-- for_states sum_trs_unchecked f ;;
    let out := pkeep (pkeep (pkeep (vprops f) pm_arcsort_properties) pm_delete_arcs_properties)
                     pm_weight_invariant_properties in
    let out := if Nat.eqb (num_states g) 0 then pset out pm_null_properties else out in
    Ok (set_properties_with_mask g out all_properties).
End T.
