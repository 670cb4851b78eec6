(** Call histories of a [VectorFst]: the mutating calls of [MutableFst]
    (rustfst/src/fst_traits/mutable_fst.rs, implemented in
    rustfst/src/fst_impls/vector_fst/mutable_fst.rs) as data, and their execution. *)
From Coq Require Import List Arith NArith Bool.
From Verif Require Import Base.Util Base.Semiring Base.Machine Model.Props Model.VectorFst Model.TrOps.
Import ListNotations.

Section H.
  Context {K : SR}.

  Inductive op :=
  | OAddState | OAddStates (n : nat)
  | OSetStart (s : nat) | OSetFinal (s : nat) (w : K)
  | ODelFinal (s : nat) | OTakeFinal (s : nat)
  | OAddTr (s : nat) (t : tr K)
  | ODelTrs (s : nat) | OPopTrs (s : nat) | ODelTrsId (s : nat) (ids : list nat)
  | ODelState (s : nat) | ODelStates (d : list nat) | ODelAll
  | OSetTrs (s : nat) (l : list (tr K))
  (* edits through tr_iter_mut *)
  | OIterTr (s i : nat) (t : tr K) | OIterLabels (s i a b : nat)
  | OIterWeight (s i : nat) (w : K) | OIterNext (s i q : nat)
  (* per-state calls that do not update the property bits *)
  | ORawSort (le : tr K -> tr K -> bool) (s : nat) | ORawUnique (s : nat) | ORawSum (s : nat)
  (* whole-machine algorithms *)
  | OSortI | OSortO | OUnique | OSum.

  (** One call. [Err] calls leave the machine as it was and are not recorded. *)
  Definition step (f : vfst K) (o : op) : res (vfst K) :=
    match o with
    | OAddState => Ok (fst (add_state f))
    | OAddStates n => Ok (add_states f n)
    | OSetStart s => set_start f s
    | OSetFinal s w => set_final f s w
    | ODelFinal s => delete_final_weight f s
    | OTakeFinal s => rmap fst (take_final_weight f s)
    | OAddTr s t => add_tr f s t
    | ODelTrs s => delete_trs f s
    | OPopTrs s => rmap fst (pop_trs f s)
    | ODelTrsId s ids => del_trs_id_sorted f s ids
    | ODelState s => del_state f s
    | ODelStates d => del_states f d
    | ODelAll => Ok (del_all_states f)
    | OSetTrs s l => set_trs f s l
    | OIterTr s i t => iter_set_tr f s i t
    | OIterLabels s i a b => iter_set_labels f s i a b
    | OIterWeight s i w => iter_set_weight f s i w
    | OIterNext s i q => iter_set_nextstate f s i q
    | ORawSort le s => sort_trs_unchecked le f s
    | ORawUnique s => unique_trs_unchecked f s
    | ORawSum s => sum_trs_unchecked f s
    | OSortI => tr_sort_i f
    | OSortO => tr_sort_o f
    | OUnique => tr_unique f
    | OSum => tr_sum f
    end.

  (** Run a list of calls; a call answering [Err] is skipped, a panic ends the run. *)
  Fixpoint run (f : vfst K) (l : list op) : res (vfst K) :=
    match l with
    | [] => Ok f
    | o :: l' => match step f o with
                 | Ok f' => run f' l'
                 | Err => run f l'
                 | Panic => Panic
                 end
    end.
End H.
Arguments op : clear implicits.
