(** Delayed epsilon removal: rustfst/src/algorithms/rm_epsilon/rm_epsilon_op.rs and
    rm_epsilon_fst.rs. *)
From Coq Require Import List Arith NArith Bool.
From Verif Require Import Base.Util Base.Semiring Base.Machine Model.Props Model.AlgoProps Model.VectorFst Model.Dfs Model.Lazy Model.Queues
  Model.ShortestDistance Model.RmEpsilon Model.RandGen.
Import ListNotations.

Section R.
  Context {K : SR}.

  (** rm_epsilon_op.rs 43-81. The state of the operation is its [rmeps_state], over a first-in
      first-out queue (line 50). [k] bounds the steps of the distances; running out counts as an
      error. *)
  Definition rm_eps_op (rightp pathp : bool) (f : vfst K) (k : nat) : fst_op2 K (rmst K code_queue) :=
    FO2 (fun o => Ok (vstart f, o))
        (fun s o => match rm_lazy_state code_queue rightp pathp k s f o with Some r => r | None => Err end)
        (rmepsilon_properties (vprops f) true).

  (** rm_epsilon_fst.rs 140-153: [RmEpsilonFst::new(f)?.compute()]. [fuel] bounds the states
      taken from the queue of [compute]. *)
  Definition rm_epsilon_fst (rightp pathp : bool) (k fuel : nat) (f : vfst K) : option (res (vfst K)) :=
    match compute2 (rm_eps_op rightp pathp f k) map_cache_ops fuel (visymt f) (vosymt f)
            (rmst_new code_queue (QS fifo_new), map_cache_new) with
    | Some (Ok (g, _)) => Some (Ok g)
    | Some Err => Some Err
    | Some Panic => Some Panic
    | None => None
    end.
End R.
