(** General optimization: rustfst/src/algorithms/optimize.rs. *)
From Coq Require Import List Arith NArith Bool.
From Verif Require Import Base.Util Base.Semiring Base.Machine Model.Props Model.AlgoProps Model.VectorFst Model.TrOps Model.TrMap Model.Weights
  Model.RmEpsilon Model.Determinize Model.Reweight Model.Encode Model.Minimize Model.Gallic Model.MinTransducer Model.DetTransducer.
Import ListNotations.

Section O.
  (** The weights: [reverse] and [reverse_back], [PartialOrd], [divide], the quantizations by the two deltas
      (of determinize and of minimize) and the four properties read (idempotent, path, left and right
      distributive); and the order in which the hash maps of determinize and the heaps of minimize answer. *)
  Context {K K' : SR} (rv : K -> K') (rb : K' -> K) (wlt : K -> K -> bool)
    (divide : K -> K -> Reweight.divide_type -> res K) (quantd quantm : K -> K) (idem pathp leftp rightp : bool).
  Context (orc : nat -> nat) (ord : dtuple K -> nat -> list (nat * K) -> list (nat * K))
    (ordg : dtuple (gallicSR K) -> nat -> list (nat * gallicSR K) -> list (nat * gallicSR K)).
  Context (fuel : nat).
  Implicit Types f : vfst K.

  (** 27-35. *)
  Definition opt_determinize f : option (res (vfst K)) := determinize divide quantd leftp ord ordg fuel f.
  Definition opt_minimize f : option (res (vfst K)) := minimize rv rb wlt orc divide quantm idem pathp rightp false fuel f.

  (** 37-51. *)
  Definition encode_deter_mini_decode f (e : etype) : option (res (vfst K)) :=
    x <== Some (encode f e) ;;
    g <== opt_determinize (fst x) ;;
    h <== opt_minimize g ;;
    Some (decode h e (snd x)).

  (** 62-66 and 101-104. *)
  Definition opt_prepare f : option (res (vfst K)) :=
    g <== (if has (vprops f) NO_EPSILONS then Some (Ok f) else rm_epsilon idem pathp rightp fuel f) ;;
    Some (tr_sum g).

  (** 76-78: [intersects]. *)
  Definition opt_direct f : bool := has (vprops f) ACYCLIC || has (vprops f) UNWEIGHTED || has (vprops f) UNWEIGHTED_CYCLES.

  (** 53-88. *)
  Definition optimize_transducer f : option (res (vfst K)) :=
    f <== opt_prepare f ;;
    if negb idem then
      if negb (has (vprops f) I_DETERMINISTIC) then
        if has (vprops f) ACYCLIC then encode_deter_mini_decode f EncodeLabels else Some (Ok f)
      else opt_minimize f
    else if negb (has (vprops f) I_DETERMINISTIC) then
      if negb (opt_direct f) then
        g <== encode_deter_mini_decode f EncodeWeightsAndLabels ;; Some (tr_sum g)
      else encode_deter_mini_decode f EncodeLabels
    else opt_minimize f.

  (** 90-127. *)
  Definition optimize_acceptor f : option (res (vfst K)) :=
    f <== opt_prepare f ;;
    if negb idem then
      if negb (has (vprops f) I_DETERMINISTIC) then
        if has (vprops f) ACYCLIC then g <== opt_determinize f ;; opt_minimize g else Some (Ok f)
      else opt_minimize f
    else if negb (has (vprops f) I_DETERMINISTIC) then
      if negb (opt_direct f) then
        g <== encode_deter_mini_decode f EncodeWeights ;; Some (tr_sum g)
      else g <== opt_determinize f ;; opt_minimize g
    else opt_minimize f.

  (** 10-25. *)
  Definition optimize f : option (res (vfst K)) :=
    if has (vprops f) ACCEPTOR then optimize_acceptor f else optimize_transducer f.
End O.
