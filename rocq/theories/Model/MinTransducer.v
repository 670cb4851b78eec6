(** Minimization of transducers, and the dispatch on what is minimized:
    rustfst/src/algorithms/minimize.rs 80-174.

    Labels move into the weights, the weights are pushed, labels and weights become codes, the acceptor
    over the codes is minimized and everything is undone.  The two deltas (of the approximate
    comparisons in push_weights, of factor_weight) are not modelled; [quant] is the quantization. *)
From Coq Require Import List Arith NArith Bool.
From Verif Require Import Base.Util Base.Semiring Base.Machine Model.Props Model.VectorFst Model.TrMap Model.Weights
  Model.ShortestDistance Model.Reweight Model.ComputeProps Model.Encode Model.Minimize Model.Gallic.
Import ListNotations.

(** The [PartialOrd] of the left gallic weights, derived (gallic_weight.rs 22-25, product_weight.rs 18,
    string_weight.rs 28, string_variant.rs 3-7): the string first, [Infinity] below every string, strings
    in lexicographic order, then the weight. *)
Fixpoint labels_lt (a b : list nat) : bool :=
  match a, b with
  | _, [] => false
  | [], _ => true
  | x :: a, y :: b => if Nat.eqb x y then labels_lt a b else Nat.ltb x y
  end.
Definition variant_lt (a b : svariant) : bool :=
  match a, b with
  | _, None => false
  | None, Some _ => true
  | Some a, Some b => labels_lt a b
  end.
Definition gallic_lt {K : SR} (wlt : K -> K -> bool) (x y : gallicSR K) : bool :=
  if sv_eqb (fst x) (fst y) then wlt (snd x) (snd y) else variant_lt (fst x) (fst y).

Section T.
  Context {K K' : SR} (rv : K -> K') (rb : K' -> K) (wlt : K -> K -> bool) (orc : nat -> nat).
  Context (divide : K -> K -> Reweight.divide_type -> res K) (quant : K -> K) (idem pathp rightp : bool).
  Implicit Types (f : vfst K).

  (** gallic_weight.rs: quantization by component, strings stay as they are. *)
  Definition gallic_quant (w : gallicSR K) : gallicSR K := (fst w, quant (snd w)).

  (** minimize.rs 117-135: the machine with labels in the weights, minimized. Products never have the path
      property; the distances are computed with reversed weights, which promise the right distributive law. *)
  Definition minimize_gallic (det : bool) (fuel : nat) f : option (res (vfst (gallicSR K))) :=
    gf <== Some (weight_convert (to_gallic sl_plus) f tt) ;;
    g <== push_weights (K := gallicSR K) (K' := gallicRSR K') (gallic_divide divide true) idem false true
            (gallic_reverse rv) (gallic_reverse rb) fuel (fst gf) ToInitial false ;;
    x <== Some (tr_map (quantize_mapper gallic_quant) g tt) ;;
    y <== Some (encode (fst x) EncodeWeightsAndLabels) ;;
    m <== Some (acceptor_minimize (K' := gallicRSR K') (gallic_reverse rv) (gallic_lt wlt) orc (fst y) det) ;;
    Some (decode m EncodeWeightsAndLabels (snd y)).

  (** 117-159. *)
  Definition minimize_transducer (det : bool) (fuel : nat) f : option (res (vfst K)) :=
    m <== minimize_gallic det fuel f ;; ungallic sl_plus fuel m.

  (** 89-174, [minimize_with_config]. *)
  Definition minimize (allow_nondet : bool) (fuel : nat) f : option (res (vfst K)) :=
    match compute_and_update_properties f (mask [ACCEPTOR; I_DETERMINISTIC; WEIGHTED; UNWEIGHTED]) with
    | Ok (f1, q) =>
        let det := has q I_DETERMINISTIC in
        if negb det && (negb idem || negb allow_nondet) then Some Err
        else if negb (has q ACCEPTOR) then minimize_transducer det fuel f1
        else minimize_acceptor rv wlt orc divide quant idem pathp rightp rb allow_nondet fuel f
    | Err => Some Err
    | Panic => Some Panic
    end.
End T.
