(** The n shortest paths with distinct strings: rustfst/src/algorithms/shortest_path.rs 109-172
    with [unique]. *)
From Coq Require Import List Arith NArith Bool.
From Verif Require Import Base.Util Base.Semiring Base.Machine Model.Props Model.AlgoProps Model.VectorFst
  Model.Queues Model.ShortestDistance Model.ShortestPath Model.Rational Model.Gallic Model.NShortest Model.Determinize.
Import ListNotations.

Section Unique.
  Context {K K' : SR} (rv : K -> K') (rb : K' -> K).
  (** The operations on the reversed weights and the order of the hash maps, see
      Model/Determinize.v. *)
  Context (D : det_weight K') (ord : dtuple K' -> nat -> list (nat * K') -> list (nat * K')).

  (** 109-172. The distances are converted by [into] (158-159), here the same function as the
      reversal of weights: for the weights with the path property of the library both are the
      identity. [fuel] bounds [shortest_distance], the case of one path and the
      determinization. *)
  Definition shortest_path_full (unique idem semiring : bool) (fuel : nat) (n : nat) (f : vfst K) : option (res (vfst K)) :=
    if Nat.eqb n 0 then Some (Ok vnew)
    else if Nat.eqb n 1 then shortest_path1 idem semiring fuel f
    else if negb semiring then Some Err
    else
      dist <== shortest_distance idem true true rv rb fuel f false ;;
      rf <== Some (reverse rv f) ;;
      d <== Some (n_start_distance rb rf dist) ;;
      g <== (if negb unique then Some (n_shortest_path rb semiring rf (d :: dist) n)
             else
               x <== determinize_with_distance D ord rf (map rv (d :: dist)) fuel ;;
               Some (n_shortest_path rb semiring (fst x) (map rb (snd x)) n)) ;;
      Some (Ok (set_symts_from_fst g f)).
End Unique.
