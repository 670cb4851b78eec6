(** Determinization of transducers: rustfst/src/algorithms/determinize/determinize_static.rs 56-104, 149-205,
    the functional variant (the default), and divisors.rs 26-72.

    Output labels move into the weights, the acceptor is determinized, the strings left in final weights are
    spread over transitions and the labels move back.  The weights are those of
    [GallicWeightRestrict]: pairs whose sum refuses two different strings.  The carrier below is that of the
    left variant, with the same zero, one, product and equality; its own sum is never used here. The two
    deltas are not modelled; [quant] is the quantization of the weights. *)
From Coq Require Import List Arith NArith Bool.
From Verif Require Import Base.Util Base.Semiring Base.Machine Model.Props Model.AlgoProps Model.VectorFst Model.TrMap Model.Weights
  Model.Rational Model.ShortestPath Model.Determinize Model.FactorWeight Model.Reweight Model.Gallic.
Import ListNotations.

(** divisors.rs 28-52; [next().unwrap()] on a string without labels stops the program. *)
Definition label_divisor (x y : svariant) : res svariant :=
  match x, y with
  | Some [], _ | _, Some [] => Ok (Some [])
  | None, Some (a :: _) => Ok (Some [a])
  | None, None => Panic
  | Some (a :: _), None => Ok (Some [a])
  | Some (a :: _), Some (b :: _) => Ok (Some (if Nat.eqb a b then [a] else []))
  end.

(** string_weight.rs 84-102: the sum of restricted strings. *)
Definition restrict_plus (x y : svariant) : res svariant :=
  match x, y with
  | None, _ => Ok y
  | _, None => Ok x
  | Some a, Some b => if list_eqb a b then Ok (Some a) else Err
  end.

(** divisors.rs 60-69, gallic_weight.rs 101-106 and 195-212, string_weight.rs 362-371. *)
Definition restrict_weight {K : SR} (divide : K -> K -> Reweight.divide_type -> res K) (quant : K -> K) (left : bool)
  : det_weight (gallicSR K) :=
  DW (K := gallicSR K)
    (fun x y => s <-- restrict_plus (fst x) (fst y) ;; Ok (s, kplus (snd x) (snd y)))
    (fun x y => s <-- label_divisor (fst x) (fst y) ;; Ok (s, kplus (snd x) (snd y)))
    (fun x y => s <-- divide_left (fst x) (fst y) ;; w <-- divide (snd x) (snd y) Reweight.DivideLeft ;; Ok (s, w))
    (fun w => (fst w, quant (snd w))) left.

Section D.
  Context {K : SR} (divide : K -> K -> Reweight.divide_type -> res K) (quant : K -> K) (left : bool).
  Context (ord : dtuple K -> nat -> list (nat * K) -> list (nat * K))
    (ordg : dtuple (gallicSR K) -> nat -> list (nat * gallicSR K) -> list (nat * gallicSR K)).
  Implicit Types f : vfst K.

  (** determinize_static.rs 66-73: only final weights are factored. *)
  Definition final_opts : fw_opts (gallicSR K) := FWO (K := gallicSR K) true false (fun w => w) 0 0 false false.

  (** 89-104. *)
  Definition determinize_gallic (fuel : nat) f : option (res (vfst (gallicSR K))) :=
    gf <== Some (weight_convert (to_gallic sl_plus) f tt) ;;
    determinize_fsa (restrict_weight divide quant left) ordg (fst gf) fuel.
  Definition determinize_fst (fuel : nat) f : option (res (vfst K)) :=
    g <== determinize_gallic fuel f ;;
    h <== factor_weight (gallicFI K) final_opts g fuel ;;
    r <== Some (weight_convert (from_gallic sl_plus 0) h tt) ;;
    Some (Ok (fst r)).

  (** 179-205, with the default configuration. *)
  Definition determinize (fuel : nat) f : option (res (vfst K)) :=
    if has (vprops f) ACCEPTOR
    then determinize_acceptor (default_weight (fun a b => divide a b Reweight.DivideLeft) quant left) ord f true fuel
    else g <== determinize_fst fuel f ;; Some (Ok (finish_determinize f g true)).
End D.
