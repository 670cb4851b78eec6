(** The log weight: rustfst/src/semirings/log_weight.rs, with the reals for the finite floats.
    [None] is positive infinity. Negative infinity and NaN are not values here: the operations
    that can leave the values say so. *)
From Coq Require Import Reals.
From Verif Require Import Base.Util Base.Semiring Model.Weights.
Local Open Scope R_scope.

(** log_weight.rs 30-32; [ln_1p y] is [ln (1 + y)]. *)
Definition ln_pos_exp (x : R) : R := ln (1 + exp (- x)).
(** log_weight.rs 54-67. *)
Definition log_plus (x y : option R) : option R :=
  match x, y with
  | None, _ => y
  | _, None => x
  | Some f1, Some f2 => Some (if Rlt_dec f2 f1 then f2 - ln_pos_exp (f1 - f2) else f1 - ln_pos_exp (f2 - f1))
  end.
(** log_weight.rs 69-79. *)
Definition log_times (x y : option R) : option R :=
  match x, y with
  | None, _ => x
  | _, None => y
  | Some f1, Some f2 => Some (f1 + f2)
  end.
(** [PartialEq] of the floats (partial_eq_and_hash_f32!). *)
Definition log_eqb (x y : option R) : bool :=
  match x, y with Some a, Some b => if Req_EM_T a b then true else false | None, None => true | _, _ => false end.
(** log_weight.rs 131-136; dividing by infinity gives NaN or negative infinity: [Panic]. *)
Definition log_divide (x y : option R) (_ : dtype) : res (option R) :=
  match x, y with
  | _, None => Panic
  | None, Some _ => Ok None
  | Some a, Some b => Ok (Some (a - b))
  end.
(** log_weight.rs 34-103: the declared properties are LEFT_SEMIRING, RIGHT_SEMIRING, COMMUTATIVE. *)
Definition log_weight : weight :=
  Weight (option R) None (Some 0) (fun x y => Ok (log_plus x y)) (fun x y => Ok (log_times x y)) log_eqb log_divide
    (SProps true true true false false).
(** log_weight.rs 121-129; [None] is negative infinity. *)
Definition log_closure (x : option R) : option (option R) :=
  match x with
  | Some r => if Rle_dec 0 r then if Rlt_dec r 1 then Some (Some (ln (1 - r))) else None else None
  | None => None
  end.
(** log_weight.rs 94-96, 106-110. *)
Definition log_reverse (x : option R) : option R := x.
Definition log_reverse_back (x : option R) : option R := x.

(** As a semiring. *)
Definition logSR : SR := mkSR (option R) None (Some 0) log_plus log_times log_eqb.
