(** The weights: rustfst/src/semirings/*.rs. *)
From Coq Require Import List Arith ZArith QArith Qcanon Bool.
From Verif Require Import Base.Util Base.Semiring.
Import ListNotations.
Local Close Scope Qc_scope.
Local Close Scope Q_scope.
Local Open Scope nat_scope.

(** semiring.rs 15-29: [SemiringProperties]. *)
Record sprops := SProps { sp_left : bool; sp_right : bool; sp_comm : bool; sp_idem : bool; sp_path : bool }.
(** Bitwise and of two sets. *)
Definition sp_and (a b : sprops) : sprops :=
  SProps (sp_left a && sp_left b) (sp_right a && sp_right b) (sp_comm a && sp_comm b) (sp_idem a && sp_idem b) (sp_path a && sp_path b).

(** semiring.rs 79-88. *)
Inductive dtype := DivideLeft | DivideRight | DivideAny.

(** semiring.rs 38-75, 97-104: trait [Semiring] with the division of [WeaklyDivisibleSemiring];
    [plus] and [times] return a [Result]. Weights without division get one that fails. *)
Record weight := Weight {
  wcar :> Type;
  wzero : wcar;
  wone : wcar;
  wplus : wcar -> wcar -> res wcar;
  wtimes : wcar -> wcar -> res wcar;
  weqb : wcar -> wcar -> bool;
  wdivide : wcar -> wcar -> dtype -> res wcar;
  wprops : sprops
}.
Arguments wzero {w}.
Arguments wone {w}.
Arguments wplus {w}.
Arguments wtimes {w}.
Arguments weqb {w}.
Arguments wdivide {w}.

(** boolean_weight.rs 11-78. *)
Definition boolean_weight : weight :=
  Weight bool false true (fun x y => Ok (x || y)) (fun x y => Ok (x && y)) Bool.eqb (fun _ _ _ => Err)
    (SProps true true true true true).
(** boolean_weight.rs 75-77. *)
Definition boolean_closure (_ : bool) : bool := true.

(** integer_weight.rs 21-81. i32 is replaced by the integers: overflow is not modelled. *)
Definition integer_weight : weight :=
  Weight Z 0%Z 1%Z (fun x y => Ok (x + y)%Z) (fun x y => Ok (x * y)%Z) Z.eqb (fun _ _ _ => Err)
    (SProps true true true false false).
(** integer_weight.rs 90-95. *)
Definition integer_closure (x : Z) : Z := if Z.eqb x 0 then 1%Z else 2147483647%Z.

(** The floats of a tropical weight: two infinities and exact finite values (an f32 is an integer
    multiple of a fixed power of two, so integers stand for all of them). NaN is not a value:
    operations that make one return [Panic]. *)
Inductive ext := PInf | Fin (z : Z) | MInf.
Definition ext_ltb (x y : ext) : bool :=
  match x, y with
  | MInf, MInf => false | MInf, _ => true
  | Fin a, Fin b => Z.ltb a b | Fin _, PInf => true
  | _, _ => false
  end.
Definition ext_eqb (x y : ext) : bool :=
  match x, y with PInf, PInf | MInf, MInf => true | Fin a, Fin b => Z.eqb a b | _, _ => false end.
(** tropical_weight.rs 53-58. *)
Definition trop_plus (x y : ext) : ext := if ext_ltb y x then y else x.
(** tropical_weight.rs 60-70. *)
Definition trop_times (x y : ext) : ext :=
  match x, y with
  | PInf, _ => PInf
  | _, PInf => PInf
  | Fin a, Fin b => Fin (a + b)
  | _, _ => MInf
  end.
(** tropical_weight.rs 127-132: the difference of the floats. *)
Definition trop_divide (x y : ext) (_ : dtype) : res ext :=
  match x, y with
  | PInf, PInf | MInf, MInf => Panic
  | PInf, _ => Ok PInf
  | MInf, _ => Ok MInf
  | Fin _, PInf => Ok MInf
  | Fin _, MInf => Ok PInf
  | Fin a, Fin b => Ok (Fin (a - b))
  end.
(** tropical_weight.rs 31-100. *)
Definition tropical_weight : weight :=
  Weight ext PInf (Fin 0) (fun x y => Ok (trop_plus x y)) (fun x y => Ok (trop_times x y)) ext_eqb trop_divide
    (SProps true true true true true).
(** tropical_weight.rs 117-124; -0.0 is not a value here. *)
Definition tropical_closure (x : ext) : ext :=
  match x with Fin a => if Z.leb 0 a then Fin 0 else MInf | _ => MInf end.

(** probability_weight.rs 27-83, 127-136, over the exact rationals. *)
Definition prob_divide (x y : Qc) (_ : dtype) : res Qc :=
  if Qc_eq_bool y (Q2Qc 0) then Err else Ok (Qcdiv x y).
Definition probability_weight : weight :=
  Weight Qc (Q2Qc 0) (Q2Qc 1) (fun x y => Ok (Qcplus x y)) (fun x y => Ok (Qcmult x y)) Qc_eq_bool prob_divide
    (SProps true true true false false).
(** probability_weight.rs 121-125. *)
Definition probability_closure (x : Qc) : Qc := Qcdiv (Q2Qc 1) (Qcminus (Q2Qc 1) x).
(** probability_weight.rs 74-76, 85-89: [reverse] copies, [reverse_back] is unimplemented!(). *)
Definition probability_reverse (x : Qc) : res Qc := Ok x.
Definition probability_reverse_back (x : Qc) : res Qc := Panic.

(** string_variant.rs 3-7: [None] is Infinity. *)
Definition svariant := option (list nat).
Fixpoint list_eqb (x y : list nat) : bool :=
  match x, y with
  | [], [] => true
  | a :: x', b :: y' => Nat.eqb a b && list_eqb x' y'
  | _, _ => false
  end.
Definition sv_eqb (x y : svariant) : bool :=
  match x, y with None, None => true | Some a, Some b => list_eqb a b | _, _ => false end.

(** string_weight.rs 103-112: zip, take_while equal. *)
Fixpoint lcp (x y : list nat) : list nat :=
  match x, y with
  | a :: x', b :: y' => if Nat.eqb a b then a :: lcp x' y' else []
  | _, _ => []
  end.
(** 113-124. *)
Definition lcs (x y : list nat) : list nat := rev (lcp (rev x) (rev y)).

(** string_weight.rs 84-128 around the [match] on the type of string. *)
Definition sv_plus (op : list nat -> list nat -> res (list nat)) (x y : svariant) : res svariant :=
  match x, y with
  | None, _ => Ok y
  | _, None => Ok x
  | Some a, Some b => rmap Some (op a b)
  end.
(** string_weight.rs 129-140. *)
Definition sv_times (x y : svariant) : svariant :=
  match x, y with Some a, Some b => Some (a ++ b) | _, _ => None end.
(** string_variant.rs 58-67. *)
Definition sv_reverse (x : svariant) : svariant := option_map (@rev nat) x.

(** string_weight.rs 316-327. *)
Definition divide_left (x y : svariant) : res svariant :=
  match x, y with
  | _, None => Panic
  | None, _ => Ok None
  | Some a, Some b => Ok (Some (skipn (length b) a))
  end.
(** string_weight.rs 329-340. *)
Definition divide_right (x y : svariant) : res svariant :=
  match x, y with
  | _, None => Panic
  | None, _ => Ok None
  | Some a, Some b => Ok (Some (rev (skipn (length b) (rev a))))
  end.

(** string_weight.rs 94-102, 164-168, 362-371. *)
Definition string_restrict : weight :=
  Weight svariant None (Some []) (sv_plus (fun a b => if list_eqb a b then Ok a else Err)) (fun x y => Ok (sv_times x y)) sv_eqb
    (fun x y d => match d with DivideLeft => divide_left x y | DivideRight => divide_right x y | DivideAny => Err end)
    (SProps true true false true false).
(** string_weight.rs 103-112, 169-171, 342-350. *)
Definition string_left : weight :=
  Weight svariant None (Some []) (sv_plus (fun a b => Ok (lcp a b))) (fun x y => Ok (sv_times x y)) sv_eqb
    (fun x y d => match d with DivideLeft => divide_left x y | _ => Err end)
    (SProps true false false true false).
(** string_weight.rs 113-124, 172-174, 352-360. *)
Definition string_right : weight :=
  Weight svariant None (Some []) (sv_plus (fun a b => Ok (lcs a b))) (fun x y => Ok (sv_times x y)) sv_eqb
    (fun x y d => match d with DivideRight => divide_right x y | _ => Err end)
    (SProps false true false true false).

(** Run an operation on the first components, then on the second. *)
Definition pair_op {A B C D E F} (f : A -> C -> res E) (g : B -> D -> res F) (x : A * B) (y : C * D) : res (E * F) :=
  a <-- f (fst x) (fst y) ;; b <-- g (snd x) (snd y) ;; Ok (a, b).

(** product_weight.rs 37-103, 145-155. *)
Definition product_weight (W1 W2 : weight) : weight :=
  Weight (W1 * W2) (wzero, wzero) (wone, wone) (pair_op wplus wplus) (pair_op wtimes wtimes)
    (fun x y => weqb (fst x) (fst y) && weqb (snd x) (snd y))
    (fun x y d => pair_op (fun a b => wdivide a b d) (fun a b => wdivide a b d) x y)
    (sp_and (sp_and (wprops W1) (wprops W2)) (SProps true true true true false)).

(** gallic_weight.rs 82-143, 195-212: all but the sum of the min variant delegate to the product. *)
Definition gallic_left (W : weight) : weight := product_weight string_left W.
Definition gallic_right (W : weight) : weight := product_weight string_right W.
Definition gallic_restrict (W : weight) : weight := product_weight string_restrict W.

(** gallic_weight.rs 45-47. *)
Definition natural_less {W : weight} (x y : W) : res bool :=
  s <-- wplus x y ;; Ok (weqb s x && negb (weqb x y)).
(** gallic_weight.rs 107-111. *)
Definition gallic_min (W : weight) : weight :=
  Weight (svariant * W) (None, wzero) (Some [], wone)
    (fun x y => b <-- natural_less (snd x) (snd y) ;; Ok (if b : bool then x else y))
    (wtimes (w := product_weight string_restrict W)) (weqb (w := product_weight string_restrict W))
    (wdivide (w := product_weight string_restrict W)) (wprops (product_weight string_restrict W)).
