(** Union weights and the gallic weight: rustfst/src/semirings/{union_weight,gallic_weight}.rs. *)
From Coq Require Import List Arith Bool.
From Verif Require Import Base.Util Base.Semiring Model.Weights.
Import ListNotations.

Section U.
  (** The element weight and its [UnionWeightOption] (union_weight.rs 23-29). *)
  Variable W : weight.
  Variable compare : W -> W -> bool.
  Variable merge : W -> W -> res W.

  (** union_weight.rs 181-191: [push_back(_, true)]. *)
  Fixpoint uw_push (l : list W) (x : W) : res (list W) :=
    match l with
    | [] => Ok [x]
    | [b] => if compare b x then Ok [b; x] else m <-- merge b x ;; Ok [m]
    | b :: l' => rmap (cons b) (uw_push l' x)
    end.
  (** union_weight.rs 182-183, 192-201: [push_back(_, false)]. *)
  Definition uw_push_any (l : list W) (x : W) : list W :=
    match l with
    | [] => [x]
    | b :: l' => if compare b x then b :: l' ++ [x] else x :: l' ++ [b]
    end.
  Fixpoint uw_push_all (acc : list W) (l : list W) : res (list W) :=
    match l with [] => Ok acc | x :: l' => acc <-- uw_push acc x ;; uw_push_all acc l' end.

  (** union_weight.rs 86-106: the loop and the two loops after it. *)
  Fixpoint uw_merge (l1 : list W) : list W -> list W -> res (list W) :=
    fix go (l2 : list W) (acc : list W) : res (list W) :=
      match l1, l2 with
      | [], _ => uw_push_all acc l2
      | _, [] => uw_push_all acc l1
      | x :: l1', y :: l2' =>
          if compare x y then acc <-- uw_push acc x ;; uw_merge l1' l2 acc
          else acc <-- uw_push acc y ;; go l2' acc
      end.
  (** union_weight.rs 75-111. *)
  Definition uw_plus (l1 l2 : list W) : res (list W) :=
    match l1, l2 with [], _ => Ok l2 | _, [] => Ok l1 | _, _ => uw_merge l1 l2 [] end.

  (** union_weight.rs 118-121, 231-233, 235-237: compute and push, in order. *)
  Fixpoint uw_each (f : W -> res W) (l : list W) (acc : list W) : res (list W) :=
    match l with [] => Ok acc | y :: l' => p <-- f y ;; acc <-- uw_push acc p ;; uw_each f l' acc end.
  (** union_weight.rs 113-129. *)
  Fixpoint uw_prod (l1 l2 : list W) (acc : list W) : res (list W) :=
    match l1 with [] => Ok acc | x :: l1' => p <-- uw_each (wtimes x) l2 [] ;; acc <-- uw_plus acc p ;; uw_prod l1' l2 acc end.
  Definition uw_times (l1 l2 : list W) : res (list W) :=
    match l1, l2 with [], _ => Ok [] | _, [] => Ok [] | _, _ => uw_prod l1 l2 [] end.

  (** union_weight.rs 224-245: a zero on either side empties the dividend first. *)
  Definition uw_divide (l1 l2 : list W) (d : dtype) : res (list W) :=
    let l1 := match l1, l2 with [], _ => [] | _, [] => [] | _, _ => l1 end in
    match l1, l2 with
    | [x], _ => uw_each (fun v => wdivide x v d) (rev l2) []
    | _, [y] => uw_each (fun v => wdivide v y d) l1 []
    | _, _ => Err
    end.

  Fixpoint uw_eqb (l1 l2 : list W) : bool :=
    match l1, l2 with [], [] => true | x :: l1', y :: l2' => weqb x y && uw_eqb l1' l2' | _, _ => false end.

  (** union_weight.rs 40-78, 172-178. *)
  Definition union_weight : weight :=
    Weight (list W) [] [wone] uw_plus uw_times uw_eqb uw_divide (sp_and (wprops W) (SProps true true true true false)).

  (** union_weight.rs 157-170: [compare], on the reversed elements, decides the order; on
      elements it separates every sort returns the same list as this insertion. *)
  Fixpoint uw_insert (x : W) (l : list W) : list W :=
    match l with [] => [x] | y :: l' => if compare x y then x :: y :: l' else y :: uw_insert x l' end.
  Definition uw_sort (l : list W) : list W := fold_right uw_insert [] l.
  Definition uw_reverse (rv : W -> W) (l : list W) : list W :=
    uw_sort (fold_left (fun acc x => uw_push_any acc (rv x)) l []).
End U.

(** string_weight.rs 180-185. *)
Definition len_labels (x : svariant) : nat := match x with None => 0 | Some l => length l end.
(** gallic_weight.rs 309-321: the loop. *)
Fixpoint lex_less (x y : list nat) : bool :=
  match x, y with
  | a :: x', b :: y' => if Nat.ltb a b then true else if Nat.ltb b a then false else lex_less x' y'
  | _, _ => false
  end.
(** gallic_weight.rs 295-324. *)
Definition gallic_compare {W : weight} (x y : gallic_restrict W) : bool :=
  match Nat.compare (len_labels (fst x)) (len_labels (fst y)) with
  | Lt => true
  | Gt => false
  | Eq => match fst x, fst y with Some a, Some b => lex_less a b | _, _ => false end
  end.
(** gallic_weight.rs 326-332. *)
Definition gallic_merge {W : weight} (x y : gallic_restrict W) : res (gallic_restrict W) :=
  s <-- wplus (snd x) (snd y) ;; Ok (fst x, s).
(** gallic_weight.rs 335-400, 470-480. *)
Definition gallic_weight (W : weight) : weight := union_weight (gallic_restrict W) gallic_compare gallic_merge.
(** product_weight.rs 99-104 with string_variant.rs 58-67, under union_weight.rs 157-170. *)
Definition gallic_reverse {W : weight} (rv : W -> W) (x : gallic_weight W) : gallic_weight W :=
  uw_reverse (gallic_restrict W) gallic_compare (fun v => (sv_reverse (fst v), rv (snd v))) x.
