(** Labels moved into the weights: rustfst/src/semirings/gallic_weight.rs (the left and right
    variants), rustfst/src/algorithms/weight_converters/to_gallic_converter.rs and
    from_gallic_mapper.rs, and the label pushing part of rustfst/src/algorithms/push.rs.

    Left out: quantization and the delta of approximate comparisons. *)
From Coq Require Import List Arith NArith Bool.
From Verif Require Import Base.Util Base.Semiring Base.Machine Model.Props Model.AlgoProps Model.VectorFst Model.TrMap
  Model.Weights Model.FactorWeight Model.ShortestDistance Model.Reweight Model.LabelReach.
Import ListNotations.
Local Open Scope K_scope.

(** string_weight.rs 84-112 and 113-124, the left and the right sum, which never fail. *)
Definition sl_plus (x y : svariant) : svariant :=
  match x, y with None, _ => y | _, None => x | Some a, Some b => Some (lcp a b) end.
Definition sr_plus (x y : svariant) : svariant :=
  match x, y with None, _ => y | _, None => x | Some a, Some b => Some (lcs a b) end.

(** gallic_weight.rs 82-143: strings paired with weights, operations by component. *)
Definition gallic_of (sp : svariant -> svariant -> svariant) (K : SR) : SR :=
  mkSR (svariant * K) (None, 0) (Some [], 1)
    (fun x y => (sp (fst x) (fst y), snd x + snd y)) (fun x y => (sv_times (fst x) (fst y), snd x * snd y))
    (fun x y => sv_eqb (fst x) (fst y) && keqb (snd x) (snd y)).
Definition gallicSR (K : SR) : SR := gallic_of sl_plus K.
Definition gallicRSR (K : SR) : SR := gallic_of sr_plus K.

(** gallic_weight.rs 146-176 (divide_assign of the product) on top of string_weight.rs 342-360. *)
Definition gallic_divide {sp} {K : SR} (divide : K -> K -> Reweight.divide_type -> res K) (left : bool)
    (x y : gallic_of sp K) (d : Reweight.divide_type) : res (gallic_of sp K) :=
  a <-- match d, left with
        | Reweight.DivideLeft, true => divide_left (fst x) (fst y)
        | Reweight.DivideRight, false => divide_right (fst x) (fst y)
        | _, _ => Err
        end ;;
  b <-- divide (snd x) (snd y) d ;;
  Ok (a, b).

(** gallic_weight.rs: [reverse] and [reverse_back], by component. *)
Definition gallic_reverse {sp sp'} {K K' : SR} (rv : K -> K') (x : gallic_of sp K) : gallic_of sp' K' :=
  (sv_reverse (fst x), rv (snd x)).

(** gallic_factor.rs as a [factor_iter]. *)
Definition gallicFI_of sp (K : SR) : factor_iter (gallic_of sp K) :=
  FIter (K := gallic_of sp K) (fun w => gallic_done w) (fun w => gallic_items (1 : K) w).
Definition gallicFI (K : SR) : factor_iter (gallicSR K) := gallicFI_of sl_plus K.

Section G.
  Context {K : SR} (sp : svariant -> svariant -> svariant).

  (** to_gallic_converter.rs 12-60. *)
  Definition to_gallic : mapper unit K (gallic_of sp K) :=
    Mapper
      (fun _ t => Ok (tt, Tr (W := gallic_of sp K) (il t) (il t)
                             ((if Nat.eqb (ol t) 0 then Some [] else Some [ol t]), wgt t) (ns t)))
      (fun _ t => if keqb (fwt t) 0 then Err else Ok (tt, FT (K := gallic_of sp K) 0 0 (Some [], fwt t)))
      MapNoSuperfinal
      (fun p => pkeep (N.land p (project_properties p ProjectInput)) pm_weight_invariant_properties).

  (** from_gallic_mapper.rs 15-33. *)
  Definition extract_gallic (w : gallic_of sp K) : res (K * nat) :=
    match fst w with
    | Some [] => Ok (snd w, O)
    | Some [a] => Ok (snd w, a)
    | _ => Err
    end.
  (** from_gallic_mapper.rs 66-119; a final weight that cannot be extracted stops the program. *)
  Definition from_gallic (superfinal_label : nat) : mapper unit (gallic_of sp K) K :=
    Mapper
      (fun _ t => x <-- extract_gallic (wgt t) ;;
                  if negb (Nat.eqb (il t) (ol t)) then Err
                  else Ok (tt, Tr (il t) (snd x) (fst x) (ns t)))
      (fun _ t => match extract_gallic (fwt t) with
                  | Ok x =>
                      if negb (Nat.eqb (fil t) (fol t)) then Panic
                      else if Nat.eqb (fil t) 0 && negb (Nat.eqb (snd x) 0)
                           then Ok (tt, FT superfinal_label (snd x) (fst x))
                           else Ok (tt, FT (fil t) (snd x) (fst x))
                  | _ => Panic
                  end)
      MapAllowSuperfinal
      (fun p => pkeep (pkeep (pkeep p pm_o_label_invariant_properties) pm_weight_invariant_properties)
                      pm_add_super_final_properties).
End G.

(** push.rs 23-32: [PushType] as its four bits. *)
Record push_type := PT { pt_weights : bool; pt_labels : bool; pt_rm_total : bool; pt_rm_affix : bool }.

Definition obind {A B} (x : option (res A)) (k : A -> option (res B)) : option (res B) :=
  match x with
  | None => None
  | Some (Ok a) => k a
  | Some Err => Some Err
  | Some Panic => Some Panic
  end.
Notation "x <== e ;; k" := (obind e (fun x => k)) (at level 60, e at next level, right associativity).

Definition to_initial (rt : reweight_type) : bool := match rt with ToInitial => true | ToFinal => false end.

Section Push.
  Context {K K' : SR}.
  (** [WeaklyDivisibleSemiring::divide], [Semiring::properties] (idempotent, path; the weights promise both
      distributive laws), [reverse] and [reverse_back]. *)
  Context (divide : K -> K -> Reweight.divide_type -> res K) (idem pathp : bool) (rv : K -> K') (rb : K' -> K).

  Section Side.
    (** The sum of strings and that of reversed strings. *)
    Context (sp sp' : svariant -> svariant -> svariant).
    Notation G := (gallic_of sp K).

    (** push.rs 183-200: the distances, of the machine or of the machine with its weights
        removed. Products never have the path property. *)
    Definition push_distance (rt : reweight_type) (p : push_type) (fuel : nat) (f : vfst K) (gf : vfst G) : option (res (list G)) :=
      let sd g := shortest_distance idem false true (gallic_reverse rv) (gallic_reverse (sp := sp') rb) fuel g (to_initial rt) in
      if pt_weights p then sd gf
      else
        u <== Some (fst_convert_from_ref f) ;;
        u <== Some (tr_map rm_weight_mapper u tt) ;;
        g <== Some (weight_convert (to_gallic sp) (fst u) tt) ;;
        sd (fst g).

    (** 202-211: the part of the total that is taken out. *)
    Definition push_total (p : push_type) (w : G) : G :=
      ((if pt_rm_affix p then fst w else Some []), (if pt_rm_total p then snd w else 1)).

    (** 180-220: the machine with labels in the weights, pushed. *)
    Definition push_gallic (rt : reweight_type) (p : push_type) (fuel : nat) (f : vfst K) : option (res (vfst G)) :=
      gf <== Some (weight_convert (to_gallic sp) f tt) ;;
      d <== push_distance rt p fuel f (fst gf) ;;
      let div := gallic_divide divide (to_initial rt) in
      if pt_rm_affix p || pt_rm_total p then
        let total := push_total p (compute_total_weight (fst gf) d (to_initial rt)) in
        g <== Some (reweight div (fst gf) d rt) ;;
        Some (remove_weight div g total (negb (to_initial rt)))
      else Some (reweight div (fst gf) d rt).

    (** 221-231: long strings spread over several transitions, then labels again. *)
    Definition ungallic (fuel : nat) (g : vfst G) : option (res (vfst K)) :=
      h <== factor_weight (gallicFI_of sp K) (FWO true true (fun w => w) 0 0 false false) g fuel ;;
      r <== Some (weight_convert (from_gallic sp 0) h tt) ;;
      Some (Ok (fst r)).

    (** push.rs 177-233, [m_labels_pushing]. *)
    Definition push_labels (rt : reweight_type) (p : push_type) (fuel : nat) (f : vfst K) : option (res (vfst K)) :=
      g <== push_gallic rt p fuel f ;; ungallic fuel g.
  End Side.

  (** push.rs 271-317. *)
  Definition push (rt : reweight_type) (p : push_type) (fuel : nat) (f : vfst K) : option (res (vfst K)) :=
    if pt_weights p && negb (pt_labels p) then
      o <== Some (fst_convert_from_ref f) ;;
      push_weights divide idem pathp true rv rb fuel o rt (pt_rm_total p)
    else if pt_labels p then
      match rt with
      | ToInitial => push_labels sl_plus sr_plus rt p fuel f
      | ToFinal => push_labels sr_plus sl_plus rt p fuel f
      end
    else Some (fst_convert_from_ref f).
End Push.
