(** rustfst/src/algorithms/reweight.rs and the weight pushing part of
    rustfst/src/algorithms/push.rs. *)
From Coq Require Import List Arith NArith Bool.
From Verif Require Import Base.Util Base.Semiring Base.Machine
  Model.Props Model.VectorFst Model.TrOps Model.AlgoProps Model.Dfs Model.Visitors Model.ComputeProps Model.Relabel Model.Rational
  Model.Queues Model.ShortestDistance.
Import ListNotations.

(** reweight.rs 11-16. *)
Inductive reweight_type := ToInitial | ToFinal.
(** semirings/semiring.rs: [DivideType]. *)
Inductive divide_type := DivideLeft | DivideRight.

Section R.
  Context {K : SR}.
  Local Open Scope K_scope.
  (** [WeaklyDivisibleSemiring::divide]. *)
  Variable divide : K -> K -> divide_type -> res K.
  Implicit Types (f : vfst K).

  (** [potentials.get(s).unwrap_or(&zero)]. *)
  Definition pot (d : list K) (s : nat) : K := nth s d 0.
  Definition is_zero (w : K) : bool := keqb w 0.
  Definition is_one (w : K) : bool := keqb w 1.

  (** A loop over the transitions of [s] that replaces some weights: [None] is [continue]. *)
  Definition set_weights (w : tr K -> option (res K)) f (s : nat) : res (vfst K) :=
    for_trs (fun h s i => with_tr h s i (fun t =>
      match w t with
      | None => Ok h
      | Some r => v <-- r ;; iter_set_weight h s i v
      end)) f s.

  (** reweight.rs 56-80. *)
  Definition new_weight (d : list K) (rt : reweight_type) (s : nat) (t : tr K) : option (res K) :=
    if is_zero (pot d (ns t)) then None
    else Some match rt with
              | ToInitial => divide (wgt t * pot d (ns t)) (pot d s) DivideLeft
              | ToFinal => divide (pot d s * wgt t) (pot d (ns t)) DivideRight
              end.

  (** 38-82, one state. *)
  Definition reweight_state (d : list K) (rt : reweight_type) f (s : nat) : res (vfst K) :=
    if Nat.leb (length d) s then
      match rt with
      | ToInitial => Ok f
      | ToFinal => match fin_of f s with Some w => set_final f s (0 * w) | None => Ok f end
      end
    else if is_zero (pot d s) then Ok f
    else set_weights (new_weight d rt s) f s.

  (** 84-102, one state. *)
  Definition reweight_final (d : list K) (rt : reweight_type) f (s : nat) : res (vfst K) :=
    match fin_of f s with
    | None => Ok f
    | Some w =>
        match rt with
        | ToFinal => set_final f s (w * pot d s)
        | ToInitial => if is_zero (pot d s) then Ok f
                       else v <-- divide w (pot d s) DivideLeft ;; set_final f s v
        end
    end.

  (** 112-136: the factor that goes back in front of the start state. *)
  Definition start_factor (d : list K) (rt : reweight_type) (s : nat) : res K :=
    match rt with
    | ToInitial => Ok (pot d s)
    | ToFinal => divide 1 (pot d s) DivideRight
    end.

  (** 104-146. *)
  Definition reweight_start (d : list K) (rt : reweight_type) f : res (vfst K) :=
    match vstart f with
    | None => Ok f
    | Some s =>
        if negb (is_one (pot d s)) && negb (is_zero (pot d s)) then
          r <-- compute_and_update_properties f (mask [INITIAL_ACYCLIC]) ;;
          let f := fst r in
          if has (vprops f) INITIAL_ACYCLIC then
            f <-- set_weights (fun t => Some (c <-- start_factor d rt s ;; Ok (c * wgt t))) f s ;;
            match fin_of f s with
            | Some w => c <-- start_factor d rt s ;; set_final f s (c * w)
            | None => Ok f
            end
          else
            let (f, n) := add_state f in
            c <-- start_factor d rt s ;;
            f <-- add_tr f n (Tr O O c s) ;;
            set_start f n
        else Ok f
    end.

  (** 27-154. *)
  Definition reweight f (d : list K) (rt : reweight_type) : res (vfst K) :=
    if Nat.eqb (num_states f) 0 then Ok f
    else
      f <-- rfold (reweight_state d rt) (seq 0 (num_states f)) f ;;
      f <-- rfold (reweight_final d rt) (seq 0 (num_states f)) f ;;
      f <-- reweight_start d rt f ;;
      Ok (set_properties_with_mask f (reweight_properties (vprops f)) all_properties).

  (** push.rs 117-138. The distances may be fewer than the states, never more. *)
  Definition compute_total_weight f (d : list K) (reverse : bool) : K :=
    if reverse then match vstart f with Some s => pot d s | None => 0 end
    else fold_left (fun a p => a + snd p * fw (fin_of f (fst p))) (combine (seq 0 (length d)) d) 0.

  (** push.rs 140-175. *)
  Definition remove_weight f (w : K) (at_final : bool) : res (vfst K) :=
    if is_one w || is_zero w then Ok f
    else if at_final then
      rfold (fun g s => match fin_of g s with
                        | Some v => u <-- divide v w DivideRight ;; set_final g s u
                        | None => Ok g
                        end) (seq 0 (num_states f)) f
    else
      match vstart f with
      | None => Ok f
      | Some s =>
          f <-- set_weights (fun t => Some (divide (wgt t) w DivideLeft)) f s ;;
          match fin_of f s with
          | Some v => u <-- divide v w DivideLeft ;; set_final f s u
          | None => Ok f
          end
      end.

  (** push.rs 82-115. [None]: the distance computation ran out of fuel. *)
  Definition push_weights {K' : SR} (idem pathp rightp : bool) (rv : K -> K') (rb : K' -> K) (fuel : nat)
      f (rt : reweight_type) (remove_total : bool) : option (res (vfst K)) :=
    match shortest_distance idem pathp rightp rv rb fuel f (match rt with ToInitial => true | ToFinal => false end) with
    | None => None
    | Some r => Some (
        d <-- r ;;
        if remove_total then
          let total := compute_total_weight f d (match rt with ToInitial => true | ToFinal => false end) in
          g <-- reweight f d rt ;;
          remove_weight g total (match rt with ToInitial => false | ToFinal => true end)
        else reweight f d rt)
    end.
End R.
