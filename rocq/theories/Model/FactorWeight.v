(** Weight factoring: rustfst/src/algorithms/factor_weight.

    The mutex around the state table is not modelled (one thread), nor are the overflow of
    incremented 32-bit labels and the (never produced) errors of [quantize]. *)
From Coq Require Import List Arith NArith Bool.
From Verif Require Import Base.Util Base.Semiring Base.Machine Model.Props Model.AlgoProps Model.VectorFst
  Model.BiMap Model.Lazy Model.Compose Model.Weights.
Import ListNotations.
Local Open Scope K_scope.

(** factor_iterator.rs 3-11: [new] followed by [done], and [new] followed by draining the iterator
    (iterators are finite). *)
Record factor_iter (K : SR) := FIter { fi_done : K -> bool; fi_items : K -> list (K * K) }.
Arguments FIter {K}.
Arguments fi_done {K}.
Arguments fi_items {K}.

Section FactorWeight.
  Context {K : SR}.

  (** config.rs 32-47: [quant] is quantization with the chosen delta. *)
  Record fw_opts := FWO {
    fw_final : bool; fw_arc : bool;
    quant : K -> K;
    final_il : nat; final_ol : nat; incr_il : bool; incr_ol : bool
  }.

  (** element.rs 4-8. *)
  Definition element := (option nat * K)%type.
  Definition elt_eqb (a b : element) : bool :=
    match fst a, fst b with
    | Some s, Some t => Nat.eqb s t
    | None, None => true
    | _, _ => false
    end && keqb (snd a) (snd b).

  (** state_table.rs 10-14, 44-48: the [bimap] crate's two-way map as a list of pairs, newest first. *)
  Record fw_table := FWT { fwt_map : list (nat * element); fwt_unfactored : list (nat * nat) }.
  Definition fwt_new : fw_table := FWT [] [].

  (** [BiHashMap::get_by_left], [get_by_right] and [insert], which drops the pairs it overlaps. *)
  Fixpoint by_left (l : list (nat * element)) (n : nat) : option element :=
    match l with [] => None | (i, e) :: l' => if Nat.eqb i n then Some e else by_left l' n end.
  Fixpoint by_right (l : list (nat * element)) (x : element) : option nat :=
    match l with [] => None | (i, e) :: l' => if elt_eqb x e then Some i else by_right l' x end.
  Definition bi_insert (l : list (nat * element)) (n : nat) (x : element) : list (nat * element) :=
    (n, x) :: filter (fun p => negb (Nat.eqb (fst p) n) && negb (elt_eqb x (snd p))) l.

  (** state_table.rs 24-26, 58-61. *)
  Definition fw_find_tuple (t : fw_table) (id : nat) : res element :=
    match by_left (fwt_map t) id with Some e => Ok e | None => Panic end.
  (** 28-35. *)
  Definition find_id_or_insert (t : fw_table) (e : element) : fw_table * nat :=
    match by_right (fwt_map t) e with
    | None => let n := length (fwt_map t) in
              (FWT (bi_insert (fwt_map t) n e) (fwt_unfactored t), n)
    | Some n => (t, n)
    end.
  (** 63-78: machines whose transitions are not factored keep a map from states with weight one. *)
  Definition fw_find_state (arc : bool) (t : fw_table) (e : element) : fw_table * nat :=
    match fst e with
    | Some s =>
        if negb arc && keqb (snd e) 1 then
          match lookup (fwt_unfactored t) s with
          | Some n => (t, n)
          | None => let n := length (fwt_map t) in
                    (FWT (bi_insert (fwt_map t) n e) (insert (fwt_unfactored t) s n), n)
          end
        else find_id_or_insert t e
    | None => find_id_or_insert t e
    end.

  (** One [find_state] per transition pushed, in order. *)
  Fixpoint fw_number (arc : bool) (t : fw_table) (l : list (ttr K element)) : fw_table * list (tr K) :=
    match l with
    | [] => (t, [])
    | u :: l' => let (t, n) := fw_find_state arc t (tn u) in
                 let (t, r) := fw_number arc t l' in
                 (t, Tr (ti u) (to u) (tw u) n :: r)
    end.

  Section Op.
    Context (FI : factor_iter K) (opts : fw_opts) (f : vfst K).

    (** factor_weight_op.rs 41-52. *)
    Definition fw_start : res (option element) :=
      Ok (match vstart f with None => None | Some s => Some (Some s, 1) end).

    (** 58-81: the transitions replacing one transition. *)
    Definition fw_tr (w : K) (t : tr K) : list (ttr K element) :=
      let v := w * wgt t in
      if negb (fw_arc opts) || fi_done FI v then [TT (il t) (ol t) v (Some (ns t), 1)]
      else map (fun p => TT (il t) (ol t) (fst p) (Some (ns t), quant opts (snd p))) (fi_items FI v).
    (** 94-111: the transitions replacing a final weight. *)
    Fixpoint fw_finals (i o : nat) (l : list (K * K)) : list (ttr K element) :=
      match l with
      | [] => []
      | p :: l' => TT i o (fst p) (None, quant opts (snd p))
                   :: fw_finals (if incr_il opts then S i else i) (if incr_ol opts then S o else o) l'
      end.
    (** 54-114, all transitions before their targets are numbered. *)
    Definition fw_trs (e : element) : res (list (ttr K element)) :=
      trs <-- match fst e with None => Ok [] | Some s => rmap (flat_map (fw_tr (snd e))) (get_trs f s) end ;;
      go <-- (if fw_final opts
              then match fst e with None => Ok true | Some s => is_final f s end
              else Ok false) ;;
      if go : bool then
        v <-- match fst e with
              | None => Ok (snd e)
              | Some s => rmap (fun o => snd e * match o with Some z => z | None => 1 end) (final_weight f s)
              end ;;
        Ok (trs ++ fw_finals (final_il opts) (final_ol opts) (fi_items FI v))
      else Ok trs.
    (** 116-132. *)
    Definition fw_fin (e : element) : res (option K) :=
      v <-- match fst e with
            | None => Ok (snd e)
            | Some s => rmap (fun o => snd e * match o with Some z => z | None => 0 end) (final_weight f s)
            end ;;
      Ok (if negb (keqb v 0) && (negb (fw_final opts) || fi_done FI v) then Some v else None).

    (** factor_weight_op.rs 38-137. *)
    Definition fw_op : fst_op K fw_table :=
      FO (fun t => o <-- fw_start ;;
                   match o with
                   | None => Ok (None, t)
                   | Some e => let (t, n) := fw_find_state (fw_arc opts) t e in Ok (Some n, t)
                   end)
         (fun id t => e <-- fw_find_tuple t id ;;
                      l <-- fw_trs e ;;
                      let (t, r) := fw_number (fw_arc opts) t l in Ok (r, t))
         (fun id t => e <-- fw_find_tuple t id ;; w <-- fw_fin e ;; Ok (w, t))
         (factor_weight_properties (vprops f)).

    (** factor_weight_static.rs 14-24 with factor_weight_fst.rs 142-156 and factor_weight_op.rs 143-146;
        [None]: out of fuel, the expansion may be infinite. *)
    Definition factor_weight (fuel : nat) : option (res (vfst K)) :=
      if negb (fw_final opts) && negb (fw_arc opts) then Some Err
      else match compute fw_op map_cache_ops fuel (visymt f) (vosymt f) (fwt_new, map_cache_new) with
           | Some r => Some (rmap fst r)
           | None => None
           end.
  End Op.
End FactorWeight.
Arguments fw_opts : clear implicits.
Arguments fw_table : clear implicits.
Arguments element : clear implicits.

(** ** The factor iterators *)

(** identity_factor.rs 24-39. *)
Definition identity_factor (K : SR) : factor_iter K := FIter (fun _ => true) (fun _ => []).

(** string_factor.rs 26-57. *)
Definition string_done (w : svariant) : bool :=
  match w with None => true | Some l => Nat.eqb (length l) 0 end.
Definition string_items (w : svariant) : list (svariant * svariant) :=
  match w with Some (a :: l) => [(Some [a], Some l)] | _ => [] end.

(** gallic_factor.rs 41-76, the left, right, restrict and min variants; the [unwrap] always succeeds
    because [string_done] implies [gallic_done]. *)
Definition gallic_done {A} (w : svariant * A) : bool :=
  match fst w with None => true | Some l => Nat.leb (length l) 1 end.
Definition gallic_items {A} (one : A) (w : svariant * A) : list ((svariant * A) * (svariant * A)) :=
  if gallic_done w then []
  else map (fun p => ((fst p, snd w), (snd p, one))) (string_items (fst w)).

(** gallic_factor.rs 88-127, the union variant: one pair per entry. *)
Definition gallic_union_done {A} (l : list (svariant * A)) : bool :=
  match l with
  | [] => true
  | [w] => match fst w with None => true | Some s => Nat.leb (length s) 1 end
  | _ => false
  end.
Definition gallic_union_items {A} (one : A) (l : list (svariant * A))
  : list (list (svariant * A) * list (svariant * A)) :=
  if gallic_union_done l then []
  else map (fun w => let p := match string_items (fst w) with p :: _ => p | [] => (Some [], Some []) end in
                     ([(fst p, snd w)], [(snd p, one)])) l.
