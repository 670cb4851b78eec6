(** Transition mapping and weight conversion: rustfst/src/algorithms/tr_map.rs,
    rustfst/src/algorithms/weight_convert.rs, rustfst/src/algorithms/tr_mappers/*.rs,
    rustfst/src/algorithms/weight_converters/simple_weight_converter.rs. *)
From Coq Require Import List Arith NArith Bool.
From Verif Require Import Base.Util Base.Semiring Base.Machine Model.Props Model.VectorFst Model.Rational Model.ShortestPath.
Import ListNotations.

(** tr_map.rs 17-24: what a mapper is shown of a final weight. *)
Record ftr (K : SR) := FT { fil : nat; fol : nat; fwt : K }.
Arguments FT {K}. Arguments fil {K}. Arguments fol {K}. Arguments fwt {K}.

(** tr_map.rs 27-40. *)
Inductive final_action := MapNoSuperfinal | MapAllowSuperfinal | MapRequireSuperfinal.

(** [TrMapper], tr_map.rs 45-57, and [WeightConverter], weight_convert.rs 12-17, as one record: a
    mapper may carry a state [S] (the encode table sits behind a RefCell), and a [TrMapper] is
    a converter from a semiring to itself. *)
Record mapper (S : Type) (K1 K2 : SR) := Mapper {
  m_tr : S -> tr K1 -> res (S * tr K2);
  m_fin : S -> ftr K1 -> res (S * ftr K2);
  m_action : final_action;
  m_props : N -> N
}.
Arguments Mapper {S K1 K2}. Arguments m_tr {S K1 K2}. Arguments m_fin {S K1 K2}.
Arguments m_action {S K1 K2}. Arguments m_props {S K1 K2}.

Definition labelled {K : SR} (t : ftr K) : bool := negb (Nat.eqb (fil t) 0) || negb (Nat.eqb (fol t) 0).
Definition to_super {K : SR} (t : ftr K) (sup : nat) : tr K := Tr (fil t) (fol t) (fwt t) sup.

Section M.
  Context {S : Type} {K : SR} (mu : mapper S K K).

  (** tr_map.rs 98-104: the transitions of one state. *)
  Definition map_trs (g : vfst K) (sg : S) (s : nat) : res (vfst K * S) :=
    rfold (fun x i =>
      match nth_error (trs_of (fst x) s) i with
      | None => Panic
      | Some t => y <-- m_tr mu (snd x) t ;; h <-- unwrap (iter_set_tr (fst x) s i (snd y)) ;; Ok (h, fst y)
      end) (seq 0 (length (trs_of g s))) (g, sg).

  (** 113-171: the final weight of one state, [t] being what the mapper answered. *)
  Definition place_final (g : vfst K) (sup : option nat) (s : nat) (t : ftr K) : res (vfst K * option nat) :=
    let here := match sup with Some q => Nat.eqb q s | None => false end in
    match m_action mu with
    | MapNoSuperfinal => if labelled t then Err else h <-- unwrap (set_final g s (fwt t)) ;; Ok (h, sup)
    | MapAllowSuperfinal =>
        if here then Ok (g, sup)
        else if labelled t then
          x <-- match sup with
                | Some q => Ok (g, q)
                | None => let (h, q) := add_state g in h <-- unwrap (set_final h q (@kone K)) ;; Ok (h, q)
                end ;;
          h <-- unwrap (add_tr (fst x) s (to_super t (snd x))) ;;
          h <-- unwrap (delete_final_weight h s) ;;
          Ok (h, Some (snd x))
        else h <-- unwrap (set_final g s (fwt t)) ;; Ok (h, sup)
    | MapRequireSuperfinal =>
        if negb here && (labelled t || negb (keqb (fwt t) (@kzero K))) then
          match sup with
          | None => Panic
          | Some q =>
              h <-- unwrap (add_tr g s (to_super t q)) ;;
              h <-- unwrap (delete_final_weight h s) ;;
              Ok (h, sup)
          end
        else Ok (g, sup)
    end.

  (** 97-173: one state. *)
  Definition map_state (x : vfst K * option nat * S) (s : nat) : res (vfst K * option nat * S) :=
    let '(g, sup, sg) := x in
    y <-- map_trs g sg s ;;
    match fin_of (fst y) s with
    | None => Ok (fst y, sup, snd y)
    | Some w =>
        z <-- m_fin mu (snd y) (FT 0 0 w) ;;
        u <-- place_final (fst y) sup s (snd z) ;;
        Ok (u, fst z)
    end.

  (** tr_map.rs 78-178. An error leaves the code's machine half mapped; the model drops it. *)
  Definition tr_map (f : vfst K) (sg : S) : res (vfst K * S) :=
    match vstart f with
    | None => Ok (f, sg)
    | Some _ =>
        x <-- match m_action mu with
              | MapRequireSuperfinal =>
                  let (h, q) := add_state f in h <-- unwrap (set_final h q (@kone K)) ;; Ok (h, Some q)
              | _ => Ok (f, None)
              end ;;
        y <-- rfold map_state (seq 0 (num_states (fst x))) (x, sg) ;;
        Ok (set_properties_with_mask (fst (fst y)) (m_props mu (vprops f)) all_properties, snd y)
    end.
End M.

Section C.
  Context {S : Type} {K1 K2 : SR} (mu : mapper S K1 K2).

  (** weight_convert.rs 64-66. *)
  Definition conv_trs (g : vfst K2) (sg : S) (s : nat) (l : list (tr K1)) : res (vfst K2 * S) :=
    rfold (fun x t => y <-- m_tr mu (snd x) t ;; h <-- add_tr (fst x) s (snd y) ;; Ok (h, fst y)) l (g, sg).

  (** 74-124. *)
  Definition conv_final (g : vfst K2) (sup : option nat) (s : nat) (t : ftr K2) : res (vfst K2 * option nat) :=
    match m_action mu with
    | MapNoSuperfinal => if labelled t then Err else h <-- unwrap (set_final g s (fwt t)) ;; Ok (h, sup)
    | MapAllowSuperfinal =>
        if labelled t then
          x <-- match sup with
                | Some q => Ok (g, q)
                | None => let (h, q) := add_state g in h <-- unwrap (set_final h q (@kone K2)) ;; Ok (h, q)
                end ;;
          h <-- add_tr (fst x) s (to_super t (snd x)) ;;
          h <-- delete_final_weight h s ;;
          Ok (h, Some (snd x))
        else h <-- set_final g s (fwt t) ;; Ok (h, sup)
    | MapRequireSuperfinal =>
        h <-- (if labelled t || negb (keqb (fwt t) (@kzero K2)) then
                 match sup with None => Panic | Some q => unwrap (add_tr g s (to_super t q)) end
               else Ok g) ;;
        h <-- unwrap (delete_final_weight h s) ;;
        Ok (h, sup)
    end.

  (** 62-126. *)
  Definition conv_state (f : vfst K1) (x : vfst K2 * option nat * S) (s : nat) : res (vfst K2 * option nat * S) :=
    let '(g, sup, sg) := x in
    y <-- conv_trs g sg s (trs_of f s) ;;
    match fin_of f s with
    | None => Ok (fst y, sup, snd y)
    | Some w =>
        z <-- m_fin mu (snd y) (FT 0 0 w) ;;
        u <-- conv_final (fst y) sup s (snd z) ;;
        Ok (u, fst z)
    end.

  (** weight_convert.rs 21-136 (space reservation left out). *)
  Definition weight_convert (f : vfst K1) (sg : S) : res (vfst K2 * S) :=
    match vstart f with
    | None => Ok (vnew, sg)
    | Some start =>
        let g := Nat.iter (num_states f) (fun h => fst (add_state h)) (@vnew K2) in
        x <-- match m_action mu with
              | MapRequireSuperfinal =>
                  let (h, q) := add_state g in h <-- set_final h q (@kone K2) ;; Ok (h, Some q)
              | _ => Ok (g, None)
              end ;;
        h <-- set_start (fst x) start ;;
        y <-- rfold (conv_state f) (seq 0 (num_states f)) (h, snd x, sg) ;;
        let h := fst (fst y) in
        Ok (VF (vstates h) (vstart h) (visymt f) (vosymt f)
               (vprops (set_properties_with_mask h (N.lor (m_props mu (vprops f)) (vprops h)) all_properties)), snd y)
    end.
End C.

(** ** The mappers of tr_mappers/ *)
Section Mappers.
  Context {K : SR}.

  (** A mapper without state that rewrites weights only. *)
  Definition weight_mapper (h : K -> res K) (props : N -> N) : mapper unit K K :=
    Mapper (fun _ t => w <-- h (wgt t) ;; Ok (tt, Tr (il t) (ol t) w (ns t)))
           (fun _ t => w <-- h (fwt t) ;; Ok (tt, FT (fil t) (fol t) w)) MapNoSuperfinal props.

  (** identity_tr_mapper.rs 11-27. *)
  Definition identity_mapper : mapper unit K K :=
    Mapper (fun _ t => Ok (tt, t)) (fun _ t => Ok (tt, t)) MapNoSuperfinal (fun p => p).
  (** input_epsilon_mapper.rs 12-31, output_epsilon_mapper.rs 12-31. *)
  Definition input_epsilon_mapper : mapper unit K K :=
    Mapper (fun _ t => Ok (tt, Tr 0 (ol t) (wgt t) (ns t))) (fun _ t => Ok (tt, t)) MapNoSuperfinal
           (fun p => pset (pkeep p pm_set_arc_properties) [I_EPSILONS; I_LABEL_SORTED]).
  Definition output_epsilon_mapper : mapper unit K K :=
    Mapper (fun _ t => Ok (tt, Tr (il t) 0 (wgt t) (ns t))) (fun _ t => Ok (tt, t)) MapNoSuperfinal
           (fun p => pset (pkeep p pm_set_arc_properties) [O_EPSILONS; O_LABEL_SORTED]).
  (** plus_mapper.rs 24-44. *)
  Definition plus_mapper (c : K) : mapper unit K K :=
    weight_mapper (fun w => Ok (kplus w c)) (fun p => pkeep p pm_weight_invariant_properties).
  (** times_mapper.rs 24-44. *)
  Definition times_mapper (c : K) : mapper unit K K :=
    weight_mapper (fun w => Ok (ktimes w c)) (fun p => pkeep p pm_weight_invariant_properties).
  (** rm_weight_mapper.rs 11-34. *)
  Definition rm_weight_mapper : mapper unit K K :=
    weight_mapper (fun w => Ok (if keqb w (@kzero K) then w else @kone K))
                  (fun p => pset (pkeep p pm_weight_invariant_properties) [UNWEIGHTED]).
  (** invert_weight_mapper.rs 12-32; [inv w] is [W::one().divide(w, DivideAny)]. *)
  Definition invert_weight_mapper (inv : K -> res K) : mapper unit K K :=
    weight_mapper inv (fun p => pkeep p pm_weight_invariant_properties).
End Mappers.

(** simple_weight_converter.rs 12-41; [h] is [SO::new(w.value())]. *)
Definition simple_converter {K1 K2 : SR} (h : K1 -> K2) : mapper unit K1 K2 :=
  Mapper (fun _ t => Ok (tt, Tr (il t) (ol t) (h (wgt t)) (ns t)))
         (fun _ t => Ok (tt, FT (fil t) (fol t) (h (fwt t)))) MapNoSuperfinal (fun p => p).
