(** The text form of an FST: printing, parsing, rebuilding.

    rustfst/src/fst_traits/macros.rs, fst_traits/serializable_fst.rs 96-109,
    rustfst/src/parsers/text_fst/{nom_parser,parsed_text_fst}.rs,
    rustfst/src/fst_impls/vector_fst/serializable_fst.rs 90-124.
    A text codec stands for the weight's [Display] and [parse_text]. *)
From Coq Require Import List Arith NArith ZArith Bool.
From Verif Require Import Base.Util Base.Semiring Base.Machine
  Model.Props Model.VectorFst Model.ComputeProps Model.Codec.
Import ListNotations.
Local Open Scope N_scope.

Section T.
  Context {K : SR}.
  Implicit Types (f : vfst K).

  (** [Display] and [SerializableSemiring::parse_text]. *)
  Record tcodec := TCo { tc_show : K -> bytes; tc_read : parser K }.
  Context (C : tcodec).

  Definition ndec (n : nat) : bytes := dec (N.of_nat n).

  (** macros.rs 1-44 with [show_weight_one = true], [use_symt = false]. *)
  Definition show_tr (s : nat) (t : tr K) : bytes :=
    ndec s ++ TAB :: ndec (ns t) ++ TAB :: ndec (il t) ++ TAB :: ndec (ol t) ++ TAB :: tc_show C (wgt t) ++ [NL].
  Definition show_state f (s : nat) : bytes := flat_map (show_tr s) (trs_of f s).
  Definition show_final (s : nat) (w : K) : bytes := ndec s ++ TAB :: tc_show C w ++ [NL].
  (** macros.rs 46-73: nothing without a start; the start's transitions first. *)
  Definition text f : bytes :=
    match vstart f with
    | None => []
    | Some s0 =>
        show_state f s0 ++
        flat_map (show_state f) (filter (fun s => negb (Nat.eqb s s0)) (seq 0 (num_states f))) ++
        flat_map (fun s => match fin_of f s with Some w => show_final s w | None => [] end) (seq 0 (num_states f))
    end.

  (** parsed_text_fst.rs 10-15. *)
  Inductive row :=
  | RTr (s : N) (i o : N) (w : option K) (n : N)
  | RFin (s : N) (w : option K)
  | RInf (s : N).
  Definition row_state (r : row) : N := match r with RTr s _ _ _ _ | RFin s _ | RInf s => s end.

  (** nom [opt]: an error consumes nothing. *)
  Definition popt {A} (p : parser A) : parser (option A) := fun i =>
    match p i with Ok (a, r) => Ok (Some a, r) | Err => Ok (None, i) | Panic => Panic end.
  (** nom [alt]. *)
  Definition palt {A} (p q : parser A) : parser A := fun i =>
    match p i with Ok x => Ok x | Err => q i | Panic => Panic end.
  (** nom [tag]. *)
  Fixpoint ptag (t : bytes) : parser unit := fun i =>
    match t, i with
    | [], _ => Ok (tt, i)
    | c :: t', b :: i' => if b =? c then ptag t' i' else Err
    | _ :: _, [] => Err
    end.

  (** nom_parser.rs 13-15. *)
  Definition opt_weight : parser (option K) := popt (fun i => u & i <~ tag1 TAB i ;; tc_read C i).
  (** 17-37. *)
  Definition p_transition : parser row := fun i =>
    s & i <~ num u32_max i ;; u & i <~ tag1 TAB i ;;
    n & i <~ num u32_max i ;; u & i <~ tag1 TAB i ;;
    a & i <~ num u32_max i ;; u & i <~ tag1 TAB i ;;
    b & i <~ num u32_max i ;;
    w & i <~ opt_weight i ;;
    Ok (RTr s a b w n, i).
  (** 39-43. *)
  Definition p_final : parser row := fun i =>
    s & i <~ num u32_max i ;; w & i <~ opt_weight i ;; Ok (RFin s w, i).
  (** "Infinity" *)
  Definition INFINITY_TAG : bytes := [73; 110; 102; 105; 110; 105; 116; 121].
  (** 45-50. *)
  Definition p_inf : parser row := fun i =>
    s & i <~ num u32_max i ;; u & i <~ tag1 TAB i ;; v & i <~ ptag INFINITY_TAG i ;; Ok (RInf s, i).
  (** 52-54. *)
  Definition p_row : parser row := palt p_transition (palt p_inf p_final).

  (** nom [separated_list0] with separator "\n": stops quietly at the first failure, before
      the separator.  The fuel bounds the number of rows and is never exhausted. *)
  Fixpoint p_rows_more (fuel : nat) (i : bytes) : res (list row * bytes) :=
    match fuel with
    | O => Ok ([], i)
    | S fuel' =>
        match tag1 NL i with
        | Ok (_, i1) =>
            match p_row i1 with
            | Ok (r, i2) => l & i3 <~ p_rows_more fuel' i2 ;; Ok (r :: l, i3)
            | Err => Ok ([], i)
            | Panic => Panic
            end
        | Err => Ok ([], i)
        | Panic => Panic
        end
    end.
  (** 56-58. *)
  Definition p_rows : parser (list row) := fun i =>
    match p_row i with
    | Ok (r, i1) => l & i2 <~ p_rows_more (S (length i)) i1 ;; Ok (r :: l, i2)
    | Err => Ok ([], i)
    | Panic => Panic
    end.

  (** parsed_text_fst.rs 145-157. *)
  Definition parsed_num_states (rows : list row) : nat :=
    fold_right (fun r m => Nat.max (match r with
                                    | RTr s _ _ _ n => S (Nat.max (N.to_nat s) (N.to_nat n))
                                    | RFin s _ => S (N.to_nat s)
                                    | RInf s => O
                                    end) m)
               (match rows with r :: _ => S (N.to_nat (row_state r)) | [] => O end) rows.

  Definition or_one (o : option K) : K := match o with Some w => w | None => kone end.
  (** vector_fst/serializable_fst.rs 105-114: transitions in row order, then finals. *)
  Fixpoint add_rows (l : list row) f : res (vfst K) :=
    match l with
    | [] => Ok f
    | RTr s a b w n :: l' =>
        g <-- add_tr f (N.to_nat s) (Tr (N.to_nat a) (N.to_nat b) (or_one w) (N.to_nat n)) ;; add_rows l' g
    | _ :: l' => add_rows l' f
    end.
  Fixpoint add_finals (l : list row) f : res (vfst K) :=
    match l with
    | [] => Ok f
    | RFin s w :: l' => g <-- set_final f (N.to_nat s) (or_one w) ;; add_finals l' g
    | _ :: l' => add_finals l' f
    end.
  (** vector_fst/serializable_fst.rs 90-124. *)
  Definition from_rows (rows : list row) : res (vfst K) :=
    let f0 := VF (repeat new_state (parsed_num_states rows))
                 (match rows with r :: _ => Some (N.to_nat (row_state r)) | [] => None end) None None 0 in
    f1 <-- add_rows rows f0 ;;
    f2 <-- add_finals rows f1 ;;
    rmap fst (compute_and_update_properties f2 all_properties).
  (** parsed_text_fst.rs 92-97, serializable_fst.rs 58-61. *)
  Definition from_text (i : bytes) : res (vfst K) := l & r <~ p_rows i ;; from_rows l.
End T.
Arguments tcodec : clear implicits.
Arguments row : clear implicits.
