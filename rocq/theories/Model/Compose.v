(** Composition: rustfst/src/algorithms/compose/{compose_fst_op,compose_fst,compose_static}.rs and
    compose/compose_filters, with sorted matchers on both sides ([GenericMatcher] is
    [SortedMatcher], matchers/generic_matcher.rs 4).

    Look-ahead filters are in LookAhead.v; sigma matchers in a composition and options that supply an existing
    state table are not modelled. *)
From Coq Require Import List Arith NArith Bool.
From Verif Require Import Base.Util Base.Semiring Base.Machine Model.Props Model.VectorFst Model.Matchers
  Model.BiMap Model.Lazy Model.AlgoProps Model.Visitors.
Import ListNotations.

(** compose_static.rs 21-29; [AutoFilter] is [SequenceF] (compose_fst.rs 58-90, 193-202). *)
Inductive cfilter := NullF | TrivialF | SequenceF | AltSequenceF | MatchF | NoMatchF.

(** Filter states: filter_states/integer_filter_state.rs and trivial_filter_state.rs. A state is a
    number, [None] is [new_no_state]; the trivial state [true] is 0. *)

Section Compose.
  Context {K : SR}.
  Implicit Types (f : vfst K).

  (** The fields that [set_state] fills in. *)
  Record cenv := CE { ce_fs : nat; ce_alleps1 : bool; ce_noeps1 : bool; ce_alleps2 : bool; ce_noeps2 : bool }.

  (** fst_traits [is_final]. *)
  Definition is_final f (s : nat) : res bool :=
    rmap (fun w => match w with Some _ => true | None => false end) (final_weight f s).

  (** sequence_compose_filter.rs 140-145 and match_compose_filter.rs 145-158, first machine. *)
  Definition look1 f (s : nat) : res (bool * bool) :=
    na <-- num_trs f s ;; ne <-- num_output_epsilons f s ;; fin <-- is_final f s ;;
    Ok (Nat.eqb na ne && negb fin, Nat.eqb ne 0).
  (** alt_sequence_compose_filter.rs 149-154 and match_compose_filter.rs 145-158, second machine. *)
  Definition look2 f (s : nat) : res (bool * bool) :=
    na <-- num_trs f s ;; ne <-- num_input_epsilons f s ;; fin <-- is_final f s ;;
    Ok (Nat.eqb na ne && negb fin, Nat.eqb ne 0).

  (** [set_state] of each filter: sequence 134-148, alt_sequence 143-157, match 136-161, the others
      118-120. A filter is rebuilt for every state, so the early exit for an unchanged state is
      never taken. *)
  Definition set_state (flt : cfilter) f1 f2 (s1 s2 fs : nat) : res cenv :=
    match flt with
    | SequenceF => p <-- look1 f1 s1 ;; Ok (CE fs (fst p) (snd p) false false)
    | AltSequenceF => p <-- look2 f2 s2 ;; Ok (CE fs false false (fst p) (snd p))
    | MatchF => p <-- look1 f1 s1 ;; q <-- look2 f2 s2 ;; Ok (CE fs (fst p) (snd p) (fst q) (snd q))
    | _ => Ok (CE fs false false false false)
    end.

  Definition is_nolab (q : qlab) : bool := qlab_eqb q NoLab.
  Definition is_eps (q : qlab) : bool := qlab_eqb q (Lab 0).

  (** [filter_tr] of each filter: sequence 150-171, alt_sequence 159-180, match 163-206,
      no_match 122-126, null 122-129, trivial 122-124. *)
  Definition filter_tr (flt : cfilter) (e : cenv) (a1 a2 : qtr K) : option nat :=
    match flt with
    | SequenceF =>
        if is_nolab (qol a1) then if ce_alleps1 e then None else if ce_noeps1 e then Some 0 else Some 1
        else if is_nolab (qil a2) then if negb (Nat.eqb (ce_fs e) 0) then None else Some 0
        else if is_eps (qol a1) then None
        else Some 0
    | AltSequenceF =>
        if is_nolab (qil a2) then if ce_alleps2 e then None else if ce_noeps2 e then Some 0 else Some 1
        else if is_nolab (qol a1) then if Nat.eqb (ce_fs e) 1 then None else Some 0
        else if is_eps (qol a1) then None
        else Some 0
    | MatchF =>
        if is_nolab (qil a2) then
          if Nat.eqb (ce_fs e) 0
          then if ce_noeps2 e then Some 0 else if ce_alleps2 e then None else Some 1
          else if Nat.eqb (ce_fs e) 1 then Some 1 else None
        else if is_nolab (qol a1) then
          if Nat.eqb (ce_fs e) 0
          then if ce_noeps1 e then Some 0 else if ce_alleps1 e then None else Some 2
          else if Nat.eqb (ce_fs e) 2 then Some 2 else None
        else if is_eps (qol a1) then if Nat.eqb (ce_fs e) 0 then Some 0 else None
        else Some 0
    | NoMatchF => if negb (is_eps (qol a1)) || negb (is_eps (qil a2)) then Some 0 else None
    | NullF => if is_nolab (qol a1) || is_nolab (qil a2) then None else Some 0
    | TrivialF => Some 0
    end.

  (** compose_state_tuple.rs: filter state and a state of each machine. *)
  Definition ctuple := (nat * nat * nat)%type.
  Definition ctuple_eqb (a b : ctuple) : bool :=
    Nat.eqb (fst (fst a)) (fst (fst b)) && Nat.eqb (snd (fst a)) (snd (fst b)) && Nat.eqb (snd a) (snd b).

  (** A label that must be a proper one (the model refuses to write [NO_LABEL] into a result;
      proved not to happen). *)
  Definition proper (q : qlab) : res nat := match q with Lab l => Ok l | NoLab => Panic end.

  (** compose_fst_op.rs 267-285. The table lookup of line 283 is left to [table_op], which
      numbers the targets in the order of the transitions pushed. *)
  Definition cadd_tr (a1 a2 : qtr K) (fs : nat) : res (ttr K ctuple) :=
    i <-- proper (qil a1) ;; o <-- proper (qol a2) ;;
    Ok (TT i o (ktimes (qw a1) (qw a2)) (fs, qns a1, qns a2)).

  (** compose_fst_op.rs 287-322. *)
  Fixpoint match_tr_selected (flt : cfilter) (e : cenv) (sa : nat) (t : qtr K) (match_input : bool)
    (items : list (item K)) : res (list (ttr K ctuple)) :=
    match items with
    | [] => Ok []
    | x :: items =>
        arca <-- into_tr x sa (if match_input then MInput else MOutput) ;;
        let a1 := if match_input then t else arca in
        let a2 := if match_input then arca else t in
        match filter_tr flt e a1 a2 with
        | None => match_tr_selected flt e sa t match_input items
        | Some fs =>
            u <-- cadd_tr a1 a2 fs ;;
            l <-- match_tr_selected flt e sa t match_input items ;;
            Ok (u :: l)
        end
    end.

  (** compose_fst_op.rs 324-353. *)
  Definition match_tr (flt : cfilter) f1 f2 (e : cenv) (sa : nat) (t : qtr K) (match_input : bool)
    : res (list (ttr K ctuple)) :=
    let label := if match_input then qol t else qil t in
    items <-- (if match_input then sm_items f2 MInput sa label else sm_items f1 MOutput sa label) ;;
    match_tr_selected flt e sa t match_input items.

  Fixpoint match_trs (flt : cfilter) f1 f2 (e : cenv) (sa : nat) (ts : list (qtr K)) (match_input : bool)
    : res (list (ttr K ctuple)) :=
    match ts with
    | [] => Ok []
    | t :: ts =>
        l <-- match_tr flt f1 f2 e sa t match_input ;;
        l' <-- match_trs flt f1 f2 e sa ts match_input ;;
        Ok (l ++ l')
    end.

  (** compose_fst_op.rs 221-265. *)
  Definition ordered_expand (flt : cfilter) f1 f2 (e : cenv) (sa sb : nat) (match_input : bool)
    : res (list (ttr K ctuple)) :=
    let tr_loop := if match_input then QT (Lab 0) NoLab kone sb else QT NoLab (Lab 0) kone sb in
    trs <-- get_trs (if match_input then f1 else f2) sb ;;
    match_trs flt f1 f2 e sa (tr_loop :: map qtr_of trs) match_input.

  (** compose_fst_op.rs 169-197. The flags of a sorted matcher are empty (sorted_matcher.rs 86-88),
      so the first two tests never apply. *)
  Definition compose_match_type f1 f2 : res mtype :=
    type1 <-- sm_match_type f1 MOutput false ;;
    type2 <-- sm_match_type f2 MInput false ;;
    if mtype_eqb type1 MOutput && mtype_eqb type2 MInput then Ok MBoth
    else if mtype_eqb type1 MOutput then Ok MOutput
    else if mtype_eqb type2 MInput then Ok MInput
    else
      t1 <-- sm_match_type f1 MOutput true ;;
      if mtype_eqb t1 MOutput then Ok MOutput
      else
        t2 <-- sm_match_type f2 MInput true ;;
        if mtype_eqb t2 MInput then Ok MInput else Err.

  (** compose_fst_op.rs 199-219 with the priority of a sorted matcher (sorted_matcher.rs 90-92),
      which is never [REQUIRE_PRIORITY] (usize::MAX). *)
  Definition match_input (mt : mtype) f1 f2 (s1 s2 : nat) : res bool :=
    match mt with
    | MInput => Ok true
    | MOutput => Ok false
    | _ =>
        p1 <-- num_trs f1 s1 ;;
        p2 <-- num_trs f2 s2 ;;
        Ok (Nat.leb p1 p2)
    end.

  (** compose_fst_op.rs 389-404. *)
  Definition ccompute_start f1 f2 : res (option ctuple) :=
    match vstart f1, vstart f2 with
    | Some s1, Some s2 => Ok (Some (0, s1, s2))
    | _, _ => Ok None
    end.

  (** compose_fst_op.rs 406-418. *)
  Definition ccompute_trs (flt : cfilter) (mt : mtype) f1 f2 (t : ctuple) : res (list (ttr K ctuple)) :=
    let '(fs, s1, s2) := t in
    e <-- set_state flt f1 f2 s1 s2 fs ;;
    b <-- match_input mt f1 f2 s1 s2 ;;
    if b then ordered_expand flt f1 f2 e s2 s1 true else ordered_expand flt f1 f2 e s1 s2 false.

  (** compose_fst_op.rs 420-449; [filter_final] does nothing in any of the filters. *)
  Definition ccompute_final (flt : cfilter) f1 f2 (t : ctuple) : res (option K) :=
    let '(fs, s1, s2) := t in
    w1 <-- final_weight f1 s1 ;;
    match w1 with
    | None => Ok None
    | Some w1 =>
        w2 <-- final_weight f2 s2 ;;
        match w2 with
        | None => Ok None
        | Some w2 =>
            e <-- set_state flt f1 f2 s1 s2 fs ;;
            let w := ktimes w1 w2 in
            Ok (if keqb w kzero then None else Some w)
        end
    end.

  Definition compose_op (flt : cfilter) (mt : mtype) f1 f2 : fst_op K (bimap ctuple) :=
    table_op ctuple_eqb (ccompute_start f1 f2) (ccompute_trs flt mt f1 f2) (ccompute_final flt f1 f2)
      (compose_properties (vprops f1) (vprops f2)).

  (** compose_static.rs 160-256 with [Default] matchers; compose_fst.rs 26, 106-128: the cache is
      a vector. [None]: out of fuel. *)
  Definition compose_with (flt : cfilter) (conn : bool) (fuel : nat) f1 f2 : option (res (vfst K)) :=
    match compose_match_type f1 f2 with
    | Ok mt =>
        match compute (compose_op flt mt f1 f2) vec_cache_ops fuel (visymt f1) (vosymt f2) (bm_new, vec_cache_new) with
        | Some (Ok (g, _)) => Some (if conn then connect g else Ok g)
        | Some Err => Some Err
        | Some Panic => Some Panic
        | None => None
        end
    | Err => Some Err
    | Panic => Some Panic
    end.

  (** compose_static.rs 284-298 (default configuration 54-63). *)
  Definition compose (fuel : nat) f1 f2 : option (res (vfst K)) := compose_with SequenceF true fuel f1 f2.
End Compose.
