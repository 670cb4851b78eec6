(** Which matcher looks ahead: rustfst/src/algorithms/compose/lookahead_filters/mod.rs,
    lookahead_selector.rs and the constructor of lookahead_compose_filter.rs, with TrLookAheadMatcher
    over sorted matchers on both sides. *)
From Coq Require Import List Arith NArith Bool.
From Verif Require Import Base.Util Base.Semiring Base.Machine Model.VectorFst Model.TrOps Model.Matchers Model.Compose Model.LookAhead
  Model.TrLookAhead.
Import ListNotations.

(** lookahead_selector.rs 5-18: the type parameter. *)
Inductive smt := SMatchInput | SMatchOutput | SMatchBoth | SMatchNone | SMatchUnknown.
(** 20-52. *)
Definition smt_type (s : smt) : mtype :=
  match s with SMatchInput => MInput | SMatchOutput => MOutput | SMatchBoth => MBoth | SMatchNone => MNone | SMatchUnknown => MUnknown end.

(** 54-72. *)
Inductive selection := Fst1Matcher2 | Fst2Matcher1.
Definition selector (mt lt : mtype) : selection :=
  match mt with
  | MInput => Fst1Matcher2
  | MOutput => Fst2Matcher1
  | _ => if mtype_eqb lt MOutput then Fst2Matcher1 else Fst1Matcher2
  end.

(** lookahead_compose_filter.rs 321-329. *)
Definition lookahead_output (s : smt) (lt : mtype) : bool :=
  if mtype_eqb (smt_type s) MOutput then true
  else if mtype_eqb (smt_type s) MInput then false
  else mtype_eqb lt MOutput.

Section S.
  Context {K : SR}.
  Implicit Types f : vfst K.

  (** lookahead_filters/mod.rs 22-54. Both flags are always set (tr_lookahead_matcher.rs 62-67). *)
  Definition lookahead_match_type f1 f2 : res mtype :=
    type1 <-- sm_match_type f1 MOutput false ;;
    type2 <-- sm_match_type f2 MInput false ;;
    if mtype_eqb type1 MOutput then Ok MOutput
    else if mtype_eqb type2 MInput then Ok MInput
    else
      t1 <-- sm_match_type f1 MOutput true ;;
      if mtype_eqb t1 MOutput then Ok MOutput
      else
        t2 <-- sm_match_type f2 MInput true ;;
        if mtype_eqb t2 MInput then Ok MInput else Ok MNone.

  (** lookahead_compose_filter.rs 113-160: the look-ahead type, or the error of 135-140. *)
  Definition lookahead_type (s : smt) f1 f2 : res mtype :=
    lt <-- (if mtype_eqb (smt_type s) MBoth then lookahead_match_type f1 f2 else Ok (smt_type s)) ;;
    if mtype_eqb lt MNone then Err else Ok lt.

  (** Composition with [LookAheadComposeFilter<.., SMT>]: the transitions are compared on the side of
      [lookahead_output] and looked up with the matcher of the selector, which is the same side (the
      theorem [C76_selector]). *)
  Definition look_compose (s : smt) (flt : cfilter) (fl : laflags) (props : N) (fuel : nat) f1 f2 : option (res (vfst K)) :=
    match lookahead_type s f1 f2 with
    | Ok lt =>
        let out := match selector (smt_type s) lt with Fst2Matcher1 => true | Fst1Matcher2 => false end in
        gcompose (tla_cf out fl f1 f2 (base_cf flt f1 f2)) Nat.eqb props fuel f1 f2
    | Err => Some Err
    | Panic => Some Panic
    end.

  (** lookahead_matchers/trivial_lookahead_matcher.rs 22-130 under the same filter
      (lookahead_compose_filter.rs 191-228): everything matches, with the default data. [fl]: the flags
      of the matcher inside, none for a sorted one (sorted_matcher.rs 87-89). *)
  Definition triv_cf {FS E : Type} (out : bool) (fl : laflags) (F : cflt K FS E) : cflt K FS E :=
    CF (cf_start F) (cf_set F)
       (fun e a1 a2 =>
          r <-- cf_filter F e a1 a2 ;;
          match r with
          | None => Ok None
          | Some (fs, a1, a2, _) =>
              let labela := if out then qol a1 else qil a2 in
              if negb (is_eps labela) && negb (fl_noneps fl) then Ok (Some (fs, a1, a2, None))
              else if is_eps labela && negb (fl_eps fl) then Ok (Some (fs, a1, a2, None))
              else
                l <-- Ok (Some lamd_default) ;;
                Ok (match l with Some d => Some (fs, a1, a2, Some d) | None => None end)
          end)
       (cf_final F) (cf_items1 F) (cf_items2 F) fl.
  Definition triv_compose (s : smt) (flt : cfilter) (fl : laflags) (props : N) (fuel : nat) f1 f2 : option (res (vfst K)) :=
    match lookahead_type s f1 f2 with
    | Ok lt =>
        let out := match selector (smt_type s) lt with Fst2Matcher1 => true | Fst1Matcher2 => false end in
        gcompose (triv_cf out fl (base_cf flt f1 f2)) Nat.eqb props fuel f1 f2
    | Err => Some Err
    | Panic => Some Panic
    end.

  (** [PushWeightsComposeFilter] (push_weights_compose_filter.rs 97-115, 133-188) on top of
      [LookAheadComposeFilter<.., SMT>] with TrLookAheadMatcher. *)
  Definition push_compose (s : smt) (divide : K -> K -> res K) (flt : cfilter) (fl : laflags) (props : N) (fuel : nat) f1 f2
    : option (res (vfst K)) :=
    match lookahead_type s f1 f2 with
    | Ok lt =>
        let out := match selector (smt_type s) lt with Fst2Matcher1 => true | Fst1Matcher2 => false end in
        gcompose (pushw_cf divide (tla_cf out fl f1 f2 (base_cf flt f1 f2))) fsw_eqb props fuel f1 f2
    | Err => Some Err
    | Panic => Some Panic
    end.
End S.
