(** Composition with one machine read through a sigma matcher: algorithms/compose/compose_static.rs
    (matcher configuration), matchers/sigma_matcher.rs and compose_fst_op.rs.

    Simplified: the sigma label is a proper label (the code also allows [NO_LABEL], which switches the
    matcher off); only one of the machines has a sigma configuration (with one on both sides, states
    with sigma on both are an error). *)
From Coq Require Import List Arith NArith Bool.
From Verif Require Import Base.Util Base.Semiring Base.Machine Model.Props Model.VectorFst Model.TrOps Model.Rational Model.Matchers
  Model.BiMap Model.Lazy Model.AlgoProps Model.Visitors Model.Compose Model.LookAhead.
Import ListNotations.

(** matchers/mod.rs [MatcherRewriteMode]. *)
Inductive rwmode := RwAuto | RwAlways | RwNever.

(** compose_static.rs 38-50: [SigmaMatcherConfig]. *)
Record sigcfg := SC { sc_label : nat; sc_mode : rwmode; sc_allowed : option (list nat) }.

Section SC.
  Context {K : SR}.
  Implicit Types (f : vfst K).

  (** sigma_matcher.rs 66-75. *)
  Definition rewrite_both (sc : sigcfg) f : bool :=
    match sc_mode sc with RwAuto => contains (vprops f) (mask [ACCEPTOR]) | RwAlways => true | RwNever => false end.

  (** The items of a sigma matcher as the items that [ordered_expand] works on: a rewritten
      transition has proper labels (sigma_matcher.rs 242-272, mod.rs 97-105). *)
  Definition plain_item (i : sitem K) : res (item K) :=
    match i with
    | SPlain i => Ok i
    | SSigma t => a <-- proper (qil t) ;; b <-- proper (qol t) ;; Ok (ITr (Tr a b (qw t) (qns t)))
    end.
  Fixpoint plain_items (l : list (sitem K)) : res (list (item K)) :=
    match l with
    | [] => Ok []
    | i :: l => j <-- plain_item i ;; r <-- plain_items l ;; Ok (j :: r)
    end.

  (** sigma_matcher.rs 103-113 and the iteration of compose_fst_op.rs 324-353. *)
  Definition sigma_items (sc : sigcfg) f (s : nat) (lab : qlab) : res (list (item K)) :=
    n <-- num_trs f s ;;
    it <-- sig_new (sm_items f MInput) s lab (Lab (sc_label sc)) MInput (rewrite_both sc f) (sc_allowed sc) ;;
    r <-- sig_drain (sm_items f MInput) (n + 2) it ;;
    plain_items (fst r).

  (** The filters of Model/Compose.v over a sorted matcher and a sigma matcher. *)
  Definition sigma_cf (sc : sigcfg) (flt : cfilter) f1 f2 : cflt K nat cenv :=
    let F := base_cf flt f1 f2 in
    CF (cf_start F) (cf_set F) (cf_filter F) (cf_final F) (cf_items1 F) (fun _ => sigma_items sc f2) (cf_flags F).

  (** compose_fst_op.rs 199-219 with the priorities of sorted_matcher.rs 90-92 and sigma_matcher.rs
      131-141. *)
  Definition sigma_match_input (sc : sigcfg) (mt : mtype) f1 f2 (s1 s2 : nat) : res bool :=
    match mt with
    | MInput => Ok true
    | MOutput => Ok false
    | _ =>
        p1 <-- num_trs f1 s1 ;;
        hs <-- has_sigma (sm_items f2 MInput) s2 (Lab (sc_label sc)) ;;
        if hs then Ok true else p2 <-- num_trs f2 s2 ;; Ok (Nat.leb p1 p2)
    end.

  (** 406-418. *)
  Definition sigma_trs (sc : sigcfg) (flt : cfilter) (mt : mtype) f1 f2 (t : gtuple nat) : res (list (ttr K (gtuple nat))) :=
    let F := sigma_cf sc flt f1 f2 in
    let '(fs, s1, s2) := t in
    e <-- cf_set F s1 s2 fs ;;
    b <-- sigma_match_input sc mt f1 f2 s1 s2 ;;
    if b then gexpand F f1 f2 e s2 s1 true else gexpand F f1 f2 e s1 s2 false.

  (** compose_fst_op.rs 169-197: the sigma matcher requires a match (sigma_matcher.rs 123-129). *)
  Definition sigma_match_type f1 f2 : res mtype :=
    t <-- sm_match_type f2 MInput true ;;
    if mtype_eqb t MInput then compose_match_type f1 f2 else Err.

  Definition sigma_op (sc : sigcfg) (flt : cfilter) (mt : mtype) f1 f2 : fst_op K (bimap (gtuple nat)) :=
    let F := sigma_cf sc flt f1 f2 in
    table_op (gtuple_eqb Nat.eqb) (gcompute_start F f1 f2) (sigma_trs sc flt mt f1 f2) (gcompute_final F f1 f2)
      (compose_properties (vprops f1) (vprops f2)).

  (** compose_static.rs 160-256, [compose_with_config] with a default first matcher, a sigma matcher
      as the second one and any filter but [AutoFilter] (which refuses it, 182-188). [None]: out of
      fuel. *)
  Definition sigma_compose (sc : sigcfg) (flt : cfilter) (conn : bool) (fuel : nat) f1 f2 : option (res (vfst K)) :=
    if negb (sigma_new_ok MInput (Lab (sc_label sc))) then Some Err
    else
      match sigma_match_type f1 f2 with
      | Ok mt =>
          match compute (sigma_op sc flt mt f1 f2) vec_cache_ops fuel (visymt f1) (vosymt f2) (bm_new, vec_cache_new) with
          | Some (Ok (g, _)) => Some (if conn then connect g else Ok g)
          | Some Err => Some Err
          | Some Panic => Some Panic
          | None => None
          end
      | Err => Some Err
      | Panic => Some Panic
      end.

  (** The same with the sigma matcher on the first machine, which matches on output. *)
  Definition sigma1_items (sc : sigcfg) f (s : nat) (lab : qlab) : res (list (item K)) :=
    n <-- num_trs f s ;;
    it <-- sig_new (sm_items f MOutput) s lab (Lab (sc_label sc)) MOutput (rewrite_both sc f) (sc_allowed sc) ;;
    r <-- sig_drain (sm_items f MOutput) (n + 2) it ;;
    plain_items (fst r).
  Definition sigma1_cf (sc : sigcfg) (flt : cfilter) f1 f2 : cflt K nat cenv :=
    let F := base_cf flt f1 f2 in
    CF (cf_start F) (cf_set F) (cf_filter F) (cf_final F) (fun _ => sigma1_items sc f1) (cf_items2 F) (cf_flags F).

  (** compose_fst_op.rs 199-219. *)
  Definition sigma1_match_input (sc : sigcfg) (mt : mtype) f1 f2 (s1 s2 : nat) : res bool :=
    match mt with
    | MInput => Ok true
    | MOutput => Ok false
    | _ =>
        hs <-- has_sigma (sm_items f1 MOutput) s1 (Lab (sc_label sc)) ;;
        if hs then Ok false else p1 <-- num_trs f1 s1 ;; p2 <-- num_trs f2 s2 ;; Ok (Nat.leb p1 p2)
    end.
  Definition sigma1_trs (sc : sigcfg) (flt : cfilter) (mt : mtype) f1 f2 (t : gtuple nat) : res (list (ttr K (gtuple nat))) :=
    let F := sigma1_cf sc flt f1 f2 in
    let '(fs, s1, s2) := t in
    e <-- cf_set F s1 s2 fs ;;
    b <-- sigma1_match_input sc mt f1 f2 s1 s2 ;;
    if b then gexpand F f1 f2 e s2 s1 true else gexpand F f1 f2 e s1 s2 false.

  (** compose_fst_op.rs 169-197. *)
  Definition sigma1_match_type f1 f2 : res mtype :=
    t <-- sm_match_type f1 MOutput true ;;
    if mtype_eqb t MOutput then compose_match_type f1 f2 else Err.

  Definition sigma1_op (sc : sigcfg) (flt : cfilter) (mt : mtype) f1 f2 : fst_op K (bimap (gtuple nat)) :=
    let F := sigma1_cf sc flt f1 f2 in
    table_op (gtuple_eqb Nat.eqb) (gcompute_start F f1 f2) (sigma1_trs sc flt mt f1 f2) (gcompute_final F f1 f2)
      (compose_properties (vprops f1) (vprops f2)).

  (** compose_static.rs 160-256 with the sigma matcher as the first one. *)
  Definition sigma1_compose (sc : sigcfg) (flt : cfilter) (conn : bool) (fuel : nat) f1 f2 : option (res (vfst K)) :=
    if negb (sigma_new_ok MOutput (Lab (sc_label sc))) then Some Err
    else
      match sigma1_match_type f1 f2 with
      | Ok mt =>
          match compute (sigma1_op sc flt mt f1 f2) vec_cache_ops fuel (visymt f1) (vosymt f2) (bm_new, vec_cache_new) with
          | Some (Ok (g, _)) => Some (if conn then connect g else Ok g)
          | Some Err => Some Err
          | Some Panic => Some Panic
          | None => None
          end
      | Err => Some Err
      | Panic => Some Panic
      end.
End SC.
