(** Composition with look-ahead: rustfst/src/algorithms/compose/{lookahead_matchers,lookahead_filters}
    (LabelLookAheadMatcher, LookAheadComposeFilter, PushWeightsComposeFilter,
    PushLabelsComposeFilter), matcher_fst.rs, and compose_fst_op.rs over any filter.

    Not modelled: the selector types other than [SMatchInput] and [SMatchOutput], matchers with
    [REQUIRE_MATCH], rounding in [quantize] (exact weights make it the identity). *)
From Coq Require Import List Arith NArith Bool.
From Verif Require Import Base.Util Base.Semiring Base.Machine Model.Props Model.VectorFst Model.TrOps Model.Rational Model.Matchers
  Model.BiMap Model.Lazy Model.AlgoProps Model.Visitors Model.Compose Model.IntervalSet Model.Reachable Model.LabelReach.
Import ListNotations.

(** The bits of [MatcherFlags] (matchers/mod.rs 21-33) that the filters look at:
    LOOKAHEAD_WEIGHT, LOOKAHEAD_PREFIX, LOOKAHEAD_NON_EPSILONS, LOOKAHEAD_EPSILONS,
    LOOKAHEAD_NON_EPSILON_PREFIX. *)
Record laflags := LAF { fl_weight : bool; fl_prefix : bool; fl_noneps : bool; fl_eps : bool; fl_nonepspre : bool }.
Definition no_flags : laflags := LAF false false false false false.
(** rustfst-cli/src/cmds/compose.rs 41-49. *)
Definition default_flags : laflags := LAF true true false true true.

Section LA.
  Context {K : SR}.
  Implicit Types (f lf : vfst K).

  (** lookahead_matchers/mod.rs 27-66. [prefix_tr] with [nextstate = NO_STATE_ID] is [None]. *)
  Record lamd := LMD { lm_weight : K; lm_prefix : option (tr K) }.
  Definition lamd_default : lamd := LMD kone None.

  (** The [reachable] of a matcher after [init_lookahead_fst]: the data and [reach_fst_input]. *)
  Definition lreach := option (lrdata * bool).

  (** label_lookahead_matcher.rs 126-141. [fin], [fout]: INPUT_/OUTPUT_LOOKAHEAD_MATCHER. *)
  Definition lla_create_data (fin fout : bool) f (mt : mtype) (nolab : nat) : res (option lrdata) :=
    let ri := mtype_eqb mt MInput in
    if (ri && fin) || (negb ri && fout) then rmap Some (compute_data f ri nolab) else Ok None.

  (** 95-124. The sorted matcher inside has no state of its own. *)
  Definition lla_new_with_data (fin fout : bool) f (mt : mtype) (nolab : nat) (data : option lrdata) : res (option lrdata) :=
    if fin || fout then
      match data with
      | Some d => Ok (if Bool.eqb (mtype_eqb mt MInput) (ld_input d) then Some d else None)
      | None => lla_create_data fin fout f mt nolab
      end
    else Err.

  (** 143-152. *)
  Definition lla_init f (mt : mtype) (reach : option lrdata) lf : res lreach :=
    t <-- sm_match_type f mt false ;;
    match reach with
    | Some d => b <-- reach_init lf (mtype_eqb t MOutput) ;; Ok (Some (d, b))
    | None => Ok None
    end.

  (** 56-66. *)
  Definition lla_flags (fl : laflags) (reach : lreach) : laflags := match reach with Some _ => fl | None => no_flags end.

  Definition live_w (w : option K) : bool := match w with Some w => negb (keqb w kzero) | None => false end.

  (** 154-213. *)
  Definition lookahead_fst (fl : laflags) (reach : lreach) (ms : nat) lf (ls : nat) : res (option lamd) :=
    match reach with
    | None => Ok (Some lamd_default)
    | Some (d, rfi) =>
        trs <-- get_trs lf ls ;;
        n <-- num_trs lf ls ;;
        rt <-- lr_reach d rfi ms trs 0 n (fl_weight fl) ;;
        lfinal <-- final_weight lf ls ;;
        rf <-- (if live_w lfinal then reach_final d ms else Ok false) ;;
        r <-- match rt with
              | Some (b, e, w) =>
                  if fl_prefix fl && Nat.eqb (e - b) 1 && negb rf then
                    match nth_error trs b with
                    | Some t => Ok (LMD kone (Some t), false)
                    | None => Panic
                    end
                  else Ok (LMD w None, fl_weight fl)
              | None => Ok (lamd_default, fl_weight fl)
              end ;;
        let m := fst r in
        let m := if rf && snd r then
                   match rt, lfinal with
                   | Some _, Some lw => LMD (kplus (lm_weight m) lw) (lm_prefix m)
                   | None, Some lw => LMD lw (lm_prefix m)
                   | _, None => m
                   end
                 else m in
        Ok (if (match rt with Some _ => true | None => false end) || rf then Some m else None)
    end.

  (** 215-224. *)
  Definition lookahead_label (reach : lreach) (s l : nat) : res bool :=
    if Nat.eqb l 0 then Ok true
    else match reach with Some (d, _) => reach_label d s l | None => Ok true end.

  (** label_lookahead_relabeler.rs 9-42 and matcher_fst.rs 73-93: the two tables are updated in
      place, the first one present is used. *)
  Definition relabel_addon (a : option lrdata * option lrdata) f (i0 i1 : bool) : res ((option lrdata * option lrdata) * vfst K) :=
    match a with
    | (Some d, o) => r <-- relabel_fst d f i0 ;; Ok ((Some (fst r), o), snd r)
    | (None, Some d) => r <-- relabel_fst d f i1 ;; Ok ((None, Some (fst r)), snd r)
    | (None, None) => Err
    end.
  Definition matcher_fst_new_with_relabeling (fin fout : bool) (nolab : nat) f f2 (relabel_input : bool)
    : res ((option lrdata * option lrdata) * vfst K * vfst K) :=
    i <-- lla_create_data fin fout f MInput nolab ;;
    o <-- lla_create_data fin fout f MOutput nolab ;;
    x <-- relabel_addon (i, o) f true false ;;
    y <-- relabel_addon (fst x) f2 relabel_input relabel_input ;;
    Ok (fst y, snd x, snd y).
  (** matcher_fst.rs 37-44. *)
  Definition addon_data (a : option lrdata * option lrdata) (mt : mtype) : option lrdata :=
    if mtype_eqb mt MInput then fst a else snd a.

  (** ** Filters *)
  (** compose_filters/mod.rs and lookahead_filters/mod.rs 72-79: what a composition uses of a
      filter. [FS]: filter states other than [new_no_state]; [E]: the filter after [set_state].
      [cf_filter] returns the new filter state with both transitions, which the filter may have
      changed, and the look-ahead data when [lookahead_tr()] is true. *)
  Record cflt (FS E : Type) := CF {
    cf_start : FS;
    cf_set : nat -> nat -> FS -> res E;
    cf_filter : E -> qtr K -> qtr K -> res (option (FS * qtr K * qtr K * option lamd));
    cf_final : E -> K -> K -> res (K * K);
    cf_items1 : E -> nat -> qlab -> res (list (item K));
    cf_items2 : E -> nat -> qlab -> res (list (item K));
    cf_flags : laflags
  }.
  Arguments CF {FS E}.
  Arguments cf_start {FS E}.
  Arguments cf_set {FS E}.
  Arguments cf_filter {FS E}.
  Arguments cf_final {FS E}.
  Arguments cf_items1 {FS E}.
  Arguments cf_items2 {FS E}.
  Arguments cf_flags {FS E}.

  (** The filters of Model/Compose.v with sorted matchers. *)
  Definition base_cf (flt : cfilter) f1 f2 : cflt nat cenv :=
    CF 0 (set_state flt f1 f2)
       (fun e a1 a2 => Ok (match filter_tr flt e a1 a2 with Some fs => Some (fs, a1, a2, None) | None => None end))
       (fun _ w1 w2 => Ok (w1, w2))
       (fun _ => sm_items f1 MOutput) (fun _ => sm_items f2 MInput) no_flags.

  (** lookahead_compose_filter.rs 191-228, 246-269. [out] is [lookahead_output]: [SMatchOutput]
      looks ahead with the first machine's matcher into the second machine, [SMatchInput] the
      other way round. *)
  Definition look_cf {FS E} (out : bool) (fl : laflags) (reach : lreach) f1 f2 (F : cflt FS E) : cflt FS E :=
    CF (cf_start F) (cf_set F)
       (fun e a1 a2 =>
          r <-- cf_filter F e a1 a2 ;;
          match r with
          | None => Ok None
          | Some (fs, a1, a2, _) =>
              let labela := if out then qol a1 else qil a2 in
              if negb (is_eps labela) && negb (fl_noneps (lla_flags fl reach)) then Ok (Some (fs, a1, a2, None))
              else if is_eps labela && negb (fl_eps (lla_flags fl reach)) then Ok (Some (fs, a1, a2, None))
              else
                l <-- (if out then lookahead_fst fl reach (qns a1) f2 (qns a2)
                       else lookahead_fst fl reach (qns a2) f1 (qns a1)) ;;
                Ok (match l with Some d => Some (fs, a1, a2, Some d) | None => None end)
          end)
       (cf_final F) (cf_items1 F) (cf_items2 F) (lla_flags fl reach).

  (** push_weights_compose_filter.rs 133-188. [divide]: [WeaklyDivisibleSemiring::divide] with
      [DivideAny]. *)
  Definition pushw_cf {FS E} (divide : K -> K -> res K) (F : cflt FS E) : cflt (FS * K) (E * K) :=
    CF (cf_start F, kone)
       (fun s1 s2 fs => e <-- cf_set F s1 s2 (fst fs) ;; Ok (e, snd fs))
       (fun e a1 a2 =>
          r <-- cf_filter F (fst e) a1 a2 ;;
          match r with
          | None => Ok None
          | Some (fs, a1, a2, la) =>
              if negb (fl_weight (cf_flags F)) then Ok (Some ((fs, kone), a1, a2, la))
              else
                let lw := match la with Some d => lm_weight d | None => kone end in
                if keqb lw kzero then Ok None
                else
                  w <-- divide (ktimes (qw a2) lw) (snd e) ;;
                  Ok (Some ((fs, lw), a1, QT (qil a2) (qol a2) w (qns a2), la))
          end)
       (fun e w1 w2 =>
          r <-- cf_final F (fst e) w1 w2 ;;
          if negb (fl_weight (cf_flags F)) || keqb (fst r) kzero then Ok r
          else w <-- divide (fst r) (snd e) ;; Ok (w, snd r))
       (fun e => cf_items1 F (fst e)) (fun e => cf_items2 F (fst e)) (cf_flags F).

  (** multi_eps_matcher.rs 188-254 then a [for] loop; [CompactSet] holds at most one label here.
      The fuel exceeds the number of items. *)
  Definition me_items (M : nat -> qlab -> res (list (item K))) (lp li : bool) (ls : list nat) (n : nat) (s : nat) (lab : qlab)
    : res (list (item K)) :=
    it <-- me_new M lp li ls (match lab with Lab l => existsb (Nat.eqb l) ls | NoLab => false end) s lab ;;
    r <-- drain (me_next M) n it ;;
    Ok (fst r).

  (** The filter after [set_state]: the inner filter, [fs], [ntrsa]; the multi-epsilon labels are
      the pushed label if there is one. *)
  Record plenv (FS E : Type) := PE { pe_in : E; pe_fs : FS * option nat; pe_ntrsa : nat; pe_me : list nat }.
  Arguments PE {FS E}.
  Arguments pe_in {FS E}.
  Arguments pe_fs {FS E}.
  Arguments pe_ntrsa {FS E}.
  Arguments pe_me {FS E}.

  (** The label on the look-ahead side of [arca]. *)
  Definition set_laba (out : bool) (a : qtr K) (l : nat) : qtr K :=
    if out then QT (qil a) (Lab l) (qw a) (qns a) else QT (Lab l) (qol a) (qw a) (qns a).

  (** push_labels_compose_filter.rs 285-338: consumes a label pushed earlier. *)
  Definition pushed_label_filter {FS E} (out : bool) (reach : lreach) (start : FS) (e : plenv FS E) (a1 a2 : qtr K) (l : nat)
    : res (option (FS * option nat * qtr K * qtr K * option lamd)) :=
    let a := if out then a1 else a2 in
    let laba := if out then qol a else qil a in
    let labb := if out then qil a2 else qol a1 in
    if negb (is_nolab labb) then Ok None
    else if qlab_eqb laba (Lab l) then
      let a' := set_laba out a 0 in
      Ok (Some (start, None, if out then a' else a1, if out then a2 else a', None))
    else if is_eps laba then
      b <-- (if Nat.eqb (pe_ntrsa e) 1 then Ok true else lookahead_label reach (qns a) l) ;;
      Ok (if b then Some (fst (pe_fs e), snd (pe_fs e), a1, a2, None) else None)
    else Ok None.

  (** 341-407: pushes a label forward when possible. *)
  Definition push_label_filter {FS} (out : bool) (fl : laflags) (fs : FS) (a1 a2 : qtr K) (d : lamd)
    : FS * option nat * qtr K * qtr K :=
    let laba := if out then qol a1 else qil a2 in
    let labb := if out then qol a2 else qil a1 in
    if negb (is_eps labb) then (fs, None, a1, a2)
    else if negb (is_eps laba) && fl_nonepspre fl then (fs, None, a1, a2)
    else match lm_prefix d with
         | Some t =>
             let l := if out then il t else ol t in
             let a' := set_laba out (if out then a1 else a2) l in
             let b := if out then a2 else a1 in
             let b' := QT (Lab (il t)) (Lab (ol t)) (ktimes (qw b) (wgt t)) (ns t) in
             (fs, Some l, if out then a' else b', if out then b' else a')
         | None => (fs, None, a1, a2)
         end.

  (** push_labels_compose_filter.rs 114-242. *)
  Definition pushl_cf {FS E} (out : bool) (reach : lreach) f1 f2 (F : cflt FS E) : cflt (FS * option nat) (plenv FS E) :=
    CF (cf_start F, None)
       (fun s1 s2 fs =>
          e <-- cf_set F s1 s2 (fst fs) ;;
          if negb (fl_prefix (cf_flags F)) then Ok (PE e fs 0 [])
          else
            n <-- (if out then num_trs f1 s1 else num_trs f2 s2) ;;
            match snd fs with
            | None => Ok (PE e fs n [])
            | Some 0 => Err
            | Some l => Ok (PE e fs n [l])
            end)
       (fun e a1 a2 =>
          if negb (fl_prefix (cf_flags F)) then
            r <-- cf_filter F (pe_in e) a1 a2 ;;
            Ok (match r with Some (fs, a1, a2, la) => Some (fs, None, a1, a2, la) | None => None end)
          else
            match snd (pe_fs e) with
            | Some l => pushed_label_filter out reach (cf_start F) e a1 a2 l
            | None =>
                r <-- cf_filter F (pe_in e) a1 a2 ;;
                Ok (match r with
                    | None => None
                    | Some (fs, a1, a2, None) => Some (fs, None, a1, a2, None)
                    | Some (fs, a1, a2, Some d) => Some (push_label_filter out (cf_flags F) fs a1 a2 d, Some d)
                    end)
            end)
       (fun e w1 w2 =>
          r <-- cf_final F (pe_in e) w1 w2 ;;
          if negb (fl_prefix (cf_flags F)) || keqb (fst r) kzero then Ok r
          else match snd (pe_fs e) with Some _ => Ok (kzero, snd r) | None => Ok r end)
       (fun e s lab => n <-- num_trs f1 s ;; me_items (cf_items1 F (pe_in e)) (negb out) out (pe_me e) (2 * n + 3) s lab)
       (fun e s lab => n <-- num_trs f2 s ;; me_items (cf_items2 F (pe_in e)) out (negb out) (pe_me e) (2 * n + 3) s lab)
       (cf_flags F).

  (** ** Composition over any filter *)
  Section G.
    Context {FS E : Type} (F : cflt FS E).
    Definition gtuple := (FS * nat * nat)%type.

    (** compose_fst_op.rs 267-285. *)
    Definition gadd_tr (a1 a2 : qtr K) (fs : FS) : res (ttr K gtuple) :=
      i <-- proper (qil a1) ;; o <-- proper (qol a2) ;;
      Ok (TT i o (ktimes (qw a1) (qw a2)) (fs, qns a1, qns a2)).

    (** 287-322. *)
    Fixpoint gselected (e : E) (sa : nat) (t : qtr K) (mi : bool) (items : list (item K)) : res (list (ttr K gtuple)) :=
      match items with
      | [] => Ok []
      | x :: items =>
          arca <-- into_tr x sa (if mi then MInput else MOutput) ;;
          r <-- cf_filter F e (if mi then t else arca) (if mi then arca else t) ;;
          match r with
          | None => gselected e sa t mi items
          | Some (fs, a1, a2, _) =>
              u <-- gadd_tr a1 a2 fs ;;
              l <-- gselected e sa t mi items ;;
              Ok (u :: l)
          end
      end.

    (** 324-353. *)
    Definition gmatch_tr (e : E) (sa : nat) (t : qtr K) (mi : bool) : res (list (ttr K gtuple)) :=
      let label := if mi then qol t else qil t in
      items <-- (if mi then cf_items2 F e sa label else cf_items1 F e sa label) ;;
      gselected e sa t mi items.
    Fixpoint gmatch_trs (e : E) (sa : nat) (ts : list (qtr K)) (mi : bool) : res (list (ttr K gtuple)) :=
      match ts with
      | [] => Ok []
      | t :: ts =>
          l <-- gmatch_tr e sa t mi ;;
          l' <-- gmatch_trs e sa ts mi ;;
          Ok (l ++ l')
      end.

    (** 221-265. *)
    Definition gexpand f1 f2 (e : E) (sa sb : nat) (mi : bool) : res (list (ttr K gtuple)) :=
      let tr_loop := if mi then QT (Lab 0) NoLab kone sb else QT NoLab (Lab 0) kone sb in
      trs <-- get_trs (if mi then f1 else f2) sb ;;
      gmatch_trs e sa (tr_loop :: map qtr_of trs) mi.

    (** 389-404, 406-418, 420-449. *)
    Definition gcompute_start f1 f2 : res (option gtuple) :=
      match vstart f1, vstart f2 with
      | Some s1, Some s2 => Ok (Some (cf_start F, s1, s2))
      | _, _ => Ok None
      end.
    Definition gcompute_trs (mt : mtype) f1 f2 (t : gtuple) : res (list (ttr K gtuple)) :=
      let '(fs, s1, s2) := t in
      e <-- cf_set F s1 s2 fs ;;
      b <-- match_input mt f1 f2 s1 s2 ;;
      if b then gexpand f1 f2 e s2 s1 true else gexpand f1 f2 e s1 s2 false.
    Definition gcompute_final f1 f2 (t : gtuple) : res (option K) :=
      let '(fs, s1, s2) := t in
      w1 <-- final_weight f1 s1 ;;
      match w1 with
      | None => Ok None
      | Some w1 =>
          w2 <-- final_weight f2 s2 ;;
          match w2 with
          | None => Ok None
          | Some w2 =>
              e <-- cf_set F s1 s2 fs ;;
              r <-- cf_final F e w1 w2 ;;
              let w := ktimes (fst r) (snd r) in
              Ok (if keqb w kzero then None else Some w)
          end
      end.

    Definition gtuple_eqb (eqb : FS -> FS -> bool) (a b : gtuple) : bool :=
      eqb (fst (fst a)) (fst (fst b)) && Nat.eqb (snd (fst a)) (snd (fst b)) && Nat.eqb (snd a) (snd b).
    Definition gcompose_op (eqb : FS -> FS -> bool) (props : N) (mt : mtype) f1 f2 : fst_op K (bimap gtuple) :=
      table_op (gtuple_eqb eqb) (gcompute_start f1 f2) (gcompute_trs mt f1 f2) (gcompute_final f1 f2) props.

    (** [ComposeFst::new_with_options] and [compute] with a hash map cache, as in
        rustfst-cli/src/cmds/compose.rs 160-180. *)
    Definition gcompose (eqb : FS -> FS -> bool) (props : N) (fuel : nat) f1 f2 : option (res (vfst K)) :=
      match compose_match_type f1 f2 with
      | Ok mt =>
          match compute (gcompose_op eqb props mt f1 f2) map_cache_ops fuel (visymt f1) (vosymt f2) (bm_new, map_cache_new) with
          | Some (Ok (g, _)) => Some (Ok g)
          | Some Err => Some Err
          | Some Panic => Some Panic
          | None => None
          end
      | Err => Some Err
      | Panic => Some Panic
      end.
  End G.

  (** Equality of filter states (derived [PartialEq]). *)
  Definition fsw_eqb (a b : nat * K) : bool := Nat.eqb (fst a) (fst b) && keqb (snd a) (snd b).
  Definition onat_eqb (a b : option nat) : bool :=
    match a, b with Some x, Some y => Nat.eqb x y | None, None => true | _, _ => false end.
  Definition fswl_eqb (a b : nat * K * option nat) : bool := fsw_eqb (fst a) (fst b) && onat_eqb (snd a) (snd b).

  (** The stack of rustfst-cli/src/cmds/compose.rs 100-145 on machines prepared already:
      PushLabels(PushWeights(LookAhead(AltSequence))) with [SMatchOutput]. *)
  Definition stack_cf (divide : K -> K -> res K) (fl : laflags) (reach : lreach) f1 f2 :=
    pushl_cf true reach f1 f2 (pushw_cf divide (look_cf true fl reach f1 f2 (base_cf AltSequenceF f1 f2))).
  (** Filter [properties]: push_weights 206-208, push_labels 262-269. *)
  Definition stack_props f1 f2 : N :=
    pkeep (pkeep (compose_properties (vprops f1) (vprops f2)) pm_weight_invariant_properties) pm_o_label_invariant_properties.

  (** rustfst-cli/src/cmds/compose.rs 77-181 (ComposeType::LookAhead). *)
  Definition lookahead_compose (divide : K -> K -> res K) (nolab : nat) (fuel : nat) f1 f2 : option (res (vfst K)) :=
    match (x <-- matcher_fst_new_with_relabeling false true nolab f1 f2 true ;;
           let '(addon, g1, g2) := x in
           g2 <-- tr_sort_i g2 ;;
           d <-- lla_new_with_data false true g1 MOutput nolab (addon_data addon MOutput) ;;
           reach <-- lla_init g1 MOutput d g2 ;;
           Ok (reach, g1, g2)) with
    | Ok (reach, g1, g2) => gcompose (stack_cf divide default_flags reach g1 g2) fswl_eqb (stack_props g1 g2) fuel g1 g2
    | Err => Some Err
    | Panic => Some Panic
    end.
End LA.
Arguments lamd K : clear implicits.
Arguments cflt K FS E : clear implicits.
Arguments plenv FS E : clear implicits.
Arguments CF {K FS E}.
Arguments cf_start {K FS E}.
Arguments cf_set {K FS E}.
Arguments cf_filter {K FS E}.
Arguments cf_final {K FS E}.
Arguments cf_items1 {K FS E}.
Arguments cf_items2 {K FS E}.
Arguments cf_flags {K FS E}.
Arguments PE {FS E}.
Arguments pe_in {FS E}.
Arguments pe_fs {FS E}.
Arguments pe_ntrsa {FS E}.
Arguments pe_me {FS E}.
Arguments gtuple FS : clear implicits.
