(** Looking one transition ahead: rustfst/src/algorithms/compose/lookahead_matchers/tr_lookahead_matcher.rs
    over the sorted matcher, and composition through it
    (lookahead_filters/lookahead_compose_filter.rs). [lm_prefix] is [None] when [prefix_tr.nextstate] is [NO_STATE_ID]. *)
From Coq Require Import List Arith NArith Bool.
From Verif Require Import Base.Util Base.Semiring Base.Machine Model.VectorFst Model.TrOps Model.Matchers Model.Compose Model.LookAhead.
Import ListNotations.
Local Open Scope K_scope.

Section T.
  Context {K : SR}.
  Implicit Types f lf : vfst K.

  (** Locals of [lookahead_fst]: [nprefix], [result], [la_matcher_data]. *)
  Record tla := TLA { tl_n : nat; tl_found : bool; tl_data : lamd K }.

  (** [flags.contains(LOOKAHEAD_WEIGHT | LOOKAHEAD_PREFIX)]: both. *)
  Definition both_flags (fl : laflags) : bool := fl_weight fl && fl_prefix fl.
  (** [la_matcher_data.lookahead_weight.plus_assign], under LOOKAHEAD_WEIGHT. *)
  Definition tla_add (fl : laflags) (d : lamd K) (w : K) : lamd K :=
    if fl_weight fl then LMD (lm_weight d + w) (lm_prefix d) else d.
  Definition item_weight (i : item K) : K := match i with ITr t => wgt t | ILoop => 1 end.

  (** 207-223: one matching transition. *)
  Definition tla_match (fl : laflags) (t : tr K) (st : tla) (i : item K) : tla :=
    let n := S (tl_n st) in
    let d := tla_add fl (tl_data st) (wgt t * item_weight i) in
    TLA n (tl_found st) (if fl_prefix fl && Nat.eqb n 1 then LMD (lm_weight d) (Some t) else d).

  (** 228-240. *)
  Definition tla_finish (fl : laflags) (st : tla) : option (lamd K) :=
    let d := tl_data st in
    let d := if fl_prefix fl then if Nat.eqb (tl_n st) 1 then LMD 1 (lm_prefix d) else LMD (lm_weight d) None else d in
    if tl_found st then Some d else None.

  (** 179-226. *)
  Fixpoint tla_loop (fl : laflags) f (mt : mtype) (ms : nat) (known : mtype) (trs : list (tr K)) (st : tla) : res (option (lamd K)) :=
    match trs with
    | [] => Ok (tla_finish fl st)
    | t :: r =>
        l <-- match known with MInput => Ok (ol t) | MOutput => Ok (il t) | _ => Err end ;;
        if Nat.eqb l 0 then
          if negb (both_flags fl) then Ok (Some (tl_data st))
          else tla_loop fl f mt ms known r
                 (TLA (if fl_nonepspre fl then tl_n st else S (tl_n st)) true (tla_add fl (tl_data st) (wgt t)))
        else
          its <-- sm_items f mt ms (Lab l) ;;
          match its with
          | [] => tla_loop fl f mt ms known r st
          | _ =>
              if negb (both_flags fl) then Ok (Some (tl_data st))
              else let st := fold_left (tla_match fl t) its st in
                   tla_loop fl f mt ms known r (TLA (tl_n st) true (tl_data st))
          end
    end.

  (** 154-181: transitions of the matcher's state without a label, then the others. *)
  Definition tla_rest (fl : laflags) f (mt : mtype) (ms : nat) lf (ls : nat) (st : tla) : res (option (lamd K)) :=
    its <-- sm_items f mt ms NoLab ;;
    if match its with [] => false | _ => negb (both_flags fl) end then Ok (Some (tl_data st))
    else
      let st := match its with
                | [] => st
                | _ => TLA (S (tl_n st)) true (fold_left (fun d i => tla_add fl d (item_weight i)) its (tl_data st))
                end in
      known <-- sm_match_type f mt false ;;
      trs <-- get_trs lf ls ;;
      tla_loop fl f mt ms known trs st.

  (** 114-241. [clear_lookahead_weight] and [clear_lookahead_prefix] do not change the default data. *)
  Definition tla_lookahead_fst (fl : laflags) f (mt : mtype) (ms : nat) lf (ls : nat) : res (option (lamd K)) :=
    a <-- final_weight f ms ;;
    b <-- match a with Some _ => final_weight lf ls | None => Ok None end ;;
    match a, b with
    | Some x, Some y =>
        if negb (both_flags fl) then Ok (Some (lamd_default (K := K)))
        else tla_rest fl f mt ms lf ls (TLA 1 true (tla_add fl lamd_default (x * y)))
    | _, _ => tla_rest fl f mt ms lf ls (TLA 0 false lamd_default)
    end.

  (** 243-246. *)
  Definition tla_lookahead_label f (mt : mtype) (s l : nat) : res bool :=
    its <-- sm_items f mt s (Lab l) ;;
    Ok (match its with [] => false | _ => true end).

  (** lookahead_filters/lookahead_compose_filter.rs 191-228, 246-269 with this matcher on both sides:
      [SMatchOutput] ([out]) looks ahead with the first machine's matcher into the second machine,
      [SMatchInput] the other way round. [fl]: [MFT::flags()]. *)
  Definition tla_cf {FS E : Type} (out : bool) (fl : laflags) f1 f2 (F : cflt K FS E) : cflt K FS E :=
    CF (cf_start F) (cf_set F)
       (fun e a1 a2 =>
          r <-- cf_filter F e a1 a2 ;;
          match r with
          | None => Ok None
          | Some (fs, a1, a2, _) =>
              let labela := if out then qol a1 else qil a2 in
              if negb (is_eps labela) && negb (fl_noneps fl) then Ok (Some (fs, a1, a2, None))
              else if is_eps labela && negb (fl_eps fl) then Ok (Some (fs, a1, a2, None))
              else
                l <-- (if out then tla_lookahead_fst fl f1 MOutput (qns a1) f2 (qns a2)
                       else tla_lookahead_fst fl f2 MInput (qns a2) f1 (qns a1)) ;;
                Ok (match l with Some d => Some (fs, a1, a2, Some d) | None => None end)
          end)
       (cf_final F) (cf_items1 F) (cf_items2 F) fl.
End T.
