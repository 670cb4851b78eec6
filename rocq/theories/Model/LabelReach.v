(** Conversion to a vector machine and reachability of labels:
    rustfst/src/algorithms/fst_convert.rs, rustfst/src/algorithms/compose/label_reachable.rs.

    Hash maps are association lists in insertion order. The key [NO_LABEL] is [NoLab], apart
    from the labels of transitions; where it is written on a transition it is the number
    [nolab] (u32::MAX in the code), whose value does not matter. *)
From Coq Require Import List Arith NArith ZArith Bool.
From Verif Require Import Base.Util Base.Semiring Base.Machine Model.Props Model.VectorFst Model.TrOps Model.Relabel Model.ComputeProps
  Model.Rational Model.Matchers Model.IntervalSet Model.Reachable.
Import ListNotations.

Section L.
  Context {K : SR}.
  Implicit Types (f g : vfst K).

  (** fst_convert.rs 6-39, from a vector machine. [fst_convert] (41-77) performs the same calls
      with the symbol tables set earlier. *)
  Definition convert_body f (o : vfst K) (s : nat) : res (vfst K) :=
    o <-- rfold (fun o t => add_tr o s t) (trs_of f s) o ;;
    match fin_of f s with Some w => set_final o s w | None => Ok o end.
  Definition fst_convert_from_ref f : res (vfst K) :=
    let o := add_states vnew (num_states f) in
    o <-- match vstart f with
          | None => Ok o
          | Some s => rfold (convert_body f) (seq 0 (num_states f)) (set_start_unchecked o s)
          end ;;
    Ok (set_properties_with_mask (VF (vstates o) (vstart o) (visymt f) (vosymt f) (vprops o)) (vprops f) (vprops f)).

  (** label_reachable.rs 16-33. [NO_LABEL] as the final label is [None]. *)
  Record lrdata := LD { ld_input : bool; ld_final : option nat; ld_l2i : list (qlab * nat); ld_sets : list iset }.
  Definition qlookup (m : list (qlab * nat)) (k : qlab) : option nat :=
    option_map snd (find (fun p => qlab_eqb (fst p) k) m).

  Definition side (ri : bool) (t : tr K) : nat := if ri then il t else ol t.

  (** Locals of [transform_fst] (168-244): the machine, [indeg], [label2state], [ons]. *)
  Record tfst := TF { tf_fst : vfst K; tf_indeg : list nat; tf_l2s : list (qlab * nat); tf_ons : nat }.
  (** 191-199 and 210-218: [label2state.entry(label)]. *)
  Definition tf_entry (x : tfst) (k : qlab) : tfst * nat :=
    match qlookup (tf_l2s x) k with
    | Some v => (x, v)
    | None => (TF (tf_fst x) (tf_indeg x ++ [0]) (tf_l2s x ++ [(k, tf_ons x)]) (S (tf_ons x)), tf_ons x)
    end.
  (** [indeg[nextstate] += 1]. *)
  Definition tf_bump (x : tfst) (q : nat) : res tfst :=
    match nth_error (tf_indeg x) q with
    | Some d => Ok (TF (tf_fst x) (upd (tf_indeg x) q (S d)) (tf_l2s x) (tf_ons x))
    | None => Panic
    end.
  Definition tf_with (x : tfst) g : tfst := TF g (tf_indeg x) (tf_l2s x) (tf_ons x).

  (** 181-206. *)
  Definition tf_tr (ri : bool) (s : nat) (x : tfst) (i : nat) : res tfst :=
    match nth_error (trs_of (tf_fst x) s) i with
    | None => Panic
    | Some t =>
        let l := side ri t in
        let '(x, q) := if Nat.eqb l 0 then (x, ns t) else tf_entry x (Lab l) in
        x <-- tf_bump x q ;;
        g <-- iter_set_nextstate (tf_fst x) s i q ;;
        Ok (tf_with x g)
    end.
  (** 208-228. *)
  Definition tf_final (nolab s : nat) (x : tfst) : res tfst :=
    match fin_of (tf_fst x) s with
    | Some w =>
        if keqb w kzero then Ok x
        else
          let '(x, q) := tf_entry x NoLab in
          g <-- add_tr (tf_fst x) s (Tr nolab nolab w q) ;;
          x <-- tf_bump (tf_with x g) q ;;
          g <-- delete_final_weight (tf_fst x) s ;;
          Ok (tf_with x g)
    | None => Ok x
    end.
  (** 179-229. *)
  Definition tf_state (ri : bool) (nolab : nat) (x : tfst) (s : nat) : res tfst :=
    x <-- rfold (tf_tr ri s) (seq 0 (length (trs_of (tf_fst x) s))) x ;;
    tf_final nolab s x.
  (** 231-235. *)
  Definition tf_new_final g : res (vfst K) := let '(g, s) := add_state g in set_final g s kone.
  (** 237-244. *)
  Definition tf_super (x : tfst) : res (vfst K) :=
    let '(g, start) := add_state (tf_fst x) in
    let g := set_start_unchecked g start in
    rfold (fun g s => match nth_error (tf_indeg x) s with
                      | None => Panic
                      | Some d => if Nat.eqb d 0 then add_tr g start (Tr 0 0 kone s) else Ok g
                      end) (seq 0 start) g.
  (** 168-245. *)
  Definition transform_fst (ri : bool) (nolab : nat) f : res (vfst K * list (qlab * nat)) :=
    let ins := num_states f in
    x <-- rfold (tf_state ri nolab) (seq 0 ins) (TF f (repeat 0 ins) [] ins) ;;
    g <-- rfold (fun g _ => tf_new_final g) (seq 0 (tf_ons x - num_states (tf_fst x))) (tf_fst x) ;;
    g <-- tf_super (tf_with x g) ;;
    Ok (g, tf_l2s x).

  (** 247-270. A state without an index would store [UNASSIGNED as Label]; the new states are
      all final, so this is a [Panic] here that never happens. *)
  Definition find_intervals g (ins : nat) (ri : bool) (l2s : list (qlab * nat)) : res lrdata :=
    r <-- sr_new g ;;
    l2i <-- rfold (fun m p => match nth_error (sr_s2i r) (snd p) with
                              | Some (Some i) => Ok (m ++ [(fst p, i)])
                              | _ => Panic
                              end) l2s [] ;;
    Ok (LD ri (qlookup l2i NoLab) l2i (firstn ins (sr_sets r ++ repeat is_new (ins - length (sr_sets r))))).

  (** 131-146. *)
  Definition compute_data f (ri : bool) (nolab : nat) : res lrdata :=
    g <-- fst_convert_from_ref f ;;
    x <-- transform_fst ri nolab g ;;
    y <-- compute_and_update_properties (fst x) (mask [ACYCLIC]) ;;
    find_intervals (fst y) (num_states g) ri (snd x).

  (** 35-39. *)
  Definition interval_set (d : lrdata) (s : nat) : res iset :=
    match nth_error (ld_sets d) s with Some a => Ok a | None => Err end.
  (** 290-300. *)
  Definition reach_label (d : lrdata) (s l : nat) : res bool :=
    if Nat.eqb l 0 then Ok false else a <-- interval_set d s ;; Ok (is_member a l).
  (** 303-308. [member(NO_LABEL)] is false: the indices stay below u32::MAX. *)
  Definition reach_final (d : lrdata) (s : nat) : res bool :=
    a <-- interval_set d s ;; Ok (member_opt a (ld_final d)).

  (** 375-402. *)
  Fixpoint lr_lower (fuel : nat) (rfi : bool) (l : list (tr K)) (low high m : nat) : res nat :=
    match fuel with
    | O => Panic
    | S fuel' =>
        if Nat.ltb low high then
          let mid := low + Nat.div2 (high - low) in
          match nth_error l mid with
          | None => Panic
          | Some t => if Nat.ltb (side rfi t) m then lr_lower fuel' rfi l (S mid) high m
                      else lr_lower fuel' rfi l low mid m
          end
        else Ok low
    end.
  Definition lr_lower_bound (rfi : bool) (l : list (tr K)) (b e m : nat) : res nat := lr_lower (S (e - b)) rfi l b e m.

  (** Locals of [reach]: [reach_begin] ([UNASSIGNED] is [None]), [reach_end], [reach_weight]. *)
  Record racc := RA { ra_begin : option nat; ra_end : nat; ra_w : K }.
  (** 325-344: one position; the second component is [reach_label]. *)
  Definition scan_step (d : lrdata) (s : nat) (rfi cw : bool) (l : list (tr K)) (x : racc * option nat) (pos : nat) : res (racc * option nat) :=
    match nth_error l pos with
    | None => Panic
    | Some t =>
        let lab := side rfi t in
        b <-- (if match snd x with Some r => Nat.eqb lab r | None => false end then Ok true else reach_label d s lab) ;;
        if b then
          let a := fst x in
          Ok (RA (match ra_begin a with None => Some pos | b => b end) (S pos)
                 (if cw then kplus (ra_w a) (wgt t) else ra_w a), Some lab)
        else Ok x
    end.
  (** 357-361. *)
  Definition sum_range (l : list (tr K)) (b e : nat) (w : K) : res K :=
    rfold (fun w i => match nth_error l i with Some t => Ok (kplus w (wgt t)) | None => Panic end) (seq b (e - b)) w.
  (** 348-364: one interval; the second component is [end_low]. *)
  Definition jump_step (rfi cw : bool) (l : list (tr K)) (e : nat) (x : racc * nat) (iv : ival) : res (racc * nat) :=
    b <-- lr_lower_bound rfi l (snd x) e (ibegin iv) ;;
    h <-- lr_lower_bound rfi l b e (iend iv) ;;
    if Nat.ltb 0 (h - b) then
      let a := fst x in
      w <-- (if cw then sum_range l b h (ra_w a) else Ok (ra_w a)) ;;
      Ok (RA (match ra_begin a with None => Some b | b => b end) h w, h)
    else Ok (fst x, h).
  (** 310-373. *)
  Definition lr_reach (d : lrdata) (rfi : bool) (s : nat) (l : list (tr K)) (b e : nat) (cw : bool) : res (option (nat * nat * K)) :=
    a <-- interval_set d s ;;
    let x0 := RA None 0 kzero in
    x <-- (if Nat.ltb (2 * (e - b)) (length (ivals a))
           then rmap fst (rfold (scan_step d s rfi cw l) (seq b (e - b)) (x0, None))
           else rmap fst (rfold (jump_step rfi cw l e) (ivals a) (x0, b))) ;;
    Ok (match ra_begin x with Some p => Some (p, ra_end x, ra_w x) | None => None end).

  (** 272-288: the stored bits of the other machine must say it is sorted. *)
  Definition reach_init f (ri : bool) : res bool :=
    let p := if ri then I_LABEL_SORTED else O_LABEL_SORTED in
    if knows (vprops f) (mask [p]) then if contains (vprops f) (mask [p]) then Ok ri else Err else Err.

  (** 53-62. *)
  Definition lr_relabel (d : lrdata) (l : nat) : lrdata * nat :=
    if Nat.eqb l 0 then (d, 0)
    else match qlookup (ld_l2i d) (Lab l) with
         | Some i => (d, i)
         | None => let i := S (length (ld_l2i d)) in
                   (LD (ld_input d) (ld_final d) (ld_l2i d ++ [(Lab l, i)]) (ld_sets d), i)
         end.
  (** 64-97. *)
  Definition relabel_tr (ri : bool) (s : nat) (x : lrdata * vfst K) (i : nat) : res (lrdata * vfst K) :=
    match nth_error (trs_of (snd x) s) i with
    | None => Panic
    | Some t =>
        let '(d, l) := lr_relabel (fst x) (side ri t) in
        g <-- (if ri then iter_set_ilabel (snd x) s i l else iter_set_olabel (snd x) s i l) ;;
        Ok (d, g)
    end.
  Definition relabel_fst (d : lrdata) f (ri : bool) : res (lrdata * vfst K) :=
    x <-- rfold (fun x s => rfold (relabel_tr ri s) (seq 0 (length (trs_of (snd x) s))) x) (seq 0 (num_states f)) (d, f) ;;
    g <-- (if ri then tr_sort_i (snd x) else tr_sort_o (snd x)) ;;
    Ok (fst x, if ri then VF (vstates g) (vstart g) None (vosymt g) (vprops g)
               else VF (vstates g) (vstart g) (visymt g) None (vprops g)).

  (** 99-122. The order of the first part is that of the hash map. *)
  Definition is_final_label (d : lrdata) (i : nat) : bool := match ld_final d with Some x => Nat.eqb i x | None => false end.
  Definition lr_relabel_pairs (d : lrdata) (nolab : nat) (avoid : bool) : list (nat * nat) :=
    map (fun p => (match fst p with Lab l => l | NoLab => nolab end, snd p))
        (filter (fun p => negb (is_final_label d (snd p))) (ld_l2i d)) ++
    (if avoid then
       map (fun i => (i, S (length (ld_l2i d))))
           (filter (fun i => match qlookup (ld_l2i d) (Lab i) with None => true | Some v => is_final_label d v end)
                   (seq 1 (length (ld_l2i d))))
     else []).
End L.
