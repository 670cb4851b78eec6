(** Matchers: rustfst/src/algorithms/compose/matchers/{mod,sorted_matcher,sigma_matcher,multi_eps_matcher}.rs. *)
From Coq Require Import List Arith NArith Bool.
From Verif Require Import Base.Util Base.Semiring Base.Machine Model.Props Model.VectorFst.
Import ListNotations.

(** A label asked of a matcher. [NO_LABEL] (u32::MAX) is kept apart from the labels that
    transitions carry. *)
Inductive qlab := NoLab | Lab (l : nat).
Definition qlab_eqb (a b : qlab) : bool :=
  match a, b with NoLab, NoLab => true | Lab x, Lab y => Nat.eqb x y | _, _ => false end.

(** mod.rs 57-70. *)
Inductive mtype := MInput | MOutput | MBoth | MNone | MUnknown.
Definition mtype_eqb (a b : mtype) : bool :=
  match a, b with
  | MInput, MInput | MOutput, MOutput | MBoth, MBoth | MNone, MNone | MUnknown, MUnknown => true
  | _, _ => false
  end.

Section M.
  Context {K : SR}.

  (** mod.rs 81-86. *)
  Inductive item := ITr (t : tr K) | ILoop.

  (** mod.rs 88-95, 97-105. A transition whose labels may be [NO_LABEL]. *)
  Record qtr := QT { qil : qlab; qol : qlab; qw : K; qns : nat }.
  Definition qtr_of (t : tr K) : qtr := QT (Lab (il t)) (Lab (ol t)) (wgt t) (ns t).
  Definition eps_loop (s : nat) (mt : mtype) : res qtr :=
    match mt with
    | MInput => Ok (QT NoLab (Lab 0) kone s)
    | MOutput => Ok (QT (Lab 0) NoLab kone s)
    | _ => Err
    end.
  Definition into_tr (i : item) (s : nat) (mt : mtype) : res qtr :=
    match i with ITr t => Ok (qtr_of t) | ILoop => eps_loop s mt end.

  (** superslice 1.0 [lower_bound_by] (a dependency): branch-free binary search. [less] is
      "compares as Less". *)
  Fixpoint lb_loop (fuel : nat) (less : tr K -> bool) (l : list (tr K)) (base size : nat) : res nat :=
    match fuel with
    | O => Panic
    | S fuel' =>
        if Nat.leb size 1 then Ok base
        else
          let half := Nat.div2 size in
          let mid := base + half in
          match nth_error l mid with
          | None => Panic
          | Some t => lb_loop fuel' less l (if less t then mid else base) (size - half)
          end
    end.
  Definition lower_bound (less : tr K -> bool) (l : list (tr K)) : res nat :=
    match l with
    | [] => Ok 0
    | _ =>
        base <-- lb_loop (S (length l)) less l 0 (length l) ;;
        match nth_error l base with
        | None => Panic
        | Some t => Ok (base + (if less t then 1 else 0))
        end
    end.

  (** sorted_matcher.rs 98-105. *)
  Record smit := SI { si_trs : list (tr K); si_label : nat; si_pos : nat; si_loop : bool; si_type : mtype }.

  (** sorted_matcher.rs 121-155. *)
  Definition sm_new (trs : list (tr K)) (lab : qlab) (mt : mtype) : res smit :=
    let loop := qlab_eqb lab (Lab 0) in
    let l := match lab with NoLab => 0 | Lab l => l end in
    pos <-- (if loop then Ok 0
             else match mt with
                  | MInput => lower_bound (fun t => Nat.ltb (il t) l) trs
                  | MOutput => lower_bound (fun t => Nat.ltb (ol t) l) trs
                  | _ => Panic
                  end) ;;
    Ok (SI trs l pos loop mt).

  (** 157-163. *)
  Definition sm_label (mt : mtype) (t : tr K) : res nat :=
    match mt with MInput => Ok (il t) | MOutput => Ok (ol t) | _ => Panic end.

  (** 169-186. *)
  Definition sm_next (it : smit) : res (option item * smit) :=
    if si_loop it then Ok (Some ILoop, SI (si_trs it) (si_label it) (si_pos it) false (si_type it))
    else
      match nth_error (si_trs it) (si_pos it) with
      | Some t =>
          l <-- sm_label (si_type it) t ;;
          if Nat.eqb l (si_label it)
          then Ok (Some (ITr t), SI (si_trs it) (si_label it) (S (si_pos it)) false (si_type it))
          else Ok (None, it)
      | None => Ok (None, it)
      end.

  (** A [for] loop over an iterator: the items up to the first [None]. *)
  Fixpoint drain {I} (next : I -> res (option item * I)) (fuel : nat) (it : I) : res (list item * I) :=
    match fuel with
    | O => Panic
    | S fuel' =>
        r <-- next it ;;
        match fst r with
        | None => Ok ([], snd r)
        | Some x => q <-- drain next fuel' (snd r) ;; Ok (x :: fst q, snd q)
        end
    end.

  (** sorted_matcher.rs 44-50 then a [for] loop. *)
  Definition sm_items (f : vfst K) (mt : mtype) (s : nat) (lab : qlab) : res (list item) :=
    trs <-- get_trs f s ;;
    it <-- sm_new trs lab mt ;;
    r <-- drain sm_next (S (S (length trs))) it ;;
    Ok (fst r).

  (** sorted_matcher.rs 56-84. *)
  Definition sm_match_type (f : vfst K) (mt : mtype) (test : bool) : res mtype :=
    if mtype_eqb mt MNone then Ok mt
    else
      let tp := if mtype_eqb mt MInput then I_LABEL_SORTED else O_LABEL_SORTED in
      let fp := if mtype_eqb mt MInput then NOT_I_LABEL_SORTED else NOT_O_LABEL_SORTED in
      (* fst_traits/fst.rs 166-176: [properties_check] *)
      props <-- (if test then (if knows (vprops f) (mask [tp; fp]) then Ok (vprops f) else Err) else Ok (vprops f)) ;;
      if contains props (mask [tp]) then Ok mt
      else if contains props (mask [fp]) then Ok MNone
      else Ok MUnknown.

  (** Any matcher, seen as the list of items its iterator yields. *)
  Variable M : nat -> qlab -> res (list item).

  (** sigma_matcher.rs 32-44. *)
  Definition has_sigma (s : nat) (sigma : qlab) : res bool :=
    if qlab_eqb sigma NoLab then Ok false
    else l <-- M s sigma ;; Ok (match l with [] => false | _ => true end).

  (** sigma_matcher.rs 53-84: what the constructor refuses. *)
  Definition sigma_new_ok (mt : mtype) (sigma : qlab) : bool :=
    negb (mtype_eqb mt MBoth) && negb (qlab_eqb sigma (Lab 0)).

  (** Items yielded by the sigma matcher carry possibly rewritten labels. *)
  Inductive sitem := SPlain (i : item) | SSigma (t : qtr).

  (** sigma_matcher.rs 150-170. *)
  Record sigit := GI { gi_state : nat; gi_label : qlab; gi_sigma : qlab; gi_type : mtype; gi_empty : bool;
                       gi_match : option qlab; gi_iter : list item; gi_has : bool; gi_rw : bool }.

  (** 172-181. *)
  Definition sigma_allowed (allowed : option (list nat)) (lab : qlab) : bool :=
    match allowed, lab with
    | None, _ => true
    | Some l, Lab x => existsb (Nat.eqb x) l
    | Some _, NoLab => false (* only asked for proper labels *)
    end.

  (** 190-239. *)
  Definition sig_new (s : nat) (lab sigma : qlab) (mt : mtype) (rw : bool) (allowed : option (list nat)) : res sigit :=
    if qlab_eqb lab sigma && negb (qlab_eqb sigma NoLab) then Err
    else
      hs <-- has_sigma s sigma ;;
      exact <-- M s lab ;;
      match exact with
      | _ :: _ => Ok (GI s lab sigma mt false (Some NoLab) exact hs rw)
      | [] =>
          sg <-- M s sigma ;;
          if hs && negb (qlab_eqb lab (Lab 0)) && negb (qlab_eqb lab NoLab) && sigma_allowed allowed lab
             && (match sg with [] => false | _ => true end)
          then Ok (GI s lab sigma mt false (Some lab) sg hs rw)
          else Ok (GI s lab sigma mt true None sg hs rw)
      end.

  (** 242-272. *)
  Definition sig_value (it : sigit) : res sitem :=
    match gi_match it, gi_iter it with
    | None, _ | _, [] => Panic (* unwrap on None *)
    | Some m, x :: _ =>
        if qlab_eqb m NoLab then Ok (SPlain x)
        else
          match into_tr x (gi_state it) (gi_type it) with
          | Ok t =>
              if gi_rw it
              then Ok (SSigma (QT (if qlab_eqb (qil t) (gi_sigma it) then m else qil t)
                                  (if qlab_eqb (qol t) (gi_sigma it) then m else qol t) (qw t) (qns t)))
              else if mtype_eqb (gi_type it) MInput then Ok (SSigma (QT m (qol t) (qw t) (qns t)))
              else Ok (SSigma (QT (qil t) m (qw t) (qns t)))
          | _ => Panic
          end
    end.

  (** 274-288. The peeked item is what [next] returns, so the condition on [r] is that the
      iterator was already empty. *)
  Definition sig_step (it : sigit) : res sigit :=
    match gi_iter it with
    | _ :: l => Ok (GI (gi_state it) (gi_label it) (gi_sigma it) (gi_type it) (gi_empty it) (gi_match it) l (gi_has it) (gi_rw it))
    | [] =>
        match gi_match it with
        | None => Panic
        | Some m =>
            if gi_has it && qlab_eqb m NoLab && negb (qlab_eqb (gi_label it) (Lab 0))
            then match M (gi_state it) (gi_sigma it) with
                 | Ok l => Ok (GI (gi_state it) (gi_label it) (gi_sigma it) (gi_type it) (gi_empty it) (Some (gi_label it)) l (gi_has it) (gi_rw it))
                 | _ => Panic
                 end
            else Ok it
        end
    end.

  (** 299-310. *)
  Definition sig_next (it : sigit) : res (option sitem * sigit) :=
    if gi_empty it then Ok (None, it)
    else match gi_iter it with
         | [] => Ok (None, it)
         | _ => v <-- sig_value it ;; it' <-- sig_step it ;; Ok (Some v, it')
         end.
  Fixpoint sig_drain (fuel : nat) (it : sigit) : res (list sitem * sigit) :=
    match fuel with
    | O => Panic
    | S fuel' =>
        r <-- sig_next it ;;
        match fst r with
        | None => Ok ([], snd r)
        | Some x => q <-- sig_drain fuel' (snd r) ;; Ok (x :: fst q, snd q)
        end
    end.

  (** multi_eps_matcher.rs 39-52; [gm_iter = None] is the empty iterator of 230. *)
  Record meit := MI { gm_iter : option (list item); gm_labels : option (list nat * nat); gm_state : nat; gm_done : bool }.

  (** The search loops 93-105 and 208-218: the first position from [pos] on whose label has
      items, with these items. *)
  Fixpoint me_find (s : nat) (ls : list nat) (pos : nat) : res (nat * option (list item)) :=
    match ls with
    | [] => Ok (pos, None)
    | l :: ls' =>
        r <-- M s (Lab l) ;;
        match r with
        | [] => me_find s ls' (S pos)
        | _ => Ok (pos, Some r)
        end
    end.

  (** 194-246. [ls]: the multi-epsilon labels in increasing order; [has]: the answer of
      [CompactSet::contains] for the label. *)
  Definition me_new (fl_loop fl_list : bool) (ls : list nat) (has : bool) (s : nat) (lab : qlab) : res meit :=
    match lab with
    | Lab 0 => l <-- M s (Lab 0) ;; Ok (MI (Some l) None s false)
    | NoLab =>
        if fl_list
        then r <-- me_find s ls 0 ;;
             match snd r with
             | Some l => Ok (MI (Some l) (Some (ls, fst r)) s false)
             | None => l <-- M s NoLab ;; Ok (MI (Some l) None s false)
             end
        else l <-- M s NoLab ;; Ok (MI (Some l) None s false)
    | Lab _ =>
        if fl_loop && has then Ok (MI None None s false)
        else l <-- M s lab ;; Ok (MI (Some l) None s false)
    end.

  (** 82-126. Errors inside [next] are unwrapped. *)
  Definition unwrap {A} (r : res A) : res A := match r with Ok x => Ok x | _ => Panic end.
  Definition me_next (it : meit) : res (option item * meit) :=
    match gm_iter it with
    | Some (x :: l) => Ok (Some x, MI (Some l) (gm_labels it) (gm_state it) (gm_done it))
    | Some [] =>
        match gm_labels it with
        | None => Ok (None, it)
        | Some (ls, pos) =>
            if Nat.leb (length ls) pos then Ok (None, it)
            else
              r <-- unwrap (me_find (gm_state it) (skipn (S pos) ls) (S pos)) ;;
              match snd r with
              | Some l => Ok (None, MI (Some l) (Some (ls, fst r)) (gm_state it) false)
              | None =>
                  l <-- unwrap (M (gm_state it) NoLab) ;;
                  match l with
                  | [] => Ok (None, MI (Some []) (Some (ls, fst r)) (gm_state it) (gm_done it))
                  | x :: l' => Ok (Some x, MI (Some l') (Some (ls, fst r)) (gm_state it) (gm_done it))
                  end
              end
        end
    | None =>
        if gm_done it then Ok (None, it)
        else Ok (Some ILoop, MI None (gm_labels it) (gm_state it) true)
    end.
End M.
Arguments item K : clear implicits.
Arguments qtr K : clear implicits.
Arguments smit K : clear implicits.
Arguments sitem K : clear implicits.
Arguments sigit K : clear implicits.
Arguments meit K : clear implicits.
