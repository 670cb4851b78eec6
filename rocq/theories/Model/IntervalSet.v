(** Interval sets of the label-reachability code.

    rustfst/src/algorithms/compose/interval_set.rs 9-193.  [usize] is unbounded here
    (overflow of ends and counts is not modelled; underflow panics). *)
From Coq Require Import List Arith Bool.
From Verif Require Import Base.Util Model.TrOps.
Import ListNotations.

(** 11-14. *)
Record ival := IV { ibegin : nat; iend : nat }.

(** 30-45: [cmp(a, b) != Greater]: begin ascending, then end descending. *)
Definition ival_le (a b : ival) : bool :=
  (ibegin a <? ibegin b) || ((ibegin a =? ibegin b) && (iend b <=? iend a)).
(** [cmp(a, b) == Less]. *)
Definition ival_lt (a b : ival) : bool :=
  (ibegin a <? ibegin b) || ((ibegin a =? ibegin b) && (iend b <? iend a)).

(** 50-53 and 91-93. *)
Record iset := IS { ivals : list ival; icount : option nat }.
Definition is_new : iset := IS [] None.

(** 113-115, 122-124, 131-133 (the count is kept, stale, by push and union). *)
Definition is_push (s : iset) (i : ival) : iset := IS (ivals s ++ [i]) (icount s).
Definition is_clear (s : iset) : iset := IS [] None.
Definition is_union (s t : iset) : iset := IS (ivals s ++ ivals t) (icount s).

(** [superslice::Ext::lower_bound]: the number of leading elements smaller than [x].  The
    binary search finds this on sorted slices, the only ones [member] is meant for. *)
Fixpoint lower_bound (l : list ival) (x : ival) : nat :=
  match l with
  | [] => 0
  | i :: l' => if ival_lt i x then S (lower_bound l' x) else 0
  end.

(** 136-143. *)
Definition is_member (s : iset) (v : nat) : bool :=
  match lower_bound (ivals s) (IV v v) with
  | 0 => false
  | S k => match nth_error (ivals s) k with Some i => v <? iend i | None => false end
  end.

(** 145-151. *)
Definition is_singleton (s : iset) : bool :=
  match ivals s with [i] => ibegin i + 1 =? iend i | _ => false end.

(** 169-179: swallow the following intervals that start at or before the current end. *)
Fixpoint absorb (c : ival) (l : list ival) : ival * list ival :=
  match l with
  | [] => (c, [])
  | j :: l' =>
      if iend c <? ibegin j then (c, l)
      else absorb (IV (ibegin c) (if iend c <? iend j then iend j else iend c)) l'
  end.

(** 158-185 with the kept intervals (187-190) collected on the way; [l] is the part of the
    vector from [i] on.  Running out of fuel stands for looping forever.  180 underflows
    when the interval is upside down. *)
Fixpoint norm_loop (fuel : nat) (l : list ival) (count : nat) : res (list ival * nat) :=
  match fuel with
  | 0 => Panic
  | S fuel' =>
      match l with
      | [] => Ok ([], count)
      | c :: l' =>
          if ibegin c =? iend c then norm_loop fuel' l count (* 165-168: continue, same [i] *)
          else
            let (c', rest) := absorb c l' in
            if iend c' <? ibegin c' then Panic
            else
              r <-- norm_loop fuel' rest (count + (iend c' - ibegin c')) ;;
              Ok (c' :: fst r, snd r)
      end
  end.

(** 154-192. *)
Definition is_normalize (fuel : nat) (s : iset) : res iset :=
  r <-- norm_loop fuel (isort ival_le (ivals s)) 0 ;;
  Ok (IS (fst r) (Some (snd r))).
