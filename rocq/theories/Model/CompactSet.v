(** The label set of the multi-epsilon matcher.

    rustfst/src/algorithms/compose/matchers/multi_eps_matcher.rs 268-366, at [K = Label = u32].
    The [BTreeSet] is a duplicate-free list (order is not observable through the functions
    modelled here).  Arithmetic overflow panics. *)
From Coq Require Import List NArith Bool.
From Verif Require Import Base.Util.
Import ListNotations.
Local Open Scope N_scope.

(** [NO_LABEL] = [u32::MAX]. *)
Definition no_key : N := 4294967295.

(** multi_eps_matcher.rs 282-289. *)
Definition key_add (k v : N) : res N := if no_key <? k + v then Panic else Ok (k + v).
Definition key_sub (k v : N) : res N := if k <? v then Panic else Ok (k - v).

(** multi_eps_matcher.rs 292-297. *)
Record compact_set := CS { cs_set : list N; min_key : N; max_key : N }.

(** 300-307. *)
Definition cs_new : compact_set := CS [] no_key no_key.

Definition cs_mem (l : list N) (k : N) : bool := existsb (N.eqb k) l.

(** 309-317. *)
Definition cs_insert (c : compact_set) (k : N) : compact_set :=
  CS (if cs_mem (cs_set c) k then cs_set c else k :: cs_set c)
     (if (min_key c =? no_key) || (k <? min_key c) then k else min_key c)
     (if (max_key c =? no_key) || (k <? max_key c) then k else max_key c).

(** 319-323. *)
Definition cs_clear (c : compact_set) : compact_set := CS [] no_key no_key.

(** 341-351. *)
Definition cs_erase (c : compact_set) (k : N) : res compact_set :=
  let s := filter (fun x => negb (x =? k)) (cs_set c) in
  match s with
  | [] => Ok (CS s no_key no_key)
  | _ =>
      if k =? min_key c then m <-- key_add (min_key c) 1 ;; Ok (CS s m (max_key c))
      else if k =? max_key c then m <-- key_sub (max_key c) 1 ;; Ok (CS s (min_key c) m)
      else Ok (CS s (min_key c) (max_key c))
  end.

(** 353-365. *)
Definition cs_contains (c : compact_set) (k : N) : res bool :=
  if (min_key c =? no_key) || (k <? min_key c) || (max_key c <? k) then Ok false
  else
    a <-- key_add (max_key c) 1 ;;
    b <-- key_add (min_key c) (N.of_nat (length (cs_set c))) ;;
    if a =? b then Ok true else Ok (cs_mem (cs_set c) k).

(** The public operations on the matcher's label set: add_multi_eps_label 164-170,
    remove_multi_eps_label 172-178 (both refuse label 0), clear_multi_eps_labels 160-162. *)
Inductive cs_op := OInsert (k : N) | OErase (k : N) | OClear.
Definition cs_step (c : compact_set) (o : cs_op) : res compact_set :=
  match o with
  | OInsert k => if k =? 0 then Err else Ok (cs_insert c k)
  | OErase k => if k =? 0 then Err else cs_erase c k
  | OClear => Ok (cs_clear c)
  end.
Fixpoint cs_run (c : compact_set) (l : list cs_op) : res compact_set :=
  match l with
  | [] => Ok c
  | o :: l' =>
      match cs_step c o with
      | Ok c' => cs_run c' l'
      | Err => cs_run c l' (* the caller gets the error, the set is untouched *)
      | Panic => Panic
      end
  end.
