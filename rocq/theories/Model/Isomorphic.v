(** [isomorphic]: rustfst/src/algorithms/isomorphic.rs. *)
From Coq Require Import List Arith NArith Bool.
From Verif Require Import Base.Util Base.Semiring Base.Machine Model.VectorFst Model.TrOps.
Import ListNotations.

Section I.
  Context {K : SR}.
  (** The [PartialOrd] of the weights ([<]) and [approx_equal] at the chosen delta. *)
  Variable wlt : K -> K -> bool.
  Variable aeq : K -> K -> bool.

  (** isomorphic.rs 22-48: [tr_compare(a, b) != Greater]. *)
  Definition iso_le (a b : tr K) : bool :=
    if Nat.ltb (il a) (il b) then true
    else if Nat.ltb (il b) (il a) then false
    else if Nat.ltb (ol a) (ol b) then true
    else if Nat.ltb (ol b) (ol a) then false
    else if wlt (wgt a) (wgt b) then true
    else if wlt (wgt b) (wgt a) then false
    else if Nat.ltb (ns a) (ns b) then true
    else if Nat.ltb (ns b) (ns a) then false
    else true.

  (** 11-19; the two machines are arguments. *)
  Record isost := IS { is_pairs : list (option nat); is_queue : list (nat * nat); is_nd : bool }.

  (** 64-73. *)
  Definition pair_state (st : isost) (s1 s2 : nat) : res (bool * isost) :=
    match nth_error (is_pairs st) s1 with
    | None => Panic
    | Some (Some s) => Ok (Nat.eqb s s2, st)
    | Some None => Ok (true, IS (upd (is_pairs st) s1 (Some s2)) (is_queue st ++ [(s1, s2)]) (is_nd st))
    end.

  (** The loop 104-132; [prev] is [trs1[i - 1]]. *)
  Fixpoint iso_trs (st : isost) (prev : option (tr K)) (l1 l2 : list (tr K)) : res (bool * isost) :=
    match l1 with
    | [] => Ok (true, st)
    | a1 :: l1' =>
        match l2 with
        | [] => Panic
        | a2 :: l2' =>
            if negb (Nat.eqb (il a1) (il a2)) then Ok (false, st)
            else if negb (Nat.eqb (ol a1) (ol a2)) then Ok (false, st)
            else if negb (aeq (wgt a1) (wgt a2)) then Ok (false, st)
            else
              r <-- pair_state st (ns a1) (ns a2) ;;
              if negb (fst r) then Ok (false, snd r)
              else
                let nd := match prev with
                          | Some a0 => Nat.eqb (il a1) (il a0) && Nat.eqb (ol a1) (ol a0) && aeq (wgt a1) (wgt a0)
                          | None => false
                          end in
                iso_trs (IS (is_pairs (snd r)) (is_queue (snd r)) (is_nd (snd r) || nd)) (Some a1) l1' l2'
        end
    end.

  (** 75-134. *)
  Definition iso_state (f1 f2 : vfst K) (st : isost) (s1 s2 : nat) : res (bool * isost) :=
    w1 <-- final_weight f1 s1 ;;
    w2 <-- final_weight f2 s2 ;;
    let fe := match w1, w2 with Some a, Some b => aeq a b | None, None => true | _, _ => false end in
    if negb fe then Ok (false, st)
    else
      l1 <-- get_trs f1 s1 ;;
      l2 <-- get_trs f2 s2 ;;
      if negb (Nat.eqb (length l1) (length l2)) then Ok (false, st)
      else iso_trs st None (isort iso_le l1) (isort iso_le l2).

  (** The loop 149-158. *)
  Fixpoint iso_loop (fuel : nat) (f1 f2 : vfst K) (st : isost) : res bool :=
    match is_queue st with
    | [] => Ok true
    | (s1, s2) :: q =>
        match fuel with
        | O => Panic
        | S fuel' =>
            r <-- iso_state f1 f2 (IS (is_pairs st) q (is_nd st)) s1 s2 ;;
            if negb (fst r) then (if is_nd (snd r) then Err else Ok false)
            else iso_loop fuel' f1 f2 (snd r)
        end
    end.

  (** 136-162. *)
  Definition isomorphic (f1 f2 : vfst K) : res bool :=
    match vstart f1, vstart f2 with
    | None, None => Ok true
    | Some a, Some b =>
        r <-- pair_state (IS (repeat None (num_states f1)) [] false) a b ;;
        iso_loop (S (num_states f1)) f1 f2 (snd r)
    | _, _ => Ok false
    end.
End I.
