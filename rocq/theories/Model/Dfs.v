(** Depth-first visit with a visitor: rustfst/src/algorithms/dfs_visit.rs. *)
From Coq Require Import List Arith Lia Bool.
From Verif Require Import Base.Util Base.Semiring Base.Machine.
Import ListNotations.

(** dfs_visit.rs 10-18. *)
Inductive color := White | Grey | Black.

Section D.
  Context {K : SR} {V : Type}.

  (** dfs_visit.rs 20-43, trait [Visitor]. [init_visit] is empty for every visitor modelled.
      The [bool] is the "continue" flag; a callback may panic. *)
  Record visitor := {
    v_init : V -> nat -> nat -> res (V * bool);
    v_tree : V -> nat -> tr K -> res (V * bool);
    v_back : V -> nat -> tr K -> res (V * bool);
    v_fwd : V -> nat -> tr K -> res (V * bool);
    v_finish : V -> nat -> option (nat * tr K) -> res V;
    v_end : V -> res V
  }.

  (** dfs_visit.rs 45-96: one stack entry is a state and the transitions its iterator has
      not passed yet; the head of the list is [value()]. *)
  Definition frame : Type := nat * list (tr K).

  (** State of the inner loop: colours, stack (top first), flag [dfs], visitor. *)
  Record dcfg := DC { dcol : list color; dstk : list frame; dgo : bool; dvis : V }.

  Variable vis : visitor.
  Variable keep : tr K -> bool.
  Variable trs : nat -> list (tr K).
  Variable n : nat.

  (** dfs_visit.rs 125-175: one turn of the inner loop on a non-empty stack. The second
      component tells that the loop was left by [break]. *)
  Definition dfs_turn (root : nat) (c : dcfg) (s : nat) (rest : list (tr K)) (k : list frame)
    : res (dcfg * bool) :=
    match rest with
    | t :: rest' =>
        if dgo c then
          match nth_error (dcol c) (ns t) with
          | None => Panic
          | Some col =>
              if keep t then
                match col with
                | White =>
                    r <-- v_tree vis (dvis c) s t ;;
                    let '(v1, b1) := r in
                    if b1 then
                      r2 <-- v_init vis v1 (ns t) root ;;
                      let '(v2, b2) := r2 in
                      Ok (DC (upd (dcol c) (ns t) Grey) ((ns t, trs (ns t)) :: (s, rest) :: k) b2 v2, false)
                    else Ok (DC (dcol c) ((s, rest) :: k) false v1, true)
                | Grey =>
                    r <-- v_back vis (dvis c) s t ;;
                    Ok (DC (dcol c) ((s, rest') :: k) (snd r) (fst r), false)
                | Black =>
                    r <-- v_fwd vis (dvis c) s t ;;
                    Ok (DC (dcol c) ((s, rest') :: k) (snd r) (fst r), false)
                end
              else Ok (DC (dcol c) ((s, rest') :: k) (dgo c) (dvis c), false)
          end
        else
          (* finish, lines 129-141 *)
          match k with
          | [] => v' <-- v_finish vis (dvis c) s None ;; Ok (DC (upd (dcol c) s Black) [] (dgo c) v', false)
          | (p, tp :: rp) :: k' =>
              v' <-- v_finish vis (dvis c) s (Some (p, tp)) ;;
              Ok (DC (upd (dcol c) s Black) ((p, rp) :: k') (dgo c) v', false)
          | (p, []) :: k' => Panic
          end
    | [] =>
        match k with
        | [] => v' <-- v_finish vis (dvis c) s None ;; Ok (DC (upd (dcol c) s Black) [] (dgo c) v', false)
        | (p, tp :: rp) :: k' =>
            v' <-- v_finish vis (dvis c) s (Some (p, tp)) ;;
            Ok (DC (upd (dcol c) s Black) ((p, rp) :: k') (dgo c) v', false)
        | (p, []) :: k' => Panic
        end
    end.

  (** The inner [while !state_stack.is_empty()]. Running out of fuel is [Panic]; the fuel
      used by [dfs_visit] is shown to suffice. *)
  Fixpoint dfs_loop (fuel : nat) (root : nat) (c : dcfg) : res dcfg :=
    match dstk c with
    | [] => Ok c
    | (s, rest) :: k =>
        match fuel with
        | O => Panic
        | S fuel' =>
            r <-- dfs_turn root c s rest k ;;
            let '(c', brk) := r in if brk then Ok c' else dfs_loop fuel' root c'
        end
    end.

  (** Every turn pushes a state, passes a transition or pops a state. *)
  Definition dfs_fuel : nat := 2 * n + list_sum (map (fun s => length (trs s)) (seq 0 n)) + 1.

  (** Lines 119-123 and the inner loop for one root. *)
  Definition dfs_root (root : nat) (c : dcfg) : res dcfg :=
    r <-- v_init vis (dvis c) root root ;;
    let '(v1, b1) := r in
    dfs_loop dfs_fuel root (DC (upd (dcol c) root Grey) [(root, trs root)] b1 v1).

  (** Lines 98-189. After the start state the roots are the white states in increasing
      order (lines 182-186). *)
  Definition dfs_visit (start : option nat) (access_only : bool) (v : V) : res V :=
    match start with
    | None => v_end vis v
    | Some s0 =>
        c <-- (if Nat.ltb s0 n
               then c1 <-- dfs_root s0 (DC (repeat White n) [] true v) ;;
                    if access_only then Ok c1
                    else fold_left (fun r root =>
                           c <-- r ;;
                           if dgo c then
                             match nth_error (dcol c) root with
                             | Some White => dfs_root root c
                             | _ => Ok c
                             end
                           else Ok c) (seq 0 n) (Ok c1)
               else Ok (DC (repeat White n) [] true v)) ;;
        v_end vis (dvis c)
    end.
End D.
Arguments visitor : clear implicits.
Arguments dcfg : clear implicits.

Section F.
  Context {K : SR}.
  (** tr_filters.rs 13-60. *)
  Definition any_filter (t : tr K) : bool := true.
  Definition epsilon_filter (t : tr K) : bool := Nat.eqb (il t) 0 && Nat.eqb (ol t) 0.
  Definition input_epsilon_filter (t : tr K) : bool := Nat.eqb (il t) 0.
  Definition output_epsilon_filter (t : tr K) : bool := Nat.eqb (ol t) 0.
End F.
