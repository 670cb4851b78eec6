(** Shortest path: rustfst/src/algorithms/shortest_path.rs. *)
From Coq Require Import List Arith NArith Bool.
From Verif Require Import Base.Util Base.Semiring Base.Machine Model.Props Model.AlgoProps Model.VectorFst Model.Queues Model.ShortestDistance.
Import ListNotations.

Section S.
  Context {K : SR} (Q : qops).
  Local Open Scope K_scope.

  (** One index of the parallel vectors [distance], [parent], [enqueued] (208-210); they have
      [num_states] entries. *)
  Record pcell := PC { p_dist : K; p_par : option (nat * nat); p_enq : bool }.
  Definition pcell0 : pcell := PC 0 None false.

  (** The queue, the vectors, [f_distance] and [f_parent]. *)
  Record spst := SP { sp_queue : Q; sp_cells : list pcell; sp_fd : K; sp_fp : option nat }.

  (** 231-246: the transition at [pos] of [s]; [sd] is the distance of [s] when it was
      dequeued. *)
  Definition sp_tr (s : nat) (sd : K) (st : spst) (pos : nat) (t : tr K) : res spst :=
    match nth_error (sp_cells st) (ns t) with
    | None => Panic
    | Some c =>
        let w := sd * wgt t in
        if keqb (p_dist c) (p_dist c + w) then Ok st
        else if negb (p_enq c) then
          q <-- qo_enqueue Q (sp_queue st) (ns t) ;;
          Ok (SP q (upd (sp_cells st) (ns t) (PC (p_dist c + w) (Some (s, pos)) true)) (sp_fd st) (sp_fp st))
        else
          q <-- qo_update Q (sp_queue st) (ns t) ;;
          Ok (SP q (upd (sp_cells st) (ns t) (PC (p_dist c + w) (Some (s, pos)) true)) (sp_fd st) (sp_fp st))
    end.

  Fixpoint sp_trs (s : nat) (sd : K) (pos : nat) (l : list (tr K)) (st : spst) : res spst :=
    match l with
    | [] => Ok st
    | t :: l' => st' <-- sp_tr s sd st pos t ;; sp_trs s sd (S pos) l' st'
    end.

  (** 223-229. *)
  Definition sp_final (f : vfst K) (s : nat) (sd : K) (st : spst) : spst :=
    match fin_of f s with
    | None => st
    | Some w => let plus := sp_fd st + sd * w in
                if keqb (sp_fd st) plus then st else SP (sp_queue st) (sp_cells st) plus (Some s)
    end.

  (** 218-247. [None]: out of fuel. *)
  Fixpoint sp_loop (fuel : nat) (f : vfst K) (st : spst) : option (res spst) :=
    match fuel with
    | O => None
    | S fuel' =>
        match qo_dequeue Q (sp_queue st) with
        | Ok (None, q) => Some (Ok (SP q (sp_cells st) (sp_fd st) (sp_fp st)))
        | Ok (Some s, q) =>
            match nth_error (sp_cells st) s with
            | None => Some Panic
            | Some c =>
                let cells := upd (sp_cells st) s (PC (p_dist c) (p_par c) false) in
                if Nat.leb (num_states f) s then Some Panic
                else
                  match sp_trs s (p_dist c) 0 (trs_of f s) (sp_final f s (p_dist c) (SP q cells (sp_fd st) (sp_fp st))) with
                  | Ok st' => sp_loop fuel' f st'
                  | Err => Some Err
                  | Panic => Some Panic
                  end
            end
        | Err => Some Err
        | Panic => Some Panic
        end
    end.

  (** 176-249, from the call of [AutoQueue::new] on; [pathp]: the declared semiring properties
      contain PATH and RIGHT_SEMIRING. *)
  Definition single_shortest_path (pathp : bool) (fuel : nat) (f : vfst K) (start : nat) (q : Q) : option (res spst) :=
    match qo_clear Q q with
    | Ok q =>
        if negb pathp then Some Err
        else if Nat.leb (num_states f) start then Some Panic
        else
          match qo_enqueue Q q start with
          | Ok q => sp_loop fuel f (SP q (upd (repeat pcell0 (num_states f)) start (PC 1 None true)) 0 None)
          | Err => Some Err
          | Panic => Some Panic
          end
    | Err => Some Err
    | Panic => Some Panic
    end.
End S.
Arguments pcell : clear implicits.
Arguments spst : clear implicits.

Section B.
  Context {K : SR}.
  Implicit Types f g : vfst K.

  (** 266-280: one step of the walk back over the parents. [d]: the state left before, with
      the state of the result made for it. *)
  Definition bt_step f (cells : list (pcell K)) g (d : option (nat * nat)) (state : nat) : res (vfst K * nat) :=
    let (g, id) := add_state g in
    g <-- match d with
          | Some (din, dp) =>
              match nth_error cells din with
              | Some c =>
                  match p_par c with
                  | Some (_, pos) =>
                      l <-- get_trs f state ;;
                      match nth_error l pos with
                      | Some t => add_tr g id (Tr (il t) (ol t) (wgt t) dp)
                      | None => Panic
                      end
                  | None => Panic
                  end
              | None => Panic
              end
          | None =>
              o <-- final_weight f state ;;
              match o with Some w => set_final g id w | None => Ok g end
          end ;;
    Ok (g, id).

  (** 266-285. [None]: out of fuel. *)
  Fixpoint bt_loop (fuel : nat) f (cells : list (pcell K)) g (d : option (nat * nat)) (next : option nat)
    : option (res (vfst K * option nat)) :=
    match next with
    | None => Some (Ok (g, option_map snd d))
    | Some state =>
        match fuel with
        | O => None
        | S fuel' =>
            match bt_step f cells g d state with
            | Ok (g', id) =>
                match nth_error cells state with
                | Some c => bt_loop fuel' f cells g' (Some (state, id)) (option_map fst (p_par c))
                | None => Some Panic
                end
            | Err => Some Err
            | Panic => Some Panic
            end
        end
    end.

  (** 251-294. *)
  Definition single_shortest_path_backtrace (fuel : nat) f (fp : option nat) (cells : list (pcell K)) : option (res (vfst K)) :=
    match bt_loop fuel f cells vnew None fp with
    | None => None
    | Some r => Some (
        x <-- r ;;
        g <-- match snd x with Some s => set_start (fst x) s | None => Ok (fst x) end ;;
        Ok (set_properties_with_mask g (shortest_path_properties (vprops g) true) all_properties))
    end.

  (** fst_traits/mutable_fst.rs 448-460. *)
  Definition set_symts_from_fst g f : vfst K := VF (vstates g) (vstart g) (visymt f) (vosymt f) (vprops g).

  (** 127-135: [nshortest] is 1. Without a start the vectors stay empty (187-191). *)
  Definition shortest_path1 (idem pathp : bool) (fuel : nat) f : option (res (vfst K)) :=
    match
      match vstart f with
      | None => Some (Ok (None, []))
      | Some start =>
          match auto_queue_new idem pathp f None (fun _ => true) with
          | Ok q =>
              match single_shortest_path code_queue pathp fuel f start q with
              | Some (Ok st) => Some (Ok (sp_fp _ st, sp_cells _ st))
              | Some Err => Some Err
              | Some Panic => Some Panic
              | None => None
              end
          | Err => Some Err
          | Panic => Some Panic
          end
      end
    with
    | Some (Ok (fp, cells)) =>
        match single_shortest_path_backtrace fuel f fp cells with
        | Some r => Some (rmap (fun g => set_symts_from_fst g f) r)
        | None => None
        end
    | Some Err => Some Err
    | Some Panic => Some Panic
    | None => None
    end.
End B.
