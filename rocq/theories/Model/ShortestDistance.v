(** Generic shortest distance: rustfst/src/algorithms/shortest_distance.rs. *)
From Coq Require Import List Arith NArith ZArith Lia Bool.
From Verif Require Import Base.Util Base.Semiring Base.Machine Model.Props Model.VectorFst Model.Rational Model.Queues.
Import ListNotations.

(** The trait [Queue], rustfst/src/algorithms/queue.rs 29-37, as far as the algorithm uses it. *)
Record qops := QO {
  qt :> Type;
  qo_clear : qt -> res qt;
  qo_enqueue : qt -> nat -> res qt;
  qo_dequeue : qt -> res (option nat * qt);
  qo_update : qt -> nat -> res qt
}.

(** [Queue::update]: nothing in fifo_queue.rs 23, lifo_queue.rs 21, trivial_queue.rs 25,
    state_order_queue.rs 47, top_order_queue.rs 71; [unimplemented!()] in
    shortest_first_queue.rs 64-66; scc_queue.rs 60-62 passes the call on. *)
Definition sq_update (q : sq) (s : nat) : res sq :=
  match q with QShort _ _ _ => Panic | _ => Ok q end.
Definition q_update (q : queue) (s : nat) : res queue :=
  match q with
  | QS x => y <-- sq_update x s ;; Ok (QS y)
  | QScc front back qs sccs =>
      match nth_error sccs s with
      | None => Panic
      | Some c => match nth_error qs c with
                  | None => Panic
                  | Some x => y <-- sq_update x s ;; Ok (QScc front back (upd qs c y) sccs)
                  end
      end
  end.
Definition code_queue : qops := QO queue q_clear q_enqueue q_dequeue q_update.

Section S.
  Context {K : SR} (Q : qops).
  Local Open Scope K_scope.

  (** One index of the parallel vectors [distance], [adder], [radder], [enqueued]
      (shortest_distance.rs 51-54); they always have the same length. *)
  Record cell := Cell { c_dist : K; c_add : K; c_radd : K; c_enq : bool }.
  Definition cell0 : cell := Cell 0 0 0 false.

  (** shortest_distance.rs 47-59. *)
  Record sdst := SD { sd_queue : Q; sd_cells : list cell; sd_src : list (option nat); sd_id : nat }.

  (** shortest_distance.rs 80-96 and 137-150: pushes until the index exists. *)
  Definition ensure_cells (l : list cell) (i : nat) : list cell := l ++ repeat cell0 (S i - length l).
  Definition ensure_src (l : list (option nat)) (i : nat) : list (option nat) := l ++ repeat None (S i - length l).

  Definition src_is (o : option nat) (i : nat) : bool := match o with Some j => Nat.eqb j i | None => false end.

  (** shortest_distance.rs 197-236: one transition of [state]; [r] is the value of
      [radder[state]] when it was dequeued. [approx_equal] is exact equality. *)
  Definition sd_tr (retain : bool) (keep : tr K -> bool) (state : nat) (r : K) (st : sdst) (t : tr K) : res sdst :=
    if negb (keep t) then Ok st else
    let n := ns t in
    let cells := ensure_cells (sd_cells st) n in
    let src := if retain then ensure_src (sd_src st) n else sd_src st in
    let stale := retain && negb (src_is (nth n src None) (sd_id st)) in
    let cells := if stale then upd cells n cell0 else cells in
    let src := if stale then upd src n (Some (sd_id st)) else src in
    match nth_error cells n with
    | None => Panic
    | Some c =>
        let w := r * wgt t in
        if keqb (c_dist c) (c_dist c + w) then Ok (SD (sd_queue st) cells src (sd_id st))
        else
          let na := c_add c + w in
          let cells := upd cells n (Cell na na (c_radd c + w) (c_enq c)) in
          match nth_error cells state with
          | None => Panic
          | Some cs =>
              if negb (c_enq cs) then
                q <-- qo_enqueue Q (sd_queue st) n ;;
                Ok (SD q (upd cells n (Cell na na (c_radd c + w) true)) src (sd_id st))
              else
                q <-- qo_update Q (sd_queue st) n ;;
                Ok (SD q cells src (sd_id st))
          end
    end.

  Fixpoint sd_trs (retain : bool) (keep : tr K -> bool) (state : nat) (r : K) (l : list (tr K)) (st : sdst) : res sdst :=
    match l with
    | [] => Ok st
    | t :: l' => st' <-- sd_tr retain keep state r st t ;; sd_trs retain keep state r l' st'
    end.

  (** shortest_distance.rs 187-238. [None]: out of fuel. *)
  Fixpoint sd_loop (first_path retain : bool) (keep : tr K -> bool) (fuel : nat) (f : vfst K) (st : sdst)
    : option (res sdst) :=
    match fuel with
    | O => None
    | S fuel' =>
        match qo_dequeue Q (sd_queue st) with
        | Ok (None, q) => Some (Ok (SD q (sd_cells st) (sd_src st) (sd_id st)))
        | Ok (Some s, q) =>
            match (if first_path then final_weight f s else Ok None) with
            | Ok (Some _) => Some (Ok (SD q (sd_cells st) (sd_src st) (sd_id st)))
            | Ok None =>
                match nth_error (sd_cells st) s with
                | None => Some Panic
                | Some c =>
                    let st1 := SD q (upd (sd_cells st) s (Cell (c_dist c) (c_add c) 0 false)) (sd_src st) (sd_id st) in
                    match get_trs f s with
                    | Ok l => match sd_trs retain keep s (c_radd c) l st1 with
                              | Ok st2 => sd_loop first_path retain keep fuel' f st2
                              | Err => Some Err
                              | Panic => Some Panic
                              end
                    | Err => Some Err
                    | Panic => Some Panic
                    end
                end
            | Err => Some Err
            | Panic => Some Panic
            end
        | Err => Some Err
        | Panic => Some Panic
        end
    end.

  (** shortest_distance.rs 152-242. The tests on the declared semiring properties (162-168) are
      the flags [rightp] and [pathp]. *)
  Definition sd_run (rightp pathp first_path retain : bool) (keep : tr K -> bool) (fuel : nat)
      (source : option nat) (f : vfst K) (st : sdst) : option (res (list K * sdst)) :=
    match vstart f with
    | None => Some (Ok ([], st))
    | Some start =>
        if negb rightp then Some Err
        else if first_path && negb pathp then Some Err
        else
          match qo_clear Q (sd_queue st) with
          | Ok q =>
              let cells := if retain then sd_cells st else [] in
              let s := match source with Some s => s | None => start end in
              let cells := ensure_cells cells s in
              let src := if retain then upd (ensure_src (sd_src st) s) s (Some (sd_id st)) else sd_src st in
              let cells := upd cells s (Cell 1 1 1 true) in
              match qo_enqueue Q q s with
              | Ok q =>
                  match sd_loop first_path retain keep fuel f (SD q cells src (sd_id st)) with
                  | Some (Ok st') => Some (Ok (map c_dist (sd_cells st'), SD (sd_queue st') (sd_cells st') (sd_src st') (S (sd_id st'))))
                  | Some Err => Some Err
                  | Some Panic => Some Panic
                  | None => None
                  end
              | Err => Some Err
              | Panic => Some Panic
              end
          | Err => Some Err
          | Panic => Some Panic
          end
    end.

  (** shortest_distance.rs 244-257 and 100-121. *)
  Definition sd_internal (rightp pathp first_path : bool) (keep : tr K -> bool) (fuel : nat) (source : option nat)
      (f : vfst K) (q : Q) : option (res (list K)) :=
    match sd_run rightp pathp first_path false keep fuel source f (SD q [] [] 0%nat) with
    | Some (Ok r) => Some (Ok (fst r))
    | Some Err => Some Err
    | Some Panic => Some Panic
    | None => None
    end.
End S.
Arguments cell : clear implicits.
Arguments sdst : clear implicits.

Section T.
  Context {K K' : SR}.
  Local Open Scope K_scope.

  (** shortest_distance.rs 323-347. [idem], [pathp], [rightp]: declared properties of the
      weights. [K'] is [W::ReverseWeight], [rv] is [reverse] and [rb] is [reverse_back].
      [rdistance.len() - 1] underflows for an empty vector. *)
  Definition shortest_distance (idem pathp rightp : bool) (rv : K -> K') (rb : K' -> K) (fuel : nat) (f : vfst K) (reversed : bool)
    : option (res (list K)) :=
    if negb reversed then
      match auto_queue_new idem pathp f None (fun _ => true) with
      | Ok q => sd_internal code_queue rightp pathp false (fun _ => true) fuel None f q
      | Err => Some Err
      | Panic => Some Panic
      end
    else
      match reverse rv f with
      | Ok rf =>
          match auto_queue_new idem pathp rf None (fun _ => true) with
          | Ok q =>
              match sd_internal code_queue rightp pathp false (fun _ => true) fuel None rf q with
              | Some (Ok []) => Some Panic
              | Some (Ok (_ :: l)) => Some (Ok (map rb l))
              | Some Err => Some Err
              | Some Panic => Some Panic
              | None => None
              end
          | Err => Some Err
          | Panic => Some Panic
          end
      | Err => Some Err
      | Panic => Some Panic
      end.
End T.
