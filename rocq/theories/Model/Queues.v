(** State queues: rustfst/src/algorithms/queue.rs 29-37 and rustfst/src/algorithms/queues/. *)
From Coq Require Import List Arith NArith ZArith Lia Bool.
From Verif Require Import Base.Util Base.Semiring Base.Machine Model.Props Model.VectorFst Model.Dfs Model.Visitors.
Import ListNotations.

(** The disciplines that are not built from others.
    - [QFifo l]: fifo_queue.rs 8, front of the [VecDeque] first.
    - [QLifo l]: lifo_queue.rs 6, top of the [Vec] first.
    - [QTriv o]: trivial_queue.rs 8-10.
    - [QState front back enqueued]: state_order_queue.rs 5-9.
    - [QTop order state front back]: top_order_queue.rs 12-17.
    - [QShort n less l]: shortest_first_queue.rs 34-36 with the comparator of 89-98: [less]
      compares two states by the natural order of a vector of [n] weights. The third-party
      [BinaryHeap] is modelled by the bag of its elements; its [pop] hands out an element that
      no other element compares greater than. Ties are broken towards the oldest element,
      which the crate does not promise. *)
Inductive sq :=
| QFifo (l : list nat)
| QLifo (l : list nat)
| QTriv (o : option nat)
| QState (front : nat) (back : option nat) (enq : list bool)
| QTop (order : list nat) (st : list (option nat)) (front : nat) (back : option nat)
| QShort (n : nat) (less : nat -> nat -> bool) (l : list nat).

(** state_order_queue.rs 26-28: pushes [false] until the index exists. *)
Definition grow (l : list bool) (s : nat) : list bool := l ++ repeat false (S s - length l).

(** state_order_queue.rs 17-24 and top_order_queue.rs 46-54: update of [front] and [back]. *)
Definition widen (front : nat) (back : option nat) (x : nat) : nat * option nat :=
  match back with
  | None => (x, Some x)
  | Some b => if Nat.ltb b front then (x, Some x)
              else if Nat.ltb b x then (front, Some x)
              else if Nat.ltb x front then (x, Some b)
              else (front, Some b)
  end.

(** The loop [while front <= back && slot[front] is free { front += 1 }];
    state_order_queue.rs 38-42, top_order_queue.rs 62-66. An index out of range panics. *)
Fixpoint advance {A} (free : A -> bool) (fuel : nat) (l : list A) (front back : nat) : res nat :=
  if Nat.leb front back then
    match nth_error l front with
    | None => Panic
    | Some x => if free x then match fuel with
                               | O => Panic
                               | S fuel' => advance free fuel' l (S front) back
                               end
                else Ok front
    end
  else Ok front.

Definition is_none {A} (o : option A) : bool := match o with None => true | Some _ => false end.

(** The largest element of a heap, see above: [x] replaces the best so far when the comparator
    says the latter is [Less] (it never says [Equal], shortest_first_queue.rs 91-97). *)
Fixpoint heap_max (less : nat -> nat -> bool) (b : nat) (l : list nat) : nat :=
  match l with
  | [] => b
  | x :: l' => heap_max less (if less b x then x else b) l'
  end.
Fixpoint remove1 (s : nat) (l : list nat) : list nat :=
  match l with
  | [] => []
  | x :: l' => if Nat.eqb x s then l' else x :: remove1 s l'
  end.

(** [Queue::is_empty]: fifo 25, lifo 23, trivial 26, state_order 48-54, top_order 72-78,
    shortest_first 69-71. *)
Definition sq_is_empty (q : sq) : bool :=
  match q with
  | QFifo [] | QLifo [] | QTriv None | QShort _ _ [] => true
  | QState front (Some b) _ => Nat.ltb b front
  | QState _ None _ => true
  | QTop _ _ front (Some b) => Nat.ltb b front
  | QTop _ _ _ None => true
  | _ => false
  end.

(** [Queue::head]: fifo 11-13, lifo 9-11, trivial 13-15, state_order 12-14, top_order 41-43,
    shortest_first 53-55. *)
Definition sq_head (q : sq) : res (option nat) :=
  match q with
  | QFifo [] | QLifo [] | QShort _ _ [] => Ok None
  | QFifo (x :: _) | QLifo (x :: _) => Ok (Some x)
  | QTriv o => Ok o
  | QState front _ _ => Ok (Some front)
  | QTop _ st front _ => match nth_error st front with Some o => Ok o | None => Panic end
  | QShort _ less (x :: l) => Ok (Some (heap_max less x l))
  end.

(** [Queue::enqueue]: fifo 15-17, lifo 13-15, trivial 17-19, state_order 16-30, top_order
    45-56, shortest_first 57-59 (a comparison reads the weights of both states). *)
Definition sq_enqueue (q : sq) (s : nat) : res sq :=
  match q with
  | QFifo l => Ok (QFifo (l ++ [s]))
  | QLifo l => Ok (QLifo (s :: l))
  | QTriv _ => Ok (QTriv (Some s))
  | QState front back enq =>
      let '(front', back') := widen front back s in
      Ok (QState front' back' (upd (grow enq s) s true))
  | QTop order st front back =>
      match nth_error order s with
      | None => Panic
      | Some o =>
          let '(front', back') := widen front back o in
          if Nat.ltb o (length st) then Ok (QTop order (upd st o (Some s)) front' back') else Panic
      end
  | QShort n less l =>
      if match l with [] => true | _ => Nat.ltb s n && forallb (fun x => Nat.ltb x n) l end
      then Ok (QShort n less (l ++ [s])) else Panic
  end.

(** [Queue::dequeue]: fifo 19-21, lifo 17-19, trivial 21-23, state_order 32-44, top_order
    58-68, shortest_first 61-63. *)
Definition sq_dequeue (q : sq) : res (option nat * sq) :=
  match q with
  | QFifo [] => Ok (None, q)
  | QFifo (x :: l) => Ok (Some x, QFifo l)
  | QLifo [] => Ok (None, q)
  | QLifo (x :: l) => Ok (Some x, QLifo l)
  | QTriv o => Ok (o, QTriv None)
  | QState front back enq =>
      if sq_is_empty q then Ok (None, q)
      else if Nat.ltb front (length enq) then
        let enq' := upd enq front false in
        match back with
        | None => Ok (Some front, QState front back enq')
        | Some b => f' <-- advance negb (length enq') enq' front b ;; Ok (Some front, QState f' back enq')
        end
      else Panic
  | QTop order st front back =>
      if sq_is_empty q then Ok (None, q)
      else match nth_error st front with
           | None => Panic
           | Some old =>
               let st' := upd st front None in
               match back with
               | None => Ok (old, QTop order st' front back)
               | Some b => f' <-- advance is_none (length st') st' front b ;; Ok (old, QTop order st' f' back)
               end
           end
  | QShort n less [] => Ok (None, q)
  | QShort n less (x :: l) =>
      let m := heap_max less x l in
      if match l with [] => true | _ => forallb (fun x => Nat.ltb x n) (x :: l) end
      then Ok (Some m, QShort n less (remove1 m (x :: l))) else Panic
  end.

(** [for i in front..=back { slot[i] = v }]; an index out of range panics. *)
Definition clear_range {A} (v : A) (l : list A) (front back : nat) : res (list A) :=
  fold_left (fun r i => x <-- r ;; if Nat.ltb i (length x) then Ok (upd x i v) else Panic)
            (seq front (S back - front)) (Ok l).

(** [Queue::clear]: fifo 29, lifo 27, trivial 30, state_order 56-64, top_order 80-88,
    shortest_first 73-75. *)
Definition sq_clear (q : sq) : res sq :=
  match q with
  | QFifo _ => Ok (QFifo [])
  | QLifo _ => Ok (QLifo [])
  | QTriv _ => Ok (QTriv None)
  | QState front back enq =>
      e <-- match back with Some b => clear_range false enq front b | None => Ok enq end ;;
      Ok (QState 0 None e)
  | QTop order st front back =>
      e <-- match back with Some b => clear_range None st front b | None => Ok st end ;;
      Ok (QTop order e 0 None)
  | QShort n less _ => Ok (QShort n less [])
  end.

(** The default constructors, and top_order_queue.rs 30-38. *)
Definition fifo_new := QFifo [].
Definition lifo_new := QLifo [].
Definition trivial_new := QTriv None.
Definition state_order_new := QState 0 None [].
Definition top_order_from (order : list nat) := QTop order (repeat None (length order)) 0 None.
Definition shortest_first_new n less := QShort n less [].

(** scc_queue.rs 5-11. [front] and [back] are i32; no overflow is modelled. The component
    queues are those that auto_queue.rs 82-93 creates; queues of queues of queues are not
    modelled. *)
Inductive queue :=
| QS (q : sq)
| QScc (front back : Z) (qs : list sq) (sccs : list nat).

(** scc_queue.rs 16-23. *)
Definition scc_queue_new qs sccs := QScc 0 (-1) qs sccs.

(** Indexing [self.queues[i as usize]]; a negative i32 becomes a huge index. *)
Definition znth {A} (l : list A) (i : Z) : option A :=
  if (0 <=? i)%Z then nth_error l (Z.to_nat i) else None.

(** scc_queue.rs 25-29. *)
Fixpoint update_front (fuel : nat) (front back : Z) (qs : list sq) : res Z :=
  if (front <=? back)%Z then
    match znth qs front with
    | None => Panic
    | Some q => if sq_is_empty q
                then match fuel with
                     | O => Panic
                     | S fuel' => update_front fuel' (front + 1)%Z back qs
                     end
                else Ok front
    end
  else Ok front.

(** scc_queue.rs 64-70. *)
Definition q_is_empty (q : queue) : res bool :=
  match q with
  | QS q => Ok (sq_is_empty q)
  | QScc front back qs _ =>
      match Z.compare front back with
      | Lt => Ok false
      | Gt => Ok true
      | Eq => match znth qs front with Some q => Ok (sq_is_empty q) | None => Panic end
      end
  end.

(** scc_queue.rs 33-36. *)
Definition q_head (q : queue) : res (option nat * queue) :=
  match q with
  | QS x => h <-- sq_head x ;; Ok (h, q)
  | QScc front back qs sccs =>
      front' <-- update_front (S (length qs)) front back qs ;;
      match znth qs front' with
      | None => Panic
      | Some x => h <-- sq_head x ;; Ok (h, QScc front' back qs sccs)
      end
  end.

(** scc_queue.rs 38-49. *)
Definition q_enqueue (q : queue) (s : nat) : res queue :=
  match q with
  | QS x => y <-- sq_enqueue x s ;; Ok (QS y)
  | QScc front back qs sccs =>
      match nth_error sccs s with
      | None => Panic
      | Some c =>
          let cz := Z.of_nat c in
          let '(front', back') :=
            if (back <? front)%Z then (cz, cz)
            else if (back <? cz)%Z then (front, cz)
            else if (cz <? front)%Z then (cz, back)
            else (front, back) in
          match nth_error qs c with
          | None => Panic
          | Some x => y <-- sq_enqueue x s ;; Ok (QScc front' back' (upd qs c y) sccs)
          end
      end
  end.

(** scc_queue.rs 51-58. *)
Definition q_dequeue (q : queue) : res (option nat * queue) :=
  match q with
  | QS x => r <-- sq_dequeue x ;; Ok (fst r, QS (snd r))
  | QScc front back qs sccs =>
      e <-- q_is_empty q ;;
      if e : bool then Ok (None, q)
      else
        front' <-- update_front (S (length qs)) front back qs ;;
        match znth qs front' with
        | None => Panic
        | Some x => r <-- sq_dequeue x ;;
                    Ok (fst r, QScc front' back (upd qs (Z.to_nat front') (snd r)) sccs)
        end
  end.

(** scc_queue.rs 72-79. *)
Definition q_clear (q : queue) : res queue :=
  match q with
  | QS x => y <-- sq_clear x ;; Ok (QS y)
  | QScc front back qs sccs =>
      l <-- fold_left (fun r i => x <-- r ;;
              match nth_error x i with
              | None => Panic
              | Some y => z <-- sq_clear y ;; Ok (upd x i z)
              end)
            (if (front <=? back)%Z then seq (Z.to_nat front) (Z.to_nat (back + 1 - front)) else [])
            (Ok qs) ;;
      Ok (QScc 0 (-1) l sccs)
  end.

(** ** auto_queue.rs. The boxed queue is stored directly, so the wrapper (150-188) disappears. *)
Inductive qtype := TTrivial | TFifo | TLifo | TShortest.
Definition qtype_eqb (a b : qtype) : bool :=
  match a, b with
  | TTrivial, TTrivial | TFifo, TFifo | TLifo, TLifo | TShortest, TShortest => true
  | _, _ => false
  end.

Section A.
  Context {K : SR}.
  Local Open Scope K_scope.
  Implicit Types f : vfst K.

  (** shortest_first_queue.rs 30-32. *)
  Definition natural_less (a b : K) : bool := keqb (a + b) a && negb (keqb a b).
  Definition is_zero_k (a : K) : bool := keqb a 0.
  Definition is_one_k (a : K) : bool := keqb a 1.

  (** auto_queue.rs 99-149. [cmp]: a comparator is given; [idem]: [W] declares IDEMPOTENT.
      Out of range component numbers panic. *)
  Definition scc_queue_types (idem cmp : bool) (keep : tr K -> bool) f (sccs : list nat) (n : nat)
    : res (list qtype * bool * bool) :=
    fold_left (fun r s =>
      fold_left (fun r t =>
        x <-- r ;;
        let '(qt, allt, unw) := x in
        if keep t then
          match nth_error sccs s, nth_error sccs (ns t) with
          | Some a, Some b =>
              let heavy := negb idem || (negb (is_zero_k (wgt t)) && negb (is_one_k (wgt t))) in
              r1 <-- (if Nat.eqb a b then
                        match nth_error qt a with
                        | None => Panic
                        | Some q =>
                            let q' := if negb cmp || natural_less (wgt t) 1 then TFifo
                                      else if qtype_eqb q TTrivial || qtype_eqb q TLifo
                                           then if heavy then TShortest else TLifo
                                           else q in
                            Ok (upd qt a q', if qtype_eqb q' TTrivial then allt else false)
                        end
                      else Ok (qt, allt)) ;;
              Ok (fst r1, snd r1, if heavy then false else unw)
          | _, _ => Panic
          end
        else Ok x)
      (trs_of f s) r)
    (seq 0%nat (num_states f)) (Ok (repeat TTrivial n, true, true)).

  (** auto_queue.rs 24-97. [idem], [pathp]: the properties IDEMPOTENT and PATH declared by
      [W]. *)
  Definition auto_queue_new (idem pathp : bool) f (distance : option (list K)) (keep : tr K -> bool)
    : res queue :=
    if has (vprops f) TOP_SORTED || is_none (vstart f) then Ok (QS state_order_new)
    else if has (vprops f) ACYCLIC then
      v <-- visit_top f keep ;;
      if tv_acyclic v then Ok (QS (top_order_from (tv_order v))) else Panic
    else if has (vprops f) UNWEIGHTED && idem then Ok (QS lifo_new)
    else
      v <-- visit_scc f keep ;;
      let sccs := map Z.to_nat (sv_scc v) in
      let n := sv_nscc v in
      let dist := match distance with Some (x :: l) => x :: l | _ => [] end in
      let cmp := match dist with [] => false | _ => pathp end in
      r <-- scc_queue_types idem cmp keep f sccs n ;;
      let '(qt, allt, unw) := r in
      if unw : bool then Ok (QS lifo_new)
      else if allt : bool then Ok (QS (top_order_from sccs))
      else Ok (scc_queue_new (map (fun t => match t with
                 | TTrivial => trivial_new
                 | TShortest => shortest_first_new (length dist)
                                  (fun a b => natural_less (nth a dist 0) (nth b dist 0))
                 | TLifo => lifo_new
                 | TFifo => fifo_new
                 end) qt) sccs).
End A.
