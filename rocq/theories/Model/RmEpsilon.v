(** Epsilon removal: rustfst/src/algorithms/rm_epsilon/. *)
From Coq Require Import List Arith NArith ZArith Lia Bool.
From Verif Require Import Base.Util Base.Semiring Base.Machine Model.Props Model.AlgoProps Model.VectorFst Model.Dfs
  Model.Visitors Model.Rational Model.Queues Model.ShortestDistance.
Import ListNotations.

(** element.rs 3-8: input label, output label and target of a transition. *)
Definition elt : Type := (nat * nat * nat)%type.
Definition elt_eqb (a b : elt) : bool :=
  Nat.eqb (fst (fst a)) (fst (fst b)) && Nat.eqb (snd (fst a)) (snd (fst b)) && Nat.eqb (snd a) (snd b).
(** The [HashMap] from elements to an expansion number and a position. *)
Definition emap : Type := list (elt * (nat * nat)).
Fixpoint em_get (e : elt) (m : emap) : option (nat * nat) :=
  match m with
  | [] => None
  | (e', v) :: m' => if elt_eqb e e' then Some v else em_get e m'
  end.

Section R.
  Context {K : SR} (Q : qops).
  Local Open Scope K_scope.

  Definition elt_of (t : tr K) : elt := (il t, ol t, ns t).

  (** rm_epsilon_state.rs 16-22. [visited_states] is empty between two calls. *)
  Record rmst := RS { rs_visited : list bool; rs_map : emap; rs_id : nat; rs_sd : sdst K Q }.

  (** rm_epsilon_state.rs 32-40. *)
  Definition rmst_new (q : Q) : rmst := RS [] [] O (SD Q q [] [] O).

  (** rm_epsilon_state.rs 60-62 and 71-73: pushes [false] until the index exists. *)
  Definition grown (l : list bool) (i : nat) : list bool := l ++ repeat false (S i - length l).

  (** The local variables of the loop 59-108: the stack, the transitions collected so far,
      the map and the visited flags. *)
  Record exl := EX { ex_stack : list nat; ex_trs : list (tr K); ex_map : emap; ex_vis : list bool }.

  (** rm_epsilon_state.rs 67-102: one transition of a state at distance [d]. *)
  Definition ex_tr (id : nat) (d : K) (x : exl) (t : tr K) : res exl :=
    let w := d * wgt t in
    if epsilon_filter t then
      let vis := grown (ex_vis x) (ns t) in
      Ok (EX (if nth (ns t) vis false then ex_stack x else ns t :: ex_stack x) (ex_trs x) (ex_map x) vis)
    else
      let t' := Tr (il t) (ol t) w (ns t) in
      let add := EX (ex_stack x) (ex_trs x ++ [t']) ((elt_of t, (id, length (ex_trs x))) :: ex_map x) (ex_vis x) in
      match em_get (elt_of t) (ex_map x) with
      | None => Ok add
      | Some (j, i) =>
          if Nat.eqb j id then
            match nth_error (ex_trs x) i with
            | None => Panic
            | Some u => Ok (EX (ex_stack x) (upd (ex_trs x) i (Tr (il u) (ol u) (wgt u + w) (ns u))) (ex_map x) (ex_vis x))
            end
          else Ok add
      end.

  (** rm_epsilon_state.rs 59-108. The third component lists the visited states, last first
      ([visited_states]). The bound on the number of turns is never reached. *)
  Fixpoint ex_loop (fuel id : nat) (dist : list K) (f : vfst K) (x : exl) (seen : list nat) (fin : K)
    : res (exl * list nat * K) :=
    match fuel with
    | O => Panic
    | S fuel' =>
        match ex_stack x with
        | [] => Ok (x, seen, fin)
        | s :: stk =>
            let vis := grown (ex_vis x) s in
            if nth s vis false then ex_loop fuel' id dist f (EX stk (ex_trs x) (ex_map x) vis) seen fin
            else
              l <-- get_trs f s ;;
              match nth_error dist s with
              | None => Panic
              | Some d =>
                  x' <-- rfold (ex_tr id d) l (EX stk (ex_trs x) (ex_map x) (upd vis s true)) ;;
                  o <-- final_weight f s ;;
                  ex_loop fuel' id dist f x' (s :: seen) (fin + d * match o with Some w => w | None => 0 end)
              end
        end
    end.

  Definition ex_fuel (f : vfst K) : nat := (list_sum (map (fun s => length (vtrs s)) (vstates f)) + 2)%nat.

  (** rm_epsilon_state.rs 42-118. [None]: the distances ran out of fuel. *)
  Definition expand (rightp pathp : bool) (fuel source : nat) (f : vfst K) (st : rmst)
    : option (res (list (tr K) * K * rmst)) :=
    match sd_run Q rightp pathp false true epsilon_filter fuel (Some source) f (rs_sd st) with
    | Some (Ok (dist, sd)) =>
        Some (r <-- ex_loop (ex_fuel f) (rs_id st) dist f (EX [source] [] (rs_map st) (rs_visited st)) [] 0 ;;
              let '(x, seen, fin) := r in
              Ok (ex_trs x, fin, RS (set_all_at false seen (ex_vis x)) (ex_map x) (S (rs_id st)) sd))
    | Some Err => Some Err
    | Some Panic => Some Panic
    | None => None
    end.

  (** rm_epsilon_static.rs 83-95. *)
  Definition noneps_in (f : vfst K) (start : nat) : res (list bool) :=
    let mark (l : list bool) (s : nat) : res (list bool) :=
      if Nat.ltb s (length l) then Ok (upd l s true) else Panic in
    l <-- mark (repeat false (num_states f)) start ;;
    rfold (fun l s => ts <-- get_trs f s ;;
             rfold (fun l t => if epsilon_filter t then Ok l else mark l (ns t)) ts l)
          (seq O (num_states f)) l.

  (** rm_epsilon_static.rs 118-132. The lists threaded through [first] and [next] are lists
      here. *)
  Definition by_component (scc : list Z) : res (list nat) :=
    b <-- rfold (fun (b : list (list nat)) i =>
            match znth b (nth i scc (-1)%Z) with
            | None => Panic
            | Some l => Ok (upd b (Z.to_nat (nth i scc (-1)%Z)) (i :: l))
            end) (seq O (length scc)) (repeat [] (length scc)) ;;
    Ok (List.concat b).

  (** rm_epsilon_static.rs 107-110. *)
  Definition inverse (order : list nat) : res (list nat) :=
    rfold (fun st i => match nth_error order i with
                       | None => Panic
                       | Some o => if Nat.ltb o (length st) then Ok (upd st o i) else Panic
                       end) (seq O (length order)) (repeat O (length order)).

  (** rm_epsilon_static.rs 99-133. *)
  Definition rm_order (f : vfst K) : res (list nat) :=
    if has (vprops f) TOP_SORTED then Ok (seq O (num_states f))
    else if has (vprops f) ACYCLIC then v <-- visit_top f epsilon_filter ;; inverse (tv_order v)
    else v <-- visit_scc f epsilon_filter ;; by_component (sv_scc v).

  (** rm_epsilon_static.rs 144-153: the state gets what [expand] found. *)
  Definition rm_install (f : vfst K) (s : nat) (trs : list (tr K)) (fin : K) : res (vfst K) :=
    p <-- unwrap (pop_trs f s) ;;
    g <-- set_trs (fst p) s (rev trs) ;;
    if keqb fin 0 then unwrap (delete_final_weight g s) else unwrap (set_final g s fin).

  (** rm_epsilon_static.rs 138-154. *)
  Fixpoint rm_states (rightp pathp : bool) (fuel : nat) (nin : list bool) (l : list nat) (f : vfst K) (st : rmst)
    : option (res (vfst K)) :=
    match l with
    | [] => Some (Ok f)
    | s :: l' =>
        match nth_error nin s with
        | None => Some Panic
        | Some false => rm_states rightp pathp fuel nin l' f st
        | Some true =>
            match expand rightp pathp fuel s f st with
            | Some (Ok (trs, fin, st')) =>
                match rm_install f s trs fin with
                | Ok g => rm_states rightp pathp fuel nin l' g st'
                | Err => Some Err
                | Panic => Some Panic
                end
            | Some Err => Some Err
            | Some Panic => Some Panic
            | None => None
            end
        end
    end.

  (** rm_epsilon_static.rs 156-162. *)
  Definition rm_drop (nin : list bool) (f : vfst K) : res (vfst K) :=
    rfold (fun f s => match nth_error nin s with
                      | None => Panic
                      | Some true => Ok f
                      | Some false => delete_trs f s
                      end) (seq O (num_states f)) f.

  (** rm_epsilon_static.rs 69-174 with the default configuration (config.rs 26-33: [connect],
      no thresholds). *)
  Definition rm_epsilon_with (rightp pathp : bool) (fuel : nat) (f : vfst K) (q : Q) : option (res (vfst K)) :=
    match vstart f with
    | None => Some (Ok f)
    | Some start =>
        match noneps_in f start, rm_order f with
        | Ok nin, Ok order =>
            match rm_states rightp pathp fuel nin (rev order) f (rmst_new q) with
            | Some (Ok g) =>
                Some (g <-- rm_drop nin g ;;
                      connect (set_properties g (rmepsilon_properties (vprops g) false)))
            | r => r
            end
        | Ok _, Err => Some Err
        | Err, _ => Some Err
        | _, _ => Some Panic
        end
    end.

  (** rm_epsilon_op.rs 59-77: one state of the lazy variant, on the unchanged machine. *)
  Definition rm_lazy_state (rightp pathp : bool) (fuel s : nat) (f : vfst K) (st : rmst)
    : option (res (list (tr K) * option K * rmst)) :=
    match expand rightp pathp fuel s f st with
    | Some (Ok (trs, fin, st')) => Some (Ok (rev trs, if keqb fin 0 then None else Some fin, st'))
    | Some Err => Some Err
    | Some Panic => Some Panic
    | None => None
    end.
End R.
Arguments rmst : clear implicits.
Arguments exl : clear implicits.

(** rm_epsilon_static.rs 63-68. *)
Definition rm_epsilon {K : SR} (idem pathp rightp : bool) (fuel : nat) (f : vfst K) : option (res (vfst K)) :=
  match auto_queue_new idem pathp f None epsilon_filter with
  | Ok q => rm_epsilon_with code_queue rightp pathp fuel f q
  | Err => Some Err
  | Panic => Some Panic
  end.
