(** The n shortest paths: rustfst/src/algorithms/shortest_path.rs. The case [unique] of
    [shortest_path_with_config] (157-166) is in Model/UniquePaths.v. *)
From Coq Require Import List Arith NArith Bool.
From Verif Require Import Base.Util Base.Semiring Base.Machine Model.Props Model.AlgoProps Model.VectorFst
  Model.Queues Model.ShortestDistance Model.ShortestPath Model.Rational Model.Visitors Model.TrOps.
Import ListNotations.

(** [unwrap] of an option, and indexing a vector. *)
Definition got {A} (o : option A) : res A := match o with Some a => Ok a | None => Panic end.

(** [Heap] (341-408), a vector ordered by [less]; [less] may panic. An index out of range
    panics. *)
Section Heap.
  Context {V : Type} (less : V -> V -> res bool).
  Implicit Types d : list V.

  Definition hget d (i : nat) : res V := got (nth_error d i).
  (** [data.swap(i, j)] where [x] and [y] are the values at [i] and [j]. *)
  Definition hswap d (i j : nat) (x y : V) : list V := upd (upd d i y) j x.

  (** 359-367. [fuel] bounds the depth of the recursion. *)
  Fixpoint sift_up (fuel : nat) d (idx : nat) : res (list V) :=
    match fuel with
    | O => Panic
    | S fuel' =>
        match idx with
        | O => Ok d
        | S i =>
            let parent := Nat.div i 2 in
            x <-- hget d parent ;;
            y <-- hget d idx ;;
            b <-- less x y ;;
            if b then sift_up fuel' (hswap d idx parent y x) parent else Ok d
        end
    end.
  (** 368-371. *)
  Definition hpush d (v : V) : res (list V) := sift_up (S (length d)) (d ++ [v]) (length d).

  (** 372-391. *)
  Fixpoint sift_down (fuel : nat) d (idx : nat) : res (list V) :=
    match fuel with
    | O => Panic
    | S fuel' =>
        cur <-- hget d idx ;;
        let c1 := 2 * idx + 1 in
        let c2 := 2 * idx + 2 in
        if Nat.leb (length d) c1 && Nat.leb (length d) c2 then Ok d
        else
          big <-- (if Nat.ltb c1 (length d) && Nat.leb (length d) c2 then Ok c1
                   else
                     x <-- hget d c1 ;;
                     y <-- hget d c2 ;;
                     b <-- less x y ;;
                     Ok (if b then c2 else c1)) ;;
          z <-- hget d big ;;
          b <-- less z cur ;;
          if negb b then sift_down fuel' (hswap d idx big cur z) big else Ok d
    end.
  (** 392-401: [data[0] = data.remove(len - 1)]. *)
  Definition hpop d : res (V * list V) :=
    top <-- hget d 0 ;;
    if Nat.eqb (length d) 1 then Ok (top, [])
    else
      last <-- hget d (length d - 1) ;;
      d' <-- sift_down (length d) (upd (removelast d) 0 last) 0 ;;
      Ok (top, d').
End Heap.

Section NShortest.
  Context {K K' : SR} (rv : K -> K') (rb : K' -> K).
  Local Open Scope K_scope.

  (** [pairs]: the state a path has reached ([None] past a final weight) and its weight. *)
  Definition pair : Type := (option nat * K)%type.

  (** 285-287. *)
  Definition natural_less (a b : K) : bool := keqb (a + b) a && negb (keqb a b).

  (** 312-323, and 456-465. *)
  Definition pweight (dist : list K) (s : option nat) : K :=
    match s with Some s => nth s dist 0 | None => 1 end.

  (** 325-338. Comparison up to [delta] is modelled as equality. *)
  Definition sp_compare (pairs : list pair) (dist : list K) (x y : nat) : res bool :=
    px <-- got (nth_error pairs x) ;;
    py <-- got (nth_error pairs y) ;;
    let wx := pweight dist (fst px) * snd px in
    let wy := pweight dist (fst py) * snd py in
    Ok (match fst px, fst py with
        | None, Some _ => natural_less wy wx || keqb wx wy
        | Some _, None => natural_less wy wx && negb (keqb wx wy)
        | _, _ => natural_less wy wx
        end).

  (** The output machine, the pairs, the heap and the counters [r]. *)
  Record nst := NST { n_fst : vfst K; n_pairs : list pair; n_heap : list nat; n_r : list nat }.

  (** 493-497 and 504-507: a new state of the output, with its pair and one transition. *)
  Definition n_child (dist : list K) (st : nst) (p : pair) (t : tr K) : res nst :=
    let '(g, next) := add_state (n_fst st) in
    let pairs := n_pairs st ++ [p] in
    g' <-- add_tr g next t ;;
    h <-- hpush (sp_compare pairs dist) (n_heap st) next ;;
    Ok (NST g' pairs h (n_r st)).

  (** 470-473: [r] is extended with zeros and one is added at [i]. *)
  Definition bump (r : list nat) (i : nat) : list nat :=
    let r' := r ++ repeat O (S i - length r) in upd r' i (S (nth i r' O)).

  (** 486-509: the transitions into the state of [p] and its final weight, all leading to
      output state [state]. *)
  Definition n_expand (ifst : vfst K') (dist : list K) (state : nat) (q : nat) (w : K) (st : nst) : res nst :=
    if Nat.ltb q (num_states ifst) then
      st1 <-- rfold (fun st (t : tr K') =>
                       n_child dist st (Some (ns t), w * rb (wgt t)) (Tr (il t) (ol t) (rb (wgt t)) state))
                    (trs_of ifst q) st ;;
      match fin_of ifst q with
      | Some fw =>
          if keqb (rb fw) 0 then Ok st1
          else n_child dist st1 (None, w * rb fw) (Tr O O (rb fw) state)
      | None => Ok st1
      end
    else Err.

  (** 451-511. [n] is [nshortest], [limit] is 447. *)
  Fixpoint n_loop (fuel : nat) (ifst : vfst K') (dist : list K) (n : nat) (limit : K) (st : nst) : res nst :=
    match n_heap st with
    | [] => Ok st
    | _ :: _ =>
        match fuel with
        | O => Panic
        | S fuel' =>
            x <-- hpop (sp_compare (n_pairs st) dist) (n_heap st) ;;
            let '(state, h) := x in
            p <-- got (nth_error (n_pairs st) state) ;;
            let st1 := NST (n_fst st) (n_pairs st) h (n_r st) in
            if natural_less limit (pweight dist (fst p) * snd p) then n_loop fuel' ifst dist n limit st1
            else
              let i := match fst p with Some q => S q | None => O end in
              let r := bump (n_r st) i in
              match fst p with
              | None =>
                  s0 <-- got (vstart (n_fst st)) ;;
                  g <-- add_tr (n_fst st) s0 (Tr O O 1 state) ;;
                  let st2 := NST g (n_pairs st) h r in
                  if Nat.eqb (nth i r O) n then Ok st2 else n_loop fuel' ifst dist n limit st2
              | Some q =>
                  let st2 := NST (n_fst st) (n_pairs st) h r in
                  if Nat.ltb n (nth i r O) then n_loop fuel' ifst dist n limit st2
                  else
                    st3 <-- n_expand ifst dist state q (snd p) st2 ;;
                    n_loop fuel' ifst dist n limit st3
              end
        end
    end.

  (** The number of turns of the loop, at most: the first element of the heap, then for every
      state at most [n] times one for every transition and one for the final weight. *)
  Definition n_bound (ifst : vfst K') (n : nat) : nat :=
    S (n * list_sum (map (fun q => S (length (trs_of ifst q))) (seq 0 (num_states ifst)))).

  (** 410-519. [semiring]: the declared properties of the weights contain [PATH | SEMIRING]. *)
  Definition n_shortest_path (semiring : bool) (ifst : vfst K') (dist : list K) (n : nat) : res (vfst K) :=
    if Nat.eqb n 0 then Ok vnew
    else if negb semiring then Err
    else
      match vstart ifst with
      | None => Ok vnew
      | Some istart =>
          if Nat.leb (length dist) istart || keqb (nth istart dist 0) 0 then Ok vnew
          else
            let '(g1, ostart) := add_state vnew in
            g2 <-- set_start g1 ostart ;;
            let '(g3, final) := add_state g2 in
            g4 <-- set_final g3 final 1 ;;
            let pairs := [(None, 0); (Some istart, 1)] in
            h <-- hpush (sp_compare pairs dist) [] final ;;
            st <-- n_loop (n_bound ifst n) ifst dist n (nth istart dist 0 * 0) (NST g4 pairs h []) ;;
            g <-- connect (n_fst st) ;;
            Ok (set_properties_with_mask g (shortest_path_properties (vprops g) false) all_properties)
      end.

  (** 144-151: the distance of the initial state of the reversed machine. [get_trs(0)] fails
      if there is no state; [nextstate - 1] underflows for state 0. *)
  Definition n_start_distance (rf : vfst K') (dist : list K) : res K :=
    if Nat.ltb 0 (num_states rf) then
      rfold (fun d (t : tr K') =>
               match ns t with
               | O => Panic
               | S s => Ok (if Nat.ltb s (length dist) then d + rb (wgt t) * nth s dist 0 else d)
               end) (trs_of rf 0) 0
    else Err.

  (** 109-172, with [unique] false. [fuel] bounds [shortest_distance] and the case of one
      path. *)
  Definition shortest_path_with_config (idem semiring : bool) (fuel : nat) (n : nat) (f : vfst K) : option (res (vfst K)) :=
    if Nat.eqb n 0 then Some (Ok vnew)
    else if Nat.eqb n 1 then shortest_path1 idem semiring fuel f
    else if negb semiring then Some Err
    else
      match shortest_distance idem true true rv rb fuel f false with
      | None => None
      | Some rd => Some (
          dist <-- rd ;;
          rf <-- reverse rv f ;;
          d <-- n_start_distance rf dist ;;
          g <-- n_shortest_path semiring rf (d :: dist) n ;;
          Ok (set_symts_from_fst g f))
      end.
End NShortest.
