(** Recursive replacement: rustfst/src/algorithms/replace.

    Simplified: [fst_id], [nextstate] and [fst_state] are options in the code, but every tuple is
    built with [Some]; here they are plain numbers.  A stack is a list with its top first (the code
    pushes at the end of a vector).  The mutexes around the tables are not modelled. *)
From Coq Require Import List Arith NArith Bool.
From Verif Require Import Base.Util Base.Semiring Base.Machine Model.Props Model.AlgoProps Model.VectorFst
  Model.BiMap Model.Lazy Model.Compose.
Import ListNotations.

(** config.rs 4-15. *)
Inductive label_type := LNeither | LInput | LOutput | LBoth.

(** utils.rs 5-12. *)
Definition epsilon_on_input (t : label_type) : bool := match t with LNeither | LOutput => true | _ => false end.
Definition epsilon_on_output (t : label_type) : bool := match t with LNeither | LInput => true | _ => false end.

(** config.rs 18-30. *)
Record replace_opts := RO { ro_root : nat; ro_call : label_type; ro_return : label_type;
  ro_call_output : option nat; ro_return_label : nat }.
(** config.rs 32-46. *)
Definition replace_opts_new (root : nat) (epsilon_on_replace : bool) : replace_opts :=
  RO root (if epsilon_on_replace then LNeither else LInput) LNeither
     (if epsilon_on_replace then Some 0 else None) 0.

(** replace_fst_op.rs 188-198. *)
Definition replace_transducer (call return_ : label_type) (out : option nat) : bool :=
  match call with LInput | LOutput => true | LBoth => match out with Some _ => true | None => false end | LNeither => false end
  || match return_ with LInput | LOutput => true | _ => false end.

(** fst_properties/mutate_properties.rs 496-620. *)
Definition mut_replace_properties (inprops : list N) (root : nat)
    (epsilon_on_call epsilon_on_return out_epsilon_on_call out_epsilon_on_return replace_transducer
     no_empty_fsts all_ilabel_sorted all_olabel_sorted all_negative_or_dense : bool) : res N :=
  match inprops with
  | [] => Ok (mask pm_null_properties)
  | _ =>
      match nth_error inprops root with
      | None => Panic
      | Some rp =>
          let access := fold_left (fun a p => N.land a (pkeep p [ACCESSIBLE; COACCESSIBLE])) inprops
                          (if no_empty_fsts then mask [ACCESSIBLE; COACCESSIBLE] else 0%N) in
          let out :=
            if N.eqb access (mask [ACCESSIBLE; COACCESSIBLE]) then
              let out := when (has rp INITIAL_CYCLIC) [INITIAL_CYCLIC] access in
              let out := fold_left (fun out p =>
                 let out := copyif replace_transducer [NOT_ACCEPTOR] p out in
                 copyif true [NOT_I_DETERMINISTIC; NOT_O_DETERMINISTIC; EPSILONS; I_EPSILONS; O_EPSILONS;
                   WEIGHTED; WEIGHTED_CYCLES; CYCLIC; NOT_TOP_SORTED; NOT_STRING] p out) inprops out in
              when (forallb (fun p => has p STRING) inprops) [STRING] out
            else 0%N in
          let out := when (negb replace_transducer && forallb (fun p => has p ACCEPTOR) inprops) [ACCEPTOR] out in
          let out := when (negb epsilon_on_call && epsilon_on_return
                           && forallb (fun p => has p I_DETERMINISTIC) inprops
                           && forallb (fun ip => Nat.eqb (fst ip) root || has (snd ip) NO_I_EPSILONS)
                                (combine (seq 0 (length inprops)) inprops)) [I_DETERMINISTIC] out in
          let out := when (negb epsilon_on_call && negb epsilon_on_return
                           && forallb (fun p => has p NO_I_EPSILONS) inprops) [NO_I_EPSILONS] out in
          let out := when (forallb (fun p => has p ACYCLIC) inprops) [ACYCLIC] out in
          let out := when (forallb (fun p => has p UNWEIGHTED) inprops) [UNWEIGHTED] out in
          let out := when (has rp INITIAL_ACYCLIC) [INITIAL_ACYCLIC] out in
          let out := when (all_ilabel_sorted && epsilon_on_return && (negb epsilon_on_call || all_negative_or_dense))
                       [I_LABEL_SORTED] out in
          let out := when (all_olabel_sorted && out_epsilon_on_return && (negb out_epsilon_on_call || all_negative_or_dense))
                       [O_LABEL_SORTED] out in
          Ok out
      end
  end.

Section Replace.
  Context {K : SR}.

  (** replace_fst_op.rs 143-155: the index of the last machine carrying the root label, 0 by default. *)
  Fixpoint root_idx (i : nat) (root : nat) (l : list (nat * vfst K)) (acc : nat) : nat :=
    match l with [] => acc | p :: l' => root_idx (S i) root l' (if Nat.eqb (fst p) root then i else acc) end.
  (** 120-186; [all_negative] is always false. *)
  Definition replace_properties (root : nat) (l : list (nat * vfst K)) (call return_ : label_type) (out : option nat) : res N :=
    mut_replace_properties (map (fun p => vprops (snd p)) l) (root_idx 0 root l 0)
      (epsilon_on_input call) (epsilon_on_input return_) (epsilon_on_output call) (epsilon_on_output return_)
      (replace_transducer call return_ out)
      (forallb (fun p => match vstart (snd p) with Some _ => true | None => false end) l)
      (forallb (fun p => has (vprops (snd p)) I_LABEL_SORTED) l)
      (forallb (fun p => has (vprops (snd p)) O_LABEL_SORTED) l)
      (forallb (fun p => Nat.leb (fst p) (length l)) l).

  (** replace_fst_op.rs 22-34: the fields that never change. *)
  Record replace_env := RE { re_call : label_type; re_return : label_type; re_call_output : option nat;
    re_return_label : nat; re_fsts : list (vfst K); re_set : list nat; re_hash : list (nat * nat);
    re_root : nat; re_props : N }.

  (** 234-240: the hash map (newest entry first) and the set of labels. *)
  Fixpoint nonterminals (i : nat) (l : list (nat * vfst K)) (h : list (nat * nat)) : list (nat * nat) :=
    match l with [] => h | p :: l' => nonterminals (S i) l' (insert h (fst p) i) end.

  (** 201-256. *)
  Definition replace_new (l : list (nat * vfst K)) (o : replace_opts) : res replace_env :=
    p <-- replace_properties (ro_root o) l (ro_call o) (ro_return o) (ro_call_output o) ;;
    let call := match ro_call_output o with Some 0 => LNeither | _ => ro_call o end in
    let ret := if Nat.eqb (ro_return_label o) 0 then LNeither else ro_return o in
    let h := nonterminals 0 l [] in
    match lookup h (ro_root o) with
    | None => Err
    | Some r => Ok (RE call ret (ro_call_output o) (ro_return_label o) (map snd l) (map fst l) h r p)
    end.

  (** state_table.rs 5-8 and 34-42. *)
  Definition stack := list (nat * nat).
  Definition rtuple := (nat * nat * nat)%type.
  Definition pair_eqb (a b : nat * nat) : bool := Nat.eqb (fst a) (fst b) && Nat.eqb (snd a) (snd b).
  Fixpoint stack_eqb (a b : stack) : bool :=
    match a, b with
    | [], [] => true
    | x :: a', y :: b' => pair_eqb x y && stack_eqb a' b'
    | _, _ => false
    end.
  Definition rtuple_eqb (a b : rtuple) : bool :=
    Nat.eqb (fst (fst a)) (fst (fst b)) && Nat.eqb (snd (fst a)) (snd (fst b)) && Nat.eqb (snd a) (snd b).
  (** 54-67. *)
  Record rtable := RT { rt_prefix : bimap stack; rt_tuple : bimap rtuple }.
  Definition rt_new : rtable := RT bm_new bm_new.

  (** replace_fst_op.rs 304-306 and [tuple_table.find_id]. *)
  Definition prefix_id (tb : rtable) (s : stack) : rtable * nat :=
    let (b, i) := find_id stack_eqb (rt_prefix tb) s in (RT b (rt_tuple tb), i).
  Definition tuple_id (tb : rtable) (t : rtuple) : rtable * nat :=
    let (b, i) := find_id rtuple_eqb (rt_tuple tb) t in (RT (rt_prefix tb) b, i).

  Section Op.
    Context (E : replace_env).

    (** [fst_array.get(i).unwrap()]. *)
    Definition nth_fst (i : nat) : res (vfst K) := match nth_error (re_fsts E) i with Some f => Ok f | None => Panic end.
    (** [Result::unwrap]. *)
    Definition unwrap_r {A} (r : res A) : res A := match r with Ok a => Ok a | _ => Panic end.

    (** replace_fst_op.rs 60-74. *)
    Definition rp_start (tb : rtable) : res (option nat * rtable) :=
      match re_fsts E with
      | [] => Ok (None, tb)
      | _ =>
          f <-- nth_fst (re_root E) ;;
          match vstart f with
          | None => Ok (None, tb)
          | Some s => let (tb, p) := prefix_id tb [] in
                      let (tb, i) := tuple_id tb (p, re_root E, s) in Ok (Some i, tb)
          end
      end.

    (** 258-302, with 308-311. *)
    Definition rp_final_tr (t : rtuple) (tb : rtable) : res (option (tr K) * rtable) :=
      let '(p, i, s) := t in
      f <-- nth_fst i ;;
      b <-- unwrap_r (is_final f s) ;;
      if b && Nat.ltb 0 p then
        stk <-- find_tuple (rt_prefix tb) p ;;
        match stk with
        | [] => Panic
        | top :: rest =>
            let (tb, p') := prefix_id tb rest in
            let (tb, n) := tuple_id tb (p', fst top, snd top) in
            w <-- unwrap_r (final_weight f s) ;;
            match w with
            | Some w => Ok (Some (Tr (if epsilon_on_input (re_return E) then 0 else re_return_label E)
                                     (if epsilon_on_output (re_return E) then 0 else re_return_label E) w n), tb)
            | None => Ok (None, tb)
            end
        end
      else Ok (None, tb).

    (** Smallest and largest element of the [BTreeSet] of labels. *)
    Definition set_min : option nat := match re_set E with [] => None | a :: l => Some (fold_right Nat.min a l) end.
    Definition set_max : option nat := match re_set E with [] => None | a :: l => Some (fold_right Nat.max a l) end.
    (** 324-327: the range check is short-circuited by epsilon. *)
    Definition terminal_range (o : nat) : res bool :=
      if Nat.eqb o 0 then Ok true
      else match set_min, set_max with
           | Some a, Some b => Ok (Nat.ltb o a || Nat.ltb b o)
           | _, _ => Panic
           end.

    (** 323-370, with 313-321. *)
    Definition rp_tr (tp : rtuple) (t : tr K) (tb : rtable) : res (option (tr K) * rtable) :=
      let '(p, i, s) := tp in
      r <-- terminal_range (ol t) ;;
      let keep := let (tb, n) := tuple_id tb (p, i, ns t) in Ok (Some (Tr (il t) (ol t) (wgt t) n), tb) in
      if r : bool then keep
      else match lookup (re_hash E) (ol t) with
           | Some j =>
               stk <-- find_tuple (rt_prefix tb) p ;;
               let (tb, p') := prefix_id tb ((i, ns t) :: stk) in
               f <-- nth_fst j ;;
               match vstart f with
               | Some q =>
                   let (tb, n) := tuple_id tb (p', j, q) in
                   Ok (Some (Tr (if epsilon_on_input (re_call E) then 0 else il t)
                                (if epsilon_on_output (re_call E) then 0
                                 else match re_call_output E with Some l => l | None => ol t end) (wgt t) n), tb)
               | None => Ok (None, tb)
               end
           | None => keep
           end.

    Fixpoint rp_trs_loop (tp : rtuple) (l : list (tr K)) (tb : rtable) : res (list (tr K) * rtable) :=
      match l with
      | [] => Ok ([], tb)
      | t :: l' => a <-- rp_tr tp t tb ;;
                   r <-- rp_trs_loop tp l' (snd a) ;;
                   Ok (match fst a with Some t' => t' :: fst r | None => fst r end, snd r)
      end.
    (** 76-100. *)
    Definition rp_trs (id : nat) (tb : rtable) : res (list (tr K) * rtable) :=
      tp <-- find_tuple (rt_tuple tb) id ;;
      a <-- rp_final_tr tp tb ;;
      f <-- nth_fst (snd (fst tp)) ;;
      l <-- get_trs f (snd tp) ;;
      r <-- rp_trs_loop tp l (snd a) ;;
      Ok (match fst a with Some t' => t' :: fst r | None => fst r end, snd r).
    (** 102-113. *)
    Definition rp_fin (id : nat) (tb : rtable) : res (option K * rtable) :=
      tp <-- find_tuple (rt_tuple tb) id ;;
      if Nat.eqb (fst (fst tp)) 0 then
        f <-- nth_fst (snd (fst tp)) ;;
        w <-- final_weight f (snd tp) ;; Ok (w, tb)
      else Ok (None, tb).

    Definition rp_op : fst_op K rtable := FO rp_start rp_trs rp_fin (re_props E).
  End Op.

  (** replace_fst.rs 28-43 and replace_static.rs 46-58; [None]: out of fuel, the expansion may be
      infinite.  The symbol tables are those of the first machine. *)
  Definition replace_with (o : replace_opts) (l : list (nat * vfst K)) (fuel : nat) : option (res (vfst K)) :=
    match replace_new l o with
    | Ok E => match compute (rp_op E) map_cache_ops fuel
                     (match l with p :: _ => visymt (snd p) | [] => None end)
                     (match l with p :: _ => vosymt (snd p) | [] => None end) (rt_new, map_cache_new) with
              | Some r => Some (rmap fst r)
              | None => None
              end
    | Err => Some Err
    | Panic => Some Panic
    end.
  Definition replace (l : list (nat * vfst K)) (root : nat) (epsilon_on_replace : bool) (fuel : nat) :=
    replace_with (replace_opts_new root epsilon_on_replace) l fuel.
End Replace.
Arguments replace_env : clear implicits.
