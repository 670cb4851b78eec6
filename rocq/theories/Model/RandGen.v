(** Random path generation: rustfst/src/algorithms/randgen/*.rs, the two-in-one lazy machines of
    rustfst/src/algorithms/lazy/{fst_op_2,lazy_fst_2}.rs it is built on, and
    [rand_gen_properties] (fst_properties/mutate_properties.rs 449-473).

    The random generator is an unknown stream of numbers [rng]; a draw among [n] alternatives is
    the next number of the stream modulo [n], so that every sequence of choices is some stream.
    [-ln(a/b)] (a, b as f32) turned into a weight is an unknown function [nlog a b].
    The fields [select] and [parent] of [RandState] are only written and are left out. *)
From Coq Require Import List Arith NArith Bool.
From Verif Require Import Base.Util Base.Semiring Base.Machine Model.Props Model.VectorFst Model.Lazy Model.Dfs.
Import ListNotations.

(** fst_op_2.rs 6-21. *)
Record fst_op2 (K : SR) (O : Type) := FO2 {
  compute_start2 : O -> res (option nat * O);
  compute_both : nat -> O -> res ((list (tr K) * option K) * O);
  op2_properties : N
}.
Arguments FO2 {K O}.
Arguments compute_start2 {K O}.
Arguments compute_both {K O}.
Arguments op2_properties {K O}.

Section Lazy2.
  Context {K : SR} {O C : Type} (op : fst_op2 K O) (X : fst_cache K C).
  Implicit Types (z : O * C).

  (** lazy_fst_2.rs 29-39: an error of the operation is unwrapped. *)
  Definition l2_start z : res (option nat * (O * C)) :=
    match c_get_start X (snd z) with
    | Some s => Ok (s, z)
    | None =>
        match compute_start2 op (fst z) with
        | Ok (s, o) => Ok (s, (o, c_insert_start X s (snd z)))
        | _ => Panic
        end
    end.

  (** lazy_fst_2.rs 41-52. *)
  Definition l2_final_weight (id : nat) z : res (option K * (O * C)) :=
    match c_get_final X id (snd z) with
    | Some w => Ok (w, z)
    | None =>
        r <-- compute_both op id (fst z) ;;
        Ok (snd (fst r), (snd r, c_insert_final X id (snd (fst r)) (c_insert_trs X id (fst (fst r)) (snd z))))
    end.

  (** lazy_fst_2.rs 68-78. *)
  Definition l2_get_trs (id : nat) z : res (list (tr K) * (O * C)) :=
    match c_get_trs X id (snd z) with
    | Some l => Ok (l, z)
    | None =>
        r <-- compute_both op id (fst z) ;;
        Ok (fst (fst r), (snd r, c_insert_final X id (snd (fst r)) (c_insert_trs X id (fst (fst r)) (snd z))))
    end.

  (** [for _ in n..=s { add_state() }]. *)
  Definition add_until (g : vfst K) (s : nat) : vfst K :=
    Nat.iter (s + 1 - num_states g) (fun g => fst (add_state g)) g.

  (** lazy_fst_2.rs 238-248: one transition of the state taken from the queue. The set of
      visited states is a list. *)
  Definition see2 (s : nat) (st : list nat * list nat * vfst K) (t : tr K) : res (list nat * list nat * vfst K) :=
    let '(queue, seen, g) := st in
    let new := negb (existsb (Nat.eqb (ns t)) seen) in
    g <-- add_tr (add_until g (ns t)) s t ;;
    Ok (if new then queue ++ [ns t] else queue, if new then ns t :: seen else seen, g).
  Fixpoint see2_all (s : nat) (l : list (tr K)) (st : list nat * list nat * vfst K) : res (list nat * list nat * vfst K) :=
    match l with
    | [] => Ok st
    | t :: l => st <-- see2 s st t ;; see2_all s l st
    end.

  (** lazy_fst_2.rs 237-252. [None]: out of fuel. *)
  Fixpoint bfs2 (fuel : nat) (queue seen : list nat) (g : vfst K) z : option (res (vfst K * (O * C))) :=
    match queue with
    | [] => Some (Ok (g, z))
    | s :: queue =>
        match fuel with
        | 0 => None
        | S fuel =>
            match (r <-- l2_get_trs s z ;;
                   st <-- see2_all s (fst r) (queue, seen, g) ;;
                   w <-- l2_final_weight s (snd r) ;;
                   g <-- match fst w with Some x => set_final (snd st) s x | None => Ok (snd st) end ;;
                   Ok (fst st, g, snd w)) with
            | Ok ((queue, seen), g, z) => bfs2 fuel queue seen g z
            | Err => Some Err
            | Panic => Some Panic
            end
        end
    end.

  (** lazy_fst_2.rs 222-262. *)
  Definition compute2 (fuel : nat) (isym osym : option symtab) z : option (res (vfst K * (O * C))) :=
    match l2_start z with
    | Ok (None, z) => Some (Ok (vnew, z))
    | Ok (Some s, z) =>
        match set_start (Nat.iter (s + 1) (fun g => fst (add_state g)) vnew) s with
        | Ok g =>
            match bfs2 fuel [s] [s] g z with
            | Some (Ok (g, z)) =>
                Some (Ok (VF (vstates g) (vstart g)
                             (match isym with Some _ => isym | None => visymt g end)
                             (match osym with Some _ => osym | None => vosymt g end)
                             (op2_properties op), z))
            | r => r
            end
        | Err => Some Err
        | Panic => Some Panic
        end
    | Err => Some Err
    | Panic => Some Panic
    end.
End Lazy2.

(** mutate_properties.rs 449-473. *)
Definition rand_gen_properties (inprops : N) (weighted : bool) : N :=
  N.lor (mask [ACYCLIC; INITIAL_ACYCLIC; ACCESSIBLE; UNWEIGHTED_CYCLES])
    (if weighted
     then N.lor (mask [TOP_SORTED])
            (N.land (mask [ACCEPTOR; NO_EPSILONS; NO_I_EPSILONS; NO_O_EPSILONS; I_DETERMINISTIC; O_DETERMINISTIC;
                           I_LABEL_SORTED; O_LABEL_SORTED]) inprops)
     else N.lor (mask [UNWEIGHTED])
            (N.land (mask [ACCEPTOR; I_LABEL_SORTED; O_LABEL_SORTED]) inprops)).

(** rand_state.rs 6-17; [None] is [NO_STATE_ID]. *)
Record rstate := RS { rs_state : option nat; rs_nsamples : nat; rs_length : nat }.

(** The mutable part of [RandGenFstOp] (randgen_fst_op.rs 23-29): the table of states, the
    superfinal state ([None]: [NO_STATE_ID]), and how many numbers the generator has given. *)
Record rop := RO { ro_table : list rstate; ro_super : option nat; ro_rng : nat }.

Section R.
  Context {K : SR}.
  Implicit Types (f g : vfst K).
  Variable nlog : nat -> nat -> K.
  Variable rng : nat -> nat.

  (** tr_selector.rs 46-55. [Uniform::new_inclusive(0, n - 1)] with n = 0: [n - 1] underflows. *)
  Definition select_tr f (i s : nat) : res nat :=
    n <-- num_trs f s ;;
    w <-- final_weight f s ;;
    let n := match w with Some _ => n + 1 | None => n end in
    if Nat.eqb n 0 then Panic else Ok (rng i mod n).

  (** [*sample_map.entry(selected).or_insert(0) += 1] on a [BTreeMap]: ascending keys. *)
  Fixpoint bt_incr (pos : nat) (m : list (nat * nat)) : list (nat * nat) :=
    match m with
    | [] => [(pos, 1)]
    | (p, c) :: m' =>
        if Nat.ltb pos p then (pos, 1) :: m
        else if Nat.eqb pos p then (p, S c) :: m'
        else (p, c) :: bt_incr pos m'
    end.

  (** tr_sampler.rs 76-81. *)
  Fixpoint draws f (s k : nat) (st : list (nat * nat) * nat) : res (list (nat * nat) * nat) :=
    match k with
    | 0 => Ok st
    | S k => p <-- select_tr f (snd st) s ;; draws f s k (bt_incr p (fst st), S (snd st))
    end.

  (** tr_sampler.rs 67-84. The state [NO_STATE_ID] does not exist. *)
  Definition sample f (max_length : nat) (r : rstate) (i : nat) : res (list (nat * nat) * nat) :=
    match rs_state r with
    | None => Err
    | Some s =>
        n <-- num_trs f s ;;
        w <-- final_weight f s ;;
        if (Nat.eqb n 0 && match w with None => true | Some _ => false end) || Nat.eqb (rs_length r) max_length
        then Ok ([], i)
        else draws f s (rs_nsamples r) ([], i)
    end.

  (** randgen_config.rs 4-15 without the selector. *)
  Record rconfig := RC { rc_max : nat; rc_npath : nat; rc_weighted : bool; rc_remove : bool }.
  Variable cfg : rconfig.

  (** randgen_fst_op.rs 125-178: one entry of the sample map. The accumulator is the output
      transitions, the output final weight, the table and the superfinal state. *)
  Definition emit (trs : list (tr K)) (r : rstate) (st : list (tr K) * option K * list rstate * option nat) (pc : nat * nat)
    : list (tr K) * option K * list rstate * option nat :=
    let '(out, w, tbl, sup) := st in
    let (pos, cnt) := pc in
    match nth_error trs pos with
    | Some t =>
        (out ++ [Tr (il t) (ol t) (if rc_weighted cfg then nlog cnt (rs_nsamples r) else kone) (length tbl)], w,
         tbl ++ [RS (Some (ns t)) cnt (rs_length r + 1)], sup)
    | None =>
        if rc_weighted cfg then
          (out, Some (if rc_remove cfg then nlog cnt (rs_nsamples r) else nlog (cnt * rc_npath cfg) (rs_nsamples r)), tbl, sup)
        else
          match sup with
          | Some q => (out ++ repeat (Tr 0 0 kone q) cnt, w, tbl, sup)
          | None => (out ++ repeat (Tr 0 0 kone (length tbl)) cnt, w, tbl ++ [RS None 0 0], Some (length tbl))
          end
    end.

  (** randgen_fst_op.rs 90-186. *)
  Definition randgen_op f : fst_op2 K rop :=
    FO2 (fun o => match vstart f with
                  | Some s => Ok (Some (length (ro_table o)),
                                  RO (ro_table o ++ [RS (Some s) (rc_npath cfg) 0]) (ro_super o) (ro_rng o))
                  | None => Ok (None, o)
                  end)
        (fun s o =>
           if match ro_super o with Some q => Nat.eqb s q | None => false end then Ok (([], Some kone), o)
           else match nth_error (ro_table o) s with
                | None => Panic
                | Some r =>
                    m <-- sample f (rc_max cfg) r (ro_rng o) ;;
                    match rs_state r with
                    | None => Err
                    | Some q =>
                        trs <-- get_trs f q ;;
                        let '(out, w, tbl, sup) := fold_left (emit trs r) (fst m) ([], None, ro_table o, ro_super o) in
                        Ok ((out, w), RO tbl sup (snd m))
                    end
                end)
        (N.land (rand_gen_properties (vprops f) (rc_weighted cfg)) (mask pm_copy_properties)).

  (** randgen_fst.rs 160-176: the delayed machine, expanded. *)
  Definition randgen_fst f (fuel : nat) : option (res (vfst K)) :=
    match compute2 (randgen_op f) map_cache_ops fuel (visymt f) (vosymt f) (RO [] None 0, map_cache_new) with
    | Some r => Some (rmap fst r)
    | None => None
    end.

  (** randgen_visitor.rs 7-11. *)
  Record rvisitor := RV { rv_ofst : vfst K; rv_path : list (tr K) }.

  (** randgen_visitor.rs 28-41. *)
  Fixpoint put_path g (src : nat) (p : list (tr K)) : res (vfst K * nat) :=
    match p with
    | [] => Ok (g, src)
    | t :: p =>
        let (g, dest) := add_state g in
        g <-- add_tr g src (Tr (il t) (ol t) kone dest) ;;
        put_path g dest p
    end.
  Definition output_path (v : rvisitor) : res rvisitor :=
    let r :=
      g <-- (match vstart (rv_ofst v) with
             | None => let (g, s) := add_state (rv_ofst v) in set_start g s
             | Some _ => Ok (rv_ofst v)
             end) ;;
      match vstart g with
      | None => Panic
      | Some s =>
          x <-- put_path g s (rv_path v) ;;
          g <-- set_final (fst x) (snd x) kone ;;
          Ok (RV g (rv_path v))
      end in
    match r with Ok v => Ok v | _ => Panic end.

  (** [is_final(s).unwrap()]. *)
  Definition is_final_unwrap g (s : nat) : res bool :=
    match final_weight g s with Ok (Some _) => Ok true | Ok None => Ok false | _ => Panic end.

  (** randgen_visitor.rs 44-84. *)
  Definition randgen_visitor (ifst : vfst K) : visitor K rvisitor :=
    {| v_init := fun v _ _ => Ok (v, true);
       v_tree := fun v _ t =>
         b <-- is_final_unwrap ifst (ns t) ;;
         if b then v <-- output_path v ;; Ok (v, true) else Ok (RV (rv_ofst v) (rv_path v ++ [t]), true);
       v_back := fun _ _ _ => Panic;
       v_fwd := fun v _ _ => v <-- output_path v ;; Ok (v, true);
       v_finish := fun v s parent =>
         match parent with
         | Some _ => b <-- is_final_unwrap ifst s ;;
                     Ok (if b then v else RV (rv_ofst v) (removelast (rv_path v)))
         | None => Ok v
         end;
       v_end := fun v => Ok v |}.

  (** randgen_visitor.rs 47-52, symbol tables by fst_traits/mutable_fst.rs 448-460. *)
  Definition rv_begin (ifst : vfst K) : rvisitor :=
    let g := del_all_states (@vnew K) in
    RV (VF (vstates g) (vstart g) (visymt ifst) (vosymt ifst) (vprops g)) [].

  (** randgen/mod.rs 25-52. *)
  Definition randgen_with_config f (fuel : nat) : option (res (vfst K)) :=
    match randgen_fst f fuel with
    | Some (Ok h) =>
        if rc_weighted cfg then Some (Ok h)
        else Some (v <-- dfs_visit (randgen_visitor h) any_filter (trs_of h) (num_states h) (vstart h) false (rv_begin h) ;;
                   Ok (rv_ofst v))
    | r => r
    end.
End R.

(** randgen/mod.rs 54-60 ([max_length: usize::MAX] never stops a path the machine can hold:
    the bound is a parameter here). *)
Definition randgen_default (usize_max : nat) : rconfig := RC usize_max 1 false false.
