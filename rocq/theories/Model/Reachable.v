(** Reachability of final states by interval sets:
    rustfst/src/algorithms/compose/{interval_reach_visitor,state_reachable}.rs.

    [UNASSIGNED] (usize::MAX) is [None]; the counter [index] is unbounded here and never
    becomes [UNASSIGNED]. *)
From Coq Require Import List Arith NArith ZArith Bool.
From Verif Require Import Base.Util Base.Semiring Base.Machine Model.Props Model.VectorFst Model.TrOps Model.Dfs Model.Visitors
  Model.Rational Model.IntervalSet.
Import ListNotations.

Section R.
  Context {K : SR}.
  Implicit Types (f : vfst K).

  (** interval_reach_visitor.rs 10-26. *)
  Record irv := IR { ir_sets : list iset; ir_s2i : list (option nat); ir_next : nat }.
  Definition ir_new : irv := IR [] [] 1.

  (** [while l.len() <= s { l.push(d) }]. *)
  Definition grow {A} (d : A) (l : list A) (s : nat) : list A := l ++ repeat d (S s - length l).

  (** The state has a final weight and it is not zero (40-41, 82-83). *)
  Definition heavy f (s : nat) : bool :=
    match fin_of f s with Some w => negb (keqb w kzero) | None => false end.

  (** 33-61; the branch for an exhausted counter (43-51) is left out. *)
  Definition ir_init f (v : irv) (s : nat) : irv :=
    let sets := grow is_new (ir_sets v) s in
    let s2i := grow None (ir_s2i v) s in
    if heavy f s
    then IR (upd sets s (is_push (nth s sets is_new) (IV (ir_next v) (ir_next v + 1))))
            (upd s2i s (Some (ir_next v))) (S (ir_next v))
    else IR sets s2i (ir_next v).

  (** 99-114: [isets[i].union(isets[j].clone())]. *)
  Definition ir_union (sets : list iset) (i j : nat) : res (list iset) :=
    if Nat.eqb i j then Panic
    else match nth_error sets i, nth_error sets j with
         | Some a, Some b => Ok (upd sets i (is_union a b))
         | _, _ => Panic
         end.

  (** 80-92. The fuel of [is_normalize] is enough for non-empty intervals (C34). *)
  Definition ir_finish f (v : irv) (s : nat) (p : option nat) : res irv :=
    match nth_error (ir_sets v) s with
    | None => Panic
    | Some a =>
        a <-- (if heavy f s then
                 match ivals a with
                 | [] => Panic
                 | i :: l => Ok (IS (IV (ibegin i) (ir_next v) :: l) (icount a))
                 end
               else Ok a) ;;
        a <-- is_normalize (S (length (ivals a))) a ;;
        let sets := upd (ir_sets v) s a in
        sets <-- match p with None => Ok sets | Some q => ir_union sets q s end ;;
        Ok (IR sets (ir_s2i v) (ir_next v))
    end.

  (** 28-96. *)
  Definition ir_fns f : visitor K irv := {|
    v_init := fun v s root => Ok (ir_init f v s, true);
    v_tree := fun v s t => Ok (v, true);
    v_back := fun v s t => Panic;
    v_fwd := fun v s t => sets <-- ir_union (ir_sets v) s (ns t) ;; Ok (IR sets (ir_s2i v) (ir_next v), true);
    v_finish := fun v s p => ir_finish f v s (option_map fst p);
    v_end := fun v => Ok v
  |}.

  (** state_reachable.rs 20-23. *)
  Record sreach := SRch { sr_sets : list iset; sr_s2i : list (option nat) }.

  (** state_reachable.rs 69-76. *)
  Definition sr_new_acyclic f : res sreach :=
    v <-- dfs_visit (ir_fns f) any_filter (trs_of f) (num_states f) (vstart f) false ir_new ;;
    Ok (SRch (ir_sets v) (ir_s2i v)).

  (** 42-48: members per component. *)
  Definition count_members (scc : list Z) : list nat :=
    fold_left (fun n z => let c := Z.to_nat z in
                          let n := grow 0 n c in upd n c (S (nth c n 0))) scc [].

  (** state_reachable.rs 37-67. [condense(..).unwrap()] turns an error into a panic. *)
  Definition sr_new_cyclic f : res sreach :=
    match condense f with
    | Ok (scc, cfst) =>
        r <-- sr_new_acyclic cfst ;;
        let nscc := count_members scc in
        rfold (fun out z =>
          let c := Z.to_nat z in
          match nth_error (sr_sets r) c, nth_error (sr_s2i r) c with
          | Some a, Some i =>
              match fin_of cfst c with
              | Some _ => if Nat.ltb 1 (nth c nscc 0) then Err
                          else Ok (SRch (sr_sets out ++ [a]) (sr_s2i out ++ [i]))
              | None => Ok (SRch (sr_sets out ++ [a]) (sr_s2i out ++ [i]))
              end
          | _, _ => Panic
          end) scc (SRch [] [])
    | _ => Panic
    end.

  (** state_reachable.rs 26-35; [properties_check] is fst_traits/fst.rs 166-176. *)
  Definition sr_new f : res sreach :=
    if knows (vprops f) (mask [ACYCLIC]) then
      if contains (vprops f) (mask [ACYCLIC]) then sr_new_acyclic f else sr_new_cyclic f
    else Err.

  (** [member(UNASSIGNED)] is false: no end is larger. *)
  Definition member_opt (a : iset) (i : option nat) : bool :=
    match i with Some x => is_member a x | None => false end.
  (** state_reachable.rs 79-86. *)
  Definition sr_reach (r : sreach) (cur s : nat) : res bool :=
    match nth_error (sr_s2i r) s with
    | None => Err
    | Some i => match nth_error (sr_sets r) cur with
                | None => Panic
                | Some a => Ok (member_opt a i)
                end
    end.
End R.

