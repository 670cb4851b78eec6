(** Rational operations and final-state normalisation:
    rustfst/src/algorithms/{reverse,add_super_final_state,rm_final_epsilon}.rs,
    union/union_static.rs, concat/concat_static.rs, closure/closure_static.rs.
    The [*_unchecked] accessors used there are modelled by the checked ones (a state out of
    range is a panic instead of undefined behaviour); capacity reservations are dropped. *)
From Coq Require Import List Arith NArith ZArith Bool.
From Verif Require Import Base.Util Base.Semiring Base.Machine
  Model.Props Model.VectorFst Model.TrOps Model.AlgoProps Model.Dfs Model.Visitors Model.ComputeProps.
Import ListNotations.

(** [Err] of an inner call becomes [Panic]: the callers use unchecked accessors. *)
Definition unwrap {A} (r : res A) : res A := match r with Err => Panic | _ => r end.

(** Run [g] over a list, threading the machine. *)
Definition rfold {A B} (g : B -> A -> res B) (l : list A) (b : B) : res B :=
  fold_left (fun r a => x <-- r ;; g x a) l (Ok b).

Section R.
  Context {K : SR}.
  Implicit Types (f g : vfst K).

  (** vector_fst/iterators_fst.rs [final_states_iter] (fst_traits/iterators.rs 45-60): the final
      states in increasing order. *)
  Definition is_some {A} (o : option A) : bool := match o with Some _ => true | None => false end.
  Definition final_states f : list nat := filter (fun s => is_some (fin_of f s)) (seq 0 (num_states f)).

  (** union_static.rs 75-86 = concat_static.rs 68-79: append a copy of [f2], targets shifted. *)
  Definition copy_state (n1 : nat) (f2 f1 : vfst K) (s2 : nat) : res (vfst K) :=
    let (f1, s1) := add_state f1 in
    f1 <-- match fin_of f2 s2 with Some w => unwrap (set_final f1 s1 w) | None => Ok f1 end ;;
    rfold (fun g t => unwrap (add_tr g s1 (Tr (il t) (ol t) (wgt t) (ns t + n1)))) (trs_of f2 s2) f1.
  Definition append_copy (f1 f2 : vfst K) : res (vfst K) :=
    rfold (copy_state (num_states f1) f2) (seq 0 (num_states f2)) f1.

  (** union_static.rs 56-119. *)
  Definition union (f1 f2 : vfst K) : res (vfst K) :=
    r <-- compute_and_update_properties f1 (mask [INITIAL_ACYCLIC]) ;;
    let '(f1, q) := r in
    let initial_acyclic_1 := has q INITIAL_ACYCLIC in
    let props1 := vprops f1 in
    let props2 := vprops f2 in
    let numstates1 := num_states f1 in
    match vstart f2 with
    | None => Ok f1
    | Some start2 =>
        f <-- append_copy f1 f2 ;;
        match vstart f with
        | None => Ok (set_properties_with_mask (set_start_unchecked f start2) props2 (mask pm_copy_properties))
        | Some start1 =>
            f <-- (if initial_acyclic_1 then unwrap (add_tr f start1 (Tr 0 0 kone (start2 + numstates1)))
                   else
                     let (f, nstart1) := add_state f in
                     let f := set_start_unchecked f nstart1 in
                     f <-- unwrap (add_tr f nstart1 (Tr 0 0 kone start1)) ;;
                     unwrap (add_tr f nstart1 (Tr 0 0 kone (start2 + numstates1)))) ;;
            Ok (set_properties_with_mask f (union_properties props1 props2 false) all_properties)
        end
    end.

  (** concat_static.rs 53-109. *)
  Definition concat_one (start2 : option nat) (n1 : nat) f (s1 : nat) : res (vfst K) :=
    match fin_of f s1 with
    | Some w =>
        f <-- match start2 with Some s2 => unwrap (add_tr f s1 (Tr 0 0 w (s2 + n1))) | None => Ok f end ;;
        unwrap (delete_final_weight f s1)
    | None => Ok f
    end.
  Definition concat (f1 f2 : vfst K) : res (vfst K) :=
    let props1 := vprops f1 in
    let props2 := vprops f2 in
    match vstart f1 with
    | None => Ok f1
    | Some _ =>
        let n1 := num_states f1 in
        f <-- append_copy f1 f2 ;;
        f <-- rfold (concat_one (vstart f2) n1) (seq 0 n1) f ;;
        match vstart f2 with
        | Some _ => Ok (set_properties_with_mask f (concat_properties props1 props2 false) all_properties)
        | None => Ok f
        end
    end.

  Inductive closure_type := ClosureStar | ClosurePlus.

  (** closure_static.rs 27-71. *)
  Definition closure f (ct : closure_type) : res (vfst K) :=
    let props := vprops f in
    f <-- match vstart f with
          | Some s0 =>
              rfold (fun g p => unwrap (add_tr g (fst p) (Tr 0 0 (snd p) s0)))
                (flat_map (fun s => match fin_of f s with Some w => [(s, w)] | None => [] end) (final_states f)) f
          | None => Ok f
          end ;;
    f <-- match ct with
          | ClosureStar =>
              let (f, nstart) := add_state f in
              f <-- match vstart f with
                    | Some s0 => unwrap (add_tr f nstart (Tr 0 0 kone s0))
                    | None => Ok f
                    end ;;
              unwrap (set_final (set_start_unchecked f nstart) nstart kone)
          | ClosurePlus => Ok f
          end ;;
    Ok (set_properties_with_mask f (closure_properties props false) all_properties).

  (** add_super_final_state.rs 25-57. *)
  Definition add_super_final_state f : res (vfst K * nat) :=
    let finals := final_states f in
    let keep := match finals with
                | [s] => match fin_of f s with Some w => keqb w kone | None => false end
                | _ => false
                end in
    if keep then Ok (f, hd 0 finals)
    else
      let (f, sf) := add_state f in
      f <-- unwrap (set_final f sf kone) ;;
      f <-- rfold (fun g s =>
              r <-- unwrap (take_final_weight g s) ;;
              match snd r with
              | Some w => unwrap (add_tr (fst r) s (Tr 0 0 w sf))
              | None => Panic
              end) finals f ;;
      Ok (f, sf).

  (** ** rm_final_epsilon.rs 15-76 *)
  (** 25-40: a final state none of whose transitions leads to a coaccessible state. *)
  Definition dead_end_finals f (coaccess : nat -> bool) : list nat :=
    filter (fun s => is_some (fin_of f s) && negb (existsb (fun t => coaccess (ns t)) (trs_of f s)))
      (seq 0 (num_states f)).
  Definition removable (finals : list nat) (t : tr K) : bool :=
    existsb (Nat.eqb (ns t)) finals && Nat.eqb (il t) 0 && Nat.eqb (ol t) 0.
  (** 47-62: positions to delete and the accumulated weight. *)
  Definition scan_state f (finals : list nat) (s : nat) : res (list nat * option K) :=
    r <-- rfold (fun (c : nat * (list nat * option K)) t =>
            let '(idx, (dels, w)) := c in
            if removable finals t then
              match fin_of f (ns t) with
              | Some fw' =>
                  let w0 := match w with Some v => v | None => match fin_of f s with Some v => v | None => kzero end end in
                  Ok (S idx, (dels ++ [idx], Some (kplus w0 (ktimes fw' (wgt t)))))
              | None => Panic
              end
            else Ok (S idx, (dels, w))) (trs_of f s) (0, ([], None)) ;;
    Ok (snd r).
  (** 43-71, one state. *)
  Definition rm_state (finals : list nat) f (s : nat) : res (vfst K) :=
    r <-- scan_state f finals s ;;
    let '(dels, w) := r in
    match dels, w with
    | [], _ => Ok f
    | _, None => Panic
    | _, Some w =>
        f <-- (if keqb w kzero then Ok f else unwrap (set_final f s w)) ;;
        unwrap (del_trs_id_sorted f s dels)
    end.
  Definition rm_final_epsilon f : res (vfst K) :=
    v <-- visit_scc f any_filter ;;
    f <-- rfold (rm_state (dead_end_finals f (co (sv_core v)))) (seq 0 (num_states f)) f ;;
    connect f.
End R.

(** ** reverse.rs 33-87. [rv] is [W::reverse] into [W::ReverseWeight]. *)
Section Rev.
  Context {K K' : SR}.
  Variable rv : K -> K'.
  Definition push_at (l : list (list (tr K'))) (i : nat) (t : tr K') : res (list (list (tr K'))) :=
    match nth_error l i with Some v => Ok (upd l i (v ++ [t])) | None => Panic end.
  Definition rev_state (f : vfst K) (c : vfst K' * list (list (tr K'))) (s : nat)
    : res (vfst K' * list (list (tr K'))) :=
    let '(g, l) := c in
    g <-- match vstart f with
          | Some s0 => if Nat.eqb s s0 then set_final g (s + 1) kone else Ok g
          | None => Ok g
          end ;;
    l <-- match fin_of f s with Some w => push_at l 0 (Tr 0 0 (rv w) (s + 1)) | None => Ok l end ;;
    l <-- rfold (fun l t => push_at l (ns t + 1) (Tr (il t) (ol t) (rv (wgt t)) (s + 1))) (trs_of f s) l ;;
    Ok (g, l).
  Definition reverse (f : vfst K) : res (vfst K') :=
    let n := num_states f in
    let (g, ostart) := add_state vnew in
    let g := add_states g n in
    (* 46-51: counting the transitions indexes [c_trs] *)
    if forallb (fun s => forallb (fun t => Nat.ltb (ns t) n) (trs_of f s)) (seq 0 n) then
      r <-- rfold (rev_state f) (seq 0 n) (g, repeat [] (n + 1)) ;;
      let '(g, l) := r in
      g <-- rfold (fun g p => unwrap (set_trs g (fst p) (snd p))) (combine (seq 0 (n + 1)) l) g ;;
      g <-- set_start g ostart ;;
      let g := VF (vstates g) (vstart g) (visymt f) (vosymt f) (vprops g) in
      Ok (set_properties_with_mask g (N.lor (reverse_properties (vprops f) true) (vprops g)) all_properties)
    else Panic.
End Rev.
