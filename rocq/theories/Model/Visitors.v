(** Depth-first visitors and the algorithms built directly on them:
    rustfst/src/algorithms/{connect,top_sort,state_sort,condense}.rs,
    rustfst/src/algorithms/visitors/scc_visitors.rs. *)
From Coq Require Import List Arith NArith ZArith Lia Bool.
From Verif Require Import Base.Util Base.Semiring Base.Machine Model.Props Model.VectorFst Model.Dfs.
Import ListNotations.

Section S.
  Context {K : SR}.
  Implicit Types (f : vfst K) (t : tr K).

  (** The fields and code that [ConnectVisitor] (connect.rs 69-80) and [SccVisitor]
      (scc_visitors.rs 11-25) have in common. The initial -1 of [dfnumber] and [lowlink] is
      never read (both are written by [init_state] first); the model stores 0. *)
  Record core := Core {
    nst : nat; dfn : list nat; low : list nat; onst : list bool; sstk : list nat; coacc : list bool
  }.
  Definition core_new (n : nat) : core := Core 0 (repeat 0 n) (repeat 0 n) (repeat false n) [] (repeat false n).

  Definition df (c : core) (s : nat) : nat := nth s (dfn c) 0.
  Definition lw (c : core) (s : nat) : nat := nth s (low c) 0.
  Definition co (c : core) (s : nat) : bool := nth s (coacc c) false.

  (** connect.rs 103-112, scc_visitors.rs 65-84. The stack is kept top first. *)
  Definition core_init (c : core) (s : nat) : core :=
    Core (S (nst c)) (upd (dfn c) s (nst c)) (upd (low c) s (nst c)) (upd (onst c) s true)
         (s :: sstk c) (coacc c).
  Definition set_low (c : core) (s v : nat) : core :=
    Core (nst c) (dfn c) (upd (low c) s v) (onst c) (sstk c) (coacc c).
  Definition set_co (c : core) (s : nat) : core :=
    Core (nst c) (dfn c) (low c) (onst c) (sstk c) (upd (coacc c) s true).
  (** connect.rs 118-128, scc_visitors.rs 90-99. *)
  Definition core_back (c : core) (s t : nat) : core :=
    let c := if Nat.ltb (df c t) (lw c s) then set_low c s (df c t) else c in
    if co c t then set_co c s else c.
  (** connect.rs 130-143, scc_visitors.rs 108-121. *)
  Definition core_fwd (c : core) (s t : nat) : core :=
    let c := if Nat.ltb (df c t) (df c s) && nth t (onst c) false && Nat.ltb (df c t) (lw c s)
             then set_low c s (df c t) else c in
    if co c t then set_co c s else c.

  (** connect.rs 154-163: walk down from the top to [s] ([None]: the index underflows). *)
  Fixpoint pop_until (s : nat) (l : list nat) : option (list nat * list nat) :=
    match l with
    | [] => None
    | u :: l' => if Nat.eqb s u then Some ([u], l')
                 else match pop_until s l' with
                      | Some (a, r) => Some (u :: a, r)
                      | None => None
                      end
    end.
  Definition set_all_at {A} (v : A) (ixs : list nat) (l : list A) : list A :=
    fold_left (fun a i => upd a i v) ixs l.

  (** connect.rs 146-186, scc_visitors.rs 124-172 without the [scc], [nscc] and [props]
      fields. The second component describes the component closed, if any: its states and
      whether one of them is coaccessible. *)
  Definition core_finish (final : bool) (c : core) (s : nat) (parent : option nat)
    : res (core * option (list nat * bool)) :=
    let c := if final then set_co c s else c in
    r <-- (if Nat.eqb (df c s) (lw c s) then
             match pop_until s (sstk c) with
             | None => Panic
             | Some (comp, rest) =>
                 let b := existsb (co c) comp in
                 Ok (Core (nst c) (dfn c) (low c) (set_all_at false comp (onst c)) rest
                          (if b then set_all_at true comp (coacc c) else coacc c), Some (comp, b))
             end
           else Ok (c, None)) ;;
    let '(c, closed) := r in
    match parent with
    | None => Ok (c, closed)
    | Some p =>
        let c := if co c s then set_co c p else c in
        let c := if Nat.ltb (lw c s) (lw c p) then set_low c p (lw c s) else c in
        Ok (c, closed)
    end.

  (** ** connect.rs *)
  Record connect_visitor := CV { cv_core : core; cv_access : list bool }.
  Definition connect_visitor_fns f : visitor K connect_visitor := {|
    v_init := fun v s root =>
      Ok (CV (core_init (cv_core v) s)
             (upd (cv_access v) s (match vstart f with Some q => Nat.eqb root q | None => false end)), true);
    v_tree := fun v s t => Ok (v, true);
    v_back := fun v s t => Ok (CV (core_back (cv_core v) s (ns t)) (cv_access v), true);
    v_fwd := fun v s t => Ok (CV (core_fwd (cv_core v) s (ns t)) (cv_access v), true);
    v_finish := fun v s p =>
      r <-- core_finish (match fin_of f s with Some _ => true | None => false end) (cv_core v) s
                        (option_map fst p) ;;
      Ok (CV (fst r) (cv_access v));
    v_end := fun v => Ok v
  |}.
  Definition visit_connect f : res connect_visitor :=
    dfs_visit (connect_visitor_fns f) any_filter (trs_of f) (num_states f) (vstart f) false
      (CV (core_new (num_states f)) (repeat false (num_states f))).

  (** connect.rs 52-67. *)
  Definition connect f : res (vfst K) :=
    v <-- visit_connect f ;;
    let dstates := filter (fun s => negb (nth s (cv_access v) false) || negb (co (cv_core v) s))
                          (seq 0 (num_states f)) in
    g <-- del_states f dstates ;;
    Ok (set_properties_with_mask g (mask [ACCESSIBLE; COACCESSIBLE]) (mask [ACCESSIBLE; COACCESSIBLE])).

  (** ** visitors/scc_visitors.rs 11-60. [scc] and [access] are always kept by the model; the
      code drops them when not asked for. *)
  Record scc_visitor := SV {
    sv_core : core; sv_scc : list Z; sv_access : list bool; sv_nscc : nat; sv_props : N
  }.
  Definition scc_visitor_new (n : nat) : scc_visitor :=
    SV (core_new n) (repeat (-1)%Z n) (repeat false n) 0
       (mask [ACYCLIC; INITIAL_ACYCLIC; ACCESSIBLE; COACCESSIBLE]).

  Definition scc_visitor_fns (start : option nat) (fin : nat -> option K) : visitor K scc_visitor := {|
    (* 65-84: [access] is set to true in both branches *)
    v_init := fun v s root =>
      let isroot := match start with Some q => Nat.eqb root q | None => false end in
      Ok (SV (core_init (sv_core v) s) (sv_scc v) (upd (sv_access v) s true) (sv_nscc v)
             (if isroot then sv_props v else pclr (pset (sv_props v) [NOT_ACCESSIBLE]) [ACCESSIBLE]), true);
    v_tree := fun v s t => Ok (v, true);
    (* 90-106 *)
    v_back := fun v s t =>
      let p := pclr (pset (sv_props v) [CYCLIC]) [ACYCLIC] in
      let p := if (match start with Some q => Nat.eqb (ns t) q | None => false end)
               then pclr (pset p [INITIAL_CYCLIC]) [INITIAL_ACYCLIC] else p in
      Ok (SV (core_back (sv_core v) s (ns t)) (sv_scc v) (sv_access v) (sv_nscc v) p, true);
    v_fwd := fun v s t =>
      Ok (SV (core_fwd (sv_core v) s (ns t)) (sv_scc v) (sv_access v) (sv_nscc v) (sv_props v), true);
    (* 124-172 *)
    v_finish := fun v s p =>
      r <-- core_finish (match fin s with Some _ => true | None => false end) (sv_core v) s
                        (option_map fst p) ;;
      match snd r with
      | None => Ok (SV (fst r) (sv_scc v) (sv_access v) (sv_nscc v) (sv_props v))
      | Some (comp, b) =>
          Ok (SV (fst r) (set_all_at (Z.of_nat (sv_nscc v)) comp (sv_scc v)) (sv_access v) (S (sv_nscc v))
                 (if b then sv_props v else pclr (pset (sv_props v) [NOT_COACCESSIBLE]) [COACCESSIBLE]))
      end;
    (* 175-181 *)
    v_end := fun v =>
      Ok (SV (sv_core v) (map (fun x => (Z.of_nat (sv_nscc v) - 1 - x)%Z) (sv_scc v)) (sv_access v)
             (sv_nscc v) (sv_props v))
  |}.
  Definition visit_scc f (keep : tr K -> bool) : res scc_visitor :=
    dfs_visit (scc_visitor_fns (vstart f) (fin_of f)) keep (trs_of f) (num_states f) (vstart f) false
      (scc_visitor_new (num_states f)).

  (** ** top_sort.rs 12-62 *)
  Record top_visitor := TV { tv_order : list nat; tv_acyclic : bool; tv_finish : list nat }.
  (** [finish] is kept last-pushed first. 52-60: [order[finish[len - s - 1]] = s]; an index out
      of range panics. *)
  Fixpoint fill_order (s : nat) (l : list nat) (order : list nat) : res (list nat) :=
    match l with
    | [] => Ok order
    | q :: l' => if Nat.ltb q (length order) then fill_order (S s) l' (upd order q s) else Panic
    end.
  Definition top_visitor_fns : visitor K top_visitor := {|
    v_init := fun v s root => Ok (v, true);
    v_tree := fun v s t => Ok (v, true);
    v_back := fun v s t => Ok (TV (tv_order v) false (tv_finish v), false);
    v_fwd := fun v s t => Ok (v, true);
    v_finish := fun v s p => Ok (TV (tv_order v) (tv_acyclic v) (s :: tv_finish v));
    v_end := fun v =>
      if tv_acyclic v
      then o <-- fill_order 0 (tv_finish v) (repeat 0 (length (tv_finish v))) ;; Ok (TV o true (tv_finish v))
      else Ok v
  |}.
  Definition visit_top f (keep : tr K -> bool) : res top_visitor :=
    dfs_visit top_visitor_fns keep (trs_of f) (num_states f) (vstart f) false (TV [] true []).

  (** ** state_sort.rs 17-78 *)
  (** The inner loop 49-73 walks one cycle of the permutation. Out of range indices panic. *)
  Fixpoint add_trs_renamed f (order : list nat) (s2 : nat) (l : list (tr K)) : res (vfst K) :=
    match l with
    | [] => Ok f
    | t :: l' => match nth_error order (ns t) with
                 | None => Panic
                 | Some q => g <-- add_tr f s2 (Tr (il t) (ol t) (wgt t) q) ;; add_trs_renamed g order s2 l'
                 end
    end.
  Fixpoint sort_cycle (fuel : nat) f (order : list nat) (dn : list bool) (s1 : nat)
           (final1 : option K) (trsa : list (tr K)) (final2 : option K) (trsb : list (tr K))
    : res (vfst K * list bool) :=
    match nth_error dn s1 with
    | None => Panic
    | Some true => Ok (f, dn)
    | Some false =>
        match fuel with
        | O => Panic
        | S fuel' =>
            match nth_error order s1 with
            | None => Panic
            | Some s2 =>
                match nth_error dn s2 with
                | None => Panic
                | Some d2 =>
                    st2 <-- get_state f s2 ;;
                    let '(final2, trsb) := if d2 then (final2, trsb) else (vfin st2, vtrs st2) in
                    f1 <-- match final1 with
                           | None => delete_final_weight f s2
                           | Some v => set_final f s2 v
                           end ;;
                    f2 <-- delete_trs f1 s2 ;;
                    f3 <-- add_trs_renamed f2 order s2 trsa ;;
                    sort_cycle fuel' f3 order (upd dn s1 true) s2 final2 trsb final2 trsa
                end
            end
        end
    end.
  Definition state_sort f (order : list nat) : res (vfst K) :=
    if Nat.eqb (length order) (num_states f) then
      match vstart f with
      | None => Ok f
      | Some s0 =>
          let props := pkeep (vprops f) pm_statesort_properties in
          match nth_error order s0 with
          | None => Panic
          | Some q0 =>
              f0 <-- set_start f q0 ;;
              r <-- fold_left (fun r s1 =>
                      x <-- r ;;
                      let '(g, dn) := x in
                      match nth_error dn s1 with
                      | None => Panic
                      | Some true => Ok (g, dn)
                      | Some false => st <-- get_state g s1 ;;
                                      sort_cycle (S (length order)) g order dn s1 (vfin st) (vtrs st) None []
                      end) (seq 0 (num_states f)) (Ok (f0, repeat false (length order))) ;;
              Ok (set_properties_with_mask (fst r) props all_properties)
          end
      end
    else Err.

  (** top_sort.rs 76-96. *)
  Definition top_sort f : res (vfst K) :=
    v <-- visit_top f any_filter ;;
    if tv_acyclic v then
      g <-- state_sort f (tv_order v) ;;
      let p := mask [ACYCLIC; INITIAL_ACYCLIC; TOP_SORTED] in Ok (set_properties_with_mask g p p)
    else
      let p := mask [CYCLIC; NOT_TOP_SORTED] in Ok (set_properties_with_mask f p p).

  (** condense.rs 15-52. *)
  Definition condense f : res (list Z * vfst K) :=
    v <-- visit_scc f any_filter ;;
    let scc := sv_scc v in
    match scc with
    | [] => Ok (scc, vnew)
    | z :: l =>
        let mx := fold_left Z.max l z in
        let o0 := add_states (vnew (K := K)) (Z.to_nat mx + 1) in
        o <-- fold_left (fun r s =>
                g <-- r ;;
                let c := Z.to_nat (nth s scc 0%Z) in
                match vstart f with
                | None => Panic
                | Some q =>
                    let g := if Nat.eqb s q then set_start_unchecked g c else g in
                    g1 <-- match fin_of f s with
                           | None => Ok g
                           | Some w => match nth_error (vstates g) c with
                                       | None => Panic
                                       | Some st => set_final g c (match vfin st with
                                                                   | Some u => kplus u w
                                                                   | None => w end)
                                       end
                           end ;;
                    fold_left (fun r t =>
                      h <-- r ;;
                      match nth_error scc (ns t) with
                      | None => Panic
                      | Some z => if Nat.eqb (Z.to_nat z) c then Ok h
                                  else add_tr h c (Tr (il t) (ol t) (wgt t) (Z.to_nat z))
                      end) (trs_of f s) (Ok g1)
                end) (seq 0 (length scc)) (Ok o0) ;;
        Ok (scc, o)
    end.
End S.
