(** [VectorFst]: rustfst/src/fst_impls/vector_fst/{data_structure,fst,mutable_fst}.rs.
    Unchecked (unsafe) accessors are modelled as panicking out of range. *)
From Coq Require Import List Arith NArith Lia Bool String.
From Verif Require Import Base.Util Base.Semiring Base.Machine Model.Props.
Import ListNotations.

(** Symbol tables have dense labels (see Model/SymbolTable.v): the symbol of label i
    is element i. *)
Definition symtab := list string.

Section V.
  Context {K : SR}.

  (** data_structure.rs 29-34. [TrsVec] (an [Arc<Vec<Tr>>], copied on write) is its value. *)
  Record vstate := VS { vfin : option K; vtrs : list (tr K); vnie : nat; vnoe : nat }.

  (** data_structure.rs 16-22. *)
  Record vfst := VF {
    vstates : list vstate;
    vstart : option nat;
    visymt : option symtab;
    vosymt : option symtab;
    vprops : N
  }.

  (** data_structure.rs 55-62. *)
  Definition new_state : vstate := VS None [] 0 0.

  (** mutable_fst.rs 25-33. *)
  Definition vnew : vfst := VF [] None None None (mask pm_null_properties).

  (** expanded_fst.rs 7-9 (vector_fst). *)
  Definition num_states (f : vfst) : nat := List.length (vstates f).

  (** [PartialEq], data_structure.rs 36-41, used only in statements. *)
  Definition with_states (f : vfst) (l : list vstate) : vfst :=
    VF l (vstart f) (visymt f) (vosymt f) (vprops f).
  Definition with_props (f : vfst) (p : N) : vfst :=
    VF (vstates f) (vstart f) (visymt f) (vosymt f) p.
  Definition with_start (f : vfst) (s : option nat) : vfst :=
    VF (vstates f) s (visymt f) (vosymt f) (vprops f).

  (** View as an abstract machine (out of range states have no transitions). *)
  Definition trs_of (f : vfst) (s : nat) : list (tr K) :=
    match nth_error (vstates f) s with Some st => vtrs st | None => [] end.
  Definition fin_of (f : vfst) (s : nat) : option K :=
    match nth_error (vstates f) s with Some st => vfin st | None => None end.
  Definition mach (f : vfst) : machine K := Mach (vstart f) (trs_of f) (fin_of f).

  (** fst.rs 40-105: accessors. *)
  Definition get_state (f : vfst) (s : nat) : res vstate :=
    match nth_error (vstates f) s with Some st => Ok st | None => Err end.
  Definition final_weight (f : vfst) (s : nat) : res (option K) := rmap vfin (get_state f s).
  Definition get_trs (f : vfst) (s : nat) : res (list (tr K)) := rmap vtrs (get_state f s).
  Definition num_trs (f : vfst) (s : nat) : res nat := rmap (fun st => List.length (vtrs st)) (get_state f s).
  Definition num_input_epsilons (f : vfst) (s : nat) : res nat := rmap vnie (get_state f s).
  Definition num_output_epsilons (f : vfst) (s : nat) : res nat := rmap vnoe (get_state f s).

  (** mutable_fst.rs 35-44. *)
  Definition set_start (f : vfst) (s : nat) : res vfst :=
    match nth_error (vstates f) s with
    | Some _ => Ok (VF (vstates f) (Some s) (visymt f) (vosymt f) (set_start_properties (vprops f)))
    | None => Err
    end.
  (** mutable_fst.rs 46-49 (never checks the state). *)
  Definition set_start_unchecked (f : vfst) (s : nat) : vfst :=
    VF (vstates f) (Some s) (visymt f) (vosymt f) (set_start_properties (vprops f)).

  Definition upd_state (f : vfst) (s : nat) (st : vstate) (p : N) : vfst :=
    VF (upd (vstates f) s st) (vstart f) (visymt f) (vosymt f) p.

  (** mutable_fst.rs 51-64. *)
  Definition set_final (f : vfst) (s : nat) (w : K) : res vfst :=
    match nth_error (vstates f) s with
    | Some st => Ok (upd_state f s (VS (Some w) (vtrs st) (vnie st) (vnoe st))
                       (set_final_properties (vprops f) (vfin st) (Some w)))
    | None => Err
    end.

  (** mutable_fst.rs 80-85. *)
  Definition add_state (f : vfst) : vfst * nat :=
    (VF (vstates f ++ [new_state]) (vstart f) (visymt f) (vosymt f)
        (add_state_properties (vprops f)),
     List.length (vstates f)).

  (** mutable_fst.rs 87-91. *)
  Definition add_states (f : vfst) (n : nat) : vfst :=
    VF (vstates f ++ repeat new_state n) (vstart f) (visymt f) (vosymt f)
       (add_state_properties (vprops f)).

  Definition b2n (b : bool) : nat := if b then 1 else 0.

  (** data_structure.rs 69-76 and 80-91, mutable_fst.rs 236-245. *)
  Definition add_tr (f : vfst) (s : nat) (t : tr K) : res vfst :=
    match nth_error (vstates f) s with
    | Some st =>
        let st' := VS (vfin st) (vtrs st ++ [t])
                      (vnie st + b2n (Nat.eqb (il t) 0)) (vnoe st + b2n (Nat.eqb (ol t) 0)) in
        let prev := nth_error (vtrs st) (List.length (vtrs st) - 1) in
        Ok (upd_state f s st' (add_tr_properties (vprops f) s t prev))
    | None => Err
    end.

  (** mutable_fst.rs 283-291. *)
  Definition delete_final_weight (f : vfst) (s : nat) : res vfst :=
    match nth_error (vstates f) s with
    | Some st => Ok (upd_state f s (VS None (vtrs st) (vnie st) (vnoe st))
                       (set_final_properties (vprops f) (vfin st) None))
    | None => Err
    end.

  (** mutable_fst.rs 333-341. *)
  Definition take_final_weight (f : vfst) (s : nat) : res (vfst * option K) :=
    match nth_error (vstates f) s with
    | Some st => Ok (upd_state f s (VS None (vtrs st) (vnie st) (vnoe st))
                       (set_final_properties (vprops f) (vfin st) None), vfin st)
    | None => Err
    end.

  (** mutable_fst.rs 299-310. *)
  Definition delete_trs (f : vfst) (s : nat) : res vfst :=
    match nth_error (vstates f) s with
    | Some st => Ok (upd_state f s (VS (vfin st) [] 0 0) (delete_trs_properties (vprops f)))
    | None => Err
    end.

  (** mutable_fst.rs 312-323. *)
  Definition pop_trs (f : vfst) (s : nat) : res (vfst * list (tr K)) :=
    match nth_error (vstates f) s with
    | Some st => Ok (upd_state f s (VS (vfin st) [] 0 0) (delete_trs_properties (vprops f)), vtrs st)
    | None => Err
    end.

  (** mutable_fst.rs 191-199. *)
  Definition del_all_states (f : vfst) : vfst :=
    VF [] None (visymt f) (vosymt f) delete_all_states_properties.

  (** usize decrement; underflow panics. *)
  Definition dec (n : nat) : res nat := match n with O => Panic | S k => Ok k end.
  Definition dec_if (b : bool) (n : nat) : res nat := if b then dec n else Ok n.

  (** mutable_fst.rs 201-234: deletion of the given positions, from last to first. *)
  Definition del_one (r : res vstate) (i : nat) : res vstate :=
    st <-- r ;;
    match nth_error (vtrs st) i with
    | None => Panic
    | Some t =>
        ni <-- dec_if (Nat.eqb (il t) 0) (vnie st) ;;
        no <-- dec_if (Nat.eqb (ol t) 0) (vnoe st) ;;
        Ok (VS (vfin st) (remove_at (vtrs st) i) ni no)
    end.

  Definition pm_del_some : list pbit :=
    [ACCEPTOR; I_DETERMINISTIC; O_DETERMINISTIC; NO_EPSILONS; NO_I_EPSILONS; NO_O_EPSILONS;
     I_LABEL_SORTED; O_LABEL_SORTED; UNWEIGHTED; TOP_SORTED; NOT_ACCESSIBLE; NOT_COACCESSIBLE;
     UNWEIGHTED_CYCLES].

  Definition del_trs_id_sorted (f : vfst) (s : nat) (to_del : list nat) : res vfst :=
    match nth_error (vstates f) s with
    | None => Panic
    | Some st =>
        st' <-- fold_left del_one (rev to_del) (Ok st) ;;
        let p := match vtrs st' with
                 | [] => delete_trs_properties (vprops f)
                 | _ => pkeep (vprops f) pm_del_some
                 end in
        Ok (upd_state f s st' p)
    end.

  (** mutable_fst.rs 255-281. *)
  Fixpoint set_trs_props (p : N) (s : nat) (prev : option (tr K)) (l : list (tr K)) : N :=
    match l with
    | [] => p
    | t :: l' => set_trs_props (add_tr_properties p s t prev) s (Some t) l'
    end.
  Definition ieps (t : tr K) : bool := Nat.eqb (il t) 0.
  Definition oeps (t : tr K) : bool := Nat.eqb (ol t) 0.
  Definition set_trs (f : vfst) (s : nat) (l : list (tr K)) : res vfst :=
    match nth_error (vstates f) s with
    | None => Panic
    | Some st => Ok (upd_state f s (VS (vfin st) l (count ieps l) (count oeps l))
                       (set_trs_props (vprops f) s None l))
    end.

  (** mutable_fst.rs 132-189 [del_states].
      [new_id] is a vector of i32; -1 is [None]. Indexing out of range panics. *)
  Fixpoint mark_deleted (new_id : list (option nat)) (d : list nat) : res (list (option nat)) :=
    match d with
    | [] => Ok new_id
    | s :: d' => if Nat.ltb s (List.length new_id)
                 then mark_deleted (upd new_id s None) d' else Panic
    end.

  (** [Vec::swap]. *)
  Definition swap {A} (l : list A) (i j : nat) : list A :=
    match nth_error l i, nth_error l j with
    | Some a, Some b => upd (upd l i b) j a
    | _, _ => l
    end.

  (** Lines 139-149: the compaction loop over s = 0 .. n-1. *)
  Fixpoint compact (k : nat) (s : nat) (new_id : list (option nat)) (sts : list vstate) (nst : nat)
    : list (option nat) * list vstate * nat :=
    match k with
    | O => (new_id, sts, nst)
    | S k' =>
        match nth_error new_id s with
        | Some (Some _) =>
            compact k' (S s) (upd new_id s (Some nst))
                    (if Nat.eqb s nst then sts else swap sts nst s) (S nst)
        | _ => compact k' (S s) new_id sts nst
        end
    end.

  (** Lines 153-175: renumber or drop transitions of one state. Collecting the dropped
      positions and removing them from last to first is modelled as a filter. *)
  Fixpoint remap_trs (new_id : list (option nat)) (l : list (tr K)) (ni no : nat)
    : res (list (tr K) * nat * nat) :=
    match l with
    | [] => Ok ([], ni, no)
    | t :: l' =>
        match nth_error new_id (ns t) with
        | None => Panic
        | Some (Some q) =>
            r <-- remap_trs new_id l' ni no ;;
            let '(l2, ni2, no2) := r in Ok (Tr (il t) (ol t) (wgt t) q :: l2, ni2, no2)
        | Some None =>
            ni1 <-- dec_if (Nat.eqb (il t) 0) ni ;;
            no1 <-- dec_if (Nat.eqb (ol t) 0) no ;;
            remap_trs new_id l' ni1 no1
        end
    end.

  Definition remap_state (new_id : list (option nat)) (st : vstate) : res vstate :=
    r <-- remap_trs new_id (vtrs st) (vnie st) (vnoe st) ;;
    let '(l, ni, no) := r in Ok (VS (vfin st) l ni no).

  Fixpoint map_res {A B} (g : A -> res B) (l : list A) : res (list B) :=
    match l with
    | [] => Ok []
    | a :: l' => b <-- g a ;; l2 <-- map_res g l' ;; Ok (b :: l2)
    end.

  Definition del_states (f : vfst) (d : list nat) : res vfst :=
    let n := List.length (vstates f) in
    new_id <-- mark_deleted (repeat (Some 0) n) d ;;
    let '(new_id, sts, nst) := compact n 0 new_id (vstates f) 0 in
    let sts := firstn nst sts in
    sts <-- map_res (remap_state new_id) sts ;;
    start <-- match vstart f with
              | None => Ok None
              | Some s => match nth_error new_id s with
                          | None => Panic
                          | Some o => Ok o
                          end
              end ;;
    Ok (VF sts start (visymt f) (vosymt f) (delete_states_properties (vprops f))).

  (** mutable_fst.rs 118-130. *)
  Definition del_state (f : vfst) (s : nat) : res vfst :=
    if Nat.ltb s (num_states f)
    then del_states (with_props f (delete_states_properties (vprops f))) [s]
    else Err.

  (** mutable_fst.rs 407-414. *)
  Definition set_properties (f : vfst) (p : N) : vfst := with_props f p.
  Definition set_properties_with_mask (f : vfst) (p m : N) : vfst :=
    with_props f (N.lor (N.land (vprops f) (pnot m)) (N.land p m)).

  (** ** trs_iter_mut.rs *)
  (** 241-277. *)
  Definition update_properties_labels (p : N) (oi oo ni no : nat) : N :=
    let p := if negb (Nat.eqb oi oo) then pclr p [NOT_ACCEPTOR] else p in
    let p := if Nat.eqb oi 0
             then let q := pclr p [I_EPSILONS] in
                  if Nat.eqb oo 0 then pclr q [EPSILONS] else q
             else p in
    let p := if Nat.eqb oo 0 then pclr p [O_EPSILONS] else p in
    let p := if negb (Nat.eqb ni no) then pclr (pset p [NOT_ACCEPTOR]) [ACCEPTOR] else p in
    let p := if Nat.eqb ni 0
             then let q := pclr (pset p [I_EPSILONS]) [NO_I_EPSILONS] in
                  if Nat.eqb no 0 then pclr (pset q [EPSILONS]) [NO_EPSILONS] else q
             else p in
    if Nat.eqb no 0 then pclr (pset p [O_EPSILONS]) [NO_O_EPSILONS] else p.
  (** 279-291. *)
  Definition update_properties_weights (p : N) (ow nw : K) : N :=
    let p := if nontrivial ow then pclr p [WEIGHTED] else p in
    if nontrivial nw then pclr (pset p [WEIGHTED]) [UNWEIGHTED] else p.
  (** 293-305. *)
  Definition keep_only_relevant_properties (p : N) : N :=
    pkeep p (pm_set_arc_properties ++
      [ACCEPTOR; NOT_ACCEPTOR; EPSILONS; NO_EPSILONS; I_EPSILONS; NO_I_EPSILONS;
       O_EPSILONS; NO_O_EPSILONS; WEIGHTED; UNWEIGHTED]).
  (** 307-350. *)
  Definition compute_new_properties_all (p : N) (o t : tr K) : N :=
    keep_only_relevant_properties
      (update_properties_weights (update_properties_labels p (il o) (ol o) (il t) (ol t))
                                 (wgt o) (wgt t)).
  Definition compute_new_properties_labels (p : N) (oi oo ni no : nat) : N :=
    keep_only_relevant_properties (update_properties_labels p oi oo ni no).
  Definition compute_new_properties_weights (p : N) (ow nw : K) : N :=
    keep_only_relevant_properties (update_properties_weights p ow nw).

  (** 25-45: counter updates. *)
  Definition updt_eps (c old new : nat) : res nat :=
    c1 <-- dec_if (Nat.eqb old 0) c ;; Ok (c1 + b2n (Nat.eqb new 0)).

  (** 137-147 [set_tr] through [tr_iter_mut(s)] (mutable_fst.rs 93-105). *)
  Definition iter_set_tr (f : vfst) (s idx : nat) (t : tr K) : res vfst :=
    st <-- get_state f s ;;
    match nth_error (vtrs st) idx with
    | None => Err
    | Some o =>
        ni <-- updt_eps (vnie st) (il o) (il t) ;;
        no <-- updt_eps (vnoe st) (ol o) (ol t) ;;
        Ok (upd_state f s (VS (vfin st) (upd (vtrs st) idx t) ni no)
                      (compute_new_properties_all (vprops f) o t))
    end.
  (** 83-98 [set_ilabel] (154-165 unchecked). *)
  Definition iter_set_ilabel (f : vfst) (s idx a : nat) : res vfst :=
    st <-- get_state f s ;;
    match nth_error (vtrs st) idx with
    | None => Err
    | Some o =>
        ni <-- updt_eps (vnie st) (il o) a ;;
        Ok (upd_state f s (VS (vfin st) (upd (vtrs st) idx (Tr a (ol o) (wgt o) (ns o))) ni (vnoe st))
                      (compute_new_properties_labels (vprops f) (il o) (ol o) a (ol o)))
    end.
  (** 100-115 [set_olabel] (172-183 unchecked). *)
  Definition iter_set_olabel (f : vfst) (s idx b : nat) : res vfst :=
    st <-- get_state f s ;;
    match nth_error (vtrs st) idx with
    | None => Err
    | Some o =>
        no <-- updt_eps (vnoe st) (ol o) b ;;
        Ok (upd_state f s (VS (vfin st) (upd (vtrs st) idx (Tr (il o) b (wgt o) (ns o))) (vnie st) no)
                      (compute_new_properties_labels (vprops f) (il o) (ol o) (il o) b))
    end.
  (** 190-203 [set_labels_unchecked]. *)
  Definition iter_set_labels (f : vfst) (s idx ni' no' : nat) : res vfst :=
    st <-- get_state f s ;;
    match nth_error (vtrs st) idx with
    | None => Err
    | Some o =>
        ni <-- updt_eps (vnie st) (il o) ni' ;;
        no <-- updt_eps (vnoe st) (ol o) no' ;;
        Ok (upd_state f s (VS (vfin st) (upd (vtrs st) idx (Tr ni' no' (wgt o) (ns o))) ni no)
                      (compute_new_properties_labels (vprops f) (il o) (ol o) ni' no'))
    end.
  (** 117-126. *)
  Definition iter_set_weight (f : vfst) (s idx : nat) (w : K) : res vfst :=
    st <-- get_state f s ;;
    match nth_error (vtrs st) idx with
    | None => Err
    | Some o =>
        Ok (upd_state f s (VS (vfin st) (upd (vtrs st) idx (Tr (il o) (ol o) w (ns o))) (vnie st) (vnoe st))
                      (compute_new_properties_weights (vprops f) (wgt o) w))
    end.
  (** 128-135. On an out of range index the code has already weakened the property bits
      before returning the error; the model returns the error only. *)
  Definition iter_set_nextstate (f : vfst) (s idx q : nat) : res vfst :=
    st <-- get_state f s ;;
    match nth_error (vtrs st) idx with
    | None => Err
    | Some o =>
        Ok (upd_state f s (VS (vfin st) (upd (vtrs st) idx (Tr (il o) (ol o) (wgt o) q)) (vnie st) (vnoe st))
                      (keep_only_relevant_properties (vprops f)))
    end.
End V.
Arguments vstate : clear implicits.
Arguments vfst : clear implicits.
