(** Lazy machines: rustfst/src/algorithms/lazy/{fst_op,lazy_fst}.rs and lazy/cache.

    An operation is a set of functions on some private state (in the code a mutex-protected
    state table); a lazy machine is an operation together with a cache.  Threads, [clear] and
    the binary format of caches are not modelled. *)
From Coq Require Import List Arith NArith Bool.
From Verif Require Import Base.Util Base.Semiring Base.Machine Model.Props Model.VectorFst Model.BiMap.
Import ListNotations.

(** fst_op.rs 15-33. *)
Record fst_op (K : SR) (O : Type) := FO {
  compute_start : O -> res (option nat * O);
  compute_trs : nat -> O -> res (list (tr K) * O);
  compute_final_weight : nat -> O -> res (option K * O);
  op_properties : N
}.
Arguments FO {K O}.
Arguments compute_start {K O}.
Arguments compute_trs {K O}.
Arguments compute_final_weight {K O}.
Arguments op_properties {K O}.

(** cache/fst_cache.rs 8-29: the methods a lazy machine uses. [None] is [NotComputed]. *)
Record fst_cache (K : SR) (C : Type) := FC {
  c_get_start : C -> option (option nat);
  c_insert_start : option nat -> C -> C;
  c_get_trs : nat -> C -> option (list (tr K));
  c_insert_trs : nat -> list (tr K) -> C -> C;
  c_get_final : nat -> C -> option (option K);
  c_insert_final : nat -> option K -> C -> C;
  c_num_trs : nat -> C -> option nat;
  c_num_ieps : nat -> C -> option nat;
  c_num_oeps : nat -> C -> option nat;
  c_known : C -> nat
}.
Arguments FC {K C}.
Arguments c_get_start {K C}.
Arguments c_insert_start {K C}.
Arguments c_get_trs {K C}.
Arguments c_insert_trs {K C}.
Arguments c_get_final {K C}.
Arguments c_insert_final {K C}.
Arguments c_num_trs {K C}.
Arguments c_num_ieps {K C}.
Arguments c_num_oeps {K C}.
Arguments c_known {K C}.

Section Caches.
  Context {K : SR}.

  (** cache_internal_types.rs 11-16, 18-22: transitions with their epsilon counts; a value with
      the number of states known. *)
  Record cache_trs := CT { ct_trs : list (tr K); ct_nie : nat; ct_noe : nat }.
  Definition cached A := (A * nat)%type.

  (** simple_vec_cache.rs 83-94: one pass over the new transitions. *)
  Definition count_trs (l : list (tr K)) (known : nat) : cache_trs * nat :=
    (CT l (count ieps l) (count oeps l), fold_left (fun k t => Nat.max k (ns t + 1)) l known).

  (** [Vec::resize] by one past [id], then an indexed store. *)
  Definition grow_to {A} (l : list (option A)) (n : nat) : list (option A) :=
    l ++ repeat None (n - length l).
  Definition put {A} (l : list (option A)) (id : nat) (a : A) : list (option A) :=
    upd (if Nat.leb (length l) id then grow_to l (id + 1) else l) id (Some a).
  Definition fetch {A} (l : list (option A)) (id : nat) : option A :=
    match nth_error l id with Some o => o | None => None end.

  (** simple_vec_cache.rs 28-36. *)
  Record vec_cache := VC {
    vc_start : cached (option (option nat));
    vc_trs : cached (list (option cache_trs));
    vc_fin : cached (list (option (option K)))
  }.
  Definition vec_cache_new : vec_cache := VC (None, 0) ([], 0) ([], 0).

  Definition start_known (id : option nat) (k : nat) : nat :=
    match id with Some s => Nat.max k (s + 1) | None => k end.

  (** simple_vec_cache.rs 70-176. *)
  Definition vec_cache_ops : fst_cache K vec_cache :=
    FC (fun c => fst (vc_start c))
       (fun id c => VC (Some id, start_known id (snd (vc_start c))) (vc_trs c) (vc_fin c))
       (fun id c => option_map ct_trs (fetch (fst (vc_trs c)) id))
       (fun id l c => let (e, k) := count_trs l (snd (vc_trs c)) in
                      VC (vc_start c) (put (fst (vc_trs c)) id e, k) (vc_fin c))
       (fun id c => fetch (fst (vc_fin c)) id)
       (fun id w c => VC (vc_start c) (vc_trs c)
                         (put (fst (vc_fin c)) id w, Nat.max (snd (vc_fin c)) (id + 1)))
       (fun id c => option_map (fun e => length (ct_trs e)) (fetch (fst (vc_trs c)) id))
       (fun id c => option_map ct_nie (fetch (fst (vc_trs c)) id))
       (fun id c => option_map ct_noe (fetch (fst (vc_trs c)) id))
       (fun c => Nat.max (Nat.max (Nat.max 0 (snd (vc_start c))) (snd (vc_trs c))) (snd (vc_fin c))).

  (** simple_hash_map_cache.rs 28-36; hash maps are association lists, newest entry first. *)
  Record map_cache := MC {
    mc_start : cached (option (option nat));
    mc_trs : cached (list (nat * cache_trs));
    mc_fin : cached (list (nat * option K))
  }.
  Definition map_cache_new : map_cache := MC (None, 0) ([], 0) ([], 0).
  Fixpoint lookup {A} (l : list (nat * A)) (id : nat) : option A :=
    match l with [] => None | (i, a) :: l' => if Nat.eqb i id then Some a else lookup l' id end.
  (** [HashMap::insert] replaces the value of an existing key. *)
  Definition insert {A} (l : list (nat * A)) (id : nat) (a : A) : list (nat * A) :=
    (id, a) :: filter (fun p => negb (Nat.eqb (fst p) id)) l.

  (** simple_hash_map_cache.rs 70-167. *)
  Definition map_cache_ops : fst_cache K map_cache :=
    FC (fun c => fst (mc_start c))
       (fun id c => MC (Some id, start_known id (snd (mc_start c))) (mc_trs c) (mc_fin c))
       (fun id c => option_map ct_trs (lookup (fst (mc_trs c)) id))
       (fun id l c => let (e, k) := count_trs l (snd (mc_trs c)) in
                      MC (mc_start c) (insert (fst (mc_trs c)) id e, k) (mc_fin c))
       (fun id c => lookup (fst (mc_fin c)) id)
       (fun id w c => MC (mc_start c) (mc_trs c)
                         (insert (fst (mc_fin c)) id w, Nat.max (snd (mc_fin c)) (id + 1)))
       (fun id c => option_map (fun e => length (ct_trs e)) (lookup (fst (mc_trs c)) id))
       (fun id c => option_map ct_nie (lookup (fst (mc_trs c)) id))
       (fun id c => option_map ct_noe (lookup (fst (mc_trs c)) id))
       (fun c => Nat.max (Nat.max (Nat.max 0 (snd (mc_start c))) (snd (mc_trs c))) (snd (mc_fin c))).

  (** first_cache.rs 6-10, 22-93: the last state asked, in front of another cache. *)
  Record first_cache (C : Type) := F1 {
    fc_cache : C; fc_trs : option (nat * list (tr K)); fc_fin : option (nat * option K) }.
  Definition first_get {A B} (last : option (nat * A)) (id : nat) (other : option B) (inj : A -> B) : option B :=
    match last with
    | Some (i, a) => if Nat.eqb i id then Some (inj a) else other
    | None => other
    end.
  Definition first_cache_ops {C} (X : fst_cache K C) : fst_cache K (first_cache C) :=
    FC (fun c => c_get_start X (fc_cache C c))
       (fun id c => F1 C (c_insert_start X id (fc_cache C c)) (fc_trs C c) (fc_fin C c))
       (fun id c => first_get (fc_trs C c) id (c_get_trs X id (fc_cache C c)) (fun l => l))
       (fun id l c => F1 C (c_insert_trs X id l (fc_cache C c)) (Some (id, l)) (fc_fin C c))
       (fun id c => first_get (fc_fin C c) id (c_get_final X id (fc_cache C c)) (fun w => w))
       (fun id w c => F1 C (c_insert_final X id w (fc_cache C c)) (fc_trs C c) (Some (id, w)))
       (fun id c => c_num_trs X id (fc_cache C c))
       (fun id c => c_num_ieps X id (fc_cache C c))
       (fun id c => c_num_oeps X id (fc_cache C c))
       (fun c => c_known X (fc_cache C c)).
End Caches.
Arguments cache_trs : clear implicits.
Arguments vec_cache : clear implicits.
Arguments map_cache : clear implicits.
Arguments first_cache : clear implicits.

Section Lazy.
  Context {K : SR} {O C : Type} (op : fst_op K O) (X : fst_cache K C).
  Implicit Types (z : O * C).

  (** lazy_fst.rs 36-46: an error of the operation is unwrapped. *)
  Definition l_start z : res (option nat * (O * C)) :=
    match c_get_start X (snd z) with
    | Some s => Ok (s, z)
    | None =>
        match compute_start op (fst z) with
        | Ok (s, o) => Ok (s, (o, c_insert_start X s (snd z)))
        | _ => Panic
        end
    end.

  (** lazy_fst.rs 48-58. *)
  Definition l_final_weight (id : nat) z : res (option K * (O * C)) :=
    match c_get_final X id (snd z) with
    | Some w => Ok (w, z)
    | None =>
        r <-- compute_final_weight op id (fst z) ;;
        Ok (fst r, (snd r, c_insert_final X id (fst r) (snd z)))
    end.

  (** lazy_fst.rs 74-83. *)
  Definition l_get_trs (id : nat) z : res (list (tr K) * (O * C)) :=
    match c_get_trs X id (snd z) with
    | Some l => Ok (l, z)
    | None =>
        r <-- compute_trs op id (fst z) ;;
        Ok (fst r, (snd r, c_insert_trs X id (fst r) (snd z)))
    end.

  (** lazy_fst.rs 64-68, 93-103. *)
  Definition of_option {A} (o : option A) : res A := match o with Some a => Ok a | None => Err end.
  Definition l_num_trs (id : nat) z : res nat := of_option (c_num_trs X id (snd z)).
  Definition l_num_ieps (id : nat) z : res nat := of_option (c_num_ieps X id (snd z)).
  Definition l_num_oeps (id : nat) z : res nat := of_option (c_num_oeps X id (snd z)).

  (** lazy_fst.rs 238-249: one transition of the expanded state. *)
  Definition see (st : list nat * list bool * vfst K) (t : tr K) : list nat * list bool * vfst K :=
    let '(queue, vis, g) := st in
    let vis := if Nat.leb (length vis) (ns t) then vis ++ repeat false (ns t + 1 - length vis) else vis in
    let n := num_states g in
    (if nth (ns t) vis false then queue else queue ++ [ns t],
     if nth (ns t) vis false then vis else upd vis (ns t) true,
     if Nat.leb n (ns t) then add_states g (ns t - n + 1) else g).

  (** lazy_fst.rs 235-254. [None]: out of fuel. *)
  Fixpoint bfs (fuel : nat) (queue : list nat) (vis : list bool) (g : vfst K) z
    : option (res (vfst K * (O * C))) :=
    match queue with
    | [] => Some (Ok (g, z))
    | s :: queue =>
        match fuel with
        | 0 => None
        | S fuel =>
            match l_get_trs s z with
            | Ok (l, z) =>
                let '(queue, vis, g) := fold_left see l (queue, vis, g) in
                match set_trs g s l with
                | Ok g =>
                    match l_final_weight s z with
                    | Ok (None, z) => bfs fuel queue vis g z
                    | Ok (Some w, z) =>
                        match set_final g s w with
                        | Ok g => bfs fuel queue vis g z
                        | Err => Some Err
                        | Panic => Some Panic
                        end
                    | Err => Some Err
                    | Panic => Some Panic
                    end
                | Err => Some Err
                | Panic => Some Panic
                end
            | Err => Some Err
            | Panic => Some Panic
            end
        end
    end.

  (** lazy_fst.rs 221-266. *)
  Definition compute (fuel : nat) (isym osym : option symtab) z : option (res (vfst K * (O * C))) :=
    match l_start z with
    | Ok (None, z) => Some (Ok (vnew, z))
    | Ok (Some s, z) =>
        match set_start (add_states vnew (s + 1)) s with
        | Ok g =>
            match bfs fuel [s] (upd (repeat false (s + 1)) s true) g z with
            | Some (Ok (g, z)) =>
                Some (Ok (VF (vstates g) (vstart g)
                             (match isym with Some _ => isym | None => visymt g end)
                             (match osym with Some _ => osym | None => vosymt g end)
                             (op_properties op), z))
            | r => r
            end
        | Err => Some Err
        | Panic => Some Panic
        end
    | Err => Some Err
    | Panic => Some Panic
    end.
End Lazy.

(** The shape shared by the table-driven operations (composition, factoring, replacement,
    determinisation): states are tuples numbered by a table in the order they are met. *)
Record ttr (K : SR) (T : Type) := TT { ti : nat; to : nat; tw : K; tn : T }.
Arguments TT {K T}.
Arguments ti {K T}.
Arguments to {K T}.
Arguments tw {K T}.
Arguments tn {K T}.

Section Table.
  Context {K : SR} {T : Type} (eqb : T -> T -> bool).
  Variable tstart : res (option T).
  Variable ttrs : T -> res (list (ttr K T)).
  Variable tfin : T -> res (option K).
  Variable props : N.

  Definition table_op : fst_op K (bimap T) :=
    FO (fun b => o <-- tstart ;;
                 match o with
                 | None => Ok (None, b)
                 | Some t => let (b, i) := find_id eqb b t in Ok (Some i, b)
                 end)
       (fun id b => t <-- find_tuple b id ;;
                    l <-- ttrs t ;;
                    let (b, is) := find_ids eqb b (map tn l) in
                    Ok (map (fun p => Tr (ti (fst p)) (to (fst p)) (tw (fst p)) (snd p)) (combine l is), b))
       (fun id b => t <-- find_tuple b id ;; w <-- tfin t ;; Ok (w, b))
       props.
End Table.
