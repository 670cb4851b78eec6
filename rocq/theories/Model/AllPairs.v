(** All-pairs shortest distance: rustfst/src/algorithms/all_pairs_shortest_distance.rs 39-81. *)
From Coq Require Import List Arith Bool.
From Verif Require Import Base.Util Base.Semiring Base.Machine Model.VectorFst.
Import ListNotations.

Section A.
  Context {K : SR}.
  Local Open Scope K_scope.

  (** [d[i][j]], as read and as written. The elimination only uses indices from [states_iter],
      which are below the dimension; the first loop, which indexes with [nextstate], checks. *)
  Definition mget (d : list (list K)) (i j : nat) : K := nth j (nth i d []) 0.
  Definition mset (d : list (list K)) (i j : nat) (v : K) : list (list K) := upd d i (upd (nth i d []) j v).

  (** 49-58. *)
  Definition ap_row (n s : nat) (r : res (list (list K))) (l : list (tr K)) : res (list (list K)) :=
    fold_left (fun r t => d <-- r ;; if Nat.ltb (ns t) n then Ok (mset d s (ns t) (mget d s (ns t) + wgt t)) else Panic) l r.
  Definition ap_init (f : vfst K) : res (list (list K)) :=
    fold_left (fun r s => ap_row (num_states f) s r (trs_of f s)) (seq 0 (num_states f))
      (Ok (repeat (repeat 0 (num_states f)) (num_states f))).

  (** 60-77. *)
  Definition others (n k : nat) : list nat := filter (fun s => negb (Nat.eqb s k)) (seq 0 n).
  Definition ap_inner (k : nat) (c : K) (i : nat) (js : list nat) (d : list (list K)) : list (list K) :=
    fold_left (fun d j => mset d i j (mget d i j + mget d i k * c * mget d k j)) js d.
  Definition ap_cross (k : nat) (c : K) (is_ : list nat) (d : list (list K)) : list (list K) :=
    fold_left (fun d i => let d := mset d k i (c * mget d k i) in mset d i k (mget d i k * c)) is_ d.
  Definition ap_round (closure : K -> K) (n : nat) (d : list (list K)) (k : nat) : list (list K) :=
    let c := closure (mget d k k) in
    let d := fold_left (fun d i => ap_inner k c i (others n k) d) (others n k) d in
    mset (ap_cross k c (others n k) d) k k c.

  (** 39-81. *)
  Definition all_pairs_shortest_distance (closure : K -> K) (f : vfst K) : res (list (list K)) :=
    d <-- ap_init f ;;
    Ok (fold_left (ap_round closure (num_states f)) (seq 0 (num_states f)) d).
End A.
