(** The paths iterator, the linear machines built from labels and their decoding:
    rustfst/src/fst_traits/paths_iterator.rs, rustfst/src/utils/labels_to_fst.rs,
    rustfst/src/utils/fst_to_labels.rs, rustfst/src/utils/epsilon_machine.rs. *)
From Coq Require Import List Arith NArith Bool.
From Verif Require Import Base.Util Base.Semiring Base.Machine Model.VectorFst Model.FstPath Model.Rational.
Import ListNotations.

Section P.
  Context {K : SR}.

  (** paths_iterator.rs 24-32: the queue of a new iterator. *)
  Definition pi_new (f : vfst K) : list (nat * fpath K) :=
    match vstart f with Some s => [(s, path_default)] | None => [] end.

  (** 42-62. The answer and the queue left behind; [None]: the [while] has not ended after [fuel]
      rounds, which happens when infinitely many paths are not accepting.  The unchecked accessors
      are modelled as panicking on a state that does not exist. *)
  Fixpoint pi_next (fuel : nat) (f : vfst K) (q : list (nat * fpath K)) : option (res (option (fpath K) * list (nat * fpath K))) :=
    match q with
    | [] => Some (Ok (None, []))
    | (s, p) :: q' =>
        match fuel with
        | O => None
        | S fuel' =>
            if Nat.leb (num_states f) s then Some Panic
            else
              let q'' := q' ++ map (fun t => (ns t, add_to_path p (il t) (ol t) (wgt t))) (trs_of f s) in
              match fin_of f s with
              | Some w => Some (Ok (Some (path_add_weight p w), q''))
              | None => pi_next fuel' f q''
              end
        end
    end.

  (** [n] successive calls of [next]. *)
  Fixpoint pi_calls (fuel : nat) (f : vfst K) (n : nat) (q : list (nat * fpath K)) : option (res (list (option (fpath K)))) :=
    match n with
    | O => Some (Ok [])
    | S n' =>
        match pi_next fuel f q with
        | Some (Ok (o, q')) =>
            match pi_calls fuel f n' q' with Some (Ok l) => Some (Ok (o :: l)) | r => r end
        | Some _ => Some Panic
        | None => None
        end
    end.

  (** fst_to_labels.rs 29-36. *)
  Definition decode_linear_fst (fuel : nat) (f : vfst K) : option (res (fpath K)) :=
    match pi_next fuel f (pi_new f) with
    | Some (Ok (o, q)) =>
        match pi_next fuel f q with
        | Some (Ok (Some _, _)) => Some Err
        | Some (Ok (None, _)) => Some (Ok (match o with Some p => p | None => path_default end))
        | Some _ => Some Panic
        | None => None
        end
    | Some _ => Some Panic
    | None => None
    end.

  (** One round of the loops labels_to_fst.rs 56-67 and 118-125. *)
  Definition linear_step (x : vfst K * nat) (io : nat * nat) : res (vfst K * nat) :=
    let (f1, s) := add_state (fst x) in
    g <-- unwrap (add_tr f1 (snd x) (Tr (fst io) (snd io) (@kone K) s)) ;;
    Ok (g, s).
  Definition linear_fst (l : list (nat * nat)) (w : K) : res (vfst K) :=
    let (f0, s0) := add_state (@vnew K) in
    f1 <-- unwrap (set_start f0 s0) ;;
    x <-- rfold linear_step l (f1, s0) ;;
    unwrap (set_final (fst x) (snd x) w).

  (** labels_to_fst.rs 43-73. *)
  Definition transducer (xs ys : list nat) (w : K) : res (vfst K) :=
    linear_fst (map (fun i => (nth i xs 0, nth i ys 0)) (seq 0 (Nat.max (length xs) (length ys)))) w.
  (** 111-131. *)
  Definition acceptor (xs : list nat) (w : K) : res (vfst K) := linear_fst (map (fun x => (x, x)) xs) w.

  (** epsilon_machine.rs 6-12. *)
  Definition epsilon_machine : res (vfst K) :=
    let (f0, s0) := add_state (@vnew K) in
    f1 <-- set_start f0 s0 ;;
    set_final f1 s0 (@kone K).
End P.
