(** [FstPath] and [check_path_in_fst]: rustfst/src/fst_path.rs. *)
From Coq Require Import List Arith NArith Bool.
From Verif Require Import Base.Util Base.Semiring Base.Machine Model.VectorFst.
Import ListNotations.
Local Open Scope K_scope.

Section P.
  Context {K : SR}.

  (** fst_path.rs 13-20. *)
  Record fpath := FP { pil : list nat; pol : list nat; pwgt : K }.
  (** 35-45, 48-50, 53-57, 59-61 and [Default] 64-72: the empty path has weight one. *)
  Definition add_to_path (p : fpath) (i o : nat) (w : K) : fpath :=
    FP (if Nat.eqb i 0 then pil p else pil p ++ [i]) (if Nat.eqb o 0 then pol p else pol p ++ [o]) (pwgt p * w).
  Definition path_add_weight (p : fpath) (w : K) : fpath := FP (pil p) (pol p) (pwgt p * w).
  Definition path_concat (p q : fpath) : fpath := FP (pil p ++ pil q) (pol p ++ pol q) (pwgt p * pwgt q).
  Definition path_is_empty (p : fpath) : bool :=
    match pil p, pol p with [], [] => keqb (pwgt p) 1 | _, _ => false end.
  Definition path_default : fpath := FP [] [] 1.

  (** 86-91. *)
  Record bfs := BS { b_state : nat; b_w : K; b_i : nat; b_o : nat }.

  (** One transition in the loop 121-157: [Some None] is [continue]; [None] is the panic of
      indexing the output labels with the input position. *)
  Definition check_tr (p : fpath) (b : bfs) (t : tr K) : res (option bfs) :=
    let mi := match nth_error (pil p) (b_i b) with Some l => Nat.eqb (il t) l | None => false end in
    mo <-- (if Nat.ltb (b_o b) (length (pol p))
            then match nth_error (pol p) (b_i b) with Some l => Ok (Nat.eqb (ol t) l) | None => Panic end
            else Ok false) ;;
    let go i o := Ok (Some (BS (ns t) (b_w b * wgt t) i o)) in
    match Nat.eqb (il t) 0, Nat.eqb (ol t) 0 with
    | true, true => go (b_i b) (b_o b)
    | false, true => if mi then go (S (b_i b)) (b_o b) else Ok None
    | true, false => if mo then go (b_i b) (S (b_o b)) else Ok None
    | false, false => if mi && mo then go (S (b_i b)) (S (b_o b)) else Ok None
    end.
  Fixpoint check_trs (p : fpath) (b : bfs) (l : list (tr K)) : res (list bfs) :=
    match l with
    | [] => Ok []
    | t :: l' =>
        o <-- check_tr p b t ;;
        r <-- check_trs p b l' ;;
        Ok (match o with Some x => x :: r | None => r end)
    end.

  Definition check_done (f : vfst K) (p : fpath) (b : bfs) : bool :=
    Nat.leb (length (pil p)) (b_i b) && Nat.leb (length (pol p)) (b_o b) &&
    match fin_of f (b_state b) with Some w => keqb (b_w b * w) (pwgt p) | None => false end.

  (** The loop 105-158; [None]: still running after [fuel] iterations. *)
  Fixpoint check_loop (fuel : nat) (f : vfst K) (p : fpath) (q : list bfs) : option (res bool) :=
    match q with
    | [] => Some (Ok false)
    | b :: q' =>
        match fuel with
        | O => None
        | S fuel' =>
            if Nat.leb (num_states f) (b_state b) then Some Panic (* the unchecked accessors *)
            else if check_done f p b then Some (Ok true)
            else match check_trs p b (trs_of f (b_state b)) with
                 | Ok l => check_loop fuel' f p (q' ++ l)
                 | Err => Some Err
                 | Panic => Some Panic
                 end
        end
    end.

  (** 94-162. *)
  Definition check_path_in_fst (fuel : nat) (f : vfst K) (p : fpath) : option (res bool) :=
    match vstart f with
    | Some s => check_loop fuel f p [BS s 1 0 0]
    | None => Some (Ok (path_is_empty p))
    end.
End P.
Arguments fpath K : clear implicits.
Arguments bfs K : clear implicits.
