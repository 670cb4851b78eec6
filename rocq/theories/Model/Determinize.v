(** Determinization of acceptors: rustfst/src/algorithms/determinize.

    The mutex around the state table is not modelled (one thread).  The pairs of a subset pass
    through a [HashMap] whose iteration order is arbitrary: it is the parameter [ord], which may
    depend on the subset expanded and on the label (every subset is expanded once per run, the
    transitions being cached, so this covers every sequence of orders a run can meet). *)
From Coq Require Import List Arith NArith Bool.
From Verif Require Import Base.Util Base.Semiring Base.Machine Model.Props Model.AlgoProps Model.VectorFst
  Model.TrOps Model.Lazy Model.Rational Model.ShortestPath.
Import ListNotations.
Local Open Scope K_scope.

(** [BiHashMap] of the bimap crate as a list of pairs, newest first. *)
Section BiHash.
  Context {T : Type} (eqb : T -> T -> bool).
  Fixpoint left_get (l : list (nat * T)) (n : nat) : option T :=
    match l with [] => None | (i, e) :: l' => if Nat.eqb i n then Some e else left_get l' n end.
  Fixpoint right_get (l : list (nat * T)) (x : T) : option nat :=
    match l with [] => None | (i, e) :: l' => if eqb x e then Some i else right_get l' x end.
  (** [insert] drops the pairs it overlaps. *)
  Definition bi_put (l : list (nat * T)) (n : nat) (x : T) : list (nat * T) :=
    (n, x) :: filter (fun p => negb (Nat.eqb (fst p) n) && negb (eqb x (snd p))) l.
End BiHash.

(** [iter().map(..).collect::<Result<_>>()]. *)
Fixpoint rtrav {A B} (f : A -> res B) (l : list A) : res (list B) :=
  match l with
  | [] => Ok []
  | a :: l' => b <-- f a ;; r <-- rtrav f l' ;; Ok (b :: r)
  end.

(** What the code uses of the weights besides products: [plus], the common divisor
    (divisors.rs 12-14), left division, quantization with the chosen delta and the
    LEFT_SEMIRING property. *)
Record det_weight (K : SR) := DW {
  d_plus : K -> K -> res K;
  d_cd : K -> K -> res K;
  d_div : K -> K -> res K;
  d_quant : K -> K;
  d_left : bool
}.
Arguments DW {K}.
Arguments d_plus {K}.
Arguments d_cd {K}.
Arguments d_div {K}.
Arguments d_quant {K}.
Arguments d_left {K}.

(** element.rs 3-7, 16-19, 31-35: a subset of weighted states with a filter state. *)
Definition delt (K : SR) := (nat * K)%type.
Definition dtuple (K : SR) := (list (nat * K) * nat)%type.

Section Det.
  Context {K : SR} (D : det_weight K) (ord : dtuple K -> nat -> list (nat * K) -> list (nat * K)) (f : vfst K).

  (** Derived [PartialEq]. *)
  Fixpoint pairs_eqb (a b : list (nat * K)) : bool :=
    match a, b with
    | [], [] => true
    | x :: a', y :: b' => Nat.eqb (fst x) (fst y) && keqb (snd x) (snd y) && pairs_eqb a' b'
    | _, _ => false
    end.
  Definition dtuple_eqb (a b : dtuple K) : bool := pairs_eqb (fst a) (fst b) && Nat.eqb (snd a) (snd b).

  (** determinize_fsa_op.rs 44-55. *)
  Definition det_start : res (option (dtuple K)) :=
    Ok (match vstart f with None => None | Some s => Some ([(s, 1)], s) end).

  (** 61-65: the labelled destinations of a subset, in order. *)
  Fixpoint det_out (l : list (nat * K)) : res (list (nat * delt K)) :=
    match l with
    | [] => Ok []
    | e :: l' =>
        trs <-- get_trs f (fst e) ;;
        r <-- det_out l' ;;
        Ok (map (fun t => (il t, (ns t, snd e * wgt t))) trs ++ r)
    end.
  (** 67-81: one entry per label, in increasing order ([BTreeMap]). *)
  Fixpoint lm_push (m : list (nat * list (nat * K))) (x : nat * delt K) : list (nat * list (nat * K)) :=
    match m with
    | [] => [(fst x, [snd x])]
    | (b, l) :: m' =>
        if Nat.ltb (fst x) b then (fst x, [snd x]) :: m
        else if Nat.eqb (fst x) b then (b, l ++ [snd x]) :: m'
        else (b, l) :: lm_push m' x
    end.

  (** 159-169: sums of weights by state. *)
  Fixpoint np_add (m : list (nat * K)) (x : nat * K) : res (list (nat * K)) :=
    match m with
    | [] => Ok [x]
    | (q, w) :: m' =>
        if Nat.eqb q (fst x) then v <-- d_plus D w (snd x) ;; Ok ((q, v) :: m')
        else r <-- np_add m' x ;; Ok ((q, w) :: r)
    end.
  (** 148-181 [norm_tr]; the weight starts at zero (element.rs 45). *)
  Definition norm_tr (t : dtuple K) (a : nat) (l : list (nat * K)) : res (K * list (nat * K)) :=
    let l := isort (fun x y => Nat.leb (fst x) (fst y)) l in
    d <-- rfold (fun d e => d_cd D d (snd e)) l 0 ;;
    m <-- rfold np_add l [] ;;
    r <-- rtrav (fun e => z <-- d_div D (snd e) d ;; Ok (fst e, d_quant D z)) (ord t a m) ;;
    Ok (d, r).

  (** 57-100, before the targets are numbered; the filter state of a target is 0 (71). *)
  Definition det_trs (t : dtuple K) : res (list (ttr K (dtuple K))) :=
    o <-- det_out (fst t) ;;
    rtrav (fun p => r <-- norm_tr t (fst p) (snd p) ;; Ok (TT (fst p) (fst p) (fst r) (snd r, O)))
      (fold_left lm_push o []).

  (** 102-121. *)
  Definition det_fin (t : dtuple K) : res (option K) :=
    w <-- rfold (fun acc e =>
            o <-- final_weight f (fst e) ;;
            d_plus D acc (snd e * match o with Some z => z | None => 0 end)) (fst t) 0 ;;
    Ok (if keqb w 0 then None else Some w).

  (** state_table.rs 12-18, 52-59. *)
  Record det_table := DT { dt_map : list (nat * dtuple K); dt_out : list (option K) }.
  Definition dt_new : det_table := DT [] [].
  (** state_table.rs 61-65. *)
  Definition dt_tuple (t : det_table) (id : nat) : res (dtuple K) :=
    match left_get (dt_map t) id with Some e => Ok e | None => Panic end.

  Section Table.
    Context (in_dist : option (list K)).

    (** state_table.rs 21-35. *)
    Definition compute_distance (dist : list K) (l : list (nat * K)) : res K :=
      rfold (fun acc e => d_plus D acc (snd e * nth (fst e) dist 0)) l 0.
    (** state_table.rs 75-96. *)
    Definition dt_find (t : det_table) (e : dtuple K) : res (det_table * nat) :=
      match right_get dtuple_eqb (dt_map t) e with
      | Some n => Ok (t, n)
      | None =>
          let n := length (dt_map t) in
          let m := bi_put dtuple_eqb (dt_map t) n e in
          match in_dist with
          | None => Ok (DT m (dt_out t), n)
          | Some dist =>
              let o := if Nat.leb (length (dt_out t)) n
                       then dt_out t ++ repeat None (n + 1 - length (dt_out t)) else dt_out t in
              match nth_error o n with
              | None => Panic
              | Some (Some _) => Ok (DT m o, n)
              | Some None => w <-- compute_distance dist (fst e) ;; Ok (DT m (upd o n (Some w)), n)
              end
          end
      end.
    (** determinize_fsa_op.rs 89-97. *)
    Fixpoint dt_number (t : det_table) (l : list (ttr K (dtuple K))) : res (det_table * list (tr K)) :=
      match l with
      | [] => Ok (t, [])
      | u :: l' => x <-- dt_find t (tn u) ;;
                   y <-- dt_number (fst x) l' ;;
                   Ok (fst y, Tr (ti u) (to u) (tw u) (snd x) :: snd y)
      end.

    (** determinize_fsa_op.rs 36-127. *)
    Definition det_op : fst_op K det_table :=
      FO (fun t => o <-- det_start ;;
                   match o with
                   | None => Ok (None, t)
                   | Some e => x <-- dt_find t e ;; Ok (Some (snd x), fst x)
                   end)
         (fun id t => e <-- dt_tuple t id ;;
                      l <-- det_trs e ;;
                      y <-- dt_number t l ;; Ok (snd y, fst y))
         (fun id t => e <-- dt_tuple t id ;; w <-- det_fin e ;; Ok (w, t))
         0%N.

    (** determinize_fsa.rs 151-163, determinize_fsa_op.rs 137-146, then [compute]. [None]: out of
        fuel, the expansion may be infinite. *)
    Definition det_run (fuel : nat) : option (res (vfst K * det_table)) :=
      if negb (d_left D) then Some Err
      else if negb (has (vprops f) ACCEPTOR) then Some Err
      else match compute det_op map_cache_ops fuel (visymt f) (vosymt f) (dt_new, map_cache_new) with
           | Some r => Some (rmap (fun x => (fst x, fst (snd x))) r)
           | None => None
           end.
  End Table.

  (** determinize_static.rs 42-54. *)
  Definition determinize_fsa (fuel : nat) : option (res (vfst K)) :=
    match det_run None fuel with Some r => Some (rmap fst r) | None => None end.

  (** determinize_static.rs 25-40 with determinize_fsa_op.rs 187-195. *)
  Definition determinize_with_distance (dist : list K) (fuel : nat) : option (res (vfst K * list K)) :=
    match det_run (Some dist) fuel with
    | Some r => Some (x <-- r ;;
                      o <-- rtrav (fun e => match e with Some w => Ok w | None => Err end) (dt_out (snd x)) ;;
                      Ok (fst x, o))
    | None => None
    end.
End Det.
Arguments det_table : clear implicits.

(** divisors.rs 19-23. *)
Definition default_weight {K : SR} (div : K -> K -> res K) (quant : K -> K) (left : bool) : det_weight K :=
  DW (fun a b => Ok (a + b)) (fun a b => Ok (a + b)) div quant left.

(** determinize_static.rs 179-205, the branch taken by acceptors. *)
Definition finish_determinize {K : SR} (f g : vfst K) (distinct : bool) : vfst K :=
  set_symts_from_fst (set_properties g (determinize_properties (vprops f) false distinct)) f.
Definition determinize_acceptor {K : SR} (D : det_weight K) ord (f : vfst K) (distinct : bool) (fuel : nat)
  : option (res (vfst K)) :=
  match determinize_fsa D ord f fuel with
  | Some r => Some (rmap (fun g => finish_determinize f g distinct) r)
  | None => None
  end.
