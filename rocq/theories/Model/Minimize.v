(** Minimization: rustfst/src/algorithms/minimize.rs.

    The branch for transducers (117-159, through the gallic semiring) is in [MinTransducer.v].  The [Rc]
    and [RefCell] around the partition are dropped: the partition is threaded.  Weights meet
    two parameters: [wlt] is the [PartialOrd] of the weights, [rv] is [W::reverse]. *)
From Coq Require Import List Arith ZArith NArith Bool.
From Verif Require Import Base.Util Base.Semiring Base.Machine Model.Props Model.VectorFst Model.TrOps Model.Dfs Model.Visitors
  Model.ComputeProps Model.Relabel Model.Rational Model.Partition Model.Queues Model.ShortestDistance Model.Reweight
  Model.TrMap Model.Encode.
Import ListNotations.

Section Merge.
  Context {K : SR}.
  Implicit Types (f : vfst K) (p : partition).

  (** [state_map[i].unwrap()]. *)
  Definition rep_of (sm : list (option nat)) (c : nat) : res nat :=
    match nth_error sm c with Some (Some s) => Ok s | _ => Panic end.
  (** 219-227: the first element of every class. *)
  Definition state_map p : res (list (option nat)) :=
    rfold (fun sm i => l <-- p_iter p i ;; Ok (sm ++ [hd_error l])) (seq 0 (p_num_classes p)) [].
  Definition target p (sm : list (option nat)) (q : nat) : res nat := c <-- p_class_id p q ;; rep_of sm c.

  (** 230-260: one element of one class. *)
  Definition merge_one p (sm : list (option nat)) (c : nat) f (s : nat) : res (vfst K) :=
    r <-- rep_of sm c ;;
    if Nat.eqb s r then
      if Nat.ltb s (num_states f) then
        for_trs (fun h s i => with_tr h s i (fun t => q <-- target p sm (ns t) ;; iter_set_nextstate h s i q)) f s
      else Err
    else
      l <-- get_trs f s ;;
      rfold (fun h t => q <-- target p sm (ns t) ;; add_tr h r (Tr (il t) (ol t) (wgt t) q)) l f.
  Definition merge_class p (sm : list (option nat)) f (c : nat) : res (vfst K) :=
    l <-- p_iter p c ;; rfold (merge_one p sm c) l f.

  (** 213-275. *)
  Definition merge_states p f : res (vfst K) :=
    sm <-- state_map p ;;
    g <-- rfold (merge_class p sm) (seq 0 (p_num_classes p)) f ;;
    match vstart g with
    | None => Panic
    | Some s => q <-- target p sm s ;; g <-- set_start g q ;; connect g
    end.
End Merge.

(** ** Acyclic machines *)
Section Acyclic.
  Context {K : SR}.
  Implicit Types (f : vfst K) (p : partition).

  (** The sets and the vector of [fst_depth]; [fully_examined_states] is never read. *)
  Record depth := DP { dp_acc : list nat; dp_hts : list Z }.
  (** 278-313. The fuel bounds the depth of the recursion and is never reached. *)
  Fixpoint fst_depth (fuel : nat) f (s : nat) (d : depth) : res depth :=
    match fuel with
    | O => Panic
    | S fuel' =>
        l <-- get_trs f s ;;
        r <-- rfold (fun x t =>
               d <-- (if existsb (Nat.eqb (ns t)) (dp_acc (fst x)) then Ok (fst x) else fst_depth fuel' f (ns t) (fst x)) ;;
               match nth_error (dp_hts d) (ns t) with
               | None => Panic
               | Some h => Ok (d, Z.max (snd x) (1 + h)%Z)
               end) l (DP (s :: dp_acc d) (dp_hts d ++ repeat (-1)%Z (S s - length (dp_hts d))), 0%Z) ;;
        if Nat.ltb s (length (dp_hts (fst r)))
        then Ok (DP (dp_acc (fst r)) (upd (dp_hts (fst r)) s (snd r))) else Panic
    end.

  (** 329-349. A negative height cast to usize is out of range of the classes. *)
  Definition acyclic_initialize f : res partition :=
    match vstart f with
    | None => Panic
    | Some s =>
        d <-- fst_depth (S (num_states f)) f s (DP [] []) ;;
        let hts := dp_hts d in
        match hts with
        | [] => Panic
        | _ =>
            let p := p_allocate (partition_new (length hts)) (Z.to_nat (fold_right Z.max (-1)%Z hts + 1)%Z) in
            rfold (fun p x => if (snd x <? 0)%Z then Panic else p_add p (fst x) (Z.to_nat (snd x)))
                  (combine (seq 0 (length hts)) hts) p
        end
    end.

  Variable wlt : K -> K -> bool.

  Definition fweight f (s : nat) : res K := rmap (fun o => match o with Some w => w | None => kzero end) (final_weight f s).
  (** 420-437: the [zip] stops at the shorter list (here they have equal lengths). *)
  Fixpoint cmp_trs p (l1 l2 : list (tr K)) : res bool :=
    match l1, l2 with
    | t :: l1', u :: l2' =>
        if Nat.ltb (il t) (il u) then Ok true
        else if Nat.ltb (il u) (il t) then Ok false
        else
          a <-- p_class_id p (ns t) ;; b <-- p_class_id p (ns u) ;;
          if Nat.ltb a b then Ok true else if Nat.ltb b a then Ok false else cmp_trs p l1' l2'
    | _, _ => Ok false
    end.
  (** 393-440. *)
  Definition do_compare p f (x y : nat) : res bool :=
    xf <-- fweight f x ;; yf <-- fweight f y ;;
    if wlt xf yf then Ok true else if wlt yf xf then Ok false
    else
      nx <-- num_trs f x ;; ny <-- num_trs f y ;;
      if Nat.ltb nx ny then Ok true else if Nat.ltb ny nx then Ok false
      else
        l1 <-- get_trs f x ;; l2 <-- get_trs f y ;; cmp_trs p l1 l2.
  (** 442-460. *)
  Definition state_compare p f (x y : nat) : res comparison :=
    if Nat.eqb x y then Ok Eq
    else
      a <-- unwrap (do_compare p f x y) ;; b <-- unwrap (do_compare p f y x) ;;
      Ok (if negb a && negb b then Eq else if a then Lt else Gt).

  (** The [TreeMap] of the crate stable_bst as a list ordered by the comparator (which is a total
      preorder here, so that every search tree finds the same entry). *)
  Fixpoint tm_get (cmp : nat -> nat -> res comparison) (m : list (nat * nat)) (k : nat) : res (option nat) :=
    match m with
    | [] => Ok None
    | (x, v) :: m' =>
        c <-- cmp k x ;;
        match c with Eq => Ok (Some v) | Lt => Ok None | Gt => tm_get cmp m' k end
    end.
  Fixpoint tm_put (cmp : nat -> nat -> res comparison) (m : list (nat * nat)) (k v : nat) : res (list (nat * nat)) :=
    match m with
    | [] => Ok [(k, v)]
    | (x, w) :: m' =>
        c <-- cmp k x ;;
        match c with
        | Eq => Ok ((k, v) :: m')
        | Lt => Ok ((k, v) :: m)
        | Gt => r <-- tm_put cmp m' k v ;; Ok ((x, w) :: r)
        end
    end.

  (** 368-372: [get_or_insert]. *)
  Definition class_for f (x : list (nat * nat) * partition) (e : nat) : res (list (nat * nat) * partition) :=
    o <-- tm_get (state_compare (snd x) f) (fst x) e ;;
    match o with
    | Some _ => Ok x
    | None => let (c, p) := p_add_class (snd x) in
              m <-- tm_put (state_compare p f) (fst x) e c ;; Ok (m, p)
    end.
  (** 374-383. *)
  Definition move_to f (m : list (nat * nat)) p (s : nat) : res partition :=
    old <-- p_class_id p s ;;
    o <-- tm_get (state_compare p f) m s ;;
    match o with
    | None => Panic
    | Some c => if Nat.eqb old c then Ok p else p_move p s c
    end.
  (** 358-384: one height. *)
  Definition refine_height f p (h : nat) : res partition :=
    it <-- p_iter p h ;;
    match it with
    | [] => Panic
    | x :: rest =>
        mp <-- rfold (class_for f) rest ([(x, h)], p) ;;
        rfold (move_to f (fst mp)) it (snd mp)
    end.
  (** 351-386. *)
  Definition acyclic_refine f p : res partition := rfold (refine_height f) (seq 0 (p_num_classes p)) p.
  (** 319-327. *)
  Definition acyclic_minimizer f : res partition := p <-- acyclic_initialize f ;; acyclic_refine f p.
End Acyclic.

(** ** Other machines *)
Section Cyclic.
  Context {K K' : SR} (rv : K -> K').
  Implicit Types (f : vfst K) (p : partition).

  (** [Itertools::dedup]. *)
  Fixpoint dedup_labels (l : list nat) : list nat :=
    match l with
    | [] => []
    | a :: l' => match l' with
                 | b :: _ => if Nat.eqb a b then dedup_labels l' else a :: dedup_labels l'
                 | [] => l
                 end
    end.
  Fixpoint lm_find (m : list (list nat * nat)) (l : list nat) : option nat :=
    match m with [] => None | (x, c) :: m' => if leqb x l then Some c else lm_find m' l end.
  (** The two hash maps, [next_class] and the classes found so far. *)
  Record prest := PR { pr_fin : list (list nat * nat); pr_non : list (list nat * nat); pr_next : nat; pr_cls : list nat }.
  (** 473-503. *)
  Definition pre_state f (x : prest) (s : nat) : res prest :=
    if Nat.ltb s (num_states f) then
      let ls := dedup_labels (map il (trs_of f s)) in
      let fin := match fin_of f s with Some _ => true | None => false end in
      match lm_find (if fin then pr_fin x else pr_non x) ls with
      | Some c => Ok (PR (pr_fin x) (pr_non x) (pr_next x) (pr_cls x ++ [c]))
      | None => let c := pr_next x in
                Ok (PR (if fin then (ls, c) :: pr_fin x else pr_fin x) (if fin then pr_non x else (ls, c) :: pr_non x)
                       (S c) (pr_cls x ++ [c]))
      end
    else Panic.
  (** 462-513; the queue is a stack, its top first. *)
  Definition pre_partition f p : res (partition * list nat) :=
    x <-- rfold (pre_state f) (seq 0 (num_states f)) (PR [] [] 0 []) ;;
    p <-- rfold (fun p e => p_add p (fst e) (snd e)) (combine (seq 0 (num_states f)) (pr_cls x)) (p_allocate p (pr_next x)) ;;
    Ok (p, rev (seq 0 (pr_next x))).

  (** The [BinaryHeap] of transition iterators, each the list of transitions left: a bag that
      gives back one with the smallest label first (525-531, 596-608).  Which of them is up to the
      oracle [orc] (any sequence of choices). *)
  Variable orc : nat -> nat.
  Definition head_label (it : list (tr K')) : nat := match it with t :: _ => il t | [] => 0 end.
  Definition least_at (l : list (list (tr K'))) : list nat :=
    filter (fun i => forallb (fun it => Nat.leb (head_label (nth i l [])) (head_label it)) l) (seq 0 (length l)).
  Definition heap_pop (o : nat) (l : list (list (tr K'))) : list (tr K') * list (list (tr K')) :=
    let i := nth (o mod length (least_at l)) (least_at l) 0 in
    (nth i l [], firstn i l ++ skipn (S i) l).

  (** [finalize_split(&mut Some(&mut queue))]. *)
  Definition finalize_into p (q : list nat) : res (partition * list nat) :=
    x <-- p_finalize p ;; Ok (fst x, rev (snd x) ++ q).

  (** 545-566. The fuel is never reached. *)
  Fixpoint split_loop (fuel : nat) p (q : list nat) (n : nat) (prev : option nat) (heap : list (list (tr K')))
    : res (partition * list nat * nat) :=
    match heap with
    | [] => Ok (p, q, n)
    | _ =>
        match fuel with
        | O => Panic
        | S fuel' =>
            match heap_pop (orc n) heap with
            | ([], rest) => split_loop fuel' p q (S n) prev rest
            | (t :: it, rest) =>
                match ns t with
                | O => Panic
                | S from =>
                    x <-- (if match prev with Some a => Nat.eqb a (il t) | None => false end
                           then Ok (p, q) else finalize_into p q) ;;
                    c <-- p_class_id (fst x) from ;;
                    sz <-- p_class_size (fst x) c ;;
                    p' <-- (if Nat.ltb 1 sz then p_split_on (fst x) from else Ok (fst x)) ;;
                    split_loop fuel' p' (snd x) (S n) (Some (il t)) (match it with [] => rest | _ => it :: rest end)
                end
            end
        end
    end.

  (** 535-543. *)
  Definition collect (g : vfst K') (its : list nat) : res (list (list (tr K'))) :=
    rfold (fun l s => ts <-- get_trs g (s + 1) ;; Ok (match ts with [] => l | _ => l ++ [ts] end)) its [].

  (** 534-569. The fuel is never reached. *)
  Fixpoint cyc_loop (fuel : nat) (g : vfst K') p (q : list nat) (n : nat) : res partition :=
    match q with
    | [] => Ok p
    | c :: q =>
        match fuel with
        | O => Panic
        | S fuel' =>
            its <-- p_iter p c ;;
            heap <-- collect g its ;;
            x <-- split_loop (S (list_sum (map (@length _) heap))) p q n None heap ;;
            y <-- finalize_into (fst (fst x)) (snd (fst x)) ;;
            cyc_loop fuel' g (fst y) (snd y) (snd x)
        end
    end.

  (** 515-573. *)
  Definition cyclic_minimize f : res partition :=
    g <-- reverse rv f ;;
    g <-- tr_sort_i g ;;
    match num_states g with
    | O => Panic
    | S n =>
        x <-- pre_partition f (partition_new n) ;;
        cyc_loop (S n) g (fst x) (snd x) 0
    end.
End Cyclic.

Section Top.
  Context {K K' : SR} (rv : K -> K') (wlt : K -> K -> bool) (orc : nat -> nat).
  Implicit Types (f : vfst K).

  (** 182-211. *)
  Definition acceptor_minimize f (allow : bool) : res (vfst K) :=
    r <-- compute_and_update_properties f (mask [ACCEPTOR; UNWEIGHTED; ACYCLIC]) ;;
    if has (snd r) ACCEPTOR && has (snd r) UNWEIGHTED then
      g <-- connect (fst r) ;;
      if Nat.eqb (num_states g) 0 then Ok g
      else
        g <-- (if allow && has (snd r) ACYCLIC then
                 g <-- tr_sort_i g ;;
                 p <-- acyclic_minimizer wlt g ;;
                 merge_states p g
               else
                 p <-- cyclic_minimize rv orc g ;;
                 merge_states p g) ;;
        tr_unique g
    else Err.

  (** tr_mappers/quantize_mapper.rs 28-46. *)
  Definition quantize_mapper (quant : K -> K) : mapper unit K K :=
    weight_mapper (fun w => Ok (quant w)) (fun p => pkeep p pm_weight_invariant_properties).

  (** 89-174 for acceptors; [Err] stands for the refusals, [None] for a distance computation that
      ran out of fuel, and a transducer is not handled ([Some Err]). *)
  Definition minimize_acceptor (divide : K -> K -> divide_type -> res K) (quant : K -> K) (idem pathp rightp : bool)
      (rb : K' -> K) (allow_nondet : bool) (fuel : nat) f : option (res (vfst K)) :=
    match compute_and_update_properties f (mask [ACCEPTOR; I_DETERMINISTIC; WEIGHTED; UNWEIGHTED]) with
    | Ok (f, q) =>
        let det := has q I_DETERMINISTIC in
        if negb det && (negb idem || negb allow_nondet) then Some Err
        else if negb (has q ACCEPTOR) then Some Err
        else if has q WEIGHTED then
          match push_weights divide idem pathp rightp rv rb fuel f ToInitial false with
          | None => None
          | Some r => Some (
              g <-- r ;;
              x <-- tr_map (quantize_mapper quant) g tt ;;
              y <-- encode (fst x) EncodeWeightsAndLabels ;;
              g <-- acceptor_minimize (fst y) det ;;
              decode g EncodeWeightsAndLabels (snd y))
          end
        else Some (acceptor_minimize f det)
    | Err => Some Err
    | Panic => Some Panic
    end.
End Top.
