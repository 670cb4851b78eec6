(** Partition refinement structure: rustfst/src/algorithms/partition.rs. *)
From Coq Require Import List Arith Lia Bool.
From Verif Require Import Base.Util.
Import ListNotations.

(** partition.rs 191-197 and 211-216. The i32 links use -1 for "none"; the model uses [None].
    i32 overflow is not modelled. *)
Record elem := El { ecls : nat; eyes : nat; enext : option nat; eprev : option nat }.
Record pclass := Cl { csize : nat; cysize : nat; cno : option nat; cyes : option nat }.
(** partition.rs 4-10. *)
Record partition := Pt { pels : list elem; pcls : list pclass; pvis : list nat; pcnt : nat }.

(** partition.rs 199-208, 218-227. *)
Definition elem_new : elem := El 0 0 (Some 0) (Some 0).
Definition pclass_new : pclass := Cl 0 0 None None.

(** partition.rs 13-33. *)
Definition partition_new (n : nat) : partition := Pt (repeat elem_new n) [] [] 1.

(** partition.rs 35-45. *)
Definition p_allocate (p : partition) (k : nat) : partition :=
  Pt (pels p) (pcls p ++ repeat pclass_new k) (pvis p) (pcnt p).
Definition p_add_class (p : partition) : nat * partition := (length (pcls p), p_allocate p 1).

(** [self.elements[i].next_element = v], [self.elements[i].prev_element = v]; out of range
    panics. *)
Definition set_next (l : list elem) (i : nat) (v : option nat) : res (list elem) :=
  match nth_error l i with
  | None => Panic
  | Some e => Ok (upd l i (El (ecls e) (eyes e) v (eprev e)))
  end.
Definition set_prev (l : list elem) (i : nat) (v : option nat) : res (list elem) :=
  match nth_error l i with
  | None => Panic
  | Some e => Ok (upd l i (El (ecls e) (eyes e) (enext e) v))
  end.
Definition set_next_opt (l : list elem) (o : option nat) v := match o with Some i => set_next l i v | None => Ok l end.
Definition set_prev_opt (l : list elem) (o : option nat) v := match o with Some i => set_prev l i v | None => Ok l end.

(** partition.rs 47-62. *)
Definition p_add (p : partition) (e c : nat) : res partition :=
  match nth_error (pcls p) c with
  | None => Panic
  | Some k =>
      els <-- set_prev_opt (pels p) (cno k) (Some e) ;;
      if Nat.ltb e (length els)
      then Ok (Pt (upd els e (El c 0 (cno k) None))
                  (upd (pcls p) c (Cl (S (csize k)) (cysize k) (Some e) (cyes k))) (pvis p) (pcnt p))
      else Panic
  end.

(** partition.rs 64-83. The size of the old class is a usize: 0 - 1 panics. *)
Definition p_move (p : partition) (e c : nat) : res partition :=
  match nth_error (pels p) e with
  | None => Panic
  | Some x =>
      match nth_error (pcls p) (ecls x) with
      | None => Panic
      | Some k =>
          match csize k with
          | O => Panic
          | S n =>
              els1 <-- set_next_opt (pels p) (eprev x) (enext x) ;;
              let no := match eprev x with Some _ => cno k | None => enext x end in
              els2 <-- set_prev_opt els1 (enext x) (eprev x) ;;
              p_add (Pt els2 (upd (pcls p) (ecls x) (Cl n (cysize k) no (cyes k))) (pvis p) (pcnt p)) e c
          end
      end
  end.

(** partition.rs 85-119. *)
Definition p_split_on (p : partition) (e : nat) : res partition :=
  match nth_error (pels p) e with
  | None => Panic
  | Some x =>
      match nth_error (pcls p) (ecls x) with
      | None => Panic
      | Some k =>
          if Nat.eqb (eyes x) (pcnt p) then Ok p
          else
            els1 <-- set_next_opt (pels p) (eprev x) (enext x) ;;
            let no := match eprev x with Some _ => cno k | None => enext x end in
            els2 <-- set_prev_opt els1 (enext x) (eprev x) ;;
            els3 <-- set_prev_opt els2 (cyes k) (Some e) ;;
            let vis := match cyes k with Some _ => pvis p | None => pvis p ++ [ecls x] end in
            match nth_error els3 e with
            | None => Panic
            | Some y =>
                Ok (Pt (upd els3 e (El (ecls y) (pcnt p) (cyes k) None))
                       (upd (pcls p) (ecls x) (Cl (csize k) (S (cysize k)) no (Some e))) vis (pcnt p))
            end
      end
  end.

(** The loop of partition.rs 155-162. *)
Fixpoint relabel_list (fuel : nat) (els : list elem) (h : option nat) (c : nat) : res (list elem) :=
  match h with
  | None => Ok els
  | Some e =>
      match fuel with
      | O => Panic
      | S fuel' =>
          match nth_error els e with
          | None => Panic
          | Some x => relabel_list fuel' (upd els e (El c (eyes x) (enext x) (eprev x))) (enext x) c
          end
      end
  end.

(** partition.rs 121-165; the result [None] is the returned -1. [size - yes_size] is a usize
    subtraction. *)
Definition p_split_refine (p : partition) (c : nat) : res (option nat * partition) :=
  match nth_error (pcls p) c with
  | None => Panic
  | Some k =>
      if Nat.ltb (csize k) (cysize k) then Panic
      else
        let nos := csize k - cysize k in
        if Nat.eqb nos 0
        then Ok (None, Pt (pels p) (upd (pcls p) c (Cl (csize k) 0 (cyes k) None)) (pvis p) (pcnt p))
        else
          let nc := length (pcls p) in
          let '(old, new) :=
            if Nat.ltb nos (cysize k)
            then (Cl (cysize k) 0 (cyes k) None, Cl nos 0 (cno k) None)
            else (Cl nos 0 (cno k) None, Cl (cysize k) 0 (cyes k) None) in
          els <-- relabel_list (length (pels p)) (pels p) (cno new) nc ;;
          Ok (Some nc, Pt els (upd (pcls p) c old ++ [new]) (pvis p) (pcnt p))
  end.

(** partition.rs 167-178; the second component lists the classes passed to the queue. *)
Definition p_finalize (p : partition) : res (partition * list nat) :=
  r <-- fold_left (fun r c =>
          x <-- r ;;
          y <-- p_split_refine (fst x) c ;;
          Ok (snd y, match fst y with Some nc => snd x ++ [nc] | None => snd x end))
        (pvis p) (Ok (p, [])) ;;
  Ok (Pt (pels (fst r)) (pcls (fst r)) [] (S (pcnt (fst r))), snd r).

(** partition.rs 180-194. *)
Definition p_class_id (p : partition) (e : nat) : res nat :=
  match nth_error (pels p) e with Some x => Ok (ecls x) | None => Panic end.
Definition p_class_size (p : partition) (c : nat) : res nat :=
  match nth_error (pcls p) c with Some k => Ok (csize k) | None => Panic end.
Definition p_num_classes (p : partition) : nat := length (pcls p).

(** partition.rs 229-264: all the elements an iterator over class [c] yields. *)
Fixpoint p_walk (fuel : nat) (els : list elem) (h : option nat) : res (list nat) :=
  match h with
  | None => Ok []
  | Some e =>
      match fuel with
      | O => Panic
      | S fuel' =>
          match nth_error els e with
          | None => Panic
          | Some x => l <-- p_walk fuel' els (enext x) ;; Ok (e :: l)
          end
      end
  end.
Definition p_iter (p : partition) (c : nat) : res (list nat) :=
  match nth_error (pcls p) c with
  | None => Panic
  | Some k => p_walk (length (pels p)) (pels p) (cno k)
  end.
