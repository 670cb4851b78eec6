(** rustfst/src/fst_properties/compute_fst_properties.rs and the two wrappers of
    rustfst/src/fst_traits/mutable_fst.rs 435-446. *)
From Coq Require Import List Arith NArith ZArith Bool.
From Verif Require Import Base.Util Base.Semiring Base.Machine
  Model.Props Model.VectorFst Model.TrOps Model.Dfs Model.Visitors.
Import ListNotations.

(** bitflags [intersects]. *)
Definition intersects (p q : N) : bool := negb (N.eqb (N.land p q) 0).
(** The recurring [comp_props |= neg; comp_props &= !pos]. *)
Definition mark (c : bool) (neg pos : pbit) (p : N) : N := if c then pclr (pset p [neg]) [pos] else p.

(** compute_fst_properties.rs 33-40. *)
Definition dfs_props : list pbit :=
  [ACYCLIC; CYCLIC; INITIAL_ACYCLIC; INITIAL_CYCLIC; ACCESSIBLE; NOT_ACCESSIBLE; COACCESSIBLE; NOT_COACCESSIBLE].

Section C.
  Context {K : SR}.
  Implicit Types (f : vfst K).

  (** Loop state of 81-180: the property set, the two hash sets (as lists; only membership is
      used) and the previous transition. *)
  Record cstate := CS { cs_p : N; cs_il : list nat; cs_ol : list nat; cs_prev : option (tr K) }.

  (** 100-180, one transition. [idet]/[odet] say whether the hash sets exist. *)
  Definition cfp_tr (idet odet : bool) (sccs : list Z) (s : nat) (c : cstate) (t : tr K) : res cstate :=
    let p := cs_p c in
    let p := mark (idet && existsb (Nat.eqb (il t)) (cs_il c)) NOT_I_DETERMINISTIC I_DETERMINISTIC p in
    let p := mark (odet && existsb (Nat.eqb (ol t)) (cs_ol c)) NOT_O_DETERMINISTIC O_DETERMINISTIC p in
    let p := mark (negb (Nat.eqb (il t) (ol t))) NOT_ACCEPTOR ACCEPTOR p in
    let p := mark (Nat.eqb (il t) 0 && Nat.eqb (ol t) 0) EPSILONS NO_EPSILONS p in
    let p := mark (Nat.eqb (il t) 0) I_EPSILONS NO_I_EPSILONS p in
    let p := mark (Nat.eqb (ol t) 0) O_EPSILONS NO_O_EPSILONS p in
    let p := mark (match cs_prev c with Some u => Nat.ltb (il t) (il u) | None => false end)
                  NOT_I_LABEL_SORTED I_LABEL_SORTED p in
    let p := mark (match cs_prev c with Some u => Nat.ltb (ol t) (ol u) | None => false end)
                  NOT_O_LABEL_SORTED O_LABEL_SORTED p in
    let heavy := negb (keqb (wgt t) kone) && negb (keqb (wgt t) kzero) in
    let p := mark heavy WEIGHTED UNWEIGHTED p in
    p <-- (if heavy && has p UNWEIGHTED_CYCLES then
             match nth_error sccs s, nth_error sccs (ns t) with
             | Some a, Some b => Ok (mark (Z.eqb a b) WEIGHTED_CYCLES UNWEIGHTED_CYCLES p)
             | _, _ => Panic
             end
           else Ok p) ;;
    let p := mark (Nat.leb (ns t) s) NOT_TOP_SORTED TOP_SORTED p in
    let p := mark (negb (Nat.eqb (ns t) (s + 1))) NOT_STRING STRING p in
    Ok (CS p (il t :: cs_il c) (ol t :: cs_ol c) (Some t)).

  (** 82-197, one state; [nfinal] counts the final states seen. *)
  Definition cfp_state (idet odet : bool) (sccs : list Z) f (c : N * nat) (s : nat) : res (N * nat) :=
    let '(p, nfinal) := c in
    r <-- fold_left (fun r t => x <-- r ;; cfp_tr idet odet sccs s x t) (trs_of f s) (Ok (CS p [] [] None)) ;;
    let p := cs_p r in
    let p := mark (Nat.ltb 0 nfinal) NOT_STRING STRING p in
    match fin_of f s with
    | Some w => Ok (mark (negb (keqb w kone)) WEIGHTED UNWEIGHTED p, S nfinal)
    | None => Ok (mark (negb (Nat.eqb (length (trs_of f s)) 1)) NOT_STRING STRING p, nfinal)
    end.

  (** 15-209. Result: the properties and the [known] output. *)
  Definition compute_fst_properties f (m : N) (use_stored : bool) : res (N * N) :=
    let fst_props := vprops f in
    if use_stored && N.eqb (N.land (known_properties fst_props) m) m
    then Ok (fst_props, known_properties fst_props)
    else
      let comp := N.land fst_props binary_properties in
      let dfs := mask dfs_props in
      r <-- (if intersects m (pset (pset dfs [WEIGHTED_CYCLES]) [UNWEIGHTED_CYCLES]) then
               v <-- visit_scc f any_filter ;;
               Ok (N.lor comp (N.land dfs (sv_props v)), sv_scc v)
             else Ok (comp, [])) ;;
      let '(comp, sccs) := r in
      comp <-- (if intersects m (pnot (N.lor binary_properties dfs)) then
                  let comp := pset comp [ACCEPTOR; NO_EPSILONS; NO_I_EPSILONS; NO_O_EPSILONS;
                                I_LABEL_SORTED; O_LABEL_SORTED; UNWEIGHTED; TOP_SORTED; STRING] in
                  let idet := intersects m (mask [I_DETERMINISTIC; NOT_I_DETERMINISTIC]) in
                  let odet := intersects m (mask [O_DETERMINISTIC; NOT_O_DETERMINISTIC]) in
                  let comp := if idet then pset comp [I_DETERMINISTIC] else comp in
                  let comp := if odet then pset comp [O_DETERMINISTIC] else comp in
                  let comp := if intersects m (pset dfs [WEIGHTED_CYCLES; UNWEIGHTED_CYCLES])
                              then pset comp [UNWEIGHTED_CYCLES] else comp in
                  r <-- fold_left (fun r s => c <-- r ;; cfp_state idet odet sccs f c s)
                          (seq 0 (num_states f)) (Ok (comp, 0)) ;;
                  Ok (mark (match vstart f with Some s => negb (Nat.eqb s 0) | None => false end)
                           NOT_STRING STRING (fst r))
                else Ok comp) ;;
      Ok (comp, known_properties comp).

  (** mutable_fst.rs 435-441. *)
  Definition compute_and_update_properties f (m : N) : res (vfst K * N) :=
    r <-- compute_fst_properties f m true ;;
    Ok (set_properties_with_mask f (fst r) (snd r), N.land (fst r) m).
End C.
