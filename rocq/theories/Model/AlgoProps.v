(** Property transfer functions of the algorithms:
    rustfst/src/fst_properties/mutate_properties.rs 114-748. *)
From Coq Require Import List Arith NArith Lia Bool.
From Verif Require Import Base.Util Model.Props.
Import ListNotations.

(** [if inprops.contains(b) { out |= l }]. *)
Definition when (c : bool) (l : list pbit) (out : N) : N := if c then pset out l else out.
(** [if c { out |= l & inp }]. *)
Definition copyif (c : bool) (l : list pbit) (inp out : N) : N :=
  if c then N.lor out (pkeep inp l) else out.

(** 114-145. *)
Definition closure_properties (inp : N) (delayed : bool) : N :=
  let out := pkeep inp [ACCEPTOR; UNWEIGHTED; ACCESSIBLE] in
  let out := when (has inp UNWEIGHTED) [UNWEIGHTED_CYCLES] out in
  let out := copyif (negb delayed) [COACCESSIBLE; NOT_TOP_SORTED; NOT_STRING] inp out in
  if negb delayed || has inp ACCESSIBLE then
    let out := copyif true [NOT_ACCEPTOR; NOT_I_DETERMINISTIC; NOT_O_DETERMINISTIC;
                 NOT_I_LABEL_SORTED; NOT_O_LABEL_SORTED; WEIGHTED; WEIGHTED_CYCLES;
                 NOT_ACCESSIBLE; NOT_COACCESSIBLE] inp out in
    when (has inp WEIGHTED && has inp ACCESSIBLE && has inp COACCESSIBLE) [WEIGHTED_CYCLES] out
  else out.

(** 151-184. *)
Definition compose_properties (p1 p2 : N) : N :=
  if has p1 ACCEPTOR && has p2 ACCEPTOR then
    let out := mask [ACCEPTOR; ACCESSIBLE] in
    let out := copyif true [NO_EPSILONS; NO_I_EPSILONS; NO_O_EPSILONS; ACYCLIC; INITIAL_ACYCLIC]
                 (N.land p1 p2) out in
    copyif (has p1 NO_I_EPSILONS && has p2 NO_I_EPSILONS) [I_DETERMINISTIC; O_DETERMINISTIC]
      (N.land p1 p2) out
  else
    let out := mask [ACCESSIBLE] in
    let out := copyif true [ACCEPTOR; NO_I_EPSILONS; ACYCLIC; INITIAL_ACYCLIC] (N.land p1 p2) out in
    copyif (has p1 NO_I_EPSILONS && has p2 NO_I_EPSILONS) [I_DETERMINISTIC] (N.land p1 p2) out.

(** 207-219 and 228-240. *)
Definition concat_carry : list pbit :=
  [NOT_ACCEPTOR; NOT_I_DETERMINISTIC; NOT_O_DETERMINISTIC; EPSILONS; I_EPSILONS; O_EPSILONS;
   NOT_I_LABEL_SORTED; NOT_O_LABEL_SORTED; WEIGHTED; WEIGHTED_CYCLES; CYCLIC; NOT_ACCESSIBLE;
   NOT_COACCESSIBLE].

(** 186-245. *)
Definition concat_properties (p1 p2 : N) (delayed : bool) : N :=
  let out := pkeep (N.land p1 p2) [ACCEPTOR; UNWEIGHTED; UNWEIGHTED_CYCLES; ACYCLIC] in
  let out := copyif (negb delayed) [NOT_TOP_SORTED; NOT_STRING] p1 out in
  let out := copyif (negb delayed) [NOT_TOP_SORTED; NOT_STRING] p2 out in
  let out := copyif (negb delayed) [INITIAL_ACYCLIC; INITIAL_CYCLIC] p1 out in
  let out := copyif (negb delayed || has p1 ACCESSIBLE) concat_carry p1 out in
  if has p1 ACCESSIBLE && has p1 COACCESSIBLE && negb delayed then
    let out := copyif true [ACCESSIBLE] p2 out in
    let out := copyif (negb delayed) [COACCESSIBLE] p2 out in
    copyif (negb delayed || has p2 ACCESSIBLE) concat_carry p2 out
  else out.

(** 247-279. *)
Definition determinize_properties (inp : N) (has_sub distinct : bool) : N :=
  let out := mask [ACCESSIBLE] in
  let out := when (has inp ACCEPTOR || (has inp NO_I_EPSILONS && distinct) || (has_sub && distinct))
               [I_DETERMINISTIC] out in
  let out := copyif true [ACCEPTOR; ACYCLIC; INITIAL_ACYCLIC; COACCESSIBLE; STRING] inp out in
  let out := copyif (has inp NO_I_EPSILONS && distinct) [NO_EPSILONS] inp out in
  let out := copyif (has inp ACCESSIBLE) [I_EPSILONS; O_EPSILONS; CYCLIC] inp out in
  let out := copyif (has inp ACCEPTOR) [NO_I_EPSILONS; NO_O_EPSILONS] inp out in
  when (has inp NO_I_EPSILONS && has_sub) [NO_I_EPSILONS] out.

(** 281-300. *)
Definition factor_weight_properties (inp : N) : N :=
  let out := pkeep inp [ACCEPTOR; ACYCLIC; ACCESSIBLE; COACCESSIBLE] in
  copyif (has inp ACCESSIBLE) [NOT_ACCEPTOR; NOT_I_DETERMINISTIC; NOT_O_DETERMINISTIC; EPSILONS;
     I_EPSILONS; O_EPSILONS; CYCLIC; NOT_I_LABEL_SORTED; NOT_O_LABEL_SORTED] inp out.

(** The label-independent bits kept by invert / project / relabel. *)
Definition shape_bits : list pbit :=
  [WEIGHTED; UNWEIGHTED; WEIGHTED_CYCLES; UNWEIGHTED_CYCLES; CYCLIC; ACYCLIC; INITIAL_CYCLIC;
   INITIAL_ACYCLIC; TOP_SORTED; NOT_TOP_SORTED; ACCESSIBLE; NOT_ACCESSIBLE; COACCESSIBLE;
   NOT_COACCESSIBLE; STRING; NOT_STRING].

(** 302-363. *)
Definition invert_properties (inp : N) : N :=
  let out := pkeep inp ([ACCEPTOR; NOT_ACCEPTOR; EPSILONS; NO_EPSILONS] ++ shape_bits) in
  let out := when (has inp I_DETERMINISTIC) [O_DETERMINISTIC] out in
  let out := when (has inp NOT_I_DETERMINISTIC) [NOT_O_DETERMINISTIC] out in
  let out := when (has inp O_DETERMINISTIC) [I_DETERMINISTIC] out in
  let out := when (has inp NOT_O_DETERMINISTIC) [NOT_I_DETERMINISTIC] out in
  let out := when (has inp I_EPSILONS) [O_EPSILONS] out in
  let out := when (has inp NO_I_EPSILONS) [NO_O_EPSILONS] out in
  let out := when (has inp O_EPSILONS) [I_EPSILONS] out in
  let out := when (has inp NO_O_EPSILONS) [NO_I_EPSILONS] out in
  let out := when (has inp I_LABEL_SORTED) [O_LABEL_SORTED] out in
  let out := when (has inp NOT_I_LABEL_SORTED) [NOT_O_LABEL_SORTED] out in
  let out := when (has inp O_LABEL_SORTED) [I_LABEL_SORTED] out in
  when (has inp NOT_O_LABEL_SORTED) [NOT_I_LABEL_SORTED] out.

Inductive project_type := ProjectInput | ProjectOutput.

(** 365-447. *)
Definition project_properties (inp : N) (pt : project_type) : N :=
  let out := mask [ACCEPTOR] in
  let out := copyif true shape_bits inp out in
  match pt with
  | ProjectInput =>
      let out := copyif true [I_DETERMINISTIC; NOT_I_DETERMINISTIC; I_EPSILONS; NO_I_EPSILONS;
                              I_LABEL_SORTED; NOT_I_LABEL_SORTED] inp out in
      let out := when (has inp I_DETERMINISTIC) [O_DETERMINISTIC] out in
      let out := when (has inp NOT_I_DETERMINISTIC) [NOT_O_DETERMINISTIC] out in
      let out := when (has inp I_EPSILONS) [O_EPSILONS; EPSILONS] out in
      let out := when (has inp NO_I_EPSILONS) [NO_O_EPSILONS; NO_EPSILONS] out in
      let out := when (has inp I_LABEL_SORTED) [O_LABEL_SORTED] out in
      when (has inp NOT_I_LABEL_SORTED) [NOT_O_LABEL_SORTED] out
  | ProjectOutput =>
      let out := copyif true [O_DETERMINISTIC; NOT_O_DETERMINISTIC; O_EPSILONS; NO_O_EPSILONS;
                              O_LABEL_SORTED; NOT_O_LABEL_SORTED] inp out in
      let out := when (has inp O_DETERMINISTIC) [I_DETERMINISTIC] out in
      let out := when (has inp NOT_O_DETERMINISTIC) [NOT_I_DETERMINISTIC] out in
      let out := when (has inp O_EPSILONS) [I_EPSILONS; EPSILONS] out in
      let out := when (has inp NO_O_EPSILONS) [NO_I_EPSILONS; NO_EPSILONS] out in
      let out := when (has inp O_LABEL_SORTED) [I_LABEL_SORTED] out in
      when (has inp NOT_O_LABEL_SORTED) [NOT_I_LABEL_SORTED] out
  end.

(** 475-493. *)
Definition relabel_properties (inp : N) : N := pkeep inp shape_bits.

(** 622-638. *)
Definition reverse_properties (inp : N) (has_superinitial : bool) : N :=
  let out := pkeep inp [ACCEPTOR; NOT_ACCEPTOR; EPSILONS; I_EPSILONS; O_EPSILONS; UNWEIGHTED;
                        CYCLIC; ACYCLIC; WEIGHTED_CYCLES; UNWEIGHTED_CYCLES] in
  copyif has_superinitial [WEIGHTED] inp out.

(** 640-644. *)
Definition reweight_properties (inp : N) : N :=
  pclr (pkeep inp pm_weight_invariant_properties) [COACCESSIBLE].

(** 646-660. *)
Definition rmepsilon_properties (inp : N) (delayed : bool) : N :=
  let out := mask [NO_EPSILONS] in
  let out := copyif true [ACCEPTOR; ACYCLIC; INITIAL_ACYCLIC] inp out in
  let out := when (has inp ACCEPTOR) [NO_I_EPSILONS; NO_O_EPSILONS] out in
  let out := copyif (negb delayed) [TOP_SORTED] inp out in
  copyif (negb delayed || has inp ACCESSIBLE) [NOT_ACCEPTOR] inp out.

(** 662-672. *)
Definition shortest_path_properties (p : N) (tree : bool) : N :=
  let out := pset p [ACYCLIC; INITIAL_ACYCLIC; ACCESSIBLE; UNWEIGHTED_CYCLES] in
  when (negb tree) [COACCESSIBLE] out.

(** 717-728 and 732-744. *)
Definition union_carry1 : list pbit :=
  [NOT_ACCEPTOR; NOT_I_DETERMINISTIC; NOT_O_DETERMINISTIC; EPSILONS; I_EPSILONS; O_EPSILONS;
   NOT_I_LABEL_SORTED; NOT_O_LABEL_SORTED; WEIGHTED; WEIGHTED_CYCLES; CYCLIC; NOT_ACCESSIBLE].
Definition union_carry2 : list pbit := union_carry1 ++ [NOT_COACCESSIBLE].

(** 692-748. *)
Definition union_properties (p1 p2 : N) (delayed : bool) : N :=
  let out := pkeep (N.land p1 p2) [ACCEPTOR; UNWEIGHTED; UNWEIGHTED_CYCLES; ACYCLIC; ACCESSIBLE] in
  let out := pset out [INITIAL_ACYCLIC] in
  let out := copyif (negb delayed) [NOT_TOP_SORTED] p1 out in
  let out := copyif (negb delayed) [NOT_TOP_SORTED] p2 out in
  let out := if negb delayed
             then copyif true [COACCESSIBLE] (N.land p1 p2) (pset out [EPSILONS; I_EPSILONS; O_EPSILONS])
             else out in
  let out := copyif (negb delayed || has p1 ACCESSIBLE) union_carry1 p1 out in
  copyif (negb delayed || has p2 ACCESSIBLE) union_carry2 p2 out.
