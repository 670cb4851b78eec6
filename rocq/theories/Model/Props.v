(** Property bits: rustfst/src/fst_properties/properties.rs and the transfer
    functions of rustfst/src/fst_properties/mutate_properties.rs.
    A set of properties is an [N] bit mask with the constants of the code. *)
From Coq Require Import List Arith NArith Lia Bool.
From Verif Require Import Base.Util Base.Semiring Base.Machine.
Import ListNotations.
Local Open Scope N_scope.

(** The 32 named bits, properties.rs 20-104. *)
Inductive pbit : Set :=
| ACCEPTOR
| NOT_ACCEPTOR
| I_DETERMINISTIC
| NOT_I_DETERMINISTIC
| O_DETERMINISTIC
| NOT_O_DETERMINISTIC
| EPSILONS
| NO_EPSILONS
| I_EPSILONS
| NO_I_EPSILONS
| O_EPSILONS
| NO_O_EPSILONS
| I_LABEL_SORTED
| NOT_I_LABEL_SORTED
| O_LABEL_SORTED
| NOT_O_LABEL_SORTED
| WEIGHTED
| UNWEIGHTED
| CYCLIC
| ACYCLIC
| INITIAL_CYCLIC
| INITIAL_ACYCLIC
| TOP_SORTED
| NOT_TOP_SORTED
| ACCESSIBLE
| NOT_ACCESSIBLE
| COACCESSIBLE
| NOT_COACCESSIBLE
| STRING
| NOT_STRING
| WEIGHTED_CYCLES
| UNWEIGHTED_CYCLES.

(** Bit index, properties.rs 20-104 (e.g. ACCEPTOR = 0x1_0000 = 2^16). *)
Definition bitpos (b : pbit) : N :=
  match b with
  | ACCEPTOR => 16
  | NOT_ACCEPTOR => 17
  | I_DETERMINISTIC => 18
  | NOT_I_DETERMINISTIC => 19
  | O_DETERMINISTIC => 20
  | NOT_O_DETERMINISTIC => 21
  | EPSILONS => 22
  | NO_EPSILONS => 23
  | I_EPSILONS => 24
  | NO_I_EPSILONS => 25
  | O_EPSILONS => 26
  | NO_O_EPSILONS => 27
  | I_LABEL_SORTED => 28
  | NOT_I_LABEL_SORTED => 29
  | O_LABEL_SORTED => 30
  | NOT_O_LABEL_SORTED => 31
  | WEIGHTED => 32
  | UNWEIGHTED => 33
  | CYCLIC => 34
  | ACYCLIC => 35
  | INITIAL_CYCLIC => 36
  | INITIAL_ACYCLIC => 37
  | TOP_SORTED => 38
  | NOT_TOP_SORTED => 39
  | ACCESSIBLE => 40
  | NOT_ACCESSIBLE => 41
  | COACCESSIBLE => 42
  | NOT_COACCESSIBLE => 43
  | STRING => 44
  | NOT_STRING => 45
  | WEIGHTED_CYCLES => 46
  | UNWEIGHTED_CYCLES => 47
  end.

Definition bit (b : pbit) : N := 2 ^ bitpos b.

(** Bitwise or of a list of named bits. *)
Definition mask (l : list pbit) : N := fold_right (fun b a => N.lor (bit b) a) 0 l.

(** [props.contains(bit)] for a single named bit. *)
Definition has (p : N) (b : pbit) : bool := N.testbit p (bitpos b).

(** Decidable equality of bits. *)
Definition pbit_eq_dec (a b : pbit) : {a = b} + {a <> b}.
Proof. decide equality. Defined.
Definition pbit_eqb (a b : pbit) : bool := if pbit_eq_dec a b then true else false.

(** All bits in the order of the code. *)
Definition all_bits : list pbit :=
  [ ACCEPTOR; NOT_ACCEPTOR; I_DETERMINISTIC; NOT_I_DETERMINISTIC; O_DETERMINISTIC; NOT_O_DETERMINISTIC; EPSILONS; NO_EPSILONS; I_EPSILONS; NO_I_EPSILONS; O_EPSILONS; NO_O_EPSILONS; I_LABEL_SORTED; NOT_I_LABEL_SORTED; O_LABEL_SORTED; NOT_O_LABEL_SORTED; WEIGHTED; UNWEIGHTED; CYCLIC; ACYCLIC; INITIAL_CYCLIC; INITIAL_ACYCLIC; TOP_SORTED; NOT_TOP_SORTED; ACCESSIBLE; NOT_ACCESSIBLE; COACCESSIBLE; NOT_COACCESSIBLE; STRING; NOT_STRING; WEIGHTED_CYCLES; UNWEIGHTED_CYCLES ].

(** [FstProperties::contains(set)]. *)
Definition contains (p m : N) : bool := N.eqb (N.land p m) m.

(** bitflags [!mask]: complement truncated to the declared bits. *)
Definition pnot (m : N) : N := N.ldiff (mask all_bits) m.

(** properties.rs 110-127. *)
Definition pm_null_properties : list pbit :=
  [ ACCEPTOR; I_DETERMINISTIC; O_DETERMINISTIC; NO_EPSILONS; NO_I_EPSILONS; NO_O_EPSILONS; I_LABEL_SORTED; O_LABEL_SORTED; UNWEIGHTED; ACYCLIC; INITIAL_ACYCLIC; TOP_SORTED; ACCESSIBLE; COACCESSIBLE; STRING; UNWEIGHTED_CYCLES ].

(** properties.rs 130-163. *)
Definition pm_copy_properties : list pbit :=
  [ ACCEPTOR; NOT_ACCEPTOR; I_DETERMINISTIC; NOT_I_DETERMINISTIC; O_DETERMINISTIC; NOT_O_DETERMINISTIC; EPSILONS; NO_EPSILONS; I_EPSILONS; NO_I_EPSILONS; O_EPSILONS; NO_O_EPSILONS; I_LABEL_SORTED; NOT_I_LABEL_SORTED; O_LABEL_SORTED; NOT_O_LABEL_SORTED; WEIGHTED; UNWEIGHTED; CYCLIC; ACYCLIC; INITIAL_CYCLIC; INITIAL_ACYCLIC; TOP_SORTED; NOT_TOP_SORTED; ACCESSIBLE; NOT_ACCESSIBLE; COACCESSIBLE; NOT_COACCESSIBLE; STRING; NOT_STRING; WEIGHTED_CYCLES; UNWEIGHTED_CYCLES ].

(** properties.rs 166-193. *)
Definition pm_set_start_properties : list pbit :=
  [ ACCEPTOR; NOT_ACCEPTOR; I_DETERMINISTIC; NOT_I_DETERMINISTIC; O_DETERMINISTIC; NOT_O_DETERMINISTIC; EPSILONS; NO_EPSILONS; I_EPSILONS; NO_I_EPSILONS; O_EPSILONS; NO_O_EPSILONS; I_LABEL_SORTED; NOT_I_LABEL_SORTED; O_LABEL_SORTED; NOT_O_LABEL_SORTED; WEIGHTED; UNWEIGHTED; CYCLIC; ACYCLIC; TOP_SORTED; NOT_TOP_SORTED; COACCESSIBLE; NOT_COACCESSIBLE; WEIGHTED_CYCLES; UNWEIGHTED_CYCLES ].

(** properties.rs 196-223. *)
Definition pm_set_final_properties : list pbit :=
  [ ACCEPTOR; NOT_ACCEPTOR; I_DETERMINISTIC; NOT_I_DETERMINISTIC; O_DETERMINISTIC; NOT_O_DETERMINISTIC; EPSILONS; NO_EPSILONS; I_EPSILONS; NO_I_EPSILONS; O_EPSILONS; NO_O_EPSILONS; I_LABEL_SORTED; NOT_I_LABEL_SORTED; O_LABEL_SORTED; NOT_O_LABEL_SORTED; CYCLIC; ACYCLIC; INITIAL_CYCLIC; INITIAL_ACYCLIC; TOP_SORTED; NOT_TOP_SORTED; ACCESSIBLE; NOT_ACCESSIBLE; WEIGHTED_CYCLES; UNWEIGHTED_CYCLES ].

(** properties.rs 226-256. *)
Definition pm_add_state_properties : list pbit :=
  [ ACCEPTOR; NOT_ACCEPTOR; I_DETERMINISTIC; NOT_I_DETERMINISTIC; O_DETERMINISTIC; NOT_O_DETERMINISTIC; EPSILONS; NO_EPSILONS; I_EPSILONS; NO_I_EPSILONS; O_EPSILONS; NO_O_EPSILONS; I_LABEL_SORTED; NOT_I_LABEL_SORTED; O_LABEL_SORTED; NOT_O_LABEL_SORTED; WEIGHTED; UNWEIGHTED; CYCLIC; ACYCLIC; INITIAL_CYCLIC; INITIAL_ACYCLIC; TOP_SORTED; NOT_TOP_SORTED; NOT_ACCESSIBLE; NOT_COACCESSIBLE; NOT_STRING; WEIGHTED_CYCLES; UNWEIGHTED_CYCLES ].

(** properties.rs 259-275. *)
Definition pm_add_arc_properties : list pbit :=
  [ NOT_ACCEPTOR; NOT_I_DETERMINISTIC; NOT_O_DETERMINISTIC; EPSILONS; I_EPSILONS; O_EPSILONS; NOT_I_LABEL_SORTED; NOT_O_LABEL_SORTED; WEIGHTED; CYCLIC; INITIAL_CYCLIC; NOT_TOP_SORTED; ACCESSIBLE; COACCESSIBLE; WEIGHTED_CYCLES ].

(** properties.rs 278-280. *)
Definition pm_set_arc_properties : list pbit :=
  [  ].

(** properties.rs 283-297. *)
Definition pm_delete_states_properties : list pbit :=
  [ ACCEPTOR; I_DETERMINISTIC; O_DETERMINISTIC; NO_EPSILONS; NO_I_EPSILONS; NO_O_EPSILONS; I_LABEL_SORTED; O_LABEL_SORTED; UNWEIGHTED; ACYCLIC; INITIAL_ACYCLIC; TOP_SORTED; UNWEIGHTED_CYCLES ].

(** properties.rs 300-316. *)
Definition pm_delete_arcs_properties : list pbit :=
  [ ACCEPTOR; I_DETERMINISTIC; O_DETERMINISTIC; NO_EPSILONS; NO_I_EPSILONS; NO_O_EPSILONS; I_LABEL_SORTED; O_LABEL_SORTED; UNWEIGHTED; ACYCLIC; INITIAL_ACYCLIC; TOP_SORTED; NOT_ACCESSIBLE; NOT_COACCESSIBLE; UNWEIGHTED_CYCLES ].

(** properties.rs 319-348. *)
Definition pm_statesort_properties : list pbit :=
  [ ACCEPTOR; NOT_ACCEPTOR; I_DETERMINISTIC; NOT_I_DETERMINISTIC; O_DETERMINISTIC; NOT_O_DETERMINISTIC; EPSILONS; NO_EPSILONS; I_EPSILONS; NO_I_EPSILONS; O_EPSILONS; NO_O_EPSILONS; I_LABEL_SORTED; NOT_I_LABEL_SORTED; O_LABEL_SORTED; NOT_O_LABEL_SORTED; WEIGHTED; UNWEIGHTED; CYCLIC; ACYCLIC; INITIAL_CYCLIC; INITIAL_ACYCLIC; ACCESSIBLE; NOT_ACCESSIBLE; COACCESSIBLE; NOT_COACCESSIBLE; WEIGHTED_CYCLES; UNWEIGHTED_CYCLES ].

(** properties.rs 351-380. *)
Definition pm_arcsort_properties : list pbit :=
  [ ACCEPTOR; NOT_ACCEPTOR; I_DETERMINISTIC; NOT_I_DETERMINISTIC; O_DETERMINISTIC; NOT_O_DETERMINISTIC; EPSILONS; NO_EPSILONS; I_EPSILONS; NO_I_EPSILONS; O_EPSILONS; NO_O_EPSILONS; WEIGHTED; UNWEIGHTED; CYCLIC; ACYCLIC; INITIAL_CYCLIC; INITIAL_ACYCLIC; TOP_SORTED; NOT_TOP_SORTED; ACCESSIBLE; NOT_ACCESSIBLE; COACCESSIBLE; NOT_COACCESSIBLE; STRING; NOT_STRING; WEIGHTED_CYCLES; UNWEIGHTED_CYCLES ].

(** properties.rs 383-406. *)
Definition pm_i_label_invariant_properties : list pbit :=
  [ O_DETERMINISTIC; NOT_O_DETERMINISTIC; O_EPSILONS; NO_O_EPSILONS; O_LABEL_SORTED; NOT_O_LABEL_SORTED; WEIGHTED; UNWEIGHTED; CYCLIC; ACYCLIC; INITIAL_CYCLIC; INITIAL_ACYCLIC; TOP_SORTED; NOT_TOP_SORTED; ACCESSIBLE; NOT_ACCESSIBLE; COACCESSIBLE; NOT_COACCESSIBLE; STRING; NOT_STRING; WEIGHTED_CYCLES; UNWEIGHTED_CYCLES ].

(** properties.rs 409-432. *)
Definition pm_o_label_invariant_properties : list pbit :=
  [ I_DETERMINISTIC; NOT_I_DETERMINISTIC; I_EPSILONS; NO_I_EPSILONS; I_LABEL_SORTED; NOT_I_LABEL_SORTED; WEIGHTED; UNWEIGHTED; CYCLIC; ACYCLIC; INITIAL_CYCLIC; INITIAL_ACYCLIC; TOP_SORTED; NOT_TOP_SORTED; ACCESSIBLE; NOT_ACCESSIBLE; COACCESSIBLE; NOT_COACCESSIBLE; STRING; NOT_STRING; WEIGHTED_CYCLES; UNWEIGHTED_CYCLES ].

(** properties.rs 436-465. *)
Definition pm_weight_invariant_properties : list pbit :=
  [ ACCEPTOR; NOT_ACCEPTOR; I_DETERMINISTIC; NOT_I_DETERMINISTIC; O_DETERMINISTIC; NOT_O_DETERMINISTIC; EPSILONS; NO_EPSILONS; I_EPSILONS; NO_I_EPSILONS; O_EPSILONS; NO_O_EPSILONS; I_LABEL_SORTED; NOT_I_LABEL_SORTED; O_LABEL_SORTED; NOT_O_LABEL_SORTED; CYCLIC; ACYCLIC; INITIAL_CYCLIC; INITIAL_ACYCLIC; TOP_SORTED; NOT_TOP_SORTED; ACCESSIBLE; NOT_ACCESSIBLE; COACCESSIBLE; NOT_COACCESSIBLE; STRING; NOT_STRING ].

(** properties.rs 469-491. *)
Definition pm_add_super_final_properties : list pbit :=
  [ NOT_ACCEPTOR; NOT_I_DETERMINISTIC; NOT_O_DETERMINISTIC; EPSILONS; I_EPSILONS; O_EPSILONS; NOT_I_LABEL_SORTED; NOT_O_LABEL_SORTED; WEIGHTED; UNWEIGHTED; CYCLIC; ACYCLIC; INITIAL_CYCLIC; INITIAL_ACYCLIC; NOT_TOP_SORTED; NOT_ACCESSIBLE; COACCESSIBLE; NOT_COACCESSIBLE; NOT_STRING; WEIGHTED_CYCLES; UNWEIGHTED_CYCLES ].

(** properties.rs 495-518. *)
Definition pm_rm_super_final_properties : list pbit :=
  [ ACCEPTOR; NOT_ACCEPTOR; I_DETERMINISTIC; O_DETERMINISTIC; NO_EPSILONS; NO_I_EPSILONS; NO_O_EPSILONS; I_LABEL_SORTED; O_LABEL_SORTED; WEIGHTED; UNWEIGHTED; CYCLIC; ACYCLIC; INITIAL_CYCLIC; INITIAL_ACYCLIC; TOP_SORTED; ACCESSIBLE; COACCESSIBLE; NOT_COACCESSIBLE; STRING; WEIGHTED_CYCLES; UNWEIGHTED_CYCLES ].
(** binary_properties / trinary_properties / all_properties, properties.rs 521-539.
    No binary bit is declared in the bitflags type, so [from_bits_truncate(7)] is empty. *)
Definition binary_properties : N := 0.
Definition trinary_properties : N := mask all_bits.
Definition all_properties : N := N.lor binary_properties trinary_properties.
(** properties.rs 528-535. *)
Definition pos_trinary_properties : N := N.land trinary_properties 0x5555555555555555.
Definition neg_trinary_properties : N := N.land trinary_properties 0xaaaaaaaaaaaaaaaa.

(** Shl / Shr truncate to declared bits, properties.rs 542-556. *)
Definition pshl (p : N) (k : N) : N := N.land (N.shiftl p k) all_properties.
Definition pshr (p : N) (k : N) : N := N.land (N.shiftr p k) all_properties.

(** utils.rs 4-9. *)
Definition known_properties (p : N) : N :=
  N.lor binary_properties
   (N.lor (N.land p trinary_properties)
     (N.lor (pshl (N.land p pos_trinary_properties) 1)
            (pshr (N.land p neg_trinary_properties) 1))).
(** utils.rs 13-16. *)
Definition knows (self props : N) : bool := contains (known_properties self) props.
(** utils.rs 20-26. *)
Definition compat_properties (p1 p2 : N) : bool :=
  let k := N.land (known_properties p1) (known_properties p2) in
  N.eqb (N.lxor (N.land p1 k) (N.land p2 k)) 0.

(** Helpers used below: set/clear a list of bits. *)
Definition pset (p : N) (l : list pbit) : N := N.lor p (mask l).
Definition pclr (p : N) (l : list pbit) : N := N.land p (pnot (mask l)).
Definition pkeep (p : N) (l : list pbit) : N := N.land p (mask l).
Definition pif (c : bool) (f : N -> N) (p : N) : N := if c then f p else p.

(** mutate_properties.rs 7-13. *)
Definition set_start_properties (inp : N) : N :=
  let out := pkeep inp pm_set_start_properties in
  if has inp ACYCLIC then pset out [INITIAL_ACYCLIC] else out.

Section W.
  Context {K : SR}.

  (** [!w.is_zero() && !w.is_one()]. *)
  Definition nontrivial (w : K) : bool := negb (keqb w kzero) && negb (keqb w kone).

  Definition onontrivial (o : option K) : bool :=
    match o with Some w => nontrivial w | None => false end.

  (** mutate_properties.rs 15-37. *)
  Definition set_final_properties (inp : N) (old new : option K) : N :=
    let out := if onontrivial old then pclr inp [WEIGHTED] else inp in
    let out := if onontrivial new then pclr (pset out [WEIGHTED]) [UNWEIGHTED] else out in
    pkeep out (pm_set_final_properties ++ [WEIGHTED; UNWEIGHTED]).

  (** mutate_properties.rs 39-41. *)
  Definition add_state_properties (inp : N) : N := pkeep inp pm_add_state_properties.

  (** mutate_properties.rs 43-100. *)
  Definition add_tr_properties (inp : N) (state : nat) (t : tr K) (prev : option (tr K)) : N :=
    let out := inp in
    let out := if negb (Nat.eqb (il t) (ol t))
               then pclr (pset out [NOT_ACCEPTOR]) [ACCEPTOR] else out in
    let out := if Nat.eqb (il t) 0
               then let o := pclr (pset out [I_EPSILONS]) [NO_I_EPSILONS] in
                    if Nat.eqb (ol t) 0
                    then pclr (pset o [EPSILONS]) [NO_EPSILONS] else o
               else out in
    let out := if Nat.eqb (ol t) 0
               then pclr (pset out [O_EPSILONS]) [NO_O_EPSILONS] else out in
    let out := match prev with
               | Some q =>
                   let o := if Nat.ltb (il t) (il q)
                            then pclr (pset out [NOT_I_LABEL_SORTED]) [I_LABEL_SORTED] else out in
                   if Nat.ltb (ol t) (ol q)
                   then pclr (pset o [NOT_O_LABEL_SORTED]) [O_LABEL_SORTED] else o
               | None => out
               end in
    let out := if nontrivial (wgt t)
               then pclr (pset out [WEIGHTED]) [UNWEIGHTED] else out in
    let out := if Nat.leb (ns t) state
               then pclr (pset out [NOT_TOP_SORTED]) [TOP_SORTED] else out in
    let out := pkeep out (pm_add_arc_properties ++
                 [ACCEPTOR; NO_EPSILONS; NO_I_EPSILONS; NO_O_EPSILONS;
                  I_LABEL_SORTED; O_LABEL_SORTED; UNWEIGHTED; TOP_SORTED]) in
    if has out TOP_SORTED then pset out [ACYCLIC; INITIAL_ACYCLIC] else out.

  (** mutate_properties.rs 102-112. *)
  Definition delete_states_properties (inp : N) : N := pkeep inp pm_delete_states_properties.
  Definition delete_all_states_properties : N := mask pm_null_properties.
  Definition delete_trs_properties (inp : N) : N := pkeep inp pm_delete_arcs_properties.
End W.
