(** Meaning of the 32 property bits, stated on abstract machines
    (docs of rustfst/src/fst_properties/properties.rs 20-104).
    [n] is the number of states. *)
From Coq Require Import List Arith Lia Bool Sorted.
From Verif Require Import Base.Util Base.Semiring Base.Machine Model.Props.
Import ListNotations.
Local Open Scope K_scope.

Section H.
  Context {K : SR}.

  (** [s] lies on a cycle. *)
  Definition on_cycle (m : machine K) (s : nat) : Prop :=
    exists t, In t (mtrs m s) /\ reach m (ns t) s.

  Definition plain (w : K) : Prop := w = 0 \/ w = 1.

  (** A string machine: a chain 0 -> 1 -> ... -> n-1 whose last state is the only final one. *)
  Definition is_string (n : nat) (m : machine K) : Prop :=
    n = O \/
    (mstart m = Some O /\
     forall s, (s < n)%nat ->
       if Nat.eqb (S s) n
       then mtrs m s = [] /\ mfin m s <> None
       else (exists t, mtrs m s = [t] /\ ns t = S s) /\ mfin m s = None).

  Definition holds (b : pbit) (n : nat) (m : machine K) : Prop :=
    match b with
    | ACCEPTOR => forall s t, In t (mtrs m s) -> il t = ol t
    | NOT_ACCEPTOR => exists s t, In t (mtrs m s) /\ il t <> ol t
    | I_DETERMINISTIC => forall s, NoDup (map il (mtrs m s))
    | NOT_I_DETERMINISTIC => exists s, ~ NoDup (map il (mtrs m s))
    | O_DETERMINISTIC => forall s, NoDup (map ol (mtrs m s))
    | NOT_O_DETERMINISTIC => exists s, ~ NoDup (map ol (mtrs m s))
    | EPSILONS => exists s t, In t (mtrs m s) /\ il t = O /\ ol t = O
    | NO_EPSILONS => forall s t, In t (mtrs m s) -> ~ (il t = O /\ ol t = O)
    | I_EPSILONS => exists s t, In t (mtrs m s) /\ il t = O
    | NO_I_EPSILONS => forall s t, In t (mtrs m s) -> il t <> O
    | O_EPSILONS => exists s t, In t (mtrs m s) /\ ol t = O
    | NO_O_EPSILONS => forall s t, In t (mtrs m s) -> ol t <> O
    | I_LABEL_SORTED => forall s, StronglySorted le (map il (mtrs m s))
    | NOT_I_LABEL_SORTED => exists s, ~ StronglySorted le (map il (mtrs m s))
    | O_LABEL_SORTED => forall s, StronglySorted le (map ol (mtrs m s))
    | NOT_O_LABEL_SORTED => exists s, ~ StronglySorted le (map ol (mtrs m s))
    | WEIGHTED => (exists s t, In t (mtrs m s) /\ ~ plain (wgt t)) \/
                  (exists s w, mfin m s = Some w /\ ~ plain w)
    | UNWEIGHTED => (forall s t, In t (mtrs m s) -> plain (wgt t)) /\
                    (forall s w, mfin m s = Some w -> plain w)
    | CYCLIC => exists s, on_cycle m s
    | ACYCLIC => forall s, ~ on_cycle m s
    | INITIAL_CYCLIC => exists s, mstart m = Some s /\ on_cycle m s
    | INITIAL_ACYCLIC => forall s, mstart m = Some s -> ~ on_cycle m s
    | TOP_SORTED => forall s t, In t (mtrs m s) -> (s < ns t)%nat
    | NOT_TOP_SORTED => exists s t, In t (mtrs m s) /\ (ns t <= s)%nat
    | ACCESSIBLE => forall s, (s < n)%nat -> accessible m s
    | NOT_ACCESSIBLE => exists s, (s < n)%nat /\ ~ accessible m s
    | COACCESSIBLE => forall s, (s < n)%nat -> coaccessible m s
    | NOT_COACCESSIBLE => exists s, (s < n)%nat /\ ~ coaccessible m s
    | STRING => is_string n m
    | NOT_STRING => ~ is_string n m
    | WEIGHTED_CYCLES => exists s t, In t (mtrs m s) /\ reach m (ns t) s /\ ~ plain (wgt t)
    | UNWEIGHTED_CYCLES => forall s t, In t (mtrs m s) -> reach m (ns t) s -> plain (wgt t)
    end.

  (** Every bit of [p] is true of the machine. *)
  Definition sound (p : BinNums.N) (n : nat) (m : machine K) : Prop :=
    forall b, has p b = true -> holds b n m.
End H.
