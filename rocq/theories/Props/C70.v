(** C70: for which weights [StarSemiring::closure] is the star. *)
From Coq Require Import List Arith ZArith QArith Qcanon Qfield Bool Lia.
From Verif Require Import Base.Util Base.Semiring Base.Machine Base.PathSum Base.PropSpec Model.VectorFst Model.Weights Model.AllPairs
  Proofs.VectorFacts Proofs.SdFacts Proofs.ClosedB Proofs.NFinal Props.C16 Props.C17 Props.C27.
Import ListNotations.
Local Close Scope Qc_scope.
Local Close Scope Q_scope.
Local Open Scope nat_scope.

(** ** Specification: [c = 1 + x c] and [c = 1 + c x]. *)
Definition a_star (W : weight) (x c : W) : Prop :=
  (y <-- wtimes x c ;; wplus wone y) = Ok c /\ (y <-- wtimes c x ;; wplus wone y) = Ok c.

(** Booleans: always, and the least solution. *)
Theorem C70_boolean : forall x : bool, a_star boolean_weight x (boolean_closure x) /\ settles (powers (K := mkSR bool false true orb andb eqb) x) (boolean_closure x).
Proof. intros [|]; (split; [split; reflexivity|]); exists 0; intros [|j] _; reflexivity. Qed.

(** Tropical weights: everywhere except at zero (positive infinity), whose star is one but whose
    closure is negative infinity. Finite weights that are not negative have the sum of their
    powers. *)
Theorem C70_tropical : forall x : ext, a_star tropical_weight x (tropical_closure x) <-> x <> PInf.
Proof.
  intros x. split.
  - intros [H _] ->. discriminate H.
  - intros H. destruct x as [|a|]; [| |contradiction] || destruct x as [|a|]; try congruence; try (split; reflexivity).
    unfold a_star, tropical_closure. destruct (Z.leb_spec 0 a); cbn; [|split; reflexivity].
    unfold trop_plus. cbn. rewrite !Z.add_0_r, ?Z.add_0_l. destruct (Z.ltb_spec a 0); [lia|]. split; reflexivity.
Qed.
Theorem C70_tropical_powers : forall a, (0 <= a)%Z -> settles (powers (K := ext_sr) (Fin a)) (tropical_closure (Fin a)).
Proof.
  intros a Ha. exists 0. intros j _. cbn. assert (Z.leb 0 a = true) as -> by (apply Z.leb_le; auto).
  induction j as [|j IH]; auto. cbn. cbn in IH. rewrite IH. cbn. unfold trop_plus. cbn. rewrite Z.add_0_r. destruct (Z.ltb_spec a 0); [lia|]. auto.
Qed.
Theorem C70_tropical_refuted : a_star tropical_weight PInf (Fin 0) /\ tropical_closure PInf = MInf /\ ~ a_star tropical_weight PInf MInf.
Proof. split; [split; reflexivity|]. split; [reflexivity|]. intros [H _]. discriminate H. Qed.

(** Probabilities: everywhere except at one, and it is the only solution. *)
Theorem C70_probability : forall x : Qc, a_star probability_weight x (probability_closure x) <-> x <> Q2Qc 1.
Proof.
  intros x. unfold a_star, probability_closure. cbn. split.
  - intros [H _] ->. injection H as H. revert H. vm_compute. discriminate.
  - intros H. assert (Qcminus (Q2Qc 1) x <> Q2Qc 0).
    { intros E. apply H. replace x with (Qcminus (Q2Qc 1) (Qcminus (Q2Qc 1) x)) by ring. rewrite E. ring. }
    split; f_equal; field; auto.
Qed.
Theorem C70_probability_unique : forall x c : Qc, x <> Q2Qc 1 -> a_star probability_weight x c -> c = probability_closure x.
Proof.
  intros x c H [E _]. unfold probability_closure. cbn in E. injection E as E.
  assert (N : Qcminus (Q2Qc 1) x <> Q2Qc 0).
  { intros F. apply H. replace x with (Qcminus (Q2Qc 1) (Qcminus (Q2Qc 1) x)) by ring. rewrite F. ring. }
  assert (Qcmult c (Qcminus (Q2Qc 1) x) = Q2Qc 1) as M
    by (transitivity (Qcminus (Qcplus (Q2Qc 1) (Qcmult x c)) (Qcmult c x)); [rewrite E; ring|ring]).
  transitivity (Qcdiv (Qcmult c (Qcminus (Q2Qc 1) x)) (Qcminus (Q2Qc 1) x)); [field; auto|]. rewrite M. reflexivity.
Qed.

(** Integers: only at zero. *)
Theorem C70_integer : forall x : Z, a_star integer_weight x (integer_closure x) <-> x = 0%Z.
Proof.
  intros x. unfold a_star, integer_closure. cbn [integer_weight wtimes wplus wone rbind wcar]. destruct (Z.eqb_spec x 0) as [->|N].
  - split; auto; intros _; split; reflexivity.
  - split; [|contradiction]. intros [H _]. assert (E : forall a b : Z, Ok a = Ok b -> a = b) by (intros a b [= ->]; auto). apply E in H. change (1 + x * 2147483647 = 2147483647)%Z in H. lia.
Qed.

(** What this gives all-pairs distances of machines without cycles: exact sums for booleans,
    integers and probabilities; not for tropical weights (C17_tropical_refuted). *)
Definition sr_of (W : weight) (p t : W -> W -> W) : SR := mkSR W wzero wone p t weqb.
Definition exact_without_cycles (K : SR) (closure : K -> K) : Prop := forall f : vfst K, closed f -> (forall s, ~ on_cycle (mach f) s) ->
  exists D, all_pairs_shortest_distance closure f = Ok D /\
    forall i j, (i < num_states f)%nat -> (j < num_states f)%nat -> settles (fun k => upto (mach f) k i j) (mget D i j).
Theorem C70_all_pairs :
  exact_without_cycles (sr_of boolean_weight orb andb) boolean_closure /\
  exact_without_cycles (sr_of integer_weight Z.add Z.mul) integer_closure /\
  exact_without_cycles (sr_of probability_weight Qcplus Qcmult) probability_closure.
Proof.
  assert (H : forall (W : weight) p t (c : W -> W), lawful W -> (forall x y, wplus x y = Ok (p x y)) -> (forall x y, wtimes x y = Ok (t x y)) ->
    sp_left (wprops W) = true -> sp_right (wprops W) = true -> c wzero = wone -> exact_without_cycles (sr_of W p t) c).
  { intros W p t c Lw Hp Ht Hl Hr C0 f C Ac. destruct (C17_acyclic (K := sr_of W p t) (C27_semiring W p t Lw Hp Ht Hl Hr) c C0 f C Ac) as (D & R & H). exists D. split; [apply R|exact H]. }
  split; [|split]; apply H; try reflexivity.
  - apply C27_boolean.
  - apply C27_integer.
  - apply C27_probability.
Qed.
Print Assumptions C70_boolean.
Print Assumptions C70_tropical.
Print Assumptions C70_tropical_powers.
Print Assumptions C70_tropical_refuted.
Print Assumptions C70_probability.
Print Assumptions C70_probability_unique.
Print Assumptions C70_integer.
Print Assumptions C70_all_pairs.

(** The star of one half is two; of the tropical weight 3, zero. *)
Example C70_witness : probability_closure (Q2Qc (1 # 2)) = Q2Qc 2 /\ tropical_closure (Fin 3) = Fin 0 /\ integer_closure 0 = 1%Z /\ integer_closure 2 = 2147483647%Z.
Proof. split; [apply Qc_is_canon; vm_compute; reflexivity|]. repeat split. Qed.
(** A machine without cycles, 0 -> 1 -> 2 and 0 -> 2, in integers: 3 * 5 + 7 ways from 0 to 2. *)
Definition c70_f : vfst (sr_of integer_weight Z.add Z.mul) :=
  VF [@VS (sr_of integer_weight Z.add Z.mul) None [@Tr (sr_of integer_weight Z.add Z.mul) 1 1 3%Z 1; @Tr (sr_of integer_weight Z.add Z.mul) 1 1 7%Z 2] 0 0;
      @VS (sr_of integer_weight Z.add Z.mul) None [@Tr (sr_of integer_weight Z.add Z.mul) 1 1 5%Z 2] 0 0; @VS (sr_of integer_weight Z.add Z.mul) (Some 1%Z) [] 0 0] (Some 0) None None 0%N.
Example C70_all_pairs_witness : closed c70_f /\ (forall s, ~ on_cycle (mach c70_f) s) /\ all_pairs_shortest_distance (K := sr_of integer_weight Z.add Z.mul) integer_closure c70_f = Ok [[1; 3; 22]; [0; 1; 5]; [0; 0; 1]]%Z.
Proof.
  split; [apply closedb_ok; reflexivity|]. split; [|reflexivity]. apply (ranked_acyclic (mach c70_f) (fun s => 3 - s)). intros s t.
  do 3 (destruct s as [|s]; [cbn; intros H; repeat destruct H as [<-|H]; try destruct H; cbn; lia|]). cbn. destruct s; intros [].
Qed.
