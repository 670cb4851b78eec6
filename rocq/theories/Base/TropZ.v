(** Min-plus over the integers with infinity ([None]): negative weights are allowed. *)
From Coq Require Import ZArith Lia.
From Verif Require Import Base.Semiring.

Definition zmin (a b : option Z) : option Z :=
  match a, b with Some x, Some y => Some (Z.min x y) | Some x, None => Some x | None, o => o end.
Definition zadd (a b : option Z) : option Z :=
  match a, b with Some x, Some y => Some (x + y)%Z | _, _ => None end.
Definition zeqb (a b : option Z) : bool :=
  match a, b with Some x, Some y => Z.eqb x y | None, None => true | _, _ => false end.
Definition tropZ : SR := mkSR (option Z) None (Some 0%Z) zmin zadd zeqb.
Canonical tropZ.
Lemma tropZ_laws : sr_laws tropZ.
Proof.
  split; [split; [split|]|]; simpl; intros;
    repeat match goal with b : option Z |- _ => destruct b end; simpl;
    try (f_equal; lia); auto; split; try discriminate; auto.
  - intros H. apply Z.eqb_eq in H. congruence.
  - intros H. inversion H. apply Z.eqb_refl.
Qed.
Lemma tropZ_comm : commutative_times tropZ.
Proof. intros [x|] [y|]; simpl; auto. f_equal; lia. Qed.
Lemma tropZ_idem : idempotent_plus tropZ.
Proof. intros [x|]; simpl; auto. f_equal; lia. Qed.
Lemma tropZ_path : path_plus tropZ.
Proof.
  intros [x|] [y|]; simpl; auto.
  destruct (Z.min_spec x y) as [[_ ->]|[_ ->]]; auto.
Qed.
