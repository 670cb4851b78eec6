(** Small concrete semirings used by the examples that accompany the theorems. *)
From Coq Require Import List Arith Lia Bool.
From Verif Require Import Base.Util Base.Semiring.
Import ListNotations.

(** Counting semiring: natural numbers with + and *. *)
Definition natSR : SR := mkSR nat 0 1 Nat.add Nat.mul Nat.eqb.
Canonical natSR.
Lemma natSR_laws : sr_laws natSR.
Proof.
  split; [split; [split|]|]; simpl; intros; try lia.
  apply Nat.eqb_eq.
Qed.
Lemma natSR_comm : commutative_times natSR.
Proof. intros x y; simpl; lia. Qed.

(** Boolean semiring. *)
Definition boolSR : SR := mkSR bool false true orb andb Bool.eqb.
Canonical boolSR.
Lemma boolSR_laws : sr_laws boolSR.
Proof.
  split; [split; [split|]|]; simpl; intros; repeat match goal with b : bool |- _ => destruct b end; simpl; auto; split; auto; discriminate.
Qed.
Lemma boolSR_idem : idempotent_plus boolSR.
Proof. intros [|]; reflexivity. Qed.
Lemma boolSR_bounded : bounded boolSR.
Proof. intros [|]; reflexivity. Qed.

(** Min-plus over naturals with infinity ([None]). *)
Definition tmin (a b : option nat) : option nat :=
  match a, b with Some x, Some y => Some (Nat.min x y) | Some x, None => Some x | None, o => o end.
Definition tadd (a b : option nat) : option nat :=
  match a, b with Some x, Some y => Some (x + y) | _, _ => None end.
Definition teqb (a b : option nat) : bool :=
  match a, b with Some x, Some y => Nat.eqb x y | None, None => true | _, _ => false end.
Definition tropN : SR := mkSR (option nat) None (Some 0) tmin tadd teqb.
Canonical tropN.
Lemma tropN_laws : sr_laws tropN.
Proof.
  split; [split; [split|]|]; simpl; intros;
    repeat match goal with b : option nat |- _ => destruct b end; simpl;
    try (f_equal; lia); auto; split; try discriminate; auto.
  - intros H. apply Nat.eqb_eq in H. congruence.
  - intros H. inversion H. apply Nat.eqb_refl.
Qed.
Lemma tropN_comm : commutative_times tropN.
Proof. intros [x|] [y|]; simpl; auto. f_equal; lia. Qed.
Lemma tropN_idem : idempotent_plus tropN.
Proof. intros [x|]; simpl; auto. f_equal; lia. Qed.
Lemma tropN_path : path_plus tropN.
Proof.
  intros [x|] [y|]; simpl; auto.
  destruct (Nat.min_spec x y) as [[_ ->]|[_ ->]]; auto.
Qed.
Lemma tropN_bounded : bounded tropN.
Proof. intros [x|]; simpl; auto. Qed.
