(** Specification of semirings: the algebra promised by
    rustfst/src/semirings/semiring.rs (trait [Semiring]) as a record of
    operations plus a record of laws.  Equality is Leibniz equality. *)
From Coq Require Import List Arith Lia Bool Permutation.
From Verif Require Import Base.Util.
Import ListNotations.

(** Operations of trait [Semiring] (semiring.rs 20-110): [zero], [one], [plus],
    [times] and the [PartialEq] instance. *)
Record SR := mkSR {
  car :> Type;
  kzero : car;
  kone : car;
  kplus : car -> car -> car;
  ktimes : car -> car -> car;
  keqb : car -> car -> bool
}.
Arguments kzero {s}.
Arguments kone {s}.
Arguments kplus {s}.
Arguments ktimes {s}.
Arguments keqb {s}.

Declare Scope K_scope.
Delimit Scope K_scope with K.
Notation "0" := kzero : K_scope.
Notation "1" := kone : K_scope.
Infix "+" := kplus : K_scope.
Infix "*" := ktimes : K_scope.
Local Open Scope K_scope.

(** Laws without distributivity. *)
Record psr_laws (K : SR) : Prop := {
  keqb_spec : forall x y : K, keqb x y = true <-> x = y;
  kplus_assoc : forall x y z : K, x + (y + z) = (x + y) + z;
  kplus_comm : forall x y : K, x + y = y + x;
  kplus_0_l : forall x : K, 0 + x = x;
  ktimes_assoc : forall x y z : K, x * (y * z) = (x * y) * z;
  ktimes_1_l : forall x : K, 1 * x = x;
  ktimes_1_r : forall x : K, x * 1 = x;
  ktimes_0_l : forall x : K, 0 * x = 0;
  ktimes_0_r : forall x : K, x * 0 = 0
}.

(** Left semiring (LEFT_SEMIRING bit): distributes on the left. *)
Record lsr_laws (K : SR) : Prop := {
  lsr_psr :> psr_laws K;
  kdistr_l : forall x y z : K, x * (y + z) = x * y + x * z
}.

(** Right semiring (RIGHT_SEMIRING bit): distributes on the right. *)
Record rsr_laws (K : SR) : Prop := {
  rsr_psr : psr_laws K;
  r_kdistr_r : forall x y z : K, (x + y) * z = x * z + y * z
}.

(** Full semiring. *)
Record sr_laws (K : SR) : Prop := {
  sr_lsr :> lsr_laws K;
  kdistr_r : forall x y z : K, (x + y) * z = x * z + y * z
}.
Lemma sr_rsr (K : SR) : sr_laws K -> rsr_laws K.
Proof. intros L. split; [apply L|apply (kdistr_r _ L)]. Qed.
Coercion sr_rsr : sr_laws >-> rsr_laws.
Global Hint Resolve lsr_psr rsr_psr sr_lsr : core.

Definition commutative_times (K : SR) : Prop := forall x y : K, x * y = y * x.
Definition idempotent_plus (K : SR) : Prop := forall x : K, x + x = x.
(** PATH property: plus selects one of its arguments. *)
Definition path_plus (K : SR) : Prop := forall x y : K, x + y = x \/ x + y = y.
(** One absorbs everything (0-closed / bounded semiring). *)
Definition bounded (K : SR) : Prop := forall x : K, 1 + x = 1.

(** Finite sums. *)
Fixpoint ksum {K : SR} (l : list K) : K :=
  match l with [] => 0 | x :: t => x + ksum t end.

Section Facts.
  Context {K : SR} (L : psr_laws K).

  Lemma kplus_0_r (x : K) : x + 0 = x.
  Proof. rewrite (kplus_comm _ L). apply (kplus_0_l _ L). Qed.

  Lemma keqb_refl (x : K) : keqb x x = true.
  Proof. apply (keqb_spec _ L). reflexivity. Qed.

  Lemma keqb_true (x y : K) : keqb x y = true <-> x = y.
  Proof. apply (keqb_spec _ L). Qed.

  Lemma keqb_false (x y : K) : keqb x y = false <-> x <> y.
  Proof.
    destruct (keqb x y) eqn:E; split; intros H; try discriminate; auto.
    - apply keqb_true in E. contradiction.
    - intros F. apply keqb_true in F. congruence.
  Qed.

  Lemma keqbP (x y : K) : reflect (x = y) (keqb x y).
  Proof.
    destruct (keqb x y) eqn:E; constructor.
    - apply keqb_true; auto.
    - apply keqb_false; auto.
  Qed.

  Lemma ksum_app (l m : list K) : ksum (l ++ m) = ksum l + ksum m.
  Proof.
    induction l; simpl.
    - symmetry; apply (kplus_0_l _ L).
    - rewrite IHl. apply (kplus_assoc _ L).
  Qed.

  Lemma ksum_perm (l m : list K) : Permutation l m -> ksum l = ksum m.
  Proof.
    induction 1; simpl; auto.
    - congruence.
    - rewrite !(kplus_assoc _ L), (kplus_comm _ L x y). reflexivity.
    - congruence.
  Qed.

  Lemma kplus_swap (a b c d : K) : (a + b) + (c + d) = (a + c) + (b + d).
  Proof.
    rewrite <- !(kplus_assoc _ L). f_equal.
    rewrite !(kplus_assoc _ L). f_equal. apply (kplus_comm _ L).
  Qed.

  Lemma ksum_map_plus {A} (f g : A -> K) l :
    ksum (map (fun a => f a + g a) l) = ksum (map f l) + ksum (map g l).
  Proof.
    induction l; simpl.
    - symmetry; apply (kplus_0_l _ L).
    - rewrite IHl. apply kplus_swap.
  Qed.

  Lemma ksum_map_0 {A} (l : list A) : ksum (map (fun _ => 0) l) = (0 : K).
  Proof. induction l; simpl; auto. rewrite IHl. apply (kplus_0_l _ L). Qed.

  Lemma ksum_map_ext {A} (f g : A -> K) l :
    (forall a, In a l -> f a = g a) -> ksum (map f l) = ksum (map g l).
  Proof.
    induction l; simpl; intros H; auto. rewrite (H a), IHl; auto.
  Qed.

  Lemma ksum_map_zero {A} (f : A -> K) l :
    (forall a, In a l -> f a = 0) -> ksum (map f l) = 0.
  Proof.
    intros H. rewrite (ksum_map_ext f (fun _ => 0)); auto. apply ksum_map_0.
  Qed.

  Lemma ksum_swap {A B} (f : A -> B -> K) l m :
    ksum (map (fun a => ksum (map (f a) m)) l) =
    ksum (map (fun b => ksum (map (fun a => f a b) l)) m).
  Proof.
    induction l; simpl.
    - symmetry. apply ksum_map_0.
    - rewrite IHl, <- ksum_map_plus. reflexivity.
  Qed.

  Lemma ksum_flat_map {A} (f : A -> list K) l :
    ksum (flat_map f l) = ksum (map (fun a => ksum (f a)) l).
  Proof. induction l; simpl; auto. rewrite ksum_app, IHl. reflexivity. Qed.

  Lemma ksum_filter {A} (p : A -> bool) (f : A -> K) l :
    ksum (map f (filter p l)) = ksum (map (fun a => if p a then f a else 0) l).
  Proof.
    induction l; simpl; auto. destruct (p a); simpl; rewrite IHl; auto.
    symmetry; apply (kplus_0_l _ L).
  Qed.

  Lemma ksum_split {A} (p : A -> bool) (f : A -> K) l :
    ksum (map f l) = ksum (map f (filter p l)) + ksum (map f (filter (fun a => negb (p a)) l)).
  Proof.
    rewrite !ksum_filter, <- ksum_map_plus. apply ksum_map_ext. intros a _.
    destruct (p a); simpl.
    - symmetry; apply kplus_0_r.
    - symmetry; apply (kplus_0_l _ L).
  Qed.

  Lemma ksum_perm_map {A} (f : A -> K) l m :
    Permutation l m -> ksum (map f l) = ksum (map f m).
  Proof. intros H. apply ksum_perm, Permutation_map, H. Qed.

End Facts.

Section FactsL.
  Context {K : SR} (L : lsr_laws K).
  Lemma ksum_times_l (c : K) l : c * ksum l = ksum (map (fun x => c * x) l).
  Proof.
    induction l; simpl.
    - apply (ktimes_0_r _ L).
    - rewrite (kdistr_l _ L), IHl. reflexivity.
  Qed.

  Lemma kbounded_idem : bounded K -> idempotent_plus K.
  Proof.
    intros B x. rewrite <- (ktimes_1_r _ L x) at 1 2.
    rewrite <- (kdistr_l _ L), B. apply (ktimes_1_r _ L).
  Qed.
End FactsL.

Section FactsR.
  Context {K : SR} (L : rsr_laws K).
  Lemma r_ksum_times_r (c : K) l : ksum l * c = ksum (map (fun x => x * c) l).
  Proof.
    induction l; simpl.
    - apply (ktimes_0_l _ (rsr_psr _ L)).
    - rewrite (r_kdistr_r _ L), IHl. reflexivity.
  Qed.
End FactsR.
Lemma ksum_times_r {K : SR} (L : sr_laws K) (c : K) l : ksum l * c = ksum (map (fun x => x * c) l).
Proof. apply r_ksum_times_r, sr_rsr, L. Qed.
