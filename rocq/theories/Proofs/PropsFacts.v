(** Bit-level facts about property masks. *)
From Coq Require Import List Arith NArith Lia Bool.
From Verif Require Import Base.Util Base.Semiring Base.Machine Model.Props.
Import ListNotations.

Lemma bitpos_inj a b : bitpos a = bitpos b -> a = b.
Proof. destruct a, b; intros H; try reflexivity; discriminate H. Qed.

Lemma has_bit a b : has (bit a) b = pbit_eqb b a.
Proof.
  unfold has, bit, pbit_eqb. rewrite N.pow2_bits_eqb.
  destruct (pbit_eq_dec b a) as [->|n].
  - apply N.eqb_refl.
  - apply N.eqb_neq. intros E. apply n. symmetry. apply bitpos_inj; auto.
Qed.

Definition inb (b : pbit) (l : list pbit) : bool := existsb (pbit_eqb b) l.

Lemma has_mask l b : has (mask l) b = inb b l.
Proof.
  induction l; simpl.
  - unfold has. destruct (bitpos b); reflexivity.
  - unfold has in *. rewrite N.lor_spec, IHl. f_equal. apply has_bit.
Qed.

Lemma inb_all b : inb b all_bits = true.
Proof. destruct b; reflexivity. Qed.

Lemma has_land p q b : has (N.land p q) b = has p b && has q b.
Proof. apply N.land_spec. Qed.
Lemma has_lor p q b : has (N.lor p q) b = has p b || has q b.
Proof. apply N.lor_spec. Qed.
Lemma has_ldiff p q b : has (N.ldiff p q) b = has p b && negb (has q b).
Proof. apply N.ldiff_spec. Qed.
Lemma has_pnot m b : has (pnot m) b = negb (has m b).
Proof. unfold pnot. rewrite has_ldiff, has_mask, inb_all. reflexivity. Qed.

Lemma has_pset p l b : has (pset p l) b = has p b || inb b l.
Proof. unfold pset. rewrite has_lor, has_mask. reflexivity. Qed.
Lemma has_pclr p l b : has (pclr p l) b = has p b && negb (inb b l).
Proof. unfold pclr. rewrite has_land, has_pnot, has_mask. reflexivity. Qed.
Lemma has_pkeep p l b : has (pkeep p l) b = has p b && inb b l.
Proof. unfold pkeep. rewrite has_land, has_mask. reflexivity. Qed.
Lemma has_0 b : has 0%N b = false.
Proof. unfold has. destruct (bitpos b); reflexivity. Qed.

Lemma has_if (c : bool) p q b : has (if c then p else q) b = if c then has p b else has q b.
Proof. destruct c; reflexivity. Qed.

Lemma inb_app b l m : inb b (l ++ m) = inb b l || inb b m.
Proof. apply existsb_app. Qed.

Lemma pbit_eqb_true a b : pbit_eqb a b = true <-> a = b.
Proof. unfold pbit_eqb. destruct (pbit_eq_dec a b); split; congruence. Qed.

Lemma inb_In b l : inb b l = true <-> In b l.
Proof.
  unfold inb. rewrite existsb_exists. split.
  - intros (x & H1 & H2). apply pbit_eqb_true in H2. congruence.
  - intros H. exists b. split; auto. apply pbit_eqb_true; auto.
Qed.

Lemma contains_mask p l : contains p (mask l) = true <-> forall b, In b l -> has p b = true.
Proof.
  unfold contains. rewrite N.eqb_eq. split.
  - intros H b Hb. apply inb_In in Hb. rewrite <- has_mask in Hb. rewrite <- H in Hb.
    rewrite has_land in Hb. apply andb_true_iff in Hb. tauto.
  - intros H. apply N.bits_inj. intros i. rewrite N.land_spec.
    destruct (N.testbit (mask l) i) eqn:E; [|apply andb_false_r].
    assert (exists b, In b l /\ bitpos b = i) as (b & Hb & <-).
    { clear H. induction l; simpl in E.
      - destruct i; discriminate.
      - rewrite N.lor_spec in E. apply orb_true_iff in E as [E|E].
        + exists a. split; [left; auto|]. unfold bit in E. rewrite N.pow2_bits_eqb in E.
          apply N.eqb_eq in E. auto.
        + destruct (IHl E) as (b & H1 & H2). exists b; split; auto. right; auto. }
    rewrite andb_true_r. apply H in Hb. exact Hb.
Qed.

(** Opposite bit of a trinary pair. *)
Definition opp (b : pbit) : pbit :=
  match b with
  | ACCEPTOR => NOT_ACCEPTOR | NOT_ACCEPTOR => ACCEPTOR
  | I_DETERMINISTIC => NOT_I_DETERMINISTIC | NOT_I_DETERMINISTIC => I_DETERMINISTIC
  | O_DETERMINISTIC => NOT_O_DETERMINISTIC | NOT_O_DETERMINISTIC => O_DETERMINISTIC
  | EPSILONS => NO_EPSILONS | NO_EPSILONS => EPSILONS
  | I_EPSILONS => NO_I_EPSILONS | NO_I_EPSILONS => I_EPSILONS
  | O_EPSILONS => NO_O_EPSILONS | NO_O_EPSILONS => O_EPSILONS
  | I_LABEL_SORTED => NOT_I_LABEL_SORTED | NOT_I_LABEL_SORTED => I_LABEL_SORTED
  | O_LABEL_SORTED => NOT_O_LABEL_SORTED | NOT_O_LABEL_SORTED => O_LABEL_SORTED
  | WEIGHTED => UNWEIGHTED | UNWEIGHTED => WEIGHTED
  | CYCLIC => ACYCLIC | ACYCLIC => CYCLIC
  | INITIAL_CYCLIC => INITIAL_ACYCLIC | INITIAL_ACYCLIC => INITIAL_CYCLIC
  | TOP_SORTED => NOT_TOP_SORTED | NOT_TOP_SORTED => TOP_SORTED
  | ACCESSIBLE => NOT_ACCESSIBLE | NOT_ACCESSIBLE => ACCESSIBLE
  | COACCESSIBLE => NOT_COACCESSIBLE | NOT_COACCESSIBLE => COACCESSIBLE
  | STRING => NOT_STRING | NOT_STRING => STRING
  | WEIGHTED_CYCLES => UNWEIGHTED_CYCLES | UNWEIGHTED_CYCLES => WEIGHTED_CYCLES
  end.

(** utils.rs [known_properties]: a bit is known iff it or its opposite is set. *)
Lemma has_known p b : has (known_properties p) b = has p b || has p (opp b).
Proof.
  unfold known_properties, pshl, pshr, has.
  rewrite !N.lor_spec, !N.land_spec.
  destruct b; cbn [bitpos opp];
    try (rewrite N.shiftl_spec_high' by lia);
    rewrite N.shiftr_spec'; rewrite !N.land_spec; cbn;
    rewrite ?andb_true_r, ?andb_false_r, ?orb_false_r, ?orb_false_l; auto.
Qed.
