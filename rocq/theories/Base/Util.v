(** List / option utilities shared by the model and the specifications. *)
From Coq Require Import List Arith Lia Bool Permutation.
Import ListNotations.

(** Outcome of a Rust call: a value, an [Err], or a panic. *)
Inductive res (A : Type) : Type :=
| Ok (a : A)
| Err
| Panic.
Arguments Ok {A} a.
Arguments Err {A}.
Arguments Panic {A}.

Definition rbind {A B} (r : res A) (f : A -> res B) : res B :=
  match r with Ok a => f a | Err => Err | Panic => Panic end.
Definition rmap {A B} (f : A -> B) (r : res A) : res B :=
  match r with Ok a => Ok (f a) | Err => Err | Panic => Panic end.
Notation "x <-- e ;; k" := (rbind e (fun x => k)) (at level 61, e at next level, right associativity).

(** Replace element [i] (no effect out of range). *)
Fixpoint upd {A} (l : list A) (i : nat) (x : A) : list A :=
  match l, i with
  | [], _ => []
  | _ :: t, 0 => x :: t
  | h :: t, S j => h :: upd t j x
  end.

(** Remove element [i] (no effect out of range). *)
Fixpoint remove_at {A} (l : list A) (i : nat) : list A :=
  match l, i with
  | [], _ => []
  | _ :: t, 0 => t
  | h :: t, S j => h :: remove_at t j
  end.

Lemma upd_length {A} (l : list A) i x : length (upd l i x) = length l.
Proof. revert i; induction l; destruct i; simpl; auto. Qed.

Lemma nth_error_upd {A} (l : list A) i j x :
  nth_error (upd l i x) j =
  if (i =? j) && (j <? length l) then Some x else nth_error l j.
Proof.
  revert i j; induction l as [|a l IH]; intros i j.
  - destruct i; simpl; rewrite andb_comm; destruct j; reflexivity.
  - destruct i, j; simpl; auto.
    + rewrite IH. reflexivity.
Qed.

Lemma nth_error_upd_eq {A} (l : list A) i x :
  i < length l -> nth_error (upd l i x) i = Some x.
Proof.
  intros H. rewrite nth_error_upd, Nat.eqb_refl.
  apply Nat.ltb_lt in H. rewrite H. reflexivity.
Qed.

Lemma nth_error_upd_ne {A} (l : list A) i j x :
  i <> j -> nth_error (upd l i x) j = nth_error l j.
Proof.
  intros H. rewrite nth_error_upd. apply Nat.eqb_neq in H. rewrite H. reflexivity.
Qed.

Lemma nth_error_lt {A} (l : list A) i x : nth_error l i = Some x -> i < length l.
Proof. intros H. apply nth_error_Some. congruence. Qed.

Lemma nth_error_ex {A} (l : list A) i : i < length l -> exists x, nth_error l i = Some x.
Proof.
  intros H. destruct (nth_error l i) eqn:E; eauto.
  apply nth_error_None in E. lia.
Qed.

Lemma nth_error_nil' {A} i : nth_error (@nil A) i = None.
Proof. destruct i; reflexivity. Qed.

Lemma nth_upd {A} (l : list A) i j x d :
  nth j (upd l i x) d = if (i =? j) && (j <? length l) then x else nth j l d.
Proof.
  revert i j; induction l as [|a l IH]; intros i j.
  - destruct i, j; simpl; auto; destruct (_ =? _); reflexivity.
  - destruct i, j; simpl; auto.
    + rewrite IH. reflexivity.
Qed.

Lemma nth_upd_eq {A} (l : list A) i x d : i < length l -> nth i (upd l i x) d = x.
Proof.
  intros H. rewrite nth_upd, Nat.eqb_refl. apply Nat.ltb_lt in H. rewrite H. reflexivity.
Qed.

Lemma nth_upd_ne {A} (l : list A) i j x d : i <> j -> nth j (upd l i x) d = nth j l d.
Proof. intros H. rewrite nth_upd. apply Nat.eqb_neq in H. rewrite H. reflexivity. Qed.

Lemma upd_same {A} (l : list A) i x : nth_error l i = Some x -> upd l i x = l.
Proof.
  revert i; induction l; destruct i; simpl; intros; try discriminate.
  - congruence.
  - rewrite IHl; auto.
Qed.

Lemma upd_map {A B} (f : A -> B) l i x : map f (upd l i x) = upd (map f l) i (f x).
Proof. revert i; induction l; destruct i; simpl; congruence. Qed.

Lemma upd_app_l {A} (l m : list A) i x :
  i < length l -> upd (l ++ m) i x = upd l i x ++ m.
Proof.
  revert i; induction l; simpl; intros; [lia|].
  destruct i; simpl; [reflexivity|]. rewrite IHl; auto. lia.
Qed.

Lemma upd_app_r {A} (l m : list A) i x :
  length l <= i -> upd (l ++ m) i x = l ++ upd m (i - length l) x.
Proof.
  revert i; induction l; simpl; intros.
  - rewrite Nat.sub_0_r. reflexivity.
  - destruct i; [lia|]. simpl. rewrite IHl by lia. reflexivity.
Qed.

Lemma upd_oob {A} (l : list A) i x : length l <= i -> upd l i x = l.
Proof. revert i; induction l; destruct i; simpl; intros; auto; try lia. rewrite IHl; auto; lia. Qed.

Lemma nth_ext_error {A} (l m : list A) :
  (forall i, nth_error l i = nth_error m i) -> l = m.
Proof.
  revert m; induction l as [|a l IH]; destruct m as [|b m]; intros H; auto.
  - specialize (H 0); discriminate.
  - specialize (H 0); discriminate.
  - f_equal.
    + specialize (H 0); simpl in H; congruence.
    + apply IH. intros i. exact (H (S i)).
Qed.

Lemma nth_error_repeat {A} (x : A) n i : i < n -> nth_error (repeat x n) i = Some x.
Proof. revert i; induction n; intros i H; [lia|]. destruct i; simpl; auto. apply IHn; lia. Qed.

Lemma nth_error_seq s n i : i < n -> nth_error (seq s n) i = Some (s + i).
Proof.
  revert s i; induction n; intros s i H; [lia|]. destruct i; simpl.
  - f_equal; lia.
  - rewrite IHn by lia. f_equal; lia.
Qed.

Lemma In_nth_error' {A} (l : list A) x : In x l <-> exists i, nth_error l i = Some x.
Proof.
  split; [apply In_nth_error|]. intros [i H]. eapply nth_error_In; eauto.
Qed.

Lemma Forall_upd {A} (P : A -> Prop) l i x : Forall P l -> P x -> Forall P (upd l i x).
Proof.
  intros H Hx; revert i; induction H; intros [|i]; simpl; constructor; auto.
Qed.

Definition opt_bind {A B} (o : option A) (f : A -> option B) : option B :=
  match o with Some a => f a | None => None end.

Fixpoint mapi_from {A B} (f : nat -> A -> B) (i : nat) (l : list A) : list B :=
  match l with [] => [] | a :: t => f i a :: mapi_from f (S i) t end.
Definition mapi {A B} (f : nat -> A -> B) (l : list A) := mapi_from f 0 l.

Lemma mapi_from_length {A B} (f : nat -> A -> B) l i : length (mapi_from f i l) = length l.
Proof. revert i; induction l; simpl; auto. Qed.

Lemma nth_error_mapi_from {A B} (f : nat -> A -> B) l i j :
  nth_error (mapi_from f i l) j = option_map (f (i + j)) (nth_error l j).
Proof.
  revert i j; induction l; intros i [|j]; simpl; auto.
  - rewrite Nat.add_0_r; reflexivity.
  - rewrite IHl. replace (S i + j) with (i + S j) by lia. reflexivity.
Qed.

Lemma nth_error_mapi {A B} (f : nat -> A -> B) l j :
  nth_error (mapi f l) j = option_map (f j) (nth_error l j).
Proof. unfold mapi. rewrite nth_error_mapi_from. reflexivity. Qed.

Lemma mapi_length {A B} (f : nat -> A -> B) l : length (mapi f l) = length l.
Proof. apply mapi_from_length. Qed.

Definition count {A} (p : A -> bool) (l : list A) : nat := length (filter p l).

Lemma count_app {A} (p : A -> bool) l m : count p (l ++ m) = count p l + count p m.
Proof. unfold count. rewrite filter_app, app_length. reflexivity. Qed.

Lemma count_nil {A} (p : A -> bool) : count p [] = 0.
Proof. reflexivity. Qed.

Lemma count_cons {A} (p : A -> bool) a l : count p (a :: l) = (if p a then 1 else 0) + count p l.
Proof. unfold count. simpl. destruct (p a); reflexivity. Qed.

Lemma count_perm {A} (p : A -> bool) l m : Permutation l m -> count p l = count p m.
Proof.
  induction 1; auto.
  - rewrite !count_cons; lia.
  - rewrite !count_cons; lia.
  - lia.
Qed.

Lemma Forall2_imp {A B} (P Q : A -> B -> Prop) l m :
  (forall a b, In a l -> In b m -> P a b -> Q a b) -> Forall2 P l m -> Forall2 Q l m.
Proof.
  intros H F; induction F; constructor.
  - apply H; simpl; auto.
  - apply IHF. intros; apply H; simpl; auto.
Qed.

Lemma Forall2_nth {A B} (P : A -> B -> Prop) l m i :
  Forall2 P l m ->
  match nth_error l i, nth_error m i with
  | Some a, Some b => P a b
  | None, None => True
  | _, _ => False
  end.
Proof. intros F; revert i; induction F; intros [|i]; simpl; auto. apply IHF. Qed.

Lemma Forall2_len {A B} (P : A -> B -> Prop) l m : Forall2 P l m -> length l = length m.
Proof. induction 1; simpl; auto. Qed.

Lemma Forall2_in_l {A B} (R : A -> B -> Prop) l m x : Forall2 R l m -> In x l -> exists y, In y m /\ R x y.
Proof.
  induction 1; simpl; [tauto|]. intros [<-|Hx]; [eauto|]. destruct (IHForall2 Hx) as (z & ? & ?). eauto.
Qed.

Lemma NoDup_app_snoc {A} (l : list A) x : NoDup l -> ~ In x l -> NoDup (l ++ [x]).
Proof.
  induction 1; simpl; intros Hx; [repeat constructor; simpl; tauto|].
  constructor; [|apply IHNoDup; tauto]. intros Hin. apply in_app_or in Hin as [Hin|[->|[]]]; tauto.
Qed.
