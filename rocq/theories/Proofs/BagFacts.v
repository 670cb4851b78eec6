(** Weighted readings: the paths of a machine as a list of (input, output, weight). *)
From Coq Require Import List Arith NArith Bool Lia.
From Verif Require Import Base.Util Base.Semiring Base.Machine Model.Props Model.VectorFst Model.BiMap Model.Lazy.
From Verif Require Import Proofs.TableFacts Proofs.ComposeFacts.
Import ListNotations.
Local Open Scope K_scope.

Section Sums.
  Context {K : SR} (L : lsr_laws K).
  Lemma ksum_last (F : nat -> K) n : ksum (map F (seq 0 (S n))) = ksum (map F (seq 0 n)) + F n.
  Proof. rewrite seq_S, map_app, (ksum_app L). cbn [map ksum plus]. rewrite (kplus_0_r L). auto. Qed.
  Lemma ksum_tri (F : nat -> nat -> K) M : ksum (map (fun k => ksum (map (fun i => F i (k - i)%nat) (seq 0 (S k)))) (seq 0 (S M))) =
    ksum (map (fun i => ksum (map (fun j => F i j) (seq 0 (S (M - i))))) (seq 0 (S M))).
  Proof.
    induction M as [|M IH].
    - reflexivity.
    - rewrite (ksum_last _ (S M)), IH, (ksum_last _ (S M)), Nat.sub_diag.
      rewrite (ksum_last (fun i => ksum (map (fun j => F i j) (seq 0 (S (S M - i))))) (S M)), Nat.sub_diag, (ksum_last _ O).
      cbn [seq map ksum]. rewrite (kplus_0_l _ L), (kplus_assoc _ L). f_equal. 
      change (O :: seq 1 M) with (seq 0 (S M)).
      change (ksum (map (fun i => ksum (map (fun j => F i j) (seq 0 (S (M - i))))) (seq 0 (S M))) + ksum (map (fun i => F i (S M - i)%nat) (seq 0 (S M))) =
        ksum (map (fun i => ksum (map (fun j => F i j) (seq 0 (S (S M - i))))) (seq 0 (S M)))).
      rewrite <- (ksum_map_plus L). apply ksum_map_ext. intros i Hi. apply in_seq in Hi.
      replace (S M - i)%nat with (S (M - i)) by lia. rewrite (ksum_last _ (S (M - i))). auto.
  Qed.
End Sums.

Section Bag.
  Context {K : SR} (L : lsr_laws K).
  Definition reading := (list nat * list nat * K)%type.

  (** Total weight of the readings of the pair (x, y). *)
  Definition pick (x y : list nat) (l : list reading) : K :=
    ksum (map (fun r => if leqb (fst (fst r)) x && leqb (snd (fst r)) y then snd r else 0) l).
  Definition total (l : list reading) : K := ksum (map snd l).
  Definition pre (i o : nat) (w : K) (r : reading) : reading :=
    ((lab i ++ fst (fst r))%list, (lab o ++ snd (fst r))%list, w * snd r).
  Definition scale (w : K) (r : reading) : reading := (fst r, w * snd r).
  Definition after (p : list (tr K)) (r : reading) : reading :=
    ((ilabs p ++ fst (fst r))%list, (olabs p ++ snd (fst r))%list, snd r).

  Lemma pick_app x y l m : pick x y (l ++ m) = pick x y l + pick x y m.
  Proof. unfold pick. rewrite map_app. apply (ksum_app L). Qed.
  Lemma pick_flat_map {A} x y (f : A -> list reading) l : pick x y (flat_map f l) = ksum (map (fun a => pick x y (f a)) l).
  Proof. induction l as [|a l IH]; simpl; auto. rewrite pick_app, IH. auto. Qed.
  Lemma total_app l m : total (l ++ m) = total l + total m.
  Proof. unfold total. rewrite map_app. apply (ksum_app L). Qed.
  Lemma total_flat_map {A} (f : A -> list reading) l : total (flat_map f l) = ksum (map (fun a => total (f a)) l).
  Proof. induction l as [|a l IH]; simpl; auto. rewrite total_app, IH. auto. Qed.
  Lemma total_scale w l : total (map (scale w) l) = w * total l.
  Proof. unfold total. rewrite (ksum_times_l L), !map_map. auto. Qed.
  Lemma total_pre i o w l : total (map (pre i o w) l) = w * total l.
  Proof. unfold total. rewrite (ksum_times_l L), !map_map. auto. Qed.
  Lemma total_after p l : total (map (after p) l) = total l.
  Proof. unfold total. rewrite !map_map. auto. Qed.

  (** Read one transition off a pair of strings. *)
  Definition off (i o : nat) (w : K) (F : list nat -> list nat -> K) (x y : list nat) : K :=
    match strip i x, strip o y with Some x', Some y' => w * F x' y' | _, _ => 0 end.
  Lemma off_ext i o w F G x y : (forall x y, F x y = G x y) -> off i o w F x y = off i o w G x y.
  Proof. intros H. unfold off. destruct (strip i x); auto. destruct (strip o y); auto. rewrite H. auto. Qed.
  Lemma off_sum {A} i o w (F : A -> list nat -> list nat -> K) l x y :
    off i o w (fun x y => ksum (map (fun a => F a x y) l)) x y = ksum (map (fun a => off i o w (F a) x y) l).
  Proof.
    unfold off. destruct (strip i x) as [x'|]; [destruct (strip o y) as [y'|]|].
    - rewrite (ksum_times_l L), map_map. auto.
    - symmetry. apply (ksum_map_zero L). auto.
    - symmetry. apply (ksum_map_zero L). auto.
  Qed.
  Lemma pick_pre i o w l x y : pick x y (map (pre i o w) l) = off i o w (fun x y => pick x y l) x y.
  Proof.
    unfold pick, off. rewrite map_map. destruct (strip i x) as [x'|] eqn:Ex; [destruct (strip o y) as [y'|] eqn:Ey|].
    - rewrite (ksum_times_l L), map_map. apply ksum_map_ext. intros r _. unfold pre. cbn [fst snd].
      rewrite !leqb_strip, Ex, Ey. destruct (leqb _ x' && leqb _ y'); auto. symmetry. apply (ktimes_0_r _ L).
    - apply (ksum_map_zero L). intros r _. unfold pre. cbn [fst snd]. rewrite !leqb_strip, Ex, Ey, andb_false_r. auto.
    - apply (ksum_map_zero L). intros r _. unfold pre. cbn [fst snd]. rewrite !leqb_strip, Ex. auto.
  Qed.

  Context {T : Type} (ttrs : T -> res (list (ttr K T))) (tfin : T -> res (option K)).
  Fixpoint bag (n : nat) (t : T) : list reading :=
    match n with
    | O => [([], [], fw (fin_at tfin t))]
    | S n' => flat_map (fun u => map (pre (ti u) (to u) (tw u)) (bag n' (tn u))) (trs_at ttrs t)
    end.
  Lemma gwt_bag n : forall t x y, gwt ttrs tfin n t x y = pick x y (bag n t).
  Proof.
    induction n as [|n IH]; intros t x y; cbn [gwt bag].
    - unfold pick. cbn. rewrite !leqb_nil. symmetry. apply (kplus_0_r L).
    - rewrite pick_flat_map. apply ksum_map_ext. intros u _. rewrite pick_pre. unfold off.
      destruct (strip (ti u) x); auto. destruct (strip (to u) y); auto. rewrite IH. auto.
  Qed.
End Bag.
Arguments reading : clear implicits.
