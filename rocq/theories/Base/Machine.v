(** Specification: weighted machines, their paths and the weighted relation
    they denote.  Independent of every data structure of the code base. *)
From Coq Require Import List Arith Lia Bool Permutation.
From Verif Require Import Base.Util Base.Semiring.
Import ListNotations.
Local Open Scope K_scope.

(** A transition: input label, output label, weight, target. Label 0 is epsilon
    (rustfst/src/lib.rs EPS_LABEL, tr.rs 8-17). *)
Record tr (W : Type) := Tr { il : nat; ol : nat; wgt : W; ns : nat }.
Arguments Tr {W}.
Arguments il {W}.
Arguments ol {W}.
Arguments wgt {W}.
Arguments ns {W}.

Record machine (W : Type) := Mach {
  mstart : option nat;
  mtrs : nat -> list (tr W);
  mfin : nat -> option W
}.
Arguments Mach {W}.
Arguments mstart {W}.
Arguments mtrs {W}.
Arguments mfin {W}.

(** What remains of the string [x] after reading label [l]; epsilon reads nothing. *)
Definition strip (l : nat) (x : list nat) : option (list nat) :=
  if Nat.eqb l 0 then Some x
  else match x with
       | a :: x' => if Nat.eqb a l then Some x' else None
       | [] => None
       end.

Definition lab (l : nat) : list nat := if Nat.eqb l 0 then [] else [l].

Section Sem.
  Context {K : SR}.

  Definition fw (o : option K) : K := match o with Some w => w | None => 0 end.

  Definition isnil {A} (l : list A) : bool := match l with [] => true | _ => false end.

  (** Total weight of the paths of exactly [n] transitions from [s] to a final
      state that read [x] and write [y]. *)
  Fixpoint wt (m : machine K) (n : nat) (s : nat) (x y : list nat) : K :=
    match n with
    | O => if isnil x && isnil y then fw (mfin m s) else 0
    | S n' =>
        ksum (map (fun t =>
          match strip (il t) x, strip (ol t) y with
          | Some x', Some y' => wgt t * wt m n' (ns t) x' y'
          | _, _ => 0
          end) (mtrs m s))
    end.

  (** The relation denoted by the machine, by path length. *)
  Definition rel (m : machine K) (n : nat) (x y : list nat) : K :=
    match mstart m with Some s => wt m n s x y | None => 0 end.

  (** ** Paths *)
  Fixpoint paths (m : machine K) (n : nat) (s : nat) : list (list (tr K)) :=
    match n with
    | O => [[]]
    | S n' => flat_map (fun t => map (cons t) (paths m n' (ns t))) (mtrs m s)
    end.

  Fixpoint dst (s : nat) (p : list (tr K)) : nat :=
    match p with [] => s | t :: p' => dst (ns t) p' end.
  Definition ilabs (p : list (tr K)) : list nat := flat_map (fun t => lab (il t)) p.
  Definition olabs (p : list (tr K)) : list nat := flat_map (fun t => lab (ol t)) p.
  Fixpoint pw (p : list (tr K)) : K :=
    match p with [] => 1 | t :: p' => wgt t * pw p' end.

  (** [p] is a path of [m] from [s]. *)
  Fixpoint is_path (m : machine K) (s : nat) (p : list (tr K)) : Prop :=
    match p with
    | [] => True
    | t :: p' => In t (mtrs m s) /\ is_path m (ns t) p'
    end.

  (** Accepting path weight: product of transition weights and final weight. *)
  Definition apw (m : machine K) (s : nat) (p : list (tr K)) : K :=
    pw p * fw (mfin m (dst s p)).

  Lemma paths_length m n s p : In p (paths m n s) -> length p = n.
  Proof.
    revert s p; induction n; simpl; intros s p H.
    - destruct H as [<-|[]]; reflexivity.
    - apply in_flat_map in H as (t & _ & H). apply in_map_iff in H as (q & <- & H).
      simpl. f_equal. eauto.
  Qed.

  Lemma paths_is_path m n s p : In p (paths m n s) <-> is_path m s p /\ length p = n.
  Proof.
    revert s p; induction n; simpl; intros s p.
    - split.
      + intros [<-|[]]; simpl; auto.
      + intros [_ H]. destruct p; [auto|discriminate].
    - rewrite in_flat_map. split.
      + intros (t & Ht & H). apply in_map_iff in H as (q & <- & H).
        apply IHn in H as [H1 H2]. simpl. auto.
      + destruct p as [|t p]; intros [H1 H2]; [discriminate|].
        destruct H1 as [Ht H1]. exists t; split; auto.
        apply in_map. apply IHn; split; auto.
  Qed.

  Definition leqb (x y : list nat) : bool := if list_eq_dec Nat.eq_dec x y then true else false.

  Lemma leqb_true x y : leqb x y = true <-> x = y.
  Proof. unfold leqb. destruct (list_eq_dec _ x y); split; congruence. Qed.

  Lemma strip_lab l x x' : strip l x = Some x' <-> x = (lab l ++ x')%list.
  Proof.
    unfold strip, lab. destruct (Nat.eqb_spec l 0); simpl.
    - split; congruence.
    - destruct x as [|a x]; [split; discriminate|].
      destruct (Nat.eqb_spec a l); split; intros; try congruence.
  Qed.

  Lemma strip_none l x : strip l x = None -> forall z, x <> (lab l ++ z)%list.
  Proof. intros H z E. apply strip_lab in E. congruence. Qed.

  (** ** Adequacy: [wt] is the sum over the explicit list of paths. *)
  Theorem wt_paths (L : lsr_laws K) m n s x y :
    wt m n s x y =
    ksum (map (fun p => if leqb (ilabs p) x && leqb (olabs p) y then apw m s p else 0)
              (paths m n s)).
  Proof.
    revert s x y; induction n; intros s x y; simpl.
    - rewrite (kplus_0_r L). unfold apw; simpl. rewrite (ktimes_1_l _ L).
      unfold leqb. destruct x, y; simpl; auto.
    - transitivity (ksum (map (fun p => if leqb (ilabs p) x && leqb (olabs p) y then apw m s p else 0)
              (flat_map (fun t => map (cons t) (paths m n (ns t))) (mtrs m s)))); auto.
      rewrite flat_map_concat_map, concat_map, <- flat_map_concat_map, flat_map_concat_map, map_map.
      rewrite <- flat_map_concat_map, (ksum_flat_map L).
      apply (ksum_map_ext). intros t _. rewrite map_map.
      destruct (strip (il t) x) as [x'|] eqn:Ex.
      + destruct (strip (ol t) y) as [y'|] eqn:Ey.
        * rewrite IHn, (ksum_times_l L), map_map. apply ksum_map_ext. intros p _.
          apply strip_lab in Ex, Ey. subst x y.
          unfold ilabs at 2, olabs at 2. simpl.
          change (flat_map (fun t0 => lab (il t0)) p) with (ilabs p).
          change (flat_map (fun t0 => lab (ol t0)) p) with (olabs p).
          assert (E : forall l a b, leqb (lab l ++ a)%list (lab l ++ b)%list = leqb a b).
          { intros l a b. destruct (leqb a b) eqn:E1.
            - apply leqb_true in E1. subst. apply leqb_true; auto.
            - destruct (leqb (lab l ++ a)%list (lab l ++ b)%list) eqn:E2; auto.
              apply leqb_true, app_inv_head in E2. subst.
              rewrite <- E1. symmetry. apply leqb_true; auto. }
          rewrite !E. destruct (leqb (ilabs p) x' && leqb (olabs p) y').
          -- unfold apw. simpl. apply (ktimes_assoc _ L).
          -- apply (ktimes_0_r _ L).
        * symmetry. apply (ksum_map_zero L). intros p _.
          assert (N : leqb (olabs (t :: p)) y = false).
          { destruct (leqb (olabs (t :: p)) y) eqn:E; auto.
            apply leqb_true in E. symmetry in E. apply strip_none with (z := olabs p) in Ey.
            contradiction. }
          rewrite N, andb_false_r. reflexivity.
      + symmetry. apply (ksum_map_zero L). intros p _.
        assert (N : leqb (ilabs (t :: p)) x = false).
        { destruct (leqb (ilabs (t :: p)) x) eqn:E; auto.
          apply leqb_true in E. symmetry in E. apply strip_none with (z := ilabs p) in Ex.
          contradiction. }
        rewrite N. reflexivity.
  Qed.

  (** Two machines denote the same relation, length by length. *)
  Definition rel_eq (m1 m2 : machine K) : Prop := forall n x y, rel m1 n x y = rel m2 n x y.

  (** ** Reachability *)
  Inductive reach (m : machine K) : nat -> nat -> Prop :=
  | reach_refl s : reach m s s
  | reach_step s t u : In t (mtrs m s) -> reach m (ns t) u -> reach m s u.

  Lemma reach_trans m a b c : reach m a b -> reach m b c -> reach m a c.
  Proof. induction 1; auto. intros. econstructor; eauto. Qed.

  Lemma reach_path m a b : reach m a b <-> exists p, is_path m a p /\ dst a p = b.
  Proof.
    split.
    - induction 1.
      + exists []; simpl; auto.
      + destruct IHreach as (p & H1 & H2). exists (t :: p); simpl; auto.
    - intros (p & H1 & H2). revert a H1 H2; induction p; simpl; intros.
      + subst; constructor.
      + destruct H1. econstructor; eauto.
  Qed.

  (** ** Renaming bisimulation *)
  Definition ren (h : nat -> nat) (t : tr K) : tr K := Tr (il t) (ol t) (wgt t) (h (ns t)).

  (** If, on a set of states closed under transitions, the second machine is the
      first one renamed through [h] (transitions up to order), weights agree. *)
  Lemma wt_ren (L : psr_laws K) (m1 m2 : machine K) (h : nat -> nat) (P : nat -> Prop) :
    (forall s t, P s -> In t (mtrs m1 s) -> P (ns t)) ->
    (forall s, P s -> Permutation (mtrs m2 (h s)) (map (ren h) (mtrs m1 s))) ->
    (forall s, P s -> fw (mfin m2 (h s)) = fw (mfin m1 s)) ->
    forall n s x y, P s -> wt m2 n (h s) x y = wt m1 n s x y.
  Proof.
    intros Hc Ht Hf n; induction n; intros s x y Hs; simpl.
    - rewrite Hf; auto.
    - rewrite (ksum_perm_map L _ _ _ (Ht s Hs)), map_map. apply ksum_map_ext.
      intros t Hin. simpl. destruct (strip (il t) x), (strip (ol t) y); auto.
      rewrite IHn; eauto.
  Qed.

  Lemma wt_ext (m1 m2 : machine K) :
    (forall s, mtrs m1 s = mtrs m2 s) -> (forall s, fw (mfin m1 s) = fw (mfin m2 s)) ->
    forall n s x y, wt m1 n s x y = wt m2 n s x y.
  Proof.
    intros Ht Hf n; induction n; intros s x y; simpl.
    - rewrite Hf; auto.
    - rewrite Ht. apply ksum_map_ext. intros t _.
      destruct (strip (il t) x), (strip (ol t) y); auto. rewrite IHn; auto.
  Qed.

  (** Dead states carry no weight. *)
  Definition coaccessible (m : machine K) (s : nat) : Prop :=
    exists u, reach m s u /\ mfin m u <> None.
  Definition accessible (m : machine K) (s : nat) : Prop :=
    exists s0, mstart m = Some s0 /\ reach m s0 s.

  Lemma wt_dead (L : psr_laws K) m n s x y : ~ coaccessible m s -> wt m n s x y = 0.
  Proof.
    revert s x y; induction n; intros s x y H; simpl.
    - destruct (isnil x && isnil y); auto. unfold fw. destruct (mfin m s) eqn:E; auto.
      exfalso. apply H. exists s. split; [constructor|congruence].
    - apply (ksum_map_zero L). intros t Ht.
      destruct (strip (il t) x), (strip (ol t) y); auto.
      rewrite IHn. apply (ktimes_0_r _ L).
      intros (u & H1 & H2). apply H. exists u. split; auto. econstructor; eauto.
  Qed.
End Sem.
