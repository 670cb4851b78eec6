(** Cauchy products of length-graded relations, and what the rational constructions do to the
    weights of an abstract machine. *)
From Coq Require Import List Arith Lia Bool Permutation.
From Verif Require Import Base.Util Base.Semiring Base.Machine.
Import ListNotations.
Local Open Scope K_scope.

(** All ways to cut a string in two. *)
Fixpoint splits {A} (x : list A) : list (list A * list A) :=
  ([], x) :: match x with [] => [] | a :: x' => map (fun p => (a :: fst p, snd p)) (splits x') end.

Lemma splits_spec {A} (x a b : list A) : In (a, b) (splits x) <-> a ++ b = x.
Proof.
  revert a; induction x as [|c x IH]; intros a; simpl.
  - split.
    + intros [H|[]]. inversion H; auto.
    + intros H. apply app_eq_nil in H as [-> ->]. auto.
  - split.
    + intros [H|H]; [inversion H; auto|]. apply in_map_iff in H as ([u v] & E & H). simpl in E. inversion E; subst.
      apply IH in H. subst. auto.
    + intros H. destruct a as [|d a]; [left; simpl in H; congruence|]. right. simpl in H. inversion H; subst.
      apply in_map_iff. exists (a, b). split; auto. apply IH. auto.
Qed.
Lemma splits_nodup {A} (x : list A) : NoDup (splits x).
Proof.
  induction x as [|c x IH]; simpl; constructor; auto; try constructor.
  - rewrite in_map_iff. intros (p & E & _). inversion E.
  - apply FinFun.Injective_map_NoDup; auto. intros [u v] [u' v'] E. simpl in E. inversion E; auto.
Qed.

Section V.
  Context {K : SR}.

  (** A relation graded by path length. *)
  Definition grel := nat -> list nat -> list nat -> K.

  Definition sum2 (phi : list nat -> list nat -> list nat -> list nat -> K) (x y : list nat) : K :=
    ksum (map (fun p => ksum (map (fun q => phi (fst p) (fst q) (snd p) (snd q)) (splits y))) (splits x)).

  (** The Cauchy product: all ways to share the length and to cut the two strings. *)
  Definition conv (A B : grel) : grel := fun k x y =>
    ksum (map (fun i => sum2 (fun x1 y1 x2 y2 => A i x1 y1 * B (k - i)%nat x2 y2) x y) (seq 0 (S k))).

  (** Delay by one step. *)
  Definition shift (A : grel) : grel := fun k x y => match k with O => 0 | S k' => A k' x y end.

  (** [j+1]-fold product, with one extra step between consecutive factors. *)
  Fixpoint power (A : grel) (j : nat) : grel :=
    match j with O => A | S j' => shift (conv A (power A j')) end.

  Variable L : sr_laws K.
  Let LL := sr_lsr _ L.

  Lemma ksum_if {A} (l : list A) (c : bool) (g : A -> K) :
    ksum (map (fun a => if c then g a else 0) l) = if c then ksum (map g l) else 0.
  Proof. destruct c; auto. apply (ksum_map_zero LL). auto. Qed.

  Lemma splits_strip l (phi : list nat -> list nat -> K) x :
    ksum (map (fun p => match strip l (fst p) with Some z => phi z (snd p) | None => 0 end) (splits x)) =
    match strip l x with Some z => ksum (map (fun p => phi (fst p) (snd p)) (splits z)) | None => 0 end.
  Proof.
    unfold strip. destruct (Nat.eqb l 0); auto. destruct x as [|a x]; simpl.
    - apply (kplus_0_r LL).
    - rewrite (kplus_0_l _ LL), map_map. simpl. destruct (Nat.eqb a l); auto. apply (ksum_map_zero LL). auto.
  Qed.

  Lemma splits_nil (phi : list nat -> list nat -> K) x :
    ksum (map (fun p => if isnil (fst p) then phi (fst p) (snd p) else 0) (splits x)) = phi [] x.
  Proof.
    destruct x as [|a x]; simpl; [apply (kplus_0_r LL)|]. rewrite map_map. simpl.
    rewrite (ksum_map_zero LL); auto. apply (kplus_0_r LL).
  Qed.

  Lemma sum2_ext phi psi x y : (forall a b c d, phi a b c d = psi a b c d) -> sum2 phi x y = sum2 psi x y.
  Proof. intros H. unfold sum2. apply ksum_map_ext. intros p _. apply ksum_map_ext. intros q _. apply H. Qed.

  Lemma sum2_plus phi psi x y : sum2 (fun a b c d => phi a b c d + psi a b c d) x y = sum2 phi x y + sum2 psi x y.
  Proof.
    unfold sum2. rewrite <- (ksum_map_plus LL). apply ksum_map_ext. intros p _. rewrite (ksum_map_plus LL). auto.
  Qed.
  Lemma sum2_zero x y : sum2 (fun _ _ _ _ => 0) x y = 0.
  Proof. unfold sum2. apply (ksum_map_zero LL). intros. apply (ksum_map_zero LL). auto. Qed.
  Lemma sum2_ksum {T} (l : list T) phi x y :
    sum2 (fun a b c d => ksum (map (fun t => phi t a b c d) l)) x y = ksum (map (fun t => sum2 (phi t) x y) l).
  Proof.
    induction l as [|t l IH]; simpl; [apply sum2_zero|]. rewrite <- IH, sum2_plus. auto.
  Qed.
  Lemma sum2_nil phi x y :
    sum2 (fun a b c d => if isnil a && isnil b then phi a b c d else 0) x y = phi [] [] x y.
  Proof.
    unfold sum2. rewrite <- (splits_nil (fun a c => phi a [] c y) x). apply ksum_map_ext. intros p _.
    destruct (isnil (fst p)); simpl.
    - rewrite <- (splits_nil (fun b d => phi (fst p) b (snd p) d) y). auto.
    - apply (ksum_map_zero LL). auto.
  Qed.
  Lemma sum2_strip l1 l2 phi x y :
    sum2 (fun a b c d => match strip l1 a, strip l2 b with Some a', Some b' => phi a' b' c d | _, _ => 0 end) x y =
    match strip l1 x, strip l2 y with Some x', Some y' => sum2 phi x' y' | _, _ => 0 end.
  Proof.
    unfold sum2.
    transitivity (ksum (map (fun p => match strip l1 (fst p) with
       | Some z => (fun a c => match strip l2 y with
                   | Some y' => ksum (map (fun q => phi a (fst q) c (snd q)) (splits y')) | None => 0 end) z (snd p)
       | None => 0 end) (splits x))).
    - apply ksum_map_ext. intros p _. destruct (strip l1 (fst p)) as [z|].
      + rewrite <- (splits_strip l2 (fun b d => phi z b (snd p) d) y). auto.
      + apply (ksum_map_zero LL). auto.
    - etransitivity; [apply (splits_strip l1 (fun a c => match strip l2 y with
                   | Some y' => ksum (map (fun q => phi a (fst q) c (snd q)) (splits y')) | None => 0 end))|].
      destruct (strip l1 x); auto. destruct (strip l2 y); auto.
      apply (ksum_map_zero LL). auto.
  Qed.
  Lemma sum2_times (c0 : K) phi x y : sum2 (fun a b c d => c0 * phi a b c d) x y = c0 * sum2 phi x y.
  Proof.
    unfold sum2. rewrite (ksum_times_l LL), map_map. apply ksum_map_ext. intros p _.
    rewrite (ksum_times_l LL), map_map. auto.
  Qed.

  (** One step of the product whose left factor is the weight from a state. *)
  Lemma conv_0 (m : machine K) B s x y : conv (fun k => wt m k s) B O x y = fw (mfin m s) * B O x y.
  Proof.
    unfold conv. simpl. rewrite (kplus_0_r LL).
    rewrite <- (sum2_nil (fun a b c d => fw (mfin m s) * B O c d) x y). apply sum2_ext. intros.
    destruct (isnil a && isnil b); auto. apply (ktimes_0_l _ LL).
  Qed.
  Lemma conv_S (m : machine K) B s k x y : conv (fun k => wt m k s) B (S k) x y =
    fw (mfin m s) * B (S k) x y +
    ksum (map (fun t => match strip (il t) x, strip (ol t) y with
                        | Some x', Some y' => wgt t * conv (fun k => wt m k (ns t)) B k x' y'
                        | _, _ => 0 end) (mtrs m s)).
  Proof.
    unfold conv at 1. rewrite <- cons_seq, map_cons. cbn [ksum]. f_equal.
    - cbn [wt]. rewrite Nat.sub_0_r. 
      rewrite <- (sum2_nil (fun a b c d => fw (mfin m s) * B (S k) c d) x y). apply sum2_ext. intros.
      destruct (isnil a && isnil b); auto. apply (ktimes_0_l _ LL).
    - rewrite <- seq_shift, map_map. cbn [wt].
      transitivity (ksum (map (fun i => ksum (map (fun t => sum2 (fun x1 y1 x2 y2 =>
          match strip (il t) x1, strip (ol t) y1 with
          | Some x', Some y' => wgt t * (wt m i (ns t) x' y' * B (k - i)%nat x2 y2) | _, _ => 0 end) x y) (mtrs m s))) (seq 0 (S k)))).
      + apply ksum_map_ext. intros i _. rewrite <- sum2_ksum. apply sum2_ext. intros a b c d.
        rewrite (ksum_times_r L), map_map. apply ksum_map_ext. intros t _.
        destruct (strip (il t) a); [|apply (ktimes_0_l _ LL)]. destruct (strip (ol t) b); [|apply (ktimes_0_l _ LL)].
        simpl. symmetry. apply (ktimes_assoc _ LL).
      + rewrite (ksum_swap LL). apply ksum_map_ext. intros t _.
        rewrite (ksum_map_ext _ (fun i => match strip (il t) x, strip (ol t) y with Some x', Some y' =>
            sum2 (fun x1 y1 x2 y2 => wgt t * (wt m i (ns t) x1 y1 * B (k - i)%nat x2 y2)) x' y' | _, _ => 0 end)) by
          (intros i _; apply (sum2_strip (il t) (ol t) (fun x1 y1 x2 y2 => wgt t * (wt m i (ns t) x1 y1 * B (k - i)%nat x2 y2)))).
        destruct (strip (il t) x) as [x'|]; [|apply (ksum_map_zero LL); auto].
        destruct (strip (ol t) y) as [y'|]; [|apply (ksum_map_zero LL); auto].
        unfold conv. rewrite (ksum_times_l LL), map_map. apply ksum_map_ext. intros i _. apply sum2_times.
  Qed.

  Lemma conv_ext A A' B B' k x y : (forall i a b, (i <= k)%nat -> A i a b = A' i a b) -> (forall i a b, (i <= k)%nat -> B i a b = B' i a b) ->
    conv A B k x y = conv A' B' k x y.
  Proof.
    intros H1 H2. unfold conv. apply ksum_map_ext. intros i Hi. apply in_seq in Hi. apply sum2_ext. intros.
    rewrite H1, H2 by lia. auto.
  Qed.
  Lemma conv_ksum_r {T} (l : list T) A (B : T -> grel) k x y :
    conv A (fun i a b => ksum (map (fun t => B t i a b) l)) k x y = ksum (map (fun t => conv A (B t) k x y) l).
  Proof.
    unfold conv. rewrite <- (ksum_swap LL). apply ksum_map_ext. intros i _. rewrite <- sum2_ksum. apply sum2_ext. intros.
    rewrite (ksum_times_l LL), map_map. auto.
  Qed.
  Lemma conv_zero_r A B k x y : (forall i a b, (i <= k)%nat -> B i a b = 0) -> conv A B k x y = 0.
  Proof.
    intros H. unfold conv. apply (ksum_map_zero LL). intros i Hi. apply in_seq in Hi. rewrite <- (sum2_zero x y). apply sum2_ext.
    intros. rewrite H by lia. apply (ktimes_0_r _ LL).
  Qed.

  (** ** Concatenation: every final weight becomes an epsilon transition into the second machine *)
  Lemma concat_wt (m m1 m2 : machine K) (P : nat -> Prop) (h : nat -> nat) s2 :
    (forall s t, P s -> In t (mtrs m1 s) -> P (ns t)) ->
    (forall s, P s -> mtrs m s = mtrs m1 s ++ match mfin m1 s with Some w => [Tr O O w (h s2)] | None => [] end) ->
    (forall s, P s -> mfin m s = None) ->
    (forall k x y, wt m k (h s2) x y = wt m2 k s2 x y) ->
    forall k s x y, P s -> wt m k s x y = shift (conv (fun k => wt m1 k s) (fun k => wt m2 k s2)) k x y.
  Proof.
    intros Hc Ht Hf H2. induction k as [|k IH]; intros s x y Hs; [simpl; rewrite Hf by auto; destruct (isnil x && isnil y); auto|].
    cbn [wt shift]. rewrite Ht, map_app, (ksum_app LL) by auto.
    assert (E : ksum (map (fun t => match strip (il t) x, strip (ol t) y with
        | Some x', Some y' => wgt t * wt m k (ns t) x' y' | _, _ => 0 end)
        (match mfin m1 s with Some w => [Tr O O w (h s2)] | None => [] end)) = fw (mfin m1 s) * wt m2 k s2 x y).
    { destruct (mfin m1 s); simpl; [rewrite H2; apply (kplus_0_r LL)|symmetry; apply (ktimes_0_l _ LL)]. }
    rewrite E. destruct k as [|k].
    - rewrite conv_0. rewrite (ksum_map_zero LL); [apply (kplus_0_l _ LL)|].
      intros t Hin. destruct (strip (il t) x) as [x'|]; auto. destruct (strip (ol t) y) as [y'|]; auto.
      rewrite IH by eauto. apply (ktimes_0_r _ LL).
    - rewrite conv_S, (kplus_comm _ LL). f_equal. apply ksum_map_ext. intros t Hin.
      destruct (strip (il t) x) as [x'|]; auto. destruct (strip (ol t) y) as [y'|]; auto. rewrite IH by eauto. auto.
  Qed.

  (** ** Closure plus: every final weight is also an epsilon transition back to the start *)
  Lemma closure_wt (m m1 : machine K) s0 :
    (forall s, mtrs m s = mtrs m1 s ++ match mfin m1 s with Some w => [Tr O O w s0] | None => [] end) ->
    (forall s, mfin m s = mfin m1 s) ->
    forall k s x y, wt m k s x y = wt m1 k s x y + shift (conv (fun k => wt m1 k s) (fun k => wt m k s0)) k x y.
  Proof.
    intros Ht Hf. induction k as [|k IH]; intros s x y; [simpl; rewrite Hf, (kplus_0_r LL); auto|].
    cbn [wt shift]. rewrite Ht, map_app, (ksum_app LL).
    assert (E : ksum (map (fun t => match strip (il t) x, strip (ol t) y with
        | Some x', Some y' => wgt t * wt m k (ns t) x' y' | _, _ => 0 end)
        (match mfin m1 s with Some w => [Tr O O w s0] | None => [] end)) = fw (mfin m1 s) * wt m k s0 x y).
    { destruct (mfin m1 s); simpl; [apply (kplus_0_r LL)|symmetry; apply (ktimes_0_l _ LL)]. }
    rewrite E. destruct k as [|k].
    - rewrite conv_0. f_equal. apply ksum_map_ext. intros t Hin.
      destruct (strip (il t) x) as [x'|]; auto. destruct (strip (ol t) y) as [y'|]; auto.
      f_equal. simpl. rewrite Hf. auto.
    - rewrite conv_S, (kplus_comm _ LL (fw (mfin m1 s) * _)), (kplus_assoc _ LL), <- (ksum_map_plus LL). f_equal.
      apply ksum_map_ext. intros t Hin.
      destruct (strip (il t) x) as [x'|]; [|symmetry; apply (kplus_0_l _ LL)].
      destruct (strip (ol t) y) as [y'|]; [|symmetry; apply (kplus_0_l _ LL)].
      rewrite IH. cbn [shift]. apply (kdistr_l _ LL).
  Qed.

  Lemma power_0 A j k x y : (k < j)%nat -> power A j k x y = 0.
  Proof.
    revert k x y; induction j as [|j IH]; intros k x y H; [lia|]. simpl. destruct k as [|k]; auto. simpl.
    apply conv_zero_r. intros i a b Hi. apply IH. lia.
  Qed.

  (** The recurrence unrolls into the sum of all powers. *)
  Lemma closure_powers (G A : grel) :
    (forall k x y, G k x y = A k x y + shift (conv A G) k x y) ->
    forall k x y, G k x y = ksum (map (fun j => power A j k x y) (seq 0 (S k))).
  Proof.
    intros H.
    assert (Hn : forall n k x y, (k < n)%nat -> G k x y = ksum (map (fun j => power A j k x y) (seq 0 n))).
    { induction n as [|n IH]; intros k x y Hk; [lia|]. rewrite H. rewrite <- cons_seq, map_cons. cbn [ksum]. f_equal.
      rewrite <- seq_shift, map_map. destruct k as [|k]; simpl.
      - symmetry. apply (ksum_map_zero LL). auto.
      - rewrite (conv_ext A A G (fun i a b => ksum (map (fun j => power A j i a b) (seq 0 n)))); auto.
        + apply conv_ksum_r.
        + intros i a b Hi. apply IH. lia. }
    intros k x y. apply Hn. lia.
  Qed.
End V.
