(** Sums of a quantity over the paths of a given length. *)
From Coq Require Import List Arith Bool Lia Permutation.
From Verif Require Import Base.Util Base.Semiring Base.Machine.
Import ListNotations.
Local Open Scope K_scope.

(** The path reads [x] and writes [y] (epsilons dropped). *)
Definition reads {K : SR} (x y : list nat) (p : list (tr K)) : bool := leqb (ilabs p) x && leqb (olabs p) y.

Section P.
  Context {K : SR} (L : psr_laws K).

  Definition psum {K' : SR} (m : machine K') (n s : nat) (F : list (tr K') -> K) : K := ksum (map F (paths m n s)).

  Lemma psum_O {K' : SR} (m : machine K') s F : psum m O s F = F [].
  Proof. unfold psum. simpl. apply (kplus_0_r L). Qed.
  Lemma psum_S {K' : SR} (m : machine K') n s F :
    psum m (S n) s F = ksum (map (fun t => psum m n (ns t) (fun p => F (t :: p))) (mtrs m s)).
  Proof.
    unfold psum. cbn [paths]. rewrite flat_map_concat_map, concat_map, map_map, <- flat_map_concat_map, (ksum_flat_map L).
    apply ksum_map_ext. intros t _. rewrite map_map. auto.
  Qed.
  Lemma psum_ext {K' : SR} (m : machine K') n s F G : (forall p, In p (paths m n s) -> F p = G p) -> psum m n s F = psum m n s G.
  Proof. apply ksum_map_ext. Qed.
  Lemma psum_plus {K' : SR} (m : machine K') n s F G : psum m n s (fun p => F p + G p) = psum m n s F + psum m n s G.
  Proof. apply (ksum_map_plus L). Qed.
  Lemma psum_zero {K' : SR} (m : machine K') n s F : (forall p, In p (paths m n s) -> F p = 0) -> psum m n s F = 0.
  Proof. apply (ksum_map_zero L). Qed.
  Lemma psum_ksum {K' : SR} {A} (m : machine K') n s (F : A -> list (tr K') -> K) l :
    psum m n s (fun p => ksum (map (fun a => F a p) l)) = ksum (map (fun a => psum m n s (F a)) l).
  Proof. unfold psum. apply (ksum_swap L). Qed.

  Lemma leqb_lab l a b : leqb (lab l ++ a)%list (lab l ++ b)%list = leqb a b.
  Proof.
    destruct (leqb a b) eqn:E1.
    - apply leqb_true in E1. subst. apply leqb_true; auto.
    - destruct (leqb (lab l ++ a)%list (lab l ++ b)%list) eqn:E2; auto.
      apply leqb_true, app_inv_head in E2. subst. rewrite <- E1. symmetry. apply leqb_true; auto.
  Qed.
  Lemma leqb_false x y : x <> y -> leqb x y = false.
  Proof. destruct (leqb x y) eqn:E; auto. apply leqb_true in E. contradiction. Qed.

  Lemma reads_nil {K' : SR} x y : reads (K := K') x y [] = isnil x && isnil y.
  Proof. unfold reads. simpl. destruct x, y; reflexivity. Qed.
  Lemma reads_cons {K' : SR} x y (t : tr K') p : reads x y (t :: p) =
    match strip (il t) x, strip (ol t) y with Some x', Some y' => reads x' y' p | _, _ => false end.
  Proof.
    unfold reads. cbn [ilabs olabs flat_map]. fold (ilabs p) (olabs p).
    destruct (strip (il t) x) as [x'|] eqn:Ex.
    - apply strip_lab in Ex. subst x. rewrite leqb_lab. destruct (strip (ol t) y) as [y'|] eqn:Ey.
      + apply strip_lab in Ey. subst y. rewrite leqb_lab. auto.
      + apply andb_false_intro2, leqb_false. intros E. eapply strip_none; eauto.
    - apply andb_false_intro1, leqb_false. intros E. eapply strip_none; eauto.
  Qed.

  (** Paths built from the other end. *)
  Lemma dst_app {K' : SR} p q : forall s, dst (K := K') s (p ++ q) = dst (dst s p) q.
  Proof. induction p; intros s; simpl; auto. Qed.
  Lemma paths_snoc {K' : SR} (m : machine K') n : forall s,
    paths m (S n) s = flat_map (fun p => map (fun t => p ++ [t]) (mtrs m (dst s p))) (paths m n s).
  Proof.
    induction n as [|n IH]; intros s.
    - cbn [paths]. simpl. rewrite app_nil_r. induction (mtrs m s); simpl; congruence.
    - assert (X : forall k s, paths m (S k) s = flat_map (fun t => map (cons t) (paths m k (ns t))) (mtrs m s)) by reflexivity.
      rewrite X. rewrite (X n). clear X.
      induction (mtrs m s) as [|t l IHl]; [reflexivity|]. cbn [flat_map]. rewrite flat_map_app, IHl. f_equal.
      rewrite IH. clear.
      induction (paths m n (ns t)) as [|p ps IHp]; simpl; auto. rewrite map_app, IHp. f_equal.
      rewrite map_map. auto.
  Qed.
  Lemma psum_snoc {K' : SR} (m : machine K') n s F :
    psum m (S n) s F = psum m n s (fun p => ksum (map (fun t => F (p ++ [t])) (mtrs m (dst s p)))).
  Proof.
    unfold psum. rewrite paths_snoc, flat_map_concat_map, concat_map, map_map, <- flat_map_concat_map, (ksum_flat_map L).
    apply ksum_map_ext. intros p _. rewrite map_map. auto.
  Qed.
End P.

Section PL.
  Context {K : SR} (L : lsr_laws K).

  Lemma psum_times_l {K' : SR} (m : machine K') n s (c : K) (F : list (tr K') -> K) : psum m n s (fun p => c * F p) = c * psum m n s F.
  Proof. unfold psum. rewrite (ksum_times_l L), map_map. auto. Qed.
  Lemma wt_psum (m : machine K) n s x y : wt m n s x y = psum m n s (fun p => if reads x y p then apw m s p else 0).
  Proof. apply (wt_paths L). Qed.

  (** Weight of the paths satisfying [P]. *)
  Definition wtp (P : list (tr K) -> bool) (m : machine K) n s x y : K :=
    psum m n s (fun p => if P p && reads x y p then apw m s p else 0).
  Lemma wtp_S P m n s x y : wtp P m (S n) s x y =
    ksum (map (fun t => match strip (il t) x, strip (ol t) y with
                        | Some x', Some y' => wgt t * wtp (fun p => P (t :: p)) m n (ns t) x' y'
                        | _, _ => 0 end) (mtrs m s)).
  Proof.
    unfold wtp at 1. rewrite (psum_S L). apply ksum_map_ext. intros t _.
    destruct (strip (il t) x) as [x'|] eqn:Ex; [destruct (strip (ol t) y) as [y'|] eqn:Ey|].
    - unfold wtp. rewrite <- psum_times_l. apply psum_ext. intros p _. rewrite reads_cons, Ex, Ey.
      destruct (P (t :: p) && reads x' y' p); [|symmetry; apply (ktimes_0_r _ L)].
      unfold apw. simpl. symmetry. apply (ktimes_assoc _ L).
    - apply (psum_zero L). intros p _. rewrite reads_cons, Ex, Ey, andb_false_r. auto.
    - apply (psum_zero L). intros p _. rewrite reads_cons, Ex, andb_false_r. auto.
  Qed.
  Lemma wtp_O P m s x y : wtp P m O s x y = if P [] && (isnil x && isnil y) then fw (mfin m s) else 0.
  Proof. unfold wtp. rewrite (psum_O L), reads_nil. unfold apw. simpl. rewrite (ktimes_1_l _ L). auto. Qed.
  Lemma wtp_ext P Q m n s x y : (forall p, length p = n -> P p = Q p) -> wtp P m n s x y = wtp Q m n s x y.
  Proof. intros H. apply psum_ext. intros p Hp. rewrite H; auto. eapply paths_length; eauto. Qed.
  Lemma wtp_true m n s x y : wtp (fun _ => true) m n s x y = wt m n s x y.
  Proof. symmetry. apply wt_psum. Qed.
  Lemma wtp_split P m n s x y : wt m n s x y = wtp P m n s x y + wtp (fun p => negb (P p)) m n s x y.
  Proof.
    unfold wtp. rewrite <- (psum_plus L), wt_psum. apply psum_ext. intros p _. destruct (P p), (reads x y p); simpl;
    rewrite ?(kplus_0_r L), ?(kplus_0_l _ L); auto.
  Qed.
End PL.
