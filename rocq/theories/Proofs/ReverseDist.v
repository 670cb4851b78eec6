(** Distances of the reversed machine. *)
From Coq Require Import List Arith NArith ZArith Bool Lia.
From Verif Require Import Base.Util Base.Semiring Base.Machine Base.PathSum Base.PropSpec
  Model.Props Model.VectorFst Model.AlgoProps Model.Rational Model.Queues Model.ShortestDistance
  Proofs.PropsFacts Proofs.VectorFacts Proofs.VectorProps Proofs.HistoryFacts Proofs.OpFacts Proofs.ConnectFacts Proofs.RationalFacts Proofs.SdFacts
  Props.C05.
Import ListNotations.
Local Open Scope K_scope.
Local Coercion rsr_psr : rsr_laws >-> psr_laws.

Lemma rfold_inv {A B} (g : B -> A -> res B) (P : B -> Prop) l : (forall b a b', P b -> g b a = Ok b' -> P b') ->
  forall b b', P b -> rfold g l b = Ok b' -> P b'.
Proof.
  intros H. induction l as [|a l IH]; intros b b' Pb; [intros E; injection E as <-; auto|]. rewrite rfold_cons.
  destruct (g b a) as [b1| |] eqn:E1; cbn [rbind]; try discriminate. intros E. eapply IH; [|exact E]. eapply H; eauto.
Qed.

(** Sum of the weights of the accepting paths from [q] of at most [k] transitions. *)
Definition back {K : SR} (m : machine K) (k q : nat) : K := ksum (map (fun i => psum m i q (apw m q)) (seq O (S k))).

Section Back.
  Context {K : SR} (L : lsr_laws K) (m : machine K).
  Lemma back_0 q : back m O q = fw (mfin m q).
  Proof. unfold back. cbn [seq map ksum]. rewrite (kplus_0_r L), (psum_O L). unfold apw. cbn [pw dst]. apply (ktimes_1_l _ L). Qed.
  Lemma back_S k q : back m (S k) q = fw (mfin m q) + ksum (map (fun t => wgt t * back m k (ns t)) (mtrs m q)).
  Proof.
    unfold back. change (seq O (S (S k))) with (O :: seq 1 (S k)). cbn [map ksum]. f_equal.
    - rewrite (psum_O L). unfold apw. cbn [pw dst]. apply (ktimes_1_l _ L).
    - rewrite <- seq_shift, map_map.
      transitivity (ksum (map (fun i => ksum (map (fun t => wgt t * psum m i (ns t) (apw m (ns t))) (mtrs m q))) (seq 0 (S k)))).
      + apply ksum_map_ext. intros i _. rewrite (psum_S L). apply ksum_map_ext. intros t _. rewrite <- (psum_times_l L).
        apply psum_ext. intros p _. unfold apw. cbn [pw dst]. symmetry. apply (ktimes_assoc _ L).
      + rewrite (ksum_swap L). apply ksum_map_ext. intros t _. rewrite (ksum_times_l L), map_map. auto.
  Qed.

  Lemma no_cycle_acyclic : (forall s, ~ on_cycle m s) -> acyclic m.
  Proof.
    intros H s p Hp Hn E. destruct p as [|t p]; [congruence|]. destruct Hp as [Ht Hp]. apply (H s). exists t. split; auto.
    cbn in E. rewrite <- E. clear - Hp. revert Hp. generalize (ns t). clear. induction p as [|u p IH]; intros s Hp; [constructor|].
    destruct Hp as [Hu Hp]. eapply reach_step; eauto.
  Qed.
  Lemma reach_inv_last a b : reach m a b -> a = b \/ exists x t, In t (mtrs m x) /\ ns t = b.
  Proof.
    induction 1 as [s|s t u Ht R IH]; auto. right. destruct IH as [<-|(x & v & Hv & E)]; eauto.
  Qed.
End Back.

Section RevDist.
  Context {K K' : SR} (LK : lsr_laws K) (L : rsr_laws K').
  Variable rv : K -> K'.
  Implicit Types (f : vfst K) (g : vfst K').

  (** ** The acyclic bit *)
  Lemma set_all_sound (l : list (list (tr K'))) : forall i g h, (forall s, (i <= s)%nat -> trs_of g s = []) -> fsound g ->
    rfold (fun g p => unwrap (set_trs g (fst p) (snd p))) (combine (seq i (length l)) l) g = Ok h -> fsound h.
  Proof.
    induction l as [|ts l IH]; intros i g h Z S; [intros E; injection E as <-; auto|].
    cbn [length seq combine]. rewrite rfold_cons. cbn [fst snd].
    destruct (set_trs g i ts) as [g1| |] eqn:E1; cbn [unwrap rbind]; try discriminate. apply IH.
    - intros s Hs. assert (Hi : (i < num_states g)%nat).
      { unfold set_trs in E1. destruct (nth_error (vstates g) i) eqn:Ei; [|discriminate]. apply nth_error_Some. unfold num_states in *. congruence. }
      destruct (set_trs_eff g i ts Hi) as (h' & E' & _ & T & _). rewrite E1 in E'. injection E' as <-.
      rewrite T. destruct (Nat.eqb_spec s i); [lia|]. apply Z. lia.
    - eapply (fsound_set_trs L); eauto.
  Qed.

  Lemma reverse_acyclic f g : closed f -> reverse rv f = Ok g -> has (vprops g) ACYCLIC = true ->
    has (vprops f) ACYCLIC = true \/ forall s, ~ on_cycle (mach g) s.
  Proof.
    intros CL. unfold reverse. set (n := num_states f).
    destruct (add_state_eff (vnew (K := K'))) as (_ & N0 & _ & _ & _ & _ & T0 & _).
    assert (S0 : fsound (fst (add_state (vnew (K := K'))))) by (apply (fsound_add_states vnew 1); apply fsound_new).
    destruct (add_state vnew) as [g0 o]. cbn [fst] in *.
    destruct (add_states_eff g0 n) as (_ & _ & _ & _ & _ & T1 & _).
    pose proof (fsound_add_states g0 n S0) as S1. set (g1 := add_states g0 n) in *.
    destruct (forallb _ _); [|discriminate].
    destruct (rfold (rev_state rv f) (seq 0 n) (g1, repeat [] (n + 1))) as [[g2 l]| |] eqn:E2; try discriminate. cbn [rbind].
    assert (I2 : fsound g2 /\ (forall q, trs_of g2 q = []) /\ length l = (n + 1)%nat).
    { assert (T1' : forall q, trs_of g1 q = []) by (intros q; rewrite T1, T0; destruct q; reflexivity).
      apply (rfold_inv (rev_state rv f) (fun x => fsound (fst x) /\ (forall q, trs_of (fst x) q = []) /\ length (snd x) = (n + 1)%nat))
        with (2 := conj S1 (conj T1' (repeat_length _ _))) in E2; auto.
      clear - L. intros [g l] s [g' l'] (Sg & Tg & Ll). unfold rev_state. cbn [fst snd] in *.
        assert (X : forall r, match vstart f with Some s0 => if s =? s0 then set_final g (s + 1) 1 else Ok g | None => Ok g end = Ok r ->
                    fsound r /\ forall q, trs_of r q = []).
        { intros r. destruct (vstart f) as [s0|]; [destruct (s =? s0)|]; try (intros E; injection E as <-; auto; fail).
          intros E. split; [eapply (fsound_set_final L); eauto|]. intros q.
          assert (Hs : (s + 1 < num_states g)%nat).
          { unfold set_final in E. destruct (nth_error (vstates g) (s + 1)) eqn:Ei; [|discriminate]. apply nth_error_Some. unfold num_states in *. congruence. }
          destruct (set_final_eff g (s + 1) 1 Hs) as (g'' & E' & _ & T & _). rewrite E in E'. injection E' as <-. rewrite T. auto. }
        destruct (match vstart f with Some s0 => _ | None => _ end) as [g3| |]; try discriminate. cbn [rbind].
        destruct (X g3 eq_refl) as [X1 X2].
        assert (P : forall l i t l', push_at (K' := K') l i t = Ok l' -> length l' = length l).
        { intros l0 i t l1. unfold push_at. destruct (nth_error l0 i); [|discriminate]. intros E; injection E as <-. apply upd_length. }
        destruct (match fin_of f s with Some w => _ | None => _ end) as [l1| |] eqn:E1; try discriminate. cbn [rbind].
        destruct (rfold _ _ l1) as [l2| |] eqn:E3; try discriminate. cbn [rbind]. intros E; injection E as <- <-. split; auto. split; auto.
        assert (L1 : length l1 = length l).
        { destruct (fin_of f s); [eapply P; eauto|injection E1 as <-; auto]. }
        rewrite <- Ll, <- L1. clear - E3 P. apply (rfold_inv _ (fun x => length x = length l1)) in E3; auto.
        intros b a b' Hb Hp. apply P in Hp. congruence. }
    destruct I2 as (S2 & T2 & Ll).
    destruct (rfold _ (combine _ l) g2) as [g3| |] eqn:E3; try discriminate. cbn [rbind].
    assert (S3 : fsound g3). { rewrite <- Ll in E3. eapply set_all_sound; [| |exact E3]; auto. }
    destruct (set_start g3 o) as [g4| |] eqn:E4; try discriminate. cbn [rbind]. intros E; injection E as <-.
    pose proof (fsound_set_start _ _ _ S3 E4) as S4. unfold set_properties_with_mask. cbn [vprops with_props].
    rewrite has_lor, !has_land, has_lor. intros H. apply orb_true_iff in H as [H|H]; apply andb_true_iff in H as [H _].
    - right. exact (S4 ACYCLIC H).
    - apply orb_true_iff in H as [H|H].
      + left. unfold reverse_properties, copyif in H. rewrite has_lor, !has_pkeep in H.
        destruct (has (vprops f) ACYCLIC); auto.
      + right. exact (S4 ACYCLIC H).
  Qed.

  (** ** Sums *)
  Lemma kmach_any_paths g k : forall s, paths (kmach g (fun _ => true)) k s = paths (mach g) k s.
  Proof.
    induction k as [|k IH]; intros s; auto. cbn [paths kmach mach mtrs].
    replace (filter (fun _ => true) (trs_of g s)) with (trs_of g s) by (induction (trs_of g s); simpl; congruence).
    apply flat_map_ext. intros t. rewrite IH. auto.
  Qed.
  Lemma kmach_any_upto g k a q : upto (kmach g (fun _ => true)) k a q = upto (mach g) k a q.
  Proof. unfold upto, to_sum, psum. apply ksum_map_ext. intros i _. rewrite kmach_any_paths. auto. Qed.

  Section G.
    Variables (f : vfst K) (g : vfst K').
    Let n := num_states f.
    Hypothesis CL : closed f.
    Hypothesis Ng : num_states g = S n.
    Hypothesis T0 : trs_of g O = flat_map (rev_fin rv f) (seq 0 n).
    Hypothesis TS : forall q, (q < n)%nat -> trs_of g (S q) = flat_map (rev_trs rv f q) (seq 0 n).

    Lemma ksum_one {A} (F : nat -> list A) (G : A -> K') (h : A -> nat) q : (q < n)%nat -> (forall s a, In a (F s) -> h a = S s) ->
      ksum (map (fun a => if h a =? S q then G a else 0) (flat_map F (seq 0 n))) = ksum (map G (F q)).
    Proof.
      intros Hq H. rewrite flat_map_concat_map, concat_map, map_map, <- flat_map_concat_map, (ksum_flat_map L).
      rewrite <- (ksum_delta L n (fun s => ksum (map G (F s))) q Hq). apply ksum_map_ext. intros s _.
      destruct (Nat.eqb_spec s q) as [->|Hs].
      - apply ksum_map_ext. intros a Ha. rewrite (H q a Ha), Nat.eqb_refl. auto.
      - apply (ksum_map_zero L). intros a Ha. rewrite (H s a Ha). rewrite (proj2 (Nat.eqb_neq _ _)) by lia. auto.
    Qed.

    Lemma rev_adj T q : rv 0 = 0 -> (q < n)%nat -> adj (mach g) (S n) T (S q) =
      T O * rv (fw (fin_of f q)) + ksum (map (fun t => T (S (ns t)) * rv (wgt t)) (trs_of f q)).
    Proof.
      intros rv_0 Hq. unfold adj. cbn [seq map ksum mach mtrs]. f_equal.
      - rewrite T0, (ksum_one (rev_fin rv f) (fun t => T O * wgt t) ns q Hq).
        + unfold rev_fin. destruct (fin_of f q); cbn [map ksum wgt fw]; [apply (kplus_0_r L)|]. rewrite rv_0. symmetry. apply (ktimes_0_r _ L).
        + intros s a. unfold rev_fin. destruct (fin_of f s); [|intros []]. intros [<-|[]]. cbn. lia.
      - rewrite <- seq_shift, map_map.
        transitivity (ksum (map (fun p => ksum (map (fun t => if ns t =? p then T (S p) * rv (wgt t) else 0) (trs_of f q))) (seq 0 n))).
        + apply ksum_map_ext. intros p Hp. apply in_seq in Hp. rewrite TS by lia.
          rewrite (ksum_one (rev_trs rv f p) (fun t => T (S p) * wgt t) ns q Hq).
          * unfold rev_trs. rewrite map_map, (ksum_filter L). reflexivity.
          * intros s a. unfold rev_trs. intros Ha. apply in_map_iff in Ha as (t & <- & _). cbn. lia.
        + rewrite (ksum_swap L). apply ksum_map_ext. intros t Ht.
          rewrite <- (ksum_delta L n (fun p => T (S p) * rv (wgt t)) (ns t)) by (apply (proj1 CL q t Ht)).
          apply ksum_map_ext. intros p _. rewrite Nat.eqb_sym. auto.
    Qed.
    Lemma rev_adj0 T : adj (mach g) (S n) T O = 0.
    Proof.
      unfold adj. apply (ksum_map_zero L). intros p Hp. apply in_seq in Hp. apply (ksum_map_zero L). intros t Ht. cbn [mach mtrs] in Ht.
      destruct (Nat.eqb_spec (ns t) 0) as [E|]; auto. exfalso. destruct p as [|p].
      - rewrite T0 in Ht. apply in_flat_map in Ht as (s & _ & Ht). unfold rev_fin in Ht. destruct (fin_of f s); [|destruct Ht].
        destruct Ht as [<-|[]]. cbn in E. lia.
      - rewrite TS in Ht by lia. apply in_flat_map in Ht as (s & _ & Ht). unfold rev_trs in Ht.
        apply in_map_iff in Ht as (u & <- & _). cbn in E. lia.
    Qed.

    Lemma rev_edge s t : In t (trs_of g s) -> exists p, ns t = S p /\ (p < n)%nat /\
      (s = O \/ exists q u, s = S q /\ (q < n)%nat /\ In u (trs_of f p) /\ ns u = q /\ wgt t = rv (wgt u)).
    Proof.
      intros Ht. destruct s as [|q].
      - rewrite T0 in Ht. apply in_flat_map in Ht as (s & Hs & Ht). apply in_seq in Hs. unfold rev_fin in Ht. destruct (fin_of f s); [|destruct Ht].
        destruct Ht as [<-|[]]. exists s. cbn. split; [lia|]. split; [lia|auto].
      - destruct (Nat.lt_ge_cases q n) as [Hq|Hq].
        2:{ rewrite trs_of_beyond in Ht by lia. destruct Ht. }
        rewrite TS in Ht by auto. apply in_flat_map in Ht as (s & Hs & Ht). apply in_seq in Hs. unfold rev_trs in Ht.
        apply in_map_iff in Ht as (u & <- & Hu). apply filter_In in Hu as [Hu En]. apply Nat.eqb_eq in En.
        exists s. cbn. split; [lia|]. split; [lia|]. right. exists q, u. auto.
    Qed.

    Lemma rev_reach a b : reach (mach g) a b -> forall q p, a = S q -> b = S p -> (q < n)%nat -> (p < n)%nat -> reach (mach f) p q.
    Proof.
      induction 1 as [s|s t u Ht R IH]; intros q p -> Ep Hq Hp; [injection Ep as ->; constructor|].
      destruct (rev_edge _ t Ht) as (x & Ex & Hx & [?|(y & v & Ey & Hy & Hv & En & _)]); [discriminate|]. injection Ey as <-.
      eapply reach_trans; [apply (IH x p Ex Ep Hx Hp)|]. eapply reach_step; [exact Hv|]. rewrite En. constructor.
    Qed.

    Lemma rev_no_cycle : (forall s, ~ on_cycle (mach f) s) -> forall s, ~ on_cycle (mach g) s.
    Proof.
      intros Ac s (t & Ht & R). destruct (rev_edge s t Ht) as (p & Ep & Hp & [->|(q & u & -> & Hq & Hu & En & _)]).
      - apply reach_inv_last in R as [R|(x & v & Hv & Ev)]; [congruence|].
        destruct (rev_edge x v Hv) as (y & Ey & _). congruence.
      - apply (Ac p). exists u. split; auto. rewrite En. eapply rev_reach; eauto.
    Qed.

    Lemma rev_calm : (forall r, exists r0, r = rv r0) -> (forall a b, rv (a + b) = rv a + rv b) -> (forall a b, rv (a * b) = rv b * rv a) ->
      (forall s t, In t (trs_of f s) -> ns t = s -> forall r : K, r + wgt t * r = r) -> calm g (fun _ => true).
    Proof.
      intros r1 rp rt Ca s t Ht Es r. cbn in Ht. apply filter_In in Ht as [Ht _].
      destruct (rev_edge s t Ht) as (p & Ep & Hp & [->|(q & u & -> & Hq & Hu & En & ->)]); [congruence|].
      destruct (r1 r) as (r0 & ->). rewrite <- rt, <- rp. f_equal. apply (Ca p u); auto. congruence.
    Qed.

    (** Sum of the accepting paths from [q] of at most [k] transitions. *)
    Lemma rev_upto k : rv 0 = 0 -> rv 1 = 1 -> (forall a b, rv (a + b) = rv a + rv b) -> (forall a b, rv (a * b) = rv b * rv a) ->
      upto (mach g) k O O = 1 /\
      forall q, (q < n)%nat -> upto (mach g) (S k) O (S q) = rv (back (mach f) k q).
    Proof.
      intros r0 r1 rp rt. assert (B : forall s t, In t (mtrs (mach g) s) -> (ns t < S n)%nat).
      { intros s t Ht. destruct (rev_edge s t Ht) as (p & -> & Hp & _). lia. }
      assert (U0 : forall k, upto (mach g) k O O = 1).
      { intros [|j]; [rewrite (upto_0 L); reflexivity|]. rewrite (upto_S L (mach g) (S n) B) by lia. rewrite rev_adj0, (kplus_0_r L). reflexivity. }
      split; auto. assert (rs : forall l, rv (ksum l) = ksum (map rv l)) by (induction l as [|x l IH]; simpl; rewrite ?rp, ?IH; auto).
      induction k as [|k IH]; intros q Hq; rewrite (upto_S L (mach g) (S n) B) by lia; unfold unit_at; cbn [Nat.eqb];
        rewrite (kplus_0_l _ L), (rev_adj _ q r0 Hq), U0, (ktimes_1_l _ L).
      - rewrite (ksum_map_zero L (fun t => upto (mach g) 0 O (S (ns t)) * rv (wgt t)) (trs_of f q)), (kplus_0_r L).
        + rewrite (back_0 LK). auto.
        + intros t _. rewrite (upto_0 L). apply (ktimes_0_l _ L).
      - rewrite (back_S LK), rp. cbn [mach mfin]. f_equal. rewrite rs, map_map. apply ksum_map_ext. intros t Ht.
        rewrite IH by (apply (proj1 CL q t Ht)). symmetry. apply rt.
    Qed.
  End G.
End RevDist.
