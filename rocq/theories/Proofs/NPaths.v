(** Accepting paths with multiplicity: from a state, through [connect], and in the reversed machine. *)
From Coq Require Import List Arith NArith Bool Lia Permutation.
From Verif Require Import Base.Util Base.Semiring Base.Machine Base.PathSum Model.VectorFst Model.Rational Model.FstPath Model.Visitors Model.NShortest
  Proofs.VectorFacts Proofs.TrOpsFacts Proofs.OpFacts Proofs.RationalFacts Proofs.SdFacts Proofs.ShortestTree Proofs.ConnectFacts Proofs.NSearch
  Props.C03 Props.C05 Props.C32.
Import ListNotations.
Local Open Scope K_scope.

Section A.
  Context {K : SR} (L : sr_laws K).

  (** The accepting paths of [k] transitions from [s]. *)
  Fixpoint facc (m : machine K) (k s : nat) : list (fpath K) :=
    match k with
    | O => match mfin m s with Some w => [FP [] [] w] | None => [] end
    | S k' => flat_map (fun t => map (consr (il t) (ol t) (wgt t)) (facc m k' (ns t))) (mtrs m s)
    end.
  Lemma map_flat_map {A B C} (h : B -> C) (g : A -> list B) l : map h (flat_map g l) = flat_map (fun a => map h (g a)) l.
  Proof. induction l; cbn; auto. rewrite map_app. congruence. Qed.
  Lemma flat_map_flat_map {A B C} (h : B -> list C) (g : A -> list B) l : flat_map h (flat_map g l) = flat_map (fun a => flat_map h (g a)) l.
  Proof. induction l; cbn; auto. rewrite flat_map_app. congruence. Qed.

  Lemma facc_paths (m : machine K) k : forall s, facc m k s =
    flat_map (fun p => match mfin m (dst s p) with Some w => [FP (ilabs p) (olabs p) (pw p * w)] | None => [] end) (paths m k s).
  Proof.
    induction k as [|k IH]; intros s; cbn [facc paths].
    - cbn [flat_map dst pw ilabs olabs]. destruct (mfin m s); auto. rewrite (ktimes_1_l _ L). auto.
    - rewrite flat_map_flat_map. apply flat_map_ext_in. intros t _. rewrite IH, map_flat_map, flat_map_map'. apply flat_map_ext_in.
      intros p _. cbn [dst]. destruct (mfin m (dst (ns t) p)); auto. cbn [map]. unfold consr. cbn [pil pol pwgt pw]. rewrite (ktimes_assoc _ L). auto.
  Qed.
  Lemma accepting_facc (f : vfst K) k : accepting f k = match vstart f with Some s => facc (mach f) k s | None => [] end.
  Proof. unfold accepting. destruct (vstart f); auto. rewrite facc_paths. auto. Qed.

  Lemma facc_dead m k : forall s, ~ coaccessible m s -> facc m k s = [].
  Proof.
    induction k as [|k IH]; intros s H; cbn [facc].
    - destruct (mfin m s) eqn:E; auto. exfalso. apply H. exists s. split; [constructor|congruence].
    - apply flat_map_all_nil. intros t Ht. rewrite IH; auto. intros (u & R & F). apply H. exists u. split; auto. econstructor; eauto.
  Qed.

  Lemma facc_ext m m' : (forall s, mtrs m s = mtrs m' s) -> (forall s, mfin m s = mfin m' s) -> forall k s, facc m k s = facc m' k s.
  Proof.
    intros T F. induction k as [|k IH]; intros s; cbn [facc]; [rewrite F; auto|]. rewrite T. apply flat_map_ext_in. intros t _. rewrite IH. auto.
  Qed.

  Lemma sub_facc (f : vfst K) d (g : vfst K) : closed f -> useless f d -> is_submachine f d g ->
    forall k i s, nth_error (survivors (num_states f) d) i = Some s -> facc (mach g) k i = facc (mach f) k s.
  Proof.
    intros Hc U (_ & HS & _). induction k as [|k IH]; intros i s H; cbn [facc].
    - cbn [mach mfin]. destruct (HS i s H) as [-> _]. auto.
    - destruct (HS i s H) as [_ F]. destruct (surv_iff f d i s U H) as [Us Hs]. cbn [mach mtrs] in *.
      assert (Sub : incl (trs_of f s) (trs_of f s)) by apply incl_refl. revert F Sub.
      generalize (trs_of f s) at 1 2 4. generalize (trs_of g i). intros l' l. revert l'.
      induction l as [|t l IHl]; intros l' F Sub; cbn [filter flat_map] in *.
      + inversion F; auto.
      + assert (Ht : In t (trs_of f s)) by (apply Sub; left; auto).
        assert (Sub' : incl l (trs_of f s)) by (intros z Hz; apply Sub; right; auto).
        destruct (dead d (ns t)) eqn:Ed; cbn [negb] in F.
        * rewrite (IHl l' F Sub'). rewrite (facc_dead (mach f) k (ns t)); auto.
          intros Hco. apply dead_In in Ed. destruct U as (_ & _ & U3).
          apply (U3 _ Ed). split; auto. destruct Us as [(s0 & E0 & R) _]. exists s0. split; auto.
          eapply reach_trans; eauto. econstructor; [exact Ht|constructor].
        * inversion F as [|t' ? l2 ? (E1 & E2 & E3 & E4) F']; subst. cbn [flat_map]. rewrite (IHl l2 F' Sub'), E1, E2, E3. f_equal.
          rewrite (IH _ _ E4). auto.
  Qed.

  Lemma connect_accepting (f g : vfst K) : closed f -> cnt f -> connect f = Ok g -> forall k, accepting g k = accepting f k.
  Proof.
    intros Hc C E k. destruct (connect_eq f Hc C) as (d & h & Ec & Ed & S & U & _). rewrite E in Ec. injection Ec as ->.
    rewrite !accepting_facc. set (g' := set_properties_with_mask _ _ _). change (vstart g') with (vstart h).
    assert (S' : is_submachine f d g') by exact S. pose proof S as (_ & _ & St & _).
    destruct (vstart f) as [s|] eqn:Es; [|rewrite St; auto]. destruct St as [[Hd ->]|(Nd & i & Ei & ->)].
    - symmetry. apply facc_dead. intros Co. destruct U as (_ & _ & U3). apply (U3 s Hd). split; auto. exists s. split; auto. constructor.
    - apply (sub_facc f d g' Hc U S'). auto.
  Qed.

  Lemma paths_snoc (m : machine K) k : forall a, paths m (S k) a = flat_map (fun p => map (fun t => p ++ [t]) (mtrs m (dst a p))) (paths m k a).
  Proof.
    induction k as [|k IH]; intros a.
    - cbn [paths flat_map dst app map]. rewrite app_nil_r. induction (mtrs m a); cbn; congruence.
    - change (paths m (S (S k)) a) with (flat_map (fun t => map (cons t) (paths m (S k) (ns t))) (mtrs m a)).
      change (paths m (S k) a) with (flat_map (fun t => map (cons t) (paths m k (ns t))) (mtrs m a)). rewrite flat_map_flat_map. apply flat_map_ext_in. intros t _.
      rewrite IH, map_flat_map, flat_map_map'. apply flat_map_ext_in. intros p _. rewrite map_map. cbn [dst]. auto.
  Qed.

  Lemma flat_map_swap {A B C} (h : A -> B -> list C) la lb :
    Permutation (flat_map (fun a => flat_map (h a) lb) la) (flat_map (fun b => flat_map (fun a => h a b) la) lb).
  Proof.
    induction la as [|a la IH]; cbn [flat_map].
    - rewrite flat_map_all_nil; auto.
    - rewrite IH. clear IH. induction lb as [|b lb IH]; cbn [flat_map]; auto.
      rewrite <- IH, <- !app_assoc. apply Permutation_app_head. rewrite !app_assoc. apply Permutation_app_tail. apply Permutation_app_comm.
  Qed.

  (** Only one index matters. *)
  Lemma flat_map_single {B} (h : nat -> list B) a N : (a < N)%nat -> (forall b, b <> a -> h b = []) -> flat_map h (seq 0 N) = h a.
  Proof.
    intros H E. assert (G : forall N s, (s <= a < s + N)%nat -> flat_map h (seq s N) = h a).
    { clear N H. induction N as [|N IH]; intros s Hs; [lia|]. cbn [seq flat_map]. destruct (Nat.eq_dec s a) as [->|Ns].
      - rewrite flat_map_all_nil; [apply app_nil_r|]. intros b Hb. apply in_seq in Hb. apply E. lia.
      - rewrite (E s Ns). apply IH. lia. }
    apply G. lia.
  Qed.

  Lemma ksum_in (l : list K) : path_plus K -> ksum l <> 0 -> In (ksum l) l.
  Proof.
    intros Pp. induction l as [|x l IH]; intros H; [cbn in H; congruence|]. cbn [ksum] in *. destruct (Pp x (ksum l)) as [E|E]; [left; auto|].
    right. rewrite E in *. auto.
  Qed.
  Lemma ksum_le (l : list K) x : path_plus K -> In x l -> le (ksum l) x.
  Proof.
    intros Pp H. unfold le. induction l as [|y l IH]; [destruct H|]. cbn [ksum]. destruct H as [->|H].
    - rewrite (kplus_comm _ L x), <- (kplus_assoc _ L). f_equal. apply (le_refl Pp).
    - rewrite <- (kplus_assoc _ L), IH; auto.
  Qed.

  Lemma upto_le (m : machine K) a k p : path_plus K -> is_path m a p -> (length p <= k)%nat -> le (upto m k a (dst a p)) (pw p).
  Proof.
    intros Pp H Hk. unfold upto. apply (le_trans L _ (to_sum m (length p) a (dst a p))).
    - apply ksum_le; auto. apply in_map_iff. exists (length p). split; auto. apply in_seq. lia.
    - unfold to_sum, psum. apply ksum_le; auto. apply in_map_iff. exists p. rewrite Nat.eqb_refl. split; auto. apply paths_is_path. auto.
  Qed.
  Lemma upto_in (m : machine K) a k s : path_plus K -> upto m k a s <> 0 -> exists p, is_path m a p /\ dst a p = s /\ pw p = upto m k a s.
  Proof.
    intros Pp H. unfold upto in *. pose proof (ksum_in _ Pp H) as I1. apply in_map_iff in I1 as (i & E1 & _). rewrite <- E1 in *.
    unfold to_sum, psum in *. pose proof (ksum_in _ Pp H) as I2. apply in_map_iff in I2 as (p & E2 & Hp). destruct (Nat.eqb_spec (dst a p) s); [|congruence].
    exists p. apply paths_is_path in Hp as [Hp _]. auto.
  Qed.
End A.

Section R.
  Context {K K' : SR} (rv : K -> K') (rb : K' -> K) (L : sr_laws K).
  Hypothesis Rb : forall w, rb (rv w) = w.
  Hypothesis R1 : rb 1 = 1.
  Context (f : vfst K) (g : vfst K') (a : nat).
  Hypothesis C : closed f.
  Hypothesis Sa : vstart f = Some a.
  Hypothesis T0 : trs_of g O = flat_map (rev_fin rv f) (seq 0 (num_states f)).
  Hypothesis TS : forall q, (q < num_states f)%nat -> trs_of g (S q) = flat_map (rev_trs rv f q) (seq 0 (num_states f)).
  Hypothesis F : forall q, fin_of g q = if Nat.eqb q (S a) then Some 1 else None.
  Hypothesis N01 : (1 : K) <> 0.

  Definition prep (p : list (tr K)) (suf : fpath K) : fpath K := FP (ilabs p ++ pil suf) (olabs p ++ pol suf) (pw p * pwgt suf).
  Lemma prep_snoc p t suf : prep p (consr (il t) (ol t) (wgt t) suf) = prep (p ++ [t]) suf.
  Proof.
    unfold prep, consr. cbn [pil pol pwgt]. unfold ilabs, olabs. rewrite !flat_map_app. cbn [flat_map]. rewrite !app_nil_r, <- !app_assoc.
    rewrite (pw_snoc L), (ktimes_assoc _ L). auto.
  Qed.

  Lemma dst_lt p : is_path (mach f) a p -> (dst a p < num_states f)%nat.
  Proof.
    pose proof (proj2 C a Sa) as Ha. revert Ha. generalize a. induction p as [|t p IH]; intros s Hs H; cbn [dst]; auto.
    destruct H as [H1 H2]. apply IH; auto. apply (proj1 C s t H1).
  Qed.

  (** Backwards from [s]: the paths from the start to [s]. *)
  Lemma back_paths k : forall s suf, (s < num_states f)%nat ->
    Permutation (gext rb g (S k) (Some (S s)) suf)
      (flat_map (fun p => if Nat.eqb (dst a p) s then [prep p suf] else []) (paths (mach f) k a)).
  Proof.
    induction k as [|k IH]; intros s suf Hs.
    - cbn [gext paths flat_map dst]. rewrite flat_map_all_nil by (intros t _; auto). cbn [app]. rewrite F, Nat.eqb_sym. cbn [Nat.eqb].
      destruct (Nat.eqb a s); auto. rewrite R1. replace (keqb 1 0) with false by (symmetry; apply (keqb_false L); auto).
      cbn [app]. unfold consr, prep. cbn [lab Nat.eqb ilabs olabs flat_map app pw]. auto.
    - change (gext rb g (S (S k)) (Some (S s)) suf) with
        (flat_map (fun t => gext rb g (S k) (Some (ns t)) (consr (il t) (ol t) (rb (wgt t)) suf)) (trs_of g (S s)) ++
         match fin_of g (S s) with Some w => if keqb (rb w) 0 then [] else gext rb g (S k) None (consr O O (rb w) suf) | None => [] end).
      replace (match fin_of g (S s) with Some w => if keqb (rb w) 0 then [] else gext rb g (S k) None (consr O O (rb w) suf) | None => [] end) with (@nil (fpath K))
        by (destruct (fin_of g (S s)) as [w|]; auto; destruct (keqb (rb w) 0); auto).
      rewrite app_nil_r, TS, flat_map_flat_map by auto.
      transitivity (flat_map (fun p => flat_map (fun q => if Nat.eqb (dst a p) q then
          flat_map (fun t => [prep (p ++ [t]) suf]) (filter (fun t => Nat.eqb (ns t) s) (trs_of f q)) else []) (seq 0 (num_states f))) (paths (mach f) k a)).
      + rewrite flat_map_swap. 
        assert (X : forall l, (forall q, In q l -> (q < num_states f)%nat) -> Permutation
          (flat_map (fun q => flat_map (fun t => gext rb g (S k) (Some (ns t)) (consr (il t) (ol t) (rb (wgt t)) suf)) (rev_trs rv f s q)) l)
          (flat_map (fun q => flat_map (fun p => if Nat.eqb (dst a p) q then flat_map (fun t => [prep (p ++ [t]) suf]) (filter (fun t => Nat.eqb (ns t) s) (trs_of f q)) else []) (paths (mach f) k a)) l)).
        { induction l as [|q l IHl]; intros Hl; cbn [flat_map]; auto. apply Permutation_app; [|apply IHl; intros; apply Hl; right; auto].
          unfold rev_trs. rewrite flat_map_map'. unfold rt. cbn [ns il ol wgt]. assert (Hq : (q < num_states f)%nat) by (apply Hl; left; auto).
          transitivity (flat_map (fun t => flat_map (fun p => if Nat.eqb (dst a p) q then [prep (p ++ [t]) suf] else []) (paths (mach f) k a)) (filter (fun t => Nat.eqb (ns t) s) (trs_of f q))).
          - induction (filter (fun t => Nat.eqb (ns t) s) (trs_of f q)) as [|t ts IHt]; cbn [flat_map]; auto. apply Permutation_app; auto.
            rewrite Rb. replace (q + 1)%nat with (S q) by lia. rewrite IH by auto.
            erewrite flat_map_ext_in; [reflexivity|]. intros p _. cbn beta. rewrite prep_snoc. auto.
          - rewrite flat_map_swap. erewrite flat_map_ext_in; [reflexivity|]. intros p _. cbn beta. destruct (Nat.eqb (dst a p) q); auto.
            apply flat_map_all_nil. auto. }
        apply X. intros q Hq. apply in_seq in Hq. lia.
      + rewrite paths_snoc, flat_map_flat_map. erewrite flat_map_ext_in; [reflexivity|]. intros p Hp. cbn beta.
        apply paths_is_path in Hp as [Hp _]. rewrite (flat_map_single _ (dst a p)) by (try apply dst_lt; auto; intros b Hb; apply Nat.eqb_neq in Hb; rewrite Nat.eqb_sym, Hb; auto).
        rewrite Nat.eqb_refl, flat_map_map'. cbn [mach mtrs]. induction (trs_of f (dst a p)) as [|t ts IHt]; cbn [filter flat_map]; auto.
        rewrite dst_app. cbn [dst]. destruct (Nat.eqb (ns t) s); cbn [flat_map]; rewrite IHt; auto.
  Qed.

  Lemma back_all k : Permutation (gext rb g (S (S k)) (Some O) (FP [] [] 1)) (accepting f k).
  Proof.
    change (gext rb g (S (S k)) (Some O) (FP [] [] 1)) with
      (flat_map (fun t => gext rb g (S k) (Some (ns t)) (consr (il t) (ol t) (rb (wgt t)) (FP [] [] 1))) (trs_of g O) ++
       match fin_of g O with Some w => if keqb (rb w) 0 then [] else gext rb g (S k) None (consr O O (rb w) (FP [] [] 1)) | None => [] end).
    rewrite F. cbn [Nat.eqb]. rewrite app_nil_r, T0, flat_map_flat_map.
    transitivity (flat_map (fun s => flat_map (fun p => if Nat.eqb (dst a p) s then match fin_of f s with Some w => [FP (ilabs p) (olabs p) (pw p * w)] | None => [] end else []) (paths (mach f) k a)) (seq 0 (num_states f))).
    - assert (X : forall l, (forall q, In q l -> (q < num_states f)%nat) -> Permutation
        (flat_map (fun s => flat_map (fun t => gext rb g (S k) (Some (ns t)) (consr (il t) (ol t) (rb (wgt t)) (FP [] [] 1))) (rev_fin rv f s)) l)
        (flat_map (fun s => flat_map (fun p => if Nat.eqb (dst a p) s then match fin_of f s with Some w => [FP (ilabs p) (olabs p) (pw p * w)] | None => [] end else []) (paths (mach f) k a)) l)).
      { induction l as [|q l IHl]; intros Hl; cbn [flat_map]; auto. apply Permutation_app; [|apply IHl; intros; apply Hl; right; auto].
        unfold rev_fin. destruct (fin_of f q) as [w|]; cbn [flat_map].
        - cbn [ns il ol wgt]. rewrite app_nil_r, Rb. replace (q + 1)%nat with (S q) by lia. rewrite back_paths by (apply Hl; left; auto).
          erewrite flat_map_ext_in; [reflexivity|]. intros p _. cbn beta. destruct (Nat.eqb (dst a p) q); auto.
          unfold prep, consr. cbn [pil pol pwgt lab Nat.eqb app]. rewrite !app_nil_r, (ktimes_1_r _ L). auto.
        - rewrite flat_map_all_nil; auto. intros p _. destruct (Nat.eqb (dst a p) q); auto. }
      apply X. intros q Hq. apply in_seq in Hq. lia.
    - rewrite flat_map_swap. unfold accepting. rewrite Sa. erewrite flat_map_ext_in; [reflexivity|]. intros p Hp. cbn beta.
      apply paths_is_path in Hp as [Hp _]. rewrite (flat_map_single _ (dst a p)) by (try apply dst_lt; auto; intros b Hb; apply Nat.eqb_neq in Hb; rewrite Nat.eqb_sym, Hb; auto).
      rewrite Nat.eqb_refl. auto.
  Qed.
End R.
