(** Minimization of a deterministic unweighted acceptor. *)
From Coq Require Import List Arith NArith ZArith Bool Lia Permutation Sorted.
From Verif Require Import Base.Util Base.Semiring Base.Machine Base.PropSpec
  Model.Props Model.VectorFst Model.TrOps Model.AlgoProps Model.History Model.Visitors Model.Relabel Model.Rational Model.Partition Model.Minimize
  Proofs.PropsFacts Proofs.VectorFacts Proofs.DelStates Proofs.VectorProps Proofs.TrOpsFacts Proofs.HistoryFacts
  Proofs.OpFacts Proofs.ConnectFacts Proofs.RationalFacts Proofs.SdFacts Proofs.ReverseDist Proofs.RmEpsFacts Proofs.MergeFacts Proofs.MinMerge
  Proofs.CyclicFacts Proofs.AcyclicDepth Proofs.AcyclicFacts Props.C03 Props.C10 Props.C12 Props.C38 Props.C43.
Import ListNotations.
Local Open Scope K_scope.

(** Every transition reads what it writes, and every weight is [1]. *)
Definition plain_acceptor {K : SR} (m : machine K) : Prop :=
  (forall s t, In t (mtrs m s) -> ol t = il t /\ wgt t = kone) /\ (forall s w, mfin m s = Some w -> w = kone).

Section Spell.
  Context {K : SR} (L : lsr_laws K).

  Lemma spell_ren (m1 m2 : machine K) (h : nat -> nat) (P : nat -> Prop) :
    (forall s t, P s -> In t (mtrs m1 s) -> P (ns t)) ->
    (forall s, P s -> Permutation (mtrs m2 (h s)) (map (ren h) (mtrs m1 s))) ->
    (forall s, P s -> fw (mfin m2 (h s)) = fw (mfin m1 s)) ->
    forall u s, P s -> spell m2 (h s) u = spell m1 s u.
  Proof.
    intros H1 H2 H3. induction u as [|a u IH]; intros s Hs; cbn [spell]; [auto|].
    rewrite !(ksum_filter L). rewrite (ksum_perm_map L _ _ _ (H2 s Hs)), map_map. apply ksum_map_ext. intros t Ht. unfold ren. cbn [il wgt ns].
    rewrite IH; auto. eapply H1; eauto.
  Qed.

  Lemma spell_dead (m : machine K) : forall u s, ~ coaccessible m s -> spell m s u = 0.
  Proof.
    induction u as [|a u IH]; intros s H; cbn [spell].
    - destruct (mfin m s) eqn:E; auto. exfalso. apply H. exists s. split; [constructor|congruence].
    - apply (ksum_map_zero L). intros t Ht. apply filter_In in Ht as [Ht _]. rewrite IH; [apply (ktimes_0_r _ L)|].
      intros (q & R & F). apply H. exists q. split; auto. econstructor; eauto.
  Qed.

  Lemma sub_spell (f g : vfst K) d : closed f -> useless f d -> is_submachine f d g ->
    forall u k s, nth_error (survivors (num_states f) d) k = Some s -> spell (mach g) k u = spell (mach f) s u.
  Proof.
    intros Hc U (_ & HS & _). induction u as [|a u IH]; intros k s H; cbn [spell].
    - cbn. destruct (HS k s H) as [-> _]. auto.
    - destruct (HS k s H) as [_ F]. destruct (surv_iff f d k s U H) as [Us Hs]. rewrite !(ksum_filter L). cbn [mach mtrs].
      assert (Sub : incl (trs_of f s) (trs_of f s)) by apply incl_refl. revert F Sub.
      generalize (trs_of f s) at 1 2 4. generalize (trs_of g k). intros l' l. revert l'.
      induction l as [|t l IHl]; intros l' F Sub; simpl in *.
      + inversion F; auto.
      + assert (Ht : In t (trs_of f s)) by (apply Sub; simpl; auto).
        assert (Sub' : incl l (trs_of f s)) by (intros z Hz; apply Sub; simpl; auto).
        destruct (dead d (ns t)) eqn:Ed; simpl in F.
        * rewrite (IHl l' F Sub').
          assert (Z : spell (mach f) (ns t) u = 0).
          { apply spell_dead. intros Hco. apply dead_In in Ed. destruct U as (_ & _ & U3).
            apply (U3 _ Ed). split; auto. destruct Us as [(s0 & E0 & R) _]. exists s0. split; auto.
            eapply reach_trans; eauto. econstructor; [exact Ht|constructor]. }
          rewrite Z, (ktimes_0_r _ L). destruct (il t =? a); symmetry; apply (kplus_0_l _ L).
        * inversion F as [|t' ? l2 ? (E1 & E2 & E3 & E4) F']; subst. simpl. rewrite (IHl l2 F' Sub'), E1, E3. f_equal.
          destruct (il t =? a); auto. rewrite (IH _ _ E4). auto.
  Qed.

  (** With one transition per label, a label leads to one place. *)
  Lemma filter_one (l : list (tr K)) t : NoDup (map il l) -> In t l -> filter (fun u => il u =? il t) l = [t].
  Proof.
    induction l as [|x l IH]; intros Nd H; [destruct H|]. cbn [map] in Nd. inversion Nd as [|? ? N1 N2]; subst. cbn [filter].
    assert (Z : forall y, ~ In y (map il l) -> filter (fun u => il u =? y) l = []).
    { clear. induction l as [|z l IHl]; intros y H; auto. cbn [filter]. destruct (Nat.eqb_spec (il z) y) as [<-|]; [exfalso; apply H; left; auto|].
      apply IHl. intros X. apply H. right; auto. }
    destruct H as [->|H]; [rewrite Nat.eqb_refl, Z; auto|]. destruct (Nat.eqb_spec (il x) (il t)) as [E|E]; [exfalso; apply N1; rewrite E; apply in_map; auto|].
    apply IH; auto.
  Qed.
  Lemma spell_step (m : machine K) s t u : deterministic m -> In t (mtrs m s) -> spell m s (il t :: u) = wgt t * spell m (ns t) u.
  Proof. intros D H. cbn [spell]. rewrite filter_one by auto. cbn [map ksum]. apply (kplus_0_r L). Qed.
  Lemma spell_none (m : machine K) s a u : ~ In a (map il (mtrs m s)) -> spell m s (a :: u) = 0.
  Proof.
    intros H. cbn [spell]. apply (ksum_map_zero L). intros t Ht. apply filter_In in Ht as [Ht E]. apply Nat.eqb_eq in E. exfalso. apply H.
    rewrite <- E. apply in_map. auto.
  Qed.
  Lemma spell_some (m : machine K) s : deterministic m -> plain_acceptor m -> coaccessible m s -> exists u, spell m s u = 1.
  Proof.
    intros D [P1 P2] (q & R & F). induction R as [s|s t q Ht R IH].
    - exists []. cbn. destruct (mfin m s) as [w|] eqn:E; [cbn; eauto|congruence].
    - destruct (IH F) as (u & Eu). exists (il t :: u). rewrite spell_step, Eu, (proj2 (P1 _ _ Ht)) by auto. apply (ktimes_1_l _ L).
  Qed.
  Lemma spell_bool (m : machine K) : deterministic m -> plain_acceptor m -> forall u s, spell m s u = 1 \/ spell m s u = 0.
  Proof.
    intros D [P1 P2]. induction u as [|a u IH]; intros s.
    - cbn. destruct (mfin m s) as [w|] eqn:E; auto. left. apply (P2 s w E).
    - destruct (in_dec Nat.eq_dec a (map il (mtrs m s))) as [H|H]; [|right; apply spell_none; auto].
      apply in_map_iff in H as (t & <- & Ht). rewrite spell_step, (proj2 (P1 _ _ Ht)), (ktimes_1_l _ L) by auto. apply IH.
  Qed.
End Spell.

Lemma strict_sorted_eq : forall l l' : list nat, StronglySorted le l -> StronglySorted le l' -> NoDup l -> NoDup l' ->
  (forall x, In x l <-> In x l') -> l = l'.
Proof.
  induction l as [|a l IH]; intros [|b l'] S1 S2 N1 N2 H; auto.
  - destruct (proj2 (H b) (or_introl eq_refl)).
  - destruct (proj1 (H a) (or_introl eq_refl)).
  - inversion S1 as [|? ? A1 A2]; inversion S2 as [|? ? B1 B2]; inversion N1; inversion N2; subst. rewrite Forall_forall in A2, B2.
    assert (a = b).
    { destruct (proj1 (H a) (or_introl eq_refl)) as [->|X]; auto. destruct (proj2 (H b) (or_introl eq_refl)) as [->|Y]; auto.
      specialize (A2 _ Y). specialize (B2 _ X). lia. }
    subst b. f_equal. apply IH; auto. intros x. split; intros Hx.
    + destruct (proj1 (H x) (or_intror Hx)) as [<-|X]; auto. contradiction.
    + destruct (proj2 (H x) (or_intror Hx)) as [<-|X]; auto. contradiction.
Qed.

Section M.
  Context {K K' : SR} (L : lsr_laws K) (L' : psr_laws K') (rv : K -> K') (wlt : K -> K -> bool) (orc : nat -> nat).
  Context (W0 : wlt kzero kzero = false) (W1 : wlt kone kone = false) (W01 : wlt kone kzero = negb (wlt kzero kone)) (H01 : (kone : K) <> kzero).
  Implicit Types (f g h : vfst K).

  (** A machine the minimizers are meant for. *)
  Record ready g (s0 : nat) : Prop := Ready {
    rd_closed : closed g; rd_cnt : cnt g; rd_sound : fsound g; rd_start : vstart g = Some s0;
    rd_trim : forall s, (s < num_states g)%nat -> accessible (mach g) s /\ coaccessible (mach g) s;
    rd_plain : plain_acceptor (mach g); rd_det : deterministic (mach g) }.
  (** States that some word tells apart. *)
  Definition told g (s t : nat) : Prop := exists u, spell (mach g) s u <> spell (mach g) t u.
  Lemma told_sym g s t : told g s t -> told g t s.
  Proof. intros (u & H). exists u. auto. Qed.
  Lemma told_step g s0 s t a u v : ready g s0 -> edge g s a u -> edge g t a v -> told g u v -> told g s t.
  Proof.
    intros [_ _ _ _ _ [P _] D] (x & Hx & Ex & <-) (y & Hy & Ey & <-) (w & Hw). exists (a :: w). rewrite <- Ex at 1. rewrite <- Ey.
    rewrite !(spell_step L) by auto. rewrite (proj2 (P _ _ Hx)), (proj2 (P _ _ Hy)), !(ktimes_1_l _ L). auto.
  Qed.
  Lemma told_fin g s0 s t : ready g s0 -> isfin g s <> isfin g t -> told g s t.
  Proof.
    intros [_ _ _ _ _ [_ P] _] H. exists []. cbn. unfold isfin in H.
    destruct (fin_of g s) as [w|] eqn:E1, (fin_of g t) as [w'|] eqn:E2; try congruence; cbn;
      [rewrite (P s w E1)|rewrite (P t w' E2)]; auto.
  Qed.
  Lemma told_label g s0 s t a : ready g s0 -> In a (map il (trs_of g s)) -> ~ In a (map il (trs_of g t)) -> told g s t.
  Proof.
    intros [C _ _ _ T P D] H1 H2. apply in_map_iff in H1 as (x & <- & Hx).
    destruct (T (ns x)) as [_ Co]; [apply (proj1 C s x Hx)|]. destruct (spell_some L (mach g) (ns x) D P Co) as (u & Eu).
    exists (il x :: u). rewrite (spell_step L) by auto. rewrite Eu, (proj2 (proj1 P _ _ Hx)), (ktimes_1_l _ L). rewrite (spell_none L) by auto. auto.
  Qed.
  Lemma told_labels g s0 s t : ready g s0 -> (forall s, StronglySorted le (map il (trs_of g s))) ->
    map il (trs_of g s) <> map il (trs_of g t) -> told g s t.
  Proof.
    intros R So H.
    destruct (forallb (fun a => existsb (Nat.eqb a) (map il (trs_of g t))) (map il (trs_of g s))) eqn:E1.
    2: { assert (X : exists a, In a (map il (trs_of g s)) /\ existsb (Nat.eqb a) (map il (trs_of g t)) = false).
         { revert E1. clear. induction (map il (trs_of g s)) as [|a l IH]; simpl; [discriminate|]. intros E. apply andb_false_iff in E as [E|E]; eauto.
           destruct (IH E) as (b & B1 & B2). eauto. }
         destruct X as (a & A1 & A2). apply (told_label g s0 s t a); auto. intros Hin. apply existsb_eqb in Hin. congruence. }
    destruct (forallb (fun a => existsb (Nat.eqb a) (map il (trs_of g s))) (map il (trs_of g t))) eqn:E2.
    2: { assert (X : exists a, In a (map il (trs_of g t)) /\ existsb (Nat.eqb a) (map il (trs_of g s)) = false).
         { revert E2. clear. induction (map il (trs_of g t)) as [|a l IH]; simpl; [discriminate|]. intros E. apply andb_false_iff in E as [E|E]; eauto.
           destruct (IH E) as (b & B1 & B2). eauto. }
         destruct X as (a & A1 & A2). apply told_sym. apply (told_label g s0 t s a); auto. intros Hin. apply existsb_eqb in Hin. congruence. }
    exfalso. apply H. rewrite forallb_forall in E1, E2. apply strict_sorted_eq; auto; try apply (rd_det _ _ R).
    intros x. split; intros Hx; [apply E1 in Hx|apply E2 in Hx]; apply existsb_eqb in Hx; auto.
  Qed.

  (** The result of merging a good partition. *)
  Record minimized g h (sep : Prop) : Prop := Minimized {
    mz_closed : closed h; mz_cnt : cnt h; mz_sound : fsound h; mz_plain : plain_acceptor (mach h); mz_det : deterministic (mach h);
    mz_trim : forall s, (s < num_states h)%nat -> accessible (mach h) s /\ coaccessible (mach h) s;
    mz_spell : forall u, spelled (mach h) u = spelled (mach g) u;
    mz_rel : forall n x y, rel (mach h) n x y = rel (mach g) n x y;
    mz_tabs : visymt h = visymt g /\ vosymt h = vosymt g;
    mz_size : (num_states h <= num_states g)%nat;
    mz_apart : sep -> forall s t, (s < num_states h)%nat -> (t < num_states h)%nat -> s <> t -> told h s t }.

  Lemma merge_minimized g s0 p cls k (sep : Prop) : ready g s0 -> parts (num_states g) p cls k ->
    (forall s t, (s < num_states g)%nat -> (t < num_states g)%nat -> cls s = cls t ->
       isfin g s = isfin g t /\ forall x, In x (trs_of g s) -> exists y, In y (trs_of g t) /\ il y = il x /\ cls (ns y) = cls (ns x)) ->
    (forall s t, (s < num_states g)%nat -> (t < num_states g)%nat -> cls s <> cls t -> sep -> told g s t) ->
    exists h, (h0 <-- merge_states p g ;; tr_unique h0) = Ok h /\ minimized g h sep.
  Proof.
    intros R HP HC HS. pose proof R as [C N So St T [P1 P2] D].
    destruct (merge_quotient L g p cls k s0 HP C N St T P1 D) as (h0 & h & rho & E0 & E1 & Q & Qs & Qn).
    { intros s s' H1 H2 E. destruct (HC s s' H1 H2 E) as [F X]. split; auto.
      unfold isfin in F. destruct (fin_of g s) as [w|] eqn:Fs, (fin_of g s') as [w'|] eqn:Fs'; try congruence.
      rewrite (P2 s w Fs), (P2 s' w' Fs'). auto. }
    exists h. rewrite E0. cbn [rbind]. split; auto. destruct Q as [Q1 Q2 Q3 Q4 Q5 Q6 Q7 Q8 Q9].
    assert (InT : forall q t, In t (trs_of h q) -> exists s u, (s < num_states g)%nat /\ rho s = q /\ In u (trs_of g s) /\ t = ren rho u).
    { intros q t Ht. destruct (Nat.lt_ge_cases q (num_states h)) as [Hq|Hq]; [|rewrite trs_of_oob in Ht by auto; destruct Ht].
      destruct (Q2 q Hq) as (s & Hs & <-). apply (Permutation_in _ (Q4 s Hs)) in Ht. apply in_map_iff in Ht as (u & <- & Hu). eauto 8. }
    assert (P : plain_acceptor (mach h)).
    { split.
      - intros q t Ht. destruct (InT q t Ht) as (s & u & _ & _ & Hu & ->). cbn. apply (P1 s u Hu).
      - intros q w Hw. destruct (Nat.lt_ge_cases q (num_states h)) as [Hq|Hq]; [|cbn in Hw; rewrite fin_of_beyond in Hw by auto; discriminate].
        destruct (Q2 q Hq) as (s & Hs & <-). cbn in Hw. rewrite Q3 in Hw by auto. apply (P2 s w Hw). }
    assert (Sp : forall u s, (s < num_states g)%nat -> spell (mach h) (rho s) u = spell (mach g) s u).
    { apply (spell_ren L (mach g) (mach h) rho (fun s => s < num_states g)%nat); cbn [mach mtrs mfin]; auto; [intros s t _ Ht; apply (proj1 C s t Ht)|].
      intros s Hs. rewrite Q3; auto. }
    assert (Rc : forall a b, Machine.reach (mach g) a b -> (a < num_states g)%nat -> Machine.reach (mach h) (rho a) (rho b)).
    { intros a b Rx. induction Rx as [a|a t b Ht Rx IH]; intros Ha; [constructor|].
      apply (reach_step (mach h) (rho a) (ren rho t)); [|apply IH; apply (proj1 C a t Ht)].
      cbn. apply (Permutation_in _ (Permutation_sym (Q4 a Ha))). apply in_map. auto. }
    assert (Hs0 : (s0 < num_states g)%nat) by (apply C; auto).
    constructor; auto.
    - intros q. destruct (Nat.lt_ge_cases q (num_states h)) as [Hq|Hq]; [|cbn; rewrite trs_of_oob by auto; constructor].
      destruct (Q2 q Hq) as (s & Hs & <-). cbn. apply (Permutation_NoDup (l := map il (trs_of g s))); [|apply D].
      rewrite (Permutation_map il (Q4 s Hs)), map_map. cbn. auto.
    - intros q Hq. destruct (Q2 q Hq) as (s & Hs & <-). destruct (T s Hs) as [(s1 & E2 & R1) (u & R2 & Fu)]. cbn in E2.
      assert (s1 = s0) by congruence. subst s1. split.
      + exists (rho s0). cbn. rewrite Q5, St. split; auto.
      + exists (rho u). split; auto. cbn. rewrite Q3; auto. eapply reach_lt; eauto.
    - intros u. unfold spelled. cbn [mach mstart]. rewrite Q5, St. cbn. auto.
    - intros n x y. unfold rel. cbn [mach mstart]. rewrite Q5, St. cbn [option_map].
      apply (wt_ren L (mach g) (mach h) rho (fun s => s < num_states g)%nat); cbn [mach mtrs mfin]; auto; [intros s t _ Ht; apply (proj1 C s t Ht)|].
      intros s Hs. rewrite Q3; auto.
    - rewrite <- (seq_length (num_states h) 0), <- (seq_length (num_states g) 0), <- (map_length rho (seq 0 (num_states g))).
      apply NoDup_incl_length; [apply seq_NoDup|]. intros q Hq. apply in_seq in Hq. destruct (Q2 q ltac:(lia)) as (s & Hs & <-).
      apply in_map. apply in_seq. lia.
    - intros Hsep q r Hq Hr Ne. destruct (Q2 q Hq) as (s & Hs & <-), (Q2 r Hr) as (t & Ht & <-).
      destruct (HS s t Hs Ht) as (u & Hu); auto. { intros E. apply Ne. apply Qs; auto. } exists u. rewrite !Sp by auto. auto.
  Qed.

  (** Sorting the transitions keeps everything. *)
  Lemma ready_sorted g s0 : ready g s0 -> exists g', tr_sort_i g = Ok g' /\ ready g' s0 /\ sorted_by il g g'.
  Proof.
    intros [C N So St T [P1 P2] D]. destruct (C10_tr_sort L g) as [(g' & E & SB & _) _]. exists g'. split; auto. split; auto.
    pose proof SB as (A1 & A2 & A3 & A4 & A5 & _).
    assert (I : forall s t, In t (trs_of g' s) <-> In t (trs_of g s)).
    { intros s t. split; apply Permutation_in; [|symmetry]; apply A4. }
    assert (Rx : forall a b, Machine.reach (mach g) a b -> Machine.reach (mach g') a b).
    { intros a b. apply reach_mono. intros s t. cbn. apply I. }
    constructor.
    - split; [intros s t Ht; rewrite A1; apply I in Ht; apply (proj1 C s t Ht)|intros s Hs; rewrite A1; apply C; congruence].
    - clear - E N. unfold tr_sort_i in E. rewrite tr_sort_eq in E. injection E as <-. unfold cnt in *. cbn. rewrite Forall_forall in *. intros st Hst.
      apply in_map_iff in Hst as (st0 & <- & H0). apply cnt_sort. auto.
    - apply (tr_sort_i_sound g g' So E).
    - congruence.
    - intros s Hs. rewrite A1 in Hs. destruct (T s Hs) as [(s1 & E1 & R1) (u & R2 & Fu)]. split.
      + exists s1. split; auto. cbn. rewrite A2. exact E1.
      + exists u. split; auto. cbn. rewrite A3. exact Fu.
    - split; [intros s t Ht; apply (P1 s t); apply I; auto|intros s w Hw; cbn in Hw; rewrite A3 in Hw; apply (P2 s w Hw)].
    - intros s. cbn. apply (Permutation_NoDup (l := map il (trs_of g s))); [apply Permutation_map; symmetry; apply A4|apply D].
  Qed.

  Lemma spelled_sorted g g' : sorted_by il g g' -> forall u, spelled (mach g') u = spelled (mach g) u.
  Proof.
    intros (A1 & A2 & A3 & A4 & _) u. unfold spelled. cbn [mach mstart]. rewrite A2. destruct (vstart g) as [s|]; auto.
    apply (spell_ren L (mach g) (mach g') (fun q => q) (fun _ => True)); cbn [mach mtrs mfin]; auto.
    - intros q _. rewrite A4. replace (map (ren (fun u => u)) (trs_of g q)) with (trs_of g q); auto.
      rewrite <- (map_id (trs_of g q)) at 1. apply map_ext. intros []; reflexivity.
    - intros q _. rewrite A3. auto.
  Qed.

  Lemma cyclic_case g s0 : ready g s0 -> exists h, (g1 <-- (p <-- cyclic_minimize rv orc g ;; merge_states p g) ;; tr_unique g1) = Ok h /\
    minimized g h (forall s, StronglySorted le (map il (trs_of g s))).
  Proof.
    intros R. pose proof R as [C N So St T P D].
    set (sep := forall s, StronglySorted le (map il (trs_of g s))).
    destruct (cyclic_ok L' rv orc g (fun s t => sep -> told g s t) C D) as (p & cls & k & E & HP & HC & HS).
    - intros s t H X. apply told_sym. auto.
    - intros s t a u v E1 E2 H X. eapply told_step; eauto.
    - intros s t Hs Ht H X. destruct H as [H|H]; [eapply told_fin; eauto|]. apply (told_labels g s0); auto. intros E. apply H. unfold labels. rewrite E. auto.
    - rewrite E. cbn [rbind]. apply (merge_minimized g s0 p cls k sep); auto.
  Qed.

  Lemma acyclic_case g s0 : ready g s0 -> (forall s, ~ on_cycle (mach g) s) ->
    exists h, (g1 <-- (g <-- tr_sort_i g ;; p <-- acyclic_minimizer wlt g ;; merge_states p g) ;; tr_unique g1) = Ok h /\ minimized g h True.
  Proof.
    intros R A. destruct (ready_sorted g s0 R) as (g1 & E1 & R1 & SB). rewrite E1. cbn [rbind].
    pose proof R1 as [C N So St T P D].
    assert (A1 : acyclic (mach g1)).
    { apply no_cycle_acyclic. intros s (t & Ht & Rt). destruct SB as (_ & _ & _ & A4 & _). apply (A s). exists t. split.
      - cbn in *. apply (Permutation_in _ (A4 s)). auto.
      - revert Rt. apply reach_mono. intros q u. cbn. apply Permutation_in. apply A4. }
    destruct (acyclic_ok wlt g1 s0 (told g1) C A1 St (fun s Hs => proj1 (T s Hs)) W0 W1 W01 (proj2 P)) as (p & cls & k & E & HP & HC & HS).
    - intros s t. apply told_sym.
    - intros s t a u v X1 X2. eapply told_step; eauto.
    - intros s t Hs Ht H. destruct H as [H|H]; [eapply told_fin; eauto|]. apply (told_labels g1 s0); auto. apply SB.
    - rewrite E. cbn [rbind]. destruct (merge_minimized g1 s0 p cls k True R1 HP HC) as (h & Eh & [Z1 Z2 Z3 Z4 Z5 Z6 Z7 Z8 Z9 Z10 Z11]); [intros; auto|].
      exists h. split; auto. pose proof SB as (B1 & B2 & B3 & B4 & B5 & B6 & B7). constructor; auto.
      + intros u. rewrite Z7. apply spelled_sorted. auto.
      + intros n x y. rewrite Z8. unfold rel. cbn [mach mstart]. rewrite B2. destruct (vstart g) as [s|]; auto.
        apply (wt_ren L (mach g) (mach g1) (fun q => q) (fun _ => True)); cbn [mach mtrs mfin]; auto.
        * intros q _. rewrite B4. replace (map (ren (fun u => u)) (trs_of g q)) with (trs_of g q); auto.
          rewrite <- (map_id (trs_of g q)) at 1. apply map_ext. intros []; reflexivity.
        * intros q _. rewrite B3. auto.
      + destruct Z9 as [-> ->]. clear - E1. unfold tr_sort_i in E1. rewrite tr_sort_eq in E1. injection E1 as <-. auto.
      + rewrite <- B1. auto.
  Qed.

  (** Trimming. *)
  Lemma connect_ready f s0 : closed f -> cnt f -> fsound f -> vstart f = Some s0 -> plain_acceptor (mach f) -> deterministic (mach f) ->
    exists g, connect f = Ok g /\ closed g /\ cnt g /\ fsound g /\ plain_acceptor (mach g) /\ deterministic (mach g) /\
      (forall u, spelled (mach g) u = spelled (mach f) u) /\ (forall n x y, rel (mach g) n x y = rel (mach f) n x y) /\
      visymt g = visymt f /\ vosymt g = vosymt f /\ (num_states g <= num_states f)%nat /\
      ((forall s, StronglySorted le (map il (trs_of f s))) -> forall s, StronglySorted le (map il (trs_of g s))) /\
      ((forall s, ~ on_cycle (mach f) s) -> forall s, ~ on_cycle (mach g) s) /\
      (num_states g = O /\ vstart g = None \/ exists k, ready g k).
  Proof.
    intros C N So St [P1 P2] D. destruct (connect_eq f C N) as (d & g0 & E & Ed & S & U & Ud).
    set (g := set_properties_with_mask g0 (mask [ACCESSIBLE; COACCESSIBLE]) (mask [ACCESSIBLE; COACCESSIBLE])) in *.
    exists g. split; auto.
    assert (So' : fsound g) by (apply (connect_fsound L f g C N E So)).
    assert (Sg : is_submachine f d g) by exact S. clearbody g. clear S g0 Ed.
    assert (Cg : closed g) by (eapply sub_closed; eauto).
    assert (Ng : cnt g).
    { destruct (connect_eq f C N) as (d1 & g1 & E1 & Ed1 & _). rewrite E in E1.
      assert (X : g = set_properties_with_mask g1 (mask [ACCESSIBLE; COACCESSIBLE]) (mask [ACCESSIBLE; COACCESSIBLE])) by congruence. rewrite X.
      change (cnt g1). eapply del_states_cnt; eauto. }
    pose proof Sg as (Nn & HS & Hst & Y1 & Y2).
    assert (From : forall k t, In t (trs_of g k) -> exists s u, nth_error (survivors (num_states f) d) k = Some s /\ In u (trs_of f s) /\
      il t = il u /\ ol t = ol u /\ wgt t = wgt u /\ nth_error (survivors (num_states f) d) (ns t) = Some (ns u)).
    { intros k t Ht. destruct (nth_error (survivors (num_states f) d) k) as [s|] eqn:Ek.
      - destruct (HS k s Ek) as [_ F]. destruct (Forall2_in_l _ _ _ _ F Ht) as (u & Hu & H1 & H2 & H3 & H4). apply filter_In in Hu as [Hu _]. exists s, u. auto 10.
      - apply nth_error_None in Ek. rewrite trs_of_oob in Ht by lia. destruct Ht. }
    assert (Pg : plain_acceptor (mach g)).
    { split.
      - intros k t Ht. destruct (From k t Ht) as (s & u & _ & Hu & -> & -> & -> & _). apply (P1 s u Hu).
      - intros k w Hw. cbn in Hw. destruct (nth_error (survivors (num_states f) d) k) as [s|] eqn:Ek.
        + destruct (HS k s Ek) as [X _]. rewrite X in Hw. apply (P2 s w Hw).
        + apply nth_error_None in Ek. rewrite fin_of_beyond in Hw by lia. discriminate. }
    assert (Lab : forall k s, nth_error (survivors (num_states f) d) k = Some s -> map il (trs_of g k) = map il (filter (fun t => negb (dead d (ns t))) (trs_of f s))).
    { intros k s Ek. destruct (HS k s Ek) as [_ F]. induction F as [|x y l l' (H1 & _) F IH]; auto. cbn [map]. congruence. }
    assert (Dg : deterministic (mach g)).
    { intros k. cbn. destruct (nth_error (survivors (num_states f) d) k) as [s|] eqn:Ek.
      - rewrite (Lab k s Ek). specialize (D s). cbn in D. revert D. clear. induction (trs_of f s) as [|t l IH]; intros Nd; auto. cbn [map] in Nd.
        inversion Nd as [|? ? N1 N2]; subst. cbn [filter]. destruct (negb (dead d (ns t))); auto. cbn [map]. constructor; auto.
        intros Hin. apply N1. apply in_map_iff in Hin as (u & <- & Hu). apply filter_In in Hu as [Hu _]. apply in_map. auto.
      - apply nth_error_None in Ek. rewrite trs_of_oob by lia. constructor. }
    assert (Start : vstart g = None /\ ~ useful f s0 \/ exists k, nth_error (survivors (num_states f) d) k = Some s0 /\ vstart g = Some k).
    { rewrite St in Hst. destruct Hst as [[H1 H2]|[H1 H2]]; auto. left. split; auto. apply U. auto. }
    assert (Dead : vstart g = None -> ~ coaccessible (mach f) s0).
    { intros H Co. destruct Start as [[_ X]|(k & _ & X)]; [|congruence]. apply X. split; auto. exists s0. split; auto. constructor. }
    split; auto. split; auto. split; auto. split; auto. split; auto. split; [|split; [|split; [|split; [|split; [|split; [|split]]]]]]; auto.
    - intros u. unfold spelled. cbn [mach mstart]. rewrite St. destruct Start as [[X _]|(k & Ek & X)]; rewrite X.
      + symmetry. apply (spell_dead L). auto.
      + apply (sub_spell L f g d); auto.
    - intros n x y. unfold rel. cbn [mach mstart]. rewrite St. destruct Start as [[X _]|(k & Ek & X)]; rewrite X.
      + symmetry. apply (wt_dead L). auto.
      + apply (sub_wt L f d g); auto.
    - rewrite Nn. unfold survivors. rewrite <- (seq_length (num_states f) 0) at 2. generalize (seq 0 (num_states f)). clear.
      induction l as [|x l IH]; simpl; auto. destruct (negb (dead d x)); simpl; lia.
    - intros Hs k. destruct (nth_error (survivors (num_states f) d) k) as [s|] eqn:Ek.
      + rewrite (Lab k s Ek). specialize (Hs s). revert Hs. clear. induction (trs_of f s) as [|t l IH]; intros Hs; auto. cbn [map] in Hs.
        inversion Hs as [|? ? N1 N2]; subst. cbn [filter]. destruct (negb (dead d (ns t))); auto. cbn [map]. constructor; auto.
        rewrite Forall_forall in *. intros x Hx. apply N2. apply in_map_iff in Hx as (u & <- & Hu). apply filter_In in Hu as [Hu _]. apply in_map. auto.
      + apply nth_error_None in Ek. rewrite trs_of_oob by lia. constructor.
    - intros Hcy k (t & Ht & Rt). destruct (From k t Ht) as (s & u & Ek & Hu & _ & _ & _ & En).
      apply (Hcy s). exists u. split; auto.
      assert (G : forall a b, Machine.reach (mach g) a b -> forall x, nth_error (survivors (num_states f) d) a = Some x ->
        exists y, nth_error (survivors (num_states f) d) b = Some y /\ Machine.reach (mach f) x y).
      { intros a b Rab. induction Rab as [a|a v b Hv Rab IH]; intros x Hx; [exists x; split; auto; constructor|].
        destruct (From a v Hv) as (x' & w & Ex' & Hw & _ & _ & _ & En'). destruct (IH _ En') as (y & Ey & Ry). exists y. split; auto.
        assert (x' = x) by congruence. subst x'. econstructor; eauto. }
      destruct (G _ _ Rt _ En) as (y & Ey & Ry). assert (y = s) by congruence. subst y. auto.
    - destruct Start as [[X NU]|(k & Ek & X)].
      + left. split; auto. rewrite Nn. destruct (survivors (num_states f) d) as [|q l] eqn:Es; auto. exfalso.
        destruct (surv_iff f d O q U) as [[(s1 & E1 & R1) (v & R2 & Fv)] _]; [rewrite Es; auto|]. cbn in E1. assert (s1 = s0) by congruence. subst s1.
        apply NU. split; [exists s0; split; auto; constructor|]. exists v. split; auto. eapply reach_trans; eauto.
      + right. exists k. constructor; auto. intros s Hs. apply (sub_useful f d g C U Sg s Hs).
  Qed.
End M.
