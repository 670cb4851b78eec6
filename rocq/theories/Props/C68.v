(** C68: the n shortest paths with [unique] are the n best strings of an acceptor without epsilons. *)
From Coq Require Import List Arith NArith ZArith Bool Lia Permutation.
From Verif Require Import Base.Util Base.Semiring Base.Machine Base.PathSum Base.PropSpec Base.Instances Base.TropZ
  Model.Props Model.AlgoProps Model.VectorFst Model.History Model.BiMap Model.Rational Model.FstPath Model.Queues Model.ShortestDistance Model.ShortestPath Model.Gallic Model.NShortest Model.Determinize Model.UniquePaths
  Proofs.PropsFacts Proofs.VectorFacts Proofs.TrOpsFacts Proofs.VectorProps Proofs.OpFacts Proofs.RationalFacts Proofs.ConnectFacts Proofs.SdFacts Proofs.ShortestTree Proofs.ClosedB
  Proofs.TableFacts Proofs.DetTable Proofs.DetFacts Proofs.DetBits Proofs.NSearch Proofs.NBest Proofs.NPaths Proofs.NFinal Proofs.DetDistance Proofs.ReverseDist Proofs.PushLabels
  Props.C05 Props.C06 Props.C16 Props.C32 Props.C38 Props.C41 Props.C47 Props.C62 Props.C67.
Import ListNotations.
Local Open Scope K_scope.

(** ** Specification *)

(** The accepting paths of [g] spell different strings, at most [n]; each weighs what [f] gives to
    its string in all; no other string weighs less; and there are [n] unless all the others weigh
    zero. *)
Definition best_strings {K : SR} (f : vfst K) (n : nat) (g : vfst K) : Prop :=
  (forall k x, In x (accepting g k) -> pol x = pil x /\ pwgt x = spelled (mach f) (pil x)) /\
  (forall k, NoDup (map pil (accepted g k))) /\
  (forall k, (length (accepted g k) <= n)%nat) /\
  (forall k x u, In x (accepting g k) -> (forall j, ~ In u (map pil (accepting g j))) -> pwgt x + spelled (mach f) u = pwgt x) /\
  ((exists k, length (accepted g k) = n) \/ forall u, (forall j, ~ In u (map pil (accepting g j))) -> spelled (mach f) u = 0).

Section C68.
  Context {K : SR} (L : sr_laws K) (Pp : path_plus K) (Cm : commutative_times K) (Can : cancellative K).
  Context (div : K -> K -> res K) (quant : K -> K) (ord : dtuple K -> nat -> list (nat * K) -> list (nat * K)).
  Context (DX : exact_division div quant) (HO : any_order ord).
  Notation D := (default_weight div quant true).
  Notation id := (fun w : K => w).
  Implicit Types f g : vfst K.

  Lemma filter_none {A} (p : A -> bool) q : (forall x, In x q -> p x = false) -> filter p q = [].
  Proof. induction q as [|x q IH]; intros H; auto. cbn [filter]. rewrite (H x) by (left; auto). apply IH. intros; apply H; right; auto. Qed.
  Lemma paddings_short n : forall x, (n < length x)%nat -> paddings n x = [].
  Proof.
    induction n as [|n IH]; intros [|a x] H; cbn in *; try lia; auto. rewrite IH by (cbn; lia). cbn. destruct (Nat.eqb a 0); auto.
    rewrite IH by lia. auto.
  Qed.
  Lemma paddings_full x : ~ In O x -> paddings (length x) x = [x].
  Proof.
    induction x as [|a x IH]; intros H; auto. cbn [length paddings]. rewrite paddings_short by (cbn; lia). cbn [map app].
    destruct (Nat.eqb_spec a 0); [subst; destruct H; left; auto|]. rewrite IH by (intros X; apply H; right; auto). auto.
  Qed.

  Section Rev.
    Context (f rf : vfst K) (C : closed f) (Ac : is_acceptor (mach f)) (Ef : eps_free (mach f)).
    Context (Er : reverse id f = Ok rf).
    Context (Nr : num_states rf = S (num_states f)) (Sr : vstart rf = Some O).
    Context (T0 : trs_of rf 0 = flat_map (rev_fin id f) (seq 0 (num_states f))).
    Context (TS : forall q, (q < num_states f)%nat -> trs_of rf (S q) = flat_map (rev_trs id f q) (seq 0 (num_states f))).
    Context (Fr : forall q, fin_of rf q = match vstart f with Some s0 => if Nat.eqb q (S s0) then Some 1 else None | None => None end).

    Lemma rev_tr0 t : In t (trs_of rf 0) -> il t = O /\ ol t = O /\ exists q, ns t = S q.
    Proof.
      rewrite T0. intros H. apply in_flat_map in H as (s & _ & H). unfold rev_fin in H. destruct (fin_of f s); [|destruct H].
      destruct H as [<-|[]]. cbn. split; auto. split; auto. exists s. lia.
    Qed.
    Lemma rev_trS q t : In t (trs_of rf (S q)) -> il t <> O /\ ol t = il t /\ exists q', ns t = S q'.
    Proof.
      intros H. destruct (Nat.ltb_spec q (num_states f)) as [Hq|Hq]; [|rewrite trs_of_beyond in H by lia; destruct H].
      rewrite TS in H by auto. apply in_flat_map in H as (s & _ & H). unfold rev_trs in H. apply in_map_iff in H as (u & <- & H).
      apply filter_In in H as [H _]. unfold rt. cbn. split; [apply (Ef s); auto|]. split; [apply (Ac s); auto|]. exists s. lia.
    Qed.
    Lemma rev_acceptor : is_acceptor (mach rf).
    Proof.
      intros [|q] t H; cbn [mach mtrs] in H.
      - apply rev_tr0 in H as (-> & -> & _). auto.
      - apply rev_trS in H as (_ & -> & _). auto.
    Qed.
    Lemma rev_spelled x : ~ In O x -> spelled (mach rf) (O :: rev x) = spelled (mach f) x.
    Proof.
      intros Nx. destruct (C05_reverse L L id eq_refl eq_refl (fun _ _ => eq_refl) Cm f C) as (rf' & Er' & _ & _ & _ & R & _).
      rewrite Er in Er'. injection Er' as <-. specialize (R (length x) x x).
      unfold rel in R. cbn [mach mstart] in R. rewrite Sr in R. unfold spelled. cbn [mach mstart]. rewrite Sr.
      assert (Nx' : ~ In O (rev x)) by (rewrite <- in_rev; auto).
      rewrite (acceptor_wt L (mach rf) rev_acceptor) in R. replace (leqb (rev x) (rev x)) with true in R by (symmetry; apply leqb_true; auto).
      cbn [paddings] in R. replace (paddings (length x) (rev x)) with [rev x] in R by (rewrite <- (rev_length x); symmetry; apply paddings_full; auto).
      rewrite map_app, (ksum_app L) in R. cbn [map ksum] in R. rewrite (kplus_0_r L) in R.
      match type of R with _ + ?y = _ => assert (Y : y = 0) end.
      { apply (ksum_map_zero L). intros u Hu. destruct (rev x) as [|b y]; [destruct Hu|]. destruct (Nat.eqb_spec b 0) as [|Nb]; [destruct Hu|].
        apply in_map_iff in Hu as (u' & <- & _). cbn [spell mach mtrs]. rewrite filter_none; [reflexivity|].
        intros t Ht. apply rev_tr0 in Ht as (-> & _). destruct b; [lia|auto]. }
      rewrite Y, (kplus_0_r L) in R. rewrite R. destruct (vstart f) as [s|]; auto.
      rewrite (free_wt L (mach f) Ef Ac), Nat.eqb_refl. cbn [andb]. unfold same_word. destruct (list_eq_dec Nat.eq_dec x x) as [_|]; [|congruence].
      destruct (existsb (Nat.eqb O) x) eqn:Z; auto. apply existsb_exists in Z as (b & Hb & Eb). apply Nat.eqb_eq in Eb. subst. tauto.
    Qed.
    Lemma rev_is_closed : closed rf.
    Proof.
      split.
      - intros q t Ht. eapply (rev_closed id f rf Nr T0 TS). exact Ht.
      - intros s Es. rewrite Sr in Es. injection Es as <-. lia.
    Qed.

    (** ** The words of the determinized machine *)
    Section Det.
      Context (dist : list K) (fuel : nat) (h : vfst K) (out : list K).
      Context (E : determinize_with_distance D ord rf dist fuel = Some (Ok (h, out))).
      Context (tb : det_table K) (Et : det_run D ord rf (Some dist) fuel = Some (Ok (h, tb))).
      Notation tup s := (nth_error (id_to_tuple (dabs tb)) s).

      Lemma path_labels p : forall s t, accessible (mach h) s -> tup s = Some t -> (forall e, In e (fst t) -> exists q, fst e = S q) ->
        is_path (mach h) s p -> ~ In O (map il p).
      Proof.
        induction p as [|v p IH]; intros s t A N H Hp; [intros []|]. destruct Hp as [Hv Hp].
        destruct (run_step L D ord rf HO fuel h tb Et s t v A N Hv) as (_ & t' & N' & Ne & P). cbn [map]. intros [Z|Z].
        - destruct (fst t') as [|e l] eqn:El; [congruence|]. destruct (proj1 (P (fst e)) (or_introl eq_refl)) as (e0 & w & He & Hw & Ew & _).
          destruct (H e0 He) as (q & Eq). rewrite Eq in Hw. apply rev_trS in Hw as (Nw & _). congruence.
        - apply (IH (ns v) t') in Hp; auto; [eapply acc_step; eauto|]. intros e He.
          destruct (proj1 (P (fst e)) (in_map fst _ _ He)) as (e0 & w & He0 & Hw & _ & <-). destruct (H e0 He0) as (q & Eq). rewrite Eq in Hw. apply rev_trS in Hw as (_ & _ & X). exact X.
      Qed.
      Lemma det_spelled u : spelled (mach h) u = spelled (mach rf) u.
      Proof. destruct (run_met L D ord rf fuel h tb Et) as (_ & _ & (c & B) & _). apply (built_spelled L div quant true ord rf DX HO _ h B). Qed.
      Lemma word_shape r k u : vstart h = Some r -> In u (words h k r) -> exists x, ~ In O x /\ u = O :: rev x.
      Proof.
        intros Sh Hu. assert (A : accessible (mach h) r) by (exists r; split; [auto|apply reach_refl]).
        destruct (run_start L D ord rf fuel h tb Et 0 Sr) as (r' & Sh' & N). rewrite Sh in Sh'. injection Sh' as <-.
        destruct (words_path h k r u Hu) as ([|v p] & Hp & <-).
        - exfalso. pose proof (words_length h k r _ Hu) as ->. cbn [map length words] in Hu. apply in_app_or in Hu as [Hu|Hu].
          + apply in_flat_map in Hu as (t & _ & []).
          + pose proof (det_spelled []) as X. unfold spelled in X. cbn [mach mstart] in X. rewrite Sh, Sr in X. cbn [spell mach mfin] in X.
            destruct (fin_of h r) as [w|]; [|destruct Hu]. destruct (keqb w 0) eqn:Q; [destruct Hu|]. apply (keqb_false L) in Q. apply Q.
            cbn [fw] in X. rewrite X, Fr. destruct (vstart f); auto.
        - destruct Hp as [Hv Hp]. destruct (run_step L D ord rf HO fuel h tb Et r _ v A N Hv) as (_ & t' & N' & Ne & P). cbn [fst] in P.
          assert (Z : il v = O).
          { destruct (fst t') as [|e l] eqn:El; [congruence|]. destruct (proj1 (P (fst e)) (or_introl eq_refl)) as (e0 & w & [<-|[]] & Hw & Ew & _).
            cbn [fst] in Hw. apply rev_tr0 in Hw as (X & _). congruence. }
          exists (rev (map il p)). rewrite rev_involutive, <- in_rev. cbn [map]. rewrite Z. split; auto.
          apply (path_labels p (ns v) t'); auto; [eapply acc_step; eauto|]. intros e He.
          destruct (proj1 (P (fst e)) (in_map fst _ _ He)) as (e0 & w & [<-|[]] & Hw & _ & <-). cbn [fst] in Hw. apply rev_tr0 in Hw as (_ & _ & X). exact X.
      Qed.
    End Det.
  End Rev.

  Lemma str_word x : ~ In O x -> str (O :: rev x) = x.
  Proof.
    intros H. unfold str. cbn [rev]. rewrite rev_involutive, flat_map_app. cbn. rewrite app_nil_r. induction x as [|a x IH]; auto. cbn [flat_map].
    rewrite IH by (intros X; apply H; right; auto). unfold lab. destruct (Nat.eqb_spec a 0); [subst; destruct H; left; auto|auto].
  Qed.

  Lemma empty_strings f n : (forall u, spelled (mach f) u = 0) ->
    let g := set_symts_from_fst vnew f in closed g /\ cnt g /\ bits_true g /\ best_strings f n g.
  Proof.
    intros Z g. assert (A : forall k, accepting g k = []) by reflexivity. assert (B : forall k, accepted g k = []).
    { intros k. unfold accepted. apply flat_map_all_nil. auto. }
    split; [split; [intros s t Ht; destruct s; destruct Ht|discriminate]|]. split; [constructor|]. split; [exact fsound_new|].
    split; [|split; [|split; [|split]]].
    - intros k x. rewrite A. intros [].
    - intros k. rewrite B. constructor.
    - intros k. rewrite B. cbn. lia.
    - intros k x u. rewrite A. intros [].
    - right. intros u _. apply Z.
  Qed.

  (** What the search returns for the determinized machine. *)
  Lemma unique_search f rf Dl d n fuel h out :
    closed f -> is_acceptor (mach f) -> eps_free (mach f) -> (2 <= n)%nat -> reverse id f = Ok rf ->
    (forall s, match vstart f with Some a => settles (fun k => upto (mach f) k a s) (nth s Dl 0) | None => nth s Dl 0 = 0 end) ->
    n_start_distance id rf Dl = Ok d ->
    determinize_with_distance D ord rf (d :: Dl) fuel = Some (Ok (h, out)) ->
    exists g, n_shortest_path id true h out n = Ok g /\
      let g' := set_symts_from_fst g f in closed g' /\ cnt g' /\ bits_true g' /\ best_strings f n g'.
  Proof.
    intros C Ac Ef Hn Er HD Es Ed. destruct (reverse_eff id f C) as (rf' & Er' & Nr & Sr & _ & _ & _ & T0 & TS & Fr).
    rewrite Er in Er'. injection Er' as <-. destruct (start_distance L Pp Cm id id (fun _ => eq_refl) f rf Dl) as (d' & Es' & E1 & E2); [lia|auto|].
    rewrite Es in Es'. injection Es' as <-. pose proof (rev_is_closed f rf Nr Sr T0 TS) as Cr.
    destruct (distance_out L div quant true ord rf _ _ _ _ Ed) as (tb & Et & Lo & Ho).
    destruct (run_start L D ord rf fuel h tb Et 0 Sr) as (r & Sh & Nt). assert (A : accessible (mach h) r) by (exists r; split; [auto|apply reach_refl]).
    pose proof (run_met L D ord rf fuel h tb Et) as (_ & _ & (c & B) & _).
    destruct (built_shape div quant true ord rf _ h B) as [SA SD]. pose proof B as (_ & Ch & _).
    assert (Or : nth r out 0 = d).
    { rewrite (proj2 (Ho r _ Nt)). cbn [fst map ksum snd nth]. rewrite (kplus_0_r L). apply (ktimes_1_l _ L). }
    assert (Lr : (r < length out)%nat) by apply (Ho r _ Nt).
    assert (Ve : (forall u, spelled (mach f) u = 0) -> d = 0 -> exists g, n_shortest_path id true h out n = Ok g /\
      let g' := set_symts_from_fst g f in closed g' /\ cnt g' /\ bits_true g' /\ best_strings f n g').
    { intros Z Zd. exists vnew. split; [|apply empty_strings; auto]. unfold n_shortest_path. destruct (Nat.eqb_spec n 0); [lia|]. cbn [negb]. rewrite Sh.
      rewrite Or, Zd. replace (keqb 0 0) with true by (symmetry; apply (keqb_true L); auto). rewrite orb_true_r. auto. }
    assert (Rs : forall x, ~ In O x -> spelled (mach rf) (O :: rev x) = spelled (mach f) x) by (apply (rev_spelled f rf); auto).
    assert (Ws : forall k u, In u (words h k r) -> exists x, ~ In O x /\ u = O :: rev x) by (intros k u; eapply (word_shape f rf); eauto).
    destruct (vstart f) as [a|] eqn:Sa.
    2:{ apply Ve; [intros u; unfold spelled; cbn [mach mstart]; rewrite Sa; auto|]. destruct (keqb d 0) eqn:Q; [apply (keqb_true L); auto|].
        apply (keqb_false L) in Q. destruct (E2 Q) as (s & w & _ & _ & X). rewrite X, HD. apply (ktimes_0_l _ L). }
    assert (D1 : forall q t, In t (trs_of rf q) -> le (nth q (d :: Dl) 0) (nth (ns t) (d :: Dl) 0 * wgt t))
      by (intros q t; apply (C47.d1 L Pp id id (fun _ => eq_refl) f rf a Dl d Nr T0 TS HD E1)).
    assert (D2 : forall q w, fin_of rf q = Some w -> le (nth q (d :: Dl) 0) w)
      by (intros q w; apply (C47.d2 L Pp id eq_refl f rf a Dl d Nr Fr HD)).
    assert (Op : forall q, nth q (d :: Dl) 0 <> 0 -> NBest.optimal id rf (d :: Dl) q)
      by (intros q; apply (C47.optimal_all L Pp Can id id (fun _ => eq_refl) eq_refl f rf a Dl d C Sa Nr T0 TS Fr HD E2)).
    assert (O1 : forall q t, In t (trs_of h q) -> le (nth q out 0) (nth (ns t) out 0 * wgt t))
      by (intros q t; apply (out_step L Pp Cm div quant ord rf DX HO (d :: Dl) fuel h out D1 tb Et Ho)).
    assert (O2 : forall q w, fin_of h q = Some w -> le (nth q out 0) w).
    { intros q w F. replace w with (fw (fin_of h q)) by (rewrite F; auto).
      apply (out_fin L Pp div quant ord rf DX HO (d :: Dl) fuel h out D2 tb Et Ho). apply (run_all L D ord rf fuel h tb Et).
      destruct (Nat.ltb_spec q (num_states h)); auto. rewrite fin_of_beyond in F by auto. discriminate. }
    assert (Low : forall u q, le (nth q out 0) (spell (mach h) q u)) by (apply (spell_low L Cm h out O1 O2)).
    assert (Sp : forall x, ~ In O x -> spelled (mach f) x = spell (mach h) r (O :: rev x)).
    { intros x Hx. rewrite <- (Rs x Hx), <- (det_spelled rf (d :: Dl) fuel h tb Et). unfold spelled. cbn [mach mstart]. rewrite Sh. auto. }
    assert (Zx : forall x, In O x -> spelled (mach f) x = 0).
    { intros x Hx. unfold spelled. destruct (mstart (mach f)); auto. apply (spell_zero L); auto. }
    destruct (keqb d 0) eqn:Q.
    { apply (keqb_true L) in Q. apply Ve; auto. intros u. destruct (in_dec Nat.eq_dec O u) as [Hu|Hu]; auto. rewrite Sp by auto.
      apply (le_0_eq L). rewrite <- Q, <- Or. apply Low. }
    apply (keqb_false L) in Q.
    assert (Oo : forall q, nth q out 0 <> 0 -> NBest.optimal id h out q).
    { intros q Nq. destruct (nth_error (id_to_tuple (dabs tb)) q) as [t|] eqn:Nt'.
      - pose proof (tup_acc L div quant ord rf (d :: Dl) fuel h tb Et q t) as Aq. specialize (Aq ltac:(congruence) Nt').
        pose proof (proj2 (Ho q t Nt')) as Eo.
        assert (In (nth q out 0) (map (fun e => snd e * nth (fst e) (d :: Dl) 0) (fst t))) as Hi by (rewrite Eo; apply (ksum_in _ Pp); rewrite <- Eo; auto).
        apply in_map_iff in Hi as (e & Ee & He).
        apply (out_optimal L Pp Cm Can div quant ord rf DX HO (d :: Dl) fuel h out D1 D2 tb Et Ho (fst e)) with (t := t) (e := e); auto.
        apply Op. intros Z. apply Nq. rewrite <- Ee, Z. apply (ktimes_0_r _ L).
      - exfalso. apply Nq. apply nth_overflow. rewrite Lo. apply nth_error_None. auto. }
    assert (Cl : forall q t, In t (trs_of h q) -> (ns t < num_states h)%nat) by (intros q t; apply (proj1 Ch)).
    destruct (n_shortest_ok id L Pp Cm h out n r Cl O1 O2 Sh) as (g & rest & Eg & G1 & G2 & G3 & G4 & G5 & G6 & G7 & G8); auto; [apply (proj2 Ch); auto|congruence|lia|].
    exists g. split; auto. cbn zeta. split; [exact G1|]. split; [exact G2|]. split; [exact G3|].
    set (fp := fun u => FP (str u ++ []) (str u ++ []) (spell (mach h) r u * 1)).
    assert (G5' : forall k, Permutation (map fp (words h k r)) (accepting g (S k) ++ rest k)).
    { intros k. rewrite <- G5, (gext_words L Cm h SD SA). reflexivity. }
    assert (Sh' : forall k x, In x (accepting g (S k) ++ rest k) -> exists w, ~ In O w /\ x = FP w w (spelled (mach f) w) /\ k = S (S (length w)) /\ In (O :: rev w) (words h k r)).
    { intros k x Hx. apply (Permutation_in _ (Permutation_sym (G5' k))) in Hx. apply in_map_iff in Hx as (u & <- & Hu).
      destruct (Ws k u Hu) as (w & Nw & ->). exists w. split; auto.
      unfold fp. rewrite str_word, app_nil_r, (ktimes_1_r _ L), <- Sp by auto. split; auto. split; auto.
      apply words_length in Hu. rewrite Hu. cbn. rewrite rev_length. auto. }
    assert (Nd : forall k, NoDup (map pil (accepting g (S k) ++ rest k))).
    { intros k. apply (Permutation_NoDup (Permutation_map pil (G5' k))). rewrite map_map.
      assert (X : forall l, incl l (words h k r) -> NoDup l -> NoDup (map (fun u => pil (fp u)) l)).
      { induction l as [|u l IH]; intros Hl N; [constructor|]. inversion N as [|? ? N1 N2]; subst. cbn [map]. constructor; [|apply IH; auto; intros z Hz; apply Hl; right; auto].
        intros Hi. apply in_map_iff in Hi as (v & Ev & Hv). apply N1. replace u with v; auto.
        destruct (Ws k u (Hl _ (or_introl eq_refl))) as (w & Nw & ->).
        destruct (Ws k v (Hl _ (or_intror Hv))) as (w' & Nw' & ->).
        unfold fp in Ev. cbn [pil] in Ev. rewrite !app_nil_r, !str_word in Ev by auto. congruence. }
      apply X; [apply incl_refl|apply (words_nodup h SD)]. }
    assert (Fi : forall u, spelled (mach f) u <> 0 -> (forall j, ~ In u (map pil (accepting g j))) -> exists k y, In y (rest k) /\ pwgt y = spelled (mach f) u).
    { intros u Nu Hu. destruct (in_dec Nat.eq_dec O u) as [Z|Z]; [exfalso; auto|]. rewrite Sp in Nu by auto. apply (words_all L h SD) in Nu.
      apply (in_map fp) in Nu. apply (Permutation_in _ (G5' _)) in Nu. 
      assert (Ep : pil (fp (O :: rev u)) = u) by (unfold fp; cbn [pil]; rewrite app_nil_r; apply str_word; auto).
      assert (Ew : pwgt (fp (O :: rev u)) = spelled (mach f) u) by (unfold fp; cbn [pwgt]; rewrite (ktimes_1_r _ L); symmetry; auto).
      apply in_app_or in Nu as [Nu|Nu]; [|eauto]. exfalso. eapply Hu. rewrite <- Ep at 1. apply in_map. exact Nu. }
    unfold best_strings. assert (Ag : forall k, accepting (set_symts_from_fst g f) k = accepting g k) by reflexivity.
    split; [|split; [|split; [|split]]].
    - intros [|k] x Hx; rewrite Ag in Hx; [rewrite G4 in Hx; destruct Hx|]. destruct (Sh' k x) as (w & _ & -> & _); [apply in_or_app; auto|]. cbn. auto.
    - change (accepted (set_symts_from_fst g f)) with (accepted g).
      assert (X : forall m j, NoDup (map pil (flat_map (accepting g) (seq j m)))).
      { induction m as [|m IH]; intros j; cbn [seq flat_map]; [constructor|]. rewrite map_app. apply NoDup_app_intro; auto.
        - destruct j as [|j]; [rewrite G4; constructor|]. specialize (Nd j). rewrite map_app in Nd. clear -Nd. induction (map pil (accepting g (S j))); [constructor|].
          inversion Nd; subst. constructor; auto. intros Hi. apply H1. apply in_or_app. auto.
        - intros u Hu Hv. apply in_map_iff in Hu as (x & <- & Hx). apply in_map_iff in Hv as (y & Ey & Hy). apply in_flat_map in Hy as (j' & Hj & Hy).
          apply in_seq in Hj. destruct j as [|j]; [rewrite G4 in Hx; destruct Hx|]. destruct j' as [|j']; [lia|].
          destruct (Sh' j x) as (w & _ & -> & K1 & _); [apply in_or_app; auto|]. destruct (Sh' j' y) as (w' & _ & -> & K2 & _); [apply in_or_app; auto|].
          cbn [pil] in Ey. subst w'. lia. }
      intros k. apply X.
    - exact G6.
    - intros [|k] x u Hx Hu; rewrite Ag in Hx; [rewrite G4 in Hx; destruct Hx|]. destruct (keqb (spelled (mach f) u) 0) eqn:Z.
      + apply (keqb_true L) in Z. rewrite Z. apply (kplus_0_r L).
      + apply (keqb_false L) in Z. destruct (Fi u Z Hu) as (k' & y & Hy & <-). exact (G7 _ _ _ _ Hx Hy).
    - destruct G8 as [G8|G8]; [left; exact G8|right]. intros u Hu. destruct (keqb (spelled (mach f) u) 0) eqn:Z; [apply (keqb_true L); auto|].
      apply (keqb_false L) in Z. destruct (Fi u Z Hu) as (k' & y & Hy & _). rewrite G8 in Hy. destruct Hy.
  Qed.

  Theorem C68_unique :
    forall f idem fuel n g,
    closed f -> (has (vprops f) ACYCLIC = true -> forall s, ~ on_cycle (mach f) s) ->
    loops_idle f (fun _ => true) -> is_acceptor (mach f) -> eps_free (mach f) -> (2 <= n)%nat ->
    shortest_path_full id id D ord true idem true fuel n f = Some (Ok g) ->
    closed g /\ cnt g /\ bits_true g /\ visymt g = visymt f /\ vosymt g = vosymt f /\ best_strings f n g.
  Proof.
    intros f idem fuel n g C Sn Ca Ac Ef Hn. unfold shortest_path_full.
    destruct (Nat.eqb_spec n 0); [lia|]. destruct (Nat.eqb_spec n 1); [lia|]. cbn [negb].
    destruct (shortest_distance idem true true id id fuel f false) as [rd|] eqn:Ed; cbn [obind]; [|discriminate].
    destruct (C16_shortest_distance L K id id f idem true fuel rd C Sn Ca (or_introl (path_idem Pp)) Ed) as (Dl & -> & Ln & HD). cbn [obind].
    destruct (reverse id f) as [rf| |] eqn:Er; cbn [obind]; try discriminate.
    destruct (n_start_distance id rf Dl) as [d| |] eqn:Es; cbn [obind]; try discriminate. rewrite map_id.
    destruct (determinize_with_distance D ord rf (d :: Dl) fuel) as [[[h out]| |]|] eqn:Et; cbn [obind fst snd]; try discriminate. rewrite map_id.
    destruct (unique_search f rf Dl d n fuel h out C Ac Ef Hn Er) as (g0 & Eg & G1 & G2 & G3 & G4); auto.
    { intros s. destruct (vstart f); auto. subst Dl. destruct s; auto. }
    rewrite Eg. cbn [obind]. intros [= <-]. auto 10.
  Qed.

  (** ** It stops on machines without cycles *)
  Lemma reverse_acceptor_bit f rf : reverse id f = Ok rf -> has (vprops f) ACCEPTOR = true -> has (vprops rf) ACCEPTOR = true.
  Proof.
    unfold reverse. destruct (add_state vnew) as [g0 o]. destruct (forallb _ _); [|discriminate].
    destruct (rfold _ _ (_, _)) as [[g2 l]| |]; cbn [rbind]; try discriminate. destruct (rfold _ _ g2) as [g3| |]; cbn [rbind]; try discriminate.
    destruct (set_start g3 o) as [g4| |]; cbn [rbind]; try discriminate. intros E A. injection E as <-. unfold set_properties_with_mask. cbn [vprops with_props].
    rewrite has_lor, !has_land, has_lor. unfold reverse_properties, copyif. rewrite has_lor, has_pkeep, A. cbn. rewrite ?orb_true_r. reflexivity.
  Qed.
  Lemma distances_there f dist fuel h tb : det_run D ord f (Some dist) fuel = Some (Ok (h, tb)) ->
    exists out, determinize_with_distance D ord f dist fuel = Some (Ok (h, out)).
  Proof.
    intros E. unfold determinize_with_distance. rewrite E. cbn [rbind fst snd].
    destruct (det_built L D ord f (Some dist) (fun _ => True) (fun _ _ => Logic.I) (fun _ _ _ _ _ _ => Logic.I) fuel h tb E) as (_ & _ & [_ J] & _).
    specialize (J dist eq_refl). destruct (rtrav_total (fun e : option K => match e with Some w => Ok w | None => Err end) (dt_out tb)) as (o & Eo).
    - intros a Ha. destruct (Forall2_in_l _ _ _ _ J Ha) as (e & _ & w & -> & _). eauto.
    - rewrite Eo. cbn. eauto.
  Qed.

  Theorem C68_stops : divides_always div -> zero_free K ->
    forall f idem n,
    closed f -> (forall s, ~ on_cycle (mach f) s) -> has (vprops f) ACCEPTOR = true -> is_acceptor (mach f) -> eps_free (mach f) ->
    (forall s t, In t (trs_of f s) -> wgt t <> 0) -> (forall s w, fin_of f s = Some w -> w <> 0) -> (2 <= n)%nat ->
    exists fuel g, shortest_path_full id id D ord true idem true fuel n f = Some (Ok g).
  Proof.
    intros DA ZF f idem n C Acy HA Ac Ef Nt Nf Hn.
    assert (Ca : loops_idle f (fun _ => true)).
    { intros s t Ht _ En. exfalso. apply (Acy s). exists t. split; auto. rewrite En. apply reach_refl. }
    destruct (C16_shortest_distance_stops L K id id f idem true C (fun _ => Acy) Ca (or_intror Acy)) as (fu & rd & Ed).
    destruct (C16_shortest_distance L K id id f idem true fu rd C (fun _ => Acy) Ca (or_introl (path_idem Pp)) Ed) as (Dl & -> & Ln & HD).
    destruct (reverse_eff id f C) as (rf & Er & Nr & Sr & _ & _ & _ & T0 & TS & Fr).
    destruct (start_distance L Pp Cm id id (fun _ => eq_refl) f rf Dl) as (d & Es & _); [lia|auto|].
    pose proof (rev_is_closed f rf Nr Sr T0 TS) as Cr.
    assert (Nz : forall s t, In t (trs_of rf s) -> wgt t <> 0).
    { intros [|q] t Ht.
      - rewrite T0 in Ht. apply in_flat_map in Ht as (s & _ & Ht). unfold rev_fin in Ht. destruct (fin_of f s) as [w|] eqn:F; [|destruct Ht].
        destruct Ht as [<-|[]]. cbn. eauto.
      - destruct (Nat.ltb_spec q (num_states f)) as [Hq|Hq]; [|rewrite trs_of_beyond in Ht by lia; destruct Ht].
        rewrite TS in Ht by auto. apply in_flat_map in Ht as (s & _ & Ht). unfold rev_trs in Ht. apply in_map_iff in Ht as (u & <- & Ht).
        apply filter_In in Ht as [Ht _]. cbn. eauto. }
    destruct (terminates_run L div quant ord rf DX DA HO ZF Cr Nz (rev_no_cycle id f rf Nr T0 TS Acy) 0 Sr (Some (d :: Dl)) (reverse_acceptor_bit f rf Er HA)) as (N & HN).
    set (fuel := Nat.max fu N). destruct (HN fuel) as ([h tb] & Et); [lia|]. destruct (distances_there rf (d :: Dl) fuel h tb Et) as (out & Eo).
    destruct (unique_search f rf Dl d n fuel h out C Ac Ef Hn Er) as (g & Eg & _); auto.
    { intros s. destruct (vstart f); auto. subst Dl. destruct s; auto. }
    exists fuel, (set_symts_from_fst g f). unfold shortest_path_full. destruct (Nat.eqb_spec n 0); [lia|]. destruct (Nat.eqb_spec n 1); [lia|]. cbn [negb].
    rewrite (sd_more _ _ _ _ _ _ _ _ _ Ed fuel) by lia. cbn [obind]. rewrite Er. cbn [obind]. rewrite Es. cbn [obind]. rewrite map_id, Eo. cbn [obind fst snd].
    rewrite map_id, Eg. reflexivity.
  Qed.

  (** Without [unique]: C47. *)
  Theorem C68_not_unique : forall f idem fuel n,
    shortest_path_full id id D ord false idem true fuel n f = shortest_path_with_config id id idem true fuel n f.
  Proof.
    intros f idem fuel n. unfold shortest_path_full, shortest_path_with_config. destruct (Nat.eqb n 0); auto. destruct (Nat.eqb n 1); auto. cbn [negb].
    destruct (shortest_distance _ _ _ _ _ _ _ _) as [[Dl| |]|]; cbn [obind rbind]; auto. destruct (reverse _ f) as [rf| |]; cbn [obind rbind]; auto.
    destruct (n_start_distance _ rf Dl) as [d| |]; cbn [obind rbind]; auto. destruct (n_shortest_path _ _ rf _ n) as [g| |]; cbn [obind rbind]; auto.
  Qed.
End C68.
Print Assumptions C68_unique.
Print Assumptions C68_stops.
Print Assumptions C68_not_unique.

(** ** A tropical machine *)
Local Close Scope K_scope.
Lemma tropZ_cancel : cancellative tropZ.
Proof. intros [x|] [y|] [z|] H E; cbn in *; try congruence; try (exfalso; apply H; reflexivity). injection E as E. f_equal. lia. Qed.

(** Two paths spell 1 2, two spell 1 3; the best two strings are 1 2 and 4. *)
Definition c68_calls : list (op tropZ) :=
  [OAddStates 5; OSetStart 0; OAddTr (K:=tropZ) 0 (@Tr tropZ 1 1 (Some 1%Z) 1); OAddTr (K:=tropZ) 0 (@Tr tropZ 1 1 (Some 2%Z) 2); OAddTr (K:=tropZ) 1 (@Tr tropZ 2 2 (Some 1%Z) 3); OAddTr (K:=tropZ) 2 (@Tr tropZ 2 2 (Some 1%Z) 3);
   OAddTr (K:=tropZ) 1 (@Tr tropZ 3 3 (Some 9%Z) 3); OAddTr (K:=tropZ) 2 (@Tr tropZ 3 3 (Some 7%Z) 3); OAddTr (K:=tropZ) 0 (@Tr tropZ 4 4 (Some 5%Z) 4); OSetFinal (K:=tropZ) 3 (Some 1%Z); OSetFinal (K:=tropZ) 4 (Some 0%Z)].
Definition c68_f := c38_out vnew (Some (run (@vnew tropZ) c68_calls)).
Definition c68_run (unique : bool) (n : nat) f := shortest_path_full (fun w : tropZ => w) (fun w => w) tD idord unique true true 30 n f.
Example C68_witness :
  closed c68_f /\ (forall s, ~ on_cycle (mach c68_f) s) /\ has (vprops c68_f) ACCEPTOR = true /\ is_acceptor (mach c68_f) /\ eps_free (mach c68_f) /\
  (forall s t, In t (trs_of c68_f s) -> wgt t <> None) /\ (forall s w, fin_of c68_f s = Some w -> w <> None) /\
  path_plus tropZ /\ commutative_times tropZ /\ cancellative tropZ /\ exact_division trop_div (fun w => w) /\ divides_always trop_div /\ zero_free tropZ /\
  (exists g, c68_run true 2 c68_f = Some (Ok g) /\ accepted g 9 = [FP (K:=tropZ) [4] [4] (Some 5%Z); FP (K:=tropZ) [1; 2] [1; 2] (Some 3%Z)]) /\
  (exists g, c68_run false 2 c68_f = Some (Ok g) /\ accepted g 9 = [FP (K:=tropZ) [1; 2] [1; 2] (Some 3%Z); FP (K:=tropZ) [1; 2] [1; 2] (Some 4%Z)]) /\
  (exists g, c68_run true 9 c68_f = Some (Ok g) /\ accepted g 9 = [FP (K:=tropZ) [4] [4] (Some 5%Z); FP (K:=tropZ) [1; 2] [1; 2] (Some 3%Z); FP (K:=tropZ) [1; 3] [1; 3] (Some 10%Z)]).
Proof.
  split; [apply closedb_ok; reflexivity|]. split.
  { apply (ranked_acyclic (mach c68_f) (fun s => 5 - s)). intros s t. do 5 (destruct s as [|s]; [simpl; intros H; repeat destruct H as [<-|H]; try destruct H; vm_compute; lia|]).
    simpl. destruct s; intros []. }
  split; [reflexivity|]. split.
  { intros s t. do 5 (destruct s as [|s]; [simpl; intros H; repeat destruct H as [<-|H]; try destruct H; reflexivity|]). simpl. destruct s; intros []. }
  split.
  { intros s t. do 5 (destruct s as [|s]; [simpl; intros H; repeat destruct H as [<-|H]; try destruct H; discriminate|]). simpl. destruct s; intros []. }
  split.
  { intros s t. do 5 (destruct s as [|s]; [simpl; intros H; repeat destruct H as [<-|H]; try destruct H; discriminate|]). simpl. destruct s; intros []. }
  split.
  { intros s w. do 5 (destruct s as [|s]; [vm_compute; congruence|]). destruct s; vm_compute; congruence. }
  split; [apply tropZ_path|]. split; [apply tropZ_comm|]. split; [apply tropZ_cancel|]. split; [apply trop_exact|]. split; [apply trop_always|]. split; [apply trop_zero_free|].
  split; [|split]; (eexists; split; [vm_compute; reflexivity|vm_compute; reflexivity]).
Qed.

(** With epsilons the same string may come twice: epsilon is a label like the others for the
    determinization. *)
Definition c68_eps : list (op tropZ) :=
  [OAddStates 4; OSetStart 0; OAddTr (K:=tropZ) 0 (@Tr tropZ 0 0 (Some 1%Z) 1); OAddTr (K:=tropZ) 0 (@Tr tropZ 1 1 (Some 2%Z) 2); OAddTr (K:=tropZ) 1 (@Tr tropZ 1 1 (Some 1%Z) 3); OAddTr (K:=tropZ) 2 (@Tr tropZ 0 0 (Some 1%Z) 3);
   OAddTr (K:=tropZ) 0 (@Tr tropZ 4 4 (Some 5%Z) 3); OSetFinal (K:=tropZ) 3 (Some 1%Z)].
Theorem C68_epsilons_refuted : exists f g, run (@vnew tropZ) c68_eps = Ok f /\ closed f /\ (forall s, ~ on_cycle (mach f) s) /\ is_acceptor (mach f) /\
  c68_run true 2 f = Some (Ok g) /\ accepted g 9 = [FP (K:=tropZ) [1] [1] (Some 3%Z); FP (K:=tropZ) [1] [1] (Some 4%Z)] /\ ~ best_strings f 2 g.
Proof.
  exists (c38_out vnew (Some (run (@vnew tropZ) c68_eps))), (c38_out vnew (c68_run true 2 (c38_out vnew (Some (run (@vnew tropZ) c68_eps))))).
  split; [reflexivity|]. split; [apply closedb_ok; reflexivity|]. split.
  { apply (ranked_acyclic (mach (c38_out vnew (Some (run (@vnew tropZ) c68_eps)))) (fun s => 5 - s)). intros s t.
    do 4 (destruct s as [|s]; [simpl; intros H; repeat destruct H as [<-|H]; try destruct H; vm_compute; lia|]). simpl. destruct s; intros []. }
  split.
  { intros s t. do 4 (destruct s as [|s]; [simpl; intros H; repeat destruct H as [<-|H]; try destruct H; reflexivity|]). simpl. destruct s; intros []. }
  split; [vm_compute; reflexivity|]. split; [vm_compute; reflexivity|]. intros (_ & N & _). specialize (N 9). vm_compute in N. inversion N as [|? ? X _]. apply X. left. reflexivity.
Qed.
Print Assumptions C68_epsilons_refuted.

(** A transducer is refused. *)
Example C68_transducer_test : exists f, run (@vnew tropZ) [OAddStates 2; OSetStart 0; OAddTr (K:=tropZ) 0 (@Tr tropZ 1 2 (Some 1%Z) 1); OSetFinal (K:=tropZ) 1 (Some 0%Z)] = Ok f /\ c68_run true 2 f = Some Err.
Proof. eexists. split; [reflexivity|vm_compute; reflexivity]. Qed.
