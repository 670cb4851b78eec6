(** C14: final-state normalisation (add_super_final_state, rm_final_epsilon). *)
From Coq Require Import List Arith NArith ZArith Bool Lia Permutation.
From Verif Require Import Base.Util Base.Semiring Base.Machine Base.PathSum Base.PropSpec Base.Instances
  Model.Props Model.VectorFst Model.TrOps Model.AlgoProps Model.History Model.Dfs Model.Visitors Model.Rational
  Proofs.PropsFacts Proofs.VectorFacts Proofs.DelStates Proofs.VectorProps Proofs.TrOpsFacts Proofs.HistoryFacts
  Proofs.VisitFacts Proofs.OpFacts Proofs.ConnectFacts Proofs.RationalFacts Props.C03 Props.C04.
Import ListNotations.
Local Open Scope K_scope.

(** Positions of the elements satisfying [P]. *)
Fixpoint positions {A} (P : A -> bool) (l : list A) : list nat :=
  match l with
  | [] => []
  | a :: l' => (if P a then [O] else []) ++ map S (positions P l')
  end.
Lemma positions_lt {A} (P : A -> bool) l i : In i (positions P l) -> (i < length l)%nat.
Proof.
  revert i; induction l as [|a l IH]; intros i H; [destruct H|]. simpl in *. apply in_app_or in H as [H|H].
  - destruct (P a); [|destruct H]. destruct H as [<-|[]]. lia.
  - apply in_map_iff in H as (j & <- & H). specialize (IH j H). lia.
Qed.
Lemma positions_nil {A} (P : A -> bool) l : positions P l = [] <-> existsb P l = false.
Proof.
  induction l as [|a l IH]; simpl; [tauto|]. destruct (P a); simpl; [split; discriminate|].
  rewrite <- IH. destruct (positions P l); simpl; split; congruence.
Qed.
Lemma remove_positions {A} (P : A -> bool) l :
  fold_left (fun l i => remove_at l i) (rev (positions P l)) l = filter (fun a => negb (P a)) l.
Proof.
  assert (X : forall (a : A) ids l, fold_left (fun l i => remove_at l i) (map S ids) (a :: l) = a :: fold_left (fun l i => remove_at l i) ids l).
  { intros a ids. induction ids as [|i ids IH]; intros l'; simpl; auto. }
  induction l as [|a l IH]; auto. cbn [positions]. rewrite rev_app_distr, fold_left_app, <- map_rev, X, IH. simpl.
  destruct (P a); reflexivity.
Qed.

Section C14.
  Context {K : SR} (L : lsr_laws K).
  Implicit Types (f g : vfst K).

  (** ** add_super_final_state *)
  Lemma take_final_eff f s : (s < num_states f)%nat -> exists g, take_final_weight f s = Ok (g, fin_of f s) /\ eff f g /\
    (forall q, trs_of g q = trs_of f q) /\ (forall q, fin_of g q = if q =? s then None else fin_of f q).
  Proof.
    intros H. destruct (del_final_eff f s H) as (g & E & F & T & N). unfold delete_final_weight in E.
    unfold take_final_weight. destruct (nth_state f s H) as (st & E1 & E2 & E3). rewrite E1 in *. inversion E.
    exists g. rewrite E3. split; [congruence|]. auto.
  Qed.

  Lemma super_fold sf (l : list nat) : forall f, NoDup l -> (forall s, In s l -> (s < num_states f)%nat /\ fin_of f s <> None) ->
    exists g, rfold (fun g s => r <-- unwrap (take_final_weight g s) ;;
              match snd r with Some w => unwrap (add_tr (fst r) s (Tr O O w sf)) | None => Panic end) l f = Ok g /\ eff f g /\
      (forall q, trs_of g q = trs_of f q ++ if existsb (Nat.eqb q) l then [Tr O O (fw (fin_of f q)) sf] else []) /\
      (forall q, fin_of g q = if existsb (Nat.eqb q) l then None else fin_of f q).
  Proof.
    induction l as [|s l IH]; intros f ND H.
    - exists f. split; auto. split; [apply eff_refl|]. split; auto. intros q. simpl. rewrite app_nil_r. auto.
    - inversion ND as [|? ? Hn ND']; subst. rewrite rfold_cons.
      destruct (H s (or_introl eq_refl)) as [Hs Hf].
      destruct (take_final_eff f s Hs) as (g1 & E1 & F1 & T1 & N1). rewrite (unwrap_ok _ _ E1). cbn [rbind snd fst].
      destruct (fin_of f s) as [w|] eqn:Ew; [|congruence].
      destruct (add_tr_eff g1 s (Tr O O w sf)) as (g2 & E2 & F2 & T2 & N2); [rewrite (eff_n _ _ F1); auto|].
      rewrite (unwrap_ok _ _ E2). cbn [rbind].
      destruct (IH g2) as (g & E & F & T & N); auto.
      { intros q Hq. destruct (H q (or_intror Hq)) as [A B]. rewrite (eff_n _ _ F2), (eff_n _ _ F1). split; auto.
        rewrite N2, N1. destruct (Nat.eqb_spec q s); subst; auto; contradiction. }
      exists g. split; auto. split; [apply (eff_trans f g2 g); auto; apply (eff_trans f g1 g2); auto|].
      assert (Z : existsb (Nat.eqb s) l = false).
      { destruct (existsb (Nat.eqb s) l) eqn:X; auto. apply existsb_exists in X as (z & Z1 & Z2). apply Nat.eqb_eq in Z2. subst. contradiction. }
      split; intros q.
      + rewrite T, T2, N2, N1, T1. cbn [existsb]. destruct (Nat.eqb_spec q s) as [->|Hq]; cbn [orb].
        * rewrite Z, ?T1, app_nil_r, Ew. auto.
        * rewrite ?T1. auto.
      + rewrite N, N2, N1. cbn [existsb]. destruct (Nat.eqb_spec q s); cbn [orb]; auto. destruct (existsb (Nat.eqb q) l); auto.
  Qed.

  Lemma super_wt f g n : (forall s t, In t (trs_of f s) -> (ns t < n)%nat) -> trs_of f n = [] -> fin_of f n = None ->
    (forall q, trs_of g q = trs_of f q ++ match fin_of f q with Some w => [Tr O O w n] | None => [] end) ->
    (forall q, fin_of g q = if q =? n then Some 1 else None) ->
    forall k s x y, (s < n)%nat -> wt (mach g) (S k) s x y = wt (mach f) k s x y.
  Proof.
    intros C Tn Fn T F.
    assert (Z0 : forall s x y, (s < n)%nat -> wt (mach g) O s x y = 0).
    { intros s x y Hs. cbn [wt mach mfin]. rewrite F. destruct (Nat.eqb_spec s n); [lia|]. destruct (isnil x && isnil y); auto. }
    assert (Zn : forall k x y, wt (mach g) (S k) n x y = 0).
    { intros k x y. cbn [wt mach mtrs]. rewrite T, Tn, Fn. reflexivity. }
    induction k as [|k IH]; intros s x y Hs.
    - cbn [wt mach mtrs]. rewrite T, map_app, (ksum_app L).
      rewrite (ksum_map_zero L) by (intros t Ht; destruct (strip (il t) x); auto; destruct (strip (ol t) y); auto;
        change (wgt t * wt (mach g) O (ns t) l l0 = 0); rewrite Z0 by (apply (C s); auto); apply (ktimes_0_r _ L)).
      rewrite (kplus_0_l _ L). unfold fw. cbn [mfin mach]. destruct (fin_of f s) as [w|].
      + cbn [map ksum il ol wgt ns strip Nat.eqb]. rewrite F, Nat.eqb_refl, (kplus_0_r L).
        destruct (isnil x && isnil y); [apply (ktimes_1_r _ L)|apply (ktimes_0_r _ L)].
      + simpl. destruct (isnil x && isnil y); auto.
    - transitivity (ksum (map (fun t => match strip (il t) x, strip (ol t) y with
         | Some x', Some y' => wgt t * wt (mach g) (S k) (ns t) x' y' | _, _ => 0 end) (trs_of g s))); [reflexivity|].
      rewrite T, map_app, (ksum_app L).
      replace (ksum (map _ (match fin_of f s with Some w => [Tr O O w n] | None => [] end))) with (kzero (s := K)).
      + rewrite (kplus_0_r L). cbn [wt mach mtrs]. apply ksum_map_ext. intros t Ht.
        destruct (strip (il t) x); auto. destruct (strip (ol t) y); auto. f_equal. apply IH. apply (C s); auto.
      + destruct (fin_of f s); [|reflexivity]. cbn [map ksum il ol wgt ns strip Nat.eqb]. rewrite Zn, (kplus_0_r L).
        symmetry. apply (ktimes_0_r _ L).
  Qed.

  (** Exactly one final state, of weight one, the returned one; same weights, with one epsilon step more
      unless the machine already had that shape, in which case it is untouched. *)
  Theorem C14_add_super_final_state :
    forall f, closed f -> exists g sf, add_super_final_state f = Ok (g, sf) /\
      (sf < num_states g)%nat /\ (forall s, fin_of g s = if s =? sf then Some 1 else None) /\
      (g = f \/
       num_states g = S (num_states f) /\ sf = num_states f /\
       (forall x y, rel (mach g) O x y = 0) /\
       (forall k x y, rel (mach g) (S k) x y = rel (mach f) k x y)) /\
      ((exists s, forall q, fin_of f q = if q =? s then Some 1 else None) <-> g = f) /\
      closed g /\ vstart g = vstart f /\ visymt g = visymt f /\ vosymt g = vosymt f /\ (cnt f -> cnt g).
  Proof.
    intros f CL. unfold add_super_final_state. set (n := num_states f).
    set (keep := match final_states f with [s] => _ | _ => _ end).
    assert (KP : keep = true <-> exists s, final_states f = [s] /\ fin_of f s = Some 1).
    { unfold keep. destruct (final_states f) as [|s [|s' l]] eqn:E.
      - split; [discriminate|intros (s & H & _); discriminate].
      - destruct (fin_of f s) as [w|] eqn:Ew.
        + split; [intros H; exists s; split; auto; apply (keqb_true L) in H; congruence|].
          intros (q & H1 & H2). inversion H1; subst. rewrite H2 in Ew. inversion Ew. apply (keqb_refl L).
        + split; [discriminate|]. intros (q & H1 & H2). inversion H1; subst. congruence.
      - split; [discriminate|intros (q & H & _); discriminate]. }
    assert (FS : forall s, final_states f = [s] -> fin_of f s = Some 1 -> forall q, fin_of f q = if q =? s then Some 1 else None).
    { intros s Es Ew q. destruct (Nat.eqb_spec q s); [subst; auto|]. destruct (fin_of f q) as [w|] eqn:E; auto.
      assert (X : In q (final_states f)) by (apply final_states_spec; eauto). rewrite Es in X. destruct X as [X|[]]. congruence. }
    assert (SH : (exists s, forall q, fin_of f q = if q =? s then Some 1 else None) -> keep = true).
    { intros (s & Hs). apply KP. exists s.
      assert (X : In s (final_states f)) by (apply final_states_spec; rewrite Hs, Nat.eqb_refl; eauto).
      assert (Y : forall q, In q (final_states f) -> q = s).
      { intros q Hq. apply final_states_spec in Hq as (w & Hw). rewrite Hs in Hw. destruct (Nat.eqb_spec q s); auto; discriminate. }
      split; [|rewrite Hs, Nat.eqb_refl; auto].
      pose proof (final_states_nodup f) as ND. destruct (final_states f) as [|a [|b l]]; [destruct X| |].
      - rewrite (Y a); auto. left; auto.
      - exfalso. inversion ND; subst. apply H1. left. rewrite (Y a), (Y b); auto; simpl; auto. }
    destruct keep eqn:EK.
    - destruct (proj1 KP eq_refl) as (s & Es & Ew). rewrite Es. cbn [hd]. exists f, s. split; auto.
      split. { apply Nat.nle_gt. intros H. rewrite (fin_of_beyond f s H) in Ew. discriminate. }
      split; [apply FS; auto|]. split; [left; auto|]. split; [split; auto; intros _; exists s; apply FS; auto|]. auto.
    - destruct (add_state_eff f) as (E1 & E2 & E3 & E4 & E5 & E6 & E7 & E8). fold n in E1, E2.
      destruct (add_state f) as [g1 sf] eqn:EA. cbn [fst snd] in *. subst sf.
      destruct (set_final_eff g1 n 1) as (g2 & A & F2 & C & D); [lia|]. rewrite (unwrap_ok _ _ A). cbn [rbind].
      destruct (super_fold n (final_states f) g2 (final_states_nodup f)) as (g & E & FG & T & F).
      { intros s Hs. apply final_states_spec in Hs as (w & Hw). rewrite (eff_n _ _ F2), E2.
        assert ((s < n)%nat). { apply Nat.nle_gt. intros H. unfold n in H. rewrite (fin_of_beyond f s H) in Hw. discriminate. }
        split; [lia|]. rewrite D, E8. destruct (Nat.eqb_spec s n); [lia|congruence]. }
      rewrite E. cbn [rbind]. exists g, n. split; auto.
      assert (Hn : num_states g = S n) by (rewrite (eff_n _ _ FG), (eff_n _ _ F2); auto).
      assert (Fn : fin_of f n = None) by (apply fin_of_beyond; auto).
      assert (Tn : trs_of f n = []) by (apply trs_of_beyond; auto).
      assert (EX : forall q, existsb (Nat.eqb q) (final_states f) = match fin_of f q with Some _ => true | None => false end).
      { intros q. destruct (fin_of f q) as [w|] eqn:Ew.
        - apply existsb_exists. exists q. split; [apply final_states_spec; eauto|apply Nat.eqb_refl].
        - destruct (existsb _ _) eqn:X; auto. apply existsb_exists in X as (z & Z1 & Z2). apply Nat.eqb_eq in Z2. subst.
          apply final_states_spec in Z1 as (w & Hw). congruence. }
      assert (T' : forall q, trs_of g q = trs_of f q ++ match fin_of f q with Some w => [Tr O O w n] | None => [] end).
      { intros q. rewrite T, C, E7, EX, D, E8. destruct (Nat.eqb_spec q n) as [e|]; [rewrite e, Fn; auto|]. destruct (fin_of f q); auto. }
      assert (F' : forall q, fin_of g q = if q =? n then Some 1 else None).
      { intros q. rewrite F, EX, D, E8. destruct (Nat.eqb_spec q n) as [e|]; [rewrite e, Fn; auto|]. destruct (fin_of f q); auto. }
      assert (ST : vstart g = vstart f).
      { destruct FG as (_ & X1 & _), F2 as (_ & X2 & _). congruence. }
      pose proof CL as [C1 C2].
      split; [lia|]. split; auto. split; [|split].
      + right. split; auto. split; auto. unfold rel. cbn [mach mstart]. rewrite ST. destruct (vstart f) as [s0|] eqn:Es; [|split; auto].
        specialize (C2 s0 eq_refl). split.
        * intros x y. cbn [wt mach mfin]. rewrite F'. destruct (Nat.eqb_spec s0 n); [unfold n in *; lia|]. destruct (isnil x && isnil y); auto.
        * intros k x y. apply (super_wt f g n); auto.
      + split; [intros H; apply SH in H; discriminate|]. intros ->. exfalso. unfold n in Hn. lia.
      + split; [|destruct FG as (_ & _ & X1 & X2 & X3), F2 as (_ & _ & Y1 & Y2 & Y3); repeat split; auto; congruence].
        split.
        * intros s t Ht. rewrite Hn. rewrite T' in Ht. apply in_app_or in Ht as [Ht|Ht]; [specialize (C1 s t Ht); unfold n; lia|].
          destruct (fin_of f s); [|destruct Ht]. destruct Ht as [<-|[]]. simpl. lia.
        * intros s Hs. rewrite Hn. rewrite ST in Hs. specialize (C2 s Hs). unfold n. lia.
  Qed.

  (** ** rm_final_epsilon *)
  Definition new_fin f (D : list nat) (s : nat) : K :=
    fw (fin_of f s) + ksum (map (fun t => fw (fin_of f (ns t)) * wgt t) (filter (removable D) (trs_of f s))).

  Lemma scan_ok f D s : (forall d, In d D -> fin_of f d <> None) ->
    scan_state f D s = Ok (positions (removable D) (trs_of f s),
      if existsb (removable D) (trs_of f s) then Some (new_fin f D s) else None).
  Proof.
    intros HD. unfold scan_state, new_fin.
    set (step := fun (c : nat * (list nat * option K)) t => _).
    assert (X : forall l idx dels w, rfold step l (idx, (dels, w)) =
      Ok ((idx + length l)%nat, (dels ++ map (Nat.add idx) (positions (removable D) l),
          if existsb (removable D) l
          then Some (match w with Some v => v | None => fw (fin_of f s) end +
                     ksum (map (fun t => fw (fin_of f (ns t)) * wgt t) (filter (removable D) l)))
          else w))).
    { induction l as [|t l IH]; intros idx dels w.
      - cbn. rewrite app_nil_r, Nat.add_0_r. auto.
      - rewrite rfold_cons. unfold step at 1. cbn [positions existsb filter length]. destruct (removable D t) eqn:E; cbn [app orb map].
        + assert (HF : fin_of f (ns t) <> None).
          { unfold removable in E. apply andb_true_iff in E as [E _]. apply andb_true_iff in E as [E _].
            apply existsb_exists in E as (d & E1 & E2). apply Nat.eqb_eq in E2. rewrite E2. auto. }
          destruct (fin_of f (ns t)) as [w'|] eqn:Ef; [|congruence]. cbn [rbind]. rewrite IH. f_equal. f_equal; [lia|]. f_equal.
          * rewrite <- app_assoc. simpl. rewrite Nat.add_0_r. f_equal. f_equal. rewrite map_map. apply map_ext. intros; lia.
          * cbn [ksum fw]. fold (fw (fin_of f s)). set (w0 := match w with Some v => v | None => fw (fin_of f s) end).
            rewrite (kplus_assoc _ L). destruct (existsb (removable D) l) eqn:Ex; auto.
            replace (filter (removable D) l) with (@nil (tr K)); [simpl; rewrite (kplus_0_r L); auto|].
            symmetry. clear - Ex. induction l; auto. simpl in *. apply orb_false_iff in Ex as [-> Ex]. auto.
        + cbn [rbind]. rewrite IH. f_equal. f_equal; [lia|]. f_equal. f_equal. rewrite map_map. apply map_ext. intros; lia. }
    rewrite X. cbn [rbind snd app]. f_equal. f_equal. rewrite <- (map_id (positions _ _)) at 2. apply map_ext. auto.
  Qed.

  Lemma del_one_trs ids : forall (st st' : vstate K), fold_left del_one ids (Ok st) = Ok st' ->
    vtrs st' = fold_left (fun l i => remove_at l i) ids (vtrs st) /\ vfin st' = vfin st.
  Proof.
    induction ids as [|i ids IH]; intros st st' E; cbn [fold_left] in E; [inversion E; auto|].
    destruct (del_one (Ok st) i) as [st1| |] eqn:E1; try (rewrite fold_del_bad in E by auto; discriminate).
    destruct (IH st1 st' E) as [A B]. cbn in E1. destruct (nth_error (vtrs st) i); [|discriminate].
    destruct (dec_if _ (vnie st)); try discriminate. destruct (dec_if _ (vnoe st)); try discriminate. cbn in E1. inversion E1; subst st1.
    cbn in *. auto.
  Qed.

  Lemma positions_sorted {A} (P : A -> bool) l : Sorted.StronglySorted lt (positions P l).
  Proof.
    induction l as [|a l IH]; simpl; [constructor|].
    assert (X : Sorted.StronglySorted lt (map S (positions P l))).
    { induction IH; simpl; constructor; auto. rewrite Forall_forall in *. intros x Hx. apply in_map_iff in Hx as (y & <- & Hy).
      specialize (H y Hy). lia. }
    destruct (P a); simpl; auto. constructor; auto. rewrite Forall_forall. intros x Hx. apply in_map_iff in Hx as (y & <- & _). lia.
  Qed.

  Lemma del_positions_eff f s (P : tr K -> bool) : (s < num_states f)%nat -> cnt f ->
    exists g, del_trs_id_sorted f s (positions P (trs_of f s)) = Ok g /\ eff f g /\
      (forall q, trs_of g q = if q =? s then filter (fun t => negb (P t)) (trs_of f q) else trs_of f q) /\ (forall q, fin_of g q = fin_of f q).
  Proof.
    intros Hs C. destruct (nth_state f s Hs) as (st & E & E1 & E2). unfold del_trs_id_sorted. rewrite E, E1.
    pose proof (cnt_nth _ _ _ C E) as Cs.
    destruct (del_trs_total (rev (positions P (vtrs st))) st Cs) as (st' & Ed).
    { apply SSorted_rev, positions_sorted. }
    { intros i Hi. apply in_rev in Hi. eapply positions_lt; eauto. }
    rewrite Ed. cbn [rbind]. destruct (del_one_trs _ _ _ Ed) as [A B]. rewrite remove_positions in A.
    eexists. split; [reflexivity|]. split; [apply eff_upd; intros _; eapply del_trs_cnt; eauto|].
    split; intros q.
    - rewrite trs_of_upd by (unfold num_states in Hs; auto). destruct (Nat.eqb_spec q s); subst; rewrite ?A, ?E1; auto.
    - rewrite fin_of_upd by auto. destruct (Nat.eqb_spec q s); subst; congruence.
  Qed.

  Lemma rm_state_eff D f s : (s < num_states f)%nat -> cnt f -> (forall d, In d D -> fin_of f d <> None) ->
    exists g, rm_state D f s = Ok g /\ eff f g /\
      (forall q, trs_of g q = if q =? s then filter (fun t => negb (removable D t)) (trs_of f q) else trs_of f q) /\
      (forall q, fin_of g q = if (q =? s) && existsb (removable D) (trs_of f s) && negb (keqb (new_fin f D s) 0)
                              then Some (new_fin f D s) else fin_of f q).
  Proof.
    intros Hs C HD. unfold rm_state. rewrite (scan_ok f D s HD). cbn [rbind].
    destruct (existsb (removable D) (trs_of f s)) eqn:Ex.
    - destruct (positions (removable D) (trs_of f s)) as [|i ids] eqn:Ep; [apply positions_nil in Ep; congruence|]. rewrite <- Ep. clear Ep i ids.
      assert (X : exists g, (if keqb (new_fin f D s) 0 then Ok f else unwrap (set_final f s (new_fin f D s))) = Ok g /\ eff f g /\
         (forall q, trs_of g q = trs_of f q) /\
         (forall q, fin_of g q = if (q =? s) && negb (keqb (new_fin f D s) 0) then Some (new_fin f D s) else fin_of f q)).
      { destruct (keqb (new_fin f D s) 0).
        - exists f. split; auto. split; [apply eff_refl|]. split; auto. intros q. rewrite andb_false_r. auto.
        - destruct (set_final_eff f s (new_fin f D s) Hs) as (g & E & F & T & N). exists g. rewrite (unwrap_ok _ _ E).
          split; auto. split; auto. split; auto. intros q. rewrite N, andb_true_r. auto. }
      destruct X as (g1 & E1 & F1 & T1 & N1). rewrite E1. cbn [rbind].
      rewrite <- T1. destruct (del_positions_eff g1 s (removable D)) as (g & E & F & T & N).
      { rewrite (eff_n _ _ F1); auto. } { apply F1; auto. }
      rewrite (unwrap_ok _ _ E). exists g. split; auto. split; [apply (eff_trans f g1 g); auto|]. split; intros q.
      + rewrite T, T1. auto.
      + rewrite N, N1, andb_true_r. auto.
    - rewrite (proj2 (positions_nil _ _) Ex). exists f. split; auto. split; [apply eff_refl|]. split; intros q.
      + destruct (Nat.eqb_spec q s); auto. subst. clear - Ex. induction (trs_of f s); auto. simpl in *.
        apply orb_false_iff in Ex as [-> Ex]. simpl. f_equal. auto.
      + rewrite andb_false_r. auto.
  Qed.

  (** No panic, whatever the set. *)
  Lemma rm_all_ok D : forall l f, (forall s, In s l -> (s < num_states f)%nat) -> cnt f -> closed f -> (forall d, In d D -> fin_of f d <> None) ->
    exists g, rfold (rm_state D) l f = Ok g /\ eff f g /\ closed g.
  Proof.
    induction l as [|s l IH]; intros f Hl C CL HD.
    - exists f. split; auto. split; [apply eff_refl|auto].
    - rewrite rfold_cons. destruct (rm_state_eff D f s (Hl s (or_introl eq_refl)) C HD) as (g & E & F & T & N). rewrite E. cbn [rbind].
      pose proof F as (Fn & Fs & _ & _ & Fc).
      destruct (IH g) as (h & E' & F' & CL'); auto.
      + intros q Hq. rewrite Fn. apply Hl. right; auto.
      + destruct CL as [C1 C2]. split; [intros q t Ht|intros q Hq]; rewrite Fn.
        * rewrite T in Ht. apply (C1 q). destruct (q =? s); auto. apply filter_In in Ht. tauto.
        * apply C2. congruence.
      + intros d Hd. rewrite N. destruct ((d =? s) && _ && _); [discriminate|auto].
      + exists h. split; auto. split; auto. apply (eff_trans f g h); auto.
  Qed.

  (** Exact effect when no dead end leads to another. *)
  Lemma rm_all_eff D f : cnt f -> (forall d, In d D -> fin_of f d <> None) ->
    (forall d t, In d D -> In t (trs_of f d) -> removable D t = false) ->
    forall k i g, (i + k <= num_states f)%nat -> eff f g ->
      (forall q, trs_of g q = if q <? i then filter (fun t => negb (removable D t)) (trs_of f q) else trs_of f q) ->
      (forall q, fin_of g q = if (q <? i) && existsb (removable D) (trs_of f q) && negb (keqb (new_fin f D q) 0)
                              then Some (new_fin f D q) else fin_of f q) ->
    exists h, rfold (rm_state D) (seq i k) g = Ok h /\ eff f h /\
      (forall q, trs_of h q = if q <? i + k then filter (fun t => negb (removable D t)) (trs_of f q) else trs_of f q) /\
      (forall q, fin_of h q = if (q <? i + k) && existsb (removable D) (trs_of f q) && negb (keqb (new_fin f D q) 0)
                              then Some (new_fin f D q) else fin_of f q).
  Proof.
    intros C HD HN. induction k as [|k IH]; intros i g Hi EF T N.
    - exists g. rewrite Nat.add_0_r. split; auto.
    - cbn [seq]. rewrite rfold_cons.
      assert (ND : forall d, In d D -> fin_of g d = fin_of f d).
      { intros d Hd. rewrite N. replace (existsb (removable D) (trs_of f d)) with false; [rewrite andb_false_r; auto|].
        symmetry. destruct (existsb _ _) eqn:X; auto. apply existsb_exists in X as (t & X1 & X2). rewrite (HN d t Hd X1) in X2. discriminate. }
      assert (Ti : trs_of g i = trs_of f i) by (rewrite T, Nat.ltb_irrefl; auto).
      assert (Ni : fin_of g i = fin_of f i) by (rewrite N, Nat.ltb_irrefl; auto).
      assert (NF : new_fin g D i = new_fin f D i).
      { unfold new_fin. rewrite Ti, Ni. f_equal. apply ksum_map_ext. intros t Ht. apply filter_In in Ht as [_ Ht].
        unfold removable in Ht. apply andb_true_iff in Ht as [Ht _]. apply andb_true_iff in Ht as [Ht _].
        apply existsb_exists in Ht as (d & H1 & H2). apply Nat.eqb_eq in H2. rewrite H2, ND; auto. }
      destruct (rm_state_eff D g i) as (g1 & E1 & F1 & T1 & N1).
      { rewrite (eff_n _ _ EF). lia. } { apply EF; auto. } { intros d Hd. rewrite ND; auto. }
      rewrite E1. cbn [rbind]. rewrite Ti, NF in N1.
      destruct (IH (S i) g1) as (h & E & F & T' & N').
      + lia.
      + apply (eff_trans f g g1); auto.
      + intros q. rewrite T1, T. destruct (Nat.eqb_spec q i), (Nat.ltb_spec q i), (Nat.ltb_spec q (S i)); subst; try lia; auto.
      + intros q. rewrite N1, N. destruct (Nat.eqb_spec q i), (Nat.ltb_spec q i), (Nat.ltb_spec q (S i)); subst; try lia; cbn [andb]; auto.
      + exists h. replace (i + S k)%nat with (S i + k)%nat by lia. auto.
  Qed.

  (** A final state from which nothing else can be accepted. *)
  Definition dead_end f (s : nat) : Prop :=
    fin_of f s <> None /\ forall t, In t (trs_of f s) -> ~ coaccessible (mach f) (ns t).
  (** The path ends with an epsilon transition into a state of [E]. *)
  Fixpoint ends (E : nat -> bool) (p : list (tr K)) : bool :=
    match p with
    | [] => false
    | [t] => E (ns t) && (il t =? 0)%nat && (ol t =? 0)%nat
    | _ :: p' => ends E p'
    end.

  Lemma wtp_dead P (m : machine K) n s x y : ~ coaccessible m s -> wtp P m n s x y = 0.
  Proof.
    intros H. apply (psum_zero L). intros p Hp. destruct (P p && reads x y p); auto. unfold apw.
    destruct (mfin m (dst s p)) eqn:E; [|apply (ktimes_0_r _ L)]. exfalso. apply H. exists (dst s p). split; [|congruence].
    apply reach_path. exists p. split; auto. apply paths_is_path in Hp. tauto.
  Qed.

  (** What is needed of multiplication and addition, at the epsilon transitions into final states only. *)
  Definition eps_comm f : Prop := forall s t, In t (trs_of f s) -> il t = O -> ol t = O ->
    fw (fin_of f (ns t)) * wgt t = wgt t * fw (fin_of f (ns t)).
  Definition eps_zsf f : Prop := forall s t (b : K), In t (trs_of f s) -> il t = O -> ol t = O ->
    fw (fin_of f s) + b = 0 -> fw (fin_of f s) = 0.

  Section Main.
    Variables (f h : vfst K) (D : list nat).
    Hypothesis comm : eps_comm f.
    Hypothesis zsf : eps_zsf f.
    Hypothesis HD : forall d, In d D -> dead_end f d.
    Hypothesis HT : forall q, trs_of h q = filter (fun t => negb (removable D t)) (trs_of f q).
    Hypothesis HF : forall q, fin_of h q = if existsb (removable D) (trs_of f q) && negb (keqb (new_fin f D q) 0)
                              then Some (new_fin f D q) else fin_of f q.
    Let E s := existsb (Nat.eqb s) D.

    Lemma E_In s : E s = true <-> In s D.
    Proof.
      unfold E. rewrite existsb_exists. split; [intros (z & A & B); apply Nat.eqb_eq in B; subst; auto|].
      intros H. exists s. split; auto. apply Nat.eqb_refl.
    Qed.
    Lemma rem_E (t : tr K) : removable D t = true -> In (ns t) D.
    Proof. unfold removable. intros H. apply andb_true_iff in H as [H _]. apply andb_true_iff in H as [H _]. apply E_In. exact H. Qed.

    Lemma h_fin q : fw (fin_of h q) = new_fin f D q.
    Proof.
      rewrite HF. destruct (existsb (removable D) (trs_of f q)) eqn:Ex.
      - destruct (keqbP L (new_fin f D q) 0) as [Ez|]; simpl; auto. rewrite Ez. apply existsb_exists in Ex as (t & Ht & Er).
        unfold removable in Er. apply andb_true_iff in Er as [Er E2]. apply andb_true_iff in Er as [_ E1].
        apply Nat.eqb_eq in E1, E2. exact (zsf q t _ Ht E1 E2 Ez).
      - simpl. unfold new_fin. replace (filter (removable D) (trs_of f q)) with (@nil (tr K)); [symmetry; apply (kplus_0_r L)|].
        symmetry. clear - Ex. induction (trs_of f q); auto. simpl in *. apply orb_false_iff in Ex as [-> Ex]. auto.
    Qed.

    Lemma dead_wtp P d n x y : In d D -> wtp P (mach f) (S n) d x y = 0.
    Proof.
      intros Hd. rewrite (wtp_S L). apply (ksum_map_zero L). intros t Ht.
      destruct (strip (il t) x); auto. destruct (strip (ol t) y); auto. rewrite wtp_dead; [apply (ktimes_0_r _ L)|].
      destruct (HD d Hd) as [_ H]. apply H. auto.
    Qed.

    Lemma main_wt : forall k s x y, wt (mach h) k s x y =
      wtp (fun p => negb (ends E p)) (mach f) k s x y + wtp (ends E) (mach f) (S k) s x y.
    Proof.
      assert (e1 : forall t, ends E [t] = removable D t) by reflexivity.
      induction k as [|k IH]; intros s x y.
      - rewrite (wtp_O L), (wtp_S L). change (ends E []) with false. cbn [negb andb wt mach mfin mtrs]. rewrite h_fin. unfold new_fin.
        transitivity ((if isnil x && isnil y then fw (fin_of f s) else 0) +
           (if isnil x && isnil y then ksum (map (fun t => fw (fin_of f (ns t)) * wgt t) (filter (removable D) (trs_of f s))) else 0)).
        { destruct (isnil x && isnil y); auto. symmetry. apply (kplus_0_l _ L). }
        f_equal. rewrite (ksum_filter L). destruct (isnil x && isnil y) eqn:Exy.
        + apply ksum_map_ext. intros t Ht. destruct (removable D t) eqn:Er.
          * unfold removable in Er. apply andb_true_iff in Er as [Er E2]. apply andb_true_iff in Er as [E0 E1].
            unfold strip. rewrite E1, E2, (wtp_O L). rewrite e1. unfold removable. rewrite Exy, E0, E1, E2. apply (comm s t Ht); apply Nat.eqb_eq; auto.
          * destruct (strip (il t) x); auto. destruct (strip (ol t) y); auto. rewrite (wtp_O L), e1, Er. simpl. symmetry. apply (ktimes_0_r _ L).
        + symmetry. apply (ksum_map_zero L). intros t _.
          destruct (strip (il t) x) eqn:Sx; auto. destruct (strip (ol t) y) eqn:Sy; auto. rewrite (wtp_O L), e1.
          destruct (removable D t) eqn:Er; simpl; [|apply (ktimes_0_r _ L)].
          unfold removable in Er. apply andb_true_iff in Er as [Er E2]. apply andb_true_iff in Er as [E0 E1].
          unfold strip in Sx, Sy. rewrite E1 in Sx. rewrite E2 in Sy. inversion Sx; inversion Sy; subst. rewrite Exy. apply (ktimes_0_r _ L).
      - rewrite !(wtp_S L). cbn [wt]. cbn [mach mtrs]. rewrite HT, (ksum_filter L), <- (ksum_map_plus L). apply ksum_map_ext. intros t Ht.
        destruct (strip (il t) x) as [x'|]; [destruct (strip (ol t) y) as [y'|]|];
          try (destruct (negb (removable D t)); symmetry; apply (kplus_0_l _ L)).
        destruct (removable D t) eqn:Er; cbn [negb].
        + pose proof (rem_E t Er) as Hd. rewrite (dead_wtp _ _ k) by auto. rewrite (ktimes_0_r _ L), (kplus_0_r L).
          destruct k as [|k]; [|rewrite dead_wtp by auto; symmetry; apply (ktimes_0_r _ L)].
          rewrite (wtp_O L), e1, Er. cbn [negb andb]. symmetry. apply (ktimes_0_r _ L).
        + rewrite IH, (kdistr_l _ L). f_equal; f_equal.
          * apply wtp_ext. intros p Hp. destruct p; auto. simpl in Hp. rewrite e1, Er. auto.
          * apply wtp_ext. intros p Hp. destruct p; auto; discriminate.
    Qed.
  End Main.

  Lemma connect_rel f : cnt f -> closed f ->
    exists g, connect f = Ok g /\
      (forall n x y, rel (mach g) n x y = rel (mach f) n x y) /\
      (forall s, (s < num_states g)%nat -> accessible (mach g) s /\ coaccessible (mach g) s).
  Proof.
    intros C Hc.
    destruct (connect_eq f Hc C) as (d & g & Ec & Ed & S & U & _). eexists. split; [exact Ec|].
    set (g' := set_properties_with_mask _ _ _).
    assert (S' : is_submachine f d g') by exact S.
    split; [|apply (sub_useful f d g' Hc U S')].
    intros n x y. unfold rel. cbn [mach mstart]. pose proof S as (_ & _ & St & _).
    change (vstart g') with (vstart g).
    destruct (vstart f) as [s|] eqn:Es; [|rewrite St; auto].
    destruct St as [[H1 ->]|(H1 & k & H2 & ->)].
    + destruct U as (_ & _ & U). specialize (U s H1). symmetry. apply (wt_dead L). intros Hco. apply U.
      split; auto. exists s. split; auto. constructor.
    + apply (sub_wt L f d g' Hc U S'). auto.
  Qed.

  (** The accepting paths that end with an epsilon transition into a dead end lose that
      transition; all others stay; only useful states remain. *)
  Theorem C14_rm_final_epsilon_local f : eps_comm f -> eps_zsf f -> cnt f -> closed f ->
    exists g, rm_final_epsilon f = Ok g /\
      (vstart f = None -> num_states g = O) /\
      (forall s0, vstart f = Some s0 -> exists E, (forall s, E s = true <-> dead_end f s) /\
         forall k x y, rel (mach g) k x y =
           wtp (fun p => negb (ends E p)) (mach f) k s0 x y + wtp (ends E) (mach f) (S k) s0 x y) /\
      (forall s, (s < num_states g)%nat -> accessible (mach g) s /\ coaccessible (mach g) s).
  Proof.
    intros comm zsf C CL.
    pose proof CL as [C1 C2]. unfold rm_final_epsilon. set (n := num_states f).
    assert (V : exists v, visit_scc f any_filter = Ok v /\
       forall s0, vstart f = Some s0 -> forall u, (u < n)%nat -> co (sv_core v) u = true <-> coaccessible (mach f) u).
    { unfold visit_scc. destruct (vstart f) as [s0|] eqn:Es.
      - destruct (visit_scc_inv any_filter (trs_of f) (num_states f) s0 (fin_of f) (fun s t _ => C1 s t) (C2 _ eq_refl))
          as (v & E & _ & _ & _ & _ & _ & _ & Co & _).
        { intros s Hs. apply trs_of_beyond; auto. }
        exists v. split; auto. intros s1 _ u Hu. rewrite (Co u Hu). apply coacc_any.
      - eexists. split; [reflexivity|]. intros s1 H. discriminate. }
    destruct V as (v & EV & V). rewrite EV. cbn [rbind]. set (D := dead_end_finals f (co (sv_core v))).
    assert (DF : forall d, In d D -> fin_of f d <> None).
    { intros d Hd. unfold D, dead_end_finals in Hd. apply filter_In in Hd as [_ Hd]. destruct (fin_of f d); [congruence|discriminate]. }
    destruct (vstart f) as [s0|] eqn:Es.
    - specialize (V s0 eq_refl).
      assert (DE : forall s, In s D <-> dead_end f s).
      { intros s. unfold D, dead_end_finals, dead_end. rewrite filter_In, in_seq, andb_true_iff. split.
        - intros (_ & A & B). split; [destruct (fin_of f s); [congruence|discriminate]|].
          intros t Ht Hco. apply (V (ns t)) in Hco; [|apply (C1 s); auto].
          apply negb_true_iff in B. assert (X : existsb (fun t => co (sv_core v) (ns t)) (trs_of f s) = true) by (apply existsb_exists; eauto). congruence.
        - intros [A B]. split; [|split].
          + split; [lia|]. apply Nat.nle_gt. intros H. apply A. apply fin_of_beyond. lia.
          + destruct (fin_of f s); [reflexivity|congruence].
          + apply negb_true_iff. destruct (existsb _ _) eqn:X; auto. apply existsb_exists in X as (t & X1 & X2).
            exfalso. apply (B t X1). apply V; auto. apply (C1 s); auto. }
      assert (HN : forall d t, In d D -> In t (trs_of f d) -> removable D t = false).
      { intros d t Hd Ht. destruct (removable D t) eqn:Er; auto. exfalso. apply rem_E in Er; auto.
        apply DE in Hd as [_ Hd]. apply (Hd t Ht). exists (ns t). split; [constructor|]. apply DF in Er. exact Er. }
      destruct (rm_all_eff D f C DF HN n 0 f) as (h & E & EF & T & N).
      { unfold n. lia. } { apply eff_refl. } { auto. } { auto. }
      rewrite E. cbn [rbind]. cbn [Nat.add] in *. pose proof EF as (Fn & Fs & _ & _ & Fc).
      assert (T' : forall q, trs_of h q = filter (fun t => negb (removable D t)) (trs_of f q)).
      { intros q. rewrite T. destruct (Nat.ltb_spec q n); auto. rewrite trs_of_beyond; auto. }
      assert (N' : forall q, fin_of h q = if existsb (removable D) (trs_of f q) && negb (keqb (new_fin f D q) 0)
                              then Some (new_fin f D q) else fin_of f q).
      { intros q. rewrite N. destruct (Nat.ltb_spec q n); auto. rewrite (trs_of_beyond f q) by auto. auto. }
      assert (CLh : closed h).
      { split; [intros s t Ht|intros s Hs]; rewrite Fn.
        - rewrite T' in Ht. apply filter_In in Ht as [Ht _]. apply (C1 s); auto.
        - apply C2. congruence. }
      destruct (connect_rel h (Fc C) CLh) as (g & Eg & Rg & Ug). exists g. split; auto. split; [discriminate|]. split; auto.
      intros s1 H. inversion H; subst s1. exists (fun s => existsb (Nat.eqb s) D). split.
      + intros s. rewrite <- DE. apply E_In.
      + intros k x y. rewrite Rg. unfold rel. cbn [mach mstart]. rewrite Fs, Es. apply main_wt; auto. intros d Hd. apply DE. auto.
    - destruct (rm_all_ok D (seq 0 n) f) as (h & E & EF & CLh); auto.
      { intros s Hs. apply in_seq in Hs. unfold n in Hs. lia. }
      rewrite E. cbn [rbind]. pose proof EF as (Fn & Fs & _ & _ & Fc).
      destruct (connect_eq h CLh (Fc C)) as (d & g & Ec & Ed & S & U & _).
      destruct (connect_rel h (Fc C) CLh) as (g' & Eg & Rg & Ug). exists g'. split; auto. split; [|split; auto; discriminate].
      intros _. destruct (Nat.eq_dec (num_states g') 0); auto. exfalso. destruct (Ug 0%nat) as [(s & Hs & _) _]; [lia|].
      rewrite Ec in Eg. inversion Eg as [Eg']. rewrite <- Eg' in Hs. cbn in Hs. destruct S as (_ & _ & S & _). rewrite Fs, Es in S. congruence.
  Qed.

  Theorem C14_rm_final_epsilon :
    commutative_times K -> (forall a b : K, a + b = 0 -> a = 0) ->
    forall calls f, run vnew calls = Ok f -> closed f ->
    exists g, rm_final_epsilon f = Ok g /\
      (vstart f = None -> num_states g = O) /\
      (forall s0, vstart f = Some s0 -> exists E, (forall s, E s = true <-> dead_end f s) /\
         forall k x y, rel (mach g) k x y =
           wtp (fun p => negb (ends E p)) (mach f) k s0 x y + wtp (ends E) (mach f) (S k) s0 x y) /\
      (forall s, (s < num_states g)%nat -> accessible (mach g) s /\ coaccessible (mach g) s).
  Proof.
    intros comm zsf calls f R CL. apply C14_rm_final_epsilon_local; auto.
    - intros s t _ _ _. apply comm.
    - intros s t b _ _ _. apply zsf.
    - eapply run_cnt; eauto; constructor.
  Qed.
End C14.
Print Assumptions C14_rm_final_epsilon_local.
Print Assumptions C14_add_super_final_state.
Print Assumptions C14_rm_final_epsilon.

(** Integers: sums can cancel. *)
Definition zSR : SR := mkSR Z 0%Z 1%Z Z.add Z.mul Z.eqb.
Lemma zSR_laws : sr_laws zSR.
Proof.
  split; [split; [split; [intros x y; apply Z.eqb_eq|..]|]|]; simpl; intros; ring || (destruct x; reflexivity) || idtac.
Qed.
Lemma zSR_comm : commutative_times zSR.
Proof. intros x y. cbn. lia. Qed.

(** When the sum of the weights is zero, the old final weight stays although the epsilon
    transition is removed: the total weight of the empty string changes from 0 to 1. *)
Theorem C14_rm_final_epsilon_cancel_refuted :
  exists (c : list (op zSR)) f g, run vnew c = Ok f /\ closed f /\ rm_final_epsilon f = Ok g /\
    (rel (mach f) 0 [] [] + rel (mach f) 1 [] [] = (0 : zSR)) /\
    (forall k, rel (mach f) (S (S k)) [] [] = (0 : zSR)) /\
    rel (mach g) 0 [] [] = (1 : zSR) /\ (forall k, rel (mach g) (S k) [] [] = (0 : zSR)).
Proof.
  exists [OAddStates 2; OSetStart 0; OSetFinal 0 (1%Z : zSR); OSetFinal 1 (1%Z : zSR); OAddTr 0 (Tr 0 0 ((-1)%Z : zSR) 1)].
  eexists. eexists. split; [vm_compute; reflexivity|]. split.
  { split; [|cbn; intros s H; inversion H; vm_compute; lia].
    intros s t. destruct s as [|[|s]]; cbn; [intros [<-|[]]; vm_compute; lia|tauto|]. destruct s; simpl; tauto. }
  split; [vm_compute; reflexivity|]. repeat (split; [intros; vm_compute; reflexivity|]). intros; vm_compute; reflexivity.
Qed.
Print Assumptions C14_rm_final_epsilon_cancel_refuted.

(** State 2 is a dead end reached by two epsilon transitions; state 1 is final on its own. *)
Definition c14_calls : list (op natSR) :=
  [OAddStates 3; OSetStart 0; OSetFinal 1 2%nat; OSetFinal 2 3%nat; OAddTr 0 (Tr 7 8 5%nat 1);
   OAddTr 1 (Tr 0 0 11%nat 2); OAddTr 0 (Tr 0 0 13%nat 2); OAddTr 1 (Tr 0 4 17%nat 2)].
Example C14_witness :
  commutative_times natSR /\ (forall a b : natSR, kplus a b = kzero -> a = kzero) /\
  exists f g h sf, run vnew c14_calls = Ok f /\ closed f /\ rm_final_epsilon f = Ok g /\ add_super_final_state f = Ok (h, sf) /\
    rel (mach f) 1 [7]%nat [8]%nat = 10%nat /\ rel (mach f) 2 [7]%nat [8]%nat = 165%nat /\
    rel (mach g) 1 [7]%nat [8]%nat = 175%nat /\ rel (mach g) 0 [] [] = 39%nat /\
    rel (mach g) 2 [7]%nat [8; 4]%nat = 255%nat /\ num_states h = 4%nat /\ rel (mach h) 2 [7]%nat [8]%nat = 10%nat.
Proof.
  split; [intros x y; cbn; lia|]. split; [intros a b; cbn; lia|].
  eexists. eexists. eexists. eexists. split; [vm_compute; reflexivity|]. split.
  { split; [|cbn; intros s H; inversion H; vm_compute; lia].
    intros s t. destruct s as [|[|[|s]]]; cbn; try tauto; try (destruct s; simpl; tauto);
    intros H; repeat destruct H as [<-|H]; try destruct H; vm_compute; lia. }
  repeat (split; [vm_compute; reflexivity|]). vm_compute; reflexivity.
Qed.
