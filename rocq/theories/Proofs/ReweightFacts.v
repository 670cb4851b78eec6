(** What reweighting does to the observable content of a machine, and why path weights survive. *)
From Coq Require Import List Arith NArith Bool Lia.
From Verif Require Import Base.Util Base.Semiring Base.Machine Base.PropSpec
  Model.Props Model.VectorFst Model.TrOps Model.AlgoProps Model.History Model.Dfs Model.Visitors Model.ComputeProps Model.Relabel Model.Rational
  Model.Queues Model.ShortestDistance Model.Reweight
  Proofs.PropsFacts Proofs.VectorFacts Proofs.DelStates Proofs.VectorProps Proofs.TrOpsFacts Proofs.HistoryFacts
  Proofs.OpFacts Proofs.ConnectFacts Proofs.RationalFacts Props.C43.
Import ListNotations.

Section R.
  Context {K : SR} (L : lsr_laws K).
  Implicit Types (f g h : vfst K).

  Definition set_wgt (t : tr K) (v : K) : tr K := Tr (il t) (ol t) v (ns t).

  Lemma iter_set_weight_eff f s i t v : s < num_states f -> nth_error (trs_of f s) i = Some t ->
    exists g, iter_set_weight f s i v = Ok g /\ eff f g /\
      (forall q, trs_of g q = if q =? s then upd (trs_of f s) i (set_wgt t v) else trs_of f q) /\
      (forall q, fin_of g q = fin_of f q) /\ (fsound f -> fsound g).
  Proof.
    intros H Ht. destruct (nth_state f s H) as (st & E & E1 & E2).
    assert (X : iter_set_weight f s i v = Ok (upd_state f s (VS (vfin st) (upd (vtrs st) i (set_wgt t v)) (vnie st) (vnoe st))
                      (compute_new_properties_weights (vprops f) (wgt t) v))).
    { unfold iter_set_weight, get_state. rewrite E. cbn [rbind]. rewrite E1 in Ht. rewrite Ht. reflexivity. }
    rewrite X. eexists. split; [reflexivity|]. split; [|split; [|split]].
    - apply eff_upd. intros C. pose proof (cnt_nth _ _ _ C E) as Ck. rewrite E1 in Ht.
      destruct (iter_cnt st i t (il t) (ol t) v (ns t) Ck Ht) as (ni & no & A & B & Z).
      assert (ni = vnie st /\ no = vnoe st) as [-> ->]; [|exact Z].
      unfold updt_eps, dec_if, b2n in A, B.
      destruct (il t =? 0); destruct (vnie st) eqn:Ev; cbn in A; try discriminate; injection A as <-;
      destruct (ol t =? 0); destruct (vnoe st) eqn:Ew; cbn in B; try discriminate; injection B as <-; split; lia.
    - intros q. rewrite trs_of_upd by auto. cbn [vtrs]. rewrite E1. auto.
    - intros q. rewrite fin_of_upd by auto. cbn [vfin]. rewrite <- E2. apply if_same.
    - intros F. eapply fsound_iter_weight; eauto.
  Qed.

  (** The transition a rewriting loop leaves behind. *)
  Definition rewt (w : tr K -> option (res K)) (t : tr K) : tr K :=
    match w t with Some (Ok v) => set_wgt t v | _ => t end.

  Lemma set_weights_eff (w : tr K -> option (res K)) f s : s < num_states f ->
    (forall t, In t (trs_of f s) -> w t = None \/ exists v, w t = Some (Ok v)) ->
    exists g, set_weights w f s = Ok g /\ eff f g /\
      (forall q, trs_of g q = if q =? s then map (rewt w) (trs_of f s) else trs_of f q) /\
      (forall q, fin_of g q = fin_of f q) /\ (fsound f -> fsound g).
  Proof.
    intros Hs Hw. unfold set_weights, for_trs.
    assert (G : forall suf pre h, s < num_states h -> (forall t, In t suf -> w t = None \/ exists v, w t = Some (Ok v)) ->
      trs_of h s = pre ++ suf ->
      exists g, fold_left (fun r i => h0 <-- r ;; with_tr h0 s i (fun t => match w t with None => Ok h0 | Some r0 => v <-- r0 ;; iter_set_weight h0 s i v end))
          (seq (length pre) (length suf)) (Ok h) = Ok g /\ eff h g /\
        (forall q, trs_of g q = if q =? s then pre ++ map (rewt w) suf else trs_of h q) /\
        (forall q, fin_of g q = fin_of h q) /\ (fsound h -> fsound g)).
    { induction suf as [|t suf IH]; intros pre h Hh Hok Et.
      - exists h. cbn [length seq fold_left map]. rewrite <- Et. repeat split; auto. intros q. symmetry. apply if_same.
      - cbn [length seq fold_left rbind].
        assert (Nt : nth_error (trs_of h s) (length pre) = Some t) by (rewrite Et, nth_error_app2, Nat.sub_diag by lia; reflexivity).
        assert (X : exists h1, with_tr h s (length pre) (fun t => match w t with None => Ok h | Some r0 => v <-- r0 ;; iter_set_weight h s (length pre) v end) = Ok h1 /\
           eff h h1 /\ (forall q, trs_of h1 q = if q =? s then (pre ++ [rewt w t]) ++ suf else trs_of h q) /\
           (forall q, fin_of h1 q = fin_of h q) /\ (fsound h -> fsound h1)).
        { unfold with_tr. rewrite Nt. unfold rewt. destruct (Hok t (or_introl eq_refl)) as [->|(v & ->)].
          - exists h. rewrite <- app_assoc. cbn [app]. rewrite <- Et. repeat split; auto. intros q. symmetry. apply if_same.
          - cbn [rbind]. destruct (iter_set_weight_eff h s (length pre) t v Hh Nt) as (h1 & -> & A & B & C & D).
            exists h1. split; auto. split; auto. split; [|auto]. intros q. rewrite B, Et, upd_app_r, Nat.sub_diag by lia.
            cbn [upd]. rewrite <- app_assoc. auto. }
        destruct X as (h1 & -> & A & B & C & D).
        assert (N1 : s < num_states h1) by (destruct A as [-> _]; auto).
        destruct (IH (pre ++ [rewt w t]) h1 N1) as (g & Eg & A' & B' & C' & D').
        { intros; apply Hok; right; auto. } { rewrite B, Nat.eqb_refl. auto. }
        rewrite app_length in Eg. cbn [length] in Eg. rewrite Nat.add_1_r in Eg. exists g. split; auto. split; [eapply eff_trans; eauto|].
        split; [|split; [intros q; rewrite C'; apply C|auto]].
        intros q. rewrite B'. destruct (q =? s) eqn:Eq; [rewrite <- app_assoc; reflexivity|]. rewrite B, Eq. auto. }
    destruct (G (trs_of f s) [] f Hs Hw eq_refl) as (g & Eg & A & B & C & D). exists g. auto.
  Qed.

  (** A loop over all states whose body touches the state it is given. *)
  Lemma rfold_local (body : vfst K -> nat -> res (vfst K)) f (T : nat -> list (tr K)) (F : nat -> option K) :
    (forall h s, s < num_states f -> num_states h = num_states f -> vstart h = vstart f ->
       trs_of h s = trs_of f s -> fin_of h s = fin_of f s ->
       exists g, body h s = Ok g /\ eff h g /\
         (forall q, trs_of g q = if q =? s then T s else trs_of h q) /\
         (forall q, fin_of g q = if q =? s then F s else fin_of h q) /\ (fsound h -> fsound g)) ->
    exists g, rfold body (seq 0 (num_states f)) f = Ok g /\ eff f g /\
      (forall q, q < num_states f -> trs_of g q = T q /\ fin_of g q = F q) /\ (fsound f -> fsound g).
  Proof.
    intros Hb.
    assert (G : forall k i h, i + k = num_states f -> eff f h ->
      (forall q, q < num_states f -> trs_of h q = (if q <? i then T q else trs_of f q) /\ fin_of h q = (if q <? i then F q else fin_of f q)) ->
      exists g, rfold body (seq i k) h = Ok g /\ eff f g /\
        (forall q, q < num_states f -> trs_of g q = T q /\ fin_of g q = F q) /\ (fsound h -> fsound g)).
    { induction k as [|k IH]; intros i h Ei Ef Hq.
      - exists h. split; [reflexivity|]. split; auto. split; auto. intros q Hlt. destruct (Hq q Hlt) as [A B].
        assert (q <? i = true) as X by (apply Nat.ltb_lt; lia). rewrite X in *. auto.
      - cbn [seq]. rewrite rfold_cons.
        assert (Hi : i < num_states f) by lia. destruct (Hq i Hi) as [A B]. rewrite Nat.ltb_irrefl in A, B.
        destruct (Hb h i Hi (proj1 Ef) (proj1 (proj2 Ef)) A B) as (h1 & -> & E1 & T1 & F1 & S1). cbn [rbind].
        destruct (IH (S i) h1) as (g & Eg & E2 & H2 & S2); [lia|eapply eff_trans; eauto| |exists g; split; [auto|]; split; [auto|]; split; auto].
        intros q Hlt. rewrite T1, F1. destruct (Hq q Hlt) as [A' B'].
        destruct (Nat.eqb_spec q i) as [->|Ne].
        + assert (i <? S i = true) as -> by (apply Nat.ltb_lt; lia). auto.
        + rewrite A', B'. destruct (Nat.ltb_spec q i), (Nat.ltb_spec q (S i)); auto; lia. }
    apply (G (num_states f) 0 f); [lia|apply eff_refl|]. intros q _. auto.
  Qed.

  Local Open Scope K_scope.

  (** Multiplying everything that leaves a start state that no path comes back to. *)
  Definition scale (c : K) (t : tr K) : tr K := set_wgt t (c * wgt t).
  Lemma start_scale (m m' : machine K) a c : mstart m = Some a -> mstart m' = Some a -> ~ on_cycle m a ->
    mtrs m' a = map (scale c) (mtrs m a) -> mfin m' a = option_map (ktimes c) (mfin m a) ->
    (forall q, q <> a -> mtrs m' q = mtrs m q) -> (forall q, q <> a -> mfin m' q = mfin m q) ->
    forall k x y, rel m' k x y = c * rel m k x y.
  Proof.
    intros E1 E2 NC Ta Fa Tq Fq.
    assert (W : forall k p x y t, In t (mtrs m a) -> reach m (ns t) p -> wt m' k p x y = wt m k p x y).
    { induction k as [|k IH]; intros p x y t Ht R;
        (assert (p <> a) as Np by (intros ->; apply NC; exists t; auto)); cbn [wt].
      - rewrite Fq by auto. auto.
      - rewrite Tq by auto. apply ksum_map_ext. intros u Hu. destruct (strip (il u) x); auto. destruct (strip (ol u) y); auto.
        rewrite (IH _ _ _ t); auto. eapply reach_trans; eauto. econstructor; [exact Hu|constructor]. }
    intros k x y. unfold rel. rewrite E1, E2. destruct k as [|k]; cbn [wt].
    - rewrite Fa. destruct (isnil x && isnil y); [|symmetry; apply (ktimes_0_r _ L)].
      destruct (mfin m a); cbn [option_map fw]; auto. symmetry. apply (ktimes_0_r _ L).
    - rewrite Ta, map_map, (ksum_times_l L), map_map. apply ksum_map_ext. intros t Ht. cbn [scale set_wgt il ol wgt ns].
      destruct (strip (il t) x); [|symmetry; apply (ktimes_0_r _ L)].
      destruct (strip (ol t) y); [|symmetry; apply (ktimes_0_r _ L)].
      rewrite <- (ktimes_assoc _ L). do 2 f_equal. apply (W _ _ _ _ t); auto. constructor.
  Qed.

  (** A fresh start with one epsilon transition to the old one. *)
  Lemma start_fresh (m m' : machine K) a b c : mstart m = Some a -> mstart m' = Some b ->
    (forall q t, In t (mtrs m q) -> ns t <> b) -> a <> b ->
    mtrs m' b = [Tr O O c a] -> mfin m' b = None ->
    (forall q, q <> b -> mtrs m' q = mtrs m q) -> (forall q, q <> b -> mfin m' q = mfin m q) ->
    (forall x y, rel m' O x y = 0) /\ forall k x y, rel m' (S k) x y = c * rel m k x y.
  Proof.
    intros E1 E2 Nb Na Tb Fb Tq Fq.
    assert (W : forall k p x y, p <> b -> wt m' k p x y = wt m k p x y).
    { induction k as [|k IH]; intros p x y Hp; cbn [wt].
      - rewrite Fq by auto. auto.
      - rewrite Tq by auto. apply ksum_map_ext. intros u Hu. destruct (strip (il u) x); auto. destruct (strip (ol u) y); auto.
        rewrite IH; eauto. }
    unfold rel. rewrite E1, E2. split; intros.
    - cbn [wt]. rewrite Fb. destruct (isnil x && isnil y); auto.
    - cbn [wt]. rewrite Tb. cbn [map ksum il ol wgt ns strip Nat.eqb]. rewrite W by auto. apply (kplus_0_r L).
  Qed.

  Variable divide : K -> K -> divide_type -> res K.
  Notation pot := (@pot K).

  Definition trs_after (d : list K) rt f s : list (tr K) :=
    if is_zero (pot d s) then trs_of f s else map (rewt (new_weight divide d rt s)) (trs_of f s).
  Definition fin_after (d : list K) rt f s : option K :=
    match rt with
    | ToInitial => if is_zero (pot d s) then fin_of f s
                   else match fin_of f s with
                        | Some w => match divide w (pot d s) DivideLeft with Ok c => Some c | _ => None end
                        | None => None
                        end
    | ToFinal => option_map (fun w => (if (length d <=? s)%nat then 0 * w else w) * pot d s) (fin_of f s)
    end.

  Lemma is_zero_spec (w : K) : is_zero w = true <-> w = 0.
  Proof. apply (keqb_true L). Qed.

  Lemma rewt_ns w (t : tr K) : ns (rewt w t) = ns t.
  Proof. unfold rewt. destruct (w t) as [[| |]|]; auto. Qed.

  (** The two loops. *)
  Lemma reweight_loops d rt f :
    (forall s t, In t (trs_of f s) -> pot d s <> 0 -> pot d (ns t) <> 0 ->
       exists c, new_weight divide d rt s t = Some (Ok c)) ->
    (rt = ToInitial -> forall s w, fin_of f s = Some w -> pot d s <> 0 -> exists c, divide w (pot d s) DivideLeft = Ok c) ->
    exists g, (h <-- rfold (reweight_state divide d rt) (seq 0 (num_states f)) f ;;
               rfold (reweight_final divide d rt) (seq 0 (num_states h)) h) = Ok g /\ eff f g /\
      (forall q, trs_of g q = trs_after d rt f q) /\ (forall q, fin_of g q = fin_after d rt f q) /\ (fsound f -> fsound g).
  Proof.
    intros Hw Hf.
    set (F1 := fun s => match rt with ToInitial => fin_of f s | ToFinal => option_map (fun w => if (length d <=? s)%nat then 0 * w else w) (fin_of f s) end).
    destruct (rfold_local (reweight_state divide d rt) f (trs_after d rt f) F1) as (h & -> & E1 & H1 & S1).
    { intros h s Hs Hn _ Et Ef. assert (Hs' : (s < num_states h)%nat) by lia. unfold reweight_state, trs_after, F1. rewrite Ef.
      destruct (Nat.leb_spec (length d) s) as [Hl|Hl].
      - assert (pot d s = 0) as Z by (apply nth_overflow; auto). rewrite (proj2 (is_zero_spec _) Z).
        assert (N : exists g, Ok h = Ok g /\ eff h g /\ (forall q, trs_of g q = if q =? s then trs_of f s else trs_of h q) /\
          (forall q, fin_of g q = if q =? s then fin_of f s else fin_of h q) /\ (fsound h -> fsound g)).
        { exists h. split; [auto|]. split; [apply eff_refl|]. rewrite <- Et, <- Ef. split; [|split; auto]; intros; symmetry; apply if_same. }
        destruct rt; [exact N|]. destruct (fin_of f s) as [w|]; [|exact N].
        destruct (set_final_eff h s (0 * w) Hs') as (g & Eg & A & B & C). rewrite Eg. exists g. split; auto. split; auto.
        split; [intros; rewrite B, <- Et; symmetry; apply if_same|]. split; [intros; apply C|].
        intros F. eapply fsound_set_final; eauto.
      - destruct (is_zero (pot d s)) eqn:Z.
        + exists h. split; [auto|]. split; [apply eff_refl|]. rewrite <- Et. split; [intros; symmetry; apply if_same|]. split; auto.
          intros q. rewrite <- Ef. destruct rt; [symmetry; apply if_same|]. destruct (Nat.eqb_spec q s) as [->|]; auto. destruct (fin_of h s); auto.
        + assert (Np : pot d s <> 0) by (intros X; rewrite (proj2 (is_zero_spec _) X) in Z; discriminate).
          destruct (set_weights_eff (new_weight divide d rt s) h s Hs') as (g & Eg & A & B & C & D).
          { rewrite Et. intros t Ht. destruct (is_zero (pot d (ns t))) eqn:Z'; [left; unfold new_weight; rewrite Z'; auto|]. right.
            apply (Hw s t); auto. intros X; rewrite (proj2 (is_zero_spec _) X) in Z'; discriminate. }
          exists g. split; auto. split; auto. rewrite <- Et. split; [auto|]. split; [|auto].
          intros q. rewrite C. rewrite <- Ef. destruct rt; [symmetry; apply if_same|]. destruct (Nat.eqb_spec q s) as [->|]; auto. destruct (fin_of h s); auto. }
    cbn [rbind]. assert (Nh : num_states h = num_states f) by apply E1.
    destruct (rfold_local (reweight_final divide d rt) h (fun s => trs_of h s) (fun s => fin_after d rt f s)) as (g & -> & E2 & H2 & S2).
    { intros h' s Hs Hn _ Et Ef. assert (Hs' : (s < num_states h')%nat) by lia. rewrite Nh in Hs. destruct (H1 s Hs) as [Ht1 Hf1].
      unfold reweight_final. rewrite Ef, Hf1. rewrite <- Et.
      assert (N : fin_after d rt f s = fin_of h' s -> exists g, Ok h' = Ok g /\ eff h' g /\ (forall q, trs_of g q = if q =? s then trs_of h' s else trs_of h' q) /\
          (forall q, fin_of g q = if q =? s then fin_after d rt f s else fin_of h' q) /\ (fsound h' -> fsound g)).
      { intros X. exists h'. split; [auto|]. split; [apply eff_refl|]. rewrite X. split; [|split; auto]; intros; symmetry; apply if_same. }
      assert (Y : forall v, fin_after d rt f s = Some v -> exists g, set_final h' s v = Ok g /\ eff h' g /\ (forall q, trs_of g q = if q =? s then trs_of h' s else trs_of h' q) /\
          (forall q, fin_of g q = if q =? s then fin_after d rt f s else fin_of h' q) /\ (fsound h' -> fsound g)).
      { intros v X. destruct (set_final_eff h' s v Hs') as (g & Eg & A & B & C). rewrite Eg. exists g. split; auto. split; auto.
        split; [intros; rewrite B; symmetry; apply if_same|]. rewrite X. split; [intros; apply C|]. intros F. eapply fsound_set_final; eauto. }
      rewrite Ef, Hf1 in N. unfold F1 in *. unfold fin_after in *. destruct rt.
      - destruct (fin_of f s) as [w|] eqn:Ew.
        + destruct (is_zero (pot d s)) eqn:Z; [apply N; auto|].
          destruct (Hf eq_refl s w Ew) as (c & Ec). { intros X; rewrite (proj2 (is_zero_spec _) X) in Z; discriminate. }
          rewrite Ec in *. cbn [rbind]. apply Y. auto.
        + apply N. destruct (is_zero _); auto.
      - destruct (fin_of f s) as [w|] eqn:Ew; cbn [option_map] in *; [apply Y; auto|apply N; auto]. }
    exists g. split; auto. split; [eapply eff_trans; eauto|]. split; [|split; [|auto]].
    - intros q. destruct (Nat.lt_ge_cases q (num_states f)) as [Hq|Hq].
      + rewrite (proj1 (H2 q ltac:(lia))). apply H1; auto.
      + rewrite trs_of_oob by (rewrite (proj1 E2); lia). unfold trs_after. rewrite trs_of_oob by auto. destruct (is_zero _); auto.
    - intros q. destruct (Nat.lt_ge_cases q (num_states f)) as [Hq|Hq].
      + apply (H2 q ltac:(lia)).
      + rewrite fin_of_beyond by (rewrite (proj1 E2); lia). unfold fin_after. rewrite fin_of_beyond by auto. destruct rt; auto. destruct (is_zero _); auto.
  Qed.

  (** The factor [c] goes in front of the start state [a]. *)
  Definition started (c : K) (a : nat) h g : Prop :=
    (vstart g = Some a /\ num_states g = num_states h /\ ~ on_cycle (mach h) a /\
     trs_of g a = map (scale c) (trs_of h a) /\ fin_of g a = option_map (ktimes c) (fin_of h a) /\
     (forall q, q <> a -> trs_of g q = trs_of h q) /\ (forall q, q <> a -> fin_of g q = fin_of h q)) \/
    (vstart g = Some (num_states h) /\ num_states g = S (num_states h) /\ ~ ~ on_cycle (mach h) a /\
     trs_of g (num_states h) = [Tr O O c a] /\ fin_of g (num_states h) = None /\
     (forall q, q <> num_states h -> trs_of g q = trs_of h q) /\ (forall q, q <> num_states h -> fin_of g q = fin_of h q)).

  Lemma started_rel c a h g : closed h -> vstart h = Some a -> started c a h g ->
    (forall k x y, rel (mach g) k x y = c * rel (mach h) k x y) \/
    ((forall x y, rel (mach g) O x y = 0) /\ forall k x y, rel (mach g) (S k) x y = c * rel (mach h) k x y).
  Proof.
    intros [C1 C2] Ea [(S1 & N & NC & T & F & Tq & Fq)|(S1 & N & _ & T & F & Tq & Fq)].
    - left. apply (start_scale (mach h) (mach g) a c); auto.
    - right. apply (start_fresh (mach h) (mach g) a (num_states h) c); auto.
      + intros q t Ht. specialize (C1 q t Ht). lia.
      + specialize (C2 a Ea). lia.
  Qed.

  Lemma started_closed c a h g : closed h -> vstart h = Some a -> started c a h g -> closed g.
  Proof.
    intros [C1 C2] Ea [(S1 & N & NC & T & F & Tq & Fq)|(S1 & N & _ & T & F & Tq & Fq)]; split; rewrite N.
    - intros s t Ht. destruct (Nat.eq_dec s a) as [->|Ne].
      + rewrite T in Ht. apply in_map_iff in Ht as (u & <- & Hu). apply (C1 _ _ Hu).
      + rewrite Tq in Ht by auto. eapply C1; eauto.
    - intros s Hs. rewrite S1 in Hs. injection Hs as <-. auto.
    - intros s t Ht. destruct (Nat.eq_dec s (num_states h)) as [->|Ne].
      + rewrite T in Ht. destruct Ht as [<-|[]]. cbn. specialize (C2 a Ea). lia.
      + rewrite Tq in Ht by auto. specialize (C1 _ _ Ht). lia.
    - intros s Hs. rewrite S1 in Hs. injection Hs as <-. lia.
  Qed.

  Lemma reweight_start_eff d rt h a c : closed h -> fsound h -> vstart h = Some a ->
    pot d a <> 1 -> pot d a <> 0 -> start_factor divide d rt a = Ok c ->
    exists g, reweight_start divide d rt h = Ok g /\ started c a h g /\ fsound g /\ (cnt h -> cnt g) /\
      visymt g = visymt h /\ vosymt g = vosymt h.
  Proof.
    intros C Sd Ea N1 N0 Ec. unfold reweight_start. rewrite Ea.
    assert (negb (is_one (pot d a)) && negb (is_zero (pot d a)) = true) as ->.
    { apply andb_true_iff. rewrite !negb_true_iff. split; apply (keqb_false L); auto. }
    destruct (C43_compute_and_update L h (mask [INITIAL_ACYCLIC]) C) as (f & q & Ef & A1 & A2 & A3 & A4 & A5 & A6);
      [congruence| |exact Sd|].
    { right. intros b Hb. rewrite has_mask in Hb. destruct b; try discriminate. simpl. tauto. }
    assert (A7 : ~ on_cycle (mach h) a -> has (vprops f) INITIAL_ACYCLIC = true).
    { intros Hn. apply (C43_stored L h (mask [INITIAL_ACYCLIC]) f q C) with (4 := Ef); auto; [congruence| |cbn [holds mach mstart]; intros s Hs; congruence].
      right. intros b Hb. rewrite has_mask in Hb. destruct b; try discriminate. simpl. tauto. }
    rewrite Ef. cbn [rbind fst].
    assert (M : num_states f = num_states h) by (unfold num_states; rewrite A1; auto).
    assert (Tf : forall p, trs_of f p = trs_of h p) by (intros; unfold trs_of; rewrite A1; auto).
    assert (Ff : forall p, fin_of f p = fin_of h p) by (intros; unfold fin_of; rewrite A1; auto).
    assert (Cf : cnt h -> cnt f) by (unfold cnt; rewrite A1; auto).
    assert (Sf : fsound f).
    { intros b Hb. specialize (A5 b Hb). rewrite M. assert (mach f = mach h) as ->; auto. unfold mach.
      rewrite A2. f_equal; [unfold trs_of|unfold fin_of]; rewrite A1; auto. }
    assert (Ha : (a < num_states f)%nat) by (rewrite M; apply C; auto).
    destruct (has (vprops f) INITIAL_ACYCLIC) eqn:EI.
    - apply A5 in EI. cbn [holds mach mstart] in EI. specialize (EI a Ea).
      destruct (set_weights_eff (fun t => Some (c0 <-- start_factor divide d rt a ;; Ok (c0 * wgt t))) f a Ha) as (g & -> & B1 & B2 & B3 & B4).
      { intros t _. right. rewrite Ec. cbn [rbind]. eauto. }
      cbn [rbind]. destruct B1 as (B11 & B12 & B13 & B14 & B15).
      assert (Tg : forall p, trs_of g p = if p =? a then map (scale c) (trs_of h a) else trs_of h p).
      { intros p. rewrite B2, !Tf. destruct (p =? a); auto. apply map_ext. intros t. unfold rewt. rewrite Ec. reflexivity. }
      rewrite B3, Ff. destruct (fin_of h a) as [w|] eqn:Ew.
      + rewrite Ec. cbn [rbind]. destruct (set_final_eff g a (c * w)) as (g' & Eg' & (D1 & D2 & D3 & D4 & D5) & DT & DF); [lia|].
        rewrite Eg'. exists g'. split; auto. split; [|split; [eapply fsound_set_final; [..|exact Eg']; auto|split; [auto|split; congruence]]].
        left. split; [congruence|]. split; [lia|]. split; [exact EI|]. split; [rewrite DT, Tg, Nat.eqb_refl; auto|].
        split; [rewrite DF, Nat.eqb_refl, Ew; auto|].
        split; intros p Hp; [rewrite DT, Tg|rewrite DF, B3, Ff]; destruct (Nat.eqb_spec p a); congruence.
      + exists g. split; auto. split; [|split; [auto|split; [auto|split; congruence]]].
        left. split; [congruence|]. split; [lia|]. split; [exact EI|]. split; [rewrite Tg, Nat.eqb_refl; auto|].
        split; [rewrite B3, Ff, Ew; auto|].
        split; intros p Hp; [rewrite Tg|rewrite B3, Ff; auto]; destruct (Nat.eqb_spec p a); congruence.
    - destruct (add_state_eff f) as (E1 & E2 & E3 & E4 & E5 & E6 & E7 & E8).
      assert (Ss : fsound (fst (add_state f))) by (rewrite add_state_eq; apply (fsound_add_states f 1); auto).
      destruct (add_state f) as [f1 n]. cbn [fst snd] in *. subst n. rewrite Ec. cbn [rbind].
      destruct (add_tr_eff f1 (num_states f) (Tr O O c a)) as (f2 & Ef2 & (D1 & D2 & D3 & D4 & D5) & DT & DF); [lia|].
      rewrite Ef2. cbn [rbind]. assert (S2 : fsound f2) by (eapply fsound_add_tr; [..|exact Ef2]; auto).
      destruct (set_start_eff f2 (num_states f)) as (g & Eg & G1 & G2 & G3 & G4 & G5 & GT & GF); [lia|].
      rewrite Eg. exists g. split; auto. split; [|split; [eapply fsound_set_start; [..|exact Eg]; auto|split; [auto|split; congruence]]].
      right. rewrite M in *. split; [auto|]. split; [lia|]. split; [intros Hn; apply A7 in Hn; congruence|]. rewrite GT, GF, DT, DF, Nat.eqb_refl, E7, E8, Tf, Ff.
      rewrite trs_of_oob, fin_of_beyond by auto. split; [auto|]. split; [auto|].
      split; intros p Hp; [rewrite GT, DT, E7, Tf|rewrite GF, DF, E8, Ff; auto]. destruct (Nat.eqb_spec p (num_states h)); congruence.
  Qed.

  (** ** Path weights *)
  (** Towards the start: [d] divides on the left, and from a state of potential zero only weight
      zero can be collected. *)
  Definition divides_left (d : list K) f : Prop :=
    (forall s t, In t (trs_of f s) -> pot d s <> 0 -> pot d (ns t) <> 0 ->
       exists c, divide (wgt t * pot d (ns t)) (pot d s) DivideLeft = Ok c /\ pot d s * c = wgt t * pot d (ns t)) /\
    (forall s w, fin_of f s = Some w -> pot d s <> 0 ->
       exists c, divide w (pot d s) DivideLeft = Ok c /\ pot d s * c = w).
  Definition dead_out (d : list K) f : Prop :=
    forall s, pot d s = 0 -> fw (fin_of f s) = 0 /\ forall t, In t (trs_of f s) -> wgt t = 0 \/ pot d (ns t) = 0.

  Lemma initial_wt d f g : divides_left d f -> dead_out d f ->
    (forall q, trs_of g q = trs_after d ToInitial f q) -> (forall q, fin_of g q = fin_after d ToInitial f q) ->
    forall k s x y, (pot d s = 0 -> wt (mach g) k s x y = 0 /\ wt (mach f) k s x y = 0) /\
                    (pot d s <> 0 -> pot d s * wt (mach g) k s x y = wt (mach f) k s x y).
  Proof.
    intros [D1 D2] Dd T F. induction k as [|k IH]; intros s x y; cbn [wt mach mfin mtrs]; rewrite ?T, ?F.
    - unfold fin_after. split; intros H.
      + rewrite (proj2 (is_zero_spec _) H), (proj1 (Dd s H)). destruct (isnil x && isnil y); auto.
      + destruct (is_zero (pot d s)) eqn:Z; [apply is_zero_spec in Z; congruence|].
        destruct (isnil x && isnil y); [|apply (ktimes_0_r _ L)].
        destruct (fin_of f s) as [w|] eqn:E; [|apply (ktimes_0_r _ L)]. destruct (D2 s w E H) as (c & -> & Ec). auto.
    - unfold trs_after. split; intros H.
      + rewrite (proj2 (is_zero_spec _) H).
        split; apply (ksum_map_zero L); intros t Ht; destruct (strip (il t) x) as [x'|]; auto; destruct (strip (ol t) y) as [y'|]; auto;
          (destruct (proj2 (Dd s H) t Ht) as [-> |Z]; [apply (ktimes_0_l _ L)|]);
          destruct (proj1 (IH (ns t) x' y') Z) as [E1 E2]; rewrite ?E1, ?E2; apply (ktimes_0_r _ L).
      + destruct (is_zero (pot d s)) eqn:Z; [apply is_zero_spec in Z; congruence|].
        rewrite map_map, (ksum_times_l L), map_map. apply ksum_map_ext. intros t Ht.
        assert (il (rewt (new_weight divide d ToInitial s) t) = il t /\ ol (rewt (new_weight divide d ToInitial s) t) = ol t) as [-> ->].
        { unfold rewt. destruct (new_weight divide d ToInitial s t) as [[| |]|]; auto. }
        rewrite rewt_ns. destruct (strip (il t) x) as [x'|]; [|apply (ktimes_0_r _ L)]. destruct (strip (ol t) y) as [y'|]; [|apply (ktimes_0_r _ L)].
        destruct (keqb (pot d (ns t)) 0) eqn:Zt.
        * apply (keqb_true L) in Zt. destruct (proj1 (IH (ns t) x' y') Zt) as [-> ->]. rewrite !(ktimes_0_r _ L). auto.
        * apply (keqb_false L) in Zt. destruct (D1 s t Ht H Zt) as (c & E & Ec).
          unfold rewt, new_weight. destruct (is_zero (pot d (ns t))) eqn:Z'; [apply is_zero_spec in Z'; congruence|]. rewrite E. cbn [set_wgt wgt].
          rewrite (ktimes_assoc _ L), Ec, <- (ktimes_assoc _ L). f_equal. apply IH; auto.
  Qed.

  (** Towards the final states: [d] divides on the right, and a transition into a state of
      potential zero has weight zero. *)
  Definition divides_right (d : list K) f : Prop :=
    forall s t, In t (trs_of f s) -> pot d s <> 0 -> pot d (ns t) <> 0 ->
       exists c, divide (pot d s * wgt t) (pot d (ns t)) DivideRight = Ok c /\ c * pot d (ns t) = pot d s * wgt t.
  Definition dead_in (d : list K) f : Prop :=
    forall s t, In t (trs_of f s) -> pot d s <> 0 -> pot d (ns t) = 0 -> wgt t = 0.

  Lemma final_wt d f g : divides_right d f -> dead_in d f ->
    (forall s w, fin_of f s = Some w -> pot d s * w = w * pot d s) ->
    (forall q, trs_of g q = trs_after d ToFinal f q) -> (forall q, fin_of g q = fin_after d ToFinal f q) ->
    forall k s x y, pot d s <> 0 -> wt (mach g) k s x y = pot d s * wt (mach f) k s x y.
  Proof.
    intros D1 Dd Cm T F. induction k as [|k IH]; intros s x y H; cbn [wt mach mfin mtrs]; rewrite ?T, ?F.
    - unfold fin_after. destruct (isnil x && isnil y); [|symmetry; apply (ktimes_0_r _ L)].
      destruct (fin_of f s) as [w|] eqn:E; cbn [option_map fw]; [|symmetry; apply (ktimes_0_r _ L)].
      destruct (Nat.leb_spec (length d) s) as [Hl|Hl].
      + destruct H. apply nth_overflow; auto.
      + symmetry. apply Cm. auto.
    - unfold trs_after. destruct (is_zero (pot d s)) eqn:Z; [apply is_zero_spec in Z; congruence|].
      rewrite map_map, (ksum_times_l L), map_map. apply ksum_map_ext. intros t Ht.
      assert (il (rewt (new_weight divide d ToFinal s) t) = il t /\ ol (rewt (new_weight divide d ToFinal s) t) = ol t) as [-> ->].
      { unfold rewt. destruct (new_weight divide d ToFinal s t) as [[| |]|]; auto. }
      rewrite rewt_ns. destruct (strip (il t) x) as [x'|]; [|symmetry; apply (ktimes_0_r _ L)]. destruct (strip (ol t) y) as [y'|]; [|symmetry; apply (ktimes_0_r _ L)].
      destruct (keqb (pot d (ns t)) 0) eqn:Zt.
      + apply (keqb_true L) in Zt. unfold rewt, new_weight. rewrite (proj2 (is_zero_spec _) Zt). rewrite (Dd s t Ht H Zt).
        rewrite !(ktimes_0_l _ L), (ktimes_0_r _ L). auto.
      + apply (keqb_false L) in Zt. destruct (D1 s t Ht H Zt) as (c & E & Ec).
        unfold rewt, new_weight. destruct (is_zero (pot d (ns t))) eqn:Z'; [apply is_zero_spec in Z'; congruence|]. rewrite E. cbn [set_wgt wgt].
        rewrite IH by auto. rewrite !(ktimes_assoc _ L), Ec. auto.
  Qed.

  (** ** The whole function *)
  Definition same_mach f g : Prop :=
    vstart g = vstart f /\ num_states g = num_states f /\ (forall q, trs_of g q = trs_of f q) /\ (forall q, fin_of g q = fin_of f q).

  Lemma same_wt f g : (forall q, trs_of g q = trs_of f q) -> (forall q, fin_of g q = fin_of f q) ->
    forall k s x y, wt (mach g) k s x y = wt (mach f) k s x y.
  Proof.
    intros T F. induction k as [|k IH]; intros s x y; cbn [wt mach mtrs mfin]; rewrite ?T, ?F; auto.
    apply ksum_map_ext. intros t _. destruct (strip (il t) x); auto. destruct (strip (ol t) y); auto. rewrite <- IH. auto.
  Qed.
  Lemma same_rel f g : same_mach f g -> forall k x y, rel (mach g) k x y = rel (mach f) k x y.
  Proof. intros (E & _ & T & F) k x y. unfold rel. cbn [mach mstart]. rewrite E. destruct (vstart f); auto. apply same_wt; auto. Qed.

  Lemma fsound_props_reweight f : fsound f -> fsound (set_properties_with_mask f (reweight_properties (vprops f)) all_properties).
  Proof.
    intros H b Hb. apply H. unfold set_properties_with_mask, reweight_properties in *. cbn [vprops with_props] in Hb.
    revert Hb. rewrite has_lor, !has_land. intros Hb. apply orb_true_iff in Hb as [Hb|Hb]; apply andb_true_iff in Hb as [Hb Hb'].
    - exact Hb.
    - revert Hb. rewrite ?has_pclr, ?has_pkeep, ?has_land. intros Hb. repeat (apply andb_true_iff in Hb as [Hb ?]); auto.
  Qed.

  Lemma reweight_all d rt f : closed f -> fsound f ->
    (forall s t, In t (trs_of f s) -> pot d s <> 0 -> pot d (ns t) <> 0 ->
       exists c, new_weight divide d rt s t = Some (Ok c)) ->
    (rt = ToInitial -> forall s w, fin_of f s = Some w -> pot d s <> 0 -> exists c, divide w (pot d s) DivideLeft = Ok c) ->
    (forall a, vstart f = Some a -> pot d a <> 0 -> pot d a <> 1 -> exists c, start_factor divide d rt a = Ok c) ->
    exists h g, reweight divide f d rt = Ok g /\ eff f h /\ closed h /\
      (forall q, trs_of h q = trs_after d rt f q) /\ (forall q, fin_of h q = fin_after d rt f q) /\
      closed g /\ fsound g /\ (cnt f -> cnt g) /\ visymt g = visymt f /\ vosymt g = vosymt f /\
      ((forall a, vstart f = Some a -> pot d a = 1 \/ pot d a = 0) /\ same_mach h g \/
       exists a c, vstart f = Some a /\ pot d a <> 0 /\ pot d a <> 1 /\ start_factor divide d rt a = Ok c /\ started c a h g).
  Proof.
    intros C Sd H1 H2 H3. unfold reweight. destruct (Nat.eqb_spec (num_states f) 0) as [Z|Z].
    - exists f, f. split; auto. split; [apply eff_refl|]. split; auto.
      assert (T : forall q, trs_of f q = []) by (intros; apply trs_of_oob; lia).
      assert (F : forall q, fin_of f q = None) by (intros; apply fin_of_beyond; lia).
      split; [intros q; unfold trs_after; rewrite T; destruct (is_zero _); auto|].
      split; [intros q; unfold fin_after; rewrite F; destruct rt; auto; destruct (is_zero _); auto|].
      split; auto. split; auto. split; auto. split; auto. split; auto. left. split; [|repeat split; auto].
      intros a Ha. apply (proj2 C) in Ha. lia.
    - destruct (reweight_loops d rt f H1 H2) as (h & E & Ef & T & F & S).
      destruct (rfold (reweight_state divide d rt) (seq 0 (num_states f)) f) as [h0| |]; cbn [rbind] in E |- *; try discriminate.
      rewrite E. cbn [rbind]. exists h.
      assert (Ch : closed h).
      { destruct Ef as (E1 & E2 & _). split; rewrite E1; [|rewrite E2; apply C]. intros s t. rewrite T. unfold trs_after.
        destruct (is_zero _); [apply C|]. intros Ht. apply in_map_iff in Ht as (u & <- & Hu). rewrite rewt_ns. apply (proj1 C _ _ Hu). }
      assert (N : (forall a, vstart f = Some a -> pot d a = 1 \/ pot d a = 0) -> reweight_start divide d rt h = Ok h).
      { intros X. unfold reweight_start. rewrite (proj1 (proj2 Ef)). destruct (vstart f) as [a|]; auto.
        unfold is_one, is_zero. destruct (X a eq_refl) as [-> | ->]; rewrite (keqb_refl L), ?andb_false_r; auto. }
      assert (Y : (forall a, vstart f = Some a -> pot d a = 1 \/ pot d a = 0) \/
         exists a, vstart f = Some a /\ pot d a <> 0 /\ pot d a <> 1).
      { destruct (vstart f) as [a|]; [|left; discriminate]. destruct (keqb (pot d a) 0) eqn:Z0; [apply (keqb_true L) in Z0|apply (keqb_false L) in Z0].
        - left. intros b Hb. injection Hb as <-. auto.
        - destruct (keqb (pot d a) 1) eqn:Z1; [apply (keqb_true L) in Z1|apply (keqb_false L) in Z1].
          + left. intros b Hb. injection Hb as <-. auto.
          + right. eauto. }
      destruct Y as [Y|(a & Ea & Y0 & Y1)].
      + rewrite (N Y). cbn [rbind]. eexists. split; [reflexivity|]. split; auto. split; auto. split; auto. split; auto.
        split; [exact Ch|]. split; [apply fsound_props_reweight; auto|]. destruct Ef as (E1 & E2 & E3 & E4 & E5).
        split; [exact E5|]. split; [exact E3|]. split; [exact E4|]. left. split; auto. repeat split; auto.
      + destruct (H3 a Ea Y0 Y1) as (c & Ec). pose proof Ef as (E1 & E2 & E3 & E4 & E5).
        destruct (reweight_start_eff d rt h a c Ch (S Sd) ltac:(congruence) Y1 Y0 Ec) as (g & -> & G1 & G2 & G3 & G4 & G5). cbn [rbind].
        eexists. split; [reflexivity|]. split; auto. split; auto. split; auto. split; auto.
        split; [apply (started_closed c a h g); auto; congruence|]. split; [apply fsound_props_reweight; auto|].
        split; [intros; apply G3; auto|]. split; [cbn; congruence|]. split; [cbn; congruence|].
        right. exists a, c. auto 6.
  Qed.

  (** ** Removing the total weight *)
  Lemma remove_initial f b w : closed f -> vstart f = Some b -> w <> 1 -> w <> 0 -> ~ on_cycle (mach f) b ->
    (forall t, In t (trs_of f b) -> exists c, divide (wgt t) w DivideLeft = Ok c /\ w * c = wgt t) ->
    (forall v, fin_of f b = Some v -> exists c, divide v w DivideLeft = Ok c /\ w * c = v) ->
    exists g, remove_weight divide f w false = Ok g /\ eff f g /\ closed g /\ (fsound f -> fsound g) /\
      (forall k x y, rel (mach f) k x y = w * rel (mach g) k x y) /\
      (forall q, q <> b -> trs_of g q = trs_of f q) /\ (forall q, q <> b -> fin_of g q = fin_of f q).
  Proof.
    intros C Eb N1 N0 NC Ht Hf. unfold remove_weight.
    assert (is_one w || is_zero w = false) as ->.
    { apply orb_false_iff. split; apply (keqb_false L); auto. }
    rewrite Eb. assert (Hb : (b < num_states f)%nat) by (apply C; auto).
    destruct (set_weights_eff (fun t => Some (divide (wgt t) w DivideLeft)) f b Hb) as (g & -> & G1 & G2 & G3 & G4).
    { intros t X. right. destruct (Ht t X) as (c & -> & _). eauto. }
    cbn [rbind]. rewrite G3.
    assert (Fin : exists g', match fin_of f b with Some v => u <-- divide v w DivideLeft ;; set_final g b u | None => Ok g end = Ok g' /\ eff g g' /\
       (forall q, trs_of g' q = trs_of g q) /\ (forall q, q <> b -> fin_of g' q = fin_of g q) /\ fin_of f b = option_map (ktimes w) (fin_of g' b) /\ (fsound g -> fsound g')).
    { destruct (fin_of f b) as [v|] eqn:E.
      - destruct (Hf v eq_refl) as (c & -> & Ec). cbn [rbind]. destruct G1 as (N & _).
        destruct (set_final_eff g b c) as (g' & Eg & A & T & F); [lia|]. exists g'. split; auto. split; auto. split; auto.
        split; [intros q Hq; rewrite F, (proj2 (Nat.eqb_neq _ _) Hq); auto|].
        split; [rewrite F, Nat.eqb_refl; cbn; congruence|]. intros. eapply fsound_set_final; [..|exact Eg]; auto.
      - exists g. split; auto. split; [apply eff_refl|]. split; auto. split; auto. split; auto. rewrite G3, E. auto. }
    destruct Fin as (g' & Eg & E' & T & F & Fb & S). rewrite Eg. exists g'. split; auto. split; [eapply eff_trans; eauto|].
    assert (Tg : forall q, trs_of g' q = if q =? b then map (rewt (fun t => Some (divide (wgt t) w DivideLeft))) (trs_of f b) else trs_of f q) by (intros q; rewrite T; apply G2).
    assert (Ng : num_states g' = num_states f) by (rewrite (proj1 E'); apply G1).
    assert (Sg : vstart g' = vstart f) by (rewrite (proj1 (proj2 E')); apply G1).
    split; [|split; [auto|split; [|split]]].
    - split; [|rewrite Sg, Ng; apply C]. intros s t. rewrite Tg, Ng. destruct (Nat.eqb_spec s b) as [->|]; [|apply C].
      intros X. apply in_map_iff in X as (u & <- & Hu). rewrite rewt_ns. apply (proj1 C _ _ Hu).
    - assert (Re : forall p q, reach (mach g') p q -> reach (mach f) p q).
      { induction 1 as [|s t u X _ IH]; [constructor|]. cbn [mach mtrs] in X. rewrite Tg in X.
        destruct (Nat.eqb_spec s b) as [->|]; [|econstructor; eauto]. apply in_map_iff in X as (v & <- & Hv). rewrite rewt_ns in IH. econstructor; eauto. }
      apply (start_scale (mach g') (mach f) b w); cbn [mach mstart mtrs mfin]; auto; try congruence.
      + intros (t & X & R). apply NC. cbn [mach mtrs] in X. rewrite Tg, Nat.eqb_refl in X. apply in_map_iff in X as (v & <- & Hv).
        rewrite rewt_ns in R. exists v. split; auto.
      + rewrite Tg, Nat.eqb_refl, map_map. rewrite <- (map_id (trs_of f b)) at 1. apply map_ext_in. intros t X.
        destruct (Ht t X) as (c & Ec & Ew). unfold rewt. rewrite Ec. unfold scale, set_wgt. cbn [il ol wgt ns]. rewrite Ew. destruct t; auto.
      + intros q Hq. rewrite Tg, (proj2 (Nat.eqb_neq _ _) Hq). auto.
      + intros q Hq. rewrite F, G3 by auto. auto.
    - intros q Hq. rewrite Tg, (proj2 (Nat.eqb_neq _ _) Hq). auto.
    - intros q Hq. rewrite F, G3 by auto. auto.
  Qed.
End R.

Section R2.
  Context {K : SR} (L : sr_laws K).
  Variable divide : K -> K -> divide_type -> res K.
  Implicit Types (f g h : vfst K).
  Local Open Scope K_scope.

  Lemma remove_final f w : closed f -> w <> 1 -> w <> 0 ->
    (forall s v, fin_of f s = Some v -> exists c, divide v w DivideRight = Ok c /\ c * w = v) ->
    exists g, remove_weight divide f w true = Ok g /\ eff f g /\ closed g /\ (fsound f -> fsound g) /\
      (forall k x y, rel (mach f) k x y = rel (mach g) k x y * w) /\
      (forall q, trs_of g q = trs_of f q).
  Proof.
    intros C N1 N0 Hf. unfold remove_weight.
    assert (is_one w || is_zero w = false) as ->.
    { apply orb_false_iff. split; apply (keqb_false L); auto. }
    set (F := fun s => match fin_of f s with Some v => match divide v w DivideRight with Ok c => Some c | _ => None end | None => None end).
    destruct (rfold_local (fun g s => match fin_of g s with Some v => u <-- divide v w DivideRight ;; set_final g s u | None => Ok g end) f (trs_of f) F)
      as (g & -> & E & H & S).
    { intros h s Hs Hn _ Et Ef. rewrite Ef. unfold F. destruct (fin_of f s) as [v|] eqn:Ev.
      - destruct (Hf s v Ev) as (c & Ec & _). rewrite Ec. cbn [rbind].
        destruct (set_final_eff h s c) as (g & Eg & A & T & B); [lia|]. rewrite Eg. exists g. split; auto. split; auto.
        split; [intros q; rewrite T, <- Et; symmetry; apply if_same|]. split; auto. intros. eapply (fsound_set_final L); [..|exact Eg]; auto.
      - exists h. split; auto. split; [apply eff_refl|]. rewrite <- Et, <- Ef. split; [|split; auto]; intros; symmetry; apply if_same. }
    assert (T : forall q, trs_of g q = trs_of f q).
    { intros q. destruct (Nat.lt_ge_cases q (num_states f)); [apply H; auto|]. rewrite !trs_of_oob; auto. rewrite (proj1 E). auto. }
    assert (Fg : forall q, fin_of g q = F q).
    { intros q. destruct (Nat.lt_ge_cases q (num_states f)); [apply H; auto|]. unfold F. rewrite !fin_of_beyond; auto. rewrite (proj1 E). auto. }
    exists g. split; auto. split; auto. split; [split; rewrite (proj1 E); [intros s t; rewrite T; apply C|rewrite (proj1 (proj2 E)); apply C]|].
    split; auto. split; auto.
    assert (W : forall k s x y, wt (mach f) k s x y = wt (mach g) k s x y * w).
    { induction k as [|k IH]; intros s x y; cbn [wt mach mtrs mfin]; rewrite ?T, ?Fg.
      - destruct (isnil x && isnil y); [|symmetry; apply (ktimes_0_l _ L)]. unfold F.
        destruct (fin_of f s) as [v|] eqn:Ev; [|symmetry; apply (ktimes_0_l _ L)]. destruct (Hf s v Ev) as (c & -> & Ec). auto.
      - rewrite (ksum_times_r L), map_map. apply ksum_map_ext. intros t _.
        destruct (strip (il t) x); [|symmetry; apply (ktimes_0_l _ L)]. destruct (strip (ol t) y); [|symmetry; apply (ktimes_0_l _ L)].
        rewrite <- (ktimes_assoc _ L). f_equal. apply IH. }
    intros k x y. unfold rel. cbn [mach mstart]. rewrite (proj1 (proj2 E)). destruct (vstart f); [apply W|symmetry; apply (ktimes_0_l _ L)].
  Qed.
End R2.
