(** What [weight_convert] builds. *)
From Coq Require Import List Arith NArith Bool Lia.
From Verif Require Import Base.Util Base.Semiring Base.Machine Model.Props Model.VectorFst Model.Rational Model.ShortestPath Model.TrMap
  Proofs.VectorFacts Proofs.DelStates Proofs.VectorProps Proofs.TrOpsFacts Proofs.HistoryFacts Proofs.OpFacts Proofs.RationalFacts Proofs.TrMapFacts.
Import ListNotations.

Section C.
  Context {S : Type} {K1 K2 : SR} (mu : mapper S K1 K2).

  (** Where the mapped final weight goes; [N] is the number of the super-final state. *)
  Definition converted (a : final_action) (N : nat) (v : list (tr K2) * option (ftr K2)) : list (tr K2) * option K2 :=
    match snd v with
    | None => (fst v, None)
    | Some t =>
        match a with
        | MapNoSuperfinal => (fst v, Some (fwt t))
        | MapAllowSuperfinal => if labelled t then (fst v ++ [to_super t N], None) else (fst v, Some (fwt t))
        | MapRequireSuperfinal =>
            if labelled t || negb (keqb (fwt t) (@kzero K2)) then (fst v ++ [to_super t N], None) else (fst v, None)
        end
    end.

  Lemma conv_trs_ok (l : list (tr K1)) s : forall (g : vfst K2) sg, cnt g -> s < num_states g ->
    match mapl (m_tr mu) sg l with
    | Ok (sg', l') => exists h, conv_trs mu g sg s l = Ok (h, sg') /\ eff g h /\
        (forall q, trs_of h q = if q =? s then trs_of g s ++ l' else trs_of g q) /\ (forall q, fin_of h q = fin_of g q)
    | Err => conv_trs mu g sg s l = Err
    | Panic => conv_trs mu g sg s l = Panic
    end.
  Proof.
    unfold conv_trs. induction l as [|t l IH]; intros g sg C Hs; cbn [mapl].
    - exists g. split; auto. split; [apply eff_refl|]. split; auto. intros q. rewrite app_nil_r, if_same. auto.
    - rewrite rfold_cons. cbn [fst snd]. destruct (m_tr mu sg t) as [[sg1 t']| |]; cbn [rbind fst snd]; auto.
      destruct (add_tr_eff g s t' Hs) as (h & E1 & E2 & E3 & E4). rewrite E1. cbn [rbind].
      pose proof (eff_n _ _ E2) as En. specialize (IH h sg1 (proj2 (proj2 (proj2 (proj2 E2))) C)). rewrite En in IH. specialize (IH Hs).
      destruct (mapl (m_tr mu) sg1 l) as [[sg2 l']| |]; auto. destruct IH as (k & A & B & D & F). exists k. split; auto.
      split; [eapply eff_trans; eauto|]. split; [|intros q; rewrite F; auto].
      intros q. rewrite D, !E3, Nat.eqb_refl. destruct (q =? s); auto. rewrite <- app_assoc. auto.
  Qed.

  Definition csup_ok (N : nat) (g : vfst K2) (sup : option nat) : Prop :=
    match sup with
    | None => num_states g = N /\ is_require (m_action mu) = false
    | Some q => q = N /\ num_states g = Datatypes.S N /\ cont g N = ([], Some (@kone K2)) /\ is_no (m_action mu) = false
    end.

  Lemma conv_final_ok N (g : vfst K2) sup s t : cnt g -> csup_ok N g sup -> s < N -> fin_of g s = None ->
    if is_no (m_action mu) && labelled t then conv_final mu g sup s t = Err
    else exists h sup', conv_final mu g sup s t = Ok (h, sup') /\ cnt h /\ tables g h /\ csup_ok N h sup' /\
      cont h s = converted (m_action mu) N (trs_of g s, Some t) /\
      (forall q, q <> s -> q <> N -> cont h q = cont g q) /\
      (sup' = Some N <-> sup = Some N \/ (is_allow (m_action mu) = true /\ labelled t = true)).
  Proof.
    intros C I HsN Fs. assert (Hs : s < num_states g) by (unfold csup_ok in I; destruct sup; [destruct I as (_ & I & _)|destruct I as [I _]]; lia).
    assert (NE : s <> N) by lia.
    unfold conv_final, converted. cbn [fst snd]. destruct (m_action mu) eqn:A; cbn [is_no is_allow is_require andb] in *.
    - destruct (labelled t); auto. destruct (set_final_eff g s (fwt t) Hs) as (h & E1 & (D1 & D2 & D3 & D4 & D5) & E3 & E4).
      rewrite (unwrap_ok _ _ E1). cbn [rbind]. exists h, sup. split; auto. split; auto. split; [repeat split; auto|].
      unfold csup_ok in *. rewrite A in *. cbn [is_no is_require] in *.
      destruct sup as [q|]; [destruct I as (_ & _ & _ & [=])|]. split; [split; [destruct I; congruence|auto]|].
      split; [unfold cont; rewrite E3, E4, Nat.eqb_refl; auto|]. split.
      + intros q Hq _. unfold cont. rewrite E3, E4, (proj2 (Nat.eqb_neq _ _) Hq). auto.
      + split; [discriminate|]. intros [H|[H _]]; discriminate.
    - destruct (labelled t) eqn:Lt.
      + assert (X : exists x h0, match sup with
            | Some q => Ok (g, q)
            | None => let (h, q) := add_state g in h <-- unwrap (set_final h q (@kone K2)) ;; Ok (h, q)
            end = Ok x /\ x = (h0, N) /\ num_states h0 = Datatypes.S N /\ cnt h0 /\ tables g h0 /\ cont h0 N = ([], Some (@kone K2)) /\
            (forall q, q <> N -> cont h0 q = cont g q)).
        { destruct sup as [q|].
          - destruct I as (-> & I1 & I2 & _). exists (g, N), g. repeat split; auto.
          - destruct I as [I1 _]. destruct (add_super g C) as (h & E1 & E2 & E3 & E4 & E5 & E6 & E7).
            rewrite I1 in *. exists (h, N), h. split; auto. split; auto. split; auto. split; auto. split; auto. split; auto.
            intros q Hq. unfold cont. rewrite E6, E7; auto. }
        destruct X as (x & h0 & -> & -> & X1 & X2 & X3 & X4 & X5). cbn [rbind fst snd].
        assert (Hs0 : s < num_states h0) by lia.
        destruct (add_tr_eff h0 s (to_super t N) Hs0) as (h1 & E1 & F1 & E3 & E4). rewrite E1. cbn [rbind].
        destruct (del_final_eff h1 s) as (h2 & G1 & F2 & G3 & G4); [rewrite (eff_n _ _ F1); auto|].
        rewrite G1. cbn [rbind]. exists h2, (Some N). split; auto.
        destruct F1 as (D1 & D2 & D3 & D4 & D5), F2 as (D1' & D2' & D3' & D4' & D5'), X3 as (T1 & T2 & T3).
        split; auto. split; [repeat split; congruence|]. split.
        { unfold csup_ok. split; auto. split; [lia|]. split; [|rewrite A; auto]. unfold cont. rewrite G3, G4, E3, E4.
          rewrite (proj2 (Nat.eqb_neq N s)) by auto. exact X4. }
        split; [|split].
        * unfold cont. rewrite G3, G4, E3, !Nat.eqb_refl. f_equal. f_equal.
          assert (Y : cont h0 s = cont g s) by auto. unfold cont in Y. congruence.
        * intros q Hq HN. rewrite <- X5 by auto. unfold cont. rewrite G3, G4, E3, E4, (proj2 (Nat.eqb_neq _ _) Hq). auto.
        * split; auto.
      + destruct (set_final_eff g s (fwt t) Hs) as (h & E1 & (D1 & D2 & D3 & D4 & D5) & E3 & E4).
        rewrite E1. cbn [rbind]. exists h, sup. split; auto. split; auto. split; [repeat split; auto|].
        split; [|split; [|split]].
        * unfold csup_ok in *. rewrite A in *. cbn [is_no is_require] in *. destruct sup as [q|].
          -- destruct I as (-> & I1 & I2 & _). split; auto. split; [lia|]. split; auto. unfold cont in *.
             rewrite E3, E4, (proj2 (Nat.eqb_neq N s)) by auto. auto.
          -- destruct I. split; [lia|auto].
        * unfold cont. rewrite E3, E4, Nat.eqb_refl. auto.
        * intros q Hq _. unfold cont. rewrite E3, E4, (proj2 (Nat.eqb_neq _ _) Hq). auto.
        * split; auto. intros [H|[_ H]]; [auto|discriminate].
    - unfold csup_ok in I. rewrite A in I. cbn [is_no is_require] in I. destruct sup as [q|]; [|destruct I; discriminate].
      destruct I as (-> & I1 & I2 & _).
      assert (X : exists h1, (if labelled t || negb (keqb (fwt t) (@kzero K2)) then unwrap (add_tr g s (to_super t N)) else Ok g) = Ok h1 /\ eff g h1 /\
        (forall q, trs_of h1 q = if q =? s then (if labelled t || negb (keqb (fwt t) (@kzero K2)) then trs_of g s ++ [to_super t N] else trs_of g s) else trs_of g q) /\
        (forall q, fin_of h1 q = fin_of g q)).
      { destruct (labelled t || negb (keqb (fwt t) (@kzero K2))).
        - destruct (add_tr_eff g s (to_super t N) Hs) as (h1 & E1 & F1 & E3 & E4). rewrite (unwrap_ok _ _ E1). eauto.
        - exists g. split; auto. split; [apply eff_refl|]. split; auto. intros q. rewrite if_same. auto. }
      destruct X as (h1 & -> & F1 & E3 & E4). cbn [rbind].
      destruct (del_final_eff h1 s) as (h2 & G1 & F2 & G3 & G4); [rewrite (eff_n _ _ F1); auto|].
      rewrite (unwrap_ok _ _ G1). cbn [rbind]. exists h2, (Some N). split; auto.
      destruct F1 as (D1 & D2 & D3 & D4 & D5), F2 as (D1' & D2' & D3' & D4' & D5').
      split; auto. split; [repeat split; congruence|]. split; [|split; [|split]].
      + unfold csup_ok. split; auto. split; [lia|]. split; [|rewrite A; auto]. unfold cont. rewrite G3, G4, E3, E4.
        rewrite (proj2 (Nat.eqb_neq N s)) by auto. exact I2.
      + unfold cont. rewrite G3, G4, E3, !Nat.eqb_refl. destruct (labelled t || negb (keqb (fwt t) (@kzero K2))); auto.
      + intros q Hq _. unfold cont. rewrite G3, G4, E3, E4, (proj2 (Nat.eqb_neq _ _) Hq). auto.
      + split; auto.
  Qed.

  Variable f : vfst K1.
  Let N := num_states f.

  Lemma conv_state_ok g sup sg s : cnt g -> csup_ok N g sup -> s < N -> cont g s = ([], None) ->
    match visit mu sg (cont f s) with
    | Ok (sg', v) =>
        if is_no (m_action mu) && final_labelled v then conv_state mu f (g, sup, sg) s = Err
        else exists h sup', conv_state mu f (g, sup, sg) s = Ok (h, sup', sg') /\ cnt h /\ tables g h /\ csup_ok N h sup' /\
          cont h s = converted (m_action mu) N v /\
          (forall q, q <> s -> q <> N -> cont h q = cont g q) /\
          (sup' = Some N <-> sup = Some N \/ (is_allow (m_action mu) = true /\ final_labelled v = true))
    | _ => ~ isOk (conv_state mu f (g, sup, sg) s)
    end.
  Proof.
    intros C I HsN E0. assert (Hs : s < num_states g) by (unfold csup_ok in I; destruct sup; [destruct I as (_ & I & _)|destruct I as [I _]]; lia).
    unfold visit, conv_state. cbn [fst snd cont].
    pose proof (conv_trs_ok (trs_of f s) s g sg C Hs) as X. destruct (mapl (m_tr mu) sg (trs_of f s)) as [[sg1 l]| |] eqn:EM.
    2,3: rewrite X; intros [y Hy]; discriminate.
    assert (E01 : trs_of g s = []) by (unfold cont in E0; congruence). assert (E02 : fin_of g s = None) by (unfold cont in E0; congruence).
    destruct X as (g1 & E1 & F1 & T1 & N1). rewrite E1. cbn [rbind fst snd]. rewrite E01 in T1. cbn [app] in T1.
    destruct F1 as (D1 & D2 & D3 & D4 & D5).
    assert (CC : forall q, q <> s -> cont g1 q = cont g q).
    { intros q Hq. unfold cont. rewrite T1, N1, (proj2 (Nat.eqb_neq _ _) Hq). auto. }
    assert (IN : csup_ok N g1 sup).
    { unfold csup_ok in *. rewrite D1. destruct sup; auto. rewrite CC by lia. auto. }
    destruct (fin_of f s) as [w|] eqn:Fs.
    - destruct (m_fin mu sg1 (FT 0 0 w)) as [[sg2 t]| |] eqn:EF; cbn [rbind fst snd]; try (intros [y Hy]; discriminate).
      pose proof (conv_final_ok N g1 sup s t (D5 C) IN HsN) as P. rewrite N1 in P. specialize (P E02). unfold final_labelled. cbn [snd].
      destruct (is_no (m_action mu) && labelled t); [rewrite P; auto|].
      destruct P as (h & sup' & -> & P1 & (P2 & P3 & P4) & P5 & P6 & P7 & P8). cbn [rbind]. exists h, sup'. split; auto. split; auto.
      split; [repeat split; congruence|]. split; auto. split; [|split; auto].
      + rewrite P6, T1, Nat.eqb_refl. auto.
      + intros q Hq HN. rewrite P7, CC; auto.
    - unfold final_labelled. cbn [snd]. rewrite andb_false_r. exists g1, sup. split; auto. split; auto. split; [repeat split; auto|].
      split; auto. split; [unfold converted, cont; cbn [fst snd]; rewrite T1, N1, Nat.eqb_refl, E02; auto|]. split; auto.
      split; auto. intros [H|[_ H]]; [auto|discriminate].
  Qed.

  Lemma conv_states_ok m : forall k g sup sg, cnt g -> csup_ok N g sup -> k + m = N -> (forall q, k <= q -> q < N -> cont g q = ([], None)) ->
    match mapl (visit mu) sg (map (cont f) (seq k m)) with
    | Ok (sg', out) =>
        if is_no (m_action mu) && existsb final_labelled out then rfold (conv_state mu f) (seq k m) (g, sup, sg) = Err
        else exists h sup', rfold (conv_state mu f) (seq k m) (g, sup, sg) = Ok (h, sup', sg') /\ cnt h /\ tables g h /\ csup_ok N h sup' /\
          length out = m /\
          (forall i v, nth_error out i = Some v -> cont h (k + i) = converted (m_action mu) N v) /\
          (forall q, q < k -> cont h q = cont g q) /\
          (sup' = Some N <-> sup = Some N \/ (is_allow (m_action mu) = true /\ existsb final_labelled out = true))
    | _ => ~ isOk (rfold (conv_state mu f) (seq k m) (g, sup, sg))
    end.
  Proof.
    induction m as [|m IH]; intros k g sup sg C I Hk Hc; cbn [seq map mapl].
    - cbn [existsb]. rewrite andb_false_r. exists g, sup. split; auto. split; auto. split; [repeat split; auto|]. split; auto. split; auto.
      split; [intros [|i] v [=]|]. split; auto. split; auto. intros [H|[_ H]]; [auto|discriminate].
    - pose proof (conv_state_ok g sup sg k C I ltac:(lia) (Hc k ltac:(lia) ltac:(lia))) as P.
      rewrite rfold_cons. destruct (visit mu sg (cont f k)) as [[sg1 v]| |].
      2,3: intros [y Hy]; destruct (conv_state mu f (g, sup, sg) k) as [z| |]; try discriminate; apply P; eexists; eauto.
      destruct (is_no (m_action mu) && final_labelled v) eqn:EN.
      { rewrite P. cbn [rbind]. destruct (mapl (visit mu) sg1 _) as [[sg2 out]| |]; try (intros [y Hy]; discriminate).
        apply andb_true_iff in EN as [-> EN]. cbn [existsb]. rewrite EN. cbn [orb andb]. auto. }
      destruct P as (h & sup1 & -> & P1 & P2 & P3 & P4 & P5 & P6). cbn [rbind].
      assert (Hc1 : forall q, Datatypes.S k <= q -> q < N -> cont h q = ([], None)) by (intros q H1 H2; rewrite P5 by lia; apply Hc; lia).
      specialize (IH (Datatypes.S k) h sup1 sg1 P1 P3 ltac:(lia) Hc1).
      destruct (mapl (visit mu) sg1 _) as [[sg2 out]| |]; auto. cbn [existsb].
      assert (is_no (m_action mu) && (final_labelled v || existsb final_labelled out) = is_no (m_action mu) && existsb final_labelled out) as ->.
      { destruct (is_no (m_action mu)); auto. cbn in EN. rewrite EN. auto. }
      destruct (is_no (m_action mu) && existsb final_labelled out); auto.
      destruct IH as (h2 & sup2 & Q1 & Q2 & (Q3 & Q4 & Q5) & Q6 & Q7 & Q8 & Q9 & Q10). exists h2, sup2. split; auto. split; auto.
      destruct P2 as (T1 & T2 & T3). split; [repeat split; congruence|]. split; auto. split; [cbn; auto|]. split; [|split].
      + intros [|i] v0 Hv; cbn in Hv.
        * injection Hv as ->. rewrite Nat.add_0_r, Q9 by lia. auto.
        * replace (k + Datatypes.S i) with (Datatypes.S k + i) by lia. apply Q8; auto.
      + intros q Hq. rewrite Q9, P5 by lia. auto.
      + rewrite Q10, P6. destruct (final_labelled v); cbn [orb]; intuition discriminate.
  Qed.

  Lemma new_states n : let g := Nat.iter n (fun h => fst (add_state h)) (@vnew K2) in
    num_states g = n /\ cnt g /\ (forall q, cont g q = ([], None)).
  Proof.
    induction n as [|n (A & B & D)]; cbn [Nat.iter nat_rect].
    - split; auto. split; [constructor|]. intros [|q]; auto.
    - cbv zeta. fold (Nat.iter n (fun h => fst (add_state h)) (@vnew K2)) in *. destruct (add_state_eff (Nat.iter n (fun h => fst (add_state h)) (@vnew K2))) as (B1 & B2 & B3 & B4 & B5 & B6 & B7 & B8).
      split; [rewrite <- A at 2; exact B2|]. split; [apply B6, B|]. intros q. unfold cont. specialize (D q). unfold cont in D.
      injection D as D1 D2. exact (f_equal2 pair (eq_trans (B7 q) D1) (eq_trans (B8 q) D2)).
  Qed.
End C.
