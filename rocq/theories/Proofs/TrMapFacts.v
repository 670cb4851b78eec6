(** What [tr_map] and [weight_convert] do to the content of a machine. *)
From Coq Require Import List Arith NArith Bool Lia.
From Verif Require Import Base.Util Base.Semiring Base.Machine Model.Props Model.VectorFst Model.Rational Model.ShortestPath Model.TrMap
  Proofs.VectorFacts Proofs.DelStates Proofs.VectorProps Proofs.TrOpsFacts Proofs.HistoryFacts Proofs.OpFacts Proofs.RationalFacts.
Import ListNotations.

(** ** Specification vocabulary *)
(** A list mapped left to right with a state carried along. *)
Fixpoint mapl {S A B} (h : S -> A -> res (S * B)) (sg : S) (l : list A) : res (S * list B) :=
  match l with
  | [] => Ok (sg, [])
  | a :: l' =>
      match h sg a with
      | Ok (sg1, b) => match mapl h sg1 l' with Ok (sg2, bs) => Ok (sg2, b :: bs) | Err => Err | Panic => Panic end
      | Err => Err
      | Panic => Panic
      end
  end.
(** The content of a state and of all the states. *)
Definition cont {K : SR} (f : vfst K) (s : nat) : list (tr K) * option K := (trs_of f s, fin_of f s).
Definition content {K : SR} (f : vfst K) : list (list (tr K) * option K) := map (cont f) (seq 0 (num_states f)).

Section Spec.
  Context {S : Type} {K1 K2 : SR} (mu : mapper S K1 K2).
  (** A state shown to the mapper: every transition once, in order, then the final weight if any. *)
  Definition visit (sg : S) (c : list (tr K1) * option K1) : res (S * (list (tr K2) * option (ftr K2))) :=
    match mapl (m_tr mu) sg (fst c) with
    | Ok (sg1, l) =>
        match snd c with
        | None => Ok (sg1, (l, None))
        | Some w => match m_fin mu sg1 (FT 0 0 w) with Ok (sg2, t) => Ok (sg2, (l, Some t)) | Err => Err | Panic => Panic end
        end
    | Err => Err
    | Panic => Panic
    end.
End Spec.
Definition final_labelled {K : SR} (v : list (tr K) * option (ftr K)) : bool :=
  match snd v with Some t => labelled t | None => false end.
Definition is_no (a : final_action) : bool := match a with MapNoSuperfinal => true | _ => false end.
Definition is_allow (a : final_action) : bool := match a with MapAllowSuperfinal => true | _ => false end.
Definition is_require (a : final_action) : bool := match a with MapRequireSuperfinal => true | _ => false end.

Section M.
  Context {S : Type} {K : SR} (mu : mapper S K K).
  Implicit Types (f g h : vfst K).

  Lemma iter_set_tr_eff f s i (o t : tr K) : cnt f -> s < num_states f -> nth_error (trs_of f s) i = Some o ->
    exists g, iter_set_tr f s i t = Ok g /\ eff f g /\
      (forall q, trs_of g q = if q =? s then upd (trs_of f s) i t else trs_of f q) /\ (forall q, fin_of g q = fin_of f q).
  Proof.
    intros C Hs Ht. destruct (nth_state f s Hs) as (st & E & E1 & E2). rewrite E1 in Ht.
    destruct t as [a b w q]. destruct (iter_cnt st i o a b w q (cnt_nth _ _ _ C E) Ht) as (ni & no & N1 & N2 & N3).
    unfold iter_set_tr, get_state. rewrite E. cbn [rbind]. rewrite Ht. cbn [il ol]. rewrite N1, N2. cbn [rbind].
    eexists. split; [reflexivity|]. split; [|split].
    - apply eff_upd. auto.
    - intros q0. rewrite trs_of_upd, E1; auto.
    - intros q0. rewrite fin_of_upd by auto. cbn [vfin]. rewrite <- E2. apply if_same.
  Qed.

  (** The transitions of a state. *)
  Lemma map_trs_ok f sg s : cnt f -> s < num_states f ->
    match mapl (m_tr mu) sg (trs_of f s) with
    | Ok (sg', l) => exists g, map_trs mu f sg s = Ok (g, sg') /\ eff f g /\
        (forall q, trs_of g q = if q =? s then l else trs_of f q) /\ (forall q, fin_of g q = fin_of f q)
    | Err => map_trs mu f sg s = Err
    | Panic => map_trs mu f sg s = Panic
    end.
  Proof.
    intros C Hs. unfold map_trs.
    set (step := fun (x : vfst K * S) i => match nth_error (trs_of (fst x) s) i with
      | None => Panic
      | Some t => y <-- m_tr mu (snd x) t ;; h <-- unwrap (iter_set_tr (fst x) s i (snd y)) ;; Ok (h, fst y)
      end).
    assert (G : forall suf pre h sg0, cnt h -> eff f h -> trs_of h s = pre ++ suf ->
        (forall q, q <> s -> trs_of h q = trs_of f q) -> (forall q, fin_of h q = fin_of f q) ->
        match mapl (m_tr mu) sg0 suf with
        | Ok (sg', l) => exists g, rfold step (seq (length pre) (length suf)) (h, sg0) = Ok (g, sg') /\ eff f g /\
          (forall q, trs_of g q = if q =? s then pre ++ l else trs_of f q) /\ (forall q, fin_of g q = fin_of f q)
        | Err => rfold step (seq (length pre) (length suf)) (h, sg0) = Err
        | Panic => rfold step (seq (length pre) (length suf)) (h, sg0) = Panic
        end).
    { induction suf as [|t suf IH]; intros pre h sg0 Ch Eh Th To Fh; cbn [mapl length seq].
      - exists h. split; auto. split; auto. split; auto. intros q. destruct (Nat.eqb_spec q s) as [->|]; auto.
      - assert (Nt : nth_error (trs_of h s) (length pre) = Some t) by (rewrite Th, nth_error_app2, Nat.sub_diag by lia; auto).
        assert (ST : step (h, sg0) (length pre) = (y <-- m_tr mu sg0 t ;; h1 <-- unwrap (iter_set_tr h s (length pre) (snd y)) ;; Ok (h1, fst y))).
        { unfold step. cbn [fst snd]. rewrite Nt. auto. }
        rewrite rfold_cons, ST. destruct (m_tr mu sg0 t) as [[sg1 t']| |]; cbn [rbind fst snd]; auto.
        destruct (iter_set_tr_eff h s (length pre) t t') as (h1 & E1 & E2 & E3 & E4); auto.
        { rewrite (eff_n _ _ Eh). auto. }
        rewrite (unwrap_ok _ _ E1). cbn [rbind].
        specialize (IH (pre ++ [t']) h1 sg1). rewrite app_length in IH. cbn [length] in IH. rewrite Nat.add_1_r in IH.
        assert (X : trs_of h1 s = (pre ++ [t']) ++ suf).
        { rewrite E3, Nat.eqb_refl, Th, upd_app_r, Nat.sub_diag, <- app_assoc by lia. reflexivity. }
        specialize (IH (proj2 (proj2 (proj2 (proj2 E2))) Ch) (eff_trans _ _ _ Eh E2) X).
        assert (X1 : forall q, q <> s -> trs_of h1 q = trs_of f q).
        { intros q Hq. rewrite E3, (proj2 (Nat.eqb_neq _ _) Hq). auto. }
        assert (X2 : forall q, fin_of h1 q = fin_of f q) by (intros q; rewrite E4; auto).
        specialize (IH X1 X2). destruct (mapl (m_tr mu) sg1 suf) as [[sg' l]| |]; auto.
        destruct IH as (g & A & B & D & F). exists g. split; auto. split; auto. split; auto.
        intros q. rewrite D, <- app_assoc. auto. }
    exact (G (trs_of f s) [] f sg C (eff_refl f) eq_refl (fun q _ => eq_refl) (fun q => eq_refl)).
  Qed.

  (** Where the mapped final weight goes: [N] is the number of the super-final state and [w] the
      final weight before. *)
  Definition placed (a : final_action) (N s : nat) (w : option K) (v : list (tr K) * option (ftr K)) : list (tr K) * option K :=
    match snd v with
    | None => (fst v, None)
    | Some t =>
        match a with
        | MapNoSuperfinal => (fst v, Some (fwt t))
        | MapAllowSuperfinal => if labelled t then (fst v ++ [to_super t N], None) else (fst v, Some (fwt t))
        | MapRequireSuperfinal =>
            if s =? N then (fst v, w)
            else if labelled t || negb (keqb (fwt t) (@kzero K)) then (fst v ++ [to_super t N], None)
            else (fst v, w)
        end
    end.

  Definition tables f g : Prop := vstart g = vstart f /\ visymt g = visymt f /\ vosymt g = vosymt f.
  Definition sup_ok (N : nat) g (sup : option nat) : Prop :=
    match sup with
    | None => num_states g = N /\ is_require (m_action mu) = false
    | Some q => q = N /\ num_states g = Datatypes.S N /\ cont g N = ([], Some (@kone K)) /\ is_no (m_action mu) = false
    end.

  Lemma add_super f : cnt f -> exists h, (let (h, q) := add_state f in h <-- unwrap (set_final h q (@kone K)) ;; Ok (h, q)) = Ok (h, num_states f) /\
    num_states h = Datatypes.S (num_states f) /\ cnt h /\ tables f h /\ cont h (num_states f) = ([], Some (@kone K)) /\
    (forall q, trs_of h q = trs_of f q) /\ (forall q, q <> num_states f -> fin_of h q = fin_of f q).
  Proof.
    intros C. destruct (add_state_eff f) as (B1 & B2 & B3 & B4 & B5 & B6 & B7 & B8).
    destruct (add_state f) as [h q]. cbn [fst snd] in *. subst q.
    destruct (set_final_eff h (num_states f) (@kone K)) as (k & E1 & (D1 & D2 & D3 & D4 & D5) & E3 & E4); [lia|].
    rewrite (unwrap_ok _ _ E1). cbn [rbind]. exists k. split; auto. split; [lia|]. split; auto.
    split; [repeat split; congruence|]. split.
    - unfold cont. rewrite E3, E4, Nat.eqb_refl, B7. f_equal. unfold trs_of.
      destruct (nth_error (vstates f) (num_states f)) eqn:X; auto.
      assert (num_states f < length (vstates f)) by (apply nth_error_Some; congruence). unfold num_states in *. lia.
    - split; [intros q; rewrite E3; auto|]. intros q Hq. rewrite E4, B8, (proj2 (Nat.eqb_neq _ _) Hq). auto.
  Qed.

  Lemma place_ok N g sup s w t : cnt g -> sup_ok N g sup -> s < num_states g -> fin_of g s = Some w -> (s = N -> trs_of g N = []) ->
    (s = N -> is_require (m_action mu) = true) ->
    if is_no (m_action mu) && labelled t then place_final mu g sup s t = Err
    else exists h sup', place_final mu g sup s t = Ok (h, sup') /\ cnt h /\ tables g h /\ sup_ok N h sup' /\
      cont h s = placed (m_action mu) N s (Some w) (trs_of g s, Some t) /\
      (forall q, q <> s -> q <> N -> cont h q = cont g q) /\
      (sup' = Some N <-> sup = Some N \/ (is_allow (m_action mu) = true /\ labelled t = true)).
  Proof.
    intros C I Hs Fs Ts Rs. unfold place_final, placed. cbn [fst snd]. destruct (m_action mu) eqn:A; cbn [is_no is_allow is_require andb] in *.
    - destruct (labelled t); auto. destruct (set_final_eff g s (fwt t) Hs) as (h & E1 & (D1 & D2 & D3 & D4 & D5) & E3 & E4).
      rewrite (unwrap_ok _ _ E1). cbn [rbind]. exists h, sup. split; auto. split; auto. split; [repeat split; auto|].
      unfold sup_ok in *. rewrite A in *. cbn [is_no is_require] in *.
      destruct sup as [q|]; [destruct I as (_ & _ & _ & [=])|]. split; [split; [destruct I; congruence|auto]|].
      split; [unfold cont; rewrite E3, E4, Nat.eqb_refl; auto|]. split.
      + intros q Hq _. unfold cont. rewrite E3, E4, (proj2 (Nat.eqb_neq _ _) Hq). auto.
      + split; [discriminate|]. intros [H|[H _]]; discriminate.
    - assert (NE : s <> N) by (intros ->; specialize (Rs eq_refl); discriminate).
      assert (match sup with Some q => q =? s | None => false end = false) as ->.
      { destruct sup as [q|]; auto. destruct I as [-> _]. apply Nat.eqb_neq. auto. }
      destruct (labelled t) eqn:Lt.
      + assert (X : exists x h0, match sup with
            | Some q => Ok (g, q)
            | None => let (h, q) := add_state g in h <-- unwrap (set_final h q (@kone K)) ;; Ok (h, q)
            end = Ok x /\ x = (h0, N) /\ num_states h0 = Datatypes.S N /\ cnt h0 /\ tables g h0 /\ cont h0 N = ([], Some (@kone K)) /\
            (forall q, q <> N -> cont h0 q = cont g q)).
        { destruct sup as [q|].
          - destruct I as (-> & I1 & I2 & _). exists (g, N), g. repeat split; auto.
          - destruct I as [I1 _]. destruct (add_super g C) as (h & E1 & E2 & E3 & E4 & E5 & E6 & E7).
            rewrite I1 in *. exists (h, N), h. split; auto. split; auto. split; auto. split; auto. split; auto. split; auto.
            intros q Hq. unfold cont. rewrite E6, E7; auto. }
        destruct X as (x & h0 & -> & -> & X1 & X2 & X3 & X4 & X5). cbn [rbind fst snd].
        assert (Hs0 : s < num_states h0).
        { destruct sup as [q|]; [destruct I as (_ & I & _)|destruct I as [I _]]; lia. }
        destruct (add_tr_eff h0 s (to_super t N) Hs0) as (h1 & E1 & F1 & E3 & E4). rewrite (unwrap_ok _ _ E1). cbn [rbind].
        destruct (del_final_eff h1 s) as (h2 & G1 & F2 & G3 & G4); [rewrite (eff_n _ _ F1); auto|].
        rewrite (unwrap_ok _ _ G1). cbn [rbind]. exists h2, (Some N). split; auto.
        destruct F1 as (D1 & D2 & D3 & D4 & D5), F2 as (D1' & D2' & D3' & D4' & D5'), X3 as (T1 & T2 & T3).
        split; auto. split; [repeat split; congruence|]. split.
        { unfold sup_ok. split; auto. split; [lia|]. split; [|rewrite A; auto]. unfold cont. rewrite G3, G4, E3, E4.
          rewrite (proj2 (Nat.eqb_neq N s)) by auto. exact X4. }
        split; [|split].
        * unfold cont. rewrite G3, G4, E3, !Nat.eqb_refl. f_equal. f_equal.
          assert (Y : cont h0 s = cont g s) by auto. unfold cont in Y. congruence.
        * intros q Hq HN. rewrite <- X5 by auto. unfold cont. rewrite G3, G4, E3, E4, (proj2 (Nat.eqb_neq _ _) Hq). auto.
        * split; auto.
      + destruct (set_final_eff g s (fwt t) Hs) as (h & E1 & (D1 & D2 & D3 & D4 & D5) & E3 & E4).
        rewrite (unwrap_ok _ _ E1). cbn [rbind]. exists h, sup. split; auto. split; auto. split; [repeat split; auto|].
        split; [|split; [|split]].
        * unfold sup_ok in *. rewrite A in *. cbn [is_no is_require] in *. destruct sup as [q|].
          -- destruct I as (-> & I1 & I2 & _). split; auto. split; [lia|]. split; auto. unfold cont in *.
             rewrite E3, E4, (proj2 (Nat.eqb_neq N s)) by auto. auto.
          -- destruct I. split; [lia|auto].
        * unfold cont. rewrite E3, E4, Nat.eqb_refl. auto.
        * intros q Hq _. unfold cont. rewrite E3, E4, (proj2 (Nat.eqb_neq _ _) Hq). auto.
        * split; auto. intros [H|[_ H]]; [auto|discriminate].
    - unfold sup_ok in I. rewrite A in I. cbn [is_no is_require] in I. destruct sup as [q|]; [|destruct I; discriminate].
      destruct I as (-> & I1 & I2 & _). rewrite (Nat.eqb_sym s N). destruct (Nat.eqb_spec N s) as [<-|NE]; cbn [negb andb].
      + exists g, (Some N). split; auto. split; auto. split; [repeat split; auto|]. split; [unfold sup_ok; rewrite A; auto|].
        split; [|split; auto]. unfold cont. rewrite Fs. auto. split; auto.
      + destruct (labelled t || negb (keqb (fwt t) (@kzero K))) eqn:Lt.
        * destruct (add_tr_eff g s (to_super t N) Hs) as (h1 & E1 & F1 & E3 & E4). rewrite (unwrap_ok _ _ E1). cbn [rbind].
          destruct (del_final_eff h1 s) as (h2 & G1 & F2 & G3 & G4); [rewrite (eff_n _ _ F1); auto|].
          rewrite (unwrap_ok _ _ G1). cbn [rbind]. exists h2, (Some N). split; auto.
          destruct F1 as (D1 & D2 & D3 & D4 & D5), F2 as (D1' & D2' & D3' & D4' & D5').
          split; auto. split; [repeat split; congruence|]. split; [|split; [|split]].
          -- unfold sup_ok. split; auto. split; [lia|]. split; [|rewrite A; auto]. unfold cont. rewrite G3, G4, E3, E4.
             rewrite (proj2 (Nat.eqb_neq N s)) by auto. exact I2.
          -- unfold cont. rewrite G3, G4, E3, !Nat.eqb_refl. auto.
          -- intros q Hq _. unfold cont. rewrite G3, G4, E3, E4, (proj2 (Nat.eqb_neq _ _) Hq). auto.
          -- split; auto.
        * exists g, (Some N). split; auto. split; auto. split; [repeat split; auto|]. split; [unfold sup_ok; rewrite A; auto|].
          split; [unfold cont; rewrite Fs; auto|]. split; auto. split; auto.
  Qed.
  Definition isOk {A} (r : res A) : Prop := exists x, r = Ok x.

  Lemma sup_ok_cont N g h sup : sup_ok N g sup -> num_states h = num_states g -> cont h N = cont g N -> sup_ok N h sup.
  Proof. unfold sup_ok. destruct sup; intros; [rewrite H1, H0; auto|rewrite H0; auto]. Qed.

  Lemma trs_beyond f s : num_states f <= s -> trs_of f s = [].
  Proof. intros H. unfold trs_of. rewrite (proj2 (nth_error_None _ _)); auto. Qed.

  (** One state. *)
  Lemma state_ok N g sup sg s : cnt g -> sup_ok N g sup -> s < num_states g -> (s = N -> is_require (m_action mu) = true) ->
    match visit mu sg (cont g s) with
    | Ok (sg', v) =>
        if is_no (m_action mu) && final_labelled v then map_state mu (g, sup, sg) s = Err
        else exists h sup', map_state mu (g, sup, sg) s = Ok (h, sup', sg') /\ cnt h /\ tables g h /\ sup_ok N h sup' /\
          cont h s = placed (m_action mu) N s (fin_of g s) v /\
          (forall q, q <> s -> q <> N -> cont h q = cont g q) /\
          (sup' = Some N <-> sup = Some N \/ (is_allow (m_action mu) = true /\ final_labelled v = true))
    | _ => ~ isOk (map_state mu (g, sup, sg) s)
    end.
  Proof.
    intros C I Hs R. unfold visit, map_state, cont at 1. cbn [fst snd].
    pose proof (map_trs_ok g sg s C Hs) as X. destruct (mapl (m_tr mu) sg (trs_of g s)) as [[sg1 l]| |] eqn:EM.
    2,3: rewrite X; intros [y Hy]; discriminate.
    destruct X as (g1 & E1 & F1 & T1 & N1). rewrite E1. cbn [rbind fst snd]. rewrite N1. unfold cont at 1. cbn [snd].
    assert (IN : sup_ok N g1 sup).
    { eapply sup_ok_cont; [eauto|apply (eff_n _ _ F1)|]. unfold cont. rewrite T1, N1. f_equal.
      destruct (Nat.eqb_spec N s) as [->|]; auto.
      assert (Z : trs_of g s = []).
      { destruct sup as [q|]; [destruct I as (_ & _ & I & _); unfold cont in I; congruence|]. destruct I as [I _]. apply trs_beyond. lia. }
      rewrite Z in *. cbn in EM. congruence. }
    assert (CC : forall q, q <> s -> cont g1 q = cont g q).
    { intros q Hq. unfold cont. rewrite T1, N1, (proj2 (Nat.eqb_neq _ _) Hq). auto. }
    destruct F1 as (D1 & D2 & D3 & D4 & D5).
    destruct (fin_of g s) as [w|] eqn:Fs.
    - destruct (m_fin mu sg1 (FT 0 0 w)) as [[sg2 t]| |] eqn:EF; cbn [rbind fst snd]; try (intros [y Hy]; discriminate).
      assert (TN : s = N -> trs_of g1 N = []).
      { intros ->. destruct sup as [q|]; [destruct IN as (_ & _ & J & _); unfold cont in J; congruence|]. destruct IN as [J _]. apply trs_beyond. lia. }
      pose proof (place_ok N g1 sup s w t (D5 C) IN) as P. rewrite D1 in P. specialize (P Hs). rewrite N1 in P.
      specialize (P Fs TN R). unfold final_labelled. cbn [snd].
      destruct (is_no (m_action mu) && labelled t); [rewrite P; auto|].
      destruct P as (h & sup' & -> & P1 & (P2 & P3 & P4) & P5 & P6 & P7 & P8). cbn [rbind]. exists h, sup'. split; auto. split; auto.
      split; [repeat split; congruence|]. split; auto. split; [|split; auto].
      + rewrite P6, T1, Nat.eqb_refl. auto.
      + intros q Hq HN. rewrite P7, CC; auto.
    - unfold final_labelled. cbn [snd]. rewrite andb_false_r. exists g1, sup. split; auto. split; auto. split; [repeat split; auto|].
      split; auto. split; [unfold placed, cont; cbn [fst snd]; rewrite T1, N1, Nat.eqb_refl, Fs; auto|]. split; auto.
      split; auto. intros [H|[_ H]]; [auto|discriminate].
  Qed.

  (** All the states. *)
  Lemma states_ok N (cs : list (list (tr K) * option K)) : forall k g sup sg, cnt g -> sup_ok N g sup ->
    k + length cs = (if is_require (m_action mu) then Datatypes.S N else N) ->
    (forall i c, nth_error cs i = Some c -> cont g (k + i) = c) ->
    match mapl (visit mu) sg cs with
    | Ok (sg', out) =>
        if is_no (m_action mu) && existsb final_labelled out then rfold (map_state mu) (seq k (length cs)) (g, sup, sg) = Err
        else exists h sup', rfold (map_state mu) (seq k (length cs)) (g, sup, sg) = Ok (h, sup', sg') /\ cnt h /\ tables g h /\ sup_ok N h sup' /\
          length out = length cs /\
          (forall i c v, nth_error cs i = Some c -> nth_error out i = Some v ->
             cont h (k + i) = placed (m_action mu) N (k + i) (snd c) v) /\
          (forall q, q < k -> q <> N -> cont h q = cont g q) /\
          (sup' = Some N <-> sup = Some N \/ (is_allow (m_action mu) = true /\ existsb final_labelled out = true))
    | _ => ~ isOk (rfold (map_state mu) (seq k (length cs)) (g, sup, sg))
    end.
  Proof.
    induction cs as [|c cs IH]; intros k g sup sg C I Hk Hc; cbn [mapl length seq].
    - cbn [existsb]. rewrite andb_false_r. exists g, sup. split; auto. split; auto. split; [repeat split; auto|]. split; auto. split; auto.
      split; [intros [|i] c v [=]|]. split; auto. split; auto. intros [H|[_ H]]; [auto|discriminate].
    - cbn [length] in Hk. assert (Hkn : k < num_states g).
      { unfold sup_ok in I. destruct sup; [destruct I as (_ & I & _)|destruct I as [I J]]; destruct (is_require (m_action mu)); try discriminate; lia. }
      assert (HN : k = N -> is_require (m_action mu) = true) by (destruct (is_require (m_action mu)); auto; lia).
      pose proof (state_ok N g sup sg k C I Hkn HN) as P. pose proof (Hc 0 c eq_refl) as E0. rewrite Nat.add_0_r in E0. rewrite E0 in P.
      rewrite rfold_cons. destruct (visit mu sg c) as [[sg1 v]| |].
      2,3: intros [y Hy]; destruct (map_state mu (g, sup, sg) k) as [z| |]; try discriminate; apply P; eexists; eauto.
      destruct (is_no (m_action mu) && final_labelled v) eqn:EN.
      { rewrite P. cbn [rbind]. destruct (mapl (visit mu) sg1 cs) as [[sg2 out]| |]; try (intros [y Hy]; discriminate).
        apply andb_true_iff in EN as [-> EN]. cbn [existsb]. rewrite EN. cbn [orb andb]. auto. }
      destruct P as (h & sup1 & -> & P1 & P2 & P3 & P4 & P5 & P6). cbn [rbind].
      assert (Hc1 : forall i c0, nth_error cs i = Some c0 -> cont h (Datatypes.S k + i) = c0).
      { intros i c0 Hi. rewrite <- (Hc (Datatypes.S i) c0 Hi).
        destruct (Nat.eq_dec (Datatypes.S k + i) N) as [EE|NE].
        - assert (i < length cs) by (apply nth_error_Some; congruence).
          assert (is_require (m_action mu) = true) as RR by (destruct (is_require (m_action mu)); auto; lia).
          unfold sup_ok in I, P3. rewrite RR in I, P3. destruct sup; [|destruct I; discriminate]. destruct sup1; [|destruct P3; discriminate].
          replace (k + Datatypes.S i) with N by lia. rewrite EE. destruct I as (_ & _ & -> & _), P3 as (_ & _ & -> & _). auto.
        - replace (k + Datatypes.S i) with (Datatypes.S k + i) by lia. apply P5; lia. }
      specialize (IH (Datatypes.S k) h sup1 sg1 P1 P3 ltac:(lia) Hc1).
      destruct (mapl (visit mu) sg1 cs) as [[sg2 out]| |]; auto. cbn [existsb].
      assert (is_no (m_action mu) && (final_labelled v || existsb final_labelled out) = is_no (m_action mu) && existsb final_labelled out) as ->.
      { destruct (is_no (m_action mu)); auto. cbn in EN. rewrite EN. auto. }
      destruct (is_no (m_action mu) && existsb final_labelled out); auto.
      destruct IH as (h2 & sup2 & Q1 & Q2 & (Q3 & Q4 & Q5) & Q6 & Q7 & Q8 & Q9 & Q10). exists h2, sup2. split; auto. split; auto.
      destruct P2 as (T1 & T2 & T3). split; [repeat split; congruence|]. split; auto. split; [cbn; auto|]. split; [|split].
      + intros [|i] c0 v0 Hi Hv; cbn in Hi, Hv.
        * injection Hi as ->. injection Hv as ->. rewrite Nat.add_0_r. rewrite <- E0. change (snd (cont g k)) with (fin_of g k).
          destruct (Nat.eq_dec k N) as [->|NE]; [|rewrite Q9 by lia; auto].
          specialize (HN eq_refl). unfold sup_ok in I, Q6. rewrite HN in I, Q6. destruct sup2; [|destruct Q6; discriminate].
          destruct Q6 as (_ & _ & -> & _). rewrite <- P4. unfold sup_ok in P3. rewrite HN in P3. destruct sup1; [|destruct P3; discriminate].
          destruct P3 as (_ & _ & -> & _). auto.
        * replace (k + Datatypes.S i) with (Datatypes.S k + i) by lia. apply Q8; auto.
      + intros q Hq HqN. rewrite Q9, P5 by lia. auto.
      + rewrite Q10, P6. cbn [orb]. destruct (final_labelled v); cbn [orb]; intuition discriminate.
  Qed.
End M.
