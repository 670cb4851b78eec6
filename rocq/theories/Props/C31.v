(** C31: tr_map and weight_convert show the mapper every transition and final weight once and put
    the answers where they belong; what this means for the mappers of the library. *)
From Coq Require Import List Arith NArith ZArith Bool Lia Sorted QArith.QArith_base QArith.Qcanon Field.
From Verif Require Import Base.Util Base.Semiring Base.Machine Base.PropSpec Base.Instances
  Model.Props Model.VectorFst Model.History Model.Rational Model.ShortestPath Model.TrMap Model.Weights
  Proofs.PropsFacts Proofs.VectorFacts Proofs.DelStates Proofs.VectorProps Proofs.TrOpsFacts Proofs.HistoryFacts
  Proofs.OpFacts Proofs.RationalFacts Proofs.TrMapFacts Proofs.ConvertFacts.
From Verif Require Props.C17.
Import ListNotations.
Local Open Scope nat_scope.

(** A machine without a start state is left alone, whatever it contains. *)
Theorem C31_no_start {S K} (mu : mapper S K K) (f : vfst K) sg : vstart f = None -> tr_map mu f sg = Ok (f, sg).
Proof. intros E. unfold tr_map. rewrite E. auto. Qed.

Lemma mapl_app {S A B} (h : S -> A -> res (S * B)) l l' : forall sg, mapl h sg (l ++ l') =
  match mapl h sg l with
  | Ok (sg1, b) => match mapl h sg1 l' with Ok (sg2, b') => Ok (sg2, b ++ b') | Err => Err | Panic => Panic end
  | Err => Err | Panic => Panic
  end.
Proof.
  induction l as [|a l IH]; intros sg; cbn [app mapl].
  - destruct (mapl h sg l') as [[? ?]| |]; auto.
  - destruct (h sg a) as [[sg1 b]| |]; auto. rewrite IH. destruct (mapl h sg1 l) as [[sg2 bs]| |]; auto.
    destruct (mapl h sg2 l') as [[? ?]| |]; auto.
Qed.
Lemma mapl_length {S A B} (h : S -> A -> res (S * B)) l : forall sg sg' out, mapl h sg l = Ok (sg', out) -> length out = length l.
Proof.
  induction l as [|a l IH]; intros sg sg' out E; cbn [mapl] in E; [injection E as <- <-; auto|].
  destruct (h sg a) as [[sg1 b]| |]; try discriminate. destruct (mapl h sg1 l) as [[sg2 bs]| |] eqn:E2; try discriminate.
  injection E as <- <-. cbn. f_equal. eauto.
Qed.
Lemma content_nth {K : SR} (f : vfst K) s : s < num_states f -> nth_error (content f) s = Some (cont f s).
Proof. intros H. unfold content. rewrite nth_error_map, nth_error_nth' with (d := 0) by (rewrite seq_length; auto). rewrite seq_nth by auto. auto. Qed.
Lemma content_length {K : SR} (f : vfst K) : length (content f) = num_states f.
Proof. unfold content. rewrite map_length, seq_length. auto. Qed.

Section TrMap.
  Context {S : Type} {K : SR} (mu : mapper S K K).

  (** The mapper is called on the transitions and final weights of state 0, then of state 1 and so
      on ([visit], [mapl]); the mapped transitions of a state stay in that state in the same order,
      and [placed] says where its mapped final weight goes.  The number of states grows by the
      super-final state at most, which gets the number after the last state.  With the mode that
      requires a super-final state, the final weight one of the new state is itself shown to the
      mapper, last. *)
  Theorem C31_tr_map (f : vfst K) (sg : S) : cnt f -> vstart f <> None ->
    let N := num_states f in
    let act := m_action mu in
    match mapl (visit mu) sg (content f) with
    | Ok (sg', out) =>
        if is_no act && existsb final_labelled out then tr_map mu f sg = Err
        else
          let super := is_require act || (is_allow act && existsb final_labelled out) in
          let ok sg'' := exists g, tr_map mu f sg = Ok (g, sg'') /\ cnt g /\
            vstart g = vstart f /\ visymt g = visymt f /\ vosymt g = vosymt f /\
            num_states g = N + (if super then 1 else 0) /\
            (forall s v, nth_error out s = Some v -> cont g s = placed act N s (fin_of f s) v) /\
            (super = true -> cont g N = ([], Some (@kone K))) /\
            (forall b, has (vprops g) b = has (m_props mu (vprops f)) b) in
          if is_require act then
            match m_fin mu sg' (FT 0 0 (@kone K)) with
            | Ok (sg'', _) => ok sg''
            | _ => ~ exists x, tr_map mu f sg = Ok x
            end
          else ok sg'
    | _ => ~ exists x, tr_map mu f sg = Ok x
    end.
  Proof.
    intros C V N act. unfold tr_map. destruct (vstart f) as [s0|] eqn:V0; [|congruence]. clear V. fold act.
    destruct (is_require act) eqn:R.
    - assert (act = MapRequireSuperfinal) as EA by (destruct act; cbn in R; congruence). rewrite EA. cbn [is_no is_allow andb orb].
      destruct (add_super f C) as (h & E1 & E2 & E3 & (T1 & T2 & T3) & E5 & E6 & E7).
      assert (X : (let (h, q) := add_state f in h <-- unwrap (set_final h q (@kone K)) ;; Ok (h, Some q)) = Ok (h, Some N)).
      { unfold N. destruct (add_state f) as [h0 q]. destruct (unwrap (set_final h0 q (@kone K))); cbn [rbind] in *; congruence. }
      rewrite X. cbn [rbind fst]. rewrite E2. fold N.
      assert (I : sup_ok mu N h (Some N)) by (unfold sup_ok; repeat split; auto; fold act; rewrite EA; auto).
      assert (Hc : forall i c, nth_error (content f ++ [([], Some (@kone K))]) i = Some c -> cont h (0 + i) = c).
      { intros i c Hi. cbn [Nat.add]. destruct (lt_dec i N).
        - rewrite nth_error_app1 in Hi by (rewrite content_length; auto). rewrite content_nth in Hi by auto. injection Hi as <-.
          unfold cont. rewrite E6, E7 by (fold N; lia). auto.
        - rewrite nth_error_app2 in Hi by (rewrite content_length; fold N; lia). rewrite content_length in Hi. fold N in Hi.
          destruct (i - N) as [|k] eqn:Ei; [|destruct k; discriminate]. injection Hi as <-. replace i with N by lia. exact E5. }
      pose proof (states_ok mu N (content f ++ [([], Some (@kone K))]) 0 h (Some N) sg E3 I) as P. fold act in P.
      rewrite EA in P. cbn [is_require is_no is_allow andb] in P. rewrite app_length, content_length in P. cbn [length] in P.
      rewrite Nat.add_1_r in P. specialize (P eq_refl Hc). rewrite mapl_app in P. fold N in P.
      destruct (mapl (visit mu) sg (content f)) as [[sg' out]| |] eqn:EM.
      2,3: intros [x Hx]; destruct (rfold _ _ _) as [y| |]; try discriminate; apply P; eexists; eauto.
      cbn [mapl visit fst snd] in P. unfold visit in P. cbn [mapl fst snd] in P.
      destruct (m_fin mu sg' (FT 0 0 (@kone K))) as [[sg'' t]| |].
      2,3: intros [x Hx]; destruct (rfold _ _ _) as [y| |]; try discriminate; apply P; eexists; eauto.
      destruct P as (g & sup' & Q1 & Q2 & (Q3 & Q4 & Q5) & Q6 & Q7 & Q8 & Q9 & Q10). rewrite Q1. cbn [rbind fst snd].
      eexists. split; [reflexivity|]. split; [exact Q2|]. split; [cbn; congruence|]. split; [cbn; congruence|]. split; [cbn; congruence|].
      unfold sup_ok in Q6. fold act in Q6. rewrite EA in Q6. destruct sup' as [q|]; [|destruct Q6; discriminate]. destruct Q6 as (_ & Q6 & Q11 & _).
      split; [change (num_states g = N + 1); lia|]. split; [|split].
      + intros s v Hv. assert (Hs : s < N). { assert (s < length out) by (apply nth_error_Some; congruence). apply mapl_length in EM. rewrite content_length in EM. fold N in EM. lia. }
        refine (Q8 s (cont f s) v _ _).
        * rewrite nth_error_app1 by (rewrite content_length; auto). apply content_nth; auto.
        * rewrite nth_error_app1; auto. apply nth_error_Some. congruence.
      + intros _. exact Q11.
      + intros b. apply has_set_all.
    - assert (EX : match act with MapRequireSuperfinal => let (h, q) := add_state f in h <-- unwrap (set_final h q (@kone K)) ;; Ok (h, Some q) | _ => Ok (f, None) end
        = Ok (f, None)) by (destruct act; auto; discriminate). rewrite EX. cbn [rbind fst].
      assert (I : sup_ok mu N f None) by (unfold sup_ok; auto).
      pose proof (states_ok mu N (content f) 0 f None sg C I) as P. fold act in P. rewrite R, content_length in P. fold N in P |- *.
      specialize (P eq_refl). assert (Hc : forall i c, nth_error (content f) i = Some c -> cont f (0 + i) = c).
      { intros i c Hi. assert (i < num_states f) by (rewrite <- content_length; apply nth_error_Some; congruence). rewrite content_nth in Hi by auto. cbn. congruence. }
      specialize (P Hc). destruct (mapl (visit mu) sg (content f)) as [[sg' out]| |] eqn:EM.
      2,3: intros [x Hx]; destruct (rfold _ _ _) as [y| |]; try discriminate; apply P; eexists; eauto.
      destruct (is_no act && existsb final_labelled out) eqn:NL; [rewrite P; auto|]. cbn [orb].
      destruct P as (g & sup' & Q1 & Q2 & (Q3 & Q4 & Q5) & Q6 & Q7 & Q8 & Q9 & Q10). rewrite Q1. cbn [rbind fst snd].
      eexists. split; [reflexivity|]. split; [exact Q2|]. split; [cbn; congruence|]. split; [cbn; congruence|]. split; [cbn; congruence|].
      split; [|split; [|split]].
      + change (num_states g = N + (if is_allow act && existsb final_labelled out then 1 else 0)).
        unfold sup_ok in Q6. destruct sup' as [q|].
        * destruct Q6 as (-> & Q6 & _). destruct (proj1 Q10 eq_refl) as [H|[-> ->]]; [discriminate|]. cbn. lia.
        * destruct (is_allow act && existsb final_labelled out) eqn:AL; [|lia]. apply andb_true_iff in AL.
          discriminate (proj2 Q10 (or_intror AL)).
      + intros s v Hv. assert (Hs : s < N). { assert (s < length out) by (apply nth_error_Some; congruence). apply mapl_length in EM. rewrite content_length in EM. fold N in EM. lia. }
        exact (Q8 s (cont f s) v (content_nth f s Hs) Hv).
      + intros AL. apply andb_true_iff in AL. pose proof (proj2 Q10 (or_intror AL)) as ->. apply Q6.
      + intros b. apply has_set_all.
  Qed.
End TrMap.

Section Convert.
  Context {S : Type} {K1 K2 : SR} (mu : mapper S K1 K2).

  (** The same for [weight_convert], which builds a new machine; a machine without a start state
      becomes the machine without states. *)
  Theorem C31_weight_convert (f : vfst K1) (sg : S) : closed f ->
    let N := num_states f in
    let act := m_action mu in
    match vstart f with
    | None => weight_convert mu f sg = Ok (vnew, sg)
    | Some _ =>
        match mapl (visit mu) sg (content f) with
        | Ok (sg', out) =>
            if is_no act && existsb final_labelled out then weight_convert mu f sg = Err
            else
              let super := is_require act || (is_allow act && existsb final_labelled out) in
              exists g, weight_convert mu f sg = Ok (g, sg') /\ cnt g /\
                vstart g = vstart f /\ visymt g = visymt f /\ vosymt g = vosymt f /\
                num_states g = N + (if super then 1 else 0) /\
                (forall s v, nth_error out s = Some v -> cont g s = converted act N v) /\
                (super = true -> cont g N = ([], Some (@kone K2))) /\
                (forall b, has (m_props mu (vprops f)) b = true -> has (vprops g) b = true)
        | _ => ~ exists x, weight_convert mu f sg = Ok x
        end
    end.
  Proof.
    intros CL N act. unfold weight_convert. destruct (vstart f) as [s0|] eqn:V0; auto. fold act.
    assert (Hs0 : s0 < N) by (apply (proj2 CL); auto).
    set (g0 := Nat.iter (num_states f) (fun h => fst (add_state h)) (@vnew K2)).
    assert (GG : num_states g0 = N /\ cnt g0 /\ (forall q, cont g0 q = ([], None))) by exact (new_states (num_states f)).
    destruct GG as (G1 & G2 & G3).
    assert (X : exists g1 sup, match act with
        | MapRequireSuperfinal => let (h, q) := add_state g0 in h <-- set_final h q (@kone K2) ;; Ok (h, Some q)
        | _ => Ok (g0, None) end = Ok (g1, sup) /\ cnt g1 /\ csup_ok mu N g1 sup /\ (forall q, q <> N -> cont g1 q = ([], None)) /\
        (sup = Some N <-> is_require act = true)).
    { assert (Y : exists h, (let (h, q) := add_state g0 in h <-- set_final h q (@kone K2) ;; Ok (h, Some q)) = Ok (h, Some N) /\ cnt h /\
         num_states h = Datatypes.S N /\ cont h N = ([], Some (@kone K2)) /\ (forall q, q <> N -> cont h q = ([], None))).
      { destruct (add_super g0 G2) as (h & E1 & E2 & E3 & _ & E5 & E6 & E7). rewrite G1 in E1, E2, E5, E7. exists h.
        split.
        - destruct (add_state g0) as [h0 q]. destruct (set_final h0 q (@kone K2)); cbn [unwrap rbind] in *; congruence.
        - repeat split; auto. intros q Hq. unfold cont. rewrite E6, E7 by auto. apply G3. }
      destruct Y as (h & Y1 & Y2 & Y3 & Y4 & Y5).
      destruct act eqn:EA; cbn [is_require].
      1,2: exists g0, None; split; auto; split; auto; split; [unfold csup_ok; fold act; rewrite EA; auto|]; split; auto; split; discriminate.
      exists h, (Some N). split; auto. split; auto. split; [unfold csup_ok; fold act; rewrite EA; auto|]. split; auto. split; auto. }
    destruct X as (g1 & sup & -> & X1 & X2 & X3 & X4). cbn [rbind fst snd].
    assert (Hs1 : s0 < num_states g1) by (unfold csup_ok in X2; destruct sup; [destruct X2 as (_ & X2 & _)|destruct X2 as [X2 _]]; lia).
    destruct (set_start_eff g1 s0 Hs1) as (g2 & E1 & D1 & D2 & D3 & D4 & D5 & D6 & D7). rewrite E1. cbn [rbind].
    assert (CC : forall q, cont g2 q = cont g1 q) by (intros q; unfold cont; rewrite D6, D7; auto).
    assert (I : csup_ok mu N g2 sup) by (unfold csup_ok in *; rewrite D1; destruct sup; auto; rewrite CC; auto).
    pose proof (conv_states_ok mu f N 0 g2 sup sg (D5 X1) I eq_refl) as P. fold act in P. fold (content f) in P.
    assert (Hc : forall q, 0 <= q -> q < num_states f -> cont g2 q = ([], None)) by (intros q _ Hq; rewrite CC; apply X3; fold N in Hq; lia).
    specialize (P Hc). change (map (cont f) (seq 0 N)) with (content f) in P. fold N.
    destruct (mapl (visit mu) sg (content f)) as [[sg' out]| |] eqn:EM.
    2,3: intros [x Hx]; destruct (rfold _ _ _) as [y| |]; try discriminate; apply P; eexists; eauto.
    destruct (is_no act && existsb final_labelled out) eqn:NL; [rewrite P; auto|].
    destruct P as (h & sup' & Q1 & Q2 & (Q3 & Q4 & Q5) & Q6 & Q7 & Q8 & Q9 & Q10). rewrite Q1. cbn [rbind fst snd].
    eexists. split; [reflexivity|]. split; [exact Q2|]. split; [cbn; congruence|]. split; [auto|]. split; [auto|].
    split; [|split; [|split]].
    - change (num_states h = N + (if is_require act || is_allow act && existsb final_labelled out then 1 else 0)).
      unfold csup_ok in Q6. fold act in Q6. destruct sup' as [q|].
      + destruct Q6 as (-> & Q6 & _). destruct (proj1 Q10 eq_refl) as [H|[-> ->]].
        * apply X4 in H. rewrite H. cbn. lia.
        * rewrite orb_true_r. lia.
      + destruct Q6 as [Q6 Q11]. rewrite Q11. cbn [orb]. destruct (is_allow act && existsb final_labelled out) eqn:AL; [|lia].
        apply andb_true_iff in AL. discriminate (proj2 Q10 (or_intror AL)).
    - intros s v Hv. exact (Q8 s v Hv).
    - intros HS. assert (sup' = Some N) as ->.
      { apply Q10. apply orb_true_iff in HS as [HS|HS]; [left; apply X4; auto|right; apply andb_true_iff in HS; auto]. }
      apply Q6.
    - intros b Hb. cbn [vprops]. change (has (vprops (set_all h (N.lor (m_props mu (vprops f)) (vprops h)))) b = true). rewrite has_set_all, has_lor, Hb. auto.
  Qed.
End Convert.

(** ** Mappers without state *)

Lemma mapl_pure {S A B} (h : S -> A -> res (S * B)) (a : A -> B) l sg : (forall x, In x l -> h sg x = Ok (sg, a x)) ->
  mapl h sg l = Ok (sg, map a l).
Proof.
  induction l as [|x l IH]; intros H; cbn [mapl map]; auto. rewrite H by (left; auto). rewrite IH; auto. intros y Hy. apply H. right; auto.
Qed.

Section Pure.
  Context {K1 K2 : SR} (mu : mapper unit K1 K2) (a : tr K1 -> tr K2) (b : K1 -> K2).

  Definition pure_on (f : vfst K1) : Prop :=
    m_action mu = MapNoSuperfinal /\
    (forall s t, In t (trs_of f s) -> m_tr mu tt t = Ok (tt, a t)) /\
    (forall s w, fin_of f s = Some w -> m_fin mu tt (FT 0 0 w) = Ok (tt, FT 0 0 (b w))).

  Lemma pure_visits (f : vfst K1) : pure_on f -> mapl (visit mu) tt (content f) =
    Ok (tt, map (fun c => (map a (fst c), option_map (fun w => FT 0 0 (b w)) (snd c))) (content f)).
  Proof.
    intros (_ & H1 & H2). apply mapl_pure. intros c Hc. unfold content in Hc. apply in_map_iff in Hc as (s & <- & _).
    unfold visit, cont. cbn [fst snd]. rewrite (mapl_pure _ a) by (intros t Ht; eapply H1; eauto).
    destruct (fin_of f s) as [w|] eqn:E; cbn [option_map]; auto. rewrite (H2 s w E). auto.
  Qed.
  Lemma pure_unlabelled (f : vfst K1) : existsb final_labelled
    (map (fun c : list (tr K1) * option K1 => (map a (fst c), option_map (fun w => @FT K2 0 0 (b w)) (snd c))) (content f)) = false.
  Proof.
    apply not_true_is_false. intros H. apply existsb_exists in H as (v & Hv & L). apply in_map_iff in Hv as (c & <- & _).
    unfold final_labelled in L. cbn [snd] in L. destruct (snd c); discriminate.
  Qed.
End Pure.

(** [g] is [f] with every transition replaced by [a] of it and every final weight by [b] of it. *)
Definition mapped {K1 K2 : SR} (a : tr K1 -> tr K2) (b : K1 -> K2) (f : vfst K1) (g : vfst K2) : Prop :=
  cnt g /\ num_states g = num_states f /\ vstart g = vstart f /\ visymt g = visymt f /\ vosymt g = vosymt f /\
  forall s, trs_of g s = map a (trs_of f s) /\ fin_of g s = option_map b (fin_of f s).

Lemma beyond {K : SR} (f : vfst K) s : num_states f <= s -> trs_of f s = [] /\ fin_of f s = None.
Proof. intros H. unfold trs_of, fin_of. rewrite (proj2 (nth_error_None _ _)); auto. Qed.

Theorem C31_pure_mapper {K : SR} (mu : mapper unit K K) (a : tr K -> tr K) (b : K -> K) (f : vfst K) :
  cnt f -> vstart f <> None -> pure_on mu a b f ->
  exists g, tr_map mu f tt = Ok (g, tt) /\ mapped a b f g /\ forall bit, has (vprops g) bit = has (m_props mu (vprops f)) bit.
Proof.
  intros C V P. pose proof (C31_tr_map mu f tt C V) as T. cbv zeta in T. rewrite (pure_visits mu a b f P) in T.
  pose proof (pure_unlabelled (K1 := K) (K2 := K) a b f) as U. rewrite U in T. destruct P as (A & _). rewrite A in T. cbn [is_no is_allow is_require andb orb] in T.
  destruct T as (g & T1 & T2 & T3 & T4 & T5 & T6 & T7 & _ & T9). rewrite Nat.add_0_r in T6. exists g. split; auto. split; auto.
  split; auto. split; auto. split; auto. split; auto. split; auto. intros s. destruct (lt_dec s (num_states f)) as [Hs|Hs].
  - specialize (T7 s (map a (trs_of f s), option_map (fun w => FT 0 0 (b w)) (fin_of f s))).
    rewrite nth_error_map, content_nth in T7 by auto. specialize (T7 eq_refl). unfold cont, placed in T7. cbn [snd fst] in T7.
    destruct (fin_of f s) as [w|]; cbn [option_map] in *; injection T7 as -> ->; auto.
  - destruct (beyond f s ltac:(lia)) as [-> ->]. destruct (beyond g s ltac:(lia)) as [-> ->]. auto.
Qed.

Theorem C31_pure_converter {K1 K2 : SR} (mu : mapper unit K1 K2) (a : tr K1 -> tr K2) (b : K1 -> K2) (f : vfst K1) :
  closed f -> vstart f <> None -> pure_on mu a b f ->
  exists g, weight_convert mu f tt = Ok (g, tt) /\ mapped a b f g /\ forall bit, has (m_props mu (vprops f)) bit = true -> has (vprops g) bit = true.
Proof.
  intros C V P. pose proof (C31_weight_convert mu f tt C) as T. cbv zeta in T. destruct (vstart f) as [s0|] eqn:V0; [|congruence].
  rewrite (pure_visits mu a b f P), (pure_unlabelled (K1 := K1) (K2 := K2) a b f) in T. destruct P as (A & _). rewrite A in T. cbn [is_no is_allow is_require andb orb] in T.
  destruct T as (g & T1 & T2 & T3 & T4 & T5 & T6 & T7 & _ & T9). rewrite Nat.add_0_r in T6. exists g. split; auto. split; auto.
  split; auto. split; auto. split; [congruence|]. split; auto. split; auto. intros s. destruct (lt_dec s (num_states f)) as [Hs|Hs].
  - specialize (T7 s (map a (trs_of f s), option_map (fun w => FT 0 0 (b w)) (fin_of f s))).
    rewrite nth_error_map, content_nth in T7 by auto. specialize (T7 eq_refl). unfold cont, converted in T7. cbn [snd fst] in T7.
    destruct (fin_of f s) as [w|]; cbn [option_map] in *; injection T7 as -> ->; auto.
  - destruct (beyond f s ltac:(lia)) as [-> ->]. destruct (beyond g s ltac:(lia)) as [-> ->]. auto.
Qed.

Definition set_w {K1 K2 : SR} (h : K1 -> K2) (t : tr K1) : tr K2 := Tr (il t) (ol t) (h (wgt t)) (ns t).

Lemma nth_error_ext {A} (l l' : list A) : (forall i, nth_error l i = nth_error l' i) -> l = l'.
Proof.
  revert l'. induction l as [|a l IH]; intros [|b l'] H; auto; try (discriminate (H 0)).
  f_equal; [injection (H 0); auto|]. apply IH. intros i. apply (H (Datatypes.S i)).
Qed.

Section Lib.
  Context {K : SR}.
  Implicit Types (f g : vfst K) (c w : K).

  Lemma vext (f g : vfst K) : cnt f -> cnt g -> num_states g = num_states f ->
    (forall s, trs_of g s = trs_of f s /\ fin_of g s = fin_of f s) -> vstates g = vstates f.
  Proof.
    intros Cf Cg N H. apply nth_error_ext. intros s. specialize (H s). unfold trs_of, fin_of in H.
    unfold num_states in N. destruct (nth_error (vstates f) s) as [u|] eqn:Eu; destruct (nth_error (vstates g) s) as [v|] eqn:Ev; auto.
    - unfold cnt in *. rewrite Forall_forall in Cf, Cg. destruct (Cf u) as [A1 A2]; [eapply nth_error_In; eauto|]. destruct (Cg v) as [B1 B2]; [eapply nth_error_In; eauto|].
      destruct u as [u1 u2 u3 u4], v as [v1 v2 v3 v4]. cbn in *. destruct H as [-> ->]. rewrite A1, A2, B1, B2. auto.
    - apply nth_error_None in Ev. assert (s < length (vstates f)) by (apply nth_error_Some; congruence). lia.
    - apply nth_error_None in Eu. assert (s < length (vstates g)) by (apply nth_error_Some; congruence). lia.
  Qed.

  (** The identity mapper changes nothing (start state or not). *)
  Theorem C31_identity f : cnt f ->
    exists g, tr_map identity_mapper f tt = Ok (g, tt) /\ vstates g = vstates f /\ vstart g = vstart f /\
      visymt g = visymt f /\ vosymt g = vosymt f /\ forall bit, has (vprops g) bit = has (vprops f) bit.
  Proof.
    intros C. destruct (vstart f) as [s0|] eqn:V; [|rewrite (C31_no_start _ f tt V); exists f; auto 10].
    destruct (C31_pure_mapper identity_mapper (fun t => t) (fun w => w) f C) as (g & E & (M1 & M2 & M3 & M4 & M5 & M6) & B); [congruence|repeat split; auto|].
    exists g. split; auto. split; [|repeat split; auto; congruence]. apply vext; auto.
    intros s. destruct (M6 s) as [-> ->]. rewrite map_id. destruct (fin_of f s); auto.
  Qed.

  (** Weight mappers that never fail. *)
  Lemma weight_pure (h : K -> K) props f : pure_on (weight_mapper (fun w => Ok (h w)) props) (set_w h) h f.
  Proof. repeat split; auto. Qed.

  Theorem C31_plus c f : cnt f -> vstart f <> None ->
    exists g, tr_map (plus_mapper c) f tt = Ok (g, tt) /\ mapped (set_w (fun w => kplus w c)) (fun w => kplus w c) f g.
  Proof. intros C V. destruct (C31_pure_mapper _ _ _ f C V (weight_pure (fun w => kplus w c) (fun p => pkeep p pm_weight_invariant_properties) f)) as (g & A & B & _). exists g; auto. Qed.

  Fixpoint pow c n : K := match n with O => @kone K | Datatypes.S n => ktimes c (pow c n) end.

  Lemma mapped_wt_times (L : sr_laws K) (CM : commutative_times K) c f g : mapped (set_w (fun w => ktimes w c)) (fun w => ktimes w c) f g ->
    forall n s x y, wt (mach g) n s x y = ktimes (wt (mach f) n s x y) (pow c (Datatypes.S n)).
  Proof.
    intros (_ & _ & _ & _ & _ & M). induction n as [|n IH]; intros s x y; cbn [wt mach mtrs mfin].
    - destruct (M s) as [_ ->]. cbn [pow]. rewrite (ktimes_1_r K L). destruct (isnil x && isnil y); [|symmetry; apply (ktimes_0_l K L)].
      destruct (fin_of f s); cbn [fw option_map]; auto. symmetry; apply (ktimes_0_l K L).
    - destruct (M s) as [-> _]. rewrite map_map. rewrite (ksum_times_r L), map_map. apply (ksum_map_ext). intros t _. cbn [set_w il ol wgt ns].
      destruct (strip (il t) x) as [x'|]; [|symmetry; apply (ktimes_0_l K L)]. destruct (strip (ol t) y) as [y'|]; [|symmetry; apply (ktimes_0_l K L)].
      rewrite IH. change (pow c (Datatypes.S (Datatypes.S n))) with (ktimes c (pow c (Datatypes.S n))).
      rewrite <- !(ktimes_assoc K L). f_equal. rewrite !(ktimes_assoc K L). f_equal. apply CM.
  Qed.

  (** The times mapper scales the weight of every path of [n] transitions by the (n+1)-th power. *)
  Theorem C31_times (L : sr_laws K) (CM : commutative_times K) c f : cnt f -> vstart f <> None ->
    exists g, tr_map (times_mapper c) f tt = Ok (g, tt) /\ mapped (set_w (fun w => ktimes w c)) (fun w => ktimes w c) f g /\
      forall n x y, rel (mach g) n x y = ktimes (rel (mach f) n x y) (pow c (Datatypes.S n)).
  Proof.
    intros C V. destruct (C31_pure_mapper _ _ _ f C V (weight_pure (fun w => ktimes w c) (fun p => pkeep p pm_weight_invariant_properties) f)) as (g & A & B & _). exists g. split; auto. split; auto.
    intros n x y. unfold rel. cbn [mach mstart]. pose proof B as (_ & _ & -> & _). destruct (vstart f); [|congruence]. apply (mapped_wt_times L CM c f g B).
  Qed.

  (** After rm_weight every weight is zero or one, and it is zero exactly where it was. *)
  Theorem C31_rm_weight (L : psr_laws K) f : cnt f -> vstart f <> None ->
    exists g h, tr_map rm_weight_mapper f tt = Ok (g, tt) /\ mapped (set_w h) h f g /\
      (forall w, (h w = @kzero K /\ w = @kzero K) \/ (h w = @kone K /\ w <> @kzero K)).
  Proof.
    intros C V. set (h := fun w : K => if keqb w (@kzero K) then w else @kone K).
    destruct (C31_pure_mapper _ _ _ f C V (weight_pure h (fun p => pset (pkeep p pm_weight_invariant_properties) [UNWEIGHTED]) f)) as (g & A & B & _).
    exists g, h. split; auto. split; auto. intros w. unfold h. destruct (keqbP L w (@kzero K)); auto.
  Qed.

  (** Inverting twice gives the machine back when inversion is an involution where it is defined. *)
  Theorem C31_invert_twice (inv : K -> res K) f g u : (forall w v, inv w = Ok v -> inv v = Ok w) -> cnt f ->
    tr_map (invert_weight_mapper inv) f tt = Ok (g, u) ->
    exists k, tr_map (invert_weight_mapper inv) g tt = Ok (k, tt) /\ vstates k = vstates f /\ vstart k = vstart f.
  Proof.
    intros INV C E. destruct u. destruct (vstart f) as [s0|] eqn:V.
    2: { rewrite (C31_no_start _ f tt V) in E. injection E as <-. exists f. split; auto. apply (C31_no_start _ f tt V). }
    pose proof (C31_tr_map (invert_weight_mapper inv) f tt C ltac:(congruence)) as T. cbv zeta in T.
    set (h := fun w => match inv w with Ok v => v | _ => w end).
    (* every weight of f can be inverted, or the call would have failed *)
    assert (P : (forall s t, In t (trs_of f s) -> inv (wgt t) = Ok (h (wgt t))) /\ (forall s w, fin_of f s = Some w -> inv w = Ok (h w))).
    { assert (Q : exists out, mapl (visit (invert_weight_mapper inv)) tt (content f) = Ok (tt, out)).
      { destruct (mapl (visit (invert_weight_mapper inv)) tt (content f)) as [[[] out]| |]; eauto; exfalso; apply T; eauto. }
      destruct Q as [out Q]. clear T E.
      assert (QQ : forall cc, In cc (content f) -> exists v, visit (invert_weight_mapper inv) tt cc = Ok (tt, v)).
      { revert out Q. induction (content f) as [|c0 l IH]; intros out Q cc [].
        - subst. cbn [mapl] in Q. destruct (visit _ tt cc) as [[[] v]| |]; eauto; discriminate.
        - cbn [mapl] in Q. destruct (visit _ tt c0) as [[[] v]| |]; try discriminate. destruct (mapl _ tt l) as [[[] o]| |] eqn:El; try discriminate. eapply IH; eauto. }
      assert (QS : forall s, exists v, visit (invert_weight_mapper inv) tt (cont f s) = Ok (tt, v)).
      { intros s. destruct (lt_dec s (num_states f)).
        - apply QQ. unfold content. apply in_map. apply in_seq. lia.
        - unfold cont. destruct (beyond f s ltac:(lia)) as [-> ->]. eexists. reflexivity. }
      split.
      - intros s t Ht. destruct (QS s) as [v Hv]. unfold visit, cont in Hv. cbn [fst snd] in Hv.
        destruct (mapl _ tt (trs_of f s)) as [[[] l]| |] eqn:El; try discriminate. clear Hv. revert l El Ht.
        induction (trs_of f s) as [|t0 l0 IH]; intros l El []; cbn [mapl m_tr invert_weight_mapper weight_mapper] in El.
        + subst. unfold h. destruct (inv (wgt t)); auto; discriminate.
        + destruct (inv (wgt t0)); try discriminate. cbn [rbind] in El. change (mapl (m_tr (invert_weight_mapper inv)) tt l0) with (mapl (m_tr (invert_weight_mapper inv)) tt l0) in El.
          destruct (mapl _ tt l0) as [[[] o]| |] eqn:E0; try discriminate. eapply IH; eauto.
      - intros s w Hw. destruct (QS s) as [v Hv]. unfold visit, cont in Hv. cbn [fst snd] in Hv. rewrite Hw in Hv.
        destruct (mapl _ tt (trs_of f s)) as [[[] l]| |]; try discriminate. cbn [m_fin invert_weight_mapper weight_mapper fwt] in Hv.
        unfold h. destruct (inv w); auto; discriminate. }
    clear T. destruct P as [P1 P2].
    assert (PU : pure_on (invert_weight_mapper inv) (set_w h) h f).
    { split; auto. split; [intros s t Ht|intros s w Hw]; cbn [m_tr m_fin invert_weight_mapper weight_mapper fwt fil fol]; [rewrite (P1 s t Ht)|rewrite (P2 s w Hw)]; auto. }
    destruct (C31_pure_mapper _ _ _ f C ltac:(congruence) PU) as (g' & E' & (M1 & M2 & M3 & M4 & M5 & M6) & _). assert (g' = g) by congruence. subst g'.
    set (h' := fun w => match inv w with Ok v => v | _ => w end).
    assert (H' : forall w v, inv w = Ok v -> h' v = w) by (intros w v Hw; unfold h'; rewrite (INV w v Hw); auto).
    assert (PU' : pure_on (invert_weight_mapper inv) (set_w h') h' g).
    { split; auto. split; [intros s t Ht|intros s w Hw]; cbn [m_tr m_fin invert_weight_mapper weight_mapper fwt fil fol].
      - destruct (M6 s) as [M6' _]. rewrite M6' in Ht. apply in_map_iff in Ht as (t0 & <- & Ht0). cbn [set_w wgt il ol ns].
        pose proof (P1 s t0 Ht0) as Hi. rewrite (INV _ _ Hi). cbn [rbind]. unfold set_w. cbn. rewrite (H' _ _ Hi). auto.
      - destruct (M6 s) as [_ M6']. rewrite M6' in Hw. destruct (fin_of f s) as [w0|] eqn:Ef; [|discriminate]. injection Hw as <-.
        pose proof (P2 s w0 Ef) as Hi. rewrite (INV _ _ Hi). cbn [rbind]. rewrite (H' _ _ Hi). auto. }
    destruct (C31_pure_mapper _ _ _ g M1 ltac:(congruence) PU') as (k & Ek & (K1 & K2 & K3 & K4 & K5 & K6) & _).
    exists k. split; auto. split; [|congruence]. apply vext; auto; [congruence|]. intros s. destruct (K6 s) as [-> ->]. destruct (M6 s) as [-> ->]. split.
    - rewrite map_map. rewrite <- (map_id (trs_of f s)) at 2. apply map_ext_in. intros t Ht. unfold set_w. cbn. rewrite (H' _ _ (P1 s t Ht)). destruct t; auto.
    - destruct (fin_of f s) as [w|] eqn:Ef; auto. cbn. rewrite (H' _ _ (P2 s w Ef)). auto.
  Qed.

  (** The epsilon mappers erase the labels of one side. *)
  Theorem C31_input_epsilon f : cnt f -> vstart f <> None ->
    exists g, tr_map input_epsilon_mapper f tt = Ok (g, tt) /\ mapped (fun t => Tr 0 (ol t) (wgt t) (ns t)) (fun w => w) f g /\
      ((exists s, trs_of f s <> []) -> fsound g).
  Proof.
    intros C V. destruct (C31_pure_mapper input_epsilon_mapper (fun t => Tr 0 (ol t) (wgt t) (ns t)) (fun w => w) f C V) as (g & A & B & D); [repeat split; auto|].
    exists g. split; auto. split; auto. intros [s Hs] bit Hb. rewrite D in Hb. cbn [input_epsilon_mapper m_props] in Hb.
    rewrite has_pset, has_pkeep in Hb. destruct B as (_ & _ & _ & _ & _ & M).
    assert (HB : bit = I_EPSILONS \/ bit = I_LABEL_SORTED) by (destruct bit; cbn in Hb; rewrite ?andb_false_r in Hb; try discriminate; auto).
    destruct HB as [-> | ->]; cbn [holds mach mtrs].
    - destruct (M s) as [M1 _]. destruct (trs_of f s) as [|t l]; [congruence|]. exists s, (Tr 0 (ol t) (wgt t) (ns t)). rewrite M1. split; [left|]; auto.
    - intros s'. destruct (M s') as [-> _]. rewrite map_map. cbn [il]. induction (trs_of f s') as [|t l IH]; cbn; constructor; auto.
      rewrite Forall_forall. intros; lia.
  Qed.
  Theorem C31_output_epsilon f : cnt f -> vstart f <> None ->
    exists g, tr_map output_epsilon_mapper f tt = Ok (g, tt) /\ mapped (fun t => Tr (il t) 0 (wgt t) (ns t)) (fun w => w) f g /\
      ((exists s, trs_of f s <> []) -> fsound g).
  Proof.
    intros C V. destruct (C31_pure_mapper output_epsilon_mapper (fun t => Tr (il t) 0 (wgt t) (ns t)) (fun w => w) f C V) as (g & A & B & D); [repeat split; auto|].
    exists g. split; auto. split; auto. intros [s Hs] bit Hb. rewrite D in Hb. cbn [output_epsilon_mapper m_props] in Hb.
    rewrite has_pset, has_pkeep in Hb. destruct B as (_ & _ & _ & _ & _ & M).
    assert (HB : bit = O_EPSILONS \/ bit = O_LABEL_SORTED) by (destruct bit; cbn in Hb; rewrite ?andb_false_r in Hb; try discriminate; auto).
    destruct HB as [-> | ->]; cbn [holds mach mtrs].
    - destruct (M s) as [M1 _]. destruct (trs_of f s) as [|t l]; [congruence|]. exists s, (Tr (il t) 0 (wgt t) (ns t)). rewrite M1. split; [left|]; auto.
    - intros s'. destruct (M s') as [-> _]. rewrite map_map. cbn [ol]. induction (trs_of f s') as [|t l IH]; cbn; constructor; auto.
      rewrite Forall_forall. intros; lia.
  Qed.

  (** Mappers that only rewrite weights keep the property bits they do not drop sound. *)
  Lemma mapped_uforget {K1 K2 : SR} (h : K1 -> K2) (f : vfst K1) (g : vfst K2) : mapped (set_w h) h f g -> meq (uforget (mach g)) (uforget (mach f)).
  Proof.
    intros (_ & _ & V & _ & _ & M). split; [|split]; cbn [uforget mach mstart mtrs mfin]; auto; intros s; destruct (M s) as [M1 M2]; [rewrite M1|rewrite M2].
    - rewrite map_map. apply map_ext. auto.
    - destruct (fin_of f s); auto.
  Qed.

  Lemma mapped_holds {K1 K2 : SR} (h : K1 -> K2) (f : vfst K1) (g : vfst K2) bit : mapped (set_w h) h f g -> In bit pm_weight_invariant_properties ->
    holds bit (num_states f) (mach f) -> holds bit (num_states g) (mach g).
  Proof.
    intros M Hb H. pose proof (mapped_uforget h f g M) as Q. pose proof M as (_ & N & _). rewrite N.
    apply uforget_holds; auto. eapply holds_meq; [apply meq_sym, Q|]. apply uforget_holds; auto.
  Qed.

  Theorem C31_weight_bits (h : K -> res K) (f g : vfst K) u : cnt f -> fsound f ->
    (forall s t, In t (trs_of f s) -> exists v, h (wgt t) = Ok v) -> (forall s w, fin_of f s = Some w -> exists v, h w = Ok v) ->
    tr_map (weight_mapper h (fun p => pkeep p pm_weight_invariant_properties)) f tt = Ok (g, u) -> fsound g.
  Proof.
    intros C S P1 P2 E. destruct (vstart f) as [s0|] eqn:V.
    2: { rewrite (C31_no_start _ f tt V) in E. injection E as <- _. auto. }
    set (h' := fun w => match h w with Ok v => v | _ => w end).
    destruct (C31_pure_mapper (weight_mapper h (fun p => pkeep p pm_weight_invariant_properties)) (set_w h') h' f C) as (g' & E' & M & B); [congruence| |].
    { split; auto. split; [intros s t Ht|intros s w Hw]; cbn [m_tr m_fin weight_mapper fwt fil fol].
      - destruct (P1 s t Ht) as [v Hv]. rewrite Hv. cbn [rbind]. unfold set_w, h'. rewrite Hv. auto.
      - destruct (P2 s w Hw) as [v Hv]. rewrite Hv. cbn [rbind]. unfold h'. rewrite Hv. auto. }
    assert (g' = g) by congruence. subst g'. intros bit Hb. rewrite B in Hb. cbn [weight_mapper m_props] in Hb. rewrite has_pkeep in Hb.
    apply andb_true_iff in Hb as [Hb1 Hb2]. apply (mapped_holds h' f g bit M); [apply inb_In; auto|apply S; auto].
  Qed.

  Theorem C31_rm_weight_bits (L : psr_laws K) (f g : vfst K) u : cnt f -> fsound f -> tr_map rm_weight_mapper f tt = Ok (g, u) -> fsound g.
  Proof.
    intros C S E. destruct (vstart f) as [s0|] eqn:V.
    2: { rewrite (C31_no_start _ f tt V) in E. injection E as <- _. auto. }
    set (h := fun w : K => if keqb w (@kzero K) then w else @kone K).
    destruct (C31_pure_mapper _ _ _ f C ltac:(congruence) (weight_pure h (fun p => pset (pkeep p pm_weight_invariant_properties) [UNWEIGHTED]) f)) as (g' & A & M & B).
    assert (g' = g) by (change (tr_map rm_weight_mapper f tt = Ok (g', tt)) in A; congruence). subst g'. intros bit Hb. rewrite B in Hb. cbn [weight_mapper m_props] in Hb.
    rewrite has_pset, has_pkeep in Hb. apply orb_true_iff in Hb. destruct (inb bit [UNWEIGHTED]) eqn:U.
    - apply inb_In in U. destruct U as [<-|[]]. cbn [holds mach mtrs mfin]. destruct M as (_ & _ & _ & _ & _ & M).
      assert (PL : forall w, plain (h w)) by (intros w; unfold h, plain; destruct (keqbP L w (@kzero K)); auto).
      split; intros s.
      + intros t Ht. destruct (M s) as [M1 _]. rewrite M1 in Ht. apply in_map_iff in Ht as (t0 & <- & _). apply PL.
      + intros w Hw. destruct (M s) as [_ M2]. rewrite M2 in Hw. destruct (fin_of f s); [|discriminate]. injection Hw as <-. apply PL.
    - destruct Hb as [Hb|Hb]; [|congruence]. apply andb_true_iff in Hb as [Hb1 Hb2]. apply (mapped_holds h f g bit M); [apply inb_In; auto|apply S; auto].
  Qed.
End Lib.

(** Conversion of the weights by a map of semirings carries over to the relation. *)
Theorem C31_simple_converter {K1 K2 : SR} (L1 : sr_laws K1) (L2 : sr_laws K2) (h : K1 -> K2) (f : vfst K1) :
  closed f -> vstart f <> None ->
  h (@kzero K1) = @kzero K2 -> (forall v w, h (kplus v w) = kplus (h v) (h w)) -> (forall v w, h (ktimes v w) = ktimes (h v) (h w)) ->
  exists g, weight_convert (simple_converter h) f tt = Ok (g, tt) /\ mapped (set_w h) h f g /\
    forall n x y, rel (mach g) n x y = h (rel (mach f) n x y).
Proof.
  intros C V H0 HP HT. destruct (C31_pure_converter (simple_converter h) (set_w h) h f C V) as (g & A & M & _); [repeat split; auto|].
  exists g. split; auto. split; auto. pose proof M as (_ & _ & M3 & _ & _ & M6).
  assert (HS : forall l, h (ksum l) = ksum (map h l)) by (induction l as [|w l IH]; cbn [ksum map]; [auto|rewrite HP, IH; auto]).
  assert (W : forall n s x y, wt (mach g) n s x y = h (wt (mach f) n s x y)).
  { induction n as [|n IH]; intros s x y; cbn [wt mach mtrs mfin]; destruct (M6 s) as [T1 T2].
    - rewrite T2. destruct (isnil x && isnil y); auto. destruct (fin_of f s); cbn; auto.
    - rewrite T1, HS, !map_map. f_equal. apply map_ext. intros t. cbn [set_w il ol wgt ns]. destruct (strip (il t) x); auto. destruct (strip (ol t) y); auto.
      rewrite IH, HT. auto. }
  intros n x y. unfold rel. cbn [mach mstart]. rewrite M3. destruct (vstart f); auto.
Qed.

(** ** What does not hold *)

(** With a required super-final state, a mapper that answers zero for a final weight is ignored by
    [tr_map]: the old final weight stays.  [weight_convert] removes it. *)
Theorem C31_require_zero_refuted : exists (mu : mapper unit natSR natSR) (f : vfst natSR), cnt f /\ closed f /\ m_action mu = MapRequireSuperfinal /\
  (forall t, m_fin mu tt t = Ok (tt, FT 0 0 0)) /\
  (exists g, tr_map mu f tt = Ok (g, tt) /\ fin_of g 0 = Some 5) /\ (exists g, weight_convert mu f tt = Ok (g, tt) /\ fin_of g 0 = None).
Proof.
  exists (Mapper (fun _ t => Ok (tt, t)) (fun _ _ => Ok (tt, @FT natSR 0 0 0)) MapRequireSuperfinal (fun p => p)),
    (VF [VS (Some (5 : natSR)) [] 0 0] (Some 0) None None 0%N).
  split; [repeat constructor|]. split.
  - split; [intros [|[|s]] t []|intros s [= <-]; cbn; lia].
  - split; auto. split; auto. split; eexists; split; vm_compute; reflexivity.
Qed.

(** The epsilon mappers claim epsilons on a machine without transitions. *)
Theorem C31_epsilon_bits_refuted : exists f : vfst natSR, cnt f /\ fsound f /\
  (exists g, tr_map input_epsilon_mapper f tt = Ok (g, tt) /\ has (vprops g) I_EPSILONS = true /\ ~ holds I_EPSILONS (num_states g) (mach g)) /\
  (exists g, tr_map output_epsilon_mapper f tt = Ok (g, tt) /\ has (vprops g) O_EPSILONS = true /\ ~ holds O_EPSILONS (num_states g) (mach g)).
Proof.
  exists (VF [VS (Some (1 : natSR)) [] 0 0] (Some 0) None None 0%N). split; [repeat constructor|]. split.
  - intros b Hb. destruct b; vm_compute in Hb; discriminate.
  - split; eexists; (split; [vm_compute; reflexivity|split; [vm_compute; reflexivity|intros (s & t & Ht & _)]]); destruct s as [|[|s]]; destruct Ht.
Qed.

(** The simple converter keeps the bit UNWEIGHTED although the value of the unit of one semiring
    need not be the unit of the other (1 is the unit of the probability weights, not of the
    tropical ones). *)
Theorem C31_simple_bits_refuted : exists f : vfst natSR, closed f /\ fsound f /\
  exists g, weight_convert (simple_converter (K2 := tropN) (fun w => Some w)) f tt = Ok (g, tt) /\
    has (vprops g) UNWEIGHTED = true /\ ~ holds UNWEIGHTED (num_states g) (mach g).
Proof.
  exists (VF [VS (Some (1 : natSR)) [] 0 0] (Some 0) None None (mask [UNWEIGHTED])). split; [|split].
  - split; [intros [|[|s]] t []|intros s [= <-]; cbn; lia].
  - intros b Hb. change (vprops _) with (mask [UNWEIGHTED]) in Hb. rewrite has_mask in Hb. apply inb_In in Hb as [<-|[]].
    split; [intros [|[|s]] t []|intros [|[|s]] w [= <-]]. right; reflexivity.
  - eexists. split; [vm_compute; reflexivity|]. split; [vm_compute; reflexivity|]. intros [_ H].
    destruct (H 0 (Some 1) eq_refl) as [E|E]; vm_compute in E; discriminate.
Qed.

(** Inversion: "reciprocate all non-Zero() weights", but the zero weights are not left alone: the
    tropical zero becomes minus infinity, and the probability zero is an error. *)
Theorem C31_invert_zero_refuted :
  trop_divide (Fin 0) PInf DivideAny = Ok MInf /\ prob_divide (Q2Qc 1) (Q2Qc 0) DivideAny = Err /\
  exists f : vfst C17.ext_sr, cnt f /\ fin_of f 0 = Some PInf /\
    exists g, tr_map (invert_weight_mapper (K := C17.ext_sr) (fun w => trop_divide (Fin 0) w DivideAny)) f tt = Ok (g, tt) /\
    fin_of g 0 = Some MInf /\ PInf = @kzero C17.ext_sr.
Proof.
  split; [reflexivity|]. split; [vm_compute; reflexivity|].
  exists (VF [VS (Some (PInf : C17.ext_sr)) [] 0 0] (Some 0) None None 0%N). split; [repeat constructor|]. split; auto.
  eexists. split; [vm_compute; reflexivity|]. split; auto.
Qed.

(** ** Cases *)
Definition ex_f : vfst natSR :=
  VF [VS None [@Tr natSR 1 2 3 1; @Tr natSR 0 1 2 0] 1 0; VS (Some (5 : natSR)) [] 0 0] (Some 0) None None 0%N.

Example C31_case_times : exists g, tr_map (times_mapper (K := natSR) 2) ex_f tt = Ok (g, tt) /\
  vstates g = [VS None [@Tr natSR 1 2 6 1; @Tr natSR 0 1 4 0] 1 0; VS (Some (10 : natSR)) [] 0 0] /\
  rel (mach ex_f) 1 [1] [2] = 15 /\ rel (mach g) 1 [1] [2] = 60.
Proof. eexists. split; [vm_compute; reflexivity|]. repeat split. Qed.

Example C31_case_super : exists g, tr_map (Mapper (fun n t => Ok (S n, Tr (n + 10) (ol t) (wgt t) (ns t))) (fun n t => Ok (S n, @FT natSR n 4 (fwt t))) MapAllowSuperfinal (fun p => p)) ex_f 0 = Ok (g, 3) /\
  vstates g = [VS None [@Tr natSR 10 2 3 1; @Tr natSR 11 1 2 0] 0 0; VS None [@Tr natSR 2 4 5 2] 0 0; VS (Some (1 : natSR)) [] 0 0].
Proof. eexists. split; [vm_compute; reflexivity|]. reflexivity. Qed.

Example C31_case_involution : forall w v : Qc, prob_divide (Q2Qc 1) w DivideAny = Ok v -> prob_divide (Q2Qc 1) v DivideAny = Ok w.
Proof.
  intros w v. unfold prob_divide. destruct (Qc_eq_bool w (Q2Qc 0)) eqn:E; [discriminate|]. intros [= <-].
  assert (W : w <> Q2Qc 0) by (intros ->; vm_compute in E; discriminate).
  destruct (Qc_eq_bool (Qcdiv (Q2Qc 1) w) (Q2Qc 0)) eqn:E2.
  - apply Qc_eq_bool_correct in E2. exfalso. assert (X : Q2Qc 1 = Q2Qc 0); [|apply Q2Qc_eq_iff in X; discriminate X].
    transitivity (Qcmult (Qcdiv (Q2Qc 1) w) w); [field; auto|]. rewrite E2. apply Qcmult_0_l.
  - f_equal. field. split; auto. intros X. apply (f_equal this) in X. discriminate X.
Qed.

Print Assumptions C31_no_start.
Print Assumptions C31_tr_map.
Print Assumptions C31_weight_convert.
Print Assumptions C31_pure_mapper.
Print Assumptions C31_pure_converter.
Print Assumptions C31_identity.
Print Assumptions C31_plus.
Print Assumptions C31_times.
Print Assumptions C31_rm_weight.
Print Assumptions C31_invert_twice.
Print Assumptions C31_input_epsilon.
Print Assumptions C31_output_epsilon.
Print Assumptions C31_weight_bits.
Print Assumptions C31_rm_weight_bits.
Print Assumptions C31_simple_converter.
Print Assumptions C31_require_zero_refuted.
Print Assumptions C31_epsilon_bits_refuted.
Print Assumptions C31_simple_bits_refuted.
Print Assumptions C31_invert_zero_refuted.
