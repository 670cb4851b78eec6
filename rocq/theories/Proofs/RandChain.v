(** The machine that the random-generation visitor writes: one chain per drawn path. *)
From Coq Require Import List Arith NArith Lia Bool.
From Verif Require Import Base.Util Base.Semiring Base.Machine Model.Props Model.VectorFst Model.Dfs Model.RandGen
  Proofs.VectorFacts Proofs.VectorProps Proofs.TrOpsFacts Proofs.OpFacts Proofs.RationalFacts Proofs.HistoryFacts Proofs.RandTree.
Import ListNotations.

Section C.
  Context {K : SR}.
  Implicit Types (g h : vfst K) (p q : list (tr K)).

  Definition succ g p : Prop := is_path (mach g) 0 p /\ fin_of g (dst 0 p) <> None.
  Definition nonempty p : bool := match p with [] => false | _ => true end.
  Definition plen (E : list (list (tr K))) : nat := list_sum (map (@length _) E).

  Record outs (E : list (list (tr K))) g : Prop := {
    o_closed : closed g;
    o_cnt : cnt g;
    o_trs : forall s t, In t (trs_of g s) -> ns t <> 0 /\ wgt t = kone;
    o_fin : forall s w, fin_of g s = Some w -> w = kone;
    o_size : num_states g = match E with [] => 0 | _ => 1 + plen E end;
    o_start : vstart g = match E with [] => None | _ => Some 0 end;
    o_empty : fin_of g 0 <> None <-> In [] E;
    o_paths : exists P, NoDup P /\ (forall p, In p P <-> p <> [] /\ succ g p) /\ map glabs P = map glabs (filter nonempty E)
  }.

  (** ** One chain *)
  Fixpoint chain_from (n : nat) p : list (tr K) :=
    match p with [] => [] | t :: p => Tr (il t) (ol t) kone n :: chain_from (S n) p end.
  Lemma chain_labs p : forall n, glabs (chain_from n p) = glabs p.
  Proof. induction p as [|t p IH]; intros n; cbn; auto. f_equal. apply IH. Qed.

  Record put g (src : nat) p g' (e : nat) : Prop := {
    pt_n : num_states g' = num_states g + length p;
    pt_e : e = dst src (chain_from (num_states g) p);
    pt_old : forall s, s < num_states g -> trs_of g' s = trs_of g s ++ (if s =? src then firstn 1 (chain_from (num_states g) p) else []);
    pt_new : forall i, i < length p -> trs_of g' (num_states g + i) = firstn 1 (skipn (S i) (chain_from (num_states g) p));
    pt_fin : forall s, fin_of g' s = fin_of g s;
    pt_start : vstart g' = vstart g;
    pt_is : visymt g' = visymt g;
    pt_os : vosymt g' = vosymt g;
    pt_cnt : cnt g -> cnt g'
  }.

  Lemma put_path_ok p : forall g src, src < num_states g -> exists g' e, put_path g src p = Ok (g', e) /\ put g src p g' e.
  Proof.
    induction p as [|t p IH]; intros g src Hs; cbn [put_path].
    - exists g, src. split; auto. constructor; auto; cbn [length chain_from firstn].
      + intros. destruct (s =? src); rewrite app_nil_r; auto.
      + lia.
    - destruct (add_state_eff g) as (E1 & E2 & E3 & E4 & E5 & E6 & E7 & E8). destruct (add_state g) as [g1 d] eqn:EA. cbn [fst snd] in *. subst d.
      destruct (add_tr_eff g1 src (Tr (il t) (ol t) kone (num_states g))) as (g2 & F0 & (F1 & F2 & F3 & F4 & F5) & F6 & F7); [lia|].
      rewrite F0. cbn [rbind]. destruct (IH g2 (num_states g)) as (g' & e & D0 & D); [lia|]. exists g', e. split; auto. destruct D.
      assert (En : num_states g2 = S (num_states g)) by congruence. rewrite En in *. constructor; try congruence; cbn [length chain_from firstn]; auto.
      + lia.
      + intros s H. rewrite pt_old0 by lia. rewrite F6. destruct (Nat.eqb_spec s (num_states g)); [lia|]. rewrite app_nil_r, !E7.
        destruct (Nat.eqb_spec s src); subst; auto. rewrite app_nil_r; auto.
      + intros [|i] Hi.
        * rewrite Nat.add_0_r, pt_old0, F6, Nat.eqb_refl by lia. destruct (Nat.eqb_spec (num_states g) src); [lia|].
          rewrite E7, (trs_of_oob g) by auto. reflexivity.
        * replace (num_states g + S i) with (S (num_states g) + i) by lia. rewrite pt_new0 by lia. reflexivity.
  Qed.

  Lemma chain_len p : forall n, length (chain_from n p) = length p.
  Proof. induction p; intros; cbn; auto. Qed.
  Lemma chain_nth p : forall n i, nth_error (chain_from n p) i = option_map (fun t => Tr (il t) (ol t) kone (n + i)) (nth_error p i).
  Proof.
    induction p as [|t p IH]; intros n i; destruct i; cbn [chain_from nth_error option_map]; auto.
    - rewrite Nat.add_0_r. auto.
    - rewrite IH. destruct (nth_error p i); cbn; auto. do 2 f_equal. lia.
  Qed.
  Lemma chain_dst p : forall n src, p <> [] -> dst src (chain_from n p) = n + length p - 1.
  Proof.
    induction p as [|t p IH]; intros n src H; [congruence|]. cbn [chain_from dst ns]. destruct p as [|u p].
    - cbn. lia.
    - rewrite IH by discriminate. cbn [length]. lia.
  Qed.
  Lemma first_skip (l : list (tr K)) i : firstn 1 (skipn i l) = match nth_error l i with Some t => [t] | None => [] end.
  Proof. revert l. induction i as [|i IH]; intros [|t l]; cbn; auto. apply IH. Qed.
  Lemma skip_cons (l : list (tr K)) i t : nth_error l i = Some t -> skipn i l = t :: skipn (S i) l.
  Proof. revert l. induction i as [|i IH]; intros [|u l] H; cbn in *; try discriminate; [congruence|]. rewrite (IH l H). reflexivity. Qed.

  (** ** Writing one path *)
  Variable L : lsr_laws K.

  Lemma fsound_put p : forall g src g' e, put_path g src p = Ok (g', e) -> fsound g -> fsound g'.
  Proof.
    induction p as [|t p IH]; intros g src g' e; cbn [put_path]; [intros [= <- _]; auto|].
    pose proof (add_state_eq g) as EA. destruct (add_state g) as [ga da]. cbn [fst] in EA. subst ga. intros H S. destruct (add_tr _ _ _) as [g2| |] eqn:E; try discriminate. cbn [rbind] in H.
    eapply IH; [exact H|]. eapply (fsound_add_tr L); [|exact E]. apply fsound_add_states; auto.
  Qed.

  Lemma outs_core E g p : E <> [] \/ (num_states g = 1 /\ vstart g = Some 0) ->
    (num_states g = 1 + plen E /\ vstart g = Some 0) ->
    closed g -> cnt g -> (forall s t, In t (trs_of g s) -> ns t <> 0 /\ wgt t = kone) -> (forall s w, fin_of g s = Some w -> w = kone) ->
    (fin_of g 0 <> None <-> In [] E) ->
    (exists P, NoDup P /\ (forall p, In p P <-> p <> [] /\ succ g p) /\ map glabs P = map glabs (filter nonempty E)) ->
    exists g1 e g2, put_path g 0 p = Ok (g1, e) /\ set_final g1 e kone = Ok g2 /\ outs (E ++ [p]) g2 /\
      visymt g2 = visymt g /\ vosymt g2 = vosymt g.
  Proof.
    intros _ [N S0] C CN HT HF HE HP. destruct (put_path_ok p g 0) as (g1 & e & P0 & D); [lia|]. exists g1, e.
    set (n := num_states g) in *. set (ch := chain_from n p).
    assert (Le : e < num_states g1).
    { rewrite (pt_n _ _ _ _ _ D), (pt_e _ _ _ _ _ D). fold n. destruct p as [|t p]; [cbn; lia|]. rewrite chain_dst by discriminate. cbn [length]. lia. }
    destruct (set_final_eff g1 e kone Le) as (g2 & F0 & (F1 & F2 & F3 & F4 & F5) & F6 & F7). exists g2.
    split; auto. split; auto.
    assert (TO : forall s, s < n -> trs_of g2 s = trs_of g s ++ (if s =? 0 then firstn 1 ch else [])).
    { intros s H. rewrite F6. apply (pt_old _ _ _ _ _ D); auto. }
    assert (TN : forall i, i < length p -> trs_of g2 (n + i) = firstn 1 (skipn (S i) ch)).
    { intros i H. rewrite F6. apply (pt_new _ _ _ _ _ D); auto. }
    assert (FI : forall s, fin_of g2 s = if s =? e then Some kone else fin_of g s).
    { intros s. rewrite F7, (pt_fin _ _ _ _ _ D). auto. }
    assert (N2 : num_states g2 = n + length p) by (rewrite F1; apply (pt_n _ _ _ _ _ D)).
    assert (CT : forall t, In t ch -> n <= ns t < n + length p /\ wgt t = kone).
    { intros t Ht. apply In_nth_error in Ht as (i & Ei). unfold ch in Ei. rewrite chain_nth in Ei. destruct (nth_error p i) eqn:Ep; [|discriminate].
      injection Ei as <-. apply nth_error_lt in Ep. cbn. split; auto. lia. }
    assert (F1C : forall i t, In t (firstn 1 (skipn i ch)) -> In t ch).
    { intros i t. rewrite first_skip. destruct (nth_error ch i) eqn:Ei; [|intros []]. intros [<-|[]]. eapply nth_error_In; eauto. }
    assert (TG : forall s t, In t (trs_of g2 s) -> In t (trs_of g s) \/ In t ch).
    { intros s t H. destruct (Nat.lt_ge_cases s n) as [Hs|Hs].
      - rewrite TO in H by auto. apply in_app_or in H as [H|H]; auto. right. destruct (s =? 0); [|destruct H]. apply (F1C 0). auto.
      - destruct (Nat.lt_ge_cases s (n + length p)) as [Hs'|Hs'].
        + replace s with (n + (s - n)) in H by lia. rewrite TN in H by lia. right. eapply F1C; eauto.
        + rewrite (trs_of_oob g2) in H by lia. destruct H. }
    assert (En : e = 0 /\ p = [] \/ e = n + length p - 1 /\ p <> []).
    { rewrite (pt_e _ _ _ _ _ D). fold n. destruct p as [|t p']; [left; auto|right]. rewrite chain_dst by discriminate. split; auto. discriminate. }
    split; [|rewrite F3, F4, (pt_is _ _ _ _ _ D), (pt_os _ _ _ _ _ D); auto].
    constructor.
    - split.
      + intros s t H. apply TG in H as [H|H]; [apply (proj1 C) in H; fold n in H; lia|apply CT in H; lia].
      + intros s H. rewrite F2, (pt_start _ _ _ _ _ D), S0 in H. injection H as <-. lia.
    - apply F5, (pt_cnt _ _ _ _ _ D); auto.
    - intros s t H. apply TG in H as [H|H]; [eapply HT; eauto|]. apply CT in H as [H1 H2]. split; auto. lia.
    - intros s w H. rewrite FI in H. destruct (s =? e); [congruence|eapply HF; eauto].
    - assert (X : plen (E ++ [p]) = plen E + length p) by (unfold plen; rewrite map_app, list_sum_app; cbn; lia).
      destruct (E ++ [p]) eqn:EE; [destruct E; discriminate|]. rewrite <- EE in *. lia.
    - rewrite F2, (pt_start _ _ _ _ _ D), S0. destruct E; reflexivity.
    - rewrite FI, in_app_iff. cbn [In]. destruct En as [[-> ->]|[-> Hp]].
      + cbn. split; auto. intros _. discriminate.
      + assert (0 < length p) by (destruct p; [congruence|cbn; lia]). destruct (Nat.eqb_spec 0 (n + length p - 1)); [lia|]. rewrite HE. split; auto.
        intros [H1|[H1|[]]]; auto. congruence.
    - destruct HP as (P & P1 & P2 & P3).
      (* paths inside the old part *)
      assert (OP : forall q s, 0 < s < n -> is_path (mach g2) s q <-> is_path (mach g) s q).
      { induction q as [|t q IH]; intros s Hs; cbn [is_path mach mtrs]; [tauto|]. rewrite TO by lia. destruct (Nat.eqb_spec s 0); [lia|]. rewrite app_nil_r.
        split; intros [X1 X2]; split; auto; apply IH; auto; pose proof (proj1 C _ _ X1); pose proof (proj1 (HT _ _ X1)); fold n in H; lia. }
      assert (OD : forall q s, 0 < s < n -> is_path (mach g) s q -> 0 < dst s q < n).
      { induction q as [|t q IH]; intros s Hs; cbn [is_path mach mtrs dst]; auto. intros [X1 X2]. apply IH; auto.
        pose proof (proj1 C _ _ X1). pose proof (proj1 (HT _ _ X1)). fold n in H. lia. }
      destruct En as [[-> ->]|[Ee Hp]].
      { exists P. split; auto. split.
        - intros q. rewrite P2. unfold succ. split; intros [A [B D']]; split; auto; destruct q as [|t q]; try congruence; cbn [is_path dst mach mtrs] in *;
            destruct B as [B1 B2].
          + pose proof (proj1 C _ _ B1) as X. fold n in X. pose proof (proj1 (HT _ _ B1)). rewrite TO by lia. cbn [Nat.eqb firstn ch chain_from]. rewrite app_nil_r.
            split; [split; [auto|apply OP; [lia|auto]]|]. pose proof (OD q (ns t) ltac:(lia) B2). rewrite FI. destruct (Nat.eqb_spec (dst (ns t) q) 0); [lia|]. auto.
          + rewrite TO in B1 by lia. cbn [Nat.eqb firstn ch chain_from] in B1. rewrite app_nil_r in B1.
            pose proof (proj1 C _ _ B1) as X. fold n in X. pose proof (proj1 (HT _ _ B1)). apply OP in B2; [|lia].
            pose proof (OD q (ns t) ltac:(lia) B2). rewrite FI in D'. destruct (Nat.eqb_spec (dst (ns t) q) 0); [lia|]. auto.
        - rewrite filter_app. cbn. rewrite app_nil_r. auto. }
      (* paths along the chain *)
      assert (NP : forall k i q, i + k = length p - 1 -> i < length p ->
        (is_path (mach g2) (n + i) q /\ fin_of g2 (dst (n + i) q) <> None) <-> q = skipn (S i) ch).
      { assert (LC : length ch = length p) by apply chain_len.
        induction k as [|k IH]; intros i q Hk Hi.
        - rewrite (skipn_all2 ch) by lia. destruct q as [|t q]; cbn [is_path dst mach mtrs].
          + rewrite FI. destruct (Nat.eqb_spec (n + i) e); [|lia]. split; auto. intros _. split; [auto|discriminate].
          + rewrite TN by auto. rewrite (skipn_all2 ch) by lia. cbn [firstn In]. split; [tauto|discriminate].
        - destruct (nth_error_ex ch (S i)) as (u & Eu); [lia|]. rewrite (skip_cons ch (S i) u Eu).
          assert (ns u = n + S i). { unfold ch in Eu. rewrite chain_nth in Eu. destruct (nth_error p (S i)); [|discriminate]. injection Eu as <-. auto. }
          destruct q as [|t q]; cbn [is_path dst mach mtrs].
          + rewrite FI. destruct (Nat.eqb_spec (n + i) e); [lia|]. rewrite fin_of_oob by (fold n; lia). split; [tauto|discriminate].
          + rewrite TN by auto. rewrite first_skip, Eu. cbn [In]. split.
            * intros [[[->|[]] B] D']. rewrite H in *. f_equal. apply (IH (S i)); auto; lia.
            * intros [= -> ->]. rewrite H. destruct (proj2 (IH (S i) _ ltac:(lia) ltac:(lia)) eq_refl). auto. }
      destruct p as [|t0 p']; [congruence|]. set (p := t0 :: p') in *.
      exists (P ++ [ch]). split; [|split].
      + apply nodup_app; auto; [repeat constructor; intros []|]. intros x X [<-|[]]. apply P2 in X as [_ [X _]].
        unfold ch, p in X. cbn [chain_from is_path mach mtrs] in X. destruct X as [X _]. apply (proj1 C) in X. cbn in X. fold n in X. lia.
      + intros q. rewrite in_app_iff, P2. unfold succ. cbn [In]. destruct q as [|t q].
        { split; [intros [[X _]|[X|[]]]; [congruence|discriminate]|intros [X _]; congruence]. }
        cbn [is_path dst mach mtrs]. rewrite TO by lia. cbn [Nat.eqb]. unfold ch at 2, p at 1. cbn [chain_from firstn]. rewrite in_app_iff. cbn [In].
        split.
        * intros [[A [[B1 B2] D']]|[X|[]]].
          -- pose proof (proj1 C _ _ B1) as X. fold n in X. pose proof (proj1 (HT _ _ B1)). split; auto.
             split; [split; [left; auto|apply OP; [lia|auto]]|]. pose proof (OD q (ns t) ltac:(lia) B2). rewrite FI. destruct (Nat.eqb_spec (dst (ns t) q) e); [|auto]. cbn [length p] in *. lia.
          -- split; [discriminate|]. unfold ch, p in X. cbn [chain_from] in X. injection X as <- <-. split; [split; auto|].
             ++ destruct (proj2 (NP (length p') 0 (chain_from (S n) p') ltac:(cbn; lia) ltac:(cbn; lia)) eq_refl) as [Y _]. rewrite Nat.add_0_r in Y. auto.
             ++ destruct (proj2 (NP (length p') 0 (chain_from (S n) p') ltac:(cbn; lia) ltac:(cbn; lia)) eq_refl) as [_ Y]. rewrite Nat.add_0_r in Y. auto.
        * intros [_ [[[B1|[<-|[]]] B2] D']].
          -- left. pose proof (proj1 C _ _ B1) as X. fold n in X. pose proof (proj1 (HT _ _ B1)). apply OP in B2; [|lia].
             pose proof (OD q (ns t) ltac:(lia) B2). rewrite FI in D'. destruct (Nat.eqb_spec (dst (ns t) q) e); [cbn [length p] in *; lia|].
             split; [discriminate|]. auto.
          -- right. left. cbn [ns] in *. assert (Y : q = skipn 1 ch). { apply (NP (length p') 0); [cbn; lia|cbn; lia|]. rewrite Nat.add_0_r. auto. }
             rewrite Y. reflexivity.
      + rewrite filter_app, !map_app, P3. cbn. f_equal. f_equal. unfold ch, p. cbn. f_equal. apply (chain_labs p' (S n)).
  Qed.

  Lemma outs_step E g p : outs E g -> exists g', output_path (RV g p) = Ok (RV g' p) /\ outs (E ++ [p]) g' /\
    visymt g' = visymt g /\ vosymt g' = vosymt g /\ (fsound g -> fsound g').
  Proof.
    intros O. unfold output_path. cbn [rv_ofst rv_path]. rewrite (o_start _ _ O). destruct E as [|p0 E].
    - pose proof (add_state_eq g) as EA. pose proof (proj1 (add_state_eff g)) as ED. destruct (add_state g) as [ga da]. cbn [fst snd] in *. subst ga.
      pose proof (o_size _ _ O) as N. cbn beta iota in N. rewrite N in ED. subst da.
      destruct (add_states_eff g 1) as (A1 & A2 & A3 & A4 & A5 & A6 & A7).
      destruct (set_start_eff (add_states g 1) 0) as (g0 & B0 & B1 & B2 & B3 & B4 & B5 & B6 & B7); [lia|]. rewrite B0. cbn [rbind]. rewrite B2.
      destruct (outs_core [] g0 p) as (g1 & e & g2 & C1 & C2 & C3 & C4 & C5).
      + right. split; auto. lia.
      + cbn. split; auto. lia.
      + split.
        * intros s t H. rewrite B6, A6 in H. rewrite (trs_of_oob g) in H by lia. destruct H.
        * intros s H. rewrite B2 in H. injection H as <-. lia.
      + apply B5, A5, (o_cnt _ _ O).
      + intros s t H. rewrite B6, A6 in H. rewrite (trs_of_oob g) in H by lia. destruct H.
      + intros s w H. rewrite B7, A7 in H. rewrite fin_of_oob in H by lia. discriminate.
      + rewrite B7, A7, fin_of_oob by lia. split; [congruence|intros []].
      + exists []. split; [constructor|]. split; auto. intros q. split; [intros []|]. intros [H [H1 _]]. destruct q as [|t q]; [congruence|].
        destruct H1 as [H1 _]. cbn in H1. rewrite B6, A6, (trs_of_oob g) in H1 by lia. destruct H1.
      + rewrite C1. cbn [rbind fst snd]. rewrite C2. cbn [rbind]. exists g2. split; auto. split; auto. split; [congruence|]. split; [congruence|].
        intros S. eapply (fsound_set_final L); [|exact C2]. eapply fsound_put; [exact C1|]. eapply fsound_set_start; [|exact B0]. apply fsound_add_states; auto.
    - cbn [rbind]. rewrite (o_start _ _ O). destruct (outs_core (p0 :: E) g p) as (g1 & e & g2 & C1 & C2 & C3 & C4 & C5).
      + left. discriminate.
      + rewrite (o_size _ _ O), (o_start _ _ O). auto.
      + apply O.
      + apply O.
      + apply O.
      + apply O.
      + apply O.
      + apply O.
      + rewrite C1. cbn [rbind fst snd]. rewrite C2. cbn [rbind]. exists g2. split; auto. split; auto. split; auto. split; auto.
        intros S. eapply (fsound_set_final L); [|exact C2]. eapply fsound_put; [exact C1|]. auto.
  Qed.
End C.
