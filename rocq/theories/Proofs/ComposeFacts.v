(** Composition: what one state expands to, and the sum over pairs of paths. *)
From Coq Require Import List Arith NArith Bool Lia Sorted.
From Verif Require Import Base.Util Base.Semiring Base.Machine Model.Props Model.VectorFst Model.Matchers
  Model.BiMap Model.Lazy Model.AlgoProps Model.Visitors Model.Compose.
From Verif Require Import Proofs.PropsFacts Proofs.VectorFacts Proofs.TrOpsFacts Proofs.HistoryFacts Proofs.OpFacts
  Proofs.BiMapFacts Proofs.LazyFacts Proofs.TableFacts.
From Verif Require Import Props.C06 Props.C20.
Import ListNotations.

Section A.
  Context {K : SR}.
  Implicit Types (f : vfst K).

  Lemma get_trs_in f s : s < num_states f -> get_trs f s = Ok (trs_of f s).
  Proof. intros H. destruct (nth_state f s H) as (st & E & E1 & _). unfold get_trs, get_state. rewrite E, E1. auto. Qed.
  Lemma final_in f s : s < num_states f -> final_weight f s = Ok (fin_of f s).
  Proof. intros H. destruct (nth_state f s H) as (st & E & _ & E1). unfold final_weight, get_state. rewrite E, E1. auto. Qed.
  Lemma num_trs_in f s : s < num_states f -> num_trs f s = Ok (length (trs_of f s)).
  Proof. intros H. destruct (nth_state f s H) as (st & E & E1 & _). unfold num_trs, get_state. rewrite E, E1. auto. Qed.
  Lemma num_ieps_in f s : cnt f -> s < num_states f -> num_input_epsilons f s = Ok (count ieps (trs_of f s)).
  Proof.
    intros C H. destruct (nth_state f s H) as (st & E & E1 & _). unfold num_input_epsilons, get_state. rewrite E, E1. cbn.
    destruct (cnt_nth _ _ _ C E) as [-> _]. auto.
  Qed.
  Lemma num_oeps_in f s : cnt f -> s < num_states f -> num_output_epsilons f s = Ok (count oeps (trs_of f s)).
  Proof.
    intros C H. destruct (nth_state f s H) as (st & E & E1 & _). unfold num_output_epsilons, get_state. rewrite E, E1. cbn.
    destruct (cnt_nth _ _ _ C E) as [_ ->]. auto.
  Qed.

  Lemma count_all {A} (p : A -> bool) l : Nat.eqb (length l) (count p l) = forallb p l.
  Proof.
    assert (G : forall l, count p l <= length l).
    { clear l. induction l as [|a l IH]; auto. rewrite count_cons. simpl. destruct (p a); lia. }
    induction l as [|a l IH]; auto. rewrite count_cons. simpl length. cbn [forallb]. destruct (p a); simpl; auto.
    specialize (G l). destruct (count p l); auto. apply Nat.eqb_neq. lia.
  Qed.
  Lemma count_none {A} (p : A -> bool) l : Nat.eqb (count p l) 0 = negb (existsb p l).
  Proof. induction l as [|a l IH]; auto. rewrite count_cons. cbn [existsb]. destruct (p a); simpl; auto. Qed.

  (** ** One filter step, as a function of the two labels met *)
  Definition fstep (flt : cfilter) (e : cenv) (q1 q2 : qlab) : option nat :=
    filter_tr (K := K) flt e (QT (Lab 0) q1 kone 0) (QT q2 (Lab 0) kone 0).
  Lemma filter_fstep flt e (a1 a2 : qtr K) : filter_tr flt e a1 a2 = fstep flt e (qol a1) (qil a2).
  Proof. destruct flt; reflexivity. Qed.

  Definition some_b {A} (o : option A) : bool := match o with Some _ => true | None => false end.
  (** Every way out of the state is an epsilon; there is no epsilon. *)
  Definition stuck (p : tr K -> bool) f s : bool := forallb p (trs_of f s) && negb (some_b (fin_of f s)).
  Definition none (p : tr K -> bool) f s : bool := negb (existsb p (trs_of f s)).

  Definition env (flt : cfilter) f1 f2 (fs s1 s2 : nat) : cenv :=
    match flt with
    | SequenceF => CE fs (stuck oeps f1 s1) (none oeps f1 s1) false false
    | AltSequenceF => CE fs false false (stuck ieps f2 s2) (none ieps f2 s2)
    | MatchF => CE fs (stuck oeps f1 s1) (none oeps f1 s1) (stuck ieps f2 s2) (none ieps f2 s2)
    | _ => CE fs false false false false
    end.

  Lemma is_final_in f s : s < num_states f -> is_final f s = Ok (some_b (fin_of f s)).
  Proof. intros H. unfold is_final. rewrite final_in by auto. auto. Qed.
  Lemma look1_eq f s : cnt f -> s < num_states f -> look1 f s = Ok (stuck oeps f s, none oeps f s).
  Proof.
    intros C H. unfold look1. rewrite num_trs_in, num_oeps_in, is_final_in by auto. cbn.
    rewrite count_all, count_none. auto.
  Qed.
  Lemma look2_eq f s : cnt f -> s < num_states f -> look2 f s = Ok (stuck ieps f s, none ieps f s).
  Proof.
    intros C H. unfold look2. rewrite num_trs_in, num_ieps_in, is_final_in by auto. cbn.
    rewrite count_all, count_none. auto.
  Qed.
  Lemma set_state_eq flt f1 f2 fs s1 s2 : cnt f1 -> cnt f2 -> s1 < num_states f1 -> s2 < num_states f2 ->
    set_state flt f1 f2 s1 s2 fs = Ok (env flt f1 f2 fs s1 s2).
  Proof. intros C1 C2 H1 H2. destruct flt; cbn; rewrite ?look1_eq, ?look2_eq by auto; auto. Qed.

  (** ** Expansion of one state *)
  Lemma sm_items_eq f mt s lab : mt = MInput \/ mt = MOutput -> s < num_states f ->
    StronglySorted le (map (side mt) (trs_of f s)) ->
    sm_items f mt s lab =
      Ok ((match lab with Lab 0 => [ILoop] | _ => [] end) ++
          map ITr (filter (fun t => Nat.eqb (side mt t) (match lab with Lab l => l | NoLab => 0 end)) (trs_of f s))).
  Proof.
    intros Hmt H S. unfold sm_items. rewrite get_trs_in by auto. cbn [rbind].
    destruct (C20_sorted_matcher mt (trs_of f s) lab Hmt S) as (it0 & it & E1 & E2 & _).
    rewrite E1. cbn [rbind]. rewrite E2. auto.
  Qed.

  Definition opt_list {A B} (o : option A) (g : A -> B) : list B := match o with Some a => [g a] | None => [] end.

  (** The three kinds of moves. *)
  Definition e1move flt e s2 (t : tr K) : list (ttr K ctuple) :=
    opt_list (fstep flt e (Lab (ol t)) NoLab) (fun fs => TT (il t) 0 (ktimes (wgt t) kone) (fs, ns t, s2)).
  Definition e2move flt e s1 (t : tr K) : list (ttr K ctuple) :=
    opt_list (fstep flt e NoLab (Lab (il t))) (fun fs => TT 0 (ol t) (ktimes kone (wgt t)) (fs, s1, ns t)).
  Definition bmove flt e (t1 t2 : tr K) : list (ttr K ctuple) :=
    opt_list (fstep flt e (Lab (ol t1)) (Lab (il t2))) (fun fs => TT (il t1) (ol t2) (ktimes (wgt t1) (wgt t2)) (fs, ns t1, ns t2)).

  Lemma selected_in flt e sa (t1 : tr K) l :
    match_tr_selected flt e sa (qtr_of t1) true (map ITr l) = Ok (flat_map (bmove flt e t1) l).
  Proof.
    induction l as [|t2 l IH]; auto. cbn [map match_tr_selected into_tr rbind flat_map].
    rewrite filter_fstep. unfold bmove at 1. cbn [qtr_of qol qil].
    destruct (fstep flt e (Lab (ol t1)) (Lab (il t2))); rewrite IH; cbn; auto.
  Qed.
  Lemma selected_out flt e sa (t2 : tr K) l :
    match_tr_selected flt e sa (qtr_of t2) false (map ITr l) = Ok (flat_map (fun t1 => bmove flt e t1 t2) l).
  Proof.
    induction l as [|t1 l IH]; auto. cbn [map match_tr_selected into_tr rbind flat_map].
    rewrite filter_fstep. unfold bmove at 1. cbn [qtr_of qol qil].
    destruct (fstep flt e (Lab (ol t1)) (Lab (il t2))); rewrite IH; cbn; auto.
  Qed.
  Lemma selected_loop_in flt e sa sb (l : list (tr K)) :
    match_tr_selected flt e sa (QT (Lab 0) NoLab kone sb) true (map ITr l) = Ok (flat_map (e2move flt e sb) l).
  Proof.
    induction l as [|t2 l IH]; auto. cbn [map match_tr_selected into_tr rbind flat_map].
    rewrite filter_fstep. unfold e2move at 1. cbn [qtr_of qol qil].
    destruct (fstep flt e NoLab (Lab (il t2))); rewrite IH; cbn; auto.
  Qed.
  Lemma selected_loop_out flt e sa sb (l : list (tr K)) :
    match_tr_selected flt e sa (QT NoLab (Lab 0) kone sb) false (map ITr l) = Ok (flat_map (e1move flt e sb) l).
  Proof.
    induction l as [|t2 l IH]; auto. cbn [map match_tr_selected into_tr rbind flat_map].
    rewrite filter_fstep. unfold e1move at 1. cbn [qtr_of qol qil].
    destruct (fstep flt e (Lab (ol t2)) NoLab); rewrite IH; cbn; auto.
  Qed.

  Definition moves_in flt e f1 f2 s1 s2 : list (ttr K ctuple) :=
    flat_map (e2move flt e s1) (filter ieps (trs_of f2 s2)) ++
    flat_map (fun t1 => (if oeps t1 then e1move flt e s2 t1 else []) ++
                        flat_map (bmove flt e t1) (filter (fun t2 => Nat.eqb (il t2) (ol t1)) (trs_of f2 s2)))
      (trs_of f1 s1).
  Definition moves_out flt e f1 f2 s1 s2 : list (ttr K ctuple) :=
    flat_map (e1move flt e s2) (filter oeps (trs_of f1 s1)) ++
    flat_map (fun t2 => (if ieps t2 then e2move flt e s1 t2 else []) ++
                        flat_map (fun t1 => bmove flt e t1 t2) (filter (fun t1 => Nat.eqb (ol t1) (il t2)) (trs_of f1 s1)))
      (trs_of f2 s2).

  Lemma selected_app flt e sa (t : qtr K) mi l1 : forall l2 r1 r2, match_tr_selected flt e sa t mi l1 = Ok r1 ->
    match_tr_selected flt e sa t mi l2 = Ok r2 -> match_tr_selected flt e sa t mi (l1 ++ l2) = Ok (r1 ++ r2).
  Proof.
    induction l1 as [|x l1 IH]; intros l2 r1 r2 E1 E2; cbn [match_tr_selected app] in *.
    - injection E1 as <-. auto.
    - destruct (into_tr x sa (if mi then MInput else MOutput)) as [a| |]; try discriminate. cbn [rbind] in *.
      destruct (filter_tr flt e _ _).
      + destruct (cadd_tr _ _ _) as [u| |]; try discriminate. cbn [rbind] in *.
        destruct (match_tr_selected flt e sa t mi l1) as [r| |] eqn:E; try discriminate.
        injection E1 as <-. rewrite (IH l2 r r2); auto.
      + auto.
  Qed.

  Lemma expand_in flt f1 f2 e s1 s2 : s1 < num_states f1 -> s2 < num_states f2 ->
    StronglySorted le (map il (trs_of f2 s2)) ->
    ordered_expand flt f1 f2 e s2 s1 true = Ok (moves_in flt e f1 f2 s1 s2).
  Proof.
    intros H1 H2 S. unfold ordered_expand. rewrite get_trs_in by auto. cbn [rbind match_trs].
    unfold match_tr at 1. cbn [qol]. rewrite sm_items_eq by auto. cbn [rbind].
    cbn [app side]. change (fun t : tr K => il t =? 0) with (@ieps K). rewrite selected_loop_in. cbn [rbind].
    assert (G : forall l, match_trs flt f1 f2 e s2 (map qtr_of l) true =
      Ok (flat_map (fun t1 => (if oeps t1 then e1move flt e s2 t1 else []) ++
                        flat_map (bmove flt e t1) (filter (fun t2 => Nat.eqb (il t2) (ol t1)) (trs_of f2 s2))) l)).
    { induction l as [|t1 l IH]; auto. cbn [map match_trs flat_map]. unfold match_tr at 1. cbn [qol qtr_of].
      rewrite sm_items_eq by auto. cbn [rbind side].
      rewrite (selected_app _ _ _ _ _ _ _ (if oeps t1 then e1move flt e s2 t1 else [])
        (flat_map (bmove flt e t1) (filter (fun t2 => Nat.eqb (il t2) (ol t1)) (trs_of f2 s2)))).
      - cbn [rbind]. rewrite IH. cbn [rbind]. auto.
      - unfold oeps. destruct (ol t1) as [|n] eqn:E; cbn [Nat.eqb]; auto.
        cbn [match_tr_selected into_tr eps_loop rbind]. rewrite filter_fstep. cbn [qol qtr_of qil]. unfold e1move. rewrite E.
        destruct (fstep flt e (Lab 0) NoLab); auto.
      - fold (qtr_of t1). apply selected_in. }
    rewrite G. auto.
  Qed.

  Lemma expand_out flt f1 f2 e s1 s2 : s1 < num_states f1 -> s2 < num_states f2 ->
    StronglySorted le (map ol (trs_of f1 s1)) ->
    ordered_expand flt f1 f2 e s1 s2 false = Ok (moves_out flt e f1 f2 s1 s2).
  Proof.
    intros H1 H2 S. unfold ordered_expand. rewrite get_trs_in by auto. cbn [rbind match_trs].
    unfold match_tr at 1. cbn [qil]. rewrite sm_items_eq by auto. cbn [rbind].
    cbn [app side]. change (fun t : tr K => ol t =? 0) with (@oeps K). rewrite selected_loop_out. cbn [rbind].
    assert (G : forall l, match_trs flt f1 f2 e s1 (map qtr_of l) false =
      Ok (flat_map (fun t2 => (if ieps t2 then e2move flt e s1 t2 else []) ++
                        flat_map (fun t1 => bmove flt e t1 t2) (filter (fun t1 => Nat.eqb (ol t1) (il t2)) (trs_of f1 s1))) l)).
    { induction l as [|t2 l IH]; auto. cbn [map match_trs flat_map]. unfold match_tr at 1. cbn [qil qtr_of].
      rewrite sm_items_eq by auto. cbn [rbind side].
      rewrite (selected_app _ _ _ _ _ _ _ (if ieps t2 then e2move flt e s1 t2 else [])
        (flat_map (fun t1 => bmove flt e t1 t2) (filter (fun t1 => Nat.eqb (ol t1) (il t2)) (trs_of f1 s1)))).
      - cbn [rbind]. rewrite IH. cbn [rbind]. auto.
      - unfold ieps. destruct (il t2) as [|n] eqn:E; cbn [Nat.eqb]; auto.
        cbn [match_tr_selected into_tr eps_loop rbind]. rewrite filter_fstep. cbn [qol qtr_of qil]. unfold e2move. rewrite E.
        destruct (fstep flt e NoLab (Lab 0)); auto.
      - fold (qtr_of t2). apply selected_out. }
    rewrite G. auto.
  Qed.

  (** What a usable match type guarantees. *)
  Definition mt_ok (mt : mtype) f1 f2 : Prop :=
    (mt = MBoth \/ mt = MOutput \/ mt = MInput) /\
    (mt <> MInput -> forall s, StronglySorted le (map ol (trs_of f1 s))) /\
    (mt <> MOutput -> forall s, StronglySorted le (map il (trs_of f2 s))).

  Lemma match_type_ok f1 f2 mt : bits_true f1 -> bits_true f2 -> compose_match_type f1 f2 = Ok mt -> mt_ok mt f1 f2.
  Proof.
    intros B1 B2. unfold compose_match_type.
    pose proof (C20_match_type f1 MOutput false B1 (or_intror eq_refl)) as P1.
    pose proof (C20_match_type f2 MInput false B2 (or_introl eq_refl)) as P2.
    pose proof (C20_match_type f1 MOutput true B1 (or_intror eq_refl)) as P3.
    pose proof (C20_match_type f2 MInput true B2 (or_introl eq_refl)) as P4.
    destruct (sm_match_type f1 MOutput false) as [t1| |]; try discriminate; try contradiction.
    destruct (sm_match_type f2 MInput false) as [t2| |]; try discriminate; try contradiction. cbn [rbind].
    assert (Q1 : mtype_eqb t1 MOutput = true -> forall s, StronglySorted le (map ol (trs_of f1 s))).
    { destruct t1; try discriminate. intros _. apply P1. }
    assert (Q2 : mtype_eqb t2 MInput = true -> forall s, StronglySorted le (map il (trs_of f2 s))).
    { destruct t2; try discriminate. intros _. apply P2. }
    destruct (mtype_eqb t1 MOutput) eqn:E1; destruct (mtype_eqb t2 MInput) eqn:E2; cbn [andb].
    - intros [= <-]; split; auto; split; intros; auto; congruence.
    - intros [= <-]; split; auto; split; intros; auto; congruence.
    - intros [= <-]; split; auto; split; intros; auto; congruence.
    - destruct (sm_match_type f1 MOutput true) as [t3| |]; try discriminate; try contradiction. cbn [rbind].
      destruct (mtype_eqb t3 MOutput) eqn:E3.
      + intros [= <-]. split; auto. split; [|congruence]. intros _. destruct t3; try discriminate. apply P3.
      + destruct (sm_match_type f2 MInput true) as [t4| |]; try discriminate; try contradiction. cbn [rbind].
        destruct (mtype_eqb t4 MInput) eqn:E4; try discriminate.
        intros [= <-]. split; auto. split; [congruence|]. intros _. destruct t4; try discriminate. apply P4.
  Qed.

  Lemma ctrs_eq flt mt f1 f2 fs s1 s2 : cnt f1 -> cnt f2 -> mt_ok mt f1 f2 -> s1 < num_states f1 -> s2 < num_states f2 ->
    let e := env flt f1 f2 fs s1 s2 in
    ccompute_trs flt mt f1 f2 (fs, s1, s2) = Ok (moves_in flt e f1 f2 s1 s2) \/
    ccompute_trs flt mt f1 f2 (fs, s1, s2) = Ok (moves_out flt e f1 f2 s1 s2).
  Proof.
    intros C1 C2 (M & M1 & M2) H1 H2 e. unfold ccompute_trs. rewrite set_state_eq by auto. cbn [rbind]. fold e.
    unfold match_input. rewrite !num_trs_in by auto. cbn [rbind].
    destruct M as [->|[->| ->]]; cbn [rbind].
    - destruct (_ <=? _); [left; apply expand_in|right; apply expand_out]; auto; [apply M2|apply M1]; discriminate.
    - right. apply expand_out; auto. apply M1. discriminate.
    - left. apply expand_in; auto. apply M2. discriminate.
  Qed.

  Lemma moves_targets flt e f1 f2 s1 s2 u : In u (moves_in flt e f1 f2 s1 s2) \/ In u (moves_out flt e f1 f2 s1 s2) ->
    exists q1 q2 fs t1 t2, tn u = (fs, t1, t2) /\ fstep flt e q1 q2 = Some fs /\
      (t1 = s1 \/ exists t, In t (trs_of f1 s1) /\ ns t = t1) /\ (t2 = s2 \/ exists t, In t (trs_of f2 s2) /\ ns t = t2).
  Proof.
    assert (O : forall A B (o : option A) (g : A -> B) b, In b (opt_list o g) -> exists a, o = Some a /\ b = g a).
    { intros A B [a|] g b; simpl; [intros [<-|[]]; eauto|tauto]. }
    intros [H|H]; unfold moves_in, moves_out in H; apply in_app_or in H as [H|H]; apply in_flat_map in H as (t & Ht & H).
    - apply filter_In in Ht as [Ht _]. apply O in H as (fs & E & ->). do 5 eexists. repeat split; eauto.
    - apply in_app_or in H as [H|H].
      + destruct (oeps t); [|destruct H]. apply O in H as (fs & E & ->). do 5 eexists. repeat split; eauto.
      + apply in_flat_map in H as (t2 & Ht2 & H). apply filter_In in Ht2 as [Ht2 _]. apply O in H as (fs & E & ->).
        do 5 eexists. repeat split; eauto.
    - apply filter_In in Ht as [Ht _]. apply O in H as (fs & E & ->). do 5 eexists. repeat split; eauto.
    - apply in_app_or in H as [H|H].
      + destruct (ieps t); [|destruct H]. apply O in H as (fs & E & ->). do 5 eexists. repeat split; eauto.
      + apply in_flat_map in H as (t1 & Ht1 & H). apply filter_In in Ht1 as [Ht1 _]. apply O in H as (fs & E & ->).
        do 5 eexists. repeat split; eauto.
  Qed.

  Lemma fstep_bound flt e q1 q2 fs : fstep flt e q1 q2 = Some fs -> fs < 3.
  Proof.
    unfold fstep, filter_tr. cbn [qol qil].
    destruct flt; repeat match goal with |- context [if ?b then _ else _] => destruct b end;
      try discriminate; intros [= <-]; lia.
  Qed.
End A.

Local Open Scope K_scope.
Section Sum.
  Context {K : SR} (L : lsr_laws K).
  Context (flt : cfilter) (f1 f2 : vfst K).
  Implicit Types (t : tr K).

  Notation E fs s1 s2 := (env flt f1 f2 fs s1 s2).

  Lemma ksum_fm {A B} (G : B -> K) (h : A -> list B) l :
    ksum (map G (flat_map h l)) = ksum (map (fun a => ksum (map G (h a))) l).
  Proof.
    rewrite flat_map_concat_map, concat_map, map_map, <- flat_map_concat_map. apply (ksum_flat_map L).
  Qed.
  Lemma ksum_opt {A B} (G : B -> K) (o : option A) (g : A -> B) :
    ksum (map G (opt_list o g)) = match o with Some a => G (g a) | None => 0 end.
  Proof. destruct o; simpl; auto. apply (kplus_0_r L). Qed.

  (** Both orders of expansion give the same sums. *)
  Definition move_sum e (s1 s2 : nat) (G : ttr K ctuple -> K) : K :=
    ksum (map (fun t1 => if oeps t1 then ksum (map G (e1move flt e s2 t1)) else 0) (trs_of f1 s1)) +
    (ksum (map (fun t2 => if ieps t2 then ksum (map G (e2move flt e s1 t2)) else 0) (trs_of f2 s2)) +
     ksum (map (fun t1 => ksum (map (fun t2 => if Nat.eqb (ol t1) (il t2) then ksum (map G (bmove flt e t1 t2)) else 0)
                                    (trs_of f2 s2))) (trs_of f1 s1))).

  Lemma moves_in_sum e s1 s2 G : ksum (map G (moves_in flt e f1 f2 s1 s2)) = move_sum e s1 s2 G.
  Proof.
    unfold moves_in, move_sum. rewrite map_app, (ksum_app L), !ksum_fm, (ksum_filter L).
    rewrite (kplus_assoc _ L). rewrite (kplus_comm _ L (ksum _) (ksum (map (fun t2 : tr K => if ieps t2 then _ else _) _))).
    rewrite <- (kplus_assoc _ L). f_equal.
    rewrite <- (ksum_map_plus L). apply ksum_map_ext. intros t1 _. rewrite map_app, (ksum_app L). f_equal.
    - destruct (oeps t1); auto.
    - rewrite ksum_fm, (ksum_filter L). apply ksum_map_ext. intros t2 _. rewrite Nat.eqb_sym. auto.
  Qed.
  Lemma moves_out_sum e s1 s2 G : ksum (map G (moves_out flt e f1 f2 s1 s2)) = move_sum e s1 s2 G.
  Proof.
    unfold moves_out, move_sum. rewrite map_app, (ksum_app L), !ksum_fm, (ksum_filter L). f_equal.
    rewrite (ksum_swap L). rewrite <- (ksum_map_plus L). apply ksum_map_ext. intros t2 _. rewrite map_app, (ksum_app L). f_equal.
    - destruct (ieps t2); auto.
    - rewrite ksum_fm, (ksum_filter L). apply ksum_map_ext. intros t1 _. auto.
  Qed.

  (** ** The number of ways to interleave two paths *)
  Fixpoint ways (k fs s1 s2 : nat) (p1 p2 : list (tr K)) : nat :=
    match k with
    | O => if isnil p1 && isnil p2 then 1 else 0
    | S k =>
        (match p1 with
         | t1 :: p1' => if oeps t1 then
             match fstep (K := K) flt (E fs s1 s2) (Lab (ol t1)) NoLab with Some fs' => ways k fs' (ns t1) s2 p1' p2 | None => 0 end
             else 0
         | [] => 0
         end +
         (match p2 with
          | t2 :: p2' => if ieps t2 then
              match fstep (K := K) flt (E fs s1 s2) NoLab (Lab (il t2)) with Some fs' => ways k fs' s1 (ns t2) p1 p2' | None => 0 end
              else 0
          | [] => 0
          end +
          match p1, p2 with
          | t1 :: p1', t2 :: p2' => if Nat.eqb (ol t1) (il t2) then
              match fstep (K := K) flt (E fs s1 s2) (Lab (ol t1)) (Lab (il t2)) with
              | Some fs' => ways k fs' (ns t1) (ns t2) p1' p2' | None => 0 end
              else 0
          | _, _ => 0
          end))%nat
    end.

  (** [n] times a weight. *)
  Definition nmul (n : nat) (w : K) : K := ksum (repeat w n).
  Lemma nmul_0 w : nmul O w = 0.
  Proof. reflexivity. Qed.
  Lemma nmul_plus a b w : nmul (a + b) w = nmul a w + nmul b w.
  Proof. unfold nmul. rewrite repeat_app. apply (ksum_app L). Qed.
  Lemma nmul_times n c w : nmul n (c * w) = c * nmul n w.
  Proof.
    unfold nmul. rewrite (ksum_times_l L). f_equal. induction n; simpl; congruence.
  Qed.

  (** All paths of fewer than [N] transitions. *)
  Fixpoint upaths (m : machine K) (N s : nat) : list (list (tr K)) :=
    match N with
    | O => []
    | S N' => [] :: flat_map (fun t => map (cons t) (upaths m N' (ns t))) (mtrs m s)
    end.

  Lemma upaths_sum m N s (F : list (tr K) -> K) :
    ksum (map F (upaths m (S N) s)) =
    F [] + ksum (map (fun t => ksum (map (fun p => F (t :: p)) (upaths m N (ns t)))) (mtrs m s)).
  Proof.
    cbn [upaths map ksum]. f_equal. rewrite ksum_fm. apply ksum_map_ext. intros t _. rewrite map_map. auto.
  Qed.

  (** The pairs of paths, with multiplicity. *)
  Definition term (k fs s1 s2 : nat) (x z : list nat) (p1 p2 : list (tr K)) : K :=
    if leqb (ilabs p1) x && leqb (olabs p2) z
    then nmul (ways k fs s1 s2 p1 p2) (apw (mach f1) s1 p1 * apw (mach f2) s2 p2) else 0.
  Definition pair_sum (N1 N2 k fs s1 s2 : nat) (x z : list nat) : K :=
    ksum (map (fun p1 => ksum (map (term k fs s1 s2 x z p1) (upaths (mach f2) N2 s2))) (upaths (mach f1) N1 s1)).

  Lemma leqb_strip l a x : leqb (lab l ++ a) x = match strip l x with Some x' => leqb a x' | None => false end.
  Proof.
    destruct (strip l x) as [x'|] eqn:S.
    - apply strip_lab in S. subst x. destruct (leqb a x') eqn:E1.
      + apply leqb_true in E1. subst. apply leqb_true; auto.
      + destruct (leqb (lab l ++ a) (lab l ++ x')) eqn:E2; auto.
        apply leqb_true, app_inv_head in E2. apply leqb_true in E2. congruence.
    - destruct (leqb (lab l ++ a) x) eqn:E; auto. apply leqb_true in E. symmetry in E.
      apply strip_lab in E. congruence.
  Qed.
  Lemma ilabs_cons t p : ilabs (t :: p) = lab (il t) ++ ilabs p.
  Proof. reflexivity. Qed.
  Lemma olabs_cons t p : olabs (t :: p) = lab (ol t) ++ olabs p.
  Proof. reflexivity. Qed.
  Lemma strip_0 x : strip 0 x = Some x.
  Proof. destruct x; reflexivity. Qed.
  Lemma leqb_nil x : leqb [] x = isnil x.
  Proof. destruct x; reflexivity. Qed.

  Lemma apw_cons f s t (p : list (tr K)) : apw (mach f) s (t :: p) = wgt t * apw (mach f) (ns t) p.
  Proof. unfold apw. cbn [pw dst]. symmetry. apply (ktimes_assoc _ L). Qed.

  Context (C : commutative_times K).

  Lemma swap_times (a b c : K) : a * (b * c) = b * (a * c).
  Proof. rewrite !(ktimes_assoc _ L), (C a b). auto. Qed.

  Definition e1w k fs s1 s2 (p1 p2 : list (tr K)) : nat :=
    match p1 with
    | t1 :: p1' => if oeps t1 then
        match fstep (K := K) flt (E fs s1 s2) (Lab (ol t1)) NoLab with Some fs' => ways k fs' (ns t1) s2 p1' p2 | None => O end
        else O
    | [] => O
    end.
  Definition e2w k fs s1 s2 (p1 p2 : list (tr K)) : nat :=
    match p2 with
    | t2 :: p2' => if ieps t2 then
        match fstep (K := K) flt (E fs s1 s2) NoLab (Lab (il t2)) with Some fs' => ways k fs' s1 (ns t2) p1 p2' | None => O end
        else O
    | [] => O
    end.
  Definition bw k fs s1 s2 (p1 p2 : list (tr K)) : nat :=
    match p1, p2 with
    | t1 :: p1', t2 :: p2' => if Nat.eqb (ol t1) (il t2) then
        match fstep (K := K) flt (E fs s1 s2) (Lab (ol t1)) (Lab (il t2)) with
        | Some fs' => ways k fs' (ns t1) (ns t2) p1' p2' | None => O end
        else O
    | _, _ => O
    end.
  Lemma ways_S k fs s1 s2 p1 p2 :
    ways (S k) fs s1 s2 p1 p2 = (e1w k fs s1 s2 p1 p2 + (e2w k fs s1 s2 p1 p2 + bw k fs s1 s2 p1 p2))%nat.
  Proof. reflexivity. Qed.

  Definition wterm (n : nat) (s1 s2 : nat) (x z : list nat) (p1 p2 : list (tr K)) : K :=
    if leqb (ilabs p1) x && leqb (olabs p2) z then nmul n (apw (mach f1) s1 p1 * apw (mach f2) s2 p2) else 0.
  Definition wsum (W : list (tr K) -> list (tr K) -> nat) (N1 N2 s1 s2 : nat) (x z : list nat) : K :=
    ksum (map (fun p1 => ksum (map (fun p2 => wterm (W p1 p2) s1 s2 x z p1 p2) (upaths (mach f2) N2 s2))) (upaths (mach f1) N1 s1)).
  Lemma wterm_0 s1 s2 x z p1 p2 : wterm O s1 s2 x z p1 p2 = 0.
  Proof. unfold wterm. rewrite nmul_0. destruct (_ && _); auto. Qed.
  Lemma wsum_plus W1 W2 N1 N2 s1 s2 x z :
    wsum (fun p q => W1 p q + W2 p q)%nat N1 N2 s1 s2 x z = wsum W1 N1 N2 s1 s2 x z + wsum W2 N1 N2 s1 s2 x z.
  Proof.
    unfold wsum. rewrite <- (ksum_map_plus L). apply ksum_map_ext. intros p _.
    rewrite <- (ksum_map_plus L). apply ksum_map_ext. intros q _. unfold wterm.
    destruct (_ && _); [apply nmul_plus|]. symmetry. apply (kplus_0_l _ L).
  Qed.

  Definition step1 (x : list nat) (l : nat) (F : list nat -> K) : K := match strip l x with Some x' => F x' | None => 0 end.

  Lemma wsum_ext W1 W2 N1 N2 s1 s2 x z : (forall p q, W1 p q = W2 p q) ->
    wsum W1 N1 N2 s1 s2 x z = wsum W2 N1 N2 s1 s2 x z.
  Proof. intros H. apply ksum_map_ext. intros p _. apply ksum_map_ext. intros q _. rewrite H. auto. Qed.
  Lemma wsum_0 N1 N2 s1 s2 x z : wsum (fun _ _ => O) N1 N2 s1 s2 x z = 0.
  Proof.
    apply (ksum_map_zero L). intros p _. apply (ksum_map_zero L). intros q _. apply wterm_0.
  Qed.
  Lemma wsum_first W N1 N2 s1 s2 x z (t : tr K) :
    ksum (map (fun p1 => ksum (map (fun p2 => wterm (W p1 p2) s1 s2 x z (t :: p1) p2) (upaths (mach f2) N2 s2)))
      (upaths (mach f1) N1 (ns t))) =
    step1 x (il t) (fun x' => wgt t * wsum W N1 N2 (ns t) s2 x' z).
  Proof.
    unfold step1, wsum. destruct (strip (il t) x) as [x'|] eqn:S.
    - rewrite (ksum_times_l L), map_map. apply ksum_map_ext. intros p1 _.
      rewrite (ksum_times_l L), map_map. apply ksum_map_ext. intros p2 _. unfold wterm. rewrite ?ilabs_cons.
      rewrite leqb_strip, S. destruct (leqb (ilabs p1) x' && leqb (olabs p2) z).
      + rewrite apw_cons, <- (ktimes_assoc _ L). apply nmul_times.
      + symmetry. apply (ktimes_0_r _ L).
    - apply (ksum_map_zero L). intros p1 _. apply (ksum_map_zero L). intros p2 _. unfold wterm. rewrite ?ilabs_cons.
      rewrite leqb_strip, S. auto.
  Qed.
  Lemma wsum_second W N1 N2 s1 s2 x z (t : tr K) :
    ksum (map (fun p1 => ksum (map (fun p2 => wterm (W p1 p2) s1 s2 x z p1 (t :: p2)) (upaths (mach f2) N2 (ns t))))
      (upaths (mach f1) N1 s1)) =
    step1 z (ol t) (fun z' => wgt t * wsum W N1 N2 s1 (ns t) x z').
  Proof.
    unfold step1, wsum. destruct (strip (ol t) z) as [z'|] eqn:S.
    - rewrite (ksum_times_l L), map_map. apply ksum_map_ext. intros p1 _.
      rewrite (ksum_times_l L), map_map. apply ksum_map_ext. intros p2 _. unfold wterm. rewrite ?olabs_cons.
      rewrite leqb_strip, S. destruct (leqb (ilabs p1) x && leqb (olabs p2) z').
      + rewrite apw_cons, swap_times. apply nmul_times.
      + symmetry. apply (ktimes_0_r _ L).
    - apply (ksum_map_zero L). intros p1 _. apply (ksum_map_zero L). intros p2 _. unfold wterm. rewrite ?olabs_cons.
      rewrite leqb_strip, S, andb_false_r. auto.
  Qed.
  Lemma wsum_both W N1 N2 s1 s2 x z (t1 t2 : tr K) :
    ksum (map (fun p1 => ksum (map (fun p2 => wterm (W p1 p2) s1 s2 x z (t1 :: p1) (t2 :: p2)) (upaths (mach f2) N2 (ns t2))))
      (upaths (mach f1) N1 (ns t1))) =
    step1 x (il t1) (fun x' => step1 z (ol t2) (fun z' => wgt t1 * wgt t2 * wsum W N1 N2 (ns t1) (ns t2) x' z')).
  Proof.
    transitivity (ksum (map (fun p1 => ksum (map (fun p2 =>
      step1 x (il t1) (fun x' => step1 z (ol t2) (fun z' => wgt t1 * wgt t2 * wterm (W p1 p2) (ns t1) (ns t2) x' z' p1 p2)))
      (upaths (mach f2) N2 (ns t2)))) (upaths (mach f1) N1 (ns t1)))).
    - apply ksum_map_ext. intros p1 _. apply ksum_map_ext. intros p2 _. unfold step1, wterm. rewrite ?ilabs_cons, ?olabs_cons.
      rewrite !leqb_strip. destruct (strip (il t1) x) as [x'|]; auto. destruct (strip (ol t2) z) as [z'|].
      + destruct (leqb (ilabs p1) x' && leqb (olabs p2) z').
        * rewrite !apw_cons. rewrite <- nmul_times. f_equal. rewrite <- !(ktimes_assoc _ L). f_equal. apply swap_times.
        * symmetry. apply (ktimes_0_r _ L).
      + rewrite andb_false_r. auto.
    - unfold step1. destruct (strip (il t1) x) as [x'|]; [|apply (ksum_map_zero L); intros; apply (ksum_map_zero L); auto].
      destruct (strip (ol t2) z) as [z'|]; [|apply (ksum_map_zero L); intros; apply (ksum_map_zero L); auto].
      unfold wsum. rewrite (ksum_times_l L), map_map. apply ksum_map_ext. intros p1 _.
      rewrite (ksum_times_l L), map_map. auto.
  Qed.

  Lemma wsum_e1 k fs N1 N2 s1 s2 x z :
    wsum (e1w k fs s1 s2) (S N1) N2 s1 s2 x z =
    ksum (map (fun t1 => if oeps t1 then
      match fstep (K := K) flt (E fs s1 s2) (Lab (ol t1)) NoLab with
      | Some fs' => step1 x (il t1) (fun x' => wgt t1 * wsum (ways k fs' (ns t1) s2) N1 N2 (ns t1) s2 x' z)
      | None => 0 end else 0) (trs_of f1 s1)).
  Proof.
    unfold wsum at 1. rewrite upaths_sum. rewrite (ksum_map_zero L); [|intros; apply wterm_0]. rewrite (kplus_0_l _ L).
    apply ksum_map_ext. intros t1 _. cbn [e1w].
    destruct (oeps t1).
    2: { apply (ksum_map_zero L). intros p1 _. apply (ksum_map_zero L). intros p2 _. apply wterm_0. }
    destruct (fstep flt (E fs s1 s2) (Lab (ol t1)) NoLab) as [fs'|].
    2: { apply (ksum_map_zero L). intros p1 _. apply (ksum_map_zero L). intros p2 _. apply wterm_0. }
    apply wsum_first.
  Qed.
  Lemma wsum_e2 k fs N1 N2 s1 s2 x z :
    wsum (e2w k fs s1 s2) N1 (S N2) s1 s2 x z =
    ksum (map (fun t2 => if ieps t2 then
      match fstep (K := K) flt (E fs s1 s2) NoLab (Lab (il t2)) with
      | Some fs' => step1 z (ol t2) (fun z' => wgt t2 * wsum (ways k fs' s1 (ns t2)) N1 N2 s1 (ns t2) x z')
      | None => 0 end else 0) (trs_of f2 s2)).
  Proof.
    unfold wsum at 1.
    transitivity (ksum (map (fun p1 => ksum (map (fun t2 => ksum (map (fun p2 =>
        wterm (e2w k fs s1 s2 p1 (t2 :: p2)) s1 s2 x z p1 (t2 :: p2)) (upaths (mach f2) N2 (ns t2)))) (trs_of f2 s2)))
        (upaths (mach f1) N1 s1))).
    { apply ksum_map_ext. intros p1 _. rewrite upaths_sum. cbn [e2w]. rewrite wterm_0, (kplus_0_l _ L). auto. }
    rewrite (ksum_swap L). apply ksum_map_ext. intros t2 _. cbn [e2w].
    destruct (ieps t2).
    2: { apply (ksum_map_zero L). intros p1 _. apply (ksum_map_zero L). intros p2 _. apply wterm_0. }
    destruct (fstep flt (E fs s1 s2) NoLab (Lab (il t2))) as [fs'|].
    2: { apply (ksum_map_zero L). intros p1 _. apply (ksum_map_zero L). intros p2 _. apply wterm_0. }
    apply wsum_second.
  Qed.
  Lemma wsum_b k fs N1 N2 s1 s2 x z :
    wsum (bw k fs s1 s2) (S N1) (S N2) s1 s2 x z =
    ksum (map (fun t1 => ksum (map (fun t2 => if Nat.eqb (ol t1) (il t2) then
      match fstep (K := K) flt (E fs s1 s2) (Lab (ol t1)) (Lab (il t2)) with
      | Some fs' => step1 x (il t1) (fun x' => step1 z (ol t2) (fun z' =>
          wgt t1 * wgt t2 * wsum (ways k fs' (ns t1) (ns t2)) N1 N2 (ns t1) (ns t2) x' z'))
      | None => 0 end else 0) (trs_of f2 s2))) (trs_of f1 s1)).
  Proof.
    unfold wsum at 1. rewrite upaths_sum. rewrite (ksum_map_zero L); [|intros; apply wterm_0]. rewrite (kplus_0_l _ L).
    apply ksum_map_ext. intros t1 _.
    transitivity (ksum (map (fun p1 => ksum (map (fun t2 => ksum (map (fun p2 =>
        wterm (bw k fs s1 s2 (t1 :: p1) (t2 :: p2)) s1 s2 x z (t1 :: p1) (t2 :: p2)) (upaths (mach f2) N2 (ns t2)))) (trs_of f2 s2)))
        (upaths (mach f1) N1 (ns t1)))).
    { apply ksum_map_ext. intros p1 _. rewrite upaths_sum. cbn [bw]. rewrite wterm_0, (kplus_0_l _ L). auto. }
    rewrite (ksum_swap L). apply ksum_map_ext. intros t2 _. cbn [bw].
    destruct (Nat.eqb (ol t1) (il t2)).
    2: { apply (ksum_map_zero L). intros p1 _. apply (ksum_map_zero L). intros p2 _. apply wterm_0. }
    destruct (fstep flt (E fs s1 s2) (Lab (ol t1)) (Lab (il t2))) as [fs'|].
    2: { apply (ksum_map_zero L). intros p1 _. apply (ksum_map_zero L). intros p2 _. apply wterm_0. }
    apply wsum_both.
  Qed.

  Context (mt : mtype) (C1 : cnt f1) (C2 : cnt f2) (D1 : closed f1) (D2 : closed f2) (MT : mt_ok mt f1 f2).

  Notation G := (gwt (ccompute_trs flt mt f1 f2) (ccompute_final flt f1 f2)).

  Lemma cfin_eq fs s1 s2 : s1 < num_states f1 -> s2 < num_states f2 ->
    fw (fin_at (ccompute_final flt f1 f2) (fs, s1, s2)) = fw (fin_of f1 s1) * fw (fin_of f2 s2).
  Proof.
    intros H1 H2. unfold fin_at, ccompute_final. rewrite !final_in by auto. cbn [rbind].
    destruct (fin_of f1 s1) as [w1|]; cbn [fw]; [|symmetry; apply (ktimes_0_l _ L)].
    destruct (fin_of f2 s2) as [w2|]; cbn [fw]; [|symmetry; apply (ktimes_0_r _ L)].
    rewrite set_state_eq by auto. cbn [rbind].
    destruct (keqb (w1 * w2) 0) eqn:E; auto. apply (keqb_true L) in E. auto.
  Qed.

  Theorem gwt_pairs : forall k N1 N2 fs s1 s2 x z, k < N1 -> k < N2 -> s1 < num_states f1 -> s2 < num_states f2 ->
    G k (fs, s1, s2) x z = wsum (ways k fs s1 s2) N1 N2 s1 s2 x z.
  Proof.
    induction k as [|k IH]; intros [|N1] [|N2] fs s1 s2 x z K1 K2 H1 H2; try lia.
    - cbn [gwt]. unfold wsum. rewrite upaths_sum.
      rewrite (ksum_map_zero L) with (l := trs_of f1 s1) || rewrite (ksum_map_zero L (fun t => ksum _)).
      2: { intros t _. apply (ksum_map_zero L). intros p1 _. apply (ksum_map_zero L). intros p2 _. apply wterm_0. }
      rewrite (kplus_0_r L), upaths_sum.
      rewrite (ksum_map_zero L (fun t => ksum _)).
      2: { intros t _. apply (ksum_map_zero L). intros p2 _. apply wterm_0. }
      rewrite (kplus_0_r L). unfold wterm. cbn [ways isnil andb]. change (@ilabs K []) with (@nil nat). change (@olabs K []) with (@nil nat). rewrite !leqb_nil.
      destruct (isnil x && isnil z); auto. rewrite cfin_eq by auto. unfold nmul. cbn [repeat ksum].
      rewrite (kplus_0_r L). unfold apw. cbn [pw dst mach mfin]. rewrite !(ktimes_1_l _ L). auto.
    - cbn [gwt].
      set (Gu := fun u : ttr K ctuple => match strip (ti u) x with
        | Some x' => match strip (to u) z with Some y' => tw u * G k (tn u) x' y' | None => 0 end | None => 0 end).
      transitivity (move_sum (E fs s1 s2) s1 s2 Gu).
      { unfold trs_at. destruct (ctrs_eq flt mt f1 f2 fs s1 s2 C1 C2 MT H1 H2) as [-> | ->];
          [apply moves_in_sum|apply moves_out_sum]. }
      rewrite (wsum_ext _ _ _ _ _ _ _ _ (ways_S k fs s1 s2)).
      rewrite (wsum_plus (e1w k fs s1 s2)), (wsum_plus (e2w k fs s1 s2)).
      rewrite wsum_e1, wsum_e2, wsum_b. unfold move_sum. f_equal; [|f_equal].
      + apply ksum_map_ext. intros t1 I1. destruct (oeps t1); auto. unfold e1move. rewrite ksum_opt.
        destruct (fstep _ _ _ _) as [fs'|]; auto. unfold Gu, step1. cbn [ti to tw tn].
        destruct (strip (il t1) x) as [x'|]; auto. rewrite strip_0.
        rewrite (ktimes_1_r _ L). f_equal. apply IH; try lia. apply (proj1 D1 s1); auto.
      + apply ksum_map_ext. intros t2 I2. destruct (ieps t2); auto. unfold e2move. rewrite ksum_opt.
        destruct (fstep _ _ _ _) as [fs'|]; auto. unfold Gu, step1. cbn [ti to tw tn]. rewrite strip_0.
        destruct (strip (ol t2) z) as [x'|]; auto.
        rewrite (ktimes_1_l _ L). f_equal. apply IH; try lia. apply (proj1 D2 s2); auto.
      + apply ksum_map_ext. intros t1 I1. apply ksum_map_ext. intros t2 I2. destruct (Nat.eqb (ol t1) (il t2)); auto.
        unfold bmove. rewrite ksum_opt. destruct (fstep _ _ _ _) as [fs'|]; auto. unfold Gu, step1. cbn [ti to tw tn].
        destruct (strip (il t1) x) as [x'|]; auto. destruct (strip (ol t2) z) as [z'|]; auto.
        f_equal. apply IH; try lia; [apply (proj1 D1 s1)|apply (proj1 D2 s2)]; auto.
  Qed.
End Sum.

(** ** How many ways each filter leaves *)
Local Close Scope K_scope.
Section Ways.
  Context {K : SR} (f1 f2 : vfst K).

  Definition accepts (f : vfst K) (s : nat) (p : list (tr K)) : Prop :=
    is_path (mach f) s p /\ fin_of f (dst s p) <> None.
  Definition heads (e : tr K -> bool) (p : list (tr K)) : bool := match p with t :: _ => e t | [] => false end.
  Lemma accepts_cons f s t p : accepts f s (t :: p) -> In t (trs_of f s) /\ accepts f (ns t) p.
  Proof. intros [[A B] D]. split; auto. split; auto. Qed.

  Lemma stuck_heads e f s p : accepts f s p -> stuck e f s = true -> heads e p = true.
  Proof.
    unfold stuck. intros A H. apply andb_true_iff in H as [H1 H2]. destruct p as [|t p].
    - destruct A as [_ A]. cbn in A. destruct (fin_of f s); [discriminate|congruence].
    - apply accepts_cons in A as [A _]. rewrite forallb_forall in H1. cbn. auto.
  Qed.
  Lemma none_heads e f s p : accepts f s p -> none e f s = true -> heads e p = false.
  Proof.
    unfold none. intros A H. destruct p as [|t p]; auto. apply accepts_cons in A as [A _]. cbn.
    destruct (e t) eqn:E; auto. apply negb_true_iff in H. rewrite <- H. symmetry. apply existsb_exists. eauto.
  Qed.

  Lemma olabs_len (p : list (tr K)) : length (olabs p) <= length p.
  Proof.
    induction p as [|t p IH]; auto. rewrite olabs_cons, app_length. unfold lab. destruct (_ =? _); simpl; lia.
  Qed.
  Lemma ilabs_len (p : list (tr K)) : length (ilabs p) <= length p.
  Proof.
    induction p as [|t p IH]; auto. rewrite ilabs_cons, app_length. unfold lab. destruct (_ =? _); simpl; lia.
  Qed.
  Lemma olabs_eps t (p : list (tr K)) : oeps t = true -> olabs (t :: p) = olabs p.
  Proof. unfold oeps. intros H. rewrite olabs_cons. unfold lab. rewrite H. auto. Qed.
  Lemma ilabs_eps t (p : list (tr K)) : ieps t = true -> ilabs (t :: p) = ilabs p.
  Proof. unfold ieps. intros H. rewrite ilabs_cons. unfold lab. rewrite H. auto. Qed.
  Lemma olabs_lab t (p : list (tr K)) : oeps t = false -> olabs (t :: p) = ol t :: olabs p.
  Proof. unfold oeps. intros H. rewrite olabs_cons. unfold lab. rewrite H. auto. Qed.
  Lemma ilabs_lab t (p : list (tr K)) : ieps t = false -> ilabs (t :: p) = il t :: ilabs p.
  Proof. unfold ieps. intros H. rewrite ilabs_cons. unfold lab. rewrite H. auto. Qed.

  Definition b2n (b : bool) : nat := if b then 1 else 0.

  (** Sequential interleaving: matched labels share a transition, epsilons do not. *)
  Definition seq_span (p1 p2 : list (tr K)) : nat := length p1 + length p2 - length (olabs p1).

  Lemma seq_span_0 p1 p2 : olabs p1 = ilabs p2 -> seq_span p1 p2 = 0 -> p1 = [] /\ p2 = [].
  Proof.
    unfold seq_span. intros E H. pose proof (olabs_len p1). pose proof (ilabs_len p2). rewrite <- E in *.
    split; apply length_zero_iff_nil; lia.
  Qed.
  Lemma seq_span_1 t1 p1 p2 : oeps t1 = true -> seq_span (t1 :: p1) p2 = S (seq_span p1 p2).
  Proof. intros H. unfold seq_span. rewrite olabs_eps by auto. cbn [length]. pose proof (olabs_len p1). lia. Qed.
  Lemma seq_span_2 t2 p1 p2 : seq_span p1 (t2 :: p2) = S (seq_span p1 p2).
  Proof. unfold seq_span. cbn [length]. pose proof (olabs_len p1). lia. Qed.
  Lemma seq_span_3 t1 t2 p1 p2 : oeps t1 = false -> seq_span (t1 :: p1) (t2 :: p2) = S (seq_span p1 p2).
  Proof. intros H. unfold seq_span. rewrite olabs_lab by auto. cbn [length]. pose proof (olabs_len p1). lia. Qed.

  Lemma leqb_cons a l b m : leqb (a :: l) (b :: m) = Nat.eqb a b && leqb l m.
  Proof.
    destruct (Nat.eqb_spec a b) as [->|N]; cbn [andb].
    - destruct (leqb l m) eqn:E.
      + apply leqb_true in E. subst. apply leqb_true. auto.
      + destruct (leqb (b :: l) (b :: m)) eqn:E2; auto. apply leqb_true in E2. inversion E2; subst.
        assert (leqb m m = true) by (apply leqb_true; auto). congruence.
    - destruct (leqb (a :: l) (b :: m)) eqn:E2; auto. apply leqb_true in E2. congruence.
  Qed.

  Lemma ways_0 flt fs s1 s2 p1 p2 : ways flt f1 f2 0 fs s1 s2 p1 p2 = b2n (isnil p1 && isnil p2).
  Proof. reflexivity. Qed.
  Lemma span0_nil p1 p2 c : leqb (olabs p1) (ilabs p2) && c && (0 =? seq_span p1 p2) = true -> isnil p1 && isnil p2 = true.
  Proof.
    intros H. apply andb_true_iff in H as [H H2]. apply andb_true_iff in H as [H1 _].
    apply leqb_true in H1. apply Nat.eqb_eq in H2. destruct (seq_span_0 p1 p2 H1 (eq_sym H2)) as [-> ->]. auto.
  Qed.
  Lemma span_nil c k : leqb (olabs (@nil (tr K))) (ilabs (@nil (tr K))) && c && (k =? seq_span [] []) = c && (k =? 0).
  Proof. cbn. auto. Qed.

  Lemma ieqb_eps (t1 t2 : tr K) : oeps t1 <> ieps t2 -> (ol t1 =? il t2) = false.
  Proof. unfold oeps, ieps. intros H. apply Nat.eqb_neq. intros E. rewrite E in H. congruence. Qed.

  Definition seq_ok (fs : nat) (p1 : list (tr K)) : bool := (fs =? 0) || negb (heads oeps p1).

  Lemma b2n_false b : (b = true -> False) -> b2n b = 0.
  Proof. destruct b; auto. intros H. destruct H; auto. Qed.

  Lemma ways_seq : forall k fs s1 s2 p1 p2, fs < 2 -> accepts f1 s1 p1 -> accepts f2 s2 p2 ->
    ways SequenceF f1 f2 k fs s1 s2 p1 p2 =
    b2n (leqb (olabs p1) (ilabs p2) && seq_ok fs p1 && (k =? seq_span p1 p2)).
  Proof.
    induction k as [|k IH]; intros fs s1 s2 p1 p2 Hfs A1 A2.
    - rewrite ways_0. destruct (isnil p1 && isnil p2) eqn:E.
      + apply andb_true_iff in E as [E1 E2]. destruct p1; [|discriminate]. destruct p2; [|discriminate].
        rewrite span_nil. unfold seq_ok. cbn. rewrite orb_true_r. auto.
      + symmetry. apply b2n_false. intros H. apply span0_nil in H. congruence.
    - rewrite ways_S. unfold e1w, e2w, bw, fstep. cbn [filter_tr qol qil is_nolab is_eps qlab_eqb env ce_fs ce_alleps1 ce_noeps1].
      destruct (heads oeps p1) eqn:H1.
      + destruct p1 as [|t1 p1]; [discriminate|]. cbn in H1. pose proof (accepts_cons _ _ _ _ A1) as [I1 A1'].
        rewrite H1. rewrite olabs_eps, seq_span_1 by auto.
        assert (N : none oeps f1 s1 = false).
        { destruct (none oeps f1 s1) eqn:N; auto. apply (none_heads _ _ _ _ A1) in N. cbn in N. congruence. }
        rewrite N.
        assert (Z2 : (match p2 with
          | t2 :: p2' => if ieps t2 then match (if stuck oeps f1 s1 then None else Some 1) with
               | Some fs' => ways SequenceF f1 f2 k fs' s1 (ns t2) (t1 :: p1) p2' | None => 0 end else 0
          | [] => 0 end) = 0).
        { destruct p2 as [|t2 p2]; auto. apply accepts_cons in A2 as [_ A2]. destruct (ieps t2); auto.
          destruct (stuck oeps f1 s1); auto. rewrite IH by auto. unfold seq_ok at 1. cbn [heads]. rewrite H1.
          cbn. rewrite andb_false_r. auto. }
        rewrite Z2.
        assert (Z3 : (match p2 with
          | t2 :: p2' => if ol t1 =? il t2 then match (if ol t1 =? 0 then None else Some 0) with
               | Some fs' => ways SequenceF f1 f2 k fs' (ns t1) (ns t2) p1 p2' | None => 0 end else 0
          | [] => 0 end) = 0).
        { destruct p2 as [|t2 p2]; auto. unfold oeps in H1. rewrite H1. destruct (ol t1 =? il t2); auto. }
        rewrite Z3. rewrite !Nat.add_0_r. unfold seq_ok. cbn [heads]. rewrite H1. cbn [negb]. rewrite orb_false_r.
        destruct (fs =? 0) eqn:F; cbn [negb].
        * rewrite IH by (auto; lia). unfold seq_ok. cbn. auto.
        * rewrite andb_false_r. auto.
      + assert (Z1 : (match p1 with
          | t1 :: p1' => if oeps t1 then match (if negb (fs =? 0) then None else Some 0) with
               | Some fs' => ways SequenceF f1 f2 k fs' (ns t1) s2 p1' p2 | None => 0 end else 0
          | [] => 0 end) = 0).
        { destruct p1 as [|t1 p1]; auto. cbn in H1. rewrite H1. auto. }
        rewrite Z1. clear Z1. cbn [plus].
        assert (N : stuck oeps f1 s1 = false).
        { destruct (stuck oeps f1 s1) eqn:N; auto. apply (stuck_heads _ _ _ _ A1) in N. congruence. }
        rewrite N.
        assert (OK : forall fs, seq_ok fs p1 = true) by (intros; unfold seq_ok; rewrite H1; apply orb_true_r).
        rewrite OK, andb_true_r.
        destruct p2 as [|t2 p2].
        * destruct p1 as [|t1 p1]; auto. cbn in H1. rewrite olabs_lab by auto. auto.
        * pose proof (accepts_cons _ _ _ _ A2) as [I2 A2']. destruct (ieps t2) eqn:H2.
          -- rewrite ilabs_eps by auto. rewrite seq_span_2.
             assert (Z3 : (match p1 with
               | t1 :: p1' => if ol t1 =? il t2 then match (if ol t1 =? 0 then None else Some 0) with
                    | Some fs' => ways SequenceF f1 f2 k fs' (ns t1) (ns t2) p1' p2 | None => 0 end else 0
               | [] => 0 end) = 0).
             { destruct p1 as [|t1 p1]; auto. cbn in H1. rewrite ieqb_eps by congruence. auto. }
             rewrite Z3. rewrite Nat.add_0_r.
             destruct (none oeps f1 s1); rewrite IH by (auto; lia); rewrite OK, andb_true_r; auto.
          -- cbn [plus]. destruct p1 as [|t1 p1].
             ++ rewrite ilabs_lab by auto. auto.
             ++ cbn in H1. apply accepts_cons in A1 as [_ A1]. rewrite olabs_lab, ilabs_lab, leqb_cons, seq_span_3 by auto.
                assert (H1' : (ol t1 =? 0) = false) by exact H1. rewrite H1'.
                destruct (ol t1 =? il t2); cbn [andb]; auto. rewrite IH by (auto; lia). unfold seq_ok. cbn [Nat.eqb orb].
                rewrite andb_true_r. auto.
  Qed.

  (** The same with the two machines exchanged. *)
  Definition alt_ok (fs : nat) (p2 : list (tr K)) : bool := (fs =? 0) || negb (heads ieps p2).

  Lemma ways_alt : forall k fs s1 s2 p1 p2, fs < 2 -> accepts f1 s1 p1 -> accepts f2 s2 p2 ->
    ways AltSequenceF f1 f2 k fs s1 s2 p1 p2 =
    b2n (leqb (olabs p1) (ilabs p2) && alt_ok fs p2 && (k =? seq_span p1 p2)).
  Proof.
    induction k as [|k IH]; intros fs s1 s2 p1 p2 Hfs A1 A2.
    - rewrite ways_0. destruct (isnil p1 && isnil p2) eqn:E.
      + apply andb_true_iff in E as [E1 E2]. destruct p1; [|discriminate]. destruct p2; [|discriminate].
        rewrite span_nil. unfold alt_ok. cbn. rewrite orb_true_r. auto.
      + symmetry. apply b2n_false. intros H. apply span0_nil in H. congruence.
    - rewrite ways_S. unfold e1w, e2w, bw, fstep. cbn [filter_tr qol qil is_nolab is_eps qlab_eqb env ce_fs ce_alleps2 ce_noeps2].
      destruct (heads ieps p2) eqn:H2.
      + destruct p2 as [|t2 p2]; [discriminate|]. cbn in H2. pose proof (accepts_cons _ _ _ _ A2) as [I2 A2'].
        rewrite H2. rewrite ilabs_eps, seq_span_2 by auto.
        assert (N : none ieps f2 s2 = false).
        { destruct (none ieps f2 s2) eqn:N; auto. apply (none_heads _ _ _ _ A2) in N. cbn in N. congruence. }
        rewrite N.
        assert (Z1 : (match p1 with
          | t1 :: p1' => if oeps t1 then match (if stuck ieps f2 s2 then None else Some 1) with
               | Some fs' => ways AltSequenceF f1 f2 k fs' (ns t1) s2 p1' (t2 :: p2) | None => 0 end else 0
          | [] => 0 end) = 0).
        { destruct p1 as [|t1 p1]; auto. apply accepts_cons in A1 as [_ A1]. destruct (oeps t1); auto.
          destruct (stuck ieps f2 s2); auto. rewrite IH by auto. unfold alt_ok at 1. cbn [heads]. rewrite H2.
          cbn. rewrite andb_false_r. auto. }
        rewrite Z1. clear Z1.
        assert (Z3 : (match p1 with
          | t1 :: p1' => if ol t1 =? il t2 then match (if ol t1 =? 0 then None else Some 0) with
               | Some fs' => ways AltSequenceF f1 f2 k fs' (ns t1) (ns t2) p1' p2 | None => 0 end else 0
          | [] => 0 end) = 0).
        { destruct p1 as [|t1 p1]; auto. destruct (ol t1 =? il t2) eqn:E; auto. apply Nat.eqb_eq in E.
          unfold ieps in H2. rewrite E, H2. auto. }
        rewrite Z3. rewrite !Nat.add_0_r. unfold alt_ok. cbn [heads plus]. rewrite H2. cbn [negb]. rewrite orb_false_r.
        destruct fs as [|[|fs]]; try lia; cbn [Nat.eqb].
        * rewrite IH by (auto; lia). unfold alt_ok. cbn [Nat.eqb orb]. auto.
        * rewrite andb_false_r. auto.
      + assert (Z1 : (match p2 with
          | t2 :: p2' => if ieps t2 then match (if fs =? 1 then None else Some 0) with
               | Some fs' => ways AltSequenceF f1 f2 k fs' s1 (ns t2) p1 p2' | None => 0 end else 0
          | [] => 0 end) = 0).
        { destruct p2 as [|t2 p2]; auto. cbn in H2. rewrite H2. auto. }
        rewrite Z1. clear Z1. cbn [plus].
        assert (N : stuck ieps f2 s2 = false).
        { destruct (stuck ieps f2 s2) eqn:N; auto. apply (stuck_heads _ _ _ _ A2) in N. congruence. }
        rewrite N.
        assert (OK : forall fs, alt_ok fs p2 = true) by (intros; unfold alt_ok; rewrite H2; apply orb_true_r).
        rewrite OK, andb_true_r.
        destruct p1 as [|t1 p1].
        * destruct p2 as [|t2 p2]; auto. cbn in H2. rewrite ilabs_lab by auto. auto.
        * pose proof (accepts_cons _ _ _ _ A1) as [I1 A1']. destruct (oeps t1) eqn:H1.
          -- rewrite olabs_eps, seq_span_1 by auto.
             assert (Z3 : (match p2 with
               | t2 :: p2' => if ol t1 =? il t2 then match (if ol t1 =? 0 then None else Some 0) with
                    | Some fs' => ways AltSequenceF f1 f2 k fs' (ns t1) (ns t2) p1 p2' | None => 0 end else 0
               | [] => 0 end) = 0).
             { destruct p2 as [|t2 p2]; auto. cbn in H2. rewrite ieqb_eps by congruence. auto. }
             rewrite Z3. rewrite Nat.add_0_r.
             destruct (none ieps f2 s2); rewrite IH by (auto; lia); rewrite OK, andb_true_r; auto.
          -- cbn [plus]. destruct p2 as [|t2 p2].
             ++ rewrite olabs_lab by auto. auto.
             ++ cbn in H2. apply accepts_cons in A2 as [_ A2]. rewrite olabs_lab, ilabs_lab, leqb_cons, seq_span_3 by auto.
                assert (H1' : (ol t1 =? 0) = false) by exact H1. rewrite H1'.
                destruct (ol t1 =? il t2); cbn [andb]; auto. rewrite IH by (auto; lia). unfold alt_ok. cbn [Nat.eqb orb].
                rewrite andb_true_r. auto.
  Qed.

  (** Match filter: between two matched labels, epsilons are paired as far as possible. *)
  Fixpoint blocks (l : list nat) : list nat :=
    match l with
    | [] => [0]
    | a :: l => match blocks l with
                | h :: r => if a =? 0 then S h :: r else 0 :: h :: r
                | [] => []
                end
    end.
  Definition match_span (p1 p2 : list (tr K)) : nat :=
    length (olabs p1) + list_sum (map (fun p => max (fst p) (snd p)) (combine (blocks (map ol p1)) (blocks (map il p2)))).

  Lemma blocks_ne l : exists h r, blocks l = h :: r.
  Proof.
    induction l as [|a l (h & r & E)]; simpl; [eauto|]. rewrite E. destruct (a =? 0); eauto.
  Qed.
  Lemma mspan_b t1 t2 p1 p2 : oeps t1 = true -> ieps t2 = true -> match_span (t1 :: p1) (t2 :: p2) = S (match_span p1 p2).
  Proof.
    intros H1 H2. unfold match_span. rewrite olabs_eps by auto. cbn [map blocks]. unfold oeps, ieps in *. rewrite H1, H2.
    destruct (blocks_ne (map ol p1)) as (h1 & r1 & ->). destruct (blocks_ne (map il p2)) as (h2 & r2 & ->).
    cbn [combine map list_sum fst snd]. cbn. lia.
  Qed.
  Lemma mspan_1 t1 p1 p2 : oeps t1 = true -> heads ieps p2 = false -> match_span (t1 :: p1) p2 = S (match_span p1 p2).
  Proof.
    intros H1 H2. unfold match_span. rewrite olabs_eps by auto. cbn [map blocks]. unfold oeps in H1. rewrite H1.
    destruct (blocks_ne (map ol p1)) as (h1 & r1 & ->).
    assert (E : exists r2, blocks (map il p2) = 0 :: r2).
    { destruct p2 as [|t2 p2]; cbn [map blocks]; [eauto|]. cbn in H2. unfold ieps in H2. rewrite H2.
      destruct (blocks_ne (map il p2)) as (h2 & r2 & ->). eauto. }
    destruct E as [r2 ->]. cbn [combine map list_sum fst snd]. cbn. rewrite Nat.max_0_r. lia.
  Qed.
  Lemma mspan_2 t2 p1 p2 : ieps t2 = true -> heads oeps p1 = false -> match_span p1 (t2 :: p2) = S (match_span p1 p2).
  Proof.
    intros H1 H2. unfold match_span. cbn [map blocks]. unfold ieps in H1. rewrite H1.
    destruct (blocks_ne (map il p2)) as (h1 & r1 & ->).
    assert (E : exists r2, blocks (map ol p1) = 0 :: r2).
    { destruct p1 as [|t1 p1]; cbn [map blocks]; [eauto|]. cbn in H2. unfold oeps in H2. rewrite H2.
      destruct (blocks_ne (map ol p1)) as (h2 & r2 & ->). eauto. }
    destruct E as [r2 ->]. cbn [combine map list_sum fst snd]. cbn. lia.
  Qed.
  Lemma mspan_3 t1 t2 p1 p2 : oeps t1 = false -> ieps t2 = false -> match_span (t1 :: p1) (t2 :: p2) = S (match_span p1 p2).
  Proof.
    intros H1 H2. unfold match_span. rewrite olabs_lab by auto. cbn [map blocks length]. unfold oeps, ieps in *. rewrite H1, H2.
    destruct (blocks_ne (map ol p1)) as (h1 & r1 & ->). destruct (blocks_ne (map il p2)) as (h2 & r2 & ->).
    cbn [combine map list_sum fst snd]. cbn. lia.
  Qed.
  Lemma mspan_0 p1 p2 : olabs p1 = ilabs p2 -> match_span p1 p2 = 0 -> p1 = [] /\ p2 = [].
  Proof.
    intros E H. destruct (heads oeps p1) eqn:H1.
    - destruct p1 as [|t1 p1]; [discriminate|]. cbn in H1. destruct (heads ieps p2) eqn:H2.
      + destruct p2 as [|t2 p2]; [discriminate|]. rewrite mspan_b in H by auto. discriminate.
      + rewrite mspan_1 in H by auto. discriminate.
    - destruct (heads ieps p2) eqn:H2.
      + destruct p2 as [|t2 p2]; [discriminate|]. rewrite mspan_2 in H by auto. discriminate.
      + destruct p1 as [|t1 p1]; destruct p2 as [|t2 p2]; auto; cbn in H1, H2.
        * rewrite ilabs_lab in E by auto. discriminate.
        * rewrite olabs_lab in E by auto. discriminate.
        * rewrite mspan_3 in H by auto. discriminate.
  Qed.

  Definition match_ok (fs : nat) (p1 p2 : list (tr K)) : bool :=
    match fs with 0 => true | 1 => negb (heads ieps p2) | _ => negb (heads oeps p1) end.

  Lemma ways_match : forall k fs s1 s2 p1 p2, fs < 3 -> accepts f1 s1 p1 -> accepts f2 s2 p2 ->
    ways MatchF f1 f2 k fs s1 s2 p1 p2 =
    b2n (leqb (olabs p1) (ilabs p2) && match_ok fs p1 p2 && (k =? match_span p1 p2)).
  Proof.
    induction k as [|k IH]; intros fs s1 s2 p1 p2 Hfs A1 A2.
    - rewrite ways_0. destruct (isnil p1 && isnil p2) eqn:E.
      + apply andb_true_iff in E as [E1 E2]. destruct p1; [|discriminate]. destruct p2; [|discriminate].
        destruct fs as [|[|[|fs]]]; try lia; reflexivity.
      + symmetry. apply b2n_false. intros H. apply andb_true_iff in H as [H H3]. apply andb_true_iff in H as [H _].
        apply leqb_true in H. apply Nat.eqb_eq in H3. symmetry in H3. apply mspan_0 in H3 as [-> ->]; auto. discriminate.
    - rewrite ways_S. unfold e1w, e2w, bw, fstep.
      cbn [filter_tr qol qil is_nolab is_eps qlab_eqb env ce_fs ce_alleps1 ce_noeps1 ce_alleps2 ce_noeps2].
      assert (S1 : heads oeps p1 = false -> stuck oeps f1 s1 = false).
      { intros H. destruct (stuck oeps f1 s1) eqn:N; auto. apply (stuck_heads _ _ _ _ A1) in N. congruence. }
      assert (S2 : heads ieps p2 = false -> stuck ieps f2 s2 = false).
      { intros H. destruct (stuck ieps f2 s2) eqn:N; auto. apply (stuck_heads _ _ _ _ A2) in N. congruence. }
      assert (N1 : heads oeps p1 = true -> none oeps f1 s1 = false).
      { intros H. destruct (none oeps f1 s1) eqn:N; auto. apply (none_heads _ _ _ _ A1) in N. congruence. }
      assert (N2 : heads ieps p2 = true -> none ieps f2 s2 = false).
      { intros H. destruct (none ieps f2 s2) eqn:N; auto. apply (none_heads _ _ _ _ A2) in N. congruence. }
      destruct p1 as [|t1 p1]; destruct p2 as [|t2 p2].
      + unfold match_ok. destruct fs as [|[|fs]]; auto.
      + apply accepts_cons in A2 as [_ A2]. cbn [plus]. rewrite Nat.add_0_r. cbn [heads] in *.
        destruct (ieps t2) eqn:H2.
        * rewrite ilabs_eps, mspan_2, S1 by auto.
          destruct fs as [|[|[|fs]]]; try lia; cbn [Nat.eqb match_ok heads negb].
          -- destruct (none oeps f1 s1); rewrite IH by (auto; lia); cbn [match_ok heads negb]; auto.
          -- rewrite H2. cbn. rewrite andb_false_r. auto.
          -- rewrite IH by (auto; lia). auto.
        * rewrite ilabs_lab by auto. auto.
      + apply accepts_cons in A1 as [_ A1]. rewrite !Nat.add_0_r. cbn [heads] in *.
        destruct (oeps t1) eqn:H1.
        * rewrite olabs_eps, mspan_1, S2 by auto.
          destruct fs as [|[|[|fs]]]; try lia; cbn [Nat.eqb match_ok heads negb].
          -- destruct (none ieps f2 s2); rewrite IH by (auto; lia); cbn [match_ok heads negb]; auto.
          -- rewrite IH by (auto; lia). auto.
          -- rewrite H1. cbn. rewrite andb_false_r. auto.
        * rewrite olabs_lab by auto. auto.
      + pose proof A1 as A1w. pose proof A2 as A2w.
        apply accepts_cons in A1 as [_ A1]. apply accepts_cons in A2 as [_ A2]. cbn [heads] in *.
        destruct (oeps t1) eqn:H1; destruct (ieps t2) eqn:H2.
        * rewrite olabs_eps, ilabs_eps, mspan_b, N1, N2 by auto.
          assert (Z : (ol t1 =? il t2) = true).
          { unfold oeps, ieps in *. apply Nat.eqb_eq in H1, H2. apply Nat.eqb_eq. congruence. }
          assert (Z0 : (ol t1 =? 0) = true) by exact H1. rewrite Z, Z0.
          destruct fs as [|[|[|fs]]]; try lia; cbn [Nat.eqb match_ok heads negb].
          -- assert (Y1 : (match (if stuck ieps f2 s2 then None else Some 1) with
                | Some fs' => ways MatchF f1 f2 k fs' (ns t1) s2 p1 (t2 :: p2) | None => 0 end) = 0).
             { destruct (stuck ieps f2 s2); auto. rewrite IH by (auto; lia). cbn [match_ok heads]. rewrite H2. cbn.
               rewrite andb_false_r. auto. }
             assert (Y2 : (match (if stuck oeps f1 s1 then None else Some 2) with
                | Some fs' => ways MatchF f1 f2 k fs' s1 (ns t2) (t1 :: p1) p2 | None => 0 end) = 0).
             { destruct (stuck oeps f1 s1); auto. rewrite IH by (auto; lia). cbn [match_ok heads]. rewrite H1. cbn.
               rewrite andb_false_r. auto. }
             rewrite Y1, Y2. cbn [plus]. rewrite IH by (auto; lia). auto.
          -- rewrite IH by (auto; lia). cbn [match_ok heads]. rewrite H2. cbn. rewrite !andb_false_r. auto.
          -- rewrite IH by (auto; lia). cbn [match_ok heads]. rewrite H1. cbn. rewrite !andb_false_r. auto.
        * rewrite olabs_eps, mspan_1, S2, ieqb_eps by (auto; congruence). rewrite !Nat.add_0_r.
          destruct fs as [|[|[|fs]]]; try lia; cbn [Nat.eqb match_ok heads negb].
          -- destruct (none ieps f2 s2); rewrite IH by (auto; lia); cbn [match_ok heads negb]; rewrite ?H2; auto.
          -- rewrite IH by (auto; lia). cbn [match_ok heads negb]. rewrite ?H2. auto.
          -- rewrite H1. cbn. rewrite andb_false_r. auto.
        * rewrite ilabs_eps, mspan_2, S1, ieqb_eps by (auto; congruence). rewrite !Nat.add_0_r. cbn [plus].
          destruct fs as [|[|[|fs]]]; try lia; cbn [Nat.eqb match_ok heads negb].
          -- destruct (none oeps f1 s1); rewrite IH by (auto; lia); cbn [match_ok heads negb]; rewrite ?H1; auto.
          -- rewrite H2. cbn. rewrite andb_false_r. auto.
          -- rewrite IH by (auto; lia). cbn [match_ok heads negb]. rewrite ?H1. auto.
        * rewrite olabs_lab, ilabs_lab, leqb_cons, mspan_3 by auto. cbn [plus].
          assert (H1' : (ol t1 =? 0) = false) by exact H1. rewrite H1'.
          assert (OK : match_ok fs (t1 :: p1) (t2 :: p2) = true).
          { unfold match_ok. cbn [heads]. rewrite H1, H2. destruct fs as [|[|fs]]; auto. }
          rewrite OK. destruct (ol t1 =? il t2); cbn [andb]; auto. rewrite IH by (auto; lia). auto.
  Qed.

  (** Null filter: epsilons only match epsilons. *)
  Lemma ways_null : forall k fs s1 s2 p1 p2,
    ways NullF f1 f2 k fs s1 s2 p1 p2 = b2n (leqb (map ol p1) (map il p2) && (k =? length p1)).
  Proof.
    induction k as [|k IH]; intros fs s1 s2 p1 p2.
    - rewrite ways_0. destruct p1 as [|t1 p1]; destruct p2 as [|t2 p2]; auto. cbn [map length Nat.eqb isnil andb]. rewrite ?andb_false_r. auto.
    - rewrite ways_S. unfold e1w, e2w, bw, fstep. cbn [filter_tr qol qil is_nolab is_eps qlab_eqb orb].
      destruct p1 as [|t1 p1]; destruct p2 as [|t2 p2]; cbn [map length].
      + reflexivity.
      + destruct (ieps t2); auto.
      + destruct (oeps t1); auto.
      + rewrite leqb_cons. destruct (ol t1 =? il t2); cbn [andb].
        * rewrite IH. destruct (oeps t1); destruct (ieps t2); auto.
        * destruct (oeps t1); destruct (ieps t2); auto.
  Qed.

  (** Whatever the filter, only matching paths are paired. *)
  Lemma ways_sound flt : forall k fs s1 s2 p1 p2, ways flt f1 f2 k fs s1 s2 p1 p2 <> 0 -> olabs p1 = ilabs p2.
  Proof.
    induction k as [|k IH]; intros fs s1 s2 p1 p2.
    - rewrite ways_0. destruct p1; destruct p2; cbn; congruence.
    - rewrite ways_S. intros H.
      assert (G : e1w flt f1 f2 k fs s1 s2 p1 p2 <> 0 \/ e2w flt f1 f2 k fs s1 s2 p1 p2 <> 0 \/ bw flt f1 f2 k fs s1 s2 p1 p2 <> 0) by lia.
      destruct G as [G|[G|G]].
      + unfold e1w in G. destruct p1 as [|t1 p1]; [congruence|]. destruct (oeps t1) eqn:E; [|congruence].
        destruct (fstep _ _ _ _); [|congruence]. rewrite olabs_eps by auto. eauto.
      + unfold e2w in G. destruct p2 as [|t2 p2]; [congruence|]. destruct (ieps t2) eqn:E; [|congruence].
        destruct (fstep _ _ _ _); [|congruence]. rewrite ilabs_eps by auto. eauto.
      + unfold bw in G. destruct p1 as [|t1 p1]; [congruence|]. destruct p2 as [|t2 p2]; [congruence|].
        destruct (Nat.eqb_spec (ol t1) (il t2)) as [E|]; [|congruence]. destruct (fstep _ _ _ _); [|congruence].
        rewrite olabs_cons, ilabs_cons, E. f_equal. eauto.
  Qed.

  (** The trivial and no-match filters leave at least one way. *)
  Lemma ways_some flt : flt = TrivialF \/ flt = NoMatchF -> forall k fs s1 s2 p1 p2,
    olabs p1 = ilabs p2 -> k = seq_span p1 p2 -> ways flt f1 f2 k fs s1 s2 p1 p2 <> 0.
  Proof.
    intros F. induction k as [|k IH]; intros fs s1 s2 p1 p2 E Hk.
    - symmetry in Hk. apply seq_span_0 in Hk as [-> ->]; auto. cbn. lia.
    - rewrite ways_S. destruct (heads oeps p1) eqn:H1.
      + destruct p1 as [|t1 p1]; [discriminate|]. cbn in H1. rewrite olabs_eps in E by auto. rewrite seq_span_1 in Hk by auto.
        assert (G : e1w flt f1 f2 k fs s1 s2 (t1 :: p1) p2 <> 0); [|lia].
        unfold e1w. rewrite H1. assert (H1' := H1). unfold oeps in H1'. apply Nat.eqb_eq in H1'. rewrite H1'.
        destruct F as [-> | ->]; cbn; apply IH; auto.
      + destruct (heads ieps p2) eqn:H2.
        * destruct p2 as [|t2 p2]; [discriminate|]. cbn in H2. rewrite ilabs_eps in E by auto. rewrite seq_span_2 in Hk.
          assert (G : e2w flt f1 f2 k fs s1 s2 p1 (t2 :: p2) <> 0); [|lia].
          unfold e2w. rewrite H2. assert (H2' := H2). unfold ieps in H2'. apply Nat.eqb_eq in H2'. rewrite H2'.
          destruct F as [-> | ->]; cbn; apply IH; auto.
        * destruct p1 as [|t1 p1]; destruct p2 as [|t2 p2]; cbn in H1, H2.
          -- discriminate.
          -- rewrite ilabs_lab in E by auto. discriminate.
          -- rewrite olabs_lab in E by auto. discriminate.
          -- rewrite olabs_lab, ilabs_lab in E by auto. injection E as E1 E. rewrite seq_span_3 in Hk by auto.
             assert (G : bw flt f1 f2 k fs s1 s2 (t1 :: p1) (t2 :: p2) <> 0); [|lia].
             unfold bw. rewrite E1, Nat.eqb_refl. unfold ieps in H2.
             destruct F as [-> | ->]; unfold fstep; cbn [filter_tr qol qil is_eps qlab_eqb]; rewrite ?H2; cbn; apply IH; auto.
  Qed.
End Ways.
