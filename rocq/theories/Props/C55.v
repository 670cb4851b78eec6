(** C55: look-ahead, weight pushing and label pushing change no weight of a composition. *)
From Coq Require Import List Arith NArith ZArith Bool Lia Sorted.
From Verif Require Import Base.Util Base.Semiring Base.Machine Base.PropSpec Base.Instances Base.TropZ
  Model.Props Model.VectorFst Model.TrOps Model.History Model.Rational Model.Matchers Model.IntervalSet Model.Reachable Model.LabelReach
  Model.BiMap Model.Lazy Model.Compose Model.LookAhead
  Proofs.PropsFacts Proofs.VectorFacts Proofs.HistoryFacts Proofs.TrOpsFacts Proofs.OpFacts Proofs.VectorProps Proofs.ConnectFacts Proofs.ComposeFacts
  Proofs.LookFacts Proofs.LookAlt Proofs.LookSpec Proofs.LookStack Proofs.LookPush Proofs.LookBuild Proofs.ClosedB
  Props.C06 Props.C19 Props.C20 Props.C34 Props.C38 Props.C49 Props.C50.
Import ListNotations.
Local Open Scope K_scope.

Section C55.
  Context {K : SR} (L : lsr_laws K) (comm : commutative_times K).
  Implicit Types (f g : vfst K).

  (** An index that misses nothing: every label that can be written after epsilons, and every
      state that can end. *)
  Definition complete_index f (d : lrdata) : Prop :=
    (forall s, (s < num_states f)%nat -> exists a, nth_error (ld_sets d) s = Some a /\
       Forall nonempty (ivals a) /\ separated (ivals a) /\ ~ covered (ivals a) O) /\
    (forall s l, can_read f false s l -> reach_label d s l = Ok true) /\
    (forall s, can_end f false s -> reach_final d s = Ok true).
  (** What the filter is given: nothing, or an index of the first machine. *)
  Definition reach_for f (r : lreach) : Prop := match r with Some (d, b) => b = true /\ complete_index f d | None => True end.
  Definition num_trs_all f : nat := fold_right plus O (map (fun s => length (trs_of f s)) (seq 0 (num_states f))).

  Definition ready f1 f2 : Prop :=
    cnt f1 /\ cnt f2 /\ closed f1 /\ closed f2 /\ bits_true f1 /\ bits_true f2 /\ (forall s, StronglySorted le (map il (trs_of f2 s))).

  Notation same_as_plain g f1 f2 :=
    ((forall k x z, rel (mach g) k x z = sum_pairs f1 f2 k x z (once AltSequenceF k)) /\
     (vstart f1 <> None -> vstart f2 <> None -> visymt g = visymt f1 /\ vosymt g = vosymt f2) /\ closed g).

  Lemma flat_len {A B} (h : A -> list B) n l : (forall a, In a l -> (length (h a) <= n)%nat) -> (length (flat_map h l) <= length l * n)%nat.
  Proof.
    induction l as [|a l IH]; intros H; cbn [flat_map length]; [lia|]. rewrite app_length.
    specialize (H a (or_introl eq_refl)) as Ha. assert (length (flat_map h l) <= length l * n)%nat by (apply IH; intros; apply H; right; auto). lia.
  Qed.
  Lemma wlist_len f1 f2 fl r : (length (wlist f1 f2 fl r) <= 1 + num_states f1 * num_states f2)%nat.
  Proof.
    unfold wlist. cbn [length]. match goal with |- (S ?x <= _)%nat => assert (x <= num_states f1 * num_states f2)%nat; [|lia] end.
    etransitivity; [apply (flat_len _ (num_states f2))|rewrite seq_length; auto].
    intros s1 _. etransitivity; [apply (flat_len _ 1)|rewrite seq_length; lia]. intros s2 _. destruct (look _ _ _ _ _); cbn; lia.
  Qed.
  Lemma llist_len f : length (llist f) = num_trs_all f.
  Proof.
    unfold llist, num_trs_all. induction (seq 0 (num_states f)) as [|s l IH]; auto. cbn [flat_map map fold_right]. rewrite app_length, map_length, IH. auto.
  Qed.

  Theorem C55_lookahead :
    forall f1 f2 fl r props fuel mt, ready f1 f2 -> compose_match_type f1 f2 = Ok mt -> reach_for f1 r -> fl_noneps fl = false ->
    (3 * num_states f1 * num_states f2 <= fuel)%nat ->
    exists g, gcompose (look_cf true fl r f1 f2 (base_cf AltSequenceF f1 f2)) Nat.eqb props fuel f1 f2 = Some (Ok g) /\ same_as_plain g f1 f2.
  Proof.
    intros f1 f2 fl r props fuel mt (C1 & C2 & D1 & D2 & B1 & B2 & S2) EM RO NE Hf. pose proof (match_type_ok f1 f2 mt B1 B2 EM) as M.
    set (U := fun t : gtuple nat => valid f1 f2 t).
    destruct (gcompose_gen (look_cf true fl r f1 f2 (base_cf AltSequenceF f1 f2)) Nat.eqb Nat.eqb_spec f1 f2 mt EM U) with (univ := all_tuples f1 f2) (props := props) (fuel := fuel)
      as (g & Eg & _ & Dg & R & SY).
    - intros s1 s2 E1 E2. unfold U, valid. cbn. split; [lia|]. split; [apply D1; auto|apply D2; auto].
    - intros [[fs s1] s2] (Hfs & H1 & H2). cbn [fst snd] in *. fold (F1 f1 f2 fl r). rewrite (F1_trs f1 f2 mt C2 M fl r) by auto.
      assert (X : forall p, In p (pairs mt f1 f2 s1 s2) -> exists o, gout (F1 f1 f2 fl r) (env AltSequenceF f1 f2 fs s1 s2) p = Ok o /\ forall u, o = Some u -> U (tn u)).
      { intros p Hp. apply pairs_kind in Hp. unfold gout.
        destruct (F1_cases L f1 f2 D1 D2 fl r S2 NE RO fs s1 s2 p H1 H2 Hp) as [->|(fs' & a1 & a2 & la & -> & (i & o & Ei & Eo) & Hf' & Hn1 & Hn2 & _)].
        - eexists. split; [reflexivity|discriminate].
        - cbn [rbind]. unfold gadd_tr. rewrite Ei, Eo. cbn [rbind rmap proper]. eexists. split; [reflexivity|]. intros u [= <-]. unfold U, valid. cbn. auto. }
      rewrite gouts_ok by (intros p Hp; destruct (X p Hp) as (o & E & _); eauto). eexists. split; [reflexivity|]. intros u Hu.
      apply in_flat_map in Hu as (p & Hp & Hu). unfold gone in Hu. destruct (X p Hp) as (o & E & Q). rewrite E in Hu. destruct o; [|destruct Hu]. destruct Hu as [<-|[]]. auto.
    - intros [[fs s1] s2] (Hfs & H1 & H2). cbn [fst snd] in *. unfold gcompute_final. rewrite !final_in by auto. cbn [rbind].
      destruct (fin_of f1 s1); [|eauto]. destruct (fin_of f2 s2); [|eauto]. cbn [look_cf cf_set base_cf]. rewrite set_state_eq by auto. cbn. eauto.
    - apply all_tuples_in.
    - rewrite all_tuples_len. auto.
    - exists g. split; auto. split; [|split; auto]. intros k x z. rewrite R, <- (B_sum L comm f1 f2 mt C1 C2 D1 D2 M).
      unfold both_starts. destruct (vstart f1) as [s1|] eqn:E1; auto. destruct (vstart f2) as [s2|] eqn:E2; auto.
      apply (F1_value L comm f1 f2 mt C1 C2 D1 D2 M fl r S2 NE RO); [apply D1; auto|apply D2; auto].
  Qed.

  (** The semirings in which weights can be moved: no two weights cancel, and a nonzero weight
      divides every weight. *)
  Definition divides (divide : K -> K -> res K) : Prop := forall a w : K, w <> 0 -> exists q, divide a w = Ok q /\ w * q = a.
  Definition zero_sum_free : Prop := forall a b : K, a + b = 0 -> a = 0 /\ b = 0.

  Lemma fsw_eqb_spec (a b : nat * K) : reflect (a = b) (fsw_eqb a b).
  Proof.
    destruct a as [a1 a2], b as [b1 b2]. unfold fsw_eqb. cbn [fst snd]. destruct (Nat.eqb_spec a1 b1); [|constructor; congruence].
    destruct (keqb a2 b2) eqn:E; constructor.
    - apply (keqb_spec _ L) in E. congruence.
    - intros [= _ ->]. assert (keqb b2 b2 = true) by (apply (keqb_spec _ L); auto). congruence.
  Qed.
  Lemma fswl_eqb_spec (a b : nat * K * option nat) : reflect (a = b) (fswl_eqb a b).
  Proof.
    destruct a as [a1 a2], b as [b1 b2]. unfold fswl_eqb. cbn [fst snd]. destruct (fsw_eqb_spec a1 b1); [|constructor; congruence].
    destruct a2 as [x|], b2 as [y|]; cbn [onat_eqb andb]; try (constructor; congruence). destruct (Nat.eqb_spec x y); constructor; congruence.
  Qed.

  Theorem C55_push_weights :
    forall f1 f2 fl r divide props fuel mt, ready f1 f2 -> compose_match_type f1 f2 = Ok mt -> reach_for f1 r -> fl_noneps fl = false ->
    zero_sum_free -> (1 : K) <> 0 -> divides divide ->
    (3 * (1 + num_states f1 * num_states f2) * num_states f1 * num_states f2 <= fuel)%nat ->
    exists g, gcompose (pushw_cf divide (look_cf true fl r f1 f2 (base_cf AltSequenceF f1 f2))) fsw_eqb props fuel f1 f2 = Some (Ok g) /\
      same_as_plain g f1 f2.
  Proof.
    intros f1 f2 fl r divide props fuel mt (C1 & C2 & D1 & D2 & B1 & B2 & S2) EM RO NE ZS N10 DV Hf. pose proof (match_type_ok f1 f2 mt B1 B2 EM) as M.
    set (univ := list_prod (list_prod (list_prod (seq 0 3) (wlist f1 f2 fl r)) (seq 0 (num_states f1))) (seq 0 (num_states f2))).
    destruct (gcompose_gen (F2 f1 f2 fl r divide) fsw_eqb fsw_eqb_spec f1 f2 mt EM (U2 f1 f2 fl r)) with (univ := univ) (props := props) (fuel := fuel)
      as (g & Eg & _ & Dg & R & SY).
    - intros s1 s2 E1 E2. cbn. split; [lia|]. split; [split; auto|]. split; [left; auto|]. split; [apply D1; auto|apply D2; auto].
    - intros t Ht. apply (F2_closed L comm f1 f2 mt C1 C2 D1 D2 M fl r S2 NE RO divide ZS N10 DV t Ht).
    - intros [[[fs w] s1] s2] (Hfs & W & Iw & H1 & H2). destruct (F2_final L f1 f2 C1 C2 fl r divide DV fs w s1 s2 H1 H2 W) as (v & E & _). eauto.
    - intros [[[fs w] s1] s2] (Hfs & W & Iw & H1 & H2). unfold univ. apply in_prod; [apply in_prod; [apply in_prod|]|]; auto; apply in_seq; lia.
    - unfold univ. etransitivity; [apply Nat.eq_le_incl; exact (prod_length _ _)|]. rewrite !prod_length, !seq_length. etransitivity; [|exact Hf].
      pose proof (wlist_len f1 f2 fl r). apply Nat.mul_le_mono_r. apply Nat.mul_le_mono_r. apply Nat.mul_le_mono_l. auto.
    - exists g. split; auto. split; [|split; auto]. intros k x z. rewrite R, <- (B_sum L comm f1 f2 mt C1 C2 D1 D2 M).
      unfold both_starts. destruct (vstart f1) as [s1|] eqn:E1; auto. destruct (vstart f2) as [s2|] eqn:E2; auto.
      rewrite <- (ktimes_1_l _ L (G _ _ _ _ _ _ _ _)).
      apply (F2_value L comm f1 f2 mt C1 C2 D1 D2 M fl r S2 NE RO divide ZS N10 DV); [apply D1; auto|apply D2; auto|split; auto].
  Qed.

  Theorem C55_push_labels :
    forall f1 f2 fl r divide props fuel mt, ready f1 f2 -> compose_match_type f1 f2 = Ok mt -> reach_for f1 r -> fl_noneps fl = false ->
    zero_sum_free -> (1 : K) <> 0 -> divides divide ->
    (3 * (1 + num_states f1 * num_states f2) * (1 + num_trs_all f2) * num_states f1 * num_states f2 <= fuel)%nat ->
    exists g, gcompose (stack_cf divide fl r f1 f2) fswl_eqb props fuel f1 f2 = Some (Ok g) /\ same_as_plain g f1 f2.
  Proof.
    intros f1 f2 fl r divide props fuel mt (C1 & C2 & D1 & D2 & B1 & B2 & S2) EM RO NE ZS N10 DV Hf. pose proof (match_type_ok f1 f2 mt B1 B2 EM) as M.
    set (univ := list_prod (list_prod (list_prod (list_prod (seq 0 3) (wlist f1 f2 fl r)) (None :: map Some (llist f2))) (seq 0 (num_states f1))) (seq 0 (num_states f2))).
    destruct (gcompose_gen (F3 f1 f2 fl r divide) fswl_eqb fswl_eqb_spec f1 f2 mt EM (U3 f1 f2 fl r)) with (univ := univ) (props := props) (fuel := fuel)
      as (g & Eg & _ & Dg & R & SY).
    - intros s1 s2 E1 E2. cbn. split; [|split; auto]. split; [lia|]. split; [split; auto|]. split; [left; auto|]. split; [apply D1; auto|apply D2; auto].
    - intros t Ht. apply (F3_trs L comm f1 f2 mt C1 C2 D1 D2 M fl r S2 NE RO divide ZS N10 DV t Ht).
    - intros [[[[fs w] o] s1] s2] ((Hfs & W & Iw & H1 & H2) & P & _). destruct o as [l|].
      + eexists. apply (F3_final_some L f1 f2 C1 C2 fl r divide DV); auto.
      + destruct (F3_final_none L f1 f2 C1 C2 fl r divide DV fs w s1 s2 H1 H2 W) as (v & E & _). eauto.
    - intros [[[[fs w] o] s1] s2] ((Hfs & W & Iw & H1 & H2) & P & Io). unfold univ.
      apply in_prod; [apply in_prod; [apply in_prod; [apply in_prod|]|]|]; auto; try (apply in_seq; lia).
      destruct o as [l|]; [right; apply in_map; auto|left; auto].
    - unfold univ. etransitivity; [apply Nat.eq_le_incl; exact (prod_length _ _)|]. rewrite !prod_length, !seq_length. cbn [length]. rewrite map_length, llist_len. etransitivity; [|exact Hf].
      pose proof (wlist_len f1 f2 fl r). apply Nat.mul_le_mono_r. apply Nat.mul_le_mono_r. apply Nat.mul_le_mono_r. apply Nat.mul_le_mono_l. auto.
    - exists g. split; auto. split; [|split; auto]. intros k x z. rewrite R, <- (B_sum L comm f1 f2 mt C1 C2 D1 D2 M).
      unfold both_starts. destruct (vstart f1) as [s1|] eqn:E1; auto. destruct (vstart f2) as [s2|] eqn:E2; auto.
      rewrite <- (ktimes_1_l _ L (G _ _ _ _ _ _ _ _)).
      apply (F3_value L comm f1 f2 mt C1 C2 D1 D2 M fl r S2 NE RO divide ZS N10 DV k); [apply D1; auto|apply D2; auto|split; auto].
  Qed.
End C55.
Print Assumptions C55_lookahead.
Print Assumptions C55_push_weights.
Print Assumptions C55_push_labels.

Section Index.
  Context {K : SR} (L : lsr_laws K).
  (** The index of C50 misses nothing when every label is its own number. *)
  Lemma index_identity (f : vfst K) d : label_index f false d -> closed f -> (forall l, occurs f false l -> qlookup (ld_l2i d) (Lab l) = Some l) -> complete_index f d.
  Proof.
    intros (_ & _ & (_ & N2 & _) & _ & Rl & _ & Fi & _ & Se) D Id.
    assert (Lt : forall s l, can_read f false s l -> (s < num_states f)%nat).
    { intros s l (_ & u & t & R & Ht & _). inversion R; subst; [destruct (le_lt_dec (num_states f) u); auto; rewrite trs_of_beyond in Ht by auto; destruct Ht|].
      destruct (le_lt_dec (num_states f) s); auto. cbn in H. apply filter_In in H as [H _]. rewrite trs_of_beyond in H by auto. destruct H. }
    split; [|split].
    - intros s Hs. destruct (Fi s Hs) as (b & E & _). unfold reach_final, interval_set in E.
      destruct (nth_error (ld_sets d) s) as [a|] eqn:Ea; [|discriminate]. exists a. destruct (Se s a Ea) as (A1 & A2 & A3). repeat split; auto.
      intros H. destruct (A3 _ H) as (k & Hk). apply N2 in Hk. lia.
    - intros s l H. assert (O : occurs f false l). { destruct H as (A & u & t & _ & Ht & E). split; auto. eauto. }
      destruct (Rl s l l (Lt s l H) (Id l O)) as (b & -> & Hb). f_equal. apply Hb. auto.
    - intros s H. assert (Hs : (s < num_states f)%nat).
      { destruct H as (u & R & (w & E & _)). inversion R; subst; [destruct (le_lt_dec (num_states f) u); auto; rewrite fin_of_beyond in E by auto; discriminate|].
        destruct (le_lt_dec (num_states f) s); auto. cbn in H. apply filter_In in H as [H _]. rewrite trs_of_beyond in H by auto. destruct H. }
      destruct (Fi s Hs) as (b & -> & Hb). f_equal. apply Hb. auto.
  Qed.
End Index.

(** First machine: an epsilon to a state that can only write 1, one to a state that writes 2 or 3,
    and one to a state that writes 4. The second machine has an input epsilon, and reads no 4. *)
Definition c55_1 : list (op tropZ) :=
  [OAddStates 5; OSetStart 0; OSetFinal 3 (Some 1%Z : tropZ); OAddTr 0 (Tr 1 0 (Some 2%Z : tropZ) 1); OAddTr 1 (Tr 2 1 (Some 3%Z : tropZ) 3);
   OAddTr 0 (Tr 1 0 (Some 5%Z : tropZ) 2); OAddTr 2 (Tr 4 2 (Some 1%Z : tropZ) 3); OAddTr 2 (Tr 5 3 (Some 1%Z : tropZ) 3);
   OAddTr 0 (Tr 1 0 (Some 1%Z : tropZ) 4); OAddTr 4 (Tr 4 4 (Some 1%Z : tropZ) 3)].
Definition c55_2 : list (op tropZ) :=
  [OAddStates 3; OSetStart 0; OSetFinal 2 (Some 4%Z : tropZ); OAddTr 0 (Tr 0 9 (Some 1%Z : tropZ) 1); OAddTr 1 (Tr 1 6 (Some 7%Z : tropZ) 2);
   OAddTr 1 (Tr 2 8 (Some 2%Z : tropZ) 2); OAddTr 1 (Tr 3 7 (Some 9%Z : tropZ) 2); OAddTr 1 (Tr 5 7 (Some 8%Z : tropZ) 2)].
Definition c55_f1 : vfst tropZ := match run vnew c55_1 with Ok f => f | _ => vnew end.
Definition c55_f2 : vfst tropZ := match run vnew c55_2 with Ok f => f | _ => vnew end.
Definition c55_d : lrdata := match compute_data c55_f1 false 1000 with Ok d => d | _ => LD false None [] [] end.
Lemma c55_divides : divides trop_div.
Proof. intros [a|] [w|] H; cbn; try (destruct H; reflexivity); eexists; split; try reflexivity; cbn; auto. f_equal. lia. Qed.
Lemma c55_zero_sum : zero_sum_free (K := tropZ).
Proof. intros [a|] [b|]; cbn; try discriminate; auto. Qed.
Lemma c55_ready : ready c55_f1 c55_f2.
Proof.
  assert (E1 : run vnew c55_1 = Ok c55_f1) by (vm_compute; reflexivity).
  assert (E2 : run vnew c55_2 = Ok c55_f2) by (vm_compute; reflexivity).
  split; [refine (run_cnt tropZ_laws c55_1 vnew c55_f1 _ E1); constructor|].
  split; [refine (run_cnt tropZ_laws c55_2 vnew c55_f2 _ E2); constructor|].
  split; [apply closedb_ok; vm_compute; reflexivity|]. split; [apply closedb_ok; vm_compute; reflexivity|].
  split; [eapply (run_fsound tropZ_laws); [apply fsound_new| |exact E1]; vm_compute; tauto|].
  split; [eapply (run_fsound tropZ_laws); [apply fsound_new| |exact E2]; vm_compute; tauto|].
  intros s. do 3 (destruct s as [|s]; [vm_compute; repeat constructor|]). rewrite trs_of_beyond by (vm_compute; lia). constructor.
Qed.
Lemma c55_complete : complete_index c55_f1 c55_d.
Proof.
  assert (E : run vnew c55_1 = Ok c55_f1) by (vm_compute; reflexivity).
  destruct c55_ready as (_ & _ & D & _ & B & _).
  destruct (C50_compute_data tropZ_laws ltac:(vm_compute; discriminate) c55_f1 false 1000 D B) as [_ H]; [vm_compute; discriminate|].
  destruct H as (d & Ed & H).
  { intros (s & u & _ & H & _). revert H. do 5 (destruct s as [|s]; [vm_compute; congruence|]). vm_compute. destruct s; congruence. }
  replace c55_d with d by (unfold c55_d; rewrite Ed; auto). apply index_identity; auto.
  intros l (N0 & s & t & Ht & E0). replace d with c55_d by (unfold c55_d; rewrite Ed; auto). clear Ed H. subst l.
  assert (X : Forall (fun t : tr tropZ => ol t = O \/ qlookup (ld_l2i c55_d) (Lab (ol t)) = Some (ol t)) (flat_map (trs_of c55_f1) (seq 0 5)))
    by (vm_compute; repeat (constructor; auto)).
  rewrite Forall_forall in X. destruct (X t) as [A|A]; auto; [|contradiction]. apply in_flat_map. exists s. split; auto. apply in_seq.
  destruct (le_lt_dec (num_states c55_f1) s) as [G|G]; [rewrite trs_of_beyond in Ht by auto; destruct Ht|]. replace (num_states c55_f1) with 5%nat in G by (vm_compute; reflexivity). lia.
Qed.
Example C55_witness :
  ready c55_f1 c55_f2 /\ compose_match_type c55_f1 c55_f2 = Ok MBoth /\ reach_for c55_f1 (Some (c55_d, true)) /\
  divides trop_div /\ zero_sum_free (K := tropZ) /\ num_trs_all c55_f2 = 5%nat /\
  exists g h p, gcompose (look_cf true default_flags (Some (c55_d, true)) c55_f1 c55_f2 (base_cf AltSequenceF c55_f1 c55_f2)) Nat.eqb 0%N 45 c55_f1 c55_f2 = Some (Ok g) /\
    gcompose (stack_cf trop_div default_flags (Some (c55_d, true)) c55_f1 c55_f2) fswl_eqb 0%N 4320 c55_f1 c55_f2 = Some (Ok h) /\
    compose_with AltSequenceF false 45 c55_f1 c55_f2 = Some (Ok p) /\
    map num_states [g; h; p] = [5; 5; 6]%nat /\
    (** the label 6 is written, and part of the weights paid, one transition earlier *)
    trs_of h 1 = [Tr 1 6 (Some 9%Z : tropZ) 2; Tr 1 0 (Some 7%Z : tropZ) 3] /\
    map (fun m => rel (mach m) 3 [1; 2]%nat [9; 6]%nat) [g; h; p] = repeat (Some 18%Z : tropZ) 3 /\
    map (fun m => rel (mach m) 3 [1; 4]%nat [9; 8]%nat) [g; h; p] = repeat (Some 14%Z : tropZ) 3.
Proof.
  split; [exact c55_ready|]. split; [vm_compute; reflexivity|]. split; [split; [auto|exact c55_complete]|]. split; [exact c55_divides|].
  split; [exact c55_zero_sum|]. split; [vm_compute; reflexivity|]. do 3 eexists.
  split; [vm_compute; reflexivity|]. split; [vm_compute; reflexivity|]. split; [vm_compute; reflexivity|]. repeat split; vm_compute; reflexivity.
Qed.

(** Over the sequence filter paths are lost: after an epsilon of the first machine it lets the
    second one take input epsilons, which looking ahead does not see. *)
Theorem C55_sequence_refuted :
  ~ (forall (f1 f2 : vfst tropZ) fl r props fuel mt, ready f1 f2 -> compose_match_type f1 f2 = Ok mt -> reach_for f1 r -> fl_noneps fl = false ->
     (3 * num_states f1 * num_states f2 <= fuel)%nat ->
     exists g, gcompose (look_cf true fl r f1 f2 (base_cf SequenceF f1 f2)) Nat.eqb props fuel f1 f2 = Some (Ok g) /\
       forall k x z, rel (mach g) k x z = sum_pairs f1 f2 k x z (once SequenceF k)).
Proof.
  intros H. destruct (H c55_f1 c55_f2 default_flags (Some (c55_d, true)) 0%N 45%nat MBoth c55_ready) as (g & Eg & Hg); [vm_compute; reflexivity| |auto|vm_compute; lia|].
  { split; [auto|exact c55_complete]. }
  clear H. specialize (Hg 3%nat [1; 2]%nat [9; 6]%nat).
  assert (X : match gcompose (look_cf true default_flags (Some (c55_d, true)) c55_f1 c55_f2 (base_cf SequenceF c55_f1 c55_f2)) Nat.eqb 0%N 45 c55_f1 c55_f2 with
              | Some (Ok g) => rel (mach g) 3 [1; 2]%nat [9; 6]%nat = None | _ => False end) by (vm_compute; reflexivity).
  rewrite Eg in X. rewrite X in Hg.
  assert (Y : sum_pairs c55_f1 c55_f2 3 [1; 2]%nat [9; 6]%nat (once SequenceF 3) = Some 18%Z) by (vm_compute; reflexivity).
  rewrite Y in Hg. discriminate Hg.
Qed.

(** Looking ahead after labels too (LOOKAHEAD_NON_EPSILONS) also loses paths as soon as the second
    machine has input epsilons: 1 2 against 1 eps 2. *)
Definition c55_3 : list (op tropZ) :=
  [OAddStates 3; OSetStart 0; OSetFinal 2 (Some 1%Z : tropZ); OAddTr 0 (Tr 1 1 (Some 2%Z : tropZ) 1); OAddTr 1 (Tr 2 2 (Some 3%Z : tropZ) 2)].
Definition c55_4 : list (op tropZ) :=
  [OAddStates 4; OSetStart 0; OSetFinal 3 (Some 1%Z : tropZ); OAddTr 0 (Tr 1 6 (Some 2%Z : tropZ) 1); OAddTr 1 (Tr 0 9 (Some 3%Z : tropZ) 2);
   OAddTr 2 (Tr 2 7 (Some 3%Z : tropZ) 3)].
Definition c55_f3 : vfst tropZ := match run vnew c55_3 with Ok f => f | _ => vnew end.
Definition c55_f4 : vfst tropZ := match run vnew c55_4 with Ok f => f | _ => vnew end.
Definition c55_d3 : lrdata := match compute_data c55_f3 false 1000 with Ok d => d | _ => LD false None [] [] end.
Lemma c55_ready3 : ready c55_f3 c55_f4.
Proof.
  assert (E1 : run vnew c55_3 = Ok c55_f3) by (vm_compute; reflexivity).
  assert (E2 : run vnew c55_4 = Ok c55_f4) by (vm_compute; reflexivity).
  split; [refine (run_cnt tropZ_laws c55_3 vnew c55_f3 _ E1); constructor|].
  split; [refine (run_cnt tropZ_laws c55_4 vnew c55_f4 _ E2); constructor|].
  split; [apply closedb_ok; vm_compute; reflexivity|]. split; [apply closedb_ok; vm_compute; reflexivity|].
  split; [eapply (run_fsound tropZ_laws); [apply fsound_new| |exact E1]; vm_compute; tauto|].
  split; [eapply (run_fsound tropZ_laws); [apply fsound_new| |exact E2]; vm_compute; tauto|].
  intros s. do 4 (destruct s as [|s]; [vm_compute; repeat constructor|]). rewrite trs_of_beyond by (vm_compute; lia). constructor.
Qed.
Lemma c55_complete3 : complete_index c55_f3 c55_d3.
Proof.
  assert (E : run vnew c55_3 = Ok c55_f3) by (vm_compute; reflexivity).
  destruct c55_ready3 as (_ & _ & D & _ & B & _).
  destruct (C50_compute_data tropZ_laws ltac:(vm_compute; discriminate) c55_f3 false 1000 D B) as [_ H]; [vm_compute; discriminate|].
  destruct H as (d & Ed & H).
  { intros (s & u & _ & H & _). revert H. do 3 (destruct s as [|s]; [vm_compute; congruence|]). vm_compute. destruct s; congruence. }
  replace c55_d3 with d by (unfold c55_d3; rewrite Ed; auto). apply index_identity; auto.
  intros l (N0 & s & t & Ht & E0). replace d with c55_d3 by (unfold c55_d3; rewrite Ed; auto). clear Ed H. subst l.
  assert (X : Forall (fun t : tr tropZ => ol t = O \/ qlookup (ld_l2i c55_d3) (Lab (ol t)) = Some (ol t)) (flat_map (trs_of c55_f3) (seq 0 3)))
    by (vm_compute; repeat (constructor; auto)).
  rewrite Forall_forall in X. destruct (X t) as [A|A]; auto; [|contradiction]. apply in_flat_map. exists s. split; auto. apply in_seq.
  destruct (le_lt_dec (num_states c55_f3) s) as [G|G]; [rewrite trs_of_beyond in Ht by auto; destruct Ht|]. replace (num_states c55_f3) with 3%nat in G by (vm_compute; reflexivity). lia.
Qed.
Theorem C55_non_epsilons_refuted :
  ~ (forall (f1 f2 : vfst tropZ) fl r props fuel mt, ready f1 f2 -> compose_match_type f1 f2 = Ok mt -> reach_for f1 r ->
     (3 * num_states f1 * num_states f2 <= fuel)%nat ->
     exists g, gcompose (look_cf true fl r f1 f2 (base_cf AltSequenceF f1 f2)) Nat.eqb props fuel f1 f2 = Some (Ok g) /\
       forall k x z, rel (mach g) k x z = sum_pairs f1 f2 k x z (once AltSequenceF k)).
Proof.
  intros H. destruct (H c55_f3 c55_f4 (LAF true true true true true) (Some (c55_d3, true)) 0%N 36%nat MBoth c55_ready3) as (g & Eg & Hg); [vm_compute; reflexivity| |vm_compute; lia|].
  { split; [auto|exact c55_complete3]. }
  clear H. specialize (Hg 3%nat [1; 2]%nat [6; 9; 7]%nat).
  assert (X : match gcompose (look_cf true (LAF true true true true true) (Some (c55_d3, true)) c55_f3 c55_f4 (base_cf AltSequenceF c55_f3 c55_f4)) Nat.eqb 0%N 36 c55_f3 c55_f4 with
              | Some (Ok g) => rel (mach g) 3 [1; 2]%nat [6; 9; 7]%nat = None | _ => False end) by (vm_compute; reflexivity).
  rewrite Eg in X. rewrite X in Hg.
  assert (Y : sum_pairs c55_f3 c55_f4 3 [1; 2]%nat [6; 9; 7]%nat (once AltSequenceF 3) = Some 15%Z) by (vm_compute; reflexivity).
  rewrite Y in Hg. discriminate Hg.
Qed.

(** Where weights can cancel, weight pushing drops paths whose total ahead is zero. *)
Definition gf2 : SR := mkSR bool false true xorb andb Bool.eqb.
Definition c55_5 : list (op gf2) :=
  [OAddStates 3; OSetStart 0; OSetFinal 2 (true : gf2); OAddTr 0 (Tr 1 0 (true : gf2) 1); OAddTr 1 (Tr 2 1 (true : gf2) 2); OAddTr 1 (Tr 3 2 (true : gf2) 2)].
Definition c55_6 : list (op gf2) :=
  [OAddStates 2; OSetStart 0; OSetFinal 1 (true : gf2); OAddTr 0 (Tr 1 6 (true : gf2) 1); OAddTr 0 (Tr 2 7 (true : gf2) 1)].
Definition gf2_div (a b : gf2) : res gf2 := if (b : bool) then Ok a else Panic.
Theorem C55_cancelling_refuted :
  divides gf2_div /\
  exists f1 f2 d g, run vnew c55_5 = Ok f1 /\ run vnew c55_6 = Ok f2 /\ compute_data f1 false 1000 = Ok d /\
    gcompose (pushw_cf gf2_div (look_cf true default_flags (Some (d, true)) f1 f2 (base_cf AltSequenceF f1 f2))) fsw_eqb 0%N 126 f1 f2 = Some (Ok g) /\
    sum_pairs f1 f2 2 [1; 2]%nat [6]%nat (once AltSequenceF 2) = true /\ rel (mach g) 2 [1; 2]%nat [6]%nat = false.
Proof.
  split. { intros a [|] H; [|destruct H; reflexivity]. exists a. split; reflexivity. }
  do 4 eexists. split; [vm_compute; reflexivity|]. split; [vm_compute; reflexivity|]. split; [vm_compute; reflexivity|].
  split; [vm_compute; reflexivity|]. split; vm_compute; reflexivity.
Qed.
