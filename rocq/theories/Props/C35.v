(** C35: what an answer of [isomorphic] means. *)
From Coq Require Import List Arith NArith Lia Bool Permutation Sorted.
From Verif Require Import Base.Util Base.Semiring Base.Machine Base.Instances
  Model.Props Model.VectorFst Model.TrOps Model.Isomorphic Proofs.VectorFacts Proofs.TrOpsFacts.
Import ListNotations.

Section C35.
  Context {K : SR}.
  Variable wlt : K -> K -> bool.
  Variable aeq : K -> K -> bool.
  Variables f1 f2 : vfst K.
  Hypothesis C1 : closed f1.
  Hypothesis C2 : closed f2.

  (** The two transitions have the same labels, approximately equal weights and
      corresponding targets. *)
  Definition matched (h : nat -> option nat) (a b : tr K) : Prop :=
    il a = il b /\ ol a = ol b /\ aeq (wgt a) (wgt b) = true /\ h (ns a) = Some (ns b).
  Definition fins_match (o1 o2 : option K) : Prop :=
    match o1, o2 with Some a, Some b => aeq a b = true | None, None => True | _, _ => False end.
  Definition states_match (h : nat -> option nat) (s1 s2 : nat) : Prop :=
    fins_match (fin_of f1 s1) (fin_of f2 s2) /\
    exists l1 l2, Permutation l1 (trs_of f1 s1) /\ Permutation l2 (trs_of f2 s2) /\ Forall2 (matched h) l1 l2.

  Definition hp (st : isost) (s : nat) : option nat := nth s (is_pairs st) None.
  Definition nones (st : isost) : nat := count (fun o : option nat => match o with None => true | _ => false end) (is_pairs st).
  Definition inv (st : isost) : Prop :=
    length (is_pairs st) = num_states f1 /\
    (forall s1 s2, hp st s1 = Some s2 -> s1 < num_states f1 /\ s2 < num_states f2) /\
    (forall s1 s2, In (s1, s2) (is_queue st) -> hp st s1 = Some s2).
  Definition ext (h h' : nat -> option nat) : Prop := forall s v, h s = Some v -> h' s = Some v.
  Definition step (st st' : isost) : Prop :=
    inv st' /\ ext (hp st) (hp st') /\
    length (is_queue st') + nones st' = length (is_queue st) + nones st /\
    (forall s v, hp st' s = Some v -> hp st s = Some v \/ In (s, v) (is_queue st')) /\
    incl (is_queue st) (is_queue st').

  Lemma step_refl st : inv st -> step st st.
  Proof. intros I. split; auto. split; [intros s v; auto|]. split; auto. split; auto. intros x; auto. Qed.
  Lemma step_trans a b c : step a b -> step b c -> step a c.
  Proof.
    intros (A1 & A2 & A3 & A4 & A5) (B1 & B2 & B3 & B4 & B5). split; auto. split; [intros s v H; auto|].
    split; [lia|]. split; [|intros x; auto]. intros s v H. apply B4 in H as [H|H]; auto. apply A4 in H as [H|H]; auto.
  Qed.

  Lemma nones_upd (l : list (option nat)) s v : nth_error l s = Some None ->
    S (count (fun o : option nat => match o with None => true | _ => false end) (upd l s (Some v))) =
    count (fun o : option nat => match o with None => true | _ => false end) l.
  Proof.
    revert s. induction l as [|x l IH]; intros [|s] E; simpl in E; try discriminate; simpl upd; rewrite !count_cons.
    - injection E as ->. auto.
    - rewrite <- (IH s E). lia.
  Qed.

  (** All pairs made so far are of states in [P], paired as by [g]. *)
  Definition consistent (st : isost) (g : nat -> nat) (P : nat -> Prop) : Prop :=
    forall s v, hp st s = Some v -> v = g s /\ P s.

  Lemma pair_ok st s1 s2 : inv st -> s1 < num_states f1 -> s2 < num_states f2 ->
    exists b st', pair_state st s1 s2 = Ok (b, st') /\ step st st' /\
      (b = true -> hp st' s1 = Some s2) /\
      (forall g P, consistent st g P -> s2 = g s1 -> P s1 -> b = true /\ consistent st' g P).
  Proof.
    intros I H1 H2. pose proof I as (I1 & I2 & I3). unfold pair_state.
    destruct (nth_error_ex (is_pairs st) s1 ltac:(lia)) as (o & Eo). rewrite Eo.
    assert (Eh : hp st s1 = o) by (unfold hp; apply nth_error_nth; auto).
    destruct o as [v|].
    - eexists. exists st. split; [reflexivity|]. split; [apply step_refl; auto|]. split.
      + intros E. apply Nat.eqb_eq in E. congruence.
      + intros g P Hg -> _. split; auto. apply Nat.eqb_eq. apply Hg. auto.
    - eexists. eexists. split; [reflexivity|].
      set (st' := IS _ _ _).
      assert (Hh : forall s, hp st' s = if Nat.eqb s s1 then Some s2 else hp st s).
      { intros s. unfold hp, st'. cbn [is_pairs]. destruct (Nat.eqb_spec s s1) as [->|N].
        - apply nth_upd_eq. lia.
        - apply nth_upd_ne. auto. }
      split; [|split].
      + split; [|split; [|split; [|split]]].
        * split; [unfold st'; cbn; rewrite upd_length; auto|]. split.
          -- intros a b. rewrite Hh. destruct (Nat.eqb_spec a s1) as [->|]; [|apply I2]. intros [= <-]. auto.
          -- intros a b H. unfold st' in H. cbn in H. rewrite Hh. apply in_app_iff in H as [H|[[= <- <-]|[]]].
             ++ destruct (Nat.eqb_spec a s1) as [->|]; [apply I3 in H; congruence|apply I3; auto].
             ++ rewrite Nat.eqb_refl. auto.
        * intros s v E. rewrite Hh. destruct (Nat.eqb_spec s s1) as [->|]; auto. congruence.
        * unfold nones, st'. cbn [is_pairs is_queue]. rewrite app_length. cbn [length]. pose proof (nones_upd _ _ s2 Eo). lia.
        * intros s v. rewrite Hh. destruct (Nat.eqb_spec s s1) as [->|]; auto. intros [= <-]. right. unfold st'. cbn.
          apply in_app_iff. right. left. auto.
        * intros x Hx. unfold st'. cbn. apply in_app_iff. auto.
      + intros _. rewrite Hh, Nat.eqb_refl. auto.
      + intros g P Hg -> Hp. split; auto. intros s v. rewrite Hh. destruct (Nat.eqb_spec s s1) as [->|]; auto.
        intros [= <-]. auto.
  Qed.

  Lemma matched_ext h h' a b : ext h h' -> matched h a b -> matched h' a b.
  Proof. intros E (H1 & H2 & H3 & H4). repeat (split; auto). Qed.

  Lemma trs_ok : forall l1 l2 st prev, inv st -> length l1 = length l2 ->
    Forall (fun t => ns t < num_states f1) l1 -> Forall (fun t => ns t < num_states f2) l2 ->
    exists b st', iso_trs aeq st prev l1 l2 = Ok (b, st') /\ step st st' /\
      (b = true -> Forall2 (matched (hp st')) l1 l2) /\
      (forall g P, consistent st g P -> Forall (fun a => P (ns a)) l1 ->
         Forall2 (fun a c => il a = il c /\ ol a = ol c /\ aeq (wgt a) (wgt c) = true /\ ns c = g (ns a)) l1 l2 ->
         b = true /\ consistent st' g P).
  Proof.
    induction l1 as [|a l1 IH]; intros [|c l2] st prev I Hl F1 F2; try discriminate; cbn [iso_trs].
    - do 2 eexists. split; [reflexivity|]. split; [apply step_refl; auto|]. split; [constructor|]. auto.
    - destruct (Nat.eqb_spec (il a) (il c)) as [Ei|Ni]; cbn [negb].
      2:{ do 2 eexists. split; [reflexivity|]. split; [apply step_refl; auto|]. split; [discriminate|].
          intros g P _ _ H. inversion H as [|? ? ? ? (X & _) _]; subst. contradiction. }
      destruct (Nat.eqb_spec (ol a) (ol c)) as [Eo|No]; cbn [negb].
      2:{ do 2 eexists. split; [reflexivity|]. split; [apply step_refl; auto|]. split; [discriminate|].
          intros g P _ _ H. inversion H as [|? ? ? ? (_ & X & _) _]; subst. contradiction. }
      destruct (aeq (wgt a) (wgt c)) eqn:Ea; cbn [negb].
      2:{ do 2 eexists. split; [reflexivity|]. split; [apply step_refl; auto|]. split; [discriminate|].
          intros g P _ _ H. inversion H as [|? ? ? ? (_ & _ & X & _) _]; subst. congruence. }
      destruct (pair_ok st (ns a) (ns c) I (Forall_inv F1) (Forall_inv F2)) as (b & st1 & -> & S1 & Hb & Hg). cbn [rbind fst snd].
      destruct b; cbn [negb].
      + set (st2 := IS _ _ _).
        assert (I2 : inv st2) by (destruct S1 as (X & _); exact X).
        destruct (IH l2 st2 (Some a) I2 ltac:(simpl in Hl; lia) (Forall_inv_tail F1) (Forall_inv_tail F2)) as (b & st3 & E3 & S3 & Hb3 & Hg3).
        exists b, st3. split; auto.
        assert (S13 : step st st3) by (apply step_trans with st2; auto; exact S1).
        split; auto. split.
        * intros ->. constructor; auto. split; auto. split; auto. split; auto. apply S3. apply Hb; auto.
        * intros g P G Fp H. inversion H as [|? ? ? ? (_ & _ & _ & X) Y]; subst.
          destruct (Hg g P G X (Forall_inv Fp)) as [_ G1]. apply Hg3; auto. exact (Forall_inv_tail Fp).
      + exists false, st1. split; auto. split; auto. split; [discriminate|].
        intros g P G Fp H. inversion H as [|? ? ? ? (_ & _ & _ & X) Y]; subst. destruct (Hg g P G X (Forall_inv Fp)). discriminate.
  Qed.

  (** The corresponding states of the exact notion: [g] renumbers the accessible part. *)
  Definition aligned (g : nat -> nat) (s : nat) : Prop :=
    fins_match (fin_of f1 s) (fin_of f2 (g s)) /\
    length (trs_of f1 s) = length (trs_of f2 (g s)) /\
    Forall2 (fun a c => il a = il c /\ ol a = ol c /\ aeq (wgt a) (wgt c) = true /\ ns c = g (ns a))
      (isort (iso_le wlt) (trs_of f1 s)) (isort (iso_le wlt) (trs_of f2 (g s))).

  Lemma state_ok st s1 s2 : inv st -> s1 < num_states f1 -> s2 < num_states f2 ->
    exists b st', iso_state wlt aeq f1 f2 st s1 s2 = Ok (b, st') /\ step st st' /\
      (b = true -> states_match (hp st') s1 s2) /\
      (forall g P, consistent st g P -> s2 = g s1 -> aligned g s1 -> (forall t, In t (trs_of f1 s1) -> P (ns t)) ->
         b = true /\ consistent st' g P).
  Proof.
    intros I H1 H2. unfold iso_state, final_weight, get_trs, get_state.
    unfold states_match, aligned, fin_of, trs_of.
    destruct (nth_error_ex (vstates f1) s1 H1) as (x1 & E1). destruct (nth_error_ex (vstates f2) s2 H2) as (x2 & E2).
    rewrite E1, E2. cbn [rmap rbind].
    assert (NS : forall (f : vfst K) s x, closed f -> nth_error (vstates f) s = Some x -> Forall (fun t => ns t < num_states f) (vtrs x)).
    { intros f s x [C _] E. apply Forall_forall. intros t Ht. apply (C s). unfold trs_of. rewrite E. auto. }
    assert (NSs : forall (f : vfst K) s x, closed f -> nth_error (vstates f) s = Some x -> Forall (fun t => ns t < num_states f) (isort (iso_le wlt) (vtrs x))).
    { intros f s x C E. eapply Permutation_Forall; [symmetry; apply isort_perm|]. eapply NS; eauto. }
    set (fe := match vfin x1, vfin x2 with Some a, Some b => aeq a b | None, None => true | _, _ => false end).
    assert (Hfe : fe = true <-> fins_match (vfin x1) (vfin x2)).
    { unfold fe, fins_match. destruct (vfin x1), (vfin x2); split; auto; try tauto; discriminate. }
    destruct fe; cbn [negb].
    2:{ exists false, st. split; auto. split; [apply step_refl; auto|]. split; [discriminate|].
        intros g P _ -> (X & _) _. rewrite E2 in X. apply Hfe in X. discriminate. }
    destruct (Nat.eqb_spec (length (vtrs x1)) (length (vtrs x2))) as [El|Nl]; cbn [negb].
    2:{ exists false, st. split; auto. split; [apply step_refl; auto|]. split; [discriminate|].
        intros g P _ -> (_ & X & _) _. rewrite E2 in X. contradiction. }
    destruct (trs_ok (isort (iso_le wlt) (vtrs x1)) (isort (iso_le wlt) (vtrs x2)) st None I) as (b & st' & E & S & Hb & Hg).
    { rewrite !(Permutation_length (isort_perm _ _)). auto. }
    { eapply NSs; eauto. }
    { eapply NSs; eauto. }
    exists b, st'. split; auto. split; auto. split.
    - intros Eb. split; [apply Hfe; auto|]. do 2 eexists. split; [|split; [|apply Hb; exact Eb]]; apply isort_perm.
    - intros g P G -> (_ & _ & A) Cl. rewrite E2 in A. apply Hg; auto. apply Forall_forall. intros t Ht. apply Cl.
      eapply Permutation_in; [apply isort_perm|exact Ht].
  Qed.

  Definition sound (st : isost) : Prop := forall s v, hp st s = Some v -> In (s, v) (is_queue st) \/ states_match (hp st) s v.

  Lemma states_match_ext h h' s v : ext h h' -> states_match h s v -> states_match h' s v.
  Proof.
    intros E (F & l1 & l2 & P1 & P2 & M). split; auto. exists l1, l2. split; auto. split; auto.
    eapply Forall2_imp; [|exact M]. intros a b _ _. apply matched_ext; auto.
  Qed.

  Lemma loop_ok fuel : forall st, inv st -> sound st -> length (is_queue st) + nones st <= fuel ->
    match iso_loop wlt aeq fuel f1 f2 st with
    | Ok true => exists h, ext (hp st) h /\ (forall s v, h s = Some v -> states_match h s v) /\
                 (forall s v, h s = Some v -> s < num_states f1 /\ v < num_states f2)
    | Ok false | Err => forall g (P : nat -> Prop), consistent st g P -> (forall s, P s -> aligned g s) ->
        (forall s t, P s -> In t (trs_of f1 s) -> P (ns t)) -> False
    | Panic => False
    end.
  Proof.
    induction fuel as [|fuel IH]; intros st I Sd Hf; cbn [iso_loop].
    - destruct (is_queue st) as [|x q] eqn:Eq; [|simpl in Hf; lia]. exists (hp st). split; [intros s v; auto|].
      split; [|apply I]. intros s v E. apply Sd in E as [E|E]; auto. rewrite Eq in E. destruct E.
    - destruct (is_queue st) as [|[s1 s2] q] eqn:Eq.
      { exists (hp st). split; [intros s v; auto|].
        split; [|apply I]. intros s v E. apply Sd in E as [E|E]; auto. rewrite Eq in E. destruct E. }
      assert (E12 : hp st s1 = Some s2) by (apply I; rewrite Eq; left; auto).
      set (st0 := IS (is_pairs st) q (is_nd st)).
      assert (I0 : inv st0).
      { destruct I as (J1 & J2 & J3). split; auto. split; auto. intros a b H. apply J3. rewrite Eq. right; auto. }
      assert (B : s1 < num_states f1 /\ s2 < num_states f2) by (apply I; auto).
      destruct (state_ok st0 s1 s2 I0 (proj1 B) (proj2 B)) as (b & st' & E & S & Hb & Hg). rewrite E. cbn [rbind fst snd].
      destruct b; cbn [negb].
      + pose proof S as (I' & X & Me & Nw & Ic).
        assert (Sd' : sound st').
        { intros s v Hs. apply Nw in Hs as [Hs|Hs]; auto. change (hp st s = Some v) in Hs.
          destruct (Sd s v Hs) as [Hq|Hm].
          - rewrite Eq in Hq. destruct Hq as [[= <- <-]|Hq]; [right; apply Hb; auto|left; apply Ic; auto].
          - right. eapply states_match_ext; [|exact Hm]. exact X. }
        specialize (IH st' I' Sd'). cbn [is_queue st0] in Me. change (nones st0) with (nones st) in Me.
        cbn [length] in *. specialize (IH ltac:(lia)).
        destruct (iso_loop wlt aeq fuel f1 f2 st') as [[]| |] eqn:El; auto.
        * destruct IH as (h & H1 & H2). exists h. split; auto. intros s v Hs. apply H1, X. auto.
        * intros g P G A Cl. apply (IH g P); auto. destruct (G s1 s2 E12) as [-> Ps]. apply Hg; auto. intros t. apply Cl; auto.
        * intros g P G A Cl. apply (IH g P); auto. destruct (G s1 s2 E12) as [-> Ps]. apply Hg; auto. intros t. apply Cl; auto.
      + assert (Z : forall g (P : nat -> Prop), consistent st g P -> (forall s, P s -> aligned g s) ->
            (forall s t, P s -> In t (trs_of f1 s) -> P (ns t)) -> False).
        { intros g P G A Cl. destruct (G s1 s2 E12) as [-> Ps]. destruct (Hg g P G eq_refl (A s1 Ps)); [|discriminate].
          intros t. apply Cl; auto. }
        destruct (is_nd st'); exact Z.
  Qed.

  Lemma start_ok a b : vstart f1 = Some a -> vstart f2 = Some b ->
    exists st, pair_state (IS (repeat None (num_states f1)) [] false) a b = Ok (true, st) /\ inv st /\ sound st /\
      hp st a = Some b /\ (forall s v, hp st s = Some v -> s = a /\ v = b) /\ length (is_queue st) + nones st <= S (num_states f1).
  Proof.
    intros Ea Eb. pose proof (proj2 C1 _ Ea) as La. pose proof (proj2 C2 _ Eb) as Lb.
    set (st0 := IS (repeat None (num_states f1)) [] false).
    assert (H0 : forall s, hp st0 s = None) by (intros s; unfold hp, st0; cbn; apply nth_repeat).
    assert (I0 : inv st0).
    { split; [apply repeat_length|]. split; [intros; rewrite H0 in *; discriminate|intros ? ? []]. }
    unfold pair_state. cbn [is_pairs st0 is_queue is_nd]. rewrite nth_error_repeat by auto. eexists. split; [reflexivity|].
    destruct (pair_ok st0 a b I0 La Lb) as (v & st & E & S & Hv & _).
    unfold pair_state in E. cbn [is_pairs st0 is_queue is_nd] in E. rewrite nth_error_repeat in E by auto. injection E as <- <-.
    set (st := IS (upd (repeat None (num_states f1)) a (Some b)) [(a, b)] false) in *. destruct S as (I & X & Me & Nw & Ic). split; auto.
    assert (Only : forall s v, hp st s = Some v -> s = a /\ v = b).
    { intros s v Hs. apply Nw in Hs as [Hs|Hs]; [rewrite H0 in Hs; discriminate|]. cbn in Hs. destruct Hs as [[= -> ->]|[]]. auto. }
    split; [|split; [|split]]; auto.
    - intros s v Hs. destruct (Only s v Hs) as [-> ->]. left. cbn. auto.
    - change (length (is_queue st) + nones st <= S (num_states f1)). rewrite Me. unfold nones, st0. cbn [is_queue is_pairs length]. unfold count.
      assert (forall n, length (filter (fun o : option nat => match o with None => true | _ => false end) (repeat None n)) = n) as ->; [|lia].
      { clear. induction n; simpl; auto. }
  Qed.

  (** No panic. If the answer is true there is a map from the accessible states of the first
      machine to states of the second, start to start, such that corresponding states have
      matching final weights and, up to order, matching transitions. *)
  Theorem C35_sound : isomorphic wlt aeq f1 f2 <> Panic /\
    (isomorphic wlt aeq f1 f2 = Ok true ->
      (vstart f1 = None /\ vstart f2 = None) \/
      exists h a b, vstart f1 = Some a /\ vstart f2 = Some b /\ h a = Some b /\
        (forall s v, h s = Some v -> states_match h s v) /\
        (forall s, reach (mach f1) a s -> exists v, h s = Some v /\ v < num_states f2)).
  Proof.
    unfold isomorphic. destruct (vstart f1) as [a|] eqn:Ea, (vstart f2) as [b|] eqn:Eb;
      try (split; [discriminate|]; intros H; try discriminate; auto; fail).
    destruct (start_ok a b Ea Eb) as (st & -> & I & Sd & Hab & _ & Hf). cbn [rbind snd].
    pose proof (loop_ok (S (num_states f1)) st I Sd Hf) as H.
    destruct (iso_loop wlt aeq (S (num_states f1)) f1 f2 st) as [[]| |]; try contradiction;
      (split; [discriminate|]); intros HH; try discriminate.
    right. destruct H as (h & X & M & B). exists h, a, b. repeat (split; auto).
    intros s R. assert (exists v, h s = Some v) as (v & Hv).
    { assert (Ha : exists v, h a = Some v) by (exists b; apply X; auto). clear - R Ha M.
      induction R as [s|s t u Ht R IH]; auto. apply IH. destruct Ha as (v & Hv). destruct (M s v Hv) as (_ & l1 & l2 & P1 & _ & F2).
      assert (Hin : In t l1) by (eapply Permutation_in; [symmetry; exact P1|exact Ht]).
      destruct (Forall2_in_l _ _ _ _ F2 Hin) as (t2 & _ & _ & _ & _ & E). eauto. }
    exists v. split; auto. apply (B s v Hv).
  Qed.

  (** With exact comparison of weights, a true answer makes the machines equivalent. *)
  Theorem C35_equivalent (L : lsr_laws K) : (forall x y, aeq x y = true -> x = y) ->
    isomorphic wlt aeq f1 f2 = Ok true -> rel_eq (mach f1) (mach f2).
  Proof.
    intros Hq E n x y. destruct (proj2 C35_sound E) as [[E1 E2]|(h & a & b & Ea & Eb & Hab & M & R)].
    - unfold rel. cbn. rewrite E1, E2. auto.
    - unfold rel. cbn [mstart mach]. rewrite Ea, Eb. set (g := fun s => match h s with Some v => v | None => O end).
      assert (g a = b) as <- by (unfold g; rewrite Hab; auto). symmetry.
      apply (wt_ren L (mach f1) (mach f2) g (fun s => h s <> None)).
      + intros s t Hs Ht. destruct (h s) as [v|] eqn:Ev; [|congruence]. destruct (M s v Ev) as (_ & l1 & l2 & P1 & _ & F2).
        assert (Hin : In t l1) by (eapply Permutation_in; [symmetry; exact P1|exact Ht]).
        destruct (Forall2_in_l _ _ _ _ F2 Hin) as (t2 & _ & _ & _ & _ & Et). congruence.
      + intros s Hs. destruct (h s) as [v|] eqn:Ev; [|congruence]. destruct (M s v Ev) as (_ & l1 & l2 & P1 & P2 & F2).
        assert (g s = v) as -> by (unfold g; rewrite Ev; auto). cbn [mtrs mach].
        rewrite <- P2. rewrite <- P1.
        assert (map (ren g) l1 = l2) as ->; auto. clear - F2 Hq. induction F2 as [|t1 t2 l1 l2 (H1 & H2 & H3 & H4) _ IH]; simpl; auto.
        f_equal; auto. unfold ren, g. rewrite H4. apply Hq in H3. destruct t1, t2; simpl in *; congruence.
      + intros s Hs. destruct (h s) as [v|] eqn:Ev; [|congruence]. destruct (M s v Ev) as (F & _).
        assert (g s = v) as -> by (unfold g; rewrite Ev; auto). cbn [mfin mach]. unfold fins_match in F.
        destruct (fin_of f1 s), (fin_of f2 v); try contradiction; auto. apply Hq in F. simpl. congruence.
      + congruence.
  Qed.

  (** Completeness. [wlt] is a strict total order and no state has two transitions with the
      same labels and weight. *)
  Hypothesis wlt_irr : forall x, wlt x x = false.
  Hypothesis wlt_trans : forall x y z, wlt x y = true -> wlt y z = true -> wlt x z = true.
  Hypothesis wlt_total : forall x y, x = y \/ wlt x y = true \/ wlt y x = true.

  Definition key (t : tr K) : nat * nat * K := (il t, ol t, wgt t).

  Lemma iso_le_spec a b : iso_le wlt a b = true <->
    il a < il b \/ (il a = il b /\ (ol a < ol b \/ (ol a = ol b /\
      (wlt (wgt a) (wgt b) = true \/ (wgt a = wgt b /\ ns a <= ns b))))).
  Proof.
    unfold iso_le.
    destruct (Nat.ltb_spec (il a) (il b)); [split; auto|].
    destruct (Nat.ltb_spec (il b) (il a)); [split; [discriminate|lia]|].
    destruct (Nat.ltb_spec (ol a) (ol b)); [split; [|auto]; intros _; right; lia|].
    destruct (Nat.ltb_spec (ol b) (ol a)); [split; [discriminate|lia]|].
    assert (il a = il b) by lia. assert (ol a = ol b) by lia.
    destruct (wlt (wgt a) (wgt b)) eqn:E; [split; [intros _; auto 10|auto]|].
    destruct (wlt (wgt b) (wgt a)) eqn:E'.
    - split; [discriminate|]. intros [|[_ [|[_ [X|[X _]]]]]]; try lia; try discriminate. rewrite X, wlt_irr in E'. discriminate.
    - assert (wgt a = wgt b) by (destruct (wlt_total (wgt a) (wgt b)) as [|[|]]; congruence).
      destruct (Nat.ltb_spec (ns a) (ns b)); [split; [intros _; right; split; auto; right; split; auto; right; split; auto; lia|auto]|].
      destruct (Nat.ltb_spec (ns b) (ns a)).
      + split; [discriminate|]. intros [|[_ [|[_ [X|[_ X]]]]]]; try lia; try discriminate.
      + split; [|auto]. intros _. right. auto 10.
  Qed.
  Lemma iso_le_tot x y : iso_le wlt x y = true \/ iso_le wlt y x = true.
  Proof.
    rewrite !iso_le_spec.
    destruct (Nat.lt_trichotomy (il x) (il y)) as [|[Ei|]]; auto.
    destruct (Nat.lt_trichotomy (ol x) (ol y)) as [|[Eo|]]; auto.
    destruct (wlt_total (wgt x) (wgt y)) as [Ew|[Ew|Ew]]; auto 10.
    destruct (Nat.le_ge_cases (ns x) (ns y)); [left|right]; right; split; auto; right; split; auto.
  Qed.
  Lemma iso_le_trans x y z : iso_le wlt x y = true -> iso_le wlt y z = true -> iso_le wlt x z = true.
  Proof.
    rewrite !iso_le_spec. intros [H|[Ei [H|[Eo [H|[Ew H]]]]]] [H'|[Ei' [H'|[Eo' [H'|[Ew' H']]]]]]; try (left; lia);
      right; (split; [lia|]); try (left; lia); right; (split; [lia|]).
    - left. eapply wlt_trans; eauto.
    - left. congruence.
    - left. congruence.
    - right. split; [congruence|lia].
  Qed.

  (** Keys in strictly increasing order. *)
  Definition klt (a b : tr K) : Prop :=
    il a < il b \/ (il a = il b /\ (ol a < ol b \/ (ol a = ol b /\ wlt (wgt a) (wgt b) = true))).
  Lemma klt_irr a b : klt a b -> klt b a -> False.
  Proof.
    intros [H|[Ei [H|[Eo H]]]] [H'|[Ei' [H'|[Eo' H']]]]; try lia.
    pose proof (wlt_trans _ _ _ H H') as X. rewrite wlt_irr in X. discriminate.
  Qed.

  Lemma sorted_klt l : NoDup (map key l) -> StronglySorted (fun a b => iso_le wlt a b = true) l -> StronglySorted klt l.
  Proof.
    induction l as [|t l IH]; intros ND S; constructor; simpl in ND.
    - apply IH; [inversion ND; auto|]. apply StronglySorted_inv in S as [S _]. auto.
    - apply StronglySorted_inv in S as [_ F]. rewrite Forall_forall in *. intros u Hu. specialize (F u Hu).
      apply iso_le_spec in F. unfold klt. destruct F as [H|[Ei [H|[Eo [H|[Ew H]]]]]]; auto 10.
      exfalso. inversion ND as [|? ? X _]; subst. apply X. apply in_map_iff. exists u. split; auto. unfold key. congruence.
  Qed.
  Lemma klt_unique : forall l l', StronglySorted klt l -> StronglySorted klt l' -> Permutation l l' -> l = l'.
  Proof.
    induction l as [|a l IH]; intros [|b l'] S S' P; auto.
    - apply Permutation_nil in P. discriminate.
    - apply Permutation_sym, Permutation_nil in P. discriminate.
    - apply StronglySorted_inv in S as [S F]. apply StronglySorted_inv in S' as [S' F'].
      rewrite Forall_forall in F, F'.
      assert (a = b) as <-.
      { assert (Ha : In a (b :: l')) by (eapply Permutation_in; [exact P|left; auto]).
        assert (Hb : In b (a :: l)) by (eapply Permutation_in; [symmetry; exact P|left; auto]).
        destruct Ha as [Ha|Ha]; auto. destruct Hb as [Hb|Hb]; auto. exfalso.
        apply (klt_irr a b); auto. }
      f_equal. apply IH; auto. apply Permutation_cons_inv in P. auto.
  Qed.

  Definition same_machine (g : nat -> nat) (a b : nat) : Prop :=
    g a = b /\ forall s, reach (mach f1) a s ->
      fin_of f2 (g s) = fin_of f1 s /\ Permutation (trs_of f2 (g s)) (map (ren g) (trs_of f1 s)).

  Theorem C35_complete a b g : (forall x, aeq x x = true) ->
    vstart f1 = Some a -> vstart f2 = Some b -> same_machine g a b ->
    (forall s, reach (mach f1) a s -> NoDup (map key (trs_of f1 s))) ->
    isomorphic wlt aeq f1 f2 = Ok true.
  Proof.
    intros Rf Ea Eb (Hg & HG) Det. unfold isomorphic. rewrite Ea, Eb.
    destruct (start_ok a b Ea Eb) as (st & -> & I & Sd & Hab & Only & Hf). cbn [rbind snd].
    pose proof (loop_ok (S (num_states f1)) st I Sd Hf) as H.
    assert (Z : forall (X : forall g (P : nat -> Prop), consistent st g P -> (forall s, P s -> aligned g s) ->
        (forall s t, P s -> In t (trs_of f1 s) -> P (ns t)) -> False), False).
    { intros X. apply (X g (reach (mach f1) a)).
      - intros s v Hs. destruct (Only s v Hs) as [-> ->]. split; auto. constructor.
      - intros s R. destruct (HG s R) as [Hfin Hp]. split; [rewrite Hfin; unfold fins_match; destruct (fin_of f1 s); auto|].
        split; [rewrite (Permutation_length Hp), map_length; auto|].
        assert (Es : isort (iso_le wlt) (trs_of f2 (g s)) = map (ren g) (isort (iso_le wlt) (trs_of f1 s))).
        { assert (Km : forall l : list (tr K), map key (map (ren g) l) = map key l).
          { intros l. rewrite map_map. apply map_ext. intros []; auto. }
          assert (N1 : NoDup (map key (isort (iso_le wlt) (trs_of f1 s)))).
          { eapply Permutation_NoDup; [|apply (Det s R)]. apply Permutation_map. symmetry. apply isort_perm. }
          apply klt_unique.
          - apply sorted_klt; [|apply isort_sorted; [apply iso_le_tot|apply iso_le_trans]].
            eapply Permutation_NoDup; [|apply (Det s R)]. rewrite <- Km. apply Permutation_map.
            rewrite <- Hp. symmetry. apply isort_perm.
          - pose proof (sorted_klt _ N1 (isort_sorted _ iso_le_tot iso_le_trans _)) as S1. revert S1.
            clear. induction (isort (iso_le wlt) (trs_of f1 s)) as [|t l IH]; simpl; intros S1; constructor.
            + apply IH. apply StronglySorted_inv in S1 as [S1 _]. auto.
            + apply StronglySorted_inv in S1 as [_ F]. apply Forall_map. eapply Forall_impl; [|exact F]. intros []; destruct t; auto.
          - rewrite isort_perm, Hp. apply Permutation_map. symmetry. apply isort_perm. }
        rewrite Es. clear - Rf. induction (isort (iso_le wlt) (trs_of f1 s)) as [|t l IH]; simpl; constructor; auto.
      - intros s t R Ht. eapply reach_trans; [exact R|]. eapply reach_step; [exact Ht|constructor]. }
    destruct (iso_loop wlt aeq (S (num_states f1)) f1 f2 st) as [[]| |]; auto; exfalso; auto.
  Qed.
End C35.
Print Assumptions C35_sound.
Print Assumptions C35_equivalent.
Print Assumptions C35_complete.

(** The answer true does not mean that the states can be renumbered: the map may merge states,
    and the answer depends on the order of the arguments. *)
Definition two_ends : vfst natSR := VF [VS None [Tr 1 1 1 1; Tr 2 2 1 2] 0 0; VS (Some 1) [] 0 0; VS (Some 1) [] 0 0] (Some 0) None None 0.
Definition one_end : vfst natSR := VF [VS None [Tr 1 1 1 1; Tr 2 2 1 1] 0 0; VS (Some 1) [] 0 0] (Some 0) None None 0.
Theorem C35_symmetric_refuted :
  isomorphic (K := natSR) Nat.ltb Nat.eqb two_ends one_end = Ok true /\
  isomorphic (K := natSR) Nat.ltb Nat.eqb one_end two_ends = Ok false /\
  num_states two_ends <> num_states one_end /\
  (forall s, accessible (mach two_ends) s <-> s < 3).
Proof.
  split; [vm_compute; reflexivity|]. split; [vm_compute; reflexivity|]. split; [discriminate|].
  intros s. split.
  - intros (a & [= <-] & R).
    assert (Q : forall x y, reach (mach two_ends) x y -> x < 3 -> y < 3).
    { induction 1 as [|x t y Ht R' IH]; auto. intros Hx. apply IH. destruct x as [|[|[|x]]]; try lia; simpl in Ht.
      - destruct Ht as [<-|[<-|[]]]; simpl; lia.
      - destruct Ht.
      - destruct Ht. }
    apply (Q 0 s R). lia.
  - intros H. exists 0. split; auto. destruct s as [|[|[|s]]]; try lia; [constructor| |].
    + apply reach_step with (t := Tr 1 1 1 1); [left; auto|constructor].
    + apply reach_step with (t := Tr 2 2 1 2); [right; left; auto|constructor].
Qed.
(** Unreachable states are not compared at all, and non-determinism can turn a positive
    instance into an error: the pairing by sorted order is wrong for equal labels. *)
Definition nd1 : vfst natSR := VF [VS None [Tr 1 1 1 1; Tr 1 1 1 2] 0 0; VS (Some 1) [] 0 0; VS (Some 2) [] 0 0] (Some 0) None None 0.
Definition nd2 : vfst natSR := VF [VS None [Tr 1 1 1 1; Tr 1 1 1 2] 0 0; VS (Some 2) [] 0 0; VS (Some 1) [] 0 0] (Some 0) None None 0.
Theorem C35_nondeterministic_refuted :
  isomorphic (K := natSR) Nat.ltb Nat.eqb nd1 nd2 = Err /\
  same_machine nd1 nd2 (fun s => match s with 1 => 2 | 2 => 1 | _ => s end) 0 0.
Proof.
  split; [vm_compute; reflexivity|]. split; auto. intros s _.
  destruct s as [|[|[|s]]]; simpl; split; auto; try apply perm_swap; destruct s; auto.
Qed.
Print Assumptions C35_symmetric_refuted.
Print Assumptions C35_nondeterministic_refuted.

(** A renumbering with reordered transitions is recognised. *)
Definition rn1 : vfst natSR := VF [VS None [Tr 1 1 1 1; Tr 2 2 1 2] 0 0; VS (Some 1) [Tr 1 2 3 1] 0 0; VS (Some 2) [] 0 0] (Some 0) None None 0.
Definition rn2 : vfst natSR := VF [VS (Some 1) [Tr 1 2 3 0] 0 0; VS (Some 2) [] 0 0; VS None [Tr 2 2 1 1; Tr 1 1 1 0] 0 0] (Some 2) None None 0.
Example C35_instance : closed rn1 /\ closed rn2 /\
  same_machine rn1 rn2 (fun s => match s with 0 => 2 | 1 => 0 | 2 => 1 | _ => s end) 0 2 /\
  (forall s, NoDup (map key (trs_of rn1 s))) /\
  isomorphic (K := natSR) Nat.ltb Nat.eqb rn1 rn2 = Ok true.
Proof.
  split; [|split; [|split; [|split; [|vm_compute; reflexivity]]]].
  - split; [|intros s [= <-]; vm_compute; lia]. intros s t H.
    destruct s as [|[|[|s]]]; simpl in H; [destruct H as [<-|[<-|[]]]|destruct H as [<-|[]]|destruct H|destruct s; destruct H]; vm_compute; lia.
  - split; [|intros s [= <-]; vm_compute; lia]. intros s t H.
    destruct s as [|[|[|s]]]; simpl in H; [destruct H as [<-|[]]|destruct H|destruct H as [<-|[<-|[]]]|destruct s; destruct H]; vm_compute; lia.
  - split; auto. intros s _. destruct s as [|[|[|s]]]; simpl; split; auto; try apply perm_swap; try reflexivity; destruct s; auto.
  - intros s. destruct s as [|[|[|s]]]; simpl; repeat constructor; simpl; try (intros [H|[]]; discriminate); try tauto.
    destruct s; constructor.
Qed.
