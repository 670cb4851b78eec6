(** C33: [check_path_in_fst] against the accepting paths of the machine. *)
From Coq Require Import List Arith NArith Lia Bool.
From Verif Require Import Base.Util Base.Semiring Base.Machine Base.PathSum Base.Instances
  Model.Props Model.VectorFst Model.FstPath Proofs.VectorFacts.
Import ListNotations.
Local Open Scope K_scope.

Section C33.
  Context {K : SR} (L : lsr_laws K).

  (** [p] is the label and weight sequence of an accepting path. *)
  Definition accepts (m : machine K) (p : fpath K) : Prop :=
    exists s q w, mstart m = Some s /\ is_path m s q /\ mfin m (dst s q) = Some w /\
      ilabs q = pil p /\ olabs q = pol p /\ pw q * w = pwgt p.

  (** Both labels of a transition are epsilon or none is. *)
  Definition synced (m : machine K) : Prop := forall s t, In t (mtrs m s) -> il t = O <-> ol t = O.

  Variables (f : vfst K) (p : fpath K).
  Hypothesis C : closed f.
  (** One-sided epsilons are only handled when the query has no output. *)
  Hypothesis S : synced (mach f) \/ pol p = [].

  (** An item of the queue from which the query can be completed. *)
  Definition wins (b : bfs K) : Prop :=
    exists q w, is_path (mach f) (b_state b) q /\ fin_of f (dst (b_state b) q) = Some w /\
      ilabs q = skipn (b_i b) (pil p) /\ olabs q = skipn (b_o b) (pol p) /\ b_w b * pw q * w = pwgt p.
  Definition good (b : bfs K) : Prop := b_state b < num_states f /\ (pol p <> [] -> b_i b = b_o b) /\ b_i b <= length (pil p) /\ b_o b <= length (pol p).

  Lemma done_wins b : good b -> check_done f p b = true ->  wins b.
  Proof.
    intros (G1 & G2 & G3 & G4) H. unfold check_done in H. apply andb_true_iff in H as [H Hw]. apply andb_true_iff in H as [H1 H2].
    apply Nat.leb_le in H1, H2. destruct (fin_of f (b_state b)) as [w|] eqn:E; [|discriminate].
    exists [], w. simpl. split; auto. split; auto. rewrite !skipn_all2 by lia. split; auto. split; auto.
    rewrite (ktimes_1_r K L). apply (keqb_spec K L). auto.
  Qed.

  Lemma check_tr_ok b t : good b -> In t (trs_of f (b_state b)) ->
    exists o, check_tr p b t = Ok o /\
      match o with
      | Some b' => good b' /\ b' = BS (ns t) (b_w b * wgt t) (b_i b') (b_o b') /\
          skipn (b_i b) (pil p) = lab (il t) ++ skipn (b_i b') (pil p) /\
          skipn (b_o b) (pol p) = lab (ol t) ++ skipn (b_o b') (pol p)
      | None => forall x y, skipn (b_i b) (pil p) = lab (il t) ++ x -> skipn (b_o b) (pol p) = lab (ol t) ++ y -> False
      end.
  Proof.
    intros (G1 & G2 & G3 & G4) Ht. pose proof (proj1 C _ _ Ht) as Hns.
    assert (Sk : forall (l : list nat) i x, nth_error l i = Some x -> skipn i l = x :: skipn (Datatypes.S i) l).
    { clear. induction l as [|y l IH]; intros [|i] x E; simpl in *; try discriminate; [congruence|]. apply IH in E. exact E. }
    unfold check_tr.
    destruct (list_eq_dec Nat.eq_dec (pol p) []) as [Pn|Pn].
    { rewrite Pn in *. cbn [length] in G4. assert (b_o b = O) as Eo by lia. rewrite Eo. cbn [length Nat.ltb Nat.leb rbind skipn].
      destruct (Nat.eqb_spec (il t) 0) as [Zi|Zi], (Nat.eqb_spec (ol t) 0) as [Zo|Zo];
        unfold lab; rewrite ?Zi, ?Zo, ?(proj2 (Nat.eqb_neq _ _) Zi), ?(proj2 (Nat.eqb_neq _ _) Zo); cbn [Nat.eqb app].
      - eexists. split; [reflexivity|]. cbn [b_i b_o b_w b_state]. unfold good. rewrite Pn. cbn [b_i b_o b_w b_state length skipn]. split; [repeat split; auto; congruence|]. auto.
      - eexists. split; [reflexivity|]. cbn. discriminate.
      - destruct (nth_error (pil p) (b_i b)) as [x|] eqn:Ex; [destruct (Nat.eqb_spec (il t) x) as [E1|N1]|]; eexists; (split; [reflexivity|]).
        + cbn [b_i b_o b_w b_state]. assert (b_i b < length (pil p)) by (apply nth_error_Some; congruence).
          unfold good. rewrite Pn. cbn [b_i b_o b_w b_state length skipn]. split; [split; [auto|split; [congruence|lia]]|]. split; auto. rewrite (Sk _ _ _ Ex). subst x. auto.
        + intros u v E _. rewrite (Sk _ _ _ Ex) in E. congruence.
        + intros u v E _. apply nth_error_None in Ex. rewrite skipn_all2 in E by lia. discriminate.
      - rewrite andb_false_r. eexists. split; [reflexivity|]. cbn. discriminate. }
    specialize (G2 Pn). destruct S as [S'|]; [|contradiction]. pose proof (S' _ _ Ht) as Hs.
    destruct (Nat.eqb_spec (il t) 0) as [Ei|Ei].
    - pose proof (proj1 Hs Ei) as Eo.
      assert (X : exists mo, (if Nat.ltb (b_o b) (length (pol p)) then
           match nth_error (pol p) (b_i b) with Some l => Ok (Nat.eqb (ol t) l) | None => Panic end else Ok false) = Ok mo).
      { destruct (Nat.ltb_spec (b_o b) (length (pol p))) as [H|H]; eauto. rewrite G2. destruct (nth_error_ex _ _ H) as (y & ->). eauto. }
      destruct X as (mo & ->). cbn [rbind]. rewrite (proj2 (Nat.eqb_eq _ _) Eo).
      eexists. split; [reflexivity|]. cbn [b_i b_o b_w b_state].
      split; [repeat split; auto|]. split; auto. rewrite Ei, Eo. auto.
    - destruct (Nat.eqb_spec (ol t) 0) as [Eo|Eo]; [apply Hs in Eo; contradiction|].
      unfold lab. rewrite (proj2 (Nat.eqb_neq _ _) Ei), (proj2 (Nat.eqb_neq _ _) Eo).
      rewrite G2. destruct (Nat.ltb_spec (b_o b) (length (pol p))) as [H|H].
      + destruct (nth_error_ex _ _ H) as (y & Ey). rewrite Ey. cbn [rbind].
        destruct (nth_error (pil p) (b_o b)) as [x|] eqn:Ex.
        * destruct (Nat.eqb_spec (il t) x) as [E1|N1]; [destruct (Nat.eqb_spec (ol t) y) as [E2|N2]|]; cbn [andb];
            eexists; (split; [reflexivity|]).
          -- cbn [b_i b_o b_w b_state]. assert (b_o b < length (pil p)) by (apply nth_error_Some; congruence).
             split; [split; auto; cbn; lia|]. split; auto. rewrite (Sk _ _ _ Ex), (Sk _ _ _ Ey). subst x y. auto.
          -- intros u v _ E. rewrite (Sk _ _ _ Ey) in E. cbn in E. congruence.
          -- intros u v E _. rewrite (Sk _ _ _ Ex) in E. cbn in E. congruence.
        * cbn [andb]. eexists. split; [reflexivity|]. intros u v E _. apply nth_error_None in Ex. rewrite skipn_all2 in E by lia.
          discriminate.
      + cbn [rbind]. rewrite andb_false_r. eexists. split; [reflexivity|]. intros u v _ E. rewrite skipn_all2 in E by lia. discriminate.
  Qed.

  Lemma check_trs_ok b : good b -> forall l, incl l (trs_of f (b_state b)) ->
    exists r, check_trs p b l = Ok r /\ Forall good r /\
      ((exists b', In b' r /\ wins b') <-> exists t q w, In t l /\ is_path (mach f) (ns t) q /\ fin_of f (dst (ns t) q) = Some w /\
        ilabs (t :: q) = skipn (b_i b) (pil p) /\ olabs (t :: q) = skipn (b_o b) (pol p) /\ b_w b * pw (t :: q) * w = pwgt p) /\
      (forall b', In b' r -> exists t, In t l /\ b_state b' = ns t) /\ length r <= length l.
  Proof.
    intros G. induction l as [|t l IH]; intros Hl; simpl.
    - exists []. split; auto. split; auto. split; [split; [intros (? & [] & _)|intros (? & ? & ? & [] & _)]|].
      split; [intros ? []|auto].
    - destruct (check_tr_ok b t G (Hl t (or_introl eq_refl))) as (o & -> & Ho).
      destruct IH as (r & -> & Fr & Wr & Sr & Lr). { intros x Hx. apply Hl. right; auto. }
      cbn [rbind]. eexists. split; [reflexivity|]. destruct o as [b'|].
      + destruct Ho as (G' & Eb & Ei & Eo). split; [constructor; auto|]. split; [|split; [|simpl; lia]].
        * assert (Wb : wins b' <-> exists q w, is_path (mach f) (ns t) q /\ fin_of f (dst (ns t) q) = Some w /\
             ilabs (t :: q) = skipn (b_i b) (pil p) /\ olabs (t :: q) = skipn (b_o b) (pol p) /\ b_w b * pw (t :: q) * w = pwgt p).
          { unfold wins. rewrite Eb. cbn [b_state b_w b_i b_o]. rewrite Ei, Eo. unfold ilabs, olabs. cbn [flat_map pw].
            split; intros (q & w & H1 & H2 & H3 & H4 & H5); exists q, w; split; auto; split; auto.
            - rewrite H3, H4. split; auto. split; auto. rewrite <- H5. rewrite !(ktimes_assoc K L). auto.
            - apply app_inv_head in H3, H4. split; auto. split; auto. rewrite <- H5. rewrite !(ktimes_assoc K L). auto. }
          split.
          -- intros (b1 & [<-|H1] & H2).
             ++ apply Wb in H2 as (q & w & H2). exists t, q, w. split; auto.
             ++ destruct (proj1 Wr (ex_intro _ b1 (conj H1 H2))) as (t' & q & w & Hin & H3). exists t', q, w. split; auto.
          -- intros (t' & q & w & [<-|Hin] & H).
             ++ exists b'. split; [left; auto|]. apply Wb. eauto.
             ++ destruct (proj2 Wr) as (b1 & H1 & H2); [exists t', q, w; auto|]. exists b1. split; auto. right; auto.
        * intros b1 [<-|H1]; [exists t; split; auto; rewrite Eb; auto|]. destruct (Sr b1 H1) as (t' & ? & ?). exists t'. auto.
      + split; auto. split; [|split; [|lia]].
        * rewrite Wr. split; intros (t' & q & w & Hin & H).
          -- exists t', q, w. split; auto.
          -- destruct Hin as [<-|Hin]; [|exists t', q, w; auto]. exfalso. destruct H as (_ & _ & H3 & H4 & _).
             eapply Ho; [symmetry; exact H3|symmetry; exact H4].
        * intros b1 H1. destruct (Sr b1 H1) as (t' & ? & ?). exists t'. auto.
  Qed.

  Lemma wins_unfold b : good b -> wins b <-> check_done f p b = true \/
    exists t q w, In t (trs_of f (b_state b)) /\ is_path (mach f) (ns t) q /\ fin_of f (dst (ns t) q) = Some w /\
        ilabs (t :: q) = skipn (b_i b) (pil p) /\ olabs (t :: q) = skipn (b_o b) (pol p) /\ b_w b * pw (t :: q) * w = pwgt p.
  Proof.
    intros G. split.
    - intros ([|t q] & w & H1 & H2 & H3 & H4 & H5).
      + left. unfold check_done. simpl in H2, H3, H4. rewrite H2.
        assert (forall (l : list nat) i, [] = skipn i l -> length l <= i) as Q.
        { intros l i E. pose proof (skipn_length i l) as E'. rewrite <- E in E'. simpl in E'. lia. }
        rewrite !(proj2 (Nat.leb_le _ _)) by (apply Q; auto). simpl. apply (keqb_spec K L). simpl in H5.
        rewrite (ktimes_1_r K L) in H5. auto.
      + right. destruct H1 as [H0 H1]. exists t, q, w. repeat (split; auto).
    - intros [H|(t & q & w & H0 & H1 & H2 & H3)]; [apply done_wins; auto|]. exists (t :: q), w. simpl. split; auto.
  Qed.

  Lemma loop_ok fuel : forall q r, Forall good q -> check_loop fuel f p q = Some r ->
    exists b, r = Ok b /\ (b = true <-> exists x, In x q /\ wins x).
  Proof.
    induction fuel as [|fuel IH]; intros q r G E; destruct q as [|b q]; cbn [check_loop] in E; try discriminate.
    - injection E as <-. exists false. split; auto. split; [discriminate|intros (? & [] & _)].
    - injection E as <-. exists false. split; auto. split; [discriminate|intros (? & [] & _)].
    - pose proof (Forall_inv G) as Gb. destruct (Nat.leb_spec (num_states f) (b_state b)) as [H|H]; [destruct Gb; lia|].
      pose proof (wins_unfold b Gb) as W. destruct (check_done f p b) eqn:Ed.
      + injection E as <-. exists true. split; auto. split; auto. intros _. exists b. split; [left; auto|]. apply W; auto.
      + destruct (check_trs_ok b Gb (trs_of f (b_state b)) (incl_refl _)) as (r' & Er & Fr & Wr & _). rewrite Er in E.
        destruct (IH (q ++ r') r) as (v & -> & Hv); auto.
        { apply Forall_app. split; auto. exact (Forall_inv_tail G). }
        exists v. split; auto. rewrite Hv. split.
        * intros (x & Hx & Wx). apply in_app_iff in Hx as [Hx|Hx]; [exists x; split; auto; right; auto|].
          exists b. split; [left; auto|]. apply W. right. apply Wr. eauto.
        * intros (x & [<-|Hx] & Wx).
          -- apply W in Wx as [Wx|Wx]; [discriminate|]. apply Wr in Wx as (b' & H1 & H2). exists b'. split; auto.
             apply in_app_iff; auto.
          -- exists x. split; auto. apply in_app_iff; auto.
  Qed.

  (** Without transitions that have epsilon on exactly one side, or if the query has no output: whenever the search ends, it
      does so without a panic, and the answer is whether the query is an accepting path. *)
  Theorem C33_check_path s fuel r : vstart f = Some s -> check_path_in_fst fuel f p = Some r ->
    exists b, r = Ok b /\ (b = true <-> accepts (mach f) p).
  Proof.
    intros Hs E. unfold check_path_in_fst in E. rewrite Hs in E.
    assert (G : Forall good [BS s 1 O O]).
    { constructor; [|constructor]. repeat split; cbn; try lia. apply (proj2 C); auto. }
    destruct (loop_ok fuel _ _ G E) as (b & -> & Hb).
    exists b. split; auto. rewrite Hb. unfold accepts, wins. split.
    - intros (x & [<-|[]] & q & w & H1 & H2 & H3 & H4 & H5). cbn in *. exists s, q, w. repeat (split; auto).
      rewrite <- H5, (ktimes_1_l K L). auto.
    - intros (s' & q & w & H0 & H1 & H2 & H3 & H4 & H5). simpl in H0. rewrite Hs in H0. injection H0 as <-.
      eexists. split; [left; reflexivity|]. exists q, w. cbn. repeat (split; auto). rewrite (ktimes_1_l K L). auto.
  Qed.

  Fixpoint cost (n s : nat) : nat :=
    Datatypes.S (match n with
       | O => O
       | Datatypes.S n' => fold_right (fun t a => (cost n' (ns t) + a)%nat) O (trs_of f s)
       end).
  Definition bounded_from (n s : nat) : Prop := forall q, is_path (mach f) s q -> length q <= n.

  Lemma cost_pos n s : (1 <= cost n s)%nat.
  Proof. destruct n; simpl; lia. Qed.

  Lemma terminates : forall fuel (q : list (bfs K * nat)),
    Forall (fun x => good (fst x) /\ bounded_from (snd x) (b_state (fst x))) q ->
    (fold_right (fun x a => (cost (snd x) (b_state (fst x)) + a)%nat) O q <= fuel)%nat ->
    exists r, check_loop fuel f p (map fst q) = Some r.
  Proof.
    induction fuel as [|fuel IH]; intros [|[b n] q] F Hf; cbn [map fold_right fst snd check_loop] in *; eauto.
    - pose proof (cost_pos n (b_state b)). lia.
    - pose proof (Forall_inv F) as [Gb Bb]. cbn [fst snd] in *. apply Forall_inv_tail in F.
      destruct (Nat.leb_spec (num_states f) (b_state b)) as [H|H]; [eauto|].
      destruct (check_done f p b); [eauto|].
      destruct (check_trs_ok b Gb (trs_of f (b_state b)) (incl_refl _)) as (r' & Er & Fr & _). rewrite Er.
      destruct n as [|n].
      + assert (trs_of f (b_state b) = []) as Et.
        { destruct (trs_of f (b_state b)) as [|t l] eqn:Et; auto. specialize (Bb [t]). simpl in Bb.
          rewrite Et in Bb. assert (1 <= 0)%nat; [apply Bb; split; [left|]; auto|lia]. }
        rewrite Et in Er. cbn in Er. injection Er as <-. rewrite app_nil_r. apply IH; auto.
        pose proof (cost_pos O (b_state b)). lia.
      + assert (Z : forall l r, check_trs p b l = Ok r -> incl l (trs_of f (b_state b)) -> Forall good r ->
           exists r2, r = map fst r2 /\ Forall (fun x => good (fst x) /\ bounded_from (snd x) (b_state (fst x))) r2 /\
             (fold_right (fun x a => (cost (snd x) (b_state (fst x)) + a)%nat) O r2 <= fold_right (fun t a => (cost n (ns t) + a)%nat) O l)%nat).
        { clear Er Fr r' Hf. induction l as [|t l IHl]; intros r El Hin Fr; cbn in El.
          - injection El as <-. exists []. simpl. auto.
          - destruct (check_tr_ok b t Gb (Hin t (or_introl eq_refl))) as (o & Eo & Ho). rewrite Eo in El. cbn [rbind] in El.
            destruct (check_trs p b l) as [r1| |] eqn:E1; try discriminate. cbn [rbind] in El. injection El as <-.
            assert (Hin' : incl l (trs_of f (b_state b))) by (intros x Hx; apply Hin; right; auto).
            destruct o as [b'|].
            + destruct (IHl r1 eq_refl Hin' (Forall_inv_tail Fr)) as (r2 & -> & F2 & L2). exists ((b', n) :: r2).
              split; auto. destruct Ho as (G' & Eb & _).
              assert (b_state b' = ns t) as Eb' by (rewrite Eb; auto). split; [constructor; auto|].
              * cbn [fst snd]. split; auto. rewrite Eb'. intros q' Hq'. specialize (Bb (t :: q')). simpl in Bb.
                assert (Datatypes.S (length q') <= Datatypes.S n)%nat; [|lia]. apply Bb. split; auto. apply Hin. left; auto.
              * cbn [fold_right fst snd]. rewrite Eb'. lia.
            + destruct (IHl r1 eq_refl Hin' Fr) as (r2 & -> & F2 & L2). exists r2. split; auto. split; auto. simpl. lia. }
        destruct (Z _ _ Er (incl_refl _) Fr) as (r2 & -> & F2 & L2). rewrite <- map_app. apply IH.
        * apply Forall_app. auto.
        * rewrite fold_right_app. cbn [cost] in Hf.
          assert (Ad : forall (l : list (bfs K * nat)) a, fold_right (fun x a => (cost (snd x) (b_state (fst x)) + a)%nat) a l =
             (fold_right (fun x a => (cost (snd x) (b_state (fst x)) + a)%nat) O l + a)%nat).
          { clear. induction l as [|x l IH]; intros a; simpl; auto. rewrite IH. lia. }
          rewrite Ad. lia.
  Qed.

  (** If all paths from the start are bounded in length, the search ends. *)
  Theorem C33_terminates s n : vstart f = Some s -> bounded_from n s ->
    exists fuel r, check_path_in_fst fuel f p = Some r.
  Proof.
    intros Hs B. unfold check_path_in_fst. rewrite Hs.
    destruct (terminates (cost n s + 0) [(BS s 1 O O, n)]) as (r & E); auto; [|eauto].
    constructor; [|constructor]. split; auto. repeat split; cbn; try lia. apply (proj2 C); auto.
  Qed.
End C33.
Local Close Scope K_scope.
Print Assumptions C33_check_path.
Print Assumptions C33_terminates.

(** Labels of two epsilon transitions on different sides: the accepting path (1, 2) makes the
    search panic. *)
Definition g1 : vfst natSR := VF [VS None [Tr 1 0 1 1] 0 1; VS None [Tr 0 2 1 2] 1 0; VS (Some 1) [] 0 0] (Some 0) None None 0.
Theorem C33_panic_refuted : exists (f : vfst natSR) (p : fpath natSR), closed f /\ accepts (mach f) p /\ check_path_in_fst 9 f p = Some Panic.
Proof.
  exists g1, (FP [1] [2] 1). split; [|split].
  - split.
    + intros s t H. do 3 (destruct s as [|s]; [simpl in H; destruct H as [<-|[]] || destruct H; vm_compute; lia|]).
      destruct s; destruct H.
    + intros s [= <-]. vm_compute. lia.
  - exists 0, [Tr 1 0 1 1; Tr 0 2 1 2], 1. simpl. repeat split; auto.
  - vm_compute. reflexivity.
Qed.

(** The output 9 7 is accepted although the machine only ever writes 7 7. *)
Definition g2 : vfst natSR := VF [VS None [Tr 1 0 1 1] 0 1; VS None [Tr 0 7 1 2] 1 0; VS None [Tr 0 7 1 3] 1 0; VS (Some 1) [] 0 0] (Some 0) None None 0.
Theorem C33_wrong_yes_refuted : check_path_in_fst 9 g2 (FP [1] [9; 7] 1) = Some (Ok true) /\ ~ accepts (mach g2) (FP [1] [9; 7] 1).
Proof.
  split; [vm_compute; reflexivity|]. intros (s & q & w & Hs & Hp & Hw & Hi & Ho & _). injection Hs as <-.
  destruct q as [|t q]; [discriminate|]. destruct Hp as [[<-|[]] Hp].
  destruct q as [|t q]; [discriminate|]. destruct Hp as [[<-|[]] Hp].
  cbn in Ho. discriminate.
Qed.

(** A machine without a start accepts nothing, yet the empty path is said to be in it. *)
Theorem C33_no_start_refuted : check_path_in_fst 9 (@vnew natSR) (FP [] [] 1) = Some (Ok true) /\ ~ accepts (mach (@vnew natSR)) (FP [] [] 1).
Proof. split; [vm_compute; reflexivity|]. intros (s & q & w & Hs & _). discriminate. Qed.
Print Assumptions C33_panic_refuted.
Print Assumptions C33_wrong_yes_refuted.
Print Assumptions C33_no_start_refuted.

(** A synchronised machine with an epsilon transition and two branches. *)
Definition g3 : vfst natSR := VF [VS None [Tr 0 0 2 1; Tr 1 3 3 2] 1 1; VS None [Tr 1 3 5 2] 0 0; VS (Some 1) [] 0 0] (Some 0) None None 0.
Example C33_instance : closed g3 /\ synced (mach g3) /\ bounded_from g3 2 0 /\
  check_path_in_fst 9 g3 (FP [1] [3] 10) = Some (Ok true) /\ check_path_in_fst 9 g3 (FP [1] [3] 7) = Some (Ok false).
Proof.
  assert (T : forall s t, In t (trs_of g3 s) -> (s = 0 /\ t = Tr 0 0 2 1) \/ (s = 0 /\ t = Tr 1 3 3 2) \/ (s = 1 /\ t = Tr 1 3 5 2)).
  { intros s t H. destruct s as [|[|[|s]]]; simpl in H; [destruct H as [<-|[<-|[]]]|destruct H as [<-|[]]|destruct H|destruct s; destruct H]; auto. }
  split; [|split; [|split; [|split; vm_compute; reflexivity]]].
  - split; [|intros s [= <-]; vm_compute; lia]. intros s t H. destruct (T s t H) as [[_ ->]|[[_ ->]|[_ ->]]]; vm_compute; lia.
  - intros s t H. destruct (T s t H) as [[_ ->]|[[_ ->]|[_ ->]]]; simpl; split; intros; congruence.
  - assert (Q : forall q s, is_path (mach g3) s q -> length q <= 2 - s /\ (s <= 2 \/ q = [])).
    { induction q as [|t q IH]; intros s H; simpl; [split; [lia|auto]|]. destruct H as [H1 H2]. apply IH in H2.
      destruct (T s t H1) as [[-> ->]|[[-> ->]|[-> ->]]]; simpl in H2; lia. }
    intros q H. destruct (Q q 0 H). lia.
Qed.

(** The other guard: a machine that is not synchronised, queried without output. *)
Definition g4 : vfst natSR := VF [VS None [Tr 1 0 2 1] 0 1; VS None [Tr 2 0 3 2; Tr 2 5 3 2] 0 1; VS (Some 1) [] 0 0] (Some 0) None None 0.
Example C33_instance_no_output : closed g4 /\ ~ synced (mach g4) /\
  check_path_in_fst 9 g4 (FP [1; 2] [] 6) = Some (Ok true) /\ check_path_in_fst 9 g4 (FP [1] [] 6) = Some (Ok false).
Proof.
  split; [|split; [|split; vm_compute; reflexivity]].
  - split; [|intros s [= <-]; vm_compute; lia]. intros s t H.
    destruct s as [|[|[|s]]]; simpl in H; [destruct H as [<-|[]]|destruct H as [<-|[<-|[]]]|destruct H|destruct s; destruct H]; vm_compute; lia.
  - intros H. specialize (H 0 (Tr 1 0 2 1) (or_introl eq_refl)). cbn in H. destruct H as [_ H]. discriminate (H eq_refl).
Qed.
