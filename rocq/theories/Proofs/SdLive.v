(** A call of the shortest-distance state touches every state that kept transitions reach,
    unless weights vanish. *)
From Coq Require Import List Arith NArith Bool Lia.
From Verif Require Import Base.Util Base.Semiring Base.Machine Base.PathSum
  Model.Props Model.VectorFst Model.Queues Model.ShortestDistance
  Proofs.VectorFacts Proofs.SdFacts Proofs.SdRun.
Import ListNotations.
Local Open Scope K_scope.
Local Coercion rsr_psr : rsr_laws >-> psr_laws.

(** Zero is neither a sum nor a product of other values. *)
Definition positive (K : SR) : Prop :=
  (1 : K) <> 0 /\ (forall a b : K, a + b = 0 -> a = 0) /\ (forall a b : K, a * b = 0 -> a = 0 \/ b = 0).

Section Live.
  Context {K : SR} (L : rsr_laws K) (Q : qops) (f : vfst K) (keep : tr K -> bool) (retain : bool).
  Let n := num_states f.
  Hypothesis C : closed f.
  Variable ok : Q -> (nat -> nat) -> option nat -> Prop.
  Hypothesis QS : qspec Q (kmach f keep) n ok.
  Hypothesis Pos : positive K.
  Hypothesis Nz : forall s t, In t (mtrs (kmach f keep) s) -> wgt t <> 0.
  Implicit Types st : sdst K Q.
  Notation dq := (dq Q retain).
  Notation live := (live Q retain).

  Variable a : nat.
  Hypothesis Ha : (a < n)%nat.
  Hypothesis Calm : calm f keep.

  Definition lv st (T : nat -> K) : Prop :=
    live st a = true /\ forall p t, T p <> 0 -> In t (mtrs (kmach f keep) p) -> live st (ns t) = true.

  Lemma ksum_pos (l : list K) x : In x l -> ksum l = 0 -> x = 0.
  Proof.
    destruct Pos as (_ & P & _). induction l as [|y l IH]; intros []; cbn [ksum]; intros H1.
    - subst. eapply P; eauto.
    - apply IH; auto. eapply P. rewrite (kplus_comm _ L). eauto.
  Qed.

  Lemma loop_live fuel : forall st M last T, loop_inv Q f keep retain ok a st M last T -> lv st T ->
    forall st', sd_loop Q false retain keep fuel f st = Some (Ok st') ->
    forall q, reach (kmach f keep) a q -> live st' q = true.
  Proof.
    induction fuel as [|fuel IH]; intros st M last T I Lv st' E; [discriminate|]. cbn [sd_loop] in E.
    destruct (loop_step L Q f keep retain C ok QS a Ha Calm st M last T I) as
      [(q & Eq & Z & Oz)|(s & q & c & st2 & M' & T' & Eq & Hs & Ec & Et & I' & [G Gt] & _ & _ & _ & Ln & _)]; rewrite Eq in E.
    - injection E as <-. destruct I as (W & O & A & B & P & U).
      assert (Er : forall x, rq Q retain st x = 0).
      { intros x. destruct (keqbP L (rq Q retain st x) 0) as [|N]; auto. apply (proj1 P) in N. rewrite Z in N. lia. }
      assert (ET : forall x, dq st x = T x) by (intros x; rewrite A, Er, (kplus_0_r L); auto).
      assert (X : forall p x, reach (kmach f keep) p x -> (p < n)%nat -> T p <> 0 -> live st p = true -> live st x = true).
      { intros p x Hr. induction Hr as [|p t x Ht Hr IHr]; intros Hp Hn Hl; auto.
        assert (Ht' : (ns t < n)%nat) by (eapply kbelow; eauto).
        apply IHr; auto; [|eapply Lv; eauto].
        intros H0. rewrite <- ET, B in H0. destruct Pos as (_ & P1 & P2). rewrite (kplus_comm _ L) in H0. apply P1 in H0.
        unfold adj in H0. eapply ksum_pos in H0. 2:{ apply in_map_iff. exists p. split; [reflexivity|]. apply in_seq. unfold n in Hp. lia. }
        eapply ksum_pos in H0. 2:{ apply in_map_iff. exists t. split; [reflexivity|auto]. }
        rewrite Nat.eqb_refl in H0. apply P2 in H0 as [H0|H0]; auto. eapply Nz; eauto. }
      intros x Hx. change (live st x = true). apply (X a); auto; [|apply Lv].
      rewrite <- ET, B. unfold unit_at. rewrite Nat.eqb_refl. intros H0. apply (proj1 (proj2 Pos)) in H0. apply (proj1 Pos H0).
    - rewrite Ec, (proj2 (final_weight_ok f s Hs)) in E. rewrite Et in E.
      apply (IH st2 M' (Some s) T' I') with (2 := E). destruct Lv as [L1 L2]. split; [apply G; auto|].
      intros p t Hp Ht. destruct (Gt p Hp) as [H| ->]; [apply G; eauto|auto].
  Qed.

  Theorem run_live pathp source start st M last fuel D st' : vstart f = Some start -> the_source source start = a ->
    ok (sd_queue _ st) M last -> (retain = true -> tagged Q f st) ->
    sd_run Q true pathp false retain keep fuel source f st = Some (Ok (D, st')) ->
    forall q, reach (kmach f keep) a q -> retain = true -> nth q (sd_src _ st') None = Some (sd_id _ st).
  Proof.
    intros Es Hs O Tg E q Hq Er.
    destruct (run_start L Q f keep retain ok QS source start st M last Es) as (q1 & q2 & M2 & E1 & E2 & I); auto.
    { rewrite Hs. auto. }
    unfold sd_run in E. rewrite Es in E. cbn [negb andb] in E. rewrite E1 in E. fold (the_source source start) in E. rewrite E2 in E.
    cbv zeta in I. set (st0 := SD Q q2 _ _ _) in *. fold st0 in E.
    destruct (sd_loop Q false retain keep fuel f st0) as [[st2| |]|] eqn:El; try discriminate.
    assert (X := loop_correct L Q f keep retain C ok QS a Ha Calm). rewrite Hs in I.
    destruct (X fuel st0 M2 None _ I _ El) as (st2' & M' & last' & [= <-] & _ & _ & Id & _).
    injection E as <- <-. cbn [sd_src].
    assert (Y : live st2 q = true).
    { eapply loop_live; eauto. split; [|intros p t Hp; congruence].
      unfold SdFacts.live, st0. cbn [sd_src sd_id]. rewrite Er, Hs. cbn [negb orb].
      rewrite nth_upd_eq by (unfold ensure_src; rewrite app_length, repeat_length; lia). unfold src_is. apply Nat.eqb_refl. }
    unfold SdFacts.live in Y. rewrite Er in Y. cbn [negb orb] in Y. rewrite Id in Y. cbn [st0 sd_id] in Y.
    unfold src_is in Y. destruct (nth q (sd_src Q st2) None) as [j|]; [|discriminate]. apply Nat.eqb_eq in Y. congruence.
  Qed.
End Live.

(** The tags are as many as the cells. *)
Section Len.
  Context {K : SR} (Q : qops) (f : vfst K) (keep : tr K -> bool).
  Implicit Types st : sdst K Q.
  Definition even st : Prop := length (sd_src _ st) = length (sd_cells _ st).

  Lemma sd_tr_even s r st t st' : even st -> sd_tr Q true keep s r st t = Ok st' -> even st'.
  Proof.
    intros Ev. unfold sd_tr. destruct (keep t); cbn [negb]; [|intros H; injection H as <-; auto].
    assert (A : length (ensure_src (sd_src _ st) (ns t)) = length (ensure_cells (sd_cells _ st) (ns t))).
    { unfold ensure_src, ensure_cells. rewrite !app_length, !repeat_length, Ev. auto. }
    set (cells := if true && _ then upd _ _ _ else _). set (src := if true && _ then upd _ _ _ else _).
    assert (B : length src = length cells) by (unfold src, cells; destruct (true && _); rewrite ?upd_length; auto).
    clearbody cells src. destruct (nth_error cells (ns t)) as [c'|]; [|discriminate]. cbv zeta.
    destruct (keqb _ _); [intros H; injection H as <-; auto|].
    destruct (nth_error _ s) as [cs|]; [|discriminate].
    destruct (negb (c_enq cs)).
    - destruct (qo_enqueue Q _ _); try discriminate. intros H; injection H as <-. unfold even. cbn. rewrite !upd_length; auto.
    - destruct (qo_update Q _ _); try discriminate. intros H; injection H as <-. unfold even. cbn. rewrite !upd_length; auto.
  Qed.

  Lemma sd_trs_even s r l : forall st st', even st -> sd_trs Q true keep s r l st = Ok st' -> even st'.
  Proof.
    induction l as [|t l IH]; intros st st' Ev; cbn [sd_trs]; [intros H; injection H as <-; auto|].
    destruct (sd_tr Q true keep s r st t) as [st1| |] eqn:E; try discriminate. cbn [rbind]. apply IH. eapply sd_tr_even; eauto.
  Qed.

  Lemma sd_loop_even fuel : forall st st', even st -> sd_loop Q false true keep fuel f st = Some (Ok st') -> even st'.
  Proof.
    induction fuel as [|fuel IH]; intros st st' Ev; cbn [sd_loop]; [discriminate|].
    destruct (qo_dequeue Q _) as [[[s|] q]| |]; try discriminate; [|intros H; injection H as <-; auto].
    destruct (nth_error _ s) as [c|]; [|discriminate]. destruct (get_trs f s); try discriminate.
    destruct (sd_trs _ _ _ _ _ _ _) as [st2| |] eqn:E; try discriminate. apply IH. eapply sd_trs_even; [|exact E].
    unfold even. cbn. rewrite upd_length. auto.
  Qed.

  Lemma sd_run_even pathp fuel source st D st' : even st ->
    sd_run Q true pathp false true keep fuel source f st = Some (Ok (D, st')) -> even st'.
  Proof.
    intros Ev. unfold sd_run. destruct (vstart f); [|intros H; injection H as _ <-; auto]. cbn [negb andb].
    destruct (qo_clear Q _); try discriminate. destruct (qo_enqueue Q _ _); try discriminate.
    destruct (sd_loop _ _ _ _ _ _ _) as [[st2| |]|] eqn:E; try discriminate. intros H; injection H as _ <-.
    apply sd_loop_even in E; [exact E|]. unfold even. cbn. unfold ensure_src, ensure_cells.
    rewrite !upd_length, !app_length, !repeat_length, Ev. auto.
  Qed.
End Len.
