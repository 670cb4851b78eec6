(** C49: the interval index answers exactly which final states a state reaches. *)
From Coq Require Import List Arith NArith ZArith Bool Lia.
From Verif Require Import Base.Util Base.Semiring Base.Machine Base.PropSpec Base.Instances
  Model.Props Model.VectorFst Model.TrOps Model.Dfs Model.Visitors Model.ComputeProps Model.History Model.Rational Model.IntervalSet Model.Reachable
  Proofs.PropsFacts Proofs.VectorFacts Proofs.DelStates Proofs.TrOpsFacts Proofs.VectorProps Proofs.RationalFacts Proofs.ConnectFacts
  Proofs.DfsFacts Proofs.ClosedB Proofs.ReachFacts Props.C06 Props.C34 Props.C48.
Import ListNotations.

(** Final with a weight other than zero. *)
Definition live_final {K : SR} (f : vfst K) (u : nat) : Prop := exists w, fin_of f u = Some w /\ w <> kzero.

(** A final state shares a cycle with another state. *)
Definition final_in_cycle {K : SR} (f : vfst K) : Prop :=
  exists s u, s <> u /\ fin_of f s <> None /\ reach (mach f) s u /\ reach (mach f) u s.

(** Queries are answered exactly; the sets are sorted, separated and counted; the live final
    states are numbered from 1 without gaps. *)
Definition answers {K : SR} (f : vfst K) (r : sreach) : Prop :=
  (forall s u, s < num_states f -> u < num_states f ->
     exists b, sr_reach r s u = Ok b /\ (b = true <-> live_final f u /\ reach (mach f) s u)) /\
  (forall s u, num_states f <= u -> sr_reach r s u = Err) /\
  (forall s, s < num_states f -> exists a m, nth_error (sr_sets r) s = Some a /\
     Forall nonempty (ivals a) /\ separated (ivals a) /\
     (forall x, covered (ivals a) x <-> exists u, nth_error (sr_s2i r) u = Some (Some x) /\ reach (mach f) s u) /\
     icount a = Some m /\
     counts m (fun u => live_final f u /\ reach (mach f) s u)) /\
  exists m, counts m (live_final f) /\
    (forall u, u < num_states f -> ((exists x, nth_error (sr_s2i r) u = Some (Some x)) <-> live_final f u)) /\
    (forall u x, nth_error (sr_s2i r) u = Some (Some x) -> 1 <= x <= m) /\
    (forall u u' x, nth_error (sr_s2i r) u = Some (Some x) -> nth_error (sr_s2i r) u' = Some (Some x) -> u = u').

Lemma counts_bij m (P Q : nat -> Prop) (g : nat -> nat) : (forall u, Q u -> P (g u)) ->
  (forall u u', Q u -> Q u' -> g u = g u' -> u = u') -> (forall x, P x -> exists u, Q u /\ g u = x) ->
  counts m P -> counts m Q.
Proof.
  intros H1 H2 H3 (pts & N & I & L).
  assert (G : forall l, (forall x, In x l -> P x) -> NoDup l -> exists us, NoDup us /\ length us = length l /\ (forall u, In u us <-> Q u /\ In (g u) l)).
  { induction l as [|x l IH]; intros HP ND.
    - exists []. split; [constructor|]. split; auto. intros u. cbn. tauto.
    - inversion ND; subst. destruct IH as (us & A1 & A2 & A3); auto; [intros; apply HP; right; auto|].
      destruct (H3 x) as (u & Qu & E); [apply HP; left; auto|]. exists (u :: us). split; [|split].
      + constructor; auto. rewrite A3. intros [_ H]. congruence.
      + cbn. auto.
      + intros u'. cbn. rewrite A3. split.
        * intros [<-|[A B]]; auto.
        * intros [A [B|B]]; auto. left. apply H2; auto. congruence. }
  destruct (G pts) as (us & A1 & A2 & A3); auto; [intros; apply I; auto|].
  exists us. split; auto. split; [|congruence]. intros u. rewrite A3. split; [tauto|]. intros H. split; auto. apply I; auto.
Qed.
Lemma counts_iff m (P Q : nat -> Prop) : (forall u, P u <-> Q u) -> counts m P -> counts m Q.
Proof. intros E (pts & A & B & D). exists pts. split; auto. split; auto. intros x. rewrite B. auto. Qed.

Section C49.
  Context {K : SR} (L : lsr_laws K).
  Implicit Types (f g : vfst K).

  Lemma heavy_iff f u : heavy f u = true <-> live_final f u.
  Proof.
    unfold heavy, live_final. destruct (fin_of f u) as [w|].
    - rewrite negb_true_iff, keqb_false by exact L. split; eauto. intros (w' & E & H). congruence.
    - split; [discriminate|]. intros (w & E & _). discriminate.
  Qed.
  Lemma live_lt f u : live_final f u -> u < num_states f.
  Proof. intros (w & E & _). destruct (Nat.lt_ge_cases u (num_states f)); auto. rewrite fin_of_beyond in E by auto. discriminate. Qed.

  Lemma heavy_lt f u : heavy f u = true -> u < num_states f.
  Proof. intros H. apply live_lt, heavy_iff, H. Qed.

  Theorem C49_acyclic :
    forall f, closed f -> vstart f <> None -> (forall s, ~ on_cycle (mach f) s) ->
    exists r, sr_new_acyclic f = Ok r /\ answers f r.
  Proof.
    intros f C Hs Acy. destruct (vstart f) as [s0|] eqn:Es; [clear Hs|congruence].
    destruct (ir_visit_ok f C Acy s0 Es) as (c & v & E & Lc & Hb & I).
    unfold sr_new_acyclic. rewrite Es in E. rewrite Es, E. cbn [rbind]. eexists. split; [reflexivity|].
    assert (NW : forall s, nonwhite c s <-> s < num_states f).
    { intros s. split; [|intros H; right; apply Hb; auto]. intros [H|H]; apply nth_error_lt in H; lia. }
    assert (Ln : length (ir_sets v) = num_states f).
    { pose proof (i_top _ _ _ _ I). apply Nat.le_antisymm; [lia|]. apply Nat.nlt_ge. intros H'.
      pose proof (i_dom _ _ _ _ I (length (ir_sets v))) as X. rewrite NW in X. specialize (X H'). lia. }
    assert (Ls : length (ir_s2i v) = num_states f) by (rewrite <- (i_len _ _ _ _ I); auto).
    assert (HX : forall u, u < num_states f -> nth_error (ir_s2i v) u = Some (idx v u)) by (intros; apply nth_ok; lia).
    assert (SX : forall u, u < num_states f -> nth_error (ir_sets v) u = Some (set_at v u)) by (intros; apply nth_ok; lia).
    assert (HL : forall u, u < num_states f -> ((exists x, idx v u = Some x) <-> live_final f u)).
    { intros u Hu. rewrite <- heavy_iff. split; [intros (x & Ex); apply (i_idx _ _ _ _ I u x); auto|]. apply (i_has _ _ _ _ I). apply NW; auto. }
    set (g := fun u => match idx v u with Some x => x | None => 0 end).
    assert (GL : forall u, live_final f u -> idx v u = Some (g u)).
    { intros u Hu. pose proof (live_lt _ _ Hu) as Hl. apply HL in Hu as (x & Ex); auto. unfold g. rewrite Ex. auto. }
    assert (IL : forall u x, idx v u = Some x -> live_final f u).
    { intros u x Ex. apply heavy_iff. apply (i_idx _ _ _ _ I u x Ex). }
    split; [|split; [|split]]; unfold sr_reach; cbn [sr_sets sr_s2i].
    - intros s u Hs Hu. rewrite (HX u Hu), (SX s Hs). eexists. split; [reflexivity|].
      pose proof (i_done _ _ _ _ I s (Hb s Hs)) as N. destruct (idx v u) as [x|] eqn:Ex; cbn [member_opt].
      + rewrite (normal_member _ _ x N). split.
        * intros (u' & R' & E'). assert (u' = u) by (eapply (i_inj _ _ _ _ I); eauto). subst. split; eauto.
        * intros [_ R']. eauto.
      + split; [discriminate|]. intros [H _]. apply HL in H as (x & H); auto. congruence.
    - intros s u Hu. replace (nth_error (ir_s2i v) u) with (@None (option nat)); auto. symmetry. apply nth_error_None. lia.
    - intros s Hs. destruct (i_done _ _ _ _ I s (Hb s Hs)) as (N1 & N2 & N3 & m & N4 & N5). exists (set_at v s), m.
      split; auto. split; auto. split; auto. split; [|split; auto].
      { intros x. rewrite N3. split.
        - intros (u & R' & Eu). exists u. split; auto. rewrite HX; [congruence|]. apply heavy_lt with (1 := proj1 (i_idx _ _ _ _ I u x Eu)).
        - intros (u & Eu & R'). exists u. split; auto. assert (Hu : u < num_states f) by (apply nth_error_lt in Eu; lia). rewrite HX in Eu by auto. congruence. }
      apply (counts_bij m (fun x => exists u, reach (mach f) s u /\ idx v u = Some x) _ g); auto.
      + intros u [H1 H2]. exists u. auto.
      + intros u u' [H1 _] [H2 _] Eg. apply (i_inj _ _ _ _ I u u' (g u)); auto. rewrite Eg. auto.
      + intros x (u & H1 & H2). exists u. split; eauto. unfold g. rewrite H2. auto.
    - exists (ir_next v - 1). split; [|split; [|split]].
      + apply (counts_bij _ (fun x => 1 <= x < ir_next v) _ g).
        * intros u H. apply (i_idx _ _ _ _ I u (g u)); auto.
        * intros u u' H1 H2 Eg. apply (i_inj _ _ _ _ I u u' (g u)); auto. rewrite Eg. auto.
        * intros x Hx. destruct (i_onto _ _ _ _ I x Hx) as (u & Eu). exists u. split; eauto. unfold g. rewrite Eu. auto.
        * exists (seq 1 (ir_next v - 1)). split; [apply seq_NoDup|]. split; [|apply seq_length]. intros x. rewrite in_seq. lia.
      + intros u Hu. rewrite (HX u Hu), <- HL by auto. split; intros (x & Ex); exists x; congruence.
      + intros u x Eu. assert (Hu : u < num_states f) by (apply nth_error_lt in Eu; lia). rewrite (HX u Hu) in Eu. inversion Eu as [Ex].
        apply (i_idx _ _ _ _ I) in Ex. lia.
      + intros u u' x Eu Eu'. assert (Hu : u < num_states f) by (apply nth_error_lt in Eu; lia).
        assert (Hu' : u' < num_states f) by (apply nth_error_lt in Eu'; lia). rewrite HX in Eu, Eu' by auto.
        apply (i_inj _ _ _ _ I u u' x); congruence.
  Qed.

  Lemma count_members_ok scc c : nth c (count_members scc) 0 = length (filter (fun z => Z.to_nat z =? c) scc).
  Proof.
    unfold count_members.
    assert (G : forall n0, nth c (fold_left (fun n z => let c := Z.to_nat z in let n := Reachable.grow 0 n c in upd n c (S (nth c n 0))) scc n0) 0 =
      nth c n0 0 + length (filter (fun z => Z.to_nat z =? c) scc)).
    { induction scc as [|z l IH]; intros n0; cbn [fold_left filter]; [cbn; lia|]. rewrite IH. cbv zeta.
      destruct (Nat.eqb_spec (Z.to_nat z) c) as [<-|Ne].
      - rewrite nth_upd_eq, grow_nth; [cbn; lia|]. rewrite grow_length. lia.
      - rewrite nth_upd_ne, grow_nth by auto. auto. }
    rewrite G. destruct c; auto.
  Qed.

  Lemma two_pos {A} (p : A -> bool) l : 1 < length (filter p l) <->
    exists i j x y, i < j /\ nth_error l i = Some x /\ nth_error l j = Some y /\ p x = true /\ p y = true.
  Proof.
    induction l as [|a l IH]; cbn [filter].
    - cbn. split; [lia|]. intros (i & j & x & y & _ & H & _). destruct i; discriminate.
    - assert (One : 0 < length (filter p l) <-> exists j y, nth_error l j = Some y /\ p y = true).
      { split.
        - destruct (filter p l) as [|y l'] eqn:E; [cbn; lia|]. intros _. assert (H : In y (filter p l)) by (rewrite E; left; auto).
          apply filter_In in H as [H Hp]. apply In_nth_error in H as (j & H). eauto.
        - intros (j & y & H & Hp). apply nth_error_In in H. assert (X : In y (filter p l)) by (apply filter_In; auto). destruct (filter p l); [destruct X|cbn; lia]. }
      destruct (p a) eqn:Pa.
      + cbn [length]. split.
        * intros H. destruct (proj1 One) as (j & y & X1 & X2); [lia|]. exists 0, (S j), a, y. cbn. repeat split; auto. lia.
        * intros (i & j & x & y & Hij & X1 & X2 & X3 & X4). destruct j as [|j]; [lia|]. apply -> Nat.succ_lt_mono. apply One. exists j, y. auto.
      + rewrite IH. split.
        * intros (i & j & x & y & Hij & X1 & X2 & X3 & X4). exists (S i), (S j), x, y. repeat split; auto. lia.
        * intros (i & j & x & y & Hij & X1 & X2 & X3 & X4). destruct i as [|i]; cbn in X1; [congruence|]. destruct j as [|j]; [lia|].
          exists i, j, x, y. repeat split; auto. lia.
  Qed.

  Definition copy_body g (r : sreach) (nscc : list nat) (out : sreach) (z : Z) : res sreach :=
    let c := Z.to_nat z in
    match nth_error (sr_sets r) c, nth_error (sr_s2i r) c with
    | Some a, Some i =>
        match fin_of g c with
        | Some _ => if Nat.ltb 1 (nth c nscc 0) then Err
                    else Ok (SRch (sr_sets out ++ [a]) (sr_s2i out ++ [i]))
        | None => Ok (SRch (sr_sets out ++ [a]) (sr_s2i out ++ [i]))
        end
    | _, _ => Panic
    end.
  Definition bad g (nscc : list nat) (z : Z) : Prop := fin_of g (Z.to_nat z) <> None /\ 1 < nth (Z.to_nat z) nscc 0.

  Lemma bad_dec g nscc z : bad g nscc z \/ ~ bad g nscc z.
  Proof.
    unfold bad. destruct (fin_of g (Z.to_nat z)); [|right; tauto]. destruct (Nat.lt_ge_cases 1 (nth (Z.to_nat z) nscc 0)).
    - left. split; [discriminate|auto].
    - right. lia.
  Qed.

  Lemma copy_one g r nscc out z : Z.to_nat z < length (sr_sets r) -> Z.to_nat z < length (sr_s2i r) -> ~ bad g nscc z ->
    copy_body g r nscc out z = Ok (SRch (sr_sets out ++ [nth (Z.to_nat z) (sr_sets r) is_new]) (sr_s2i out ++ [nth (Z.to_nat z) (sr_s2i r) None])).
  Proof.
    intros H1 H2 Nb. unfold copy_body. rewrite (nth_ok _ _ is_new H1), (nth_ok _ _ None H2).
    unfold bad in Nb. destruct (fin_of g (Z.to_nat z)); auto. destruct (Nat.ltb_spec 1 (nth (Z.to_nat z) nscc 0)); auto.
    exfalso. apply Nb. split; [discriminate|auto].
  Qed.
  Lemma copy_bad g r nscc out z : Z.to_nat z < length (sr_sets r) -> Z.to_nat z < length (sr_s2i r) -> bad g nscc z ->
    copy_body g r nscc out z = Err.
  Proof.
    intros H1 H2 [B1 B2]. unfold copy_body. rewrite (nth_ok _ _ is_new H1), (nth_ok _ _ None H2).
    destruct (fin_of g (Z.to_nat z)); [|congruence]. apply Nat.ltb_lt in B2. rewrite B2. auto.
  Qed.

  Lemma copy_ok g r nscc l : (forall z, In z l -> Z.to_nat z < length (sr_sets r) /\ Z.to_nat z < length (sr_s2i r)) ->
    forall out, ((exists z, In z l /\ bad g nscc z) -> rfold (copy_body g r nscc) l out = Err) /\
      ((forall z, In z l -> ~ bad g nscc z) -> rfold (copy_body g r nscc) l out =
         Ok (SRch (sr_sets out ++ map (fun z => nth (Z.to_nat z) (sr_sets r) is_new) l) (sr_s2i out ++ map (fun z => nth (Z.to_nat z) (sr_s2i r) None) l))).
  Proof.
    induction l as [|z l IH]; intros Hl out.
    - split; [intros (z & [] & _)|]. intros _. cbn. rewrite !app_nil_r. destruct out; auto.
    - destruct (Hl z (or_introl eq_refl)) as [H1 H2]. assert (Hl' : forall z, In z l -> Z.to_nat z < length (sr_sets r) /\ Z.to_nat z < length (sr_s2i r)) by (intros; apply Hl; right; auto).
      split.
      + intros (z' & [<-|Hin] & Hb); rewrite rfold_cons.
        * rewrite copy_bad; auto.
        * destruct (bad_dec g nscc z) as [B|B]; [rewrite copy_bad; auto|]. rewrite copy_one by auto. cbn [rbind].
          apply IH; auto. exists z'. auto.
      + intros Nb. rewrite rfold_cons, copy_one by (auto; apply Nb; left; auto). cbn [rbind].
        destruct (IH Hl' (SRch (sr_sets out ++ [nth (Z.to_nat z) (sr_sets r) is_new]) (sr_s2i out ++ [nth (Z.to_nat z) (sr_s2i r) None]))) as [_ X].
        rewrite X by (intros; apply Nb; right; auto). cbn [sr_sets sr_s2i map]. rewrite <- !app_assoc. auto.
  Qed.

  Lemma member_final_in f scc c w : In w (member_finals f scc c) <-> exists s, s < num_states f /\ comp scc s = c /\ fin_of f s = Some w.
  Proof.
    unfold member_finals. rewrite in_flat_map. split.
    - intros (s & Hs & Hw). apply in_seq in Hs. destruct (Nat.eqb_spec (comp scc s) c); [|destruct Hw].
      destruct (fin_of f s) as [w'|] eqn:E; [|destruct Hw]. destruct Hw as [<-|[]]. exists s. repeat split; auto. lia.
    - intros (s & Hs & E & Ew). exists s. split; [apply in_seq; lia|]. rewrite E, Nat.eqb_refl, Ew. left. auto.
  Qed.
  Lemma member_one f scc u : u < num_states f -> (forall s, s < num_states f -> comp scc s = comp scc u -> s = u) ->
    member_finals f scc (comp scc u) = match fin_of f u with Some w => [w] | None => [] end.
  Proof.
    intros Hu Un. unfold member_finals.
    assert (G : forall k i, (forall s, In s (seq i k) -> s < num_states f) -> flat_map (fun s => if comp scc s =? comp scc u then match fin_of f s with Some w => [w] | None => [] end else []) (seq i k) =
      if (i <=? u) && (u <? i + k) then match fin_of f u with Some w => [w] | None => [] end else []).
    { induction k as [|k IH]; intros i Hi; cbn [seq flat_map].
      - destruct (Nat.leb_spec i u), (Nat.ltb_spec u (i + 0)); cbn; auto; lia.
      - rewrite IH by (intros; apply Hi; right; auto). destruct (Nat.eqb_spec (comp scc i) (comp scc u)) as [E|E].
        + assert (i = u) as -> by (apply Un; auto; apply Hi; left; auto).
          destruct (Nat.leb_spec (S u) u); [lia|]. destruct (Nat.leb_spec u u); [|lia]. destruct (Nat.ltb_spec u (u + S k)); [|lia]. cbn. apply app_nil_r.
        + assert (i <> u) by congruence. destruct (Nat.leb_spec (S i) u), (Nat.leb_spec i u), (Nat.ltb_spec u (S i + k)), (Nat.ltb_spec u (i + S k)); cbn; auto; lia. }
    rewrite G by (intros s Hs; apply in_seq in Hs; lia). destruct (Nat.leb_spec 0 u), (Nat.ltb_spec u (0 + num_states f)); cbn; auto; lia.
  Qed.

  Theorem C49_cyclic :
    forall f, closed f -> vstart f <> None ->
    (final_in_cycle f -> sr_new_cyclic f = Err) /\
    (~ final_in_cycle f -> exists r, sr_new_cyclic f = Ok r /\ answers f r).
  Proof.
    intros f C Hs. destruct (vstart f) as [s0|] eqn:Es; [clear Hs|congruence].
    destruct (C48_condense L f s0 C Es) as (scc & g & E & Ln & Eqc & Ng & Sg & Tg & Fg & Top & Rg & Cg & _).
    assert (Acy : forall s, ~ on_cycle (mach g) s).
    { assert (X : forall a b, reach (mach g) a b -> a <= b).
      { intros a b R. induction R as [|s t u Ht R IH]; auto. apply Top in Ht. lia. }
      intros s (t & Ht & R). apply X in R. apply Top in Ht. lia. }
    destruct (C49_acyclic g Cg ltac:(congruence) Acy) as (r & Er & Q1 & Q2 & Q3 & m & Q4 & Q5 & Q6 & Q7).
    assert (Hc : forall s, s < num_states f -> comp scc s < num_states g) by (intros s Hs; apply Ng; eauto).
    assert (Lr : num_states g <= length (sr_sets r) /\ num_states g <= length (sr_s2i r)).
    { split; apply Nat.nlt_ge; intros H.
      - destruct (Q3 _ H) as (a & _ & X & _). apply nth_error_lt in X. lia.
      - destruct (Q1 _ _ H H) as (b & X & _). unfold sr_reach in X. destruct (nth_error (sr_s2i r) (length (sr_s2i r))) eqn:Y; [|discriminate].
        apply nth_error_lt in Y. lia. }
    unfold sr_new_cyclic. rewrite E, Er. cbn [rbind].
    set (nscc := count_members scc).
    match goal with |- context [rfold ?b scc _] => change b with (copy_body g r nscc) end.
    assert (Zin : forall s, s < num_states f -> In (nth s scc (-1)%Z) scc) by (intros; apply nth_In; lia).
    assert (Zc : forall z, In z scc -> exists s, s < num_states f /\ nth s scc (-1)%Z = z /\ Z.to_nat z = comp scc s).
    { intros z Hz. destruct (In_nth _ _ (-1)%Z Hz) as (s & Hs & Ez). exists s. split; [lia|]. split; auto. unfold comp. rewrite Ez. auto. }
    destruct (copy_ok g r nscc scc) with (out := SRch [] []) as [Bad Good].
    { intros z Hz. destruct (Zc z Hz) as (s & Hs & _ & ->). specialize (Hc s Hs). lia. }
    assert (Many : forall s, s < num_states f -> (1 < nth (comp scc s) nscc 0 <-> exists u, u < num_states f /\ u <> s /\ comp scc u = comp scc s)).
    { intros s Hs. unfold nscc. rewrite count_members_ok, two_pos.
      assert (PX : forall i x, nth_error scc i = Some x -> i < num_states f /\ comp scc i = Z.to_nat x).
      { intros i x X. split; [apply nth_error_lt in X; lia|]. unfold comp. rewrite (List.nth_error_nth _ _ _ X). auto. }
      split.
      - intros (i & j & x & y & Hij & X1 & X2 & X3 & X4). apply PX in X1 as [A1 A2]. apply PX in X2 as [B1 B2]. apply Nat.eqb_eq in X3, X4.
        destruct (Nat.eq_dec i s) as [->|]; [exists j|exists i]; repeat split; try congruence; lia.
      - intros (u & Hu & Ne & Eu). exists (Nat.min s u), (Nat.max s u), (nth (Nat.min s u) scc (-1)%Z), (nth (Nat.max s u) scc (-1)%Z).
        split; [lia|]. split; [apply nth_ok; lia|]. split; [apply nth_ok; lia|].
        destruct (Nat.min_spec s u) as [[_ ->]|[_ ->]], (Nat.max_spec s u) as [[_ ->]|[_ ->]]; unfold comp in *; rewrite ?Eu, ?Nat.eqb_refl; auto. }
    assert (FN : forall s, s < num_states f -> (fin_of g (comp scc s) <> None <-> exists u, u < num_states f /\ comp scc u = comp scc s /\ fin_of f u <> None)).
    { intros s Hs. rewrite Fg. split.
      - destruct (member_finals f scc (comp scc s)) as [|w l] eqn:X; [congruence|]. intros _.
        destruct (proj1 (member_final_in f scc (comp scc s) w)) as (u & A1 & A2 & A3); [rewrite X; left; auto|]. exists u. repeat split; auto. congruence.
      - intros (u & A1 & A2 & A3). destruct (fin_of f u) as [w|] eqn:Eu; [|congruence].
        assert (X : In w (member_finals f scc (comp scc s))) by (apply member_final_in; eauto). destruct (member_finals f scc (comp scc s)); [destruct X|discriminate]. }
    assert (BadS : forall s, s < num_states f -> (bad g nscc (nth s scc (-1)%Z) <->
       exists u u', u <> u' /\ comp scc u = comp scc s /\ u < num_states f /\ u' < num_states f /\ comp scc u' = comp scc s /\ fin_of f u <> None)).
    { intros s Hs. unfold bad. change (Z.to_nat (nth s scc (-1)%Z)) with (comp scc s). rewrite FN, Many by auto. split.
      - intros ((u & A1 & A2 & A3) & u' & B1 & B2 & B3). destruct (Nat.eq_dec u' u) as [->|].
        + exists u, s. repeat split; auto.
        + exists u, u'. repeat split; auto.
      - intros (u & u' & Ne & A1 & A2 & A3 & A4 & A5). split; [exists u; auto|]. destruct (Nat.eq_dec u s) as [->|]; [exists u'|exists u]; auto. }
    split.
    - intros (s & u & Ne & Hf & R1 & R2). apply Bad.
      assert (Hs : s < num_states f). { destruct (Nat.lt_ge_cases s (num_states f)); auto. rewrite fin_of_beyond in Hf by auto. congruence. }
      assert (Hu : u < num_states f) by (eapply reach_lt; eauto).
      exists (nth s scc (-1)%Z). split; [apply Zin; auto|]. apply BadS; auto. exists s, u. repeat split; auto. symmetry. apply Eqc; auto.
    - intros NF.
      assert (Un : forall u s, u < num_states f -> fin_of f u <> None -> s < num_states f -> comp scc s = comp scc u -> s = u).
      { intros u s Hu Hf Hs Ec. destruct (Nat.eq_dec s u); auto. exfalso. apply NF. exists u, s. apply Eqc in Ec as [R1 R2]; auto. }
      rewrite Good.
      2:{ intros z Hz. destruct (Zc z Hz) as (s & Hs & <- & _). rewrite BadS by auto.
          intros (u & u' & Ne & A1 & A2 & A3 & A4 & A5). apply Ne. symmetry. apply Un; auto. congruence. }
      eexists. split; [reflexivity|]. cbn [sr_sets sr_s2i app].
      set (r' := SRch _ _).
      assert (NS : forall s, s < num_states f -> nth_error (sr_sets r') s = nth_error (sr_sets r) (comp scc s)).
      { intros s Hs. cbn. rewrite (map_nth_error _ _ _ (nth_ok scc s (-1)%Z ltac:(lia))). symmetry. apply nth_ok. specialize (Hc s Hs). fold (comp scc s). lia. }
      assert (NI : forall s, s < num_states f -> nth_error (sr_s2i r') s = nth_error (sr_s2i r) (comp scc s)).
      { intros s Hs. cbn. rewrite (map_nth_error _ _ _ (nth_ok scc s (-1)%Z ltac:(lia))). symmetry. apply nth_ok. specialize (Hc s Hs). fold (comp scc s). lia. }
      assert (LF : forall u, u < num_states f -> (live_final g (comp scc u) <-> exists u', u' < num_states f /\ comp scc u' = comp scc u /\ live_final f u')).
      { intros u Hu. split.
        - intros (w & Ew & Hw). destruct (proj1 (FN u Hu)) as (u' & A1 & A2 & A3); [congruence|]. exists u'. split; auto. split; auto. rewrite <- A2, Fg, member_one in Ew by (auto; intros; apply Un; auto).
          destruct (fin_of f u') as [w'|] eqn:Ef; [|congruence]. cbn in Ew. exists w. split; auto. congruence.
        - intros (u' & A1 & A2 & w & Ew & Hw). exists w. split; auto. rewrite <- A2, Fg, member_one, Ew; auto. intros; apply Un; auto. congruence. }
      assert (LF1 : forall u, live_final f u -> live_final g (comp scc u)).
      { intros u Hu. pose proof (live_lt _ _ Hu). apply LF; eauto. }
      assert (Inj : forall u u', live_final f u -> live_final f u' -> comp scc u = comp scc u' -> u = u').
      { intros u u' H1 H2 Ec. pose proof (live_lt _ _ H1). pose proof (live_lt _ _ H2). apply (Un u' u); auto. destruct H2 as (w & -> & _). discriminate. }
      assert (Onto : forall c, live_final g c -> exists u, u < num_states f /\ live_final f u /\ comp scc u = c).
      { intros c Hcg. pose proof (live_lt _ _ Hcg) as Hl. apply Ng in Hl as (s & Hs & <-). apply LF in Hcg as (u & A1 & A2 & A3); auto. eauto. }
      assert (Triv : forall u, u < num_states f -> live_final g (comp scc u) -> live_final f u).
      { intros u Hu Hl. apply LF in Hl as (u' & A1 & A2 & A3); auto.
        replace u with u'; auto. symmetry. apply Un; auto. destruct A3 as (w & -> & _). discriminate. }
      split; [|split; [|split]].
      + intros s u Hs Hu. destruct (Q1 (comp scc s) (comp scc u)) as (b & Eb & Hb); auto. exists b. split.
        * rewrite <- Eb. unfold sr_reach. rewrite NS, NI by auto. auto.
        * rewrite Hb, Rg by auto. split; intros [X Y]; split; auto.
      + intros s u Hu. unfold sr_reach. cbn [r' sr_s2i]. replace (nth_error (map (fun z => nth (Z.to_nat z) (sr_s2i r) None) scc) u) with (@None (option nat)); auto.
        symmetry. apply nth_error_None. rewrite map_length. lia.
      + intros s Hs. destruct (Q3 (comp scc s)) as (a & k & A1 & A2 & A3 & AC & A4 & A5); auto. exists a, k. rewrite NS by auto.
        split; auto. split; auto. split; auto. split; [|split; auto].
        { intros x. rewrite AC. split.
          - intros (c & H1 & H2). assert (Hcl : c < num_states g) by (eapply reach_lt; eauto).
            assert (Hlc : live_final g c) by (apply Q5; eauto). destruct (Onto c Hlc) as (u & B1 & B2 & <-).
            exists u. rewrite NI by auto. split; auto. apply Rg; auto.
          - intros (u & H1 & H2). assert (Hu : u < num_states f) by (eapply reach_lt; eauto). rewrite NI in H1 by auto.
            exists (comp scc u). split; auto. apply Rg; auto. }
        apply (counts_bij _ _ _ (comp scc)) with (4 := A5).
        * intros u [H1 H2]. pose proof (live_lt _ _ H1). split; auto. apply Rg; auto.
        * intros u u' [H1 _] [H2 _]. auto.
        * intros c [H1 H2]. destruct (Onto c H1) as (u & B1 & B2 & <-). exists u. split; auto. split; auto. apply Rg; auto.
      + exists m. split; [|split; [|split]].
        * apply (counts_bij _ _ _ (comp scc)) with (4 := Q4); auto. intros c H1. destruct (Onto c H1) as (u & B1 & B2 & <-). eauto.
        * intros u Hu. rewrite NI, Q5 by auto. split; auto.
        * intros u x Hx. assert (Hu : u < num_states f) by (apply nth_error_lt in Hx; cbn in Hx; rewrite map_length in Hx; lia). rewrite NI in Hx by auto. eauto.
        * intros u u' x Hx Hx'. assert (Hu : u < num_states f) by (apply nth_error_lt in Hx; cbn in Hx; rewrite map_length in Hx; lia).
          assert (Hu' : u' < num_states f) by (apply nth_error_lt in Hx'; cbn in Hx'; rewrite map_length in Hx'; lia). rewrite NI in Hx, Hx' by auto.
          assert (Ec : comp scc u = comp scc u') by eauto. apply Inj; auto; apply Triv; auto; apply Q5; eauto.
  Qed.

  (** The public constructor: it picks the branch by the stored property bits. *)
  Theorem C49_state_reachable :
    forall f, closed f -> bits_true f -> vstart f <> None ->
    (knows (vprops f) (mask [ACYCLIC]) = false -> sr_new f = Err) /\
    (knows (vprops f) (mask [ACYCLIC]) = true -> final_in_cycle f -> sr_new f = Err) /\
    (knows (vprops f) (mask [ACYCLIC]) = true -> ~ final_in_cycle f -> exists r, sr_new f = Ok r /\ answers f r).
  Proof.
    intros f C B Hs. unfold sr_new. destruct (knows (vprops f) (mask [ACYCLIC])) eqn:Ek; split; try discriminate; auto; [|split; discriminate].
    destruct (C49_cyclic f C Hs) as [Y1 Y2]. destruct (contains (vprops f) (mask [ACYCLIC])) eqn:Ec; [|auto].
    rewrite contains_mask in Ec. assert (A : forall s, ~ on_cycle (mach f) s) by (apply (B ACYCLIC); apply Ec; left; auto).
    destruct (C49_acyclic f C Hs A) as (r & Er & An). split; [|eauto].
    intros _ (s & u & Ne & Hf & R1 & R2). exfalso. inversion R1 as [|? t ? Ht R]; subst; [congruence|].
    apply (A s). exists t. split; auto. eapply reach_trans; eauto.
  Qed.
End C49.
Print Assumptions C49_acyclic.
Print Assumptions C49_cyclic.
Print Assumptions C49_state_reachable.

(** A cycle {0, 1} in front of two final states, one reaching the other, and a third that
    nothing reaches; a state with final weight zero is not counted. *)
Definition c49_calls : list (op natSR) :=
  [OAddStates 6; OSetStart 0; OAddTr 0 (Tr 1 1 1 1); OAddTr 1 (Tr 1 2 5 0); OAddTr 1 (Tr 2 2 1 2); OAddTr 0 (Tr 3 3 4 3);
   OAddTr 2 (Tr 2 2 1 3); OAddTr 3 (Tr 7 7 1 3); OAddTr 4 (Tr 2 2 1 3); OAddTr 2 (Tr 1 1 1 5);
   OSetFinal 2 3; OSetFinal 3 2; OSetFinal 4 1; OSetFinal 5 0].
Definition c49_bad : list (op natSR) := c49_calls ++ [OSetFinal 1 1].
Definition c49_run (calls : list (op natSR)) : res sreach :=
  f <-- run vnew calls ;; r <-- ComputeProps.compute_and_update_properties f (mask [ACYCLIC]) ;; sr_new (fst r).
Example C49_witness :
  (exists f, run vnew c49_calls = Ok f /\ closed f /\ vstart f = Some 0) /\
  (exists r, c49_run c49_calls = Ok r /\
     map (fun s => map (fun u => sr_reach r s u) [2; 3; 4; 5]) [0; 2; 3; 4] =
       [[Ok true; Ok true; Ok false; Ok false]; [Ok true; Ok true; Ok false; Ok false];
        [Ok false; Ok true; Ok false; Ok false]; [Ok false; Ok true; Ok true; Ok false]]) /\
  c49_run c49_bad = Err.
Proof.
  split; [|split].
  - eexists. split; [vm_compute; reflexivity|]. split; [apply closedb_ok; vm_compute; reflexivity|reflexivity].
  - eexists. split; vm_compute; reflexivity.
  - vm_compute; reflexivity.
Qed.
