(** C50: the label index answers exactly which labels can be read after following epsilons. *)
From Coq Require Import List Arith NArith ZArith Bool Lia Permutation Sorted.
From Verif Require Import Base.Util Base.Semiring Base.Machine Base.PropSpec Base.Instances
  Model.Props Model.VectorFst Model.TrOps Model.Dfs Model.Visitors Model.ComputeProps Model.History Model.Rational Model.Matchers Model.IntervalSet Model.Reachable Model.LabelReach
  Proofs.PropsFacts Proofs.VectorFacts Proofs.DelStates Proofs.HistoryFacts Proofs.TrOpsFacts Proofs.VectorProps Proofs.OpFacts Proofs.RationalFacts Proofs.ConnectFacts
  Proofs.MergeFacts Proofs.DfsFacts Proofs.ClosedB Proofs.ReachFacts Proofs.LabelFacts Props.C06 Props.C34 Props.C36 Props.C43 Props.C49.
Import ListNotations.

Section Spec.
  Context {K : SR}.
  Implicit Types (f : vfst K).

  Definition on_side (ri : bool) (t : tr K) : nat := if ri then il t else ol t.
  (** Follow transitions that are epsilon on the chosen side. *)
  Definition eps f (ri : bool) : machine K := graph f (fun t => on_side ri t =? 0).
  Definition can_read f (ri : bool) (s l : nat) : Prop :=
    l <> 0 /\ exists u t, reach (eps f ri) s u /\ In t (trs_of f u) /\ on_side ri t = l.
  Definition can_end f (ri : bool) (s : nat) : Prop := exists u, reach (eps f ri) s u /\ live_final f u.
  Definition occurs f (ri : bool) (l : nat) : Prop := l <> 0 /\ exists s t, In t (trs_of f s) /\ on_side ri t = l.
  (** A state whose final weight is an explicit zero shares an epsilon cycle with another. *)
  Definition zero_final_cycle f (ri : bool) : Prop :=
    exists s u, s <> u /\ fin_of f s = Some kzero /\ reach (eps f ri) s u /\ reach (eps f ri) u s.

  (** The numbering: keys once each, numbers in range and different. *)
  Definition numbering (m : list (qlab * nat)) : Prop :=
    NoDup (map fst m) /\ (forall k x, qlookup m k = Some x -> 1 <= x <= length m) /\
    (forall k k' x, qlookup m k = Some x -> qlookup m k' = Some x -> k = k').

  Definition label_index f (ri : bool) (d : lrdata) : Prop :=
    ld_input d = ri /\ ld_final d = qlookup (ld_l2i d) NoLab /\ numbering (ld_l2i d) /\
    (forall l, qlookup (ld_l2i d) (Lab l) <> None <-> occurs f ri l) /\
    (forall s l x, s < num_states f -> qlookup (ld_l2i d) (Lab l) = Some x ->
       exists b, reach_label d s x = Ok b /\ (b = true <-> can_read f ri s l)) /\
    (forall s x, reach_label d s x = Ok true -> exists k, qlookup (ld_l2i d) k = Some x) /\
    (forall s, s < num_states f -> exists b, reach_final d s = Ok b /\ (b = true <-> can_end f ri s)) /\
    (forall s x, num_states f <= s -> reach_final d s = Err /\ reach_label d s (S x) = Err) /\
    (forall s a, nth_error (ld_sets d) s = Some a -> Forall nonempty (ivals a) /\ separated (ivals a) /\
       forall x, covered (ivals a) x -> exists k, qlookup (ld_l2i d) k = Some x).
End Spec.

Lemma counts_unique m n (P : nat -> Prop) : counts m P -> counts n P -> m = n.
Proof.
  intros (a & Na & Ia & <-) (b & Nb & Ib & <-). apply Nat.le_antisymm; apply NoDup_incl_length; auto; intros x H.
  - apply Ib, Ia; auto.
  - apply Ia, Ib; auto.
Qed.

Lemma nth_firstn {A} (l : list A) n i : nth_error (firstn n l) i = if i <? n then nth_error l i else None.
Proof.
  revert n l. induction i as [|i IH]; intros [|n] [|x l]; cbn [firstn nth_error]; auto.
  - destruct (S i <? S n); auto.
  - rewrite IH. auto.
Qed.

Section C50.
  Context {K : SR} (L : lsr_laws K) (N10 : @kone K <> kzero).
  Implicit Types (f g : vfst K).

  Section T.
    Context (ri : bool) (nolab : nat) (f : vfst K) (Cf : closed f) (g : vfst K) (m : list (qlab * nat)) (S : shaped ri nolab f g m).
    Notation ins := (num_states f).

    Definition just (v : nat) (k : qlab) : Prop :=
      (exists t, In t (trs_of f v) /\ side ri t <> 0 /\ k = Lab (side ri t)) \/ (k = NoLab /\ heavy f v = true).

    Lemma key_range k v : qlookup m k = Some v -> ins <= v < ins + length m.
    Proof. intros H. eapply in_snd_seq; [apply S|]. apply qlookup_in; eauto. Qed.
    Lemma key_inj k k' v : qlookup m k = Some v -> qlookup m k' = Some v -> k = k'.
    Proof.
      intros H H'. apply qlookup_in in H, H'. apply In_nth_error in H as (i & Hi). apply In_nth_error in H' as (j & Hj).
      assert (X : forall i k v, nth_error m i = Some (k, v) -> v = ins + i /\ i < length m).
      { intros a b c H. assert (Hl : a < length m) by (apply nth_error_lt in H; auto). split; auto. apply (map_nth_error snd) in H. rewrite (sh_vals _ _ _ _ _ S) in H.
        rewrite (nth_error_nth' _ 0) in H by (rewrite seq_length; auto). rewrite seq_nth in H by auto. cbn in H. congruence. }
      apply X in Hi as H1. apply X in Hj as H2. assert (i = j) by lia. subst j. congruence.
    Qed.
    Lemma just_key v k : v < ins -> just v k -> exists q, qlookup m k = Some q.
    Proof.
      intros Hv H. assert (X : qlookup m k <> None). { apply qlookup_keys, (sh_keys _ _ _ _ _ S). destruct H as [(t & H1 & H2 & ->)|[-> H]]; [left|right; split]; eauto. exists v, t. auto. }
      destruct (qlookup m k); [eauto|congruence].
    Qed.
    Lemma in_trs v t : v < ins -> In t (trs_of g v) <->
      (In t (trs_of f v) /\ side ri t = 0) \/ (exists t0 q, In t0 (trs_of f v) /\ side ri t0 <> 0 /\ qlookup m (Lab (side ri t0)) = Some q /\ t = set_ns t0 q) \/
      (exists w q, fin_of f v = Some w /\ heavy f v = true /\ qlookup m NoLab = Some q /\ t = Tr nolab nolab w q).
    Proof.
      intros Hv. rewrite (sh_trs _ _ _ _ _ S) by auto. rewrite in_app_iff, in_map_iff. split.
      - intros [(t0 & E & H)|H].
        + unfold rd in E. destruct (Nat.eqb_spec (side ri t0) 0) as [E0|E0]; [left; subst; auto|]. right; left.
          destruct (just_key v (Lab (side ri t0)) Hv) as (q & Hq); [left; eauto|]. unfold qget in E. rewrite Hq in E. exists t0, q. auto.
        + right; right. unfold tail, heavy in *. destruct (fin_of f v) as [w|] eqn:Ew; [|destruct H]. destruct (keqb w kzero) eqn:Ez; [destruct H|].
          destruct H as [<-|[]]. destruct (just_key v NoLab Hv) as (q & Hq); [right; split; auto; unfold heavy; rewrite Ew, Ez; auto|]. unfold qget. rewrite Hq. exists w, q. auto.
      - intros [[H E]|[(t0 & q & H & Hs & Hq & ->)|(w & q & Hw & Hh & Hq & ->)]].
        + left. exists t. split; auto. unfold rd. rewrite E. auto.
        + left. exists t0. split; auto. unfold rd, qget. rewrite Hq. destruct (Nat.eqb_spec (side ri t0) 0); [congruence|auto].
        + right. unfold tail, qget, heavy in *. rewrite Hw in *. rewrite Hq. destruct (keqb w kzero); [discriminate|]. left; auto.
    Qed.

    Lemma eps_in v t : In t (mtrs (eps f ri) v) <-> In t (trs_of f v) /\ side ri t = 0.
    Proof. cbn. rewrite filter_In, Nat.eqb_eq. reflexivity. Qed.
    Lemma eps_lt s u : s < ins -> reach (eps f ri) s u -> u < ins.
    Proof. intros Hs R. induction R as [|s t u Ht R IH]; auto. apply IH. apply eps_in in Ht as [Ht _]. eapply (proj1 Cf); eauto. Qed.
    Lemma new_stuck u v : ins <= u < ins + length m -> reach (mach g) u v -> v = u.
    Proof. intros H R. destruct R as [|s t v Ht R]; auto. cbn in Ht. destruct (sh_new _ _ _ _ _ S _ H) as [E _]. rewrite E in Ht. destruct Ht. Qed.

    Lemma reach_g s u : s < ins -> reach (mach g) s u <->
      (u < ins /\ reach (eps f ri) s u) \/ (exists k v, qlookup m k = Some u /\ reach (eps f ri) s v /\ just v k).
    Proof.
      intros Hs. split.
      - intros R. induction R as [s|s t u Ht R IH]; [left; split; auto; constructor|]. cbn in Ht. apply in_trs in Ht as [[Ht E]|[(t0 & q & H & Hd & Hq & ->)|(w & q & Hw & Hh & Hq & ->)]]; auto.
        + destruct IH as [[H1 H2]|(k & v & H1 & H2 & H3)]; [eapply (proj1 Cf); eauto| |].
          * left. split; auto. eapply reach_step; eauto. apply eps_in; auto.
          * right. exists k, v. split; auto. split; auto. eapply reach_step; eauto. apply eps_in; auto.
        + cbn in R. apply new_stuck in R; [|eapply key_range; eauto]. subst u. right. exists (Lab (side ri t0)), s. split; auto. split; [constructor|]. left; eauto.
        + cbn in R. apply new_stuck in R; [|eapply key_range; eauto]. subst u. right. exists NoLab, s. split; auto. split; [constructor|]. right; eauto.
      - assert (X : forall s u, s < ins -> reach (eps f ri) s u -> reach (mach g) s u).
        { intros a b Ha R. induction R as [|a t b Ht R IH]; [constructor|]. apply eps_in in Ht as [Ht E]. eapply reach_step; [|apply IH; eapply (proj1 Cf); eauto]. cbn. apply in_trs; auto. }
        intros [[_ R]|(k & v & Hk & R & J)]; auto. eapply reach_trans; [apply X; eauto|]. assert (Hv : v < ins) by (eapply eps_lt; eauto).
        destruct J as [(t & Ht & Hd & ->)|[-> Hh]].
        + apply (reach_step _ v (set_ns t u) u); [|constructor]. cbn. apply in_trs; auto. right; left. eauto 6.
        + pose proof Hh as Hh'. unfold heavy in Hh'. destruct (fin_of f v) as [w|] eqn:Ew; [|discriminate].
          apply (reach_step _ v (Tr nolab nolab w u) u); [|constructor]. cbn. apply in_trs; auto. right; right. exists w, u. auto.
    Qed.

    Lemma live_g u : live_final g u <-> ins <= u < ins + length m.
    Proof.
      split.
      - intros (w & E & Hw). assert (Hu : u < num_states g) by (apply live_lt with (f := g); exists w; auto). rewrite (sh_num _ _ _ _ _ S) in Hu.
        destruct (Nat.lt_ge_cases u ins) as [Hi|Hi].
        + exfalso. rewrite (sh_fin _ _ _ _ _ S) in E by auto. unfold kfin, heavy in E. destruct (fin_of f u) as [w'|] eqn:Ew; [|discriminate].
          destruct (keqb w' kzero) eqn:Ez; [|discriminate]. cbn in E. apply (keqb_true L) in Ez. congruence.
        + destruct (Nat.eq_dec u (ins + length m)) as [->|]; [|lia]. rewrite (sh_topf _ _ _ _ _ S) in E. discriminate.
      - intros H. exists kone. split; auto. apply (sh_new _ _ _ _ _ S); auto.
    Qed.
    Lemma live_counts : counts (length m) (live_final g).
    Proof.
      exists (seq ins (length m)). split; [apply seq_NoDup|]. split; [|apply seq_length]. intros u. rewrite live_g, in_seq. tauto.
    Qed.

    Lemma closed_g : closed g.
    Proof.
      split.
      - intros s t Ht. rewrite (sh_num _ _ _ _ _ S). destruct (Nat.lt_ge_cases s ins) as [Hs|Hs].
        + apply in_trs in Ht as [[Ht _]|[(t0 & q & _ & _ & Hq & ->)|(w & q & _ & _ & Hq & ->)]]; auto; cbn.
          * assert (ns t < ins) by (eapply (proj1 Cf); eauto). lia.
          * apply key_range in Hq. lia.
          * apply key_range in Hq. lia.
        + destruct (Nat.lt_ge_cases s (ins + length m)) as [Hl|Hl].
          * destruct (sh_new _ _ _ _ _ S s (conj Hs Hl)) as [E _]. rewrite E in Ht. destruct Ht.
          * destruct (Nat.eq_dec s (ins + length m)) as [->|]; [apply (sh_top _ _ _ _ _ S) in Ht; lia|].
            rewrite trs_of_beyond in Ht; [destruct Ht|]. rewrite (sh_num _ _ _ _ _ S). lia.
      - intros s E. rewrite (sh_start _ _ _ _ _ S) in E. inversion E. rewrite (sh_num _ _ _ _ _ S). lia.
    Qed.

    Lemma cycle_g : final_in_cycle g <-> zero_final_cycle f ri.
    Proof.
      split.
      - intros (s & u & Ne & Hf & R1 & R2). destruct (Nat.lt_ge_cases s ins) as [Hs|Hs].
        + rewrite (sh_fin _ _ _ _ _ S) in Hf by auto. apply reach_g in R1 as [[Hu R1]|(k & v & Hk & _)]; auto.
          2:{ exfalso. apply new_stuck in R2; [congruence|]. eapply key_range; eauto. }
          apply reach_g in R2 as [[_ R2]|(k & v & Hk & _)]; auto. 2:{ apply key_range in Hk. lia. }
          exists s, u. split; auto. split; auto. unfold kfin, heavy in Hf. destruct (fin_of f s) as [w|]; [|congruence]. destruct (keqb w kzero) eqn:Ez; [|cbn in Hf; congruence].
          apply (keqb_true L) in Ez. congruence.
        + exfalso. destruct (Nat.lt_ge_cases s (ins + length m)) as [Hl|Hl]; [apply new_stuck in R1; auto|].
          destruct (Nat.eq_dec s (ins + length m)) as [->|]; [rewrite (sh_topf _ _ _ _ _ S) in Hf; congruence|].
          rewrite fin_of_beyond in Hf; [congruence|]. rewrite (sh_num _ _ _ _ _ S). lia.
      - intros (s & u & Ne & Hf & R1 & R2). assert (Hs : s < ins). { destruct (Nat.lt_ge_cases s ins); auto. rewrite fin_of_beyond in Hf by auto. discriminate. }
        assert (Hu : u < ins) by (eapply eps_lt; eauto). exists s, u. split; auto. split; [|split; apply reach_g; auto].
        rewrite (sh_fin _ _ _ _ _ S) by auto. unfold kfin, heavy. rewrite Hf, (keqb_refl L). discriminate.
    Qed.

    Lemma find_intervals_ok r h : sr_new h = Ok r -> vstates h = vstates g -> vstart h = vstart g -> answers h r ->
      exists d, find_intervals h ins ri m = Ok d /\ label_index f ri d.
    Proof.
      intros Er Ev Es (Q1 & Q2 & Q3 & mm & Q4 & Q5 & Q6 & Q7).
      assert (Nh : num_states h = num_states g) by (unfold num_states; rewrite Ev; auto).
      assert (Fh : forall s, fin_of h s = fin_of g s) by (intros s; unfold fin_of; rewrite Ev; auto).
      assert (Th : mach h = mach g) by (unfold mach, trs_of, fin_of; rewrite Ev, Es; auto).
      assert (Lh : forall u, live_final h u <-> ins <= u < ins + length m).
      { intros u. rewrite <- live_g. unfold live_final. rewrite Fh. tauto. }
      rewrite Nh, Th in *. clear Th.
      assert (Em : mm = length m). { eapply counts_unique; [exact Q4|]. eapply counts_iff; [|apply live_counts]. intros u. rewrite Lh, live_g. tauto. }
      subst mm.
      set (ix := fun v => match nth_error (sr_s2i r) v with Some (Some x) => x | _ => 0 end).
      assert (IX : forall v, ins <= v < ins + length m -> nth_error (sr_s2i r) v = Some (Some (ix v))).
      { intros v Hv. assert (Hn : v < num_states g) by (rewrite (sh_num _ _ _ _ _ S); lia). destruct (proj2 (Q5 v Hn)) as (x & Hx); [apply Lh; auto|]. unfold ix. rewrite Hx. auto. }
      set (l2i := map (fun p => (fst p, ix (snd p))) m).
      assert (EL : forall l acc, (forall k v, In (k, v) l -> ins <= v < ins + length m) ->
        rfold (fun m p => match nth_error (sr_s2i r) (snd p) with Some (Some i) => Ok (m ++ [(fst p, i)]) | _ => Panic end) l acc =
        Ok (acc ++ map (fun p : qlab * nat => (fst p, ix (snd p))) l)).
      { induction l as [|[k v] l IH]; intros acc H; [rewrite app_nil_r; reflexivity|]. rewrite rfold_cons. cbn [snd fst]. rewrite IX by (apply (H k); left; auto). cbn [rbind].
        rewrite IH by (intros; eapply H; right; eauto). rewrite <- app_assoc. reflexivity. }
      unfold find_intervals. rewrite Er. cbn [rbind]. rewrite EL by (intros k v Hin; eapply in_snd_seq; [apply S|eauto]). cbn [rbind app]. fold l2i.
      assert (QL : forall k, qlookup l2i k = option_map ix (qlookup m k)).
      { intros k. unfold l2i. clear. induction m as [|[a v] l IH]; auto. cbn [map fst snd]. rewrite !qlookup_cons. destruct (qlab_eqb a k); auto. }
      assert (LL : length l2i = length m) by apply map_length.
      set (sets := firstn ins _).
      assert (HS : forall s, s < ins -> nth_error sets s = nth_error (sr_sets r) s).
      { intros s Hs. unfold sets. rewrite nth_firstn. destruct (Nat.ltb_spec s ins); [|lia].
        destruct (Q3 s) as (a & k & E & _); [rewrite (sh_num _ _ _ _ _ S); lia|]. rewrite E. apply nth_error_lt in E as E'. rewrite nth_error_app1; auto. }
      assert (HSn : forall s, ins <= s -> nth_error sets s = None).
      { intros s Hs. unfold sets. rewrite nth_firstn. destruct (Nat.ltb_spec s ins); [lia|auto]. }
      assert (RQ : forall s k q, s < ins -> qlookup m k = Some q -> exists a, nth_error sets s = Some a /\ (is_member a (ix q) = true <-> exists v, reach (eps f ri) s v /\ just v k)).
      { intros s k q Hs Hk. pose proof (key_range _ _ Hk) as Hq. destruct (Q1 s q) as (b & Eb & Hb); [rewrite (sh_num _ _ _ _ _ S); lia..|].
        unfold sr_reach in Eb. rewrite IX in Eb by auto. rewrite <- HS in Eb by auto. destruct (nth_error sets s) as [a|]; [|discriminate]. exists a. split; auto.
        cbn [member_opt] in Eb. injection Eb as Eb. rewrite Eb, Hb, Lh, reach_g by auto. split.
        - intros [_ [[H _]|(k' & v & H1 & H2 & H3)]]; [lia|]. assert (k' = k) by (eapply key_inj; eauto). subst. eauto.
        - intros (v & H1 & H2). split; auto. right. eauto. }
      assert (CV : forall s a, nth_error sets s = Some a -> Forall nonempty (ivals a) /\ separated (ivals a) /\ forall x, covered (ivals a) x -> exists k, qlookup l2i k = Some x).
      { intros s a E. destruct (Nat.lt_ge_cases s ins) as [Hs|Hs]; [|rewrite HSn in E by auto; discriminate]. rewrite HS in E by auto.
        destruct (Q3 s) as (a' & k & E' & X1 & X2 & X3 & _); [rewrite (sh_num _ _ _ _ _ S); lia|]. assert (a' = a) by congruence. subst a'. split; auto. split; auto.
        intros x Hx. apply X3 in Hx as (u & Hu & Ru).
        assert (Hun : u < num_states g) by (apply (reach_lt g s u closed_g Ru); rewrite (sh_num _ _ _ _ _ S); lia).
        assert (Hl : ins <= u < ins + length m) by (apply Lh; apply (Q5 u Hun); eauto).
        assert (Hk : In u (map snd m)) by (rewrite (sh_vals _ _ _ _ _ S); apply in_seq; auto). apply in_map_iff in Hk as ([k' v] & Ev' & Hin). cbn in Ev'. subst v.
        exists k'. rewrite QL, (in_qlookup m k' u) by (auto; apply S). cbn. rewrite IX in Hu by auto. congruence. }
      eexists. split; [reflexivity|]. unfold label_index, reach_label, reach_final, interval_set. cbn [ld_input ld_l2i ld_sets ld_final].
      split; [auto|]. split; [auto|]. split; [split; [|split]|split; [|split; [|split; [|split; [|split; auto]]]]].
      - unfold l2i. rewrite map_map. cbn [fst]. apply (sh_nodup _ _ _ _ _ S).
      - intros k x H. rewrite QL in H. destruct (qlookup m k) as [q|] eqn:Ek; [|discriminate]. cbn in H. injection H as <-. rewrite LL. apply (Q6 q). apply IX. eapply key_range; eauto.
      - intros k k' x H H'. rewrite QL in H, H'. destruct (qlookup m k) as [q|] eqn:Ek; [|discriminate]. destruct (qlookup m k') as [q'|] eqn:Ek'; [|discriminate].
        cbn in H, H'. injection H as Hx. injection H' as Hx'. assert (q = q'). { apply (Q7 q q' x); rewrite IX by (eapply key_range; eauto); congruence. } subst q'. eapply key_inj; eauto.
      - intros l. rewrite QL. assert (X : option_map ix (qlookup m (Lab l)) <> None <-> qlookup m (Lab l) <> None) by (destruct (qlookup m (Lab l)); cbn; split; congruence).
        rewrite X, qlookup_keys, (sh_keys _ _ _ _ _ S). split.
        + intros [(s & t & _ & Ht & Hd & El)|[El _]]; [|discriminate]. inversion El. split; auto. exists s, t. auto.
        + intros (Hl & s & t & Ht & El). left. exists s, t. split; [|split; [auto|]].
          * destruct (Nat.lt_ge_cases s ins); auto. rewrite trs_of_beyond in Ht by auto. destruct Ht.
          * unfold on_side in El. unfold side. split; congruence.
      - intros s l x Hs Hx. rewrite QL in Hx. destruct (qlookup m (Lab l)) as [q|] eqn:Ek; [|discriminate]. cbn in Hx. injection Hx as <-.
        pose proof (Q6 q (ix q) (IX q (key_range _ _ Ek))) as Hp. destruct (Nat.eqb_spec (ix q) 0); [lia|].
        destruct (RQ s _ q Hs Ek) as (a & -> & Ha). cbn [rbind]. eexists. split; [reflexivity|]. rewrite Ha. unfold can_read. split.
        + intros (v & R & [(t & Ht & Hd & El)|[El _]]); [|discriminate]. inversion El. split; auto. exists v, t. auto.
        + intros (Hl & v & t & R & Ht & El). exists v. split; auto. left. exists t. unfold on_side in El. unfold side. repeat split; auto; congruence.
      - intros s x H. destruct (Nat.eqb_spec x 0); [discriminate|]. destruct (nth_error sets s) as [a|] eqn:Ea; [|discriminate]. cbn [rbind] in H. injection H as H.
        destruct (CV s a Ea) as (X1 & X2 & X3). apply X3. apply (member_ok (ivals a) (icount a) x X1 X2). auto.
      - intros s Hs. destruct (qlookup m NoLab) as [q|] eqn:Ek.
        + destruct (RQ s _ q Hs Ek) as (a & -> & Ha). cbn [rbind]. rewrite QL, Ek. cbn [option_map member_opt]. eexists. split; [reflexivity|]. rewrite Ha. unfold can_end. split.
          * intros (v & R & [(t & Ht & Hd & El)|[_ Hh]]); [discriminate|]. exists v. split; auto. apply heavy_iff; auto.
          * intros (v & R & Hl). exists v. split; auto. right. split; auto. apply heavy_iff; auto.
        + destruct (nth_error sets s) as [a|] eqn:Ea.
          2:{ exfalso. rewrite HS in Ea by auto. destruct (Q3 s) as (a & k & E & _); [rewrite (sh_num _ _ _ _ _ S); lia|]. congruence. }
          cbn [rbind]. rewrite QL, Ek. cbn [option_map member_opt]. eexists. split; [reflexivity|]. split; [discriminate|]. intros (v & R & Hl). exfalso.
          destruct (just_key v NoLab) as (q & Hq); [eapply eps_lt; eauto|right; split; auto; apply heavy_iff; auto|]. congruence.
      - intros s x Hs. rewrite HSn by auto. split; reflexivity.
    Qed.
  End T.

  (** ** The constructor *)
  Theorem C50_compute_data :
    forall f ri nolab, closed f -> bits_true f -> vstart f <> None ->
    (zero_final_cycle f ri -> compute_data f ri nolab = Err) /\
    (~ zero_final_cycle f ri -> exists d, compute_data f ri nolab = Ok d /\ label_index f ri d).
  Proof.
    intros f ri nolab Cf Bf Hs. unfold compute_data.
    destruct (convert_ok L f Hs) as (f' & -> & N' & S' & _ & _ & T' & F' & _ & D'). cbn [rbind].
    assert (Cf' : closed f').
    { split; [intros s t Ht; rewrite T' in Ht; rewrite N'; eapply (proj1 Cf); eauto|]. intros s E. rewrite N'. apply (proj2 Cf). congruence. }
    destruct (transform_ok L ri nolab f' Cf') as (g & m & -> & Sh & Dg). cbn [rbind fst snd].
    assert (Bg : fsound g) by (apply Dg, D', Bf).
    assert (Cg : closed g) by (eapply closed_g; eauto).
    assert (Sg : vstart g <> None) by (rewrite (sh_start _ _ _ _ _ Sh); discriminate).
    assert (Sho : no_zero_final g \/ shape_only (mask [ACYCLIC])).
    { right. intros b Hb. rewrite has_mask in Hb. apply inb_In in Hb as [<-|[]]. left; auto. }
    destruct (C43_compute_and_update L g (mask [ACYCLIC]) Cg Sg Sho Bg) as (h & q & Eh & Vh & Sh' & _ & _ & Bh & _).
    pose proof (C43_decided L g (mask [ACYCLIC]) h q Cg Sg Sho Bg Eh ACYCLIC) as Dec. rewrite Eh. cbn [rbind fst].
    assert (Nh : num_states h = num_states g) by (unfold num_states; rewrite Vh; auto).
    assert (Mh : mach h = mach g) by (unfold mach, trs_of, fin_of; rewrite Vh, Sh'; auto).
    assert (Th : forall s, trs_of h s = trs_of g s) by (intros; unfold trs_of; rewrite Vh; auto).
    assert (Fh : forall s, fin_of h s = fin_of g s) by (intros; unfold fin_of; rewrite Vh; auto).
    assert (Ch : closed h).
    { split; [intros s t Ht; rewrite Th in Ht; rewrite Nh; eapply (proj1 Cg); eauto|]. intros s E. rewrite Nh. apply (proj2 Cg). congruence. }
    assert (Kn : knows (vprops h) (mask [ACYCLIC]) = true).
    { unfold knows. apply contains_mask. intros b [<-|[]]. rewrite has_known. apply orb_true_iff. apply Dec. rewrite has_mask. reflexivity. }
    assert (Bh' : bits_true h) by (intros b Hb; rewrite Nh, Mh; auto).
    destruct (C49_state_reachable L h Ch Bh' ltac:(congruence)) as (_ & Y1 & Y2). specialize (Y1 Kn). specialize (Y2 Kn).
    assert (Re : forall s u, reach (eps f' ri) s u <-> reach (eps f ri) s u).
    { intros s u. split; intros R; induction R as [|s t u Ht R IH]; try constructor; eapply reach_step; eauto; cbn in *; rewrite T' in *; auto. }
    assert (Zc : final_in_cycle h <-> zero_final_cycle f ri).
    { transitivity (final_in_cycle g).
      - unfold final_in_cycle. rewrite Mh. split; intros (s & u & X); exists s, u; rewrite Fh in *; auto.
      - rewrite (cycle_g ri nolab f' Cf' g m Sh). unfold zero_final_cycle. split; intros (s & u & X1 & X2 & X3 & X4); exists s, u; rewrite F', !Re in *; auto. }
    split.
    - intros H. unfold find_intervals. rewrite Y1; auto. apply Zc; auto.
    - intros H. destruct Y2 as (r & Er & An); [rewrite Zc; auto|].
      destruct (find_intervals_ok ri nolab f' Cf' g m Sh r h Er Vh Sh' An) as (d & Ed & (I1 & I0 & I2 & I3 & I4 & I5 & I6 & I7 & I8)).
      rewrite Ed. exists d. split; auto. rewrite N' in *.
      assert (Lv : forall u, live_final f' u <-> live_final f u) by (intros u; unfold live_final; rewrite F'; tauto).
      split; [auto|]. split; [auto|]. split; [auto|]. split; [|split; [|split; auto; split; auto]].
      + intros l. rewrite I3. unfold occurs. split; intros (A & s & t & B & D); split; auto; exists s, t; rewrite T' in *; auto.
      + intros s l x H1 H2. destruct (I4 s l x H1 H2) as (b & Eb & Hb). exists b. split; auto. rewrite Hb. unfold can_read.
        split; intros (A & u & t & B & D & E); split; auto; exists u, t; rewrite T', Re in *; auto.
      + intros s H1. destruct (I6 s H1) as (b & Eb & Hb). exists b. split; auto. rewrite Hb. unfold can_end.
        split; intros (u & A & B); exists u; rewrite Re, Lv in *; auto.
  Qed.
End C50.

Print Assumptions C50_compute_data.

(** A machine with an epsilon cycle between 0 and 1, where 2 is final. *)
Definition lab_ops : list (op natSR) :=
  [OAddStates 4; OSetStart 0; OAddTr 0 (Tr 0 7 2 1); OAddTr 1 (Tr 0 0 1 0); OAddTr 1 (Tr 5 0 3 2); OAddTr 0 (Tr 9 4 1 3); OAddTr 3 (Tr 0 8 1 2); OSetFinal 2 6].
Definition lab_fst : vfst natSR := match run vnew lab_ops with Ok f => f | _ => vnew end.
Definition lab_data : lrdata := match compute_data lab_fst true 1000 with Ok d => d | _ => LD true None [] [] end.

(** The hypotheses of the theorem hold, and states 0 and 1 can read 5 and 9 but not end. *)
Example C50_witness :
  closed lab_fst /\ bits_true lab_fst /\ vstart lab_fst <> None /\ ~ zero_final_cycle lab_fst true /\
  compute_data lab_fst true 1000 = Ok lab_data /\
  map fst (ld_l2i lab_data) = [Lab 9; Lab 5; NoLab] /\
  map (fun s => map (fun l => match qlookup (ld_l2i lab_data) (Lab l) with Some x => reach_label lab_data s x | None => Err end) [5; 9]) [0; 1; 2; 3]
    = [[Ok true; Ok true]; [Ok true; Ok true]; [Ok false; Ok false]; [Ok false; Ok false]] /\
  map (reach_final lab_data) [0; 1; 2; 3; 4] = [Ok false; Ok false; Ok true; Ok true; Err].
Proof.
  assert (E : run vnew lab_ops = Ok lab_fst) by (vm_compute; reflexivity).
  split; [apply closedb_ok; vm_compute; reflexivity|]. split; [eapply (run_fsound natSR_laws); [apply fsound_new| |exact E]; vm_compute; tauto|].
  split; [vm_compute; discriminate|]. split.
  { intros (s & u & _ & H & _). revert H. do 4 (destruct s as [|s]; [vm_compute; congruence|]). vm_compute. destruct s; congruence. }
  repeat split; vm_compute; reflexivity.
Qed.

(** With an explicit zero final weight on state 0 the constructor fails. *)
Example C50_witness_zero :
  exists f, run vnew (lab_ops ++ [OSetFinal 0 0]) = Ok f /\ zero_final_cycle f true /\ compute_data f true 1000 = Err.
Proof.
  eexists. split; [vm_compute; reflexivity|]. split; [|vm_compute; reflexivity].
  exists 0, 1. split; [discriminate|]. split; [reflexivity|]. split.
  - eapply (reach_step _ 0 (Tr 0 7 2 1)); [vm_compute; auto|apply reach_refl].
  - eapply (reach_step _ 1 (Tr 0 0 1 0)); [vm_compute; auto|apply reach_refl].
Qed.
