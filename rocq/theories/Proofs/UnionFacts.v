(** Weighted sets of strings. *)
From Coq Require Import List Arith Bool Lia Sorting.Sorted.
From Verif Require Import Base.Util Base.Semiring Model.Weights Model.UnionWeight.
Import ListNotations.

(** By length, then lexicographic. *)
Definition slt (a b : list nat) : Prop := length a < length b \/ (length a = length b /\ lex_less a b = true).

Lemma lex_irrefl a : lex_less a a = false.
Proof. induction a as [|x a IH]; cbn -[Nat.ltb]; auto. rewrite Nat.ltb_irrefl. auto. Qed.
Lemma lex_trans a : forall b c, lex_less a b = true -> lex_less b c = true -> lex_less a c = true.
Proof.
  induction a as [|x a IH]; intros [|y b] [|z c]; cbn -[Nat.ltb]; try discriminate.
  destruct (Nat.ltb_spec x y), (Nat.ltb_spec y x), (Nat.ltb_spec y z), (Nat.ltb_spec z y), (Nat.ltb_spec x z), (Nat.ltb_spec z x); try lia; try discriminate; eauto.
Qed.
Lemma lex_total a : forall b, length a = length b -> a = b \/ lex_less a b = true \/ lex_less b a = true.
Proof.
  induction a as [|x a IH]; intros [|y b]; cbn -[Nat.ltb]; try discriminate; auto. intros E. injection E as E.
  destruct (Nat.ltb_spec x y), (Nat.ltb_spec y x); auto; try lia. assert (x = y) as -> by lia. destruct (IH b E) as [->|[]]; auto.
Qed.
Lemma lex_pre c a b : lex_less (c ++ a) (c ++ b) = lex_less a b.
Proof. induction c as [|x c IH]; cbn -[Nat.ltb]; auto. rewrite Nat.ltb_irrefl. auto. Qed.
Lemma lex_post c a : forall b, length a = length b -> lex_less (a ++ c) (b ++ c) = lex_less a b.
Proof.
  induction a as [|x a IH]; intros [|y b]; cbn -[Nat.ltb]; try discriminate; [intros _; apply lex_irrefl|].
  intros E. injection E as E. rewrite IH by auto. auto.
Qed.
Lemma slt_irrefl a : ~ slt a a.
Proof. intros [H|[_ H]]; [lia|]. rewrite lex_irrefl in H. discriminate. Qed.
Lemma slt_trans a b c : slt a b -> slt b c -> slt a c.
Proof.
  intros [H|[H1 H2]] [H'|[H1' H2']]; try (left; lia). right. split; [lia|]. eapply lex_trans; eauto.
Qed.
Lemma slt_total a b : a = b \/ slt a b \/ slt b a.
Proof.
  unfold slt. destruct (Nat.lt_trichotomy (length a) (length b)) as [H|[H|H]]; auto.
  destruct (lex_total a b H) as [->|[]]; auto.
Qed.
Lemma slt_pre c a b : slt (c ++ a) (c ++ b) <-> slt a b.
Proof. unfold slt. rewrite !app_length, lex_pre. split; intros [|[]]; auto; (left; lia) || (right; split; auto; lia). Qed.
Lemma slt_post c a b : slt (a ++ c) (b ++ c) <-> slt a b.
Proof.
  unfold slt. rewrite !app_length. split; intros [|[E H]]; try (left; lia); right; split; try lia; rewrite lex_post in *; auto; lia.
Qed.
Lemma slt_asym a b : slt a b -> ~ slt b a.
Proof. intros H H'. apply (slt_irrefl a). eapply slt_trans; eauto. Qed.

(** A semiring with a new zero. *)
Definition optSR (K : SR) : SR :=
  mkSR (option K) None (Some kone)
    (fun x y => match x, y with None, _ => y | _, None => x | Some a, Some b => Some (kplus a b) end)
    (fun x y => match x, y with Some a, Some b => Some (ktimes a b) | _, _ => None end)
    (fun x y => match x, y with None, None => true | Some a, Some b => keqb a b | _, _ => false end).
Lemma optSR_laws (K : SR) : sr_laws K -> sr_laws (optSR K).
Proof.
  intros L. split; [split; [split|]|]; cbn.
  - intros [x|] [y|]; split; intros E; try discriminate; auto; [apply (keqb_spec _ L) in E; congruence|injection E as ->; apply (keqb_spec _ L); auto].
  - intros [x|] [y|] [z|]; try reflexivity; cbn; try exact (f_equal Some (kplus_assoc _ L _ _ _)).
  - intros [x|] [y|]; try reflexivity; cbn; try exact (f_equal Some (kplus_comm _ L _ _)).
  - intros [x|]; reflexivity.
  - intros [x|] [y|] [z|]; try reflexivity; cbn; try exact (f_equal Some (ktimes_assoc _ L _ _ _)).
  - intros [x|]; try reflexivity; cbn; try exact (f_equal Some (ktimes_1_l _ L _)).
  - intros [x|]; try reflexivity; cbn; try exact (f_equal Some (ktimes_1_r _ L _)).
  - auto.
  - intros [x|]; reflexivity.
  - intros [x|] [y|] [z|]; try reflexivity; cbn; try exact (f_equal Some (kdistr_l _ L _ _ _)).
  - intros [x|] [y|] [z|]; try reflexivity; cbn; try exact (f_equal Some (kdistr_r _ L _ _ _)).
Qed.

Section G.
  Context (W : weight) (p t : W -> W -> W).
  Hypothesis Hp : forall x y, wplus x y = Ok (p x y).
  Hypothesis Ht : forall x y, wtimes x y = Ok (t x y).
  Let K : SR := mkSR W wzero wone p t weqb.
  Hypothesis L : sr_laws K.
  Let O := optSR K.
  Let LO : sr_laws O := optSR_laws K L.

  Local Notation elt := (list nat * W)%type.
  Definition inj (x : elt) : gallic_restrict W := (Some (fst x), snd x).
  Lemma inj_inj k k' : map inj k = map inj k' -> k = k'.
  Proof.
    revert k'. induction k as [|[a w] k IH]; intros [|[a' w'] k']; cbn; try discriminate; auto.
    intros E. injection E as -> -> E. f_equal. auto.
  Qed.

  Lemma compare_ok x y : gallic_compare (inj x) (inj y) = true <-> slt (fst x) (fst y).
  Proof.
    unfold gallic_compare, inj, slt. cbn [fst len_labels]. destruct (Nat.compare_spec (length (fst x)) (length (fst y))); split; auto; try discriminate.
    - intros [|[]]; auto; lia.
    - intros [|[]]; lia.
  Qed.
  Lemma compare_no x y : gallic_compare (inj x) (inj y) = false <-> ~ slt (fst x) (fst y).
  Proof. rewrite <- compare_ok. destruct (gallic_compare _ _); split; congruence. Qed.

  Definition sorted (k : list elt) : Prop := StronglySorted slt (map fst k).
  Definition additive (F : list nat -> O -> O) : Prop := forall a v w, F a (kplus v w) = kplus (F a v) (F a w).
  Definition total (F : list nat -> O -> O) (k : list elt) : O := ksum (map (fun x => F (fst x) (Some (snd x) : O)) k).

  Lemma total_cons F x k : total F (x :: k) = kplus (F (fst x) (Some (snd x) : O)) (total F k).
  Proof. reflexivity. Qed.
  Lemma total_app F k k' : total F (k ++ k') = kplus (total F k) (total F k').
  Proof. unfold total. rewrite map_app, (ksum_app LO). auto. Qed.

  (** Equal sets. *)
  Definition at_string (s : list nat) (a : list nat) (v : O) : O := if list_eqb a s then v else kzero.
  Lemma at_string_additive s : additive (at_string s).
  Proof. intros a v w. unfold at_string. destruct (list_eqb a s); auto. Qed.
  Lemma leqb_refl a : list_eqb a a = true.
  Proof. induction a as [|x a IH]; cbn; auto. rewrite Nat.eqb_refl. auto. Qed.
  Lemma leqb_eq a b : list_eqb a b = true -> a = b.
  Proof. revert b. induction a as [|x a IH]; intros [|y b]; cbn; try discriminate; auto. intros H. apply andb_true_iff in H as [H1 H2]. apply Nat.eqb_eq in H1. f_equal; auto. Qed.

  Lemma total_none s k : ~ In s (map fst k) -> total (at_string s) k = None.
  Proof.
    induction k as [|[a w] k IH]; intros H; [reflexivity|]. rewrite total_cons, IH by (intros X; apply H; right; auto).
    unfold at_string. cbn [fst]. destruct (list_eqb a s) eqn:E; auto. apply leqb_eq in E as ->. exfalso. apply H. left. auto.
  Qed.
  Lemma sorted_cons x k : sorted (x :: k) <-> sorted k /\ forall b, In b (map fst k) -> slt (fst x) b.
  Proof.
    unfold sorted. cbn [map]. split.
    - intros H. inversion H; subst. split; auto. apply Forall_forall. auto.
    - intros [H1 H2]. constructor; auto. apply Forall_forall. auto.
  Qed.
  Lemma total_head a w k : sorted ((a, w) :: k) -> total (at_string a) ((a, w) :: k) = Some w.
  Proof.
    intros H. apply sorted_cons in H as [_ H]. rewrite total_cons, total_none.
    - unfold at_string. cbn [fst snd]. rewrite leqb_refl. reflexivity.
    - intros X. apply (slt_irrefl a), H. auto.
  Qed.
  Lemma sorted_ext k : forall k', sorted k -> sorted k' -> (forall s, total (at_string s) k = total (at_string s) k') -> k = k'.
  Proof.
    induction k as [|[a w] k IH]; intros [|[a' w'] k'] S S' E; auto.
    - specialize (E a'). rewrite (total_head a' w' k' S') in E. discriminate.
    - specialize (E a). rewrite (total_head a w k S) in E. discriminate.
    - pose proof (proj1 (sorted_cons _ _) S) as [S1 S2]. pose proof (proj1 (sorted_cons _ _) S') as [S1' S2']. cbn [fst] in S2, S2'.
      assert (a = a') as <-.
      { destruct (slt_total a a') as [|[X|X]]; auto; exfalso.
        - specialize (E a). rewrite (total_head a w k S), total_none in E; [discriminate|].
          intros [Y|Y]; [cbn in Y; subst; apply (slt_irrefl a X)|]. apply (slt_irrefl a). eapply slt_trans; [exact X|auto].
        - specialize (E a'). rewrite (total_head a' w' k' S'), total_none in E; [discriminate|].
          intros [Y|Y]; [cbn in Y; subst; apply (slt_irrefl a' X)|]. apply (slt_irrefl a'). eapply slt_trans; [exact X|auto]. }
      assert (w = w') as <-.
      { specialize (E a). rewrite (total_head a w k S), (total_head a w' k' S') in E. congruence. }
      f_equal. apply IH; auto. intros s. destruct (list_eqb a s) eqn:Es.
      + apply leqb_eq in Es as <-. rewrite !total_none; auto; intros X; [apply S2' in X|apply S2 in X]; apply (slt_irrefl a X).
      + specialize (E s). rewrite !total_cons in E. unfold at_string at 1 3 in E. cbn [fst] in E. rewrite Es in E. exact E.
  Qed.

  (** The result of an operation. *)
  Definition gives (r : res (list (gallic_restrict W))) (has : list nat -> Prop) (tot : (list nat -> O -> O) -> O) : Prop :=
    exists k, r = Ok (map inj k) /\ sorted k /\ (forall b, In b (map fst k) <-> has b) /\ forall F, additive F -> total F k = tot F.
  Definition below (k l : list elt) : Prop := forall b c, In b (map fst k) -> In c (map fst l) -> b = c \/ slt b c.
  Local Notation PUSH := (uw_push (gallic_restrict W) gallic_compare gallic_merge).

  Lemma push_ok k x : sorted k -> (forall b, In b (map fst k) -> b = fst x \/ slt b (fst x)) ->
    gives (PUSH (map inj k) (inj x)) (fun b => b = fst x \/ In b (map fst k)) (fun F => kplus (total F k) (F (fst x) (Some (snd x) : O))).
  Proof.
    destruct x as [a w]. cbn [fst snd]. induction k as [|[b v] k IH]; intros S H.
    - exists [(a, w)]. split; [reflexivity|]. split; [repeat constructor|]. split; [intros b; cbn; intuition congruence|].
      intros F AF. unfold total. cbn [map fst snd ksum]. apply (kplus_comm _ LO).
    - pose proof (proj1 (sorted_cons _ _) S) as [S1 S2]. cbn [fst] in S2. destruct k as [|c k].
      + cbn [map uw_push]. destruct (gallic_compare (inj (b, v)) (inj (a, w))) eqn:E.
        * apply compare_ok in E. cbn [fst] in E. exists [(b, v); (a, w)]. split; [reflexivity|]. split; [apply sorted_cons; split; [apply sorted_cons; split; [constructor|intros ? []]|intros d [<-|[]]; exact E]|].
          split; [intros d; cbn; intuition congruence|]. intros F AF. unfold total. cbn [map fst snd ksum]. rewrite !(kplus_0_r LO). auto.
        * apply compare_no in E. cbn [fst] in E. destruct (H b (or_introl eq_refl)) as [->|X]; [|contradiction].
          exists [(a, p v w)]. unfold gallic_merge. cbn [inj fst snd]. rewrite Hp. cbn [rbind]. split; [reflexivity|]. split; [repeat constructor|].
          split; [intros d; cbn; intuition congruence|]. intros F AF. unfold total. cbn [map fst snd ksum]. rewrite !(kplus_0_r LO).
          rewrite <- AF. reflexivity.
      + destruct IH as (k' & E & S' & Hk & HF); [auto|intros d Hd; apply H; right; auto|].
        exists ((b, v) :: k'). split; [|split; [|split]].
        * change (PUSH (map inj ((b, v) :: c :: k)) (inj (a, w))) with (rmap (cons (inj (b, v))) (PUSH (map inj (c :: k)) (inj (a, w)))). rewrite E. reflexivity.
        * apply sorted_cons. split; auto. intros d Hd. cbn [fst]. apply Hk in Hd as [->|Hd]; [|apply S2; auto].
          assert (Hc : slt b (fst c)) by (apply S2; left; auto). assert (Hca : fst c = a \/ slt (fst c) a) by (apply H; right; left; auto). destruct Hca as [Y|Y]; [rewrite <- Y; auto|]. eapply slt_trans; eauto.
        * intros d. cbn [map fst In]. rewrite Hk. cbn [map fst In]. tauto.
        * intros F AF. rewrite (total_cons F (b, v) k'), (total_cons F (b, v) (c :: k)), HF by auto. cbn [fst snd]. apply (kplus_assoc _ LO).
  Qed.

  Lemma gives_eq r h h' T T' : gives r h T -> (forall b, h b <-> h' b) -> (forall F, additive F -> T F = T' F) -> gives r h' T'.
  Proof.
    intros (k & E & S & Hk & HF) Hh HT. exists k. split; auto. split; auto. split; [intros b; rewrite Hk; auto|].
    intros F AF. rewrite HF; auto.
  Qed.

  Lemma push_all_ok l : forall k, sorted k -> sorted l -> below k l ->
    gives (uw_push_all (gallic_restrict W) gallic_compare gallic_merge (map inj k) (map inj l)) (fun b => In b (map fst k) \/ In b (map fst l))
      (fun F => kplus (total F k) (total F l)).
  Proof.
    induction l as [|x l IH]; intros k S Sl B.
    - exists k. split; [reflexivity|]. split; auto. split; [cbn; tauto|]. intros F _. unfold total at 3. cbn. symmetry. apply (kplus_0_r LO).
    - apply sorted_cons in Sl as [Sl Sx]. destruct (push_ok k x S) as (k' & E & S' & Hk & HF); [intros b Hb; apply B; auto; left; auto|].
      cbn [map uw_push_all]. rewrite E. cbn [rbind]. eapply gives_eq; [apply (IH k' S' Sl)| |].
      + intros b c Hb Hc. apply Hk in Hb as [->|Hb]; [right; apply Sx; auto|]. apply B; auto. right; auto.
      + intros b. cbn [map In]. rewrite Hk. split; intuition congruence.
      + intros F AF. cbn beta. rewrite HF, total_cons by auto. symmetry. apply (kplus_assoc _ LO).
  Qed.

  Lemma merge_ok l1 : forall l2 k, sorted k -> sorted l1 -> sorted l2 -> below k l1 -> below k l2 ->
    gives (uw_merge (gallic_restrict W) gallic_compare gallic_merge (map inj l1) (map inj l2) (map inj k))
      (fun b => In b (map fst k) \/ In b (map fst l1) \/ In b (map fst l2))
      (fun F => kplus (total F k) (kplus (total F l1) (total F l2))).
  Proof.
    induction l1 as [|x l1 IH1]; intros l2 k S S1 S2 B1 B2.
    - assert (X : uw_merge (gallic_restrict W) gallic_compare gallic_merge (map inj []) (map inj l2) (map inj k) = uw_push_all (gallic_restrict W) gallic_compare gallic_merge (map inj k) (map inj l2))
        by (destruct l2; reflexivity).
      rewrite X. eapply gives_eq; [apply push_all_ok; auto| |]; [intros b; cbn; tauto|]. intros F _. cbn beta. unfold total at 4. cbn [map ksum]. rewrite (kplus_0_l _ LO). auto.
    - revert k S B1 B2. induction l2 as [|y l2 IH2]; intros k S B1 B2.
      + change (uw_merge (gallic_restrict W) gallic_compare gallic_merge (map inj (x :: l1)) (map inj []) (map inj k))
          with (uw_push_all (gallic_restrict W) gallic_compare gallic_merge (map inj k) (map inj (x :: l1))).
        eapply gives_eq; [apply push_all_ok; auto| |]; [intros b; cbn; tauto|]. intros F _. cbn beta. unfold total at 5. cbn [map ksum]. rewrite (kplus_0_r LO). auto.
      + pose proof (proj1 (sorted_cons _ _) S1) as [S1' Sx]. pose proof (proj1 (sorted_cons _ _) S2) as [S2' Sy].
        change (uw_merge (gallic_restrict W) gallic_compare gallic_merge (map inj (x :: l1)) (map inj (y :: l2)) (map inj k))
          with (if gallic_compare (inj x) (inj y) then acc <-- PUSH (map inj k) (inj x) ;; uw_merge (gallic_restrict W) gallic_compare gallic_merge (map inj l1) (map inj (y :: l2)) acc
                else acc <-- PUSH (map inj k) (inj y) ;; uw_merge (gallic_restrict W) gallic_compare gallic_merge (map inj (x :: l1)) (map inj l2) acc).
        destruct (gallic_compare (inj x) (inj y)) eqn:E.
        * apply compare_ok in E. destruct (push_ok k x S) as (k' & -> & S' & Hk & HF); [intros b Hb; apply B1; auto; left; auto|]. cbn [rbind].
          eapply gives_eq; [apply (IH1 (y :: l2) k' S' S1' S2)| |].
          -- intros b c Hb Hc. apply Hk in Hb as [->|Hb]; [right; apply Sx; auto|]. apply B1; auto. right; auto.
          -- intros b c Hb Hc. apply Hk in Hb as [->|Hb]; [|apply B2; auto]. right. destruct Hc as [<-|Hc]; auto. eapply slt_trans; [exact E|]. apply Sy. auto.
          -- intros b. cbn beta. rewrite Hk. cbn [map In]. intuition congruence.
          -- intros F AF. cbn beta. rewrite HF, (total_cons F x l1) by auto. rewrite <- !(kplus_assoc _ LO). auto.
        * apply compare_no in E. destruct (push_ok k y S) as (k' & -> & S' & Hk & HF); [intros b Hb; apply B2; auto; left; auto|]. cbn [rbind].
          assert (YX : fst y = fst x \/ slt (fst y) (fst x)) by (destruct (slt_total (fst y) (fst x)) as [|[|]]; auto; contradiction).
          eapply gives_eq; [apply (IH2 S2' k' S')| |].
          -- intros b c Hb Hc. apply Hk in Hb as [->|Hb]; [|apply B1; auto]. destruct Hc as [<-|Hc]; auto. right.
             destruct YX as [->|YX]; [apply Sx; auto|]. eapply slt_trans; [exact YX|]. apply Sx; auto.
          -- intros b c Hb Hc. apply Hk in Hb as [->|Hb]; [right; apply Sy; auto|]. apply B2; auto. right; auto.
          -- intros b. cbn beta. rewrite Hk. cbn [map In]. intuition congruence.
          -- intros F AF. cbn beta. rewrite HF, (total_cons F y l2) by auto. rewrite <- !(kplus_assoc _ LO). f_equal.
             rewrite (kplus_comm _ LO (total F (x :: l1)) (kplus _ _)), <- (kplus_assoc _ LO). f_equal. apply (kplus_comm _ LO).
  Qed.

  Lemma plus_ok k1 k2 : sorted k1 -> sorted k2 ->
    gives (wplus (w := gallic_weight W) (map inj k1) (map inj k2)) (fun b => In b (map fst k1) \/ In b (map fst k2)) (fun F => kplus (total F k1) (total F k2)).
  Proof.
    intros S1 S2. destruct k1 as [|x k1].
    - exists k2. split; [reflexivity|]. split; auto. split; [cbn; tauto|]. intros F _. unfold total at 2. cbn [map ksum]. symmetry. apply (kplus_0_l _ LO).
    - destruct k2 as [|y k2].
      + exists (x :: k1). split; [reflexivity|]. split; auto. split; [cbn; tauto|]. intros F _. unfold total at 3. cbn [map ksum]. symmetry. apply (kplus_0_r LO).
      + eapply gives_eq; [apply (merge_ok (x :: k1) (y :: k2) [])| |]; auto; try (intros b c []).
        * constructor.
        * intros b. cbn. tauto.
  Qed.

  Definition scaled (x : elt) (l : list elt) : list elt := map (fun y => (fst x ++ fst y, t (snd x) (snd y))) l.
  Lemma scaled_In x l b : In b (map fst (scaled x l)) <-> exists c, In c (map fst l) /\ b = fst x ++ c.
  Proof.
    unfold scaled. rewrite map_map. cbn [fst]. rewrite in_map_iff. split.
    - intros (y & <- & Hy). exists (fst y). split; auto. apply in_map. auto.
    - intros (c & Hc & ->). apply in_map_iff in Hc as (y & <- & Hy). eauto.
  Qed.
  Lemma scaled_sorted x l : sorted l -> sorted (scaled x l).
  Proof.
    induction l as [|y l IH]; intros S; [constructor|]. apply sorted_cons in S as [S Sy]. cbn [scaled map]. apply sorted_cons. split; [apply IH; auto|].
    intros b Hb. apply scaled_In in Hb as (c & Hc & ->). cbn [fst]. apply slt_pre. auto.
  Qed.
  Lemma each_ok f g l : (forall y, In y l -> f (inj y) = Ok (inj (g y))) -> forall acc,
    uw_each (gallic_restrict W) gallic_compare gallic_merge f (map inj l) acc =
    uw_push_all (gallic_restrict W) gallic_compare gallic_merge acc (map inj (map g l)).
  Proof.
    induction l as [|y l IH]; intros H acc; [reflexivity|]. cbn [map uw_each uw_push_all]. rewrite H by (left; auto). cbn [rbind].
    destruct (PUSH acc (inj (g y))); cbn [rbind]; auto. apply IH. intros; apply H; right; auto.
  Qed.
  Lemma scale_ok x l acc :
    uw_each (gallic_restrict W) gallic_compare gallic_merge (wtimes (inj x)) (map inj l) acc =
    uw_push_all (gallic_restrict W) gallic_compare gallic_merge acc (map inj (scaled x l)).
  Proof. apply each_ok. intros y _. cbn. unfold pair_op. cbn. rewrite Ht. reflexivity. Qed.

  (** The product, as seen by an additive function. *)
  Definition conv (k1 k2 : list elt) (F : list nat -> O -> O) : O :=
    ksum (map (fun x => ksum (map (fun y => F (fst x ++ fst y) (Some (t (snd x) (snd y)) : O)) k2)) k1).

  Lemma total_scaled F x l : total F (scaled x l) = ksum (map (fun y => F (fst x ++ fst y) (Some (t (snd x) (snd y)) : O)) l).
  Proof. unfold total, scaled. rewrite map_map. auto. Qed.

  Lemma prod_ok l2 : sorted l2 -> forall l1 k, sorted k ->
    gives (uw_prod (gallic_restrict W) gallic_compare gallic_merge (map inj l1) (map inj l2) (map inj k))
      (fun b => In b (map fst k) \/ exists a c, In a (map fst l1) /\ In c (map fst l2) /\ b = a ++ c)
      (fun F => kplus (total F k) (conv l1 l2 F)).
  Proof.
    intros S2. induction l1 as [|x l1 IH]; intros k S.
    - exists k. split; [reflexivity|]. split; auto. split; [|intros F _; cbn; symmetry; apply (kplus_0_r LO)].
      intros b. split; auto. intros [|(a & c & [] & _)]; auto.
    - pose proof (scale_ok x l2 []) as E0.
      destruct (push_all_ok (scaled x l2) [] ltac:(constructor) (scaled_sorted x l2 S2) ltac:(intros b c [])) as (k1 & E1 & Sk1 & Hk1 & HF1).
      change (map inj []) with (@nil (gallic_restrict W)) in *. cbn [map uw_prod]. rewrite E0, E1. cbn [rbind].
      destruct (plus_ok k k1 S Sk1) as (k2 & E2 & Sk2 & Hk2 & HF2). cbn [wplus gallic_weight union_weight] in E2. rewrite E2. cbn [rbind].
      eapply gives_eq; [apply (IH k2 Sk2)| |].
      + intros b. cbn beta. rewrite Hk2, Hk1, scaled_In. cbn [map In]. split.
        * intros [[|[[]|(c & Hc & ->)]]|(a & c & Ha & Hc & ->)]; auto; right; eauto 8.
        * intros [|(a & c & [<-|Ha] & Hc & ->)]; eauto 10.
      + intros F AF. cbn beta. rewrite HF2, HF1 by auto. unfold total at 2. cbn [map ksum]. rewrite (kplus_0_l _ LO), <- (kplus_assoc _ LO). f_equal.
        rewrite total_scaled. reflexivity.
  Qed.

  Lemma times_ok k1 k2 : sorted k1 -> sorted k2 ->
    gives (wtimes (w := gallic_weight W) (map inj k1) (map inj k2)) (fun b => exists a c, In a (map fst k1) /\ In c (map fst k2) /\ b = a ++ c) (conv k1 k2).
  Proof.
    intros S1 S2. assert (N : forall F, conv k1 [] F = kzero) by (intros F; unfold conv; apply (ksum_map_zero LO); auto).
    destruct k1 as [|x k1].
    - exists []. split; [reflexivity|]. split; [constructor|]. split; [|auto]. intros b. split; [intros []|intros (a & c & [] & _)].
    - destruct k2 as [|y k2].
      + exists []. split; [reflexivity|]. split; [constructor|]. split; [intros b; split; [intros []|intros (a & c & _ & [] & _)]|]. intros F _. rewrite N. auto.
      + eapply gives_eq; [apply (prod_ok (y :: k2) S2 (x :: k1) [] ltac:(constructor))| |].
        * intros b. cbn [map In]. split; [intros [[]|]; auto|auto].
        * intros F _. cbn beta. unfold total. cbn [map ksum]. apply (kplus_0_l _ LO).
  Qed.

  Lemma conv_total k1 k2 F : conv k1 k2 F = total (fun a v => ksum (map (fun y => F (a ++ fst y) (ktimes v (Some (snd y) : O))) k2)) k1.
  Proof. reflexivity. Qed.
  Lemma conv_total_r k1 k2 F : conv k1 k2 F = total (fun a v => ksum (map (fun x => F (fst x ++ a) (ktimes (Some (snd x) : O) v)) k1)) k2.
  Proof. unfold conv, total. apply (ksum_swap LO). Qed.
  Lemma additive_l k2 F : additive F -> additive (fun a v => ksum (map (fun y => F (a ++ fst y) (ktimes v (Some (snd y) : O))) k2)).
  Proof.
    intros AF a v w. rewrite <- (ksum_map_plus LO). apply ksum_map_ext. intros y _. rewrite (kdistr_r _ LO). apply AF.
  Qed.
  Lemma additive_r k1 F : additive F -> additive (fun a v => ksum (map (fun x => F (fst x ++ a) (ktimes (Some (snd x) : O) v)) k1)).
  Proof.
    intros AF a v w. rewrite <- (ksum_map_plus LO). apply ksum_map_ext. intros y _. rewrite (kdistr_l _ LO). apply AF.
  Qed.

  Lemma conv_assoc k1 k2 k3 k12 k23 F : additive F -> (forall F, additive F -> total F k12 = conv k1 k2 F) -> (forall F, additive F -> total F k23 = conv k2 k3 F) ->
    conv k12 k3 F = conv k1 k23 F.
  Proof.
    intros AF H12 H23. rewrite conv_total, H12 by (apply additive_l; auto). rewrite (conv_total_r k1 k23), H23 by (apply additive_r; auto).
    unfold conv. rewrite (ksum_map_ext (fun x => ksum (map (fun y => ksum (map (fun c => F ((fst x ++ fst y) ++ fst c) (ktimes (Some (t (snd x) (snd y)) : O) (Some (snd c) : O))) k3)) k2))
      (fun x => ksum (map (fun y => ksum (map (fun c => F (fst x ++ fst y ++ fst c) (ktimes (Some (snd x) : O) (Some (t (snd y) (snd c)) : O))) k3)) k2))).
    - rewrite (ksum_swap LO). apply ksum_map_ext. intros y _. rewrite (ksum_swap LO). auto.
    - intros x _. apply ksum_map_ext. intros y _. apply ksum_map_ext. intros c _. rewrite <- app_assoc. f_equal.
      exact (f_equal Some (eq_sym (ktimes_assoc _ L (snd x) (snd y) (snd c)))).
  Qed.

  Lemma conv_plus_l k1 k2 k12 k3 F : additive F -> (forall F, additive F -> total F k12 = kplus (total F k1) (total F k2)) ->
    conv k12 k3 F = kplus (conv k1 k3 F) (conv k2 k3 F).
  Proof. intros AF H. rewrite conv_total, H by (apply additive_l; auto). reflexivity. Qed.
  Lemma conv_plus_r k1 k2 k12 k3 F : additive F -> (forall F, additive F -> total F k12 = kplus (total F k1) (total F k2)) ->
    conv k3 k12 F = kplus (conv k3 k1 F) (conv k3 k2 F).
  Proof. intros AF H. rewrite !conv_total_r, H by (apply additive_r; auto). reflexivity. Qed.
  Lemma conv_one_l k F : conv [([], wone)] k F = total F k.
  Proof.
    unfold conv, total. cbn [map ksum]. rewrite (kplus_0_r LO). apply ksum_map_ext. intros y _. cbn [fst snd app].
    exact (f_equal (fun v => F (fst y) (Some v)) (ktimes_1_l _ L (snd y))).
  Qed.
  Lemma conv_one_r k F : conv k [([], wone)] F = total F k.
  Proof.
    unfold conv, total. apply ksum_map_ext. intros x _. cbn [map ksum fst snd]. rewrite (kplus_0_r LO), app_nil_r.
    exact (f_equal (fun v => F (fst x) (Some v)) (ktimes_1_r _ L (snd x))).
  Qed.
End G.
