(** Facts about sorting, uniquing and summing transitions. *)
From Coq Require Import List Arith NArith Lia Bool Permutation Sorted.
From Verif Require Import Base.Util Base.Semiring Base.Machine Base.PropSpec
  Model.Props Model.VectorFst Model.TrOps
  Proofs.PropsFacts Proofs.VectorFacts Proofs.DelStates Proofs.VectorProps.
Import ListNotations.

Section S.
  Context {A : Type} (le : A -> A -> bool).
  Lemma insert_perm x l : Permutation (insert le x l) (x :: l).
  Proof.
    induction l as [|y l IH]; simpl; auto. destruct (le x y); auto.
    rewrite IH. apply perm_swap.
  Qed.
  Lemma isort_perm l : Permutation (isort le l) l.
  Proof. induction l; simpl; auto. rewrite insert_perm. auto. Qed.

  Hypothesis tot : forall x y, le x y = true \/ le y x = true.
  Hypothesis trans : forall x y z, le x y = true -> le y z = true -> le x z = true.
  Let R x y := le x y = true.
  Lemma insert_sorted x l : StronglySorted R l -> StronglySorted R (insert le x l).
  Proof.
    induction l as [|y l IH]; intros H; simpl; [repeat constructor|].
    inversion H; subst. destruct (le x y) eqn:E.
    - constructor; auto. constructor; auto. eapply Forall_impl; [|exact H3].
      intros z Hz. eapply trans; eauto.
    - constructor; auto. apply Forall_forall. intros z Hz.
      eapply Permutation_in in Hz; [|apply insert_perm]. destruct Hz as [<-|Hz].
      + destruct (tot x y); congruence.
      + rewrite Forall_forall in H3. auto.
  Qed.
  Lemma isort_sorted l : StronglySorted R (isort le l).
  Proof. induction l; simpl; [constructor|]. apply insert_sorted; auto. Qed.
End S.

(** Weight-free view: bits that do not speak about weights do not see them. *)
Definition unitSR : SR :=
  {| car := unit; kzero := tt; kone := tt; kplus := fun _ _ => tt; ktimes := fun _ _ => tt;
     keqb := fun _ _ => true |}.
Definition uforget {K : SR} (m : machine K) : machine unitSR :=
  Mach (mstart m) (fun s => map (fun t => Tr (il t) (ol t) tt (ns t)) (mtrs m s) : list (tr unitSR))
       (fun s => option_map (fun _ => tt) (mfin m s)).

Section F.
  Context {K : SR}.
  Lemma uforget_reach (m : machine K) a b : reach (uforget m) a b <-> reach m a b.
  Proof.
    split.
    - induction 1 as [s|s t u H1 H2 IH]; [constructor|].
      simpl in H1. apply in_map_iff in H1 as (t0 & <- & Ht). simpl in *. econstructor; eauto.
    - induction 1 as [s|s t u H1 H2 IH]; [constructor|].
      apply (reach_step (uforget m) s (Tr (il t) (ol t) tt (ns t) : tr unitSR) u).
      + simpl. apply in_map_iff. eauto.
      + exact IH.
  Qed.
  Lemma uforget_cycle (m : machine K) s : on_cycle (uforget m) s <-> on_cycle m s.
  Proof.
    split.
    - intros (t & Ht & Hr). simpl in Ht. apply in_map_iff in Ht as (t0 & <- & Ht).
      exists t0. split; auto. apply uforget_reach in Hr. exact Hr.
    - intros (t & Ht & Hr). exists (Tr (il t) (ol t) tt (ns t)). split.
      + simpl. apply in_map_iff. eauto.
      + apply uforget_reach. exact Hr.
  Qed.
  Lemma uforget_all (m : machine K) (Q : nat -> nat -> nat -> nat -> Prop) :
    (forall s (t : tr unitSR), In t (mtrs (uforget m) s) -> Q s (il t) (ol t) (ns t)) <->
    (forall s t, In t (mtrs m s) -> Q s (il t) (ol t) (ns t)).
  Proof.
    split; intros H s t Ht.
    - apply (H s (Tr (il t) (ol t) tt (ns t))). simpl. apply in_map_iff. eauto.
    - simpl in Ht. apply in_map_iff in Ht as (t0 & <- & Ht). simpl. auto.
  Qed.
  Lemma uforget_ex (m : machine K) (Q : nat -> nat -> nat -> nat -> Prop) :
    (exists s (t : tr unitSR), In t (mtrs (uforget m) s) /\ Q s (il t) (ol t) (ns t)) <->
    (exists s t, In t (mtrs m s) /\ Q s (il t) (ol t) (ns t)).
  Proof.
    split; intros (s & t & Ht & HQ).
    - simpl in Ht. apply in_map_iff in Ht as (t0 & <- & Ht). eauto.
    - exists s, (Tr (il t) (ol t) tt (ns t)). split; auto. simpl. apply in_map_iff. eauto.
  Qed.
  Lemma uforget_map_il (m : machine K) s : map il (mtrs (uforget m) s) = map il (mtrs m s).
  Proof. simpl. rewrite map_map. reflexivity. Qed.
  Lemma uforget_map_ol (m : machine K) s : map ol (mtrs (uforget m) s) = map ol (mtrs m s).
  Proof. simpl. rewrite map_map. reflexivity. Qed.
  Lemma uforget_fin (m : machine K) s : mfin (uforget m) s <> None <-> mfin m s <> None.
  Proof. simpl. destruct (mfin m s); simpl; split; congruence. Qed.
  Lemma uforget_acc (m : machine K) s : accessible (uforget m) s <-> accessible m s.
  Proof. unfold accessible. simpl. setoid_rewrite uforget_reach. tauto. Qed.
  Lemma uforget_coacc (m : machine K) s : coaccessible (uforget m) s <-> coaccessible m s.
  Proof. unfold coaccessible. setoid_rewrite uforget_reach. setoid_rewrite uforget_fin. tauto. Qed.
  Lemma uforget_string (m : machine K) n : is_string n (uforget m) <-> is_string n m.
  Proof.
    unfold is_string. apply or_iff_compat_l. apply and_iff_compat_l. cbn [uforget mtrs mfin mstart].
    split; intros H s Hs; specialize (H s Hs); destruct (S s =? n).
    - destruct H as [H1 H2]. split.
      + destruct (mtrs m s); [auto|discriminate].
      + destruct (mfin m s); simpl in *; congruence.
    - destruct H as [(t & H1 & H2) H3]. split.
      + destruct (mtrs m s) as [|t0 [|]]; try discriminate. exists t0. split; auto.
        inversion H1; subst. auto.
      + destruct (mfin m s); simpl in *; congruence.
    - destruct H as [H1 H2]. split.
      + rewrite H1. auto.
      + destruct (mfin m s); simpl in *; congruence.
    - destruct H as [(t & H1 & H2) H3]. split.
      + rewrite H1. simpl. eexists. split; [reflexivity|]. auto.
      + rewrite H3. auto.
  Qed.

  Lemma uforget_holds b n (m : machine K) :
    In b pm_weight_invariant_properties -> (holds b n (uforget m) <-> holds b n m).
  Proof.
    intros Hb. simpl in Hb. repeat (destruct Hb as [<-|Hb]); try tauto; cbn [holds].
    - apply (uforget_all m (fun s a b c => a = b)).
    - apply (uforget_ex m (fun s a b c => a <> b)).
    - setoid_rewrite uforget_map_il. tauto.
    - setoid_rewrite uforget_map_il. tauto.
    - setoid_rewrite uforget_map_ol. tauto.
    - setoid_rewrite uforget_map_ol. tauto.
    - apply (uforget_ex m (fun s a b c => a = 0 /\ b = 0)).
    - apply (uforget_all m (fun s a b c => ~ (a = 0 /\ b = 0))).
    - apply (uforget_ex m (fun s a b c => a = 0)).
    - apply (uforget_all m (fun s a b c => a <> 0)).
    - apply (uforget_ex m (fun s a b c => b = 0)).
    - apply (uforget_all m (fun s a b c => b <> 0)).
    - setoid_rewrite uforget_map_il. tauto.
    - setoid_rewrite uforget_map_il. tauto.
    - setoid_rewrite uforget_map_ol. tauto.
    - setoid_rewrite uforget_map_ol. tauto.
    - setoid_rewrite uforget_cycle. tauto.
    - setoid_rewrite uforget_cycle. tauto.
    - setoid_rewrite uforget_cycle. tauto.
    - setoid_rewrite uforget_cycle. tauto.
    - apply (uforget_all m (fun s a b c => s < c)).
    - apply (uforget_ex m (fun s a b c => c <= s)).
    - setoid_rewrite uforget_acc. tauto.
    - setoid_rewrite uforget_acc. tauto.
    - setoid_rewrite uforget_coacc. tauto.
    - setoid_rewrite uforget_coacc. tauto.
    - apply uforget_string.
    - rewrite uforget_string. tauto.
  Qed.
End F.

Section P.
  Context {K : SR} (L : psr_laws K).
  Implicit Types (m : machine K) (f : vfst K).

  (** ** Permuting transitions *)
  Definition mperm m1 m2 : Prop :=
    mstart m1 = mstart m2 /\ (forall s, Permutation (mtrs m1 s) (mtrs m2 s)) /\
    (forall s, mfin m1 s = mfin m2 s).
  Lemma mperm_sym m1 m2 : mperm m1 m2 -> mperm m2 m1.
  Proof. intros (A & B & C); repeat split; intros; symmetry; auto. Qed.
  Lemma mperm_reach m1 m2 a b : mperm m1 m2 -> reach m1 a b -> reach m2 a b.
  Proof.
    intros (_ & B & _) H. induction H; [constructor|]. econstructor; eauto.
    eapply Permutation_in; [apply B|]; eauto.
  Qed.
  Lemma mperm_cycle m1 m2 s : mperm m1 m2 -> on_cycle m1 s -> on_cycle m2 s.
  Proof.
    intros E (t & Ht & Hr). exists t. split; [|eapply mperm_reach; eauto].
    destruct E as (_ & B & _). eapply Permutation_in; [apply B|]; eauto.
  Qed.
  Lemma mperm_acc m1 m2 s : mperm m1 m2 -> accessible m1 s -> accessible m2 s.
  Proof.
    intros E (q & Hq & Hr). exists q. split; [|eapply mperm_reach; eauto].
    destruct E as (A & _). congruence.
  Qed.
  Lemma mperm_coacc m1 m2 s : mperm m1 m2 -> coaccessible m1 s -> coaccessible m2 s.
  Proof.
    intros E (q & Hr & Hq). exists q. split; [eapply mperm_reach; eauto|].
    destruct E as (_ & _ & C). congruence.
  Qed.
  Lemma mperm_string m1 m2 n : mperm m1 m2 -> is_string n m1 -> is_string n m2.
  Proof.
    intros (A & B & C) [H|[H1 H2]]; [left; auto|right]. split; [congruence|].
    intros s Hs. specialize (H2 s Hs). specialize (B s). specialize (C s).
    destruct (S s =? n).
    - destruct H2 as [H2 H3]. rewrite H2 in B. apply Permutation_nil in B. split; congruence.
    - destruct H2 as [(t & H2 & H4) H3]. rewrite H2 in B.
      apply Permutation_length_1_inv in B. split; [|congruence]. exists t. auto.
  Qed.

  Lemma mperm_holds m1 m2 n b :
    mperm m1 m2 -> In b pm_arcsort_properties -> holds b n m1 -> holds b n m2.
  Proof.
    intros E Hb H. pose proof (mperm_sym _ _ E) as E'. pose proof E as (EA & EB & EC).
    assert (I : forall s t, In t (mtrs m2 s) -> In t (mtrs m1 s)).
    { intros s t. apply Permutation_in. symmetry. auto. }
    assert (I' : forall s t, In t (mtrs m1 s) -> In t (mtrs m2 s)).
    { intros s t. apply Permutation_in. auto. }
    simpl in Hb. repeat (destruct Hb as [<-|Hb]); try tauto; cbn [holds] in *.
    - eauto.
    - destruct H as (s & t & ? & ?). eauto.
    - intros s. eapply Permutation_NoDup; [apply Permutation_map, EB|auto].
    - destruct H as (s & H). exists s. intros G. apply H.
      eapply Permutation_NoDup; [apply Permutation_map, Permutation_sym, EB|auto].
    - intros s. eapply Permutation_NoDup; [apply Permutation_map, EB|auto].
    - destruct H as (s & H). exists s. intros G. apply H.
      eapply Permutation_NoDup; [apply Permutation_map, Permutation_sym, EB|auto].
    - destruct H as (s & t & ? & ?). eauto.
    - eauto.
    - destruct H as (s & t & ? & ?). eauto.
    - eauto.
    - destruct H as (s & t & ? & ?). eauto.
    - eauto.
    - destruct H as [(s & t & ? & ?)|(s & w & ? & ?)]; [left; eauto|right].
      exists s, w. split; auto. congruence.
    - destruct H as [H1 H2]. split; [eauto|]. intros s w Hw. apply (H2 s). congruence.
    - destruct H as (s & H). exists s. eapply mperm_cycle; eauto.
    - intros s Hc. apply (H s). eapply mperm_cycle; eauto.
    - destruct H as (s & Hs & H). exists s. split; [congruence|]. eapply mperm_cycle; eauto.
    - intros s Hs Hc. apply (H s); [congruence|]. eapply mperm_cycle; eauto.
    - eauto.
    - destruct H as (s & t & ? & ?). eauto.
    - intros s Hs. eapply mperm_acc; eauto.
    - destruct H as (s & Hs & H). exists s. split; auto. intros G. apply H. eapply mperm_acc; eauto.
    - intros s Hs. eapply mperm_coacc; eauto.
    - destruct H as (s & Hs & H). exists s. split; auto. intros G. apply H. eapply mperm_coacc; eauto.
    - eapply mperm_string; eauto.
    - intros G. apply H. eapply mperm_string; eauto.
    - destruct H as (s & t & H1 & H2 & H3). exists s, t. repeat split; auto. eapply mperm_reach; eauto.
    - intros s t Ht Hr. apply (H s t); auto. eapply mperm_reach; eauto.
  Qed.

  (** ** The loop over states is a map *)
  Lemma for_states_map (g : vstate K -> res (vstate K)) (body : vfst K -> nat -> res (vfst K)) f :
    (forall f s st, nth_error (vstates f) s = Some st ->
       body f s = (st' <-- g st ;; Ok (upd_state f s st' (vprops f)))) ->
    for_states body f = (l <-- map_res g (vstates f) ;; Ok (with_states f l)).
  Proof.
    intros Hb. unfold for_states.
    assert (forall suf pre (f0 : vfst K), vstates f0 = pre ++ suf ->
      fold_left (fun r s => h <-- r ;; body h s) (seq (length pre) (length suf)) (Ok f0) =
      (l <-- map_res g suf ;; Ok (with_states f0 (pre ++ l)))) as H.
    { induction suf as [|st suf IH]; intros pre f0 E; simpl.
      - rewrite <- E. destruct f0; reflexivity.
      - rewrite (Hb f0 (length pre) st).
        2: { rewrite E, nth_error_app2 by lia. rewrite Nat.sub_diag. reflexivity. }
        destruct (g st) as [st'| |]; simpl.
        + specialize (IH (pre ++ [st']) (upd_state f0 (length pre) st' (vprops f0))).
          rewrite app_length in IH. simpl in IH. rewrite Nat.add_1_r in IH.
          rewrite IH.
          * destruct (map_res g suf); simpl; auto. rewrite <- app_assoc. reflexivity.
          * rewrite E, upd_app_r by lia. rewrite Nat.sub_diag. simpl. rewrite <- app_assoc. reflexivity.
        + clear. generalize (seq (S (length pre)) (length suf)). induction l; simpl; auto.
        + clear. generalize (seq (S (length pre)) (length suf)). induction l; simpl; auto. }
    specialize (H (vstates f) [] f eq_refl). simpl in H. exact H.
  Qed.

  Lemma map_res_Ok {A B} (g : A -> B) (l : list A) : map_res (fun a => Ok (g a)) l = Ok (map g l).
  Proof. induction l; simpl; auto. rewrite IHl. reflexivity. Qed.

  Lemma map_res_ext {A B} (g h : A -> res B) l : (forall a, g a = h a) -> map_res g l = map_res h l.
  Proof. intros E; induction l; simpl; auto. rewrite E, IHl. reflexivity. Qed.

  Definition set_all (f : vfst K) (p : N) : vfst K := set_properties_with_mask f p all_properties.
  Lemma has_set_all f p b : has (vprops (set_all f p)) b = has p b.
  Proof.
    unfold set_all, set_properties_with_mask. cbn [vprops with_props].
    rewrite has_lor, !has_land, has_pnot. unfold all_properties, binary_properties, trinary_properties.
    rewrite N.lor_0_l, has_mask, inb_all. simpl. rewrite andb_false_r, andb_true_r. reflexivity.
  Qed.

  Lemma tr_sort_eq le pf f :
    tr_sort le pf f = Ok (set_all (with_states f (map (sort_state le) (vstates f))) (pf (vprops f))).
  Proof.
    unfold tr_sort. rewrite (for_states_map (fun st => Ok (sort_state le st))).
    - rewrite map_res_Ok. reflexivity.
    - intros f0 s st H. unfold sort_trs_unchecked. rewrite H. reflexivity.
  Qed.
  Definition unique_props (p : N) (n : nat) : N :=
    let out := pkeep (pkeep p pm_arcsort_properties) pm_delete_arcs_properties in
    if Nat.eqb n 0 then pset out pm_null_properties else out.
  Definition sum_props (p : N) (n : nat) : N :=
    let out := pkeep (pkeep (pkeep p pm_arcsort_properties) pm_delete_arcs_properties)
                     pm_weight_invariant_properties in
    if Nat.eqb n 0 then pset out pm_null_properties else out.
  Lemma tr_unique_eq f :
    tr_unique f = Ok (set_all (with_states f (map unique_state (vstates f)))
                              (unique_props (vprops f) (num_states f))).
  Proof.
    unfold tr_unique. rewrite (for_states_map (fun st => Ok (unique_state st))).
    - rewrite map_res_Ok. simpl. unfold num_states at 1. simpl. rewrite map_length. reflexivity.
    - intros f0 s st H. unfold unique_trs_unchecked. rewrite H. reflexivity.
  Qed.
  Lemma tr_sum_eq f :
    tr_sum f = (l <-- map_res sum_state (vstates f) ;;
                Ok (set_all (with_states f l) (sum_props (vprops f) (num_states f)))).
  Proof.
    unfold tr_sum. rewrite (for_states_map sum_state).
    - destruct (map_res sum_state (vstates f)) as [l| |] eqn:E; simpl; auto.
      apply map_res_ok, Forall2_len in E. unfold num_states at 1. simpl. rewrite <- E. reflexivity.
    - intros f0 s st H. unfold sum_trs_unchecked. rewrite H. reflexivity.
  Qed.

  Lemma trs_of_map g f p s :
    trs_of (set_all (with_states f (map g (vstates f))) p) s =
    match nth_error (vstates f) s with Some st => vtrs (g st) | None => [] end.
  Proof.
    unfold trs_of. simpl. rewrite nth_error_map. destruct (nth_error (vstates f) s); reflexivity.
  Qed.
  Lemma fin_of_map g f p s :
    fin_of (set_all (with_states f (map g (vstates f))) p) s =
    match nth_error (vstates f) s with Some st => vfin (g st) | None => None end.
  Proof.
    unfold fin_of. simpl. rewrite nth_error_map. destruct (nth_error (vstates f) s); reflexivity.
  Qed.

  Lemma tr_sort_mperm le pf f f' : tr_sort le pf f = Ok f' -> mperm (mach f) (mach f').
  Proof.
    rewrite tr_sort_eq. intros H; inversion H; subst; clear H. split; [reflexivity|].
    split; intros s; cbn [mach mtrs mfin].
    - rewrite trs_of_map. unfold trs_of. destruct (nth_error (vstates f) s); auto.
      simpl. symmetry. apply isort_perm.
    - rewrite fin_of_map. unfold fin_of. destruct (nth_error (vstates f) s); auto.
  Qed.

  (** ** Order facts *)
  Lemma ilabel_le_tot (x y : tr K) : ilabel_le x y = true \/ ilabel_le y x = true.
  Proof. unfold ilabel_le. rewrite !Nat.leb_le. lia. Qed.
  Lemma ilabel_le_trans (x y z : tr K) : ilabel_le x y = true -> ilabel_le y z = true -> ilabel_le x z = true.
  Proof. unfold ilabel_le. rewrite !Nat.leb_le. lia. Qed.
  Lemma olabel_le_tot (x y : tr K) : olabel_le x y = true \/ olabel_le y x = true.
  Proof. unfold olabel_le. rewrite !Nat.leb_le. lia. Qed.
  Lemma olabel_le_trans (x y z : tr K) : olabel_le x y = true -> olabel_le y z = true -> olabel_le x z = true.
  Proof. unfold olabel_le. rewrite !Nat.leb_le. lia. Qed.

  Definition lexle (a b : tr K) : Prop :=
    il a < il b \/ (il a = il b /\ (ol a < ol b \/ (ol a = ol b /\ ns a <= ns b))).
  Lemma tr_le_spec (a b : tr K) : tr_le a b = true <-> lexle a b.
  Proof.
    unfold tr_le, lexle.
    destruct (Nat.ltb_spec (il a) (il b)), (Nat.ltb_spec (il b) (il a)),
      (Nat.ltb_spec (ol a) (ol b)), (Nat.ltb_spec (ol b) (ol a)),
      (Nat.ltb_spec (ns a) (ns b)), (Nat.ltb_spec (ns b) (ns a)); split; intros; try lia; try discriminate; auto.
  Qed.
  Lemma tr_le_tot (x y : tr K) : tr_le x y = true \/ tr_le y x = true.
  Proof. rewrite !tr_le_spec. unfold lexle. lia. Qed.
  Lemma tr_le_trans (x y z : tr K) : tr_le x y = true -> tr_le y z = true -> tr_le x z = true.
  Proof. rewrite !tr_le_spec. unfold lexle. lia. Qed.

  Lemma SSorted_map {A} (g : A -> nat) (le : A -> A -> bool) l :
    (forall a b, le a b = true -> g a <= g b) ->
    StronglySorted (fun a b => le a b = true) l -> StronglySorted Nat.le (map g l).
  Proof.
    intros H S; induction S; simpl; constructor; auto.
    rewrite Forall_map. eapply Forall_impl; [|exact H0]. auto.
  Qed.

  (** ** Bits after [tr_sort] *)
  Lemma tr_sort_i_sound f f' : fsound f -> tr_sort_i f = Ok f' -> fsound f'.
  Proof.
    intros Hf H. pose proof (tr_sort_mperm _ _ _ _ H) as E. unfold tr_sort_i in H.
    rewrite tr_sort_eq in H. inversion H; subst; clear H.
    intros b Hb. rewrite has_set_all in Hb.
    assert (N' : num_states (set_all (with_states f (map (sort_state ilabel_le) (vstates f)))
              (ilabel_sort_properties (vprops f))) = num_states f).
    { unfold num_states; simpl. apply map_length. }
    rewrite N'. clear N'.
    assert (HS : holds I_LABEL_SORTED (num_states f)
      (mach (set_all (with_states f (map (sort_state ilabel_le) (vstates f))) (ilabel_sort_properties (vprops f))))).
    { cbn [holds mach mtrs]. intros s. rewrite trs_of_map. destruct (nth_error (vstates f) s); [|constructor].
      simpl. apply SSorted_map with (le := ilabel_le).
      - intros a c. unfold ilabel_le. apply Nat.leb_le.
      - apply isort_sorted; [apply ilabel_le_tot|apply ilabel_le_trans]. }
    assert (Hcopy : forall c, has (vprops f) c = true -> In c pm_arcsort_properties ->
      holds c (num_states f) (mach (set_all (with_states f (map (sort_state ilabel_le) (vstates f)))
        (ilabel_sort_properties (vprops f))))).
    { intros c Hc Hi. eapply mperm_holds; [exact E|exact Hi|]. apply Hf; auto. }
    assert (Hor : (has (vprops f) b = true /\ In b pm_arcsort_properties) \/ b = I_LABEL_SORTED \/
                  (has (vprops f) ACCEPTOR = true /\ b = O_LABEL_SORTED)).
    { unfold ilabel_sort_properties in Hb. destruct (has (vprops f) ACCEPTOR);
        rewrite ?has_pset, ?has_pkeep in Hb; rewrite ?orb_true_iff, ?andb_true_iff in Hb;
        rewrite ?inb_In in Hb; simpl in Hb; simpl; intuition. }
    destruct Hor as [[H1 H2]|[->|[H1 ->]]]; auto.
    pose proof (Hcopy ACCEPTOR H1 ltac:(simpl; tauto)) as HA.
    intros s. specialize (HS s). replace (map ol _) with (map il (mtrs (mach
      (set_all (with_states f (map (sort_state ilabel_le) (vstates f))) (ilabel_sort_properties (vprops f)))) s)); auto.
    apply map_ext_in. intros t Ht. eapply HA; eauto.
  Qed.
  Lemma tr_sort_o_sound f f' : fsound f -> tr_sort_o f = Ok f' -> fsound f'.
  Proof.
    intros Hf H. pose proof (tr_sort_mperm _ _ _ _ H) as E. unfold tr_sort_o in H.
    rewrite tr_sort_eq in H. inversion H; subst; clear H.
    intros b Hb. rewrite has_set_all in Hb.
    assert (N' : num_states (set_all (with_states f (map (sort_state olabel_le) (vstates f)))
              (olabel_sort_properties (vprops f))) = num_states f).
    { unfold num_states; simpl. apply map_length. }
    rewrite N'. clear N'.
    assert (HS : holds O_LABEL_SORTED (num_states f)
      (mach (set_all (with_states f (map (sort_state olabel_le) (vstates f))) (olabel_sort_properties (vprops f))))).
    { cbn [holds mach mtrs]. intros s. rewrite trs_of_map. destruct (nth_error (vstates f) s); [|constructor].
      simpl. apply SSorted_map with (le := olabel_le).
      - intros a c. unfold olabel_le. apply Nat.leb_le.
      - apply isort_sorted; [apply olabel_le_tot|apply olabel_le_trans]. }
    assert (Hcopy : forall c, has (vprops f) c = true -> In c pm_arcsort_properties ->
      holds c (num_states f) (mach (set_all (with_states f (map (sort_state olabel_le) (vstates f)))
        (olabel_sort_properties (vprops f))))).
    { intros c Hc Hi. eapply mperm_holds; [exact E|exact Hi|]. apply Hf; auto. }
    assert (Hor : (has (vprops f) b = true /\ In b pm_arcsort_properties) \/ b = O_LABEL_SORTED \/
                  (has (vprops f) ACCEPTOR = true /\ b = I_LABEL_SORTED)).
    { unfold olabel_sort_properties in Hb. destruct (has (vprops f) ACCEPTOR);
        rewrite ?has_pset, ?has_pkeep in Hb; rewrite ?orb_true_iff, ?andb_true_iff in Hb;
        rewrite ?inb_In in Hb; simpl in Hb; simpl; intuition. }
    destruct Hor as [[H1 H2]|[->|[H1 ->]]]; auto.
    pose proof (Hcopy ACCEPTOR H1 ltac:(simpl; tauto)) as HA.
    intros s. specialize (HS s). replace (map il _) with (map ol (mtrs (mach
      (set_all (with_states f (map (sort_state olabel_le) (vstates f))) (olabel_sort_properties (vprops f)))) s)); auto.
    apply map_ext_in. intros t Ht. symmetry. eapply HA; eauto.
  Qed.

  (** ** dedup *)
  Lemma tr_eqb_true (a b : tr K) : tr_eqb a b = true <-> a = b.
  Proof.
    unfold tr_eqb. rewrite !andb_true_iff, !Nat.eqb_eq, (keqb_true L).
    destruct a, b; simpl. split; [intros (((-> & ->) & ->) & ->); auto|].
    intros H; inversion H; auto.
  Qed.
  Lemma dedup_from_sub (t : tr K) l : sublist (dedup_from t l) (t :: l).
  Proof.
    revert t; induction l as [|u l IH]; intros t; simpl.
    - apply sublist_refl.
    - destruct (tr_eqb u t) eqn:E.
      + apply tr_eqb_true in E. subst u. apply sub_skip. apply IH.
      + apply sub_keep. apply IH.
  Qed.
  Lemma dedup_sub (l : list (tr K)) : sublist (dedup l) l.
  Proof. destruct l; [constructor|]. apply dedup_from_sub. Qed.
  Lemma dedup_from_In (t : tr K) l x : In x (dedup_from t l) <-> In x (t :: l).
  Proof.
    revert t; induction l as [|u l IH]; intros t; simpl; [tauto|].
    destruct (tr_eqb u t) eqn:E.
    - apply tr_eqb_true in E. subst u. rewrite IH. simpl. tauto.
    - simpl. rewrite IH. simpl. tauto.
  Qed.
  Lemma dedup_In (l : list (tr K)) x : In x (dedup l) <-> In x l.
  Proof. destruct l; [tauto|]. apply dedup_from_In. Qed.

  Definition cnt f : Prop := Forall cnt_ok (vstates f).

  Lemma sublist_count {A} (p : A -> bool) (l k : list A) : sublist l k -> count p l <= count p k.
  Proof. induction 1; rewrite ?count_cons; lia. Qed.

  Lemma cnt_unique (st : vstate K) : cnt_ok st -> cnt_ok (unique_state st).
  Proof.
    intros [H1 H2]. unfold unique_state. destruct ((vnie st =? 0) && (vnoe st =? 0)) eqn:E.
    - apply andb_true_iff in E as [E1 E2]. apply Nat.eqb_eq in E1, E2.
      pose proof (sublist_count ieps _ _ (dedup_sub (isort tr_le (vtrs st)))) as C1.
      pose proof (sublist_count oeps _ _ (dedup_sub (isort tr_le (vtrs st)))) as C2.
      rewrite (count_perm _ _ _ (isort_perm tr_le (vtrs st))) in C1.
      rewrite (count_perm _ _ _ (isort_perm tr_le (vtrs st))) in C2.
      split; simpl; lia.
    - split; reflexivity.
  Qed.
  Lemma cnt_sort le (st : vstate K) : cnt_ok st -> cnt_ok (sort_state le st).
  Proof.
    intros [H1 H2]. split; simpl; rewrite (count_perm _ _ _ (isort_perm le (vtrs st))); auto.
  Qed.

  (** ** sum *)
  Lemma equal_tr_true (a b : tr K) : equal_tr a b = true <-> il a = il b /\ ol a = ol b /\ ns a = ns b.
  Proof. unfold equal_tr. rewrite !andb_true_iff, !Nat.eqb_eq. tauto. Qed.

  Definition same_tr (a b : tr K) : Prop := il a = il b /\ ol a = ol b /\ ns a = ns b.

  Lemma dec_if_ok (b : bool) (n k : nat) : (if b then 1 else 0) + k <= n -> exists n', dec_if b n = Ok n' /\ n' + (if b then 1 else 0) = n.
  Proof.
    destruct b; simpl; intros H.
    - destruct n; [lia|]. simpl. exists n. split; auto; lia.
    - exists n. split; auto; lia.
  Qed.

  Lemma sum_from_spec (l : list (tr K)) last ni no :
    count ieps l <= ni -> count oeps l <= no ->
    exists l2 ni2 no2, sum_from last l ni no = Ok (l2, ni2, no2) /\
      ni2 + count ieps l + b2n (ieps last) = ni + count ieps l2 /\
      no2 + count oeps l + b2n (oeps last) = no + count oeps l2 /\
      exists u l', l2 = u :: l' /\ same_tr u last.
  Proof.
    revert last ni no; induction l as [|t l IH]; intros last ni no Hi Ho; simpl.
    - exists [last], ni, no. split; auto. rewrite !count_cons, !count_nil. unfold b2n.
      repeat split; try (destruct (ieps last); lia); try (destruct (oeps last); lia).
      exists last, []. unfold same_tr; auto.
    - rewrite count_cons in Hi, Ho. destruct (equal_tr t last) eqn:E.
      + apply equal_tr_true in E as (E1 & E2 & E3).
        destruct (dec_if_ok (il t =? 0) ni (count ieps l)) as (ni1 & D1 & D1').
        { unfold ieps in Hi at 1. lia. }
        destruct (dec_if_ok (ol t =? 0) no (count oeps l)) as (no1 & D2 & D2').
        { unfold oeps in Ho at 1. lia. }
        rewrite D1, D2. simpl.
        destruct (IH (Tr (il last) (ol last) (kplus (wgt last) (wgt t)) (ns last)) ni1 no1)
          as (l2 & ni2 & no2 & I1 & I2 & I3 & u & l' & I4 & I5).
        { unfold ieps in Hi at 1. lia. }
        { unfold oeps in Ho at 1. lia. }
        exists l2, ni2, no2. split; auto. rewrite !count_cons.
        unfold ieps at 2 in I2. unfold oeps at 2 in I3. simpl in I2, I3.
        unfold ieps at 1 3; unfold oeps at 1 3.
        split; [lia|]. split; [lia|]. exists u, l'. split; auto.
      + destruct (IH t ni no) as (l2 & ni2 & no2 & I1 & I2 & I3 & u & l' & I4 & I5); try lia.
        rewrite I1. simpl. exists (last :: l2), ni2, no2. split; auto.
        rewrite !count_cons. unfold b2n in *.
        split; [lia|]. split; [lia|]. exists last, l2. unfold same_tr; auto.
  Qed.

  Lemma sum_state_ok (st : vstate K) : cnt_ok st ->
    exists st', sum_state st = Ok st' /\ cnt_ok st' /\ vfin st' = vfin st.
  Proof.
    intros [H1 H2]. unfold sum_state.
    pose proof (count_perm ieps _ _ (isort_perm tr_le (vtrs st))) as P1.
    pose proof (count_perm oeps _ _ (isort_perm tr_le (vtrs st))) as P2.
    destruct (isort tr_le (vtrs st)) as [|t l]; simpl.
    - eexists. split; [reflexivity|]. split; auto. rewrite count_nil in *.
      split; simpl; rewrite count_nil; lia.
    - rewrite count_cons in P1, P2.
      destruct (sum_from_spec l t (vnie st) (vnoe st)) as (l2 & ni2 & no2 & I1 & I2 & I3 & _); try lia.
      rewrite I1. simpl. eexists. split; [reflexivity|]. split; auto.
      unfold b2n in *. split; simpl; lia.
  Qed.
  Lemma cnt_sum (st st' : vstate K) : cnt_ok st -> sum_state st = Ok st' -> cnt_ok st'.
  Proof. intros H E. destruct (sum_state_ok st H) as (s' & E' & C & _). congruence. Qed.

  (** Shape of the merged list. *)
  Lemma sum_from_shape (l : list (tr K)) last ni no l2 ni2 no2 :
    sum_from last l ni no = Ok (l2, ni2, no2) ->
    exists l3, sublist l3 (last :: l) /\ Forall2 same_tr l2 l3.
  Proof.
    revert last ni no l2 ni2 no2; induction l as [|t l IH]; intros last ni no l2 ni2 no2; simpl.
    - intros H; inversion H. exists [last]. split; [apply sublist_refl|].
      repeat constructor.
    - destruct (equal_tr t last) eqn:E.
      + destruct (dec_if (il t =? 0) ni) as [ni1| |]; simpl; try discriminate.
        destruct (dec_if (ol t =? 0) no) as [no1| |]; simpl; try discriminate.
        intros H. apply IH in H as (l3 & H1 & H2).
        apply equal_tr_true in E as (E1 & E2 & E3).
        inversion H1; subst.
        * exists l3. split; auto. apply sub_skip, sub_skip. auto.
        * inversion H2; subst. exists (t :: l0). split.
          -- apply sub_skip, sub_keep. auto.
          -- constructor; auto. unfold same_tr in *; simpl in *. intuition congruence.
      + destruct (sum_from t l ni no) as [[[l4 n4] o4]| |] eqn:Es; simpl; try discriminate.
        intros H; inversion H; subst. apply IH in Es as (l3 & H1 & H2).
        exists (last :: l3). split; [apply sub_keep; auto|]. constructor; auto. unfold same_tr; auto.
  Qed.

  Lemma tr_sum_submach f f' : tr_sum f = Ok f' ->
    exists m1, mperm (mach f) m1 /\ submach (uforget (mach f')) (uforget m1) (fun q => q) /\
      mstart m1 = vstart f' /\ (forall s, fin_of f' s = fin_of f s) /\ num_states f' = num_states f /\
      vprops f' = vprops (set_all f' (sum_props (vprops f) (num_states f))).
  Proof.
    rewrite tr_sum_eq. destruct (map_res sum_state (vstates f)) as [l| |] eqn:E; simpl; try discriminate.
    intros H; inversion H; subst; clear H. apply map_res_ok in E.
    exists (Mach (vstart f) (fun s => isort tr_le (trs_of f s)) (fin_of f)).
    split; [|split; [|split; [|split; [|split]]]].
    - split; [reflexivity|]. split; intros s; simpl; auto. symmetry. apply isort_perm.
    - split.
      + intros s. cbn [uforget mtrs mach].
        pose proof (Forall2_nth _ _ _ s E) as F.
        unfold trs_of. destruct (nth_error (vstates f) s) as [st|] eqn:E1;
          change (vstates (set_all (with_states f l) (sum_props (vprops f) (num_states f)))) with l;
          destruct (nth_error l s) as [st'|] eqn:E2; try tauto.
        * unfold sum_state in F. destruct (sum_trs (isort tr_le (vtrs st)) (vnie st) (vnoe st))
            as [[[l2 n2] o2]| |] eqn:Es; simpl in F; inversion F; subst; clear F. simpl.
          destruct (isort tr_le (vtrs st)) as [|t l0] eqn:Ei; simpl in Es.
          -- inversion Es; subst. exists []. split; [apply sublist_refl|constructor].
          -- apply sum_from_shape in Es as (l3 & H1 & H2).
             exists (map (fun t => Tr (il t) (ol t) tt (ns t)) l3). split.
             ++ apply (sublist_map (fun t : tr K => Tr (il t) (ol t) tt (ns t))) in H1. exact H1.
             ++ clear -H2. induction H2; simpl; constructor; auto. simpl. destruct H as (-> & -> & ->). auto.
        * exists []. split; [apply sublist_refl|constructor].
      + intros s w. cbn [uforget mfin mach]. unfold fin_of at 1.
        change (vstates (set_all (with_states f l) (sum_props (vprops f) (num_states f)))) with l.
        pose proof (Forall2_nth _ _ _ s E) as F. unfold fin_of.
        destruct (nth_error (vstates f) s) as [st|] eqn:E1, (nth_error l s) as [st'|] eqn:E2; try tauto.
        unfold sum_state in F. destruct (sum_trs (isort tr_le (vtrs st)) (vnie st) (vnoe st))
            as [[[l2 n2] o2]| |]; simpl in F; inversion F; subst. auto.
    - reflexivity.
    - intros s. unfold fin_of.
      change (vstates (set_all (with_states f l) (sum_props (vprops f) (num_states f)))) with l.
      pose proof (Forall2_nth _ _ _ s E) as F.
      destruct (nth_error (vstates f) s) as [st|] eqn:E1, (nth_error l s) as [st'|] eqn:E2; try tauto.
      unfold sum_state in F. destruct (sum_trs (isort tr_le (vtrs st)) (vnie st) (vnoe st))
            as [[[l2 n2] o2]| |]; simpl in F; inversion F; subst. auto.
    - unfold num_states. simpl. symmetry. eapply Forall2_len; eauto.
    - unfold set_all, set_properties_with_mask. simpl.
      apply N.bits_inj. intros i. rewrite !N.lor_spec, !N.land_spec, !N.lor_spec, !N.land_spec.
      unfold pnot. rewrite N.ldiff_spec. unfold all_properties, trinary_properties, binary_properties.
      rewrite N.lor_0_l. destruct (N.testbit (mask all_bits) i), (N.testbit (vprops f) i),
        (N.testbit (sum_props (vprops f) (num_states f)) i); reflexivity.
  Qed.

  Lemma null_sound f : num_states f = 0 -> sound (mask pm_null_properties) 0 (mach f).
  Proof.
    intros H0 b Hb. rewrite has_mask in Hb. apply inb_In in Hb.
    assert (T : forall s, trs_of f s = []) by (intros s; apply trs_of_oob; lia).
    assert (F : forall s, fin_of f s = None) by (intros s; apply fin_of_oob; lia).
    assert (C : forall s, ~ on_cycle (mach f) s).
    { intros s (t & Ht & _). simpl in Ht. rewrite T in Ht. exact Ht. }
    simpl in Hb. repeat (destruct Hb as [<-|Hb]); try tauto; simpl; intros; rewrite ?T in *;
      try constructor; try lia; simpl in *; try tauto; auto.
    - intros s t. rewrite T. simpl. tauto.
    - intros s w. rewrite F. discriminate.
  Qed.

  Lemma tr_sum_sound f f' : fsound f -> tr_sum f = Ok f' -> fsound f'.
  Proof.
    intros Hf H. destruct (tr_sum_submach _ _ H) as (m1 & E1 & E2 & E3 & E4 & E5 & E6).
    intros b Hb. rewrite E6, has_set_all in Hb. rewrite E5. unfold sum_props in Hb.
    assert (Hor : (has (pkeep (pkeep (pkeep (vprops f) pm_arcsort_properties) pm_delete_arcs_properties)
        pm_weight_invariant_properties) b = true) \/
       (num_states f = 0 /\ has (mask pm_null_properties) b = true)).
    { destruct (Nat.eqb_spec (num_states f) 0); auto. rewrite has_pset in Hb.
      apply orb_true_iff in Hb as [Hb|Hb]; auto. right. rewrite has_mask. auto. }
    destruct Hor as [Hk|[H0 Hk]].
    - rewrite !has_pkeep in Hk. rewrite !andb_true_iff, !inb_In in Hk.
      destruct Hk as (((Hk & K1) & K2) & K3).
      apply uforget_holds; auto. eapply submach_delete_arcs; [exact E2|simpl; auto|exact K2|].
      apply uforget_holds; auto. eapply mperm_holds; [exact E1|exact K1|]. apply Hf; auto.
    - rewrite H0. rewrite H0 in E5. apply null_sound; auto.
  Qed.

  Lemma tr_unique_sound f f' : fsound f -> tr_unique f = Ok f' -> fsound f'.
  Proof.
    intros Hf H. rewrite tr_unique_eq in H. inversion H; subst f'; clear H.
    set (f' := set_all (with_states f (map unique_state (vstates f))) (unique_props (vprops f) (num_states f))).
    assert (E5 : num_states f' = num_states f) by (unfold num_states; simpl; apply map_length).
    intros b Hb. unfold f' in Hb at 1. rewrite has_set_all in Hb. rewrite E5. unfold unique_props in Hb.
    assert (Hor : (has (pkeep (pkeep (vprops f) pm_arcsort_properties) pm_delete_arcs_properties) b = true) \/
       (num_states f = 0 /\ has (mask pm_null_properties) b = true)).
    { destruct (Nat.eqb_spec (num_states f) 0); auto. rewrite has_pset in Hb.
      apply orb_true_iff in Hb as [Hb|Hb]; auto. right. rewrite has_mask. auto. }
    destruct Hor as [Hk|[H0 Hk]].
    - rewrite !has_pkeep in Hk. rewrite !andb_true_iff, !inb_In in Hk.
      destruct Hk as ((Hk & K1) & K2).
      set (m1 := Mach (vstart f) (fun s => isort tr_le (trs_of f s)) (fin_of f)).
      apply (submach_delete_arcs (mach f') m1); auto.
      + split.
        * intros s. exists (mtrs (mach f') s). split.
          -- unfold f'. cbn [mach mtrs m1]. rewrite trs_of_map. unfold trs_of.
             destruct (nth_error (vstates f) s) as [st|]; [|constructor].
             unfold unique_state. destruct (_ && _); simpl; apply dedup_sub.
          -- induction (mtrs (mach f') s); constructor; auto.
        * intros s w. unfold f'. cbn [mach mfin m1]. rewrite fin_of_map. unfold fin_of.
          destruct (nth_error (vstates f) s) as [st|]; auto.
          unfold unique_state. destruct (_ && _); simpl; auto.
      + eapply mperm_holds; [|exact K1|apply Hf; exact Hk].
        split; [reflexivity|]. split; intros s; simpl; auto. symmetry. apply isort_perm.
    - rewrite H0. rewrite H0 in E5. apply null_sound; auto.
  Qed.
End P.
