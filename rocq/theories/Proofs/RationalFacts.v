(** Effects of the rational operations on the content of the machine. *)
From Coq Require Import List Arith NArith ZArith Bool Lia Permutation.
From Verif Require Import Base.Util Base.Semiring Base.Machine Base.PropSpec Base.Convolution
  Model.Props Model.VectorFst Model.TrOps Model.AlgoProps Model.History Model.Dfs Model.Visitors Model.ComputeProps Model.Rational
  Proofs.PropsFacts Proofs.VectorFacts Proofs.DelStates Proofs.VectorProps Proofs.TrOpsFacts Proofs.HistoryFacts
  Proofs.OpFacts Proofs.ConnectFacts Proofs.ComputeFacts.
Import ListNotations.

Lemma rfold_cons {A B} (g : B -> A -> res B) a l b : rfold g (a :: l) b = (x <-- g b a ;; rfold g l x).
Proof.
  unfold rfold. simpl. destruct (g b a); auto.
  - simpl. induction l; auto.
  - simpl. induction l; auto.
Qed.
Lemma rfold_app {A B} (g : B -> A -> res B) l m b : rfold g (l ++ m) b = (x <-- rfold g l b ;; rfold g m x).
Proof.
  revert b; induction l as [|a l IH]; intros b; [reflexivity|]. cbn [app]. rewrite !rfold_cons.
  destruct (g b a); cbn [rbind]; auto.
Qed.
Lemma unwrap_ok {A} (r : res A) x : r = Ok x -> unwrap r = Ok x.
Proof. intros ->. reflexivity. Qed.

Section E.
  Context {K : SR}.
  Implicit Types (f g h : vfst K).

  Lemma add_trs_eff {A} (mk : A -> tr K) (l : list A) s : forall f, s < num_states f ->
    exists g, rfold (fun g a => unwrap (add_tr g s (mk a))) l f = Ok g /\ eff f g /\
      (forall q, trs_of g q = if q =? s then trs_of f s ++ map mk l else trs_of f q) /\ (forall q, fin_of g q = fin_of f q).
  Proof.
    induction l as [|a l IH]; intros f Hs.
    - exists f. split; [reflexivity|]. split; [apply eff_refl|]. split; auto. intros q. simpl. rewrite app_nil_r, if_same. auto.
    - rewrite rfold_cons. destruct (add_tr_eff f s (mk a) Hs) as (g & E & F & T & N). rewrite (unwrap_ok _ _ E). cbn [rbind].
      destruct (IH g) as (g2 & E2 & F2 & T2 & N2); [destruct F as (-> & _); auto|].
      exists g2. split; auto. split; [eapply eff_trans; eauto|]. split; [|intros q; rewrite N2, N; auto].
      intros q. rewrite T2, !T, Nat.eqb_refl. destruct (Nat.eqb_spec q s); auto. simpl. rewrite <- app_assoc. auto.
  Qed.

  Lemma add_state_eff f : snd (add_state f) = num_states f /\ num_states (fst (add_state f)) = S (num_states f) /\
    vstart (fst (add_state f)) = vstart f /\ visymt (fst (add_state f)) = visymt f /\ vosymt (fst (add_state f)) = vosymt f /\
    (cnt f -> cnt (fst (add_state f))) /\
    (forall q, trs_of (fst (add_state f)) q = trs_of f q) /\ (forall q, fin_of (fst (add_state f)) q = fin_of f q).
  Proof.
    destruct (add_states_eff f 1) as (A1 & A2 & A3 & A4 & A5 & A6 & A7). rewrite add_state_eq.
    repeat split; auto. rewrite A1. lia.
  Qed.

  (** Growing machines: state count may increase. *)
  Definition grow f g : Prop := vstart g = vstart f /\ visymt g = visymt f /\ vosymt g = vosymt f /\ (cnt f -> cnt g).
  Lemma eff_grow f g : eff f g -> grow f g.
  Proof. intros (_ & A & B & C & D). repeat split; auto. Qed.
  Lemma grow_trans f g h : grow f g -> grow g h -> grow f h.
  Proof. intros (A & B & C & D) (A' & B' & C' & D'). repeat split; try congruence. auto. Qed.
  Lemma grow_refl f : grow f f. Proof. repeat split; auto. Qed.
  Lemma eff_n f g : eff f g -> num_states g = num_states f.
  Proof. intros H; apply H. Qed.

  Definition shifted (n1 : nat) (t : tr K) : tr K := Tr (il t) (ol t) (wgt t) (ns t + n1).

  Lemma copy_state_eff n1 (f2 : vfst K) f s2 : exists g, copy_state n1 f2 f s2 = Ok g /\ num_states g = S (num_states f) /\ grow f g /\
    (forall q, trs_of g q = if q =? num_states f then map (shifted n1) (trs_of f2 s2) else trs_of f q) /\
    (forall q, fin_of g q = if q =? num_states f then fin_of f2 s2 else fin_of f q).
  Proof.
    unfold copy_state. destruct (add_state_eff f) as (E1 & E2 & E3 & E4 & E5 & E6 & E7 & E8).
    destruct (add_state f) as [g s1] eqn:EA. simpl in *. subst s1.
    assert (T0 : trs_of f (num_states f) = []) by (apply trs_of_oob; auto).
    assert (N0 : fin_of f (num_states f) = None) by (apply fin_of_beyond; auto).
    assert (X : exists g1, match fin_of f2 s2 with Some w => unwrap (set_final g (num_states f) w) | None => Ok g end = Ok g1 /\ eff g g1 /\
       (forall q, trs_of g1 q = trs_of g q) /\ (forall q, fin_of g1 q = if q =? num_states f then fin_of f2 s2 else fin_of f q)).
    { destruct (fin_of f2 s2) as [w|].
      - destruct (set_final_eff g (num_states f) w) as (g1 & E & F & T & N); [lia|]. exists g1. rewrite (unwrap_ok _ _ E).
        split; auto. split; auto. split; auto. intros q. rewrite N, E8. auto.
      - exists g. split; auto. split; [apply eff_refl|]. split; auto. intros q. rewrite E8. destruct (Nat.eqb_spec q (num_states f)); subst; auto. }
    destruct X as (g1 & X1 & X2 & X3 & X4). rewrite X1. cbn [rbind].
    destruct (add_trs_eff (shifted n1) (trs_of f2 s2) (num_states f) g1) as (g2 & Y1 & Y2 & Y3 & Y4); [rewrite (eff_n _ _ X2); lia|].
    exists g2. split; [exact Y1|]. split; [rewrite (eff_n _ _ Y2), (eff_n _ _ X2); auto|]. split; [|split].
    - apply (grow_trans f g g2); [unfold grow; auto|]. apply (grow_trans g g1 g2); apply eff_grow; auto.
    - intros q. rewrite Y3, !X3, !E7, T0. auto.
    - intros q. rewrite Y4. auto.
  Qed.

  Lemma append_copy_eff (f1 f2 : vfst K) : exists g, append_copy f1 f2 = Ok g /\
    num_states g = num_states f1 + num_states f2 /\ grow f1 g /\
    (forall q, trs_of g q = if q <? num_states f1 then trs_of f1 q else map (shifted (num_states f1)) (trs_of f2 (q - num_states f1))) /\
    (forall q, fin_of g q = if q <? num_states f1 then fin_of f1 q else fin_of f2 (q - num_states f1)).
  Proof.
    set (n1 := num_states f1). unfold append_copy. fold n1.
    assert (H : forall k i f, num_states f = n1 + i ->
      exists g, rfold (copy_state n1 f2) (seq i k) f = Ok g /\ num_states g = n1 + i + k /\ grow f g /\
       (forall q, trs_of g q = if (q <? n1 + i) || (n1 + i + k <=? q) then trs_of f q else map (shifted n1) (trs_of f2 (q - n1))) /\
       (forall q, fin_of g q = if (q <? n1 + i) || (n1 + i + k <=? q) then fin_of f q else fin_of f2 (q - n1))).
    { induction k as [|k IH]; intros i f Hn.
      - exists f. split; [reflexivity|]. split; [lia|]. split; [apply grow_refl|].
        assert (B : forall q, (q <? n1 + i) || (n1 + i + 0 <=? q) = true).
        { intros q. destruct (Nat.ltb_spec q (n1 + i)); auto. simpl. apply Nat.leb_le. lia. }
        split; intros q; rewrite B; auto.
      - cbn [seq]. rewrite rfold_cons. destruct (copy_state_eff n1 f2 f i) as (g & E & N & G & T & F). rewrite E. cbn [rbind].
        destruct (IH (S i) g) as (g2 & E2 & N2 & G2 & T2 & F2); [lia|].
        exists g2. split; auto. split; [lia|]. split; [eapply grow_trans; eauto|].
        split; intros q; rewrite ?T2, ?F2, ?T, ?F, Hn; clear - K;
        (destruct (Nat.ltb_spec q (n1 + S i)), (Nat.leb_spec (n1 + S i + k) q), (Nat.ltb_spec q (n1 + i)), (Nat.leb_spec (n1 + i + S k) q),
          (Nat.eqb_spec q (n1 + i)); simpl; auto; try lia; subst; replace (n1 + i - n1) with i by lia; auto). }
    destruct (H (num_states f2) 0 f1) as (g & E & N & G & T & F); [unfold n1; lia|].
    exists g. split; auto. split; [lia|]. split; auto. rewrite Nat.add_0_r in T, F.
    split; intros q; rewrite ?T, ?F; (destruct (Nat.ltb_spec q n1); simpl; auto; destruct (Nat.leb_spec (n1 + num_states f2) q); auto).
    - rewrite !trs_of_oob by (unfold n1 in *; lia). auto.
    - rewrite !fin_of_beyond by (unfold n1 in *; lia). auto.
  Qed.

  (** The copied part behaves like the second machine. *)
  Lemma copy_wt (L : lsr_laws K) (m : machine K) (f2 : vfst K) n1 : closed f2 ->
    (forall q, q < num_states f2 -> mtrs m (q + n1) = map (shifted n1) (trs_of f2 q)) ->
    (forall q, q < num_states f2 -> mfin m (q + n1) = fin_of f2 q) ->
    forall k s x y, s < num_states f2 -> wt m k (s + n1) x y = wt (mach f2) k s x y.
  Proof.
    intros [C1 C2] Ht Hf k s x y Hs.
    apply (wt_ren L (mach f2) m (fun q => q + n1) (fun q => q < num_states f2)); auto.
    - intros q t Hq Hin. exact (C1 q t Hin).
    - intros q Hq. rewrite Ht by auto. apply Permutation_refl.
    - intros q Hq. rewrite Hf; auto.
  Qed.

  (** ** Concatenation *)
  Lemma concat_one_all start2 n1 : forall k i f, i + k <= num_states f ->
    exists g, rfold (concat_one start2 n1) (seq i k) f = Ok g /\ eff f g /\
      (forall q, trs_of g q = if (i <=? q) && (q <? i + k)
           then trs_of f q ++ match fin_of f q, start2 with Some w, Some s2 => [Tr 0 0 w (s2 + n1)] | _, _ => [] end else trs_of f q) /\
      (forall q, fin_of g q = if (i <=? q) && (q <? i + k) then None else fin_of f q).
  Proof.
    induction k as [|k IH]; intros i f Hk.
    - exists f. split; [reflexivity|]. split; [apply eff_refl|].
      assert (B : forall q, (i <=? q) && (q <? i + 0) = false).
      { intros q. destruct (Nat.leb_spec i q); auto. simpl. apply Nat.ltb_ge. lia. }
      split; intros q; rewrite B; auto.
    - cbn [seq]. rewrite rfold_cons.
      assert (X : exists g, concat_one start2 n1 f i = Ok g /\ eff f g /\
        (forall q, trs_of g q = if q =? i then trs_of f q ++ match fin_of f q, start2 with Some w, Some s2 => [Tr 0 0 w (s2 + n1)] | _, _ => [] end else trs_of f q) /\
        (forall q, fin_of g q = if q =? i then None else fin_of f q)).
      { unfold concat_one. destruct (fin_of f i) as [w|] eqn:Ef.
        - assert (Y : exists g, match start2 with Some s2 => unwrap (add_tr f i (Tr 0 0 w (s2 + n1))) | None => Ok f end = Ok g /\ eff f g /\
            (forall q, trs_of g q = if q =? i then trs_of f q ++ match start2 with Some s2 => [Tr 0 0 w (s2 + n1)] | _ => [] end else trs_of f q) /\
            (forall q, fin_of g q = fin_of f q)).
          { destruct start2 as [s2|].
            - destruct (add_tr_eff f i (Tr 0 0 w (s2 + n1))) as (g & E & F & T & N); [lia|]. exists g. rewrite (unwrap_ok _ _ E).
              split; auto. split; auto. split; auto. intros q. rewrite T. destruct (Nat.eqb_spec q i); subst; auto.
            - exists f. split; auto. split; [apply eff_refl|]. split; auto. intros q. rewrite app_nil_r. destruct (q =? i); auto. }
          destruct Y as (g & E & F & T & N). rewrite E. cbn [rbind].
          destruct (del_final_eff g i) as (g2 & E2 & F2 & T2 & N2); [rewrite (eff_n _ _ F); lia|].
          exists g2. rewrite (unwrap_ok _ _ E2). split; auto. split; [eapply eff_trans; eauto|].
          split; intros q; rewrite ?T2, ?N2, ?T, ?N; destruct (Nat.eqb_spec q i); subst; auto. rewrite Ef. auto.
        - exists f. split; auto. split; [apply eff_refl|]. split; intros q; destruct (Nat.eqb_spec q i); subst; auto.
          rewrite Ef, app_nil_r. auto. }
      destruct X as (g & E & F & T & N). rewrite E. cbn [rbind].
      destruct (IH (S i) g) as (g2 & E2 & F2 & T2 & N2); [rewrite (eff_n _ _ F); lia|].
      exists g2. split; auto. split; [eapply eff_trans; eauto|].
      split; intros q; rewrite ?T2, ?N2, ?T, ?N;
      (destruct (Nat.leb_spec (S i) q), (Nat.ltb_spec q (S i + k)), (Nat.leb_spec i q), (Nat.ltb_spec q (i + S k)), (Nat.eqb_spec q i); simpl; auto; lia).
  Qed.

  Lemma concat_eff (f1 f2 : vfst K) s1 : vstart f1 = Some s1 ->
    exists g, concat f1 f2 = Ok g /\ num_states g = num_states f1 + num_states f2 /\ grow f1 g /\
      (forall q, trs_of g q = if q <? num_states f1
         then trs_of f1 q ++ match fin_of f1 q, vstart f2 with Some w, Some s2 => [Tr 0 0 w (s2 + num_states f1)] | _, _ => [] end
         else map (shifted (num_states f1)) (trs_of f2 (q - num_states f1))) /\
      (forall q, fin_of g q = if q <? num_states f1 then None else fin_of f2 (q - num_states f1)).
  Proof.
    intros Hs. unfold concat. rewrite Hs. set (n1 := num_states f1).
    destruct (append_copy_eff f1 f2) as (g & E & N & G & T & F). rewrite E. cbn [rbind]. fold n1 in N, T, F.
    destruct (concat_one_all (vstart f2) n1 n1 0 g) as (g2 & E2 & F2 & T2 & N2); [lia|].
    rewrite E2. cbn [rbind].
    assert (X : exists g3, match vstart f2 with
        | Some _ => Ok (set_properties_with_mask g2 (concat_properties (vprops f1) (vprops f2) false) all_properties)
        | None => Ok g2 end = Ok g3 /\ eff g2 g3 /\ (forall q, trs_of g3 q = trs_of g2 q) /\ (forall q, fin_of g3 q = fin_of g2 q)).
    { destruct (vstart f2).
      - eexists. split; [reflexivity|]. apply set_props_eff.
      - exists g2. split; auto. split; [apply eff_refl|]. auto. }
    destruct X as (g3 & E3 & F3 & T3 & N3). exists g3. split; [exact E3|].
    split; [rewrite (eff_n _ _ F3), (eff_n _ _ F2); auto|].
    split; [apply (grow_trans f1 g g3); [exact G|]; apply (grow_trans g g2 g3); apply eff_grow; auto|].
    split; intros q; rewrite ?T3, ?N3, ?T2, ?N2, ?T, ?F; simpl; destruct (Nat.ltb_spec q n1); auto.
  Qed.

  (** ** Closure *)
  Lemma final_states_spec f s : In s (final_states f) <-> exists w, fin_of f s = Some w.
  Proof.
    unfold final_states. rewrite filter_In, in_seq. split.
    - intros [_ H]. unfold is_some in H. destruct (fin_of f s); [eauto|discriminate].
    - intros [w H]. rewrite H. split; auto. pose proof (fin_lt _ _ _ H). lia.
  Qed.
  Lemma final_states_nodup f : NoDup (final_states f).
  Proof. apply NoDup_filter. apply seq_NoDup. Qed.

  Lemma closure_trs_eff s0 (l : list (nat * K)) : forall f, NoDup (map fst l) -> (forall p, In p l -> fst p < num_states f) ->
    exists g, rfold (fun g p => unwrap (add_tr g (fst p) (Tr 0 0 (snd p) s0))) l f = Ok g /\ eff f g /\
      (forall q, ~ In q (map fst l) -> trs_of g q = trs_of f q) /\
      (forall q w, In (q, w) l -> trs_of g q = trs_of f q ++ [Tr 0 0 w s0]) /\ (forall q, fin_of g q = fin_of f q).
  Proof.
    induction l as [|[s w] l IH]; intros f Hd Hl.
    - exists f. split; [reflexivity|]. split; [apply eff_refl|]. split; auto. split; auto. intros q w [].
    - rewrite rfold_cons. cbn [fst snd]. inversion Hd; subst.
      destruct (add_tr_eff f s (Tr 0 0 w s0)) as (g & E & F & T & N); [apply (Hl (s, w)); left; auto|].
      rewrite (unwrap_ok _ _ E). cbn [rbind].
      destruct (IH g) as (g2 & E2 & F2 & T2 & T3 & N2); auto; [intros p Hp; rewrite (eff_n _ _ F); apply Hl; right; auto|].
      exists g2. split; auto. split; [eapply eff_trans; eauto|]. split; [|split; [|intros q; rewrite N2, N; auto]].
      + intros q Hq. simpl in Hq. rewrite T2 by tauto. rewrite T. destruct (Nat.eqb_spec q s); auto. subst. tauto.
      + intros q w' [X|X].
        * inversion X; subst. rewrite T2 by auto. rewrite T, Nat.eqb_refl. auto.
        * rewrite (T3 _ _ X), T. destruct (Nat.eqb_spec q s); auto. subst. exfalso. apply H1.
          apply in_map_iff. exists (s, w'). auto.
  Qed.

  Lemma closure_plus_eff f s0 : vstart f = Some s0 ->
    exists g, rfold (fun g p => unwrap (add_tr g (fst p) (Tr 0 0 (snd p) s0)))
                (flat_map (fun s => match fin_of f s with Some w => [(s, w)] | None => [] end) (final_states f)) f = Ok g /\
      eff f g /\ (forall q, trs_of g q = trs_of f q ++ match fin_of f q with Some w => [Tr 0 0 w s0] | None => [] end) /\
      (forall q, fin_of g q = fin_of f q).
  Proof.
    intros Hs. set (l := flat_map _ _).
    assert (H1 : forall q w, In (q, w) l <-> fin_of f q = Some w).
    { intros q w. unfold l. rewrite in_flat_map. split.
      - intros (s & _ & H). destruct (fin_of f s) eqn:E; [|destruct H]. destruct H as [H|[]]. inversion H; subst. auto.
      - intros H. exists q. split; [apply final_states_spec; eauto|]. rewrite H. left. auto. }
    assert (H2 : map fst l = final_states f).
    { unfold l. clear H1 l. assert (X : forall s, In s (final_states f) -> exists w, fin_of f s = Some w) by (intros; apply final_states_spec; auto).
      induction (final_states f) as [|s r IH]; simpl; auto. destruct (X s) as [w Hw]; [left; auto|]. rewrite Hw. simpl. f_equal.
      apply IH. intros; apply X; right; auto. }
    destruct (closure_trs_eff s0 l f) as (g & E & F & T & T' & N).
    { rewrite H2. apply final_states_nodup. }
    { intros [q w] Hp. apply H1 in Hp. simpl. eapply fin_lt; eauto. }
    exists g. split; auto. split; auto. split; auto. intros q. destruct (fin_of f q) as [w|] eqn:Eq.
    - apply T'. apply H1. auto.
    - rewrite app_nil_r. apply T. rewrite H2. intros H. apply final_states_spec in H as [w H]. congruence.
  Qed.
End E.
