(** The depth-first visit of random generation lists the paths of the expansion in order. *)
From Coq Require Import List Arith NArith Lia Bool.
From Verif Require Import Base.Util Base.Semiring Base.Machine Model.Props Model.VectorFst Model.Dfs Model.RandGen
  Proofs.VectorFacts Proofs.VectorProps Proofs.DfsFacts Proofs.RandTree Proofs.RandChain.
Import ListNotations.

Section V.
  Context {K : SR}.
  Variable h : vfst K.
  Let n := num_states h.
  Notation trs := (trs_of h).
  Notation isf := (isf h).
  Hypothesis C : forall s t, In t (trs s) -> ns t < n.
  Hypothesis Hn : 0 < n.
  Hypothesis root_reg : isf 0 = false.
  Hypothesis fin_leaf : forall z, isf z = true -> trs z = [].
  Hypothesis up : forall s t, In t (trs s) -> isf (ns t) = false -> s < ns t.
  Hypothesis uniqS : forall s t s' t', In t (trs s) -> In t' (trs s') -> ns t = ns t' -> isf (ns t) = false -> s = s'.
  Hypothesis uniqP : forall s pre t r t', trs s = pre ++ t :: r -> isf (ns t) = false -> In t' r -> ns t' <> ns t.
  Hypothesis cov : forall j, 0 < j < n -> exists s t, In t (trs s) /\ ns t = j.

  Lemma gl_more k : forall s, n <= s + k -> gl h k s = gl h (S k) s.
  Proof.
    induction k as [|k IH]; intros s Hs.
    - cbn. rewrite trs_of_oob by (fold n; lia). reflexivity.
    - cbn [gl]. rewrite !flat_map_concat_map. f_equal. apply map_ext_in. intros t Ht.
      destruct (isf (ns t)) eqn:E; auto. pose proof (up _ _ Ht E). rewrite (IH (ns t)) by lia. reflexivity.
  Qed.
  Definition glt (ts : list (tr K)) : list (list (tr K)) := flat_map (fun t => if isf (ns t) then [[]] else map (cons t) (gl h n (ns t))) ts.
  Lemma gle s : gl h n s = glt (trs s).
  Proof. rewrite gl_more by lia. reflexivity. Qed.

  (** ** What is still to be listed *)
  Fixpoint lowp (k : list (nat * list (tr K))) : list (tr K) :=
    match k with
    | (_, t :: _) :: k => lowp k ++ (if isf (ns t) then [] else [t])
    | _ => []
    end.
  Fixpoint pendlow (k : list (nat * list (tr K))) : list (list (tr K)) :=
    match k with
    | (_, _ :: r) :: k => map (app (lowp k)) (glt r) ++ pendlow k
    | _ => []
    end.
  Definition pend (k : list (nat * list (tr K))) : list (list (tr K)) :=
    match k with
    | [] => []
    | (_, r) :: k => map (app (lowp k)) (glt r) ++ pendlow k
    end.
  Definition allw (c : list color) (r : list (tr K)) : Prop := forall t, In t r -> isf (ns t) = false -> nth_error c (ns t) = Some White.
  Fixpoint Ulow (c : list color) (k : list (nat * list (tr K))) : Prop :=
    match k with
    | (_, _ :: r) :: k => allw c r /\ Ulow c k
    | _ => True
    end.
  Definition U (c : list color) (k : list (nat * list (tr K))) : Prop :=
    match k with [] => True | (_, r) :: k => allw c r /\ Ulow c k end.

  Record I (root : nat) (b : bool) (c : list color) (k : list (nat * list (tr K))) (v : @rvisitor K) : Prop := {
    i_b : b = true;
    i_path : k <> [] -> rv_path v = lowp (tl k);
    i_out : exists E, outs E (rv_ofst v) /\ E ++ pend k = gl h n 0;
    i_syms : visymt (rv_ofst v) = visymt h /\ vosymt (rv_ofst v) = vosymt h;
    i_sound : lsr_laws K -> fsound (rv_ofst v);
    i_U : U c k;
    i_V : forall s, nth_error c s = Some White -> allw c (trs s)
  }.

  Variable L : lsr_laws K.

  Lemma isfu s : s < n -> is_final_unwrap h s = Ok (isf s).
  Proof.
    intros H. unfold is_final_unwrap, final_weight, get_state, RandTree.isf, fin_of. destruct (nth_error_ex (vstates h) s H) as (x & ->).
    cbn. destruct (vfin x); auto.
  Qed.

  Lemma white_upd c s col j : nth_error (upd c s col) j = Some White -> col <> White -> nth_error c j = Some White.
  Proof.
    intros H N. rewrite nth_error_upd in H. destruct (_ && _); congruence.
  Qed.
  Lemma allw_upd c s col r : allw c r -> (forall t, In t r -> isf (ns t) = false -> ns t <> s) -> allw (upd c s col) r.
  Proof. intros A B t Ht F. rewrite nth_error_upd_ne; [apply A; auto|]. intros E. apply (B t Ht F). auto. Qed.
  Lemma Ulow_upd c s col : nth_error c s <> Some White -> forall k, Ulow c k -> Ulow (upd c s col) k.
  Proof.
    intros W. induction k as [|[p [|t r]] k IH]; cbn; auto. intros [A B]. split; auto. apply allw_upd; auto.
    intros u Hu F E. apply W. rewrite <- E. apply A; auto.
  Qed.
  Lemma U_upd c s col k : nth_error c s <> Some White -> U c k -> U (upd c s col) k.
  Proof.
    intros W. destruct k as [|[p r] k]; cbn; auto. intros [A B]. split; [|apply Ulow_upd; auto].
    apply allw_upd; auto. intros u Hu F E. apply W. rewrite <- E. apply A; auto.
  Qed.
  (* colouring a final state *)
  Lemma allw_fin c z col r : isf z = true -> allw c r -> allw (upd c z col) r.
  Proof. intros F A. apply allw_upd; auto. intros t _ Ft Et. congruence. Qed.
  Lemma Ulow_fin c z col : isf z = true -> forall k, Ulow c k -> Ulow (upd c z col) k.
  Proof. intros F. induction k as [|[p [|t r]] k IH]; cbn; auto. intros [A B]. split; auto. apply allw_fin; auto. Qed.

  Theorem visit_ok : outs [] (rv_ofst (rv_begin h)) -> fsound (rv_ofst (rv_begin h)) ->
    exists v E, dfs_visit (randgen_visitor h) any_filter trs n (Some 0) false (rv_begin h) = Ok v /\
      outs E (rv_ofst v) /\ E = gl h n 0 /\ visymt (rv_ofst v) = visymt h /\ vosymt (rv_ofst v) = vosymt h /\ fsound (rv_ofst v).
  Proof.
    intros O0 S0.
    edestruct (dfs_visit_ind (K := K) (randgen_visitor h) any_filter trs n (fun s t _ => C s t) I 0 (rv_begin h) Hn)
      with (access_only := false) as (root & b & c & v & E & B & HI & _ & Hn0 & Hall).
    - eexists. eexists. split; [reflexivity|]. constructor; auto.
      + exists []. split; auto. cbn. rewrite gle, app_nil_r. symmetry. etransitivity; [|symmetry; apply map_id]. reflexivity.
      + cbn. split; auto. intros t Ht F. rewrite nth_error_upd_ne by (pose proof (up _ _ Ht F); lia). apply nth_error_repeat. eapply C; eauto.
      + intros s Ws t Ht F. pose proof (up _ _ Ht F). rewrite nth_error_upd_ne by lia. apply nth_error_repeat. eapply C; eauto.
    - (* no further root *)
      intros r r' c v B W Nr N0 _. exfalso.
      assert (BL : forall j, nonwhite c j -> nth_error c j = Some Black).
      { intros j [G|G]; auto. apply (b_grey _ _ _ _ _ _ B) in G. destruct G. }
      assert (R : forall j, j < n -> isf j = false -> nonwhite c j).
      { induction j as [j IH] using lt_wf_ind. intros Hj F. destruct (Nat.eq_dec j 0) as [->|N]; auto.
        destruct (cov j) as (s & t & Ht & <-); [lia|]. pose proof (up _ _ Ht F). eapply (b_black _ _ _ _ _ _ B eq_refl s); auto.
        apply BL, IH; auto; [lia|]. destruct (isf s) eqn:Fs; auto. rewrite (fin_leaf s Fs) in Ht. destruct Ht. }
      assert (nonwhite c r').
      { destruct (isf r') eqn:F.
        - assert (r' < n) by (rewrite <- (b_len _ _ _ _ _ _ B); apply nth_error_Some; congruence).
          destruct (cov r') as (s & t & Ht & <-); [lia|]. eapply (b_black _ _ _ _ _ _ B eq_refl s); auto.
          apply BL, R; auto.
          + destruct (Nat.lt_ge_cases s n); auto. rewrite trs_of_oob in Ht by auto. destruct Ht.
          + destruct (isf s) eqn:Fs; auto. rewrite (fin_leaf s Fs) in Ht. destruct Ht.
        - apply R; auto. rewrite <- (b_len _ _ _ _ _ _ B); apply nth_error_Some; congruence. }
      unfold nonwhite in H. rewrite W in H. destruct H; discriminate.
    - intros root b c s r v B Hr [I1 I2 I3 I4 I5 I6 I7]. subst b. destruct Hr as [Hr| ->]; [discriminate|]. eexists. split; [reflexivity|].
      assert (G : nth_error c s = Some Grey) by (apply (b_grey _ _ _ _ _ _ B); left; auto).
      constructor; [auto|intros X; congruence|exact I3|auto|auto|exact Logic.I|]. intros q Hq. apply white_upd in Hq; [|discriminate].
      apply allw_upd; auto. intros t Ht F Et. pose proof (I7 q Hq t Ht F). congruence.
    - intros root b c s r p t rp k v B Hr _ Ent [I1 I2 I3 I4 I5 I6 I7]. subst b. destruct Hr as [Hr| ->]; [discriminate|].
      assert (G : nth_error c s = Some Grey) by (apply (b_grey _ _ _ _ _ _ B); left; auto).
      assert (Ls : s < n) by (eapply b_lt; [exact B|left; reflexivity]).
      cbn [v_finish randgen_visitor]. rewrite isfu by auto. cbn [rbind]. eexists. split; [reflexivity|].
      specialize (I2 ltac:(discriminate)). cbn [tl lowp] in I2. rewrite Ent in I2.
      assert (V' : forall q, nth_error (upd c s Black) q = Some White -> allw (upd c s Black) (trs q)).
      { intros q Hq. apply white_upd in Hq; [|discriminate]. apply allw_upd; auto. intros u Hu F Et. pose proof (I7 q Hq u Hu F). congruence. }
      destruct I6 as [_ [I6a I6b]].
      assert (U' : U (upd c s Black) ((p, rp) :: k)) by (apply U_upd; [congruence|split; auto]).
      destruct (isf s) eqn:F; constructor; auto.
      + intros _. cbn [tl]. rewrite I2, app_nil_r. auto.
      + intros _. cbn [tl rv_path]. rewrite I2, removelast_last. auto.
    - intros root c s t r k v B H. discriminate.
    - (* tree *)
      intros root c s t r k v B _ W [I1 I2 (E & I3 & I3') I4 I5 [I6 I6'] I7].
      destruct (b_pre _ _ _ _ _ _ B s (t :: r)) as (pre & Ep); [left; auto|].
      assert (Ht : In t (trs s)) by (rewrite Ep; apply in_or_app; right; left; auto).
      specialize (I2 ltac:(discriminate)). cbn [tl] in I2.
      cbn [v_tree v_init randgen_visitor]. rewrite isfu by (eapply C; eauto). cbn [rbind].
      destruct (isf (ns t)) eqn:F.
      + destruct v as [g q]. cbn [rv_path rv_ofst] in *. subst q.
        destruct (outs_step L E g (lowp k) I3) as (g' & O1 & O2 & O3 & O4 & O5). rewrite O1. cbn [rbind].
        eexists. eexists. eexists. split; [reflexivity|]. split; [reflexivity|]. constructor; auto.
        * intros _. cbn [tl lowp rv_path]. rewrite F, app_nil_r. auto.
        * exists (E ++ [lowp k]). cbn [rv_ofst]. split; auto. rewrite <- I3'. cbn [pend pendlow]. rewrite (fin_leaf _ F). cbn [glt flat_map map app].
          rewrite F. cbn [app map]. rewrite app_nil_r, <- !app_assoc. reflexivity.
        * cbn [rv_ofst] in *. intuition congruence.
        * cbn [U Ulow]. rewrite (fin_leaf _ F). split; [intros u []|]. split; [|apply Ulow_fin; auto].
          apply allw_fin; auto. intros u Hu. apply I6. right; auto.
        * intros q Hq. apply white_upd in Hq; [|discriminate]. apply allw_fin; auto.
      + eexists. eexists. eexists. split; [reflexivity|]. split; [reflexivity|]. pose proof (up _ _ Ht F) as Hup.
        assert (Gs : nth_error c s = Some Grey) by (apply (b_grey _ _ _ _ _ _ B); left; auto).
        constructor; auto.
        * intros _. cbn [tl lowp rv_path]. rewrite F, I2. auto.
        * exists E. cbn [rv_ofst]. split; auto. rewrite <- I3'. f_equal. cbn [pend pendlow lowp]. rewrite F, <- gle.
          cbn [glt flat_map]. rewrite F, map_app, map_map, <- !app_assoc. f_equal. apply map_ext. intros x. rewrite <- app_assoc. reflexivity.
        * cbn [U Ulow]. split; [|split].
          -- apply allw_upd; [apply I7; auto|]. intros u Hu Fu. pose proof (up _ _ Hu Fu). lia.
          -- apply allw_upd; [intros u Hu; apply I6; right; auto|]. intros u Hu Fu. eapply uniqP; eauto.
          -- assert (NS : forall q r', In (q, r') k -> q <> s).
             { intros q r' Hq ->. pose proof (b_nodup _ _ _ _ _ _ B) as ND. cbn in ND. inversion ND as [|? ? N1 N2]. apply N1. apply (in_map fst) in Hq. auto. }
             assert (PR : forall q r', In (q, r') k -> exists pre, trs q = pre ++ r') by (intros; eapply b_pre; [exact B|right; eauto]).
             clear - I6' NS PR uniqS Ht F. induction k as [|[q [|u rq]] k IH]; cbn [Ulow] in *; auto. destruct I6' as [A D]. split.
             ++ apply allw_upd; auto. intros x Hx Fx Ex. destruct (PR q (u :: rq)) as (pq & Eq); [left; auto|].
                apply (NS q (u :: rq)); [left; auto|]. apply (uniqS q x s t); auto. rewrite Eq. apply in_or_app. right. right. auto.
             ++ apply IH; auto. intros q' r' H. apply (NS q' r'). right; auto. intros q' r' H. apply (PR q' r'). right; auto.
        * intros q Hq. assert (Nq : q <> s). { intros ->. apply white_upd in Hq; [|discriminate]. congruence. }
          apply white_upd in Hq; [|discriminate]. apply allw_upd; auto. intros u Hu Fu Eu. apply Nq. eapply uniqS; eauto.
    - (* back *)
      intros root c s t r k v B _ G [_ _ _ _ _ [I6 _] _]. exfalso. destruct (isf (ns t)) eqn:F.
      + apply (b_grey _ _ _ _ _ _ B) in G. apply in_map_iff in G as ([z rz] & Ez & Hz). cbn in Ez. subst z.
        destruct (b_pre _ _ _ _ _ _ B _ _ Hz) as (pz & Ez). rewrite (fin_leaf _ F) in Ez. destruct pz; [|discriminate]. destruct rz; [|discriminate].
        destruct Hz as [Hz|Hz]; [congruence|]. pose proof (b_chain _ _ _ _ _ _ B) as CH. remember (ns t) as z eqn:Ez'. clear - CH Hz. generalize dependent (t :: r). revert s.
        induction k as [|[p rp] k IH]; intros s rr CH; [destruct Hz|]. destruct CH as [(t' & r' & E' & _) CH']. subst rp. destruct Hz as [Hz|Hz]; [congruence|].
        eapply IH; eauto.
      + rewrite (I6 t (or_introl eq_refl) F) in G. discriminate.
    - (* forward or cross *)
      intros root c s t r k v B _ G [I1 I2 (E & I3 & I3') I4 I5 [I6 I6'] I7]. destruct (isf (ns t)) eqn:F.
      2: { exfalso. rewrite (I6 t (or_introl eq_refl) F) in G. discriminate. }
      specialize (I2 ltac:(discriminate)). cbn [tl] in I2. cbn [v_fwd randgen_visitor].
      destruct v as [g q]. cbn [rv_path rv_ofst] in *. subst q.
      destruct (outs_step L E g (lowp k) I3) as (g' & O1 & O2 & O3 & O4 & O5). rewrite O1. cbn [rbind].
      eexists. eexists. split; [reflexivity|]. constructor; auto.
      + exists (E ++ [lowp k]). cbn [rv_ofst]. split; auto. rewrite <- I3'. cbn [pend glt flat_map]. rewrite F. cbn [app map]. rewrite app_nil_r, <- !app_assoc. reflexivity.
      + cbn [rv_ofst] in *. intuition congruence.
      + split; auto. intros u Hu. apply I6. right; auto.
    - destruct HI as [I1 I2 (Es & I3 & I3') I4 I5 _ _]. exists v, Es. split; [exact E|]. split; auto. split; [|split; [apply I4|split; [apply I4|auto]]].
      rewrite <- I3'. cbn. rewrite app_nil_r. auto.
  Qed.
End V.
