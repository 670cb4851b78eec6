(** C44: the gallic weight is the semiring of weighted sets of strings. *)
From Coq Require Import List Arith ZArith Bool Lia Sorting.Sorted Sorting.Permutation.
From Verif Require Import Base.Util Base.Semiring Base.Instances Model.Weights Model.UnionWeight Proofs.SdFacts Proofs.UnionFacts Props.C27.
Import ListNotations.

(** Shorter strings come first; equally long ones are in the order of dictionaries. *)
Definition before (a b : list nat) : Prop :=
  length a < length b \/
  (length a = length b /\ exists c x y a' b', a = c ++ x :: a' /\ b = c ++ y :: b' /\ x < y).

Section C44.
  Context (W : weight) (p t : W -> W -> W).
  Hypothesis Hp : forall x y, wplus x y = Ok (p x y).
  Hypothesis Ht : forall x y, wtimes x y = Ok (t x y).
  Let K : SR := mkSR W wzero wone p t weqb.
  Hypothesis L : sr_laws K.
  (** The inner semiring with a further zero, for absent strings. *)
  Let O := optSR K.
  Let LO : sr_laws O := optSR_laws K L.

  (** Finite strings in increasing order. *)
  Definition well_formed (l : gallic_weight W) : Prop :=
    Forall (fun x => fst x <> None) l /\
    StronglySorted (fun x y => match fst x, fst y with Some a, Some b => before a b | _, _ => False end) l.
  (** The weight of a string. *)
  Definition coef (l : gallic_weight W) (s : list nat) : O :=
    match find (fun x : gallic_restrict W => sv_eqb (fst x) (Some s)) l with Some x => Some (snd x) | None => None end.

  Lemma before_slt a b : before a b <-> slt a b.
  Proof.
    unfold before, slt. split; (intros [H|[E H]]; [left; auto|right; split; auto]).
    - destruct H as (c & x & y & a' & b' & -> & -> & H). rewrite lex_pre. cbn -[Nat.ltb]. apply Nat.ltb_lt in H. rewrite H. auto.
    - revert b E H. induction a as [|x a IH]; intros [|y b]; cbn -[Nat.ltb]; try discriminate. intros E H. injection E as E.
      destruct (Nat.ltb_spec x y); [exists [], x, y, a, b; auto|]. destruct (Nat.ltb_spec y x); [discriminate|]. assert (x = y) as -> by lia.
      destruct (IH b E H) as (c & u & v & a' & b' & -> & -> & X). exists (y :: c), u, v, a', b'. auto.
  Qed.

  Lemma wf_rep l : well_formed l <-> exists k, l = map (inj W) k /\ sorted W k.
  Proof.
    unfold well_formed. split.
    - intros [H1 H2]. induction l as [|[o w] l IH]; [exists []; split; auto; constructor|].
      apply Forall_cons_iff in H1 as [N H1]. inversion H2; subst. destruct IH as (k & -> & S); auto. destruct o as [a|]; [|contradiction N; auto].
      exists ((a, w) :: k). split; auto. apply sorted_cons. split; auto. intros b Hb. cbn [fst]. apply in_map_iff in Hb as (y & <- & Hy).
      rewrite Forall_forall in H4. specialize (H4 (inj W y) (in_map _ _ _ Hy)). cbn in H4. apply before_slt. auto.
    - intros (k & -> & S). split.
      + apply Forall_forall. intros x Hx. apply in_map_iff in Hx as (y & <- & _). discriminate.
      + induction k as [|x k IH]; [constructor|]. apply sorted_cons in S as [S Sx]. cbn [map]. constructor; auto.
        apply Forall_forall. intros y Hy. apply in_map_iff in Hy as (z & <- & Hz). cbn. apply before_slt, Sx, in_map. auto.
  Qed.

  Lemma coef_total k s : sorted W k -> coef (map (inj W) k) s = total W p t (at_string W p t s) k.
  Proof.
    induction k as [|[a w] k IH]; intros S; [reflexivity|]. pose proof (proj1 (sorted_cons _ _ _) S) as [S1 S2]. cbn [fst] in S2. rewrite total_cons.
    unfold coef. cbn [map find inj fst]. change (sv_eqb (Some a) (Some s)) with (list_eqb a s). unfold at_string at 1. cbn [fst snd].
    destruct (list_eqb a s) eqn:E.
    - apply leqb_eq in E as <-. rewrite total_none; [reflexivity|]. intros X. apply (slt_irrefl a). auto.
    - rewrite <- IH by auto. reflexivity.
  Qed.

  Theorem C44_extensional : forall x y, well_formed x -> well_formed y -> (forall s, coef x s = coef y s) -> x = y.
  Proof.
    intros x y (k & -> & S)%wf_rep (k' & -> & S')%wf_rep H. f_equal. apply (sorted_ext W p t); auto.
    intros s. rewrite <- !coef_total; auto.
  Qed.

  (** The sum adds the weights of each string. *)
  Theorem C44_plus : forall x y, well_formed x -> well_formed y ->
    exists z, wplus x y = Ok z /\ well_formed z /\ forall s, coef z s = kplus (coef x s) (coef y s).
  Proof.
    intros x y (k & -> & S)%wf_rep (k' & -> & S')%wf_rep. destruct (plus_ok W p t Hp L k k' S S') as (k2 & E & S2 & _ & H).
    exists (map (inj W) k2). split; auto. split; [apply wf_rep; eauto|]. intros s. rewrite !coef_total by auto. apply H. apply at_string_additive.
  Qed.

  Lemma conv_coef k1 k2 s : sorted W k1 -> sorted W k2 ->
    conv W p t k1 k2 (at_string W p t s) = ksum (map (fun i => ktimes (coef (map (inj W) k1) (firstn i s)) (coef (map (inj W) k2) (skipn i s))) (seq 0 (S (length s)))).
  Proof.
    intros S1 S2.
    rewrite (ksum_map_ext (fun i => ktimes (coef (map (inj W) k1) (firstn i s)) (coef (map (inj W) k2) (skipn i s)))
      (fun i => ksum (map (fun x => ksum (map (fun y => if Nat.eqb (length (fst x)) i && list_eqb (fst x ++ fst y) s then Some (t (snd x) (snd y)) : O else kzero) k2)) k1))).
    - rewrite (ksum_swap LO). unfold conv. apply ksum_map_ext. intros x _. rewrite (ksum_swap LO). apply ksum_map_ext. intros y _.
      unfold at_string. destruct (list_eqb (fst x ++ fst y) s) eqn:E.
      + rewrite (ksum_map_ext (fun i => if Nat.eqb (length (fst x)) i && true then Some (t (snd x) (snd y)) : O else kzero) (fun i => if Nat.eqb (length (fst x)) i then Some (t (snd x) (snd y)) : O else kzero))
          by (intros i _; rewrite andb_true_r; auto).
        rewrite (ksum_pick LO (fun _ => Some (t (snd x) (snd y)) : O)); auto. apply leqb_eq in E. rewrite <- E, app_length. lia.
      + symmetry. apply (ksum_map_zero LO). intros i _. rewrite andb_false_r. auto.
    - intros i Hi. apply in_seq in Hi. rewrite !coef_total by auto. unfold total. rewrite (ksum_times_r LO), map_map. apply ksum_map_ext. intros x _.
      rewrite (ksum_times_l LO), map_map. apply ksum_map_ext. intros y _. unfold at_string.
      assert (E : Nat.eqb (length (fst x)) i && list_eqb (fst x ++ fst y) s = list_eqb (fst x) (firstn i s) && list_eqb (fst y) (skipn i s)).
      { apply eq_true_iff_eq. rewrite !andb_true_iff, Nat.eqb_eq, !list_eqbP. split.
        - intros [<- <-]. rewrite firstn_app, skipn_app, firstn_all, skipn_all, Nat.sub_diag, app_nil_r. auto.
        - intros [-> ->]. rewrite firstn_length, firstn_skipn. split; auto. lia. }
      cbn beta. match goal with |- _ = (if ?c then _ else _) => replace c with (list_eqb (fst x) (firstn i s) && list_eqb (fst y) (skipn i s)) by (symmetry; exact E) end. destruct (list_eqb (fst x) (firstn i s)), (list_eqb (fst y) (skipn i s)); auto; cbn [andb].
  Qed.

  (** The product adds up, over all ways to cut a string in two, the products of the weights. *)
  Theorem C44_times : forall x y, well_formed x -> well_formed y ->
    exists z, wtimes x y = Ok z /\ well_formed z /\
      forall s, coef z s = ksum (map (fun i => ktimes (coef x (firstn i s)) (coef y (skipn i s))) (seq 0 (S (length s)))).
  Proof.
    intros x y (k & -> & S1)%wf_rep (k' & -> & S')%wf_rep. destruct (times_ok W p t Hp Ht L k k' S1 S') as (k2 & E & S2 & _ & H).
    exists (map (inj W) k2). split; auto. split; [apply wf_rep; eauto|]. intros s. rewrite coef_total by auto.
    rewrite H by apply at_string_additive. apply conv_coef; auto.
  Qed.

  Lemma same_ok k k' : sorted W k -> sorted W k' -> (forall F, additive W p t F -> total W p t F k = total W p t F k') -> Ok (map (inj W) k) = Ok (map (inj W) k').
  Proof. intros S S' H. f_equal. f_equal. apply (sorted_ext W p t); auto. intros s. apply H. apply at_string_additive. Qed.

  Lemma one_sorted : sorted W [([], wone)].
  Proof. repeat constructor. Qed.

  (** The laws, for all well-formed values. *)
  Theorem C44_laws : forall x y z : gallic_weight W, well_formed x -> well_formed y -> well_formed z ->
    (s <-- wplus x y ;; wplus s z) = (s <-- wplus y z ;; wplus x s) /\
    wplus x y = wplus y x /\
    wplus wzero x = Ok x /\
    (s <-- wtimes x y ;; wtimes s z) = (s <-- wtimes y z ;; wtimes x s) /\
    wtimes wone x = Ok x /\ wtimes x wone = Ok x /\
    wtimes wzero x = Ok wzero /\ wtimes x wzero = Ok wzero /\
    (s <-- wplus y z ;; wtimes x s) = (a <-- wtimes x y ;; b <-- wtimes x z ;; wplus a b) /\
    (s <-- wplus x y ;; wtimes s z) = (a <-- wtimes x z ;; b <-- wtimes y z ;; wplus a b) /\
    ((forall a : W, wplus a a = Ok a) -> wplus x x = Ok x) /\
    well_formed wzero /\ well_formed wone.
  Proof.
    intros x y z (kx & -> & Sx)%wf_rep (ky & -> & Sy)%wf_rep (kz & -> & Sz)%wf_rep.
    destruct (plus_ok W p t Hp L kx ky Sx Sy) as (xy & Exy & Sxy & _ & Hxy).
    destruct (plus_ok W p t Hp L ky kz Sy Sz) as (yz & Eyz & Syz & _ & Hyz).
    destruct (plus_ok W p t Hp L ky kx Sy Sx) as (yx & Eyx & Syx & _ & Hyx).
    destruct (plus_ok W p t Hp L kx kx Sx Sx) as (xx & Exx & Sxx & _ & Hxx).
    destruct (plus_ok W p t Hp L xy kz Sxy Sz) as (u1 & Eu1 & Su1 & _ & Hu1).
    destruct (plus_ok W p t Hp L kx yz Sx Syz) as (u2 & Eu2 & Su2 & _ & Hu2).
    destruct (times_ok W p t Hp Ht L kx ky Sx Sy) as (txy & Etxy & Stxy & _ & Htxy).
    destruct (times_ok W p t Hp Ht L ky kz Sy Sz) as (tyz & Etyz & Styz & _ & Htyz).
    destruct (times_ok W p t Hp Ht L kx kz Sx Sz) as (txz & Etxz & Stxz & _ & Htxz).
    destruct (times_ok W p t Hp Ht L txy kz Stxy Sz) as (v1 & Ev1 & Sv1 & _ & Hv1).
    destruct (times_ok W p t Hp Ht L kx tyz Sx Styz) as (v2 & Ev2 & Sv2 & _ & Hv2).
    destruct (times_ok W p t Hp Ht L kx yz Sx Syz) as (d1 & Ed1 & Sd1 & _ & Hd1).
    destruct (plus_ok W p t Hp L txy txz Stxy Stxz) as (d2 & Ed2 & Sd2 & _ & Hd2).
    destruct (times_ok W p t Hp Ht L xy kz Sxy Sz) as (e1 & Ee1 & Se1 & _ & He1).
    destruct (plus_ok W p t Hp L txz tyz Stxz Styz) as (e2 & Ee2 & Se2 & _ & He2).
    destruct (times_ok W p t Hp Ht L [([], wone)] kx one_sorted Sx) as (o1 & Eo1 & So1 & _ & Ho1).
    destruct (times_ok W p t Hp Ht L kx [([], wone)] Sx one_sorted) as (o2 & Eo2 & So2 & _ & Ho2).
    refine (conj _ (conj _ (conj _ (conj _ (conj _ (conj _ (conj _ (conj _ (conj _ (conj _ (conj _ (conj _ _)))))))))))).
    - rewrite Exy, Eyz. cbn [rbind]. rewrite Eu1, Eu2. apply same_ok; auto. intros F AF. rewrite Hu1, Hu2, Hxy, Hyz by auto. symmetry. apply (kplus_assoc _ LO).
    - rewrite Exy, Eyx. apply same_ok; auto. intros F AF. rewrite Hxy, Hyx by auto. apply (kplus_comm _ LO).
    - reflexivity.
    - rewrite Etxy, Etyz. cbn [rbind]. rewrite Ev1, Ev2. apply same_ok; auto. intros F AF. rewrite Hv1, Hv2 by auto. eapply (conv_assoc W p t L); eauto.
    - change (wone (w := gallic_weight W)) with (map (inj W) [([], wone)]). rewrite Eo1. apply same_ok; auto. intros F AF. rewrite Ho1 by auto. apply (conv_one_l W p t L).
    - change (wone (w := gallic_weight W)) with (map (inj W) [([], wone)]). rewrite Eo2. apply same_ok; auto. intros F AF. rewrite Ho2 by auto. apply (conv_one_r W p t L).
    - reflexivity.
    - destruct kx; reflexivity.
    - rewrite Eyz, Etxy. cbn [rbind]. rewrite Etxz. cbn [rbind]. rewrite Ed1, Ed2. apply same_ok; auto. intros F AF. rewrite Hd1, Hd2, Htxy, Htxz by auto.
      apply (conv_plus_r W p t L); auto.
    - rewrite Exy, Etxz. cbn [rbind]. rewrite Etyz. cbn [rbind]. rewrite Ee1, Ee2. apply same_ok; auto. intros F AF. rewrite He1, He2, Htxz, Htyz by auto.
      apply (conv_plus_l W p t L); auto.
    - intros Id. rewrite Exx. apply same_ok; auto. intros F AF. rewrite Hxx by auto. unfold total. rewrite <- (ksum_map_plus LO). apply ksum_map_ext. intros e _.
      specialize (Id (snd e)). rewrite Hp in Id. assert (Id' : p (snd e) (snd e) = snd e) by congruence. exact (eq_trans (eq_sym (AF (fst e) (Some (snd e)) (Some (snd e)))) (f_equal (fun v => F (fst e) (Some v)) Id')).
    - apply wf_rep. exists []. split; auto. constructor.
    - apply wf_rep. exists [([], wone : W)]. split; auto. apply one_sorted.
  Qed.

  (** Dividing by one weighted string undoes the multiplication by it. *)
  Lemma each_self f (g : list nat * W -> list nat * W) k : sorted W k ->
    (forall y, In y k -> f (inj W (g y)) = Ok (inj W y)) ->
    uw_each (gallic_restrict W) gallic_compare gallic_merge f (map (inj W) (map g k)) [] = Ok (map (inj W) k).
  Proof.
    intros S H.
    assert (X : forall k acc, (forall y, In y k -> f (inj W (g y)) = Ok (inj W y)) ->
      uw_each (gallic_restrict W) gallic_compare gallic_merge f (map (inj W) (map g k)) acc = uw_push_all (gallic_restrict W) gallic_compare gallic_merge acc (map (inj W) k)).
    { clear. induction k as [|y k IH]; intros acc H; [reflexivity|]. cbn [map uw_each uw_push_all]. rewrite H by (left; auto). cbn [rbind].
      destruct (uw_push _ _ _ acc (inj W y)); cbn [rbind]; auto. apply IH. intros; apply H; right; auto. }
    rewrite X by auto. destruct (push_all_ok W p t Hp L k [] ltac:(constructor) S ltac:(intros b c [])) as (k' & E & S' & _ & HF).
    change (map (inj W) []) with (@nil (gallic_restrict W)) in E. rewrite E. apply same_ok; auto.
  Qed.

  Lemma divide_self (g : list nat * W -> list nat * W) c k d : sorted W k ->
    (forall y, In y k -> wdivide (inj W (g y)) (inj W c) d = Ok (inj W y)) ->
    wdivide (w := gallic_weight W) (map (inj W) (map g k)) [inj W c] d = Ok (map (inj W) k).
  Proof.
    intros S H. destruct k as [|x [|y k]].
    - reflexivity.
    - cbn [map wdivide gallic_weight union_weight uw_divide rev app uw_each]. rewrite H by (left; auto). reflexivity.
    - change (wdivide (w := gallic_weight W) (map (inj W) (map g (x :: y :: k))) [inj W c] d)
        with (uw_each (gallic_restrict W) gallic_compare gallic_merge (fun v => wdivide v (inj W c) d) (map (inj W) (map g (x :: y :: k))) []).
      apply each_self; auto.
  Qed.

  Theorem C44_divide_left : forall a (w : W) x z, (forall v, wdivide (t w v) w DivideLeft = Ok v) -> well_formed x ->
    wtimes (w := gallic_weight W) [(Some a, w)] x = Ok z -> wdivide z [(Some a, w)] DivideLeft = Ok x.
  Proof.
    intros a w x z D (k & -> & S)%wf_rep E.
    assert (z = map (inj W) (scaled W t (a, w) k)) as ->.
    { destruct (times_ok W p t Hp Ht L [(a, w)] k ltac:(repeat constructor) S) as (k' & E' & S' & _ & HF).
      pose proof (eq_trans (eq_sym E) E') as X. injection X as ->.
      assert (Q : Ok (map (inj W) k') = Ok (map (inj W) (scaled W t (a, w) k))); [|injection Q as Q; exact Q].
      apply same_ok; auto; [apply scaled_sorted; auto|]. intros F AF. rewrite HF by auto. rewrite total_scaled. unfold conv. cbn [map ksum]. apply (kplus_0_r LO). }
    apply (divide_self (fun y => (a ++ fst y, t w (snd y))) (a, w)); auto. intros y _. cbn. unfold pair_op. cbn. rewrite D. cbn. unfold inj.
    rewrite skipn_app, skipn_all, Nat.sub_diag. reflexivity.
  Qed.

  Theorem C44_divide_right : forall a (w : W) x z, (forall v, wdivide (t v w) w DivideRight = Ok v) -> well_formed x ->
    wtimes (w := gallic_weight W) x [(Some a, w)] = Ok z -> wdivide z [(Some a, w)] DivideRight = Ok x.
  Proof.
    intros a w x z D (k & -> & S)%wf_rep E.
    set (g := fun y : list nat * W => (fst y ++ a, t (snd y) w)).
    assert (Sg : sorted W (map g k)).
    { clear - S. induction k as [|y k IH]; [constructor|]. apply sorted_cons in S as [S Sy]. cbn [map]. apply sorted_cons. split; auto.
      intros b Hb. apply in_map_iff in Hb as (v & <- & Hv). apply in_map_iff in Hv as (u & <- & Hu). cbn. apply slt_post, Sy, in_map. auto. }
    assert (z = map (inj W) (map g k)) as ->.
    { destruct (times_ok W p t Hp Ht L k [(a, w)] S ltac:(repeat constructor)) as (k' & E' & S' & _ & HF).
      pose proof (eq_trans (eq_sym E) E') as X. injection X as ->.
      assert (Q : Ok (map (inj W) k') = Ok (map (inj W) (map g k))); [|injection Q as Q; exact Q]. apply same_ok; auto. intros F AF. rewrite HF by auto.
      unfold conv, total. rewrite map_map. apply ksum_map_ext. intros u _. cbn [map ksum fst snd]. apply (kplus_0_r LO). }
    apply (divide_self g (a, w)); auto. intros y _. cbn. unfold pair_op. cbn. rewrite D. cbn. unfold inj.
    rewrite rev_app_distr, skipn_app, <- (rev_length a), skipn_all, Nat.sub_diag. cbn. rewrite rev_involutive. reflexivity.
  Qed.

  (** Reversal reverses each string. *)
  Lemma insert_ok x k : sorted W k -> ~ In (fst x) (map fst k) ->
    exists k', uw_insert (gallic_restrict W) gallic_compare (inj W x) (map (inj W) k) = map (inj W) k' /\ sorted W k' /\ Permutation k' (x :: k).
  Proof.
    induction k as [|y k IH]; intros S N.
    - exists [x]. split; auto. split; auto. repeat constructor.
    - pose proof (proj1 (sorted_cons _ _ _) S) as [S1 S2]. cbn [map uw_insert]. destruct (gallic_compare (inj W x) (inj W y)) eqn:E.
      + apply compare_ok in E. exists (x :: y :: k). split; auto. split; auto. apply sorted_cons. split; auto.
        intros b [<-|Hb]; auto. eapply slt_trans; [exact E|]. auto.
      + apply compare_no in E. destruct IH as (k' & Ek & Sk & Pk); [auto|intros X; apply N; right; auto|].
        exists (y :: k'). split; [rewrite Ek; auto|]. split.
        * apply sorted_cons. split; auto. intros b Hb. apply (Permutation_in b (Permutation_map fst Pk)) in Hb. destruct Hb as [<-|Hb]; auto.
          destruct (slt_total (fst x) (fst y)) as [X|[X|X]]; auto; [|contradiction]. exfalso. apply N. left. auto.
        * rewrite Pk. apply perm_swap.
  Qed.
  Lemma sort_ok k : NoDup (map fst k) -> exists k', uw_sort (gallic_restrict W) gallic_compare (map (inj W) k) = map (inj W) k' /\ sorted W k' /\ Permutation k' k.
  Proof.
    induction k as [|x k IH]; intros N; [exists []; repeat split; auto; constructor|]. cbn [map] in N. apply NoDup_cons_iff in N as [N1 N2].
    destruct (IH N2) as (k1 & E & S & P). cbn [map uw_sort fold_right]. fold (uw_sort (gallic_restrict W) gallic_compare (map (inj W) k)). rewrite E.
    destruct (insert_ok x k1 S) as (k' & E' & S' & P'); [intros X; apply N1; eapply Permutation_in; [apply Permutation_map, P|auto]|].
    exists k'. split; auto. split; auto. rewrite P', P. auto.
  Qed.
  Definition rev_elt (rv : W -> W) (y : list nat * W) : list nat * W := (rev (fst y), rv (snd y)).
  Lemma push_any_ok rv k : forall acc, exists k',
    fold_left (fun l v => uw_push_any (gallic_restrict W) gallic_compare l (sv_reverse (fst v), rv (snd v))) (map (inj W) k) (map (inj W) acc) = map (inj W) k' /\
    Permutation k' (acc ++ map (rev_elt rv) k).
  Proof.
    induction k as [|y k IH]; intros acc; [exists acc; split; auto; rewrite app_nil_r; auto|]. cbn [map fold_left].
    assert (exists acc', uw_push_any (gallic_restrict W) gallic_compare (map (inj W) acc) (sv_reverse (fst (inj W y)), rv (snd (inj W y))) = map (inj W) acc' /\
      Permutation acc' (acc ++ [rev_elt rv y])) as (acc' & E0 & P).
    { change (sv_reverse (fst (inj W y)), rv (snd (inj W y))) with (inj W (rev_elt rv y)). destruct acc as [|b acc]; [exists [rev_elt rv y]; split; auto|].
      cbn [map uw_push_any]. destruct (gallic_compare _ _).
      - exists (b :: acc ++ [rev_elt rv y]). cbn [map]. rewrite map_app. split; auto.
      - exists (rev_elt rv y :: acc ++ [b]). cbn [map]. rewrite map_app. split; auto. cbn [app].
        rewrite Permutation_app_comm. cbn [app]. rewrite perm_swap. constructor. apply Permutation_cons_append. }
    destruct (IH acc') as (k' & E & P'). exists k'. split; [exact (eq_trans (f_equal (fold_left _ _) E0) E)|]. rewrite P', P, <- app_assoc. auto.
  Qed.
  Lemma sorted_nodup k : sorted W k -> NoDup (map fst k).
  Proof.
    induction k as [|x k IH]; intros S; [constructor|]. apply sorted_cons in S as [S Sx]. cbn [map]. constructor; auto.
    intros X. apply (slt_irrefl (fst x)). auto.
  Qed.
  Lemma reverse_ok rv k : sorted W k -> exists k', gallic_reverse rv (map (inj W) k) = map (inj W) k' /\ sorted W k' /\ Permutation k' (map (rev_elt rv) k).
  Proof.
    intros S. destruct (push_any_ok rv k []) as (k1 & E & P). destruct (sort_ok k1) as (k' & E' & S' & P').
    - eapply Permutation_NoDup; [apply Permutation_map, Permutation_sym, P|]. cbn [app]. rewrite map_map. cbn [fst rev_elt].
      rewrite <- (map_map fst (@rev nat)). apply FinFun.Injective_map_NoDup; [|apply sorted_nodup; auto].
      intros a b X. rewrite <- (rev_involutive a), X. apply rev_involutive.
    - exists k'. split; [|split; auto; rewrite P', P; auto]. unfold gallic_reverse, uw_reverse.
      exact (eq_trans (f_equal (uw_sort _ _) E) E').
  Qed.

  Lemma coef_In k s w : NoDup (map fst k) -> (coef (map (inj W) k) s = Some w <-> In (s, w) k).
  Proof.
    unfold coef. induction k as [|[a v] k IH]; intros N; [split; [discriminate|intros []]|].
    cbn [map fst] in N. apply NoDup_cons_iff in N as [N1 N2]. cbn [map find inj fst]. change (sv_eqb (Some a) (Some s)) with (list_eqb a s).
    destruct (list_eqb a s) eqn:E.
    - apply list_eqbP in E as ->. cbn [snd In]. split; [intros X; left; injection X as <-; auto|]. intros [X|X]; [injection X as <-; auto|].
      exfalso. apply N1. apply (in_map fst) in X. auto.
    - rewrite IH by auto. split; [right; auto|]. intros [X|X]; auto. injection X as -> ->. rewrite (proj2 (list_eqbP s s) eq_refl) in E. discriminate.
  Qed.

  Theorem C44_reverse : forall (rv : W -> W) x, well_formed x ->
    well_formed (gallic_reverse rv x) /\ forall s, coef (gallic_reverse rv x) s = option_map rv (coef x (rev s)).
  Proof.
    intros rv x (k & -> & S)%wf_rep. destruct (reverse_ok rv k S) as (k' & E & S' & P). rewrite E. split; [apply wf_rep; eauto|]. intros s.
    assert (H : forall v, coef (map (inj W) k') s = Some v <-> option_map rv (coef (map (inj W) k) (rev s)) = Some v).
    { intros v. rewrite coef_In by (apply sorted_nodup; auto). split.
      - intros H. apply (Permutation_in _ P) in H. apply in_map_iff in H as ([a w] & Eq & H). unfold rev_elt in Eq. cbn in Eq. injection Eq as <- <-.
        rewrite rev_involutive. assert (coef (map (inj W) k) a = Some w) as -> by (apply coef_In; auto; apply sorted_nodup; auto). reflexivity.
      - destruct (coef (map (inj W) k) (rev s)) as [w|] eqn:C; [|discriminate]. cbn. intros X. injection X as <-.
        apply coef_In in C; [|apply sorted_nodup; auto]. apply (Permutation_in _ (Permutation_sym P)). apply in_map_iff. exists (rev s, w).
        split; auto. unfold rev_elt. cbn. rewrite rev_involutive. auto. }
    destruct (coef (map (inj W) k') s) as [v|] eqn:C; [symmetry; apply H; auto|].
    destruct (option_map rv (coef (map (inj W) k) (rev s))) as [v|] eqn:C'; auto. exact (proj2 (H v) eq_refl).
  Qed.

  (** and the order of factors. *)
  Theorem C44_reverse_times : forall (rv : W -> W), (forall a b, rv (p a b) = p (rv a) (rv b)) -> (forall a b, rv (t a b) = t (rv b) (rv a)) ->
    forall x y z, well_formed x -> well_formed y -> wtimes x y = Ok z ->
    wtimes (gallic_reverse rv y) (gallic_reverse rv x) = Ok (gallic_reverse rv z).
  Proof.
    intros rv Rp Rt x y z (kx & -> & Sx)%wf_rep (ky & -> & Sy)%wf_rep E.
    destruct (times_ok W p t Hp Ht L kx ky Sx Sy) as (kz & Ez & Sz & _ & Hz). pose proof (eq_trans (eq_sym E) Ez) as X. injection X as ->.
    destruct (reverse_ok rv kx Sx) as (rx & -> & Srx & Px). destruct (reverse_ok rv ky Sy) as (ry & -> & Sry & Py). destruct (reverse_ok rv kz Sz) as (rz & Erz & Srz & Pz). refine (eq_trans _ (f_equal Ok (eq_sym Erz))).
    destruct (times_ok W p t Hp Ht L ry rx Sry Srx) as (k & Ek & S & _ & H). refine (eq_trans Ek _). apply same_ok; auto. intros F AF. rewrite H by auto.
    transitivity (total W p t F (map (rev_elt rv) kz)).
    2:{ unfold total. symmetry. apply (ksum_perm_map LO). auto. }
    assert (T : total W p t F (map (rev_elt rv) kz) = total W p t (fun a (v : O) => F (rev a) (option_map rv v : O)) kz) by (unfold total; rewrite map_map; auto).
    rewrite T, Hz.
    - unfold conv. rewrite (ksum_perm_map LO _ _ _ Py), map_map. etransitivity; [|symmetry; apply (ksum_swap LO)]. apply ksum_map_ext. intros y _.
      rewrite (ksum_perm_map LO _ _ _ Px), map_map. apply ksum_map_ext. intros x _. cbn [rev_elt fst snd option_map]. rewrite rev_app_distr, Rt. auto.
    - intros a v w. rewrite <- AF. f_equal. destruct v as [v|], w as [w|]; cbn; auto. exact (f_equal Some (Rp v w)).
  Qed.
End C44.

(** The infinite string, the zero of the elements, is outside: it compares equal to the empty
    string, so a sum depends on the order and may lose the empty string. *)
Theorem C44_infinite_refuted :
  let x : gallic_weight integer_weight := [(Some [], 5%Z)] in
  let y : gallic_weight integer_weight := [wzero] in
  wplus y x = Ok [(Some [], 5%Z)] /\ wplus x y = Ok [(None, 5%Z)].
Proof. vm_compute. auto. Qed.

(** A zero cannot be divided by a sum of two strings, though it can by one. *)
Theorem C44_divide_zero_refuted : forall d,
  wdivide (w := gallic_weight tropical_weight) wzero [(Some [1], Fin 1); (Some [2], Fin 1)] d = Err /\
  wdivide (w := gallic_weight tropical_weight) wzero [(Some [1], Fin 1)] d = Ok wzero.
Proof. intros d. vm_compute. auto. Qed.

Definition C44_x : gallic_weight integer_weight := [(Some [], 2%Z); (Some [1], 3%Z); (Some [1; 1], 4%Z)].
Definition C44_y : gallic_weight integer_weight := [(Some [1], 5%Z); (Some [2], 7%Z)].
Example C44_instance :
  well_formed integer_weight C44_x /\ well_formed integer_weight C44_y /\
  (forall x y : integer_weight, wplus x y = Ok (x + y)%Z) /\ (forall x y : integer_weight, wtimes x y = Ok (x * y)%Z) /\
  sr_laws (mkSR integer_weight 0%Z 1%Z Z.add Z.mul Z.eqb) /\
  wplus C44_x C44_y = Ok [(Some [], 2%Z); (Some [1], 8%Z); (Some [2], 7%Z); (Some [1; 1], 4%Z)] /\
  wtimes C44_x C44_y = Ok [(Some [1], 10%Z); (Some [2], 14%Z); (Some [1; 1], 15%Z); (Some [1; 2], 21%Z); (Some [1; 1; 1], 20%Z); (Some [1; 1; 2], 28%Z)] /\
  gallic_reverse (W := integer_weight) (fun w => w) [(Some [1; 2], 1%Z); (Some [2; 1], 2%Z)] = [(Some [1; 2], 2%Z); (Some [2; 1], 1%Z)].
Proof.
  split; [|split; [|split; [|split; [|split; [|split; [|split]]]]]]; try (vm_compute; reflexivity).
  - apply wf_rep. exists [([], 2%Z); ([1], 3%Z); ([1; 1], 4%Z)]. split; auto. unfold sorted. cbn. repeat constructor.
  - apply wf_rep. exists [([1], 5%Z); ([2], 7%Z)]. split; auto. unfold sorted. cbn. constructor; [repeat constructor|constructor; [right; auto|constructor]].
  - apply (C27_semiring integer_weight Z.add Z.mul C27_integer); reflexivity.
Qed.

(** Tropical weights are exactly divisible. *)
Example C44_divide_instance :
  (forall v : ext, wdivide (w := tropical_weight) (trop_times (Fin 3) v) (Fin 3) DivideLeft = Ok v) /\
  wtimes (w := gallic_weight tropical_weight) [(Some [7], Fin 3)] [(Some [1], Fin 1); (Some [2; 2], Fin 4)] = Ok [(Some [7; 1], Fin 4); (Some [7; 2; 2], Fin 7)].
Proof.
  split; [|vm_compute; reflexivity]. intros [|z|]; cbn -[Z.add Z.sub]; auto. f_equal. f_equal. lia.
Qed.

Print Assumptions C44_extensional.
Print Assumptions C44_plus.
Print Assumptions C44_times.
Print Assumptions C44_laws.
Print Assumptions C44_divide_left.
Print Assumptions C44_divide_right.
Print Assumptions C44_reverse.
Print Assumptions C44_reverse_times.
Print Assumptions C44_infinite_refuted.
Print Assumptions C44_divide_zero_refuted.
