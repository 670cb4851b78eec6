(** What the finished expansion says about the drawn paths. *)
From Coq Require Import List Arith NArith Lia Bool.
From Verif Require Import Base.Util Base.Semiring Base.Machine Model.Props Model.VectorFst Model.Lazy Model.Dfs Model.RandGen
  Proofs.VectorFacts Proofs.TrOpsFacts Proofs.OpFacts Proofs.RandFacts.
Import ListNotations.

Lemma nodup_app {A} (l l' : list A) : NoDup l -> NoDup l' -> (forall x, In x l -> In x l' -> False) -> NoDup (l ++ l').
Proof.
  intros N N' D. induction N as [|x l Hx N IH]; cbn [app]; auto. constructor.
  - intros X. apply in_app_or in X as [X|X]; auto. apply (D x); simpl; auto.
  - apply IH. intros y Y1 Y2. apply (D y); simpl; auto.
Qed.
Lemma nodup_blocks {A B} (h : A -> list (list B)) (tg : A -> B) xs : NoDup (map tg xs) -> (forall x, In x xs -> NoDup (h x)) ->
  NoDup (concat (map (fun x => map (cons (tg x)) (h x)) xs)).
Proof.
  induction xs as [|x xs IH]; intros N H; cbn [map concat] in *; [constructor|]. inversion N as [|? ? N1 N2]. subst.
  apply nodup_app.
  - apply FinFun.Injective_map_NoDup; [intros u v [=]; auto|]. apply H. left; auto.
  - apply IH; auto. intros. apply H. right; auto.
  - intros y Y1 Y2. apply in_map_iff in Y1 as (z & <- & _). apply in_concat in Y2 as (b & Y2 & Y3).
    apply in_map_iff in Y2 as (x' & <- & Hx'). apply in_map_iff in Y3 as (z' & Ez & _). injection Ez as Et _.
    apply N1. rewrite <- Et. apply in_map; auto.
Qed.
Lemma forall2_concat {A B X} (R : A -> B -> Prop) (u : X -> list A) (v : X -> list B) xs :
  (forall x, In x xs -> Forall2 R (u x) (v x)) -> Forall2 R (concat (map u xs)) (concat (map v xs)).
Proof.
  induction xs as [|x xs IH]; intros H; cbn [map concat]; [constructor|]. apply Forall2_app; [apply H; left; auto|apply IH; intros; apply H; right; auto].
Qed.
Lemma forall2_map {A B A' B'} (R : A' -> B' -> Prop) (u : A -> A') (v : B -> B') l l' :
  Forall2 (fun x y => R (u x) (v y)) l l' -> Forall2 R (map u l) (map v l').
Proof. induction 1; constructor; auto. Qed.
Lemma forall2_impl {A B} (R R' : A -> B -> Prop) l l' : (forall x y, R x y -> R' x y) -> Forall2 R l l' -> Forall2 R' l l'.
Proof. intros H. induction 1; constructor; auto. Qed.

Section T.
  Context {K : SR}.
  Variable nlog : nat -> nat -> K.
  Variable cfg : rconfig.
  Variable f : vfst K.
  Variable a : nat.
  Hypothesis C : closed f.
  Hypothesis Ha : vstart f = Some a.
  Let wd := rc_weighted cfg.
  Let mx := rc_max cfg.
  Variable nds : list gnode.
  Variable o : rop.
  Variable g : vfst K.
  Hypothesis IV : inv nlog cfg f a nds o g.
  Hypothesis LN : length nds = length (ro_table o).
  Let tbl := ro_table o.
  Let T := length tbl.

  (** The choices by position, from a state of the machine. *)
  Fixpoint follow (q : nat) (ps : list nat) : option (list (tr K)) :=
    match ps with
    | [] => Some []
    | p :: ps => match nth_error (trs_of f q) p with
                 | Some t => option_map (cons t) (follow (ns t) ps)
                 | None => None
                 end
    end.

  Definition below_kid (p : nat) (l : list (list nat * nat)) : list (list nat * nat) := map (fun d => (p :: fst d, snd d)) l.
  Definition stop (cf : nat) : list (list nat * nat) := if cf =? 0 then [] else [([], cf)].

  (** The drawn paths from state [i], with their multiplicity. *)
  Fixpoint leaves (k i : nat) : list (list nat * nat) :=
    match k with
    | 0 => []
    | S k =>
        match nth_error nds i with
        | Some (m1, cf, b) =>
            concat (map (fun pj => below_kid (fst (fst pj)) (leaves k (snd pj))) (combine m1 (seq b (length m1)))) ++ stop cf
        | None => []
        end
    end.

  Lemma node_of i q n l : nth_error tbl i = Some (RS (Some q) n l) ->
    exists m1 cf b, nth_error nds i = Some (m1, cf, b) /\ node nlog cfg f tbl (ro_super o) g i q n l m1 cf b.
  Proof.
    intros H. pose proof (nth_error_lt _ _ _ H) as Hi. unfold tbl in Hi. rewrite <- LN in Hi.
    destruct (nth_error_ex nds i Hi) as ([[m1 cf] b] & E). exists m1, cf, b. split; auto. eapply iv_node; eauto.
  Qed.

  Lemma in_kids (m1 : list (nat * nat)) b pc j : In (pc, j) (combine m1 (seq b (length m1))) <->
    exists k, nth_error m1 k = Some pc /\ j = b + k.
  Proof.
    revert b. induction m1 as [|x m1 IH]; intros b; cbn [combine seq length].
    - split; [intros []|intros (k & H & _); destruct k; discriminate].
    - cbn [In]. rewrite IH. split.
      + intros [[= -> ->]|(k & H1 & ->)]; [exists 0; split; auto|exists (S k); split; auto; lia].
      + intros ([|k] & H1 & ->); [left; injection H1 as ->; f_equal; lia|right; exists k; split; auto; lia].
  Qed.

  Lemma kid_entry i q n l m1 cf b pc j : node nlog cfg f tbl (ro_super o) g i q n l m1 cf b ->
    In (pc, j) (combine m1 (seq b (length m1))) ->
    nth_error tbl j = Some (RS (Some (ns (att f q (fst pc)))) (snd pc) (S l)) /\ i < j /\ 0 < snd pc /\
    nth_error (trs_of f q) (fst pc) = Some (att f q (fst pc)).
  Proof.
    intros N H. apply in_kids in H as (k & H1 & ->). split; [apply (nd_kids _ _ _ _ _ _ _ _ _ _ _ _ _ N); auto|].
    split; [pose proof (nd_base _ _ _ _ _ _ _ _ _ _ _ _ _ N); lia|]. split; [eapply asc_pos; eauto; apply N|].
    apply nth_error_nth'. pose proof (nd_pos _ _ _ _ _ _ _ _ _ _ _ _ _ N) as B. unfold below in B. rewrite Forall_forall in B.
    apply B. eapply nth_error_In; eauto.
  Qed.

  (** Every entry of the table is a state of the machine at the end of a path. *)
  Lemma entry_path : forall j q n l, nth_error tbl j = Some (RS (Some q) n l) ->
    exists p, is_path (mach f) a p /\ dst a p = q /\ length p = l.
  Proof.
    induction j as [j IH] using lt_wf_ind. intros q n l H. destruct (Nat.eq_dec j 0) as [->|Hj].
    - unfold tbl in H. rewrite (iv_root _ _ _ _ _ _ _ IV) in H. injection H as <- <- <-. exists []. simpl. auto.
    - destruct (iv_cov _ _ _ _ _ _ _ IV j) as [Hs|(i & m1 & cf & b & E & Hb)].
      + apply nth_error_lt in H. unfold tbl in H. lia.
      + destruct (iv_super _ _ _ _ _ _ _ IV j Hs) as [Hs' _]. unfold tbl in H. congruence.
      + assert (Hi : i < length tbl) by (unfold tbl; rewrite <- LN; eapply nth_error_lt; eauto).
        destruct (nth_error_ex tbl i Hi) as ([[q'|] n' l'] & Ei).
        * destruct (node_of i q' n' l' Ei) as (m1' & cf' & b' & E' & N). rewrite E in E'. injection E' as <- <- <-.
          destruct (nth_error_ex m1 (j - b)) as (pc & Hpc); [lia|].
          destruct (kid_entry i q' n' l' m1 cf b pc j N) as (K1 & K2 & K3 & K4).
          { apply in_kids. exists (j - b). split; auto. lia. }
          rewrite H in K1. injection K1 as -> -> ->. destruct (IH i K2 _ _ _ Ei) as (p & P1 & P2 & P3).
          exists (p ++ [att f q' (fst pc)]). split; [|split].
          -- clear - P1 P2 K4. revert P1 P2. generalize a. induction p as [|t p IHp]; simpl; intros s P1 P2.
             ++ subst. split; auto. eapply nth_error_In; eauto.
             ++ destruct P1. split; auto.
          -- clear - P2. revert P2. generalize a. induction p as [|t p IHp]; simpl; intros s P2; auto.
          -- rewrite app_length. simpl. lia.
        * destruct (iv_snode _ _ _ _ _ _ _ IV i m1 cf b n' l' E Ei) as (-> & _). simpl in Hb. lia.
  Qed.

  Lemma entry_bound j q n l : nth_error tbl j = Some (RS (Some q) n l) -> l <= mx.
  Proof. intros H. apply (iv_tab _ _ _ _ _ _ _ IV j q n l H). Qed.

  (** ** Multiplicities *)
  Definition amount (l : list (list nat * nat)) : nat := list_sum (map snd l).
  Lemma amount_app l l' : amount (l ++ l') = amount l + amount l'.
  Proof. unfold amount. rewrite map_app, list_sum_app. auto. Qed.
  Lemma amount_below p l : amount (below_kid p l) = amount l.
  Proof. unfold amount, below_kid. rewrite map_map. reflexivity. Qed.
  Lemma amount_stop cf : amount (stop cf) = cf.
  Proof. unfold stop. destruct (Nat.eqb_spec cf 0); subst; cbn; lia. Qed.

  Lemma kids_amount (k : nat) (R : nat -> nat -> Prop) : (forall x y x' y', R x y -> R x' y' -> R (x + x') (y + y')) -> R 0 0 ->
    forall m1 b, (forall pc j, In (pc, j) (combine m1 (seq b (length m1))) -> R (amount (leaves k j)) (snd pc)) ->
    R (amount (concat (map (fun pj => below_kid (fst (fst pj)) (leaves k (snd pj))) (combine m1 (seq b (length m1)))))) (total m1).
  Proof.
    intros RA R0. induction m1 as [|pc m1 IH]; intros b H; cbn [combine seq length map concat] in *; auto.
    rewrite amount_app, amount_below. cbn [snd]. change (total (pc :: m1)) with (snd pc + total m1). apply RA.
    - apply (H pc b). left; auto.
    - apply IH. intros. apply H. right; auto.
  Qed.

  Theorem leaves_le k : forall i q n l, nth_error tbl i = Some (RS (Some q) n l) -> amount (leaves k i) <= n.
  Proof.
    induction k as [|k IH]; intros i q n l H; cbn [leaves]; [cbn; lia|].
    destruct (node_of i q n l H) as (m1 & cf & b & E & N). rewrite E, amount_app, amount_stop.
    assert (amount (concat (map (fun pj => below_kid (fst (fst pj)) (leaves k (snd pj))) (combine m1 (seq b (length m1))))) <= total m1).
    { apply (kids_amount k le); [intros; lia|lia|]. intros pc j Hj. destruct (kid_entry _ _ _ _ _ _ _ _ _ N Hj) as (K1 & _). eapply IH; eauto. }
    destruct (nd_sum _ _ _ _ _ _ _ _ _ _ _ _ _ N) as [S|(-> & -> & _)]; cbn in *; lia.
  Qed.

  (** Nothing is lost when the machine has neither dead ends nor paths that are too long. *)
  Theorem leaves_eq k : (forall q, reach (mach f) a q -> trs_of f q <> [] \/ fin_of f q <> None) ->
    (forall p, is_path (mach f) a p -> length p < mx) ->
    forall i q n l, nth_error tbl i = Some (RS (Some q) n l) -> T <= i + k -> amount (leaves k i) = n.
  Proof.
    intros Hd Hm. induction k as [|k IH]; intros i q n l H Hk; cbn [leaves].
    - apply nth_error_lt in H. unfold T, tbl in *. lia.
    - destruct (node_of i q n l H) as (m1 & cf & b & E & N). rewrite E, amount_app, amount_stop.
      assert (amount (concat (map (fun pj => below_kid (fst (fst pj)) (leaves k (snd pj))) (combine m1 (seq b (length m1))))) = total m1).
      { apply (kids_amount k eq); [intros; lia|lia|]. intros pc j Hj. destruct (kid_entry _ _ _ _ _ _ _ _ _ N Hj) as (K1 & K2 & _). eapply IH; eauto. lia. }
      destruct (entry_path i q n l H) as (p & P1 & P2 & P3).
      destruct (nd_sum _ _ _ _ _ _ _ _ _ _ _ _ _ N) as [S|(_ & _ & [S|[S1 S2]])]; [lia| |].
      + specialize (Hm p P1). fold mx in S. lia.
      + exfalso. destruct (Hd q); auto. apply reach_path. exists p. auto.
  Qed.

  (** ** Each drawn path is a path of the machine *)
  Definition drawn (q l : nat) (d : list nat * nat) : Prop :=
    0 < snd d /\ l + length (fst d) < mx /\
    exists p, follow q (fst d) = Some p /\ fin_of f (dst q p) <> None.

  Theorem leaves_drawn k : forall i q n l, nth_error tbl i = Some (RS (Some q) n l) -> Forall (drawn q l) (leaves k i).
  Proof.
    induction k as [|k IH]; intros i q n l H; cbn [leaves]; [constructor|].
    destruct (node_of i q n l H) as (m1 & cf & b & E & N). rewrite E. apply Forall_app. split.
    - apply Forall_forall. intros d Hd. apply in_concat in Hd as (ds & H1 & H2). apply in_map_iff in H1 as ((pc & j) & <- & H1).
      cbn [fst snd] in H2. unfold below_kid in H2. apply in_map_iff in H2 as (d' & <- & H2).
      destruct (kid_entry _ _ _ _ _ _ _ _ _ N H1) as (K1 & K2 & K3 & K4). specialize (IH _ _ _ _ K1). rewrite Forall_forall in IH.
      destruct (IH d' H2) as (D1 & D2 & p & D3 & D4). split; auto. cbn [fst snd length follow]. split; [lia|]. rewrite K4, D3. cbn [option_map].
      exists (att f q (fst pc) :: p). split; auto.
    - unfold stop. destruct (Nat.eqb_spec cf 0); constructor; [|constructor]. split; [simpl; lia|]. cbn [fst length follow]. split.
      + pose proof (entry_bound i q n l H). destruct (Nat.eq_dec l mx) as [e|]; [|lia]. destruct (nd_max _ _ _ _ _ _ _ _ _ _ _ _ _ N e). lia.
      + exists []. split; auto. cbn [dst]. apply (nd_stop _ _ _ _ _ _ _ _ _ _ _ _ _ N). lia.
  Qed.

  (** Different entries are different paths. *)
  Theorem leaves_nodup k : forall i q n l, nth_error tbl i = Some (RS (Some q) n l) -> NoDup (map fst (leaves k i)).
  Proof.
    induction k as [|k IH]; intros i q n l H; cbn [leaves]; [constructor|].
    destruct (node_of i q n l H) as (m1 & cf & b & E & N). rewrite E, map_app.
    assert (G : forall m lo b', asc lo m -> (forall pc j, In (pc, j) (combine m (seq b' (length m))) -> NoDup (map fst (leaves k j))) ->
      NoDup (map fst (concat (map (fun pj => below_kid (fst (fst pj)) (leaves k (snd pj))) (combine m (seq b' (length m)))))) /\
      forall ps, In ps (map fst (concat (map (fun pj => below_kid (fst (fst pj)) (leaves k (snd pj))) (combine m (seq b' (length m)))))) ->
        exists p ps', ps = p :: ps' /\ lo <= p).
    { induction m as [|[p c] m IHm]; intros lo b' A B; cbn [combine seq length map concat].
      - split; [constructor|intros ps []].
      - destruct A as (A1 & A2 & A3). destruct (IHm (S p) (S b') A3) as [G1 G2]; [intros; eapply B; right; eauto|].
        rewrite map_app. cbn [fst snd]. unfold below_kid at 1 3. rewrite !map_map. cbn [fst].
        assert (ND : NoDup (map (fun x : list nat * nat => p :: fst x) (leaves k b'))).
        { specialize (B (p, c) b' (or_introl eq_refl)). rewrite <- (map_map fst (cons p)).
          apply FinFun.Injective_map_NoDup; auto. intros x y [=]. auto. }
        split.
        + revert ND. assert (D : forall x, In x (map (fun x : list nat * nat => p :: fst x) (leaves k b')) ->
            In x (map fst (concat (map (fun pj => below_kid (fst (fst pj)) (leaves k (snd pj))) (combine m (seq (S b') (length m)))))) -> False).
          { intros x X Y. apply in_map_iff in X as (y & <- & _). destruct (G2 _ Y) as (p2 & ps2 & E2 & Hp). injection E2 as <- _. lia. }
          clear - G1 D. induction (map (fun x : list nat * nat => p :: fst x) (leaves k b')) as [|x xs IHx]; intros ND; auto.
          inversion ND; subst. cbn [app]. constructor.
          * intros X. apply in_app_or in X as [X|X]; auto. apply (D x); simpl; auto.
          * apply IHx; auto. intros y Y1 Y2. apply (D y); simpl; auto.
        + intros ps X. apply in_app_or in X as [X|X].
          * apply in_map_iff in X as (y & <- & _). exists p, (fst y). auto.
          * destruct (G2 ps X) as (p' & ps' & -> & Hp). exists p', ps'. split; auto. lia. }
    destruct (G m1 0 b) as [G1 G2]; [apply N| |].
    - intros pc j Hj. destruct (kid_entry _ _ _ _ _ _ _ _ _ N Hj) as (K1 & _). eapply IH; eauto.
    - unfold stop. destruct (cf =? 0); cbn [map fst app]; [rewrite app_nil_r; auto|].
      clear - G1 G2. induction (map fst (concat (map (fun pj => below_kid (fst (fst pj)) (leaves k (snd pj))) (combine m1 (seq b (length m1)))))) as [|x xs IHx].
      + constructor; [intros []|constructor].
      + inversion G1; subst. cbn [app]. constructor.
        * intros X. apply in_app_or in X as [X|[<-|[]]]; auto. destruct (G2 []) as (p & ps' & [=] & _). left; auto.
        * apply IHx; auto. intros ps Hps. apply G2. right; auto.
  Qed.

  (** ** The paths of the expansion *)
  Definition glabs (p : list (tr K)) : list (nat * nat) := map (fun t => (il t, ol t)) p.

  (** The transition of the expansion for choice [pc] at a node. *)
  Definition ktr (q n : nat) (pj : (nat * nat) * nat) : tr K :=
    Tr (il (att f q (fst (fst pj)))) (ol (att f q (fst (fst pj)))) (wk nlog cfg n (snd (fst pj))) (snd pj).

  Definition nof (i : nat) : nat * nat := match nth_error tbl i with Some (RS (Some q) n _) => (q, n) | _ => (0, 0) end.

  (** The paths of the expansion, in the order of the leaves; [reps] says how often stopping
      shows. *)
  Fixpoint gpaths (reps : nat -> nat) (k i : nat) : list (list (tr K)) :=
    match k with
    | 0 => []
    | S k =>
        match nth_error nds i with
        | Some (m1, cf, b) =>
            concat (map (fun pj => map (cons (ktr (fst (nof i)) (snd (nof i)) pj)) (gpaths reps k (snd pj))) (combine m1 (seq b (length m1)))) ++
            repeat [] (reps cf)
        | None => []
        end
    end.

  Lemma kids_ktr q n b m1 : kids nlog cfg f q n b m1 = map (ktr q n) (combine m1 (seq b (length m1))).
  Proof. reflexivity. Qed.

  Lemma nof_of i q n l : nth_error tbl i = Some (RS (Some q) n l) -> nof i = (q, n).
  Proof. unfold nof. intros ->. reflexivity. Qed.

  Lemma ktr_nodup q n b m1 : NoDup (map (ktr q n) (combine m1 (seq b (length m1)))).
  Proof.
    apply (NoDup_map_inv ns). rewrite map_map. cbn [ktr ns].
    assert (E : forall b, map (fun x : nat * nat * nat => snd x) (combine m1 (seq b (length m1))) = seq b (length m1)).
    { induction m1 as [|x m1 IH]; intros b'; cbn; auto. rewrite IH. auto. }
    rewrite E. apply seq_NoDup.
  Qed.

  Section Weighted.
    Hypothesis W : wd = true.
    Let reps (cf : nat) : nat := if cf =? 0 then 0 else 1.

    Lemma gpaths_in k : forall i q n l, nth_error tbl i = Some (RS (Some q) n l) -> T <= i + k ->
      forall p, In p (gpaths reps k i) <-> is_path (mach g) i p /\ fin_of g (dst i p) <> None.
    Proof.
      induction k as [|k IH]; intros i q n l H Hk p; cbn [gpaths].
      - apply nth_error_lt in H. unfold T, tbl in *. lia.
      - destruct (node_of i q n l H) as (m1 & cf & b & E & N). rewrite E, (nof_of _ _ _ _ H). cbn [fst snd].
        pose proof (nd_trs _ _ _ _ _ _ _ _ _ _ _ _ _ N) as Et. pose proof (nd_fin _ _ _ _ _ _ _ _ _ _ _ _ _ N) as Ef.
        fold wd in Et, Ef. rewrite W in Et, Ef. rewrite app_nil_r, kids_ktr in Et. rewrite in_app_iff. destruct p as [|t p].
        + cbn [is_path dst]. rewrite Ef. unfold reps. split.
          * intros [X|X].
            -- apply in_concat in X as (x & X1 & X2). apply in_map_iff in X1 as (pj & <- & _). apply in_map_iff in X2 as (y & [=] & _).
            -- split; auto. destruct (cf =? 0); [destruct X|discriminate].
          * intros [_ X]. right. destruct (cf =? 0); [congruence|left; auto].
        + cbn [is_path dst mach mtrs]. rewrite Et. split.
          * intros [X|X]; [|unfold reps in X; destruct (cf =? 0); [destruct X|destruct X as [[=]|[]]]].
            apply in_concat in X as (x & X1 & X2). apply in_map_iff in X1 as (pj & <- & X1). apply in_map_iff in X2 as (y & [= <- ->] & X2).
            destruct pj as [pc j]. destruct (kid_entry _ _ _ _ _ _ _ _ _ N X1) as (K1 & K2 & _). apply (IH _ _ _ _ K1) in X2 as [Y1 Y2]; [|lia].
            cbn [ktr ns snd]. split; auto. split; auto. apply (in_map (ktr q n)) in X1. auto.
          * intros [[X1 X2] X3]. apply in_map_iff in X1 as ([pc j] & <- & X1). left. apply in_concat.
            destruct (kid_entry _ _ _ _ _ _ _ _ _ N X1) as (K1 & K2 & _). eexists. split.
            -- apply in_map_iff. exists (pc, j). split; [reflexivity|exact X1].
            -- apply in_map. cbn [ktr ns snd] in *. apply (IH _ _ _ _ K1); [lia|]. auto.
    Qed.

    Lemma gpaths_nodup k : forall i q n l, nth_error tbl i = Some (RS (Some q) n l) -> NoDup (gpaths reps k i).
    Proof.
      induction k as [|k IH]; intros i q n l H; cbn [gpaths]; [constructor|].
      destruct (node_of i q n l H) as (m1 & cf & b & E & N). rewrite E, (nof_of _ _ _ _ H). cbn [fst snd].
      apply nodup_app.
      - apply (nodup_blocks (fun pj => gpaths reps k (snd pj)) (ktr q n)); [apply ktr_nodup|]. intros [pc j] X.
        destruct (kid_entry _ _ _ _ _ _ _ _ _ N X) as (K1 & _). eapply IH; eauto.
      - unfold reps. destruct (cf =? 0); repeat constructor. intros [].
      - intros x X Y. apply repeat_spec in Y. subst. apply in_concat in X as (x & X1 & X2). apply in_map_iff in X1 as (pj & <- & _).
        apply in_map_iff in X2 as (y & [=] & _).
    Qed.

    (** Probabilities multiply along a path. *)
    Variable L : lsr_laws K.
    Hypothesis Hlog : forall x y z, 0 < x -> 0 < y -> 0 < z -> (nlog y z * nlog x y)%K = nlog x z.
    Hypothesis Hnp : 0 < rc_npath cfg.

    Theorem gpaths_drawn k : forall i q n l, nth_error tbl i = Some (RS (Some q) n l) -> 0 < n ->
      Forall2 (fun d p => (exists p', follow q (fst d) = Some p' /\ glabs p = glabs p') /\
                          apw (mach g) i p = nlog (if rc_remove cfg then snd d else snd d * rc_npath cfg) n)
              (leaves k i) (gpaths reps k i).
    Proof.
      induction k as [|k IH]; intros i q n l H Hn; cbn [gpaths leaves]; [constructor|].
      destruct (node_of i q n l H) as (m1 & cf & b & E & N). rewrite E, (nof_of _ _ _ _ H). cbn [fst snd].
      pose proof (nd_fin _ _ _ _ _ _ _ _ _ _ _ _ _ N) as Ef. fold wd in Ef. rewrite W in Ef. apply Forall2_app.
      - apply (forall2_concat _ (fun pj => below_kid (fst (fst pj)) (leaves k (snd pj))) (fun pj => map (cons (ktr q n pj)) (gpaths reps k (snd pj)))).
        intros [pc j] X. destruct (kid_entry _ _ _ _ _ _ _ _ _ N X) as (K1 & K2 & K3 & K4). cbn [fst snd].
        unfold below_kid. apply forall2_map. specialize (IH _ _ _ _ K1 K3).
        pose proof (leaves_drawn k _ _ _ _ K1) as D. revert D. induction IH as [|d p ds ps (HL & HW) _ IHs]; intros D; constructor.
        + inversion D as [|? ? D1 D2]. subst. destruct HL as (p' & F1 & F2). cbn [fst snd follow]. rewrite K4, F1. split.
          * exists (att f q (fst pc) :: p'). split; auto. cbn [glabs map ktr fst snd]. unfold glabs in F2. rewrite F2. reflexivity.
          * unfold apw in *. cbn [pw dst ktr wgt ns fst snd]. rewrite <- (ktimes_assoc _ L), HW. unfold wk. fold wd. rewrite W.
            destruct D1 as (D1 & _). destruct (rc_remove cfg); apply Hlog; auto. nia.
        + inversion D; subst. auto.
      - unfold stop, reps. destruct (Nat.eqb_spec cf 0); constructor; [|constructor]. cbn [fst snd follow]. split; [exists []; auto|].
        unfold apw. cbn [pw dst mach mfin]. rewrite Ef, (ktimes_1_l _ L). unfold fw, wfin. destruct (rc_remove cfg); reflexivity.
    Qed.
  End Weighted.

  Section Unweighted.
    Hypothesis W : wd = false.

    Definition isf (s : nat) : bool := match fin_of g s with Some _ => true | None => false end.
    (** The paths of the expansion up to the superfinal state, without the last transition. *)
    Fixpoint gl (k s : nat) : list (list (tr K)) :=
      match k with
      | 0 => []
      | S k => flat_map (fun t => if isf (ns t) then [[]] else map (cons t) (gl k (ns t))) (trs_of g s)
      end.

    Lemma reg_nonfinal i q n l : nth_error tbl i = Some (RS (Some q) n l) -> isf i = false.
    Proof.
      intros H. destruct (node_of i q n l H) as (m1 & cf & b & E & N). pose proof (nd_fin _ _ _ _ _ _ _ _ _ _ _ _ _ N) as Ef.
      fold wd in Ef. rewrite W in Ef. unfold isf. rewrite Ef. reflexivity.
    Qed.
    Lemma super_final z : ro_super o = Some z -> isf z = true /\ trs_of g z = [].
    Proof.
      intros H. destruct (iv_super _ _ _ _ _ _ _ IV z H) as [E _]. pose proof (nth_error_lt _ _ _ E) as Hz. rewrite <- LN in Hz.
      destruct (nth_error_ex nds z Hz) as ([[m1 cf] b] & En). destruct (iv_snode _ _ _ _ _ _ _ IV z m1 cf b _ _ En E) as (_ & _ & A & B).
      unfold isf. rewrite B. auto.
    Qed.
    Lemma final_super z : isf z = true -> ro_super o = Some z.
    Proof.
      intros H. unfold isf in H. destruct (fin_of g z) eqn:E; [|discriminate].
      destruct (Nat.lt_ge_cases z (length tbl)) as [Hz|Hz].
      - destruct (nth_error_ex tbl z Hz) as ([[q|] n l] & Ez).
        + apply reg_nonfinal in Ez. unfold isf in Ez. rewrite E in Ez. discriminate.
        + eapply iv_none; eauto.
      - destruct (iv_rest _ _ _ _ _ _ _ IV z) as [_ X]; [rewrite LN; exact Hz|congruence].
    Qed.

    Lemma gl_gpaths k : forall i q n l, nth_error tbl i = Some (RS (Some q) n l) -> gl k i = gpaths (fun c => c) k i.
    Proof.
      induction k as [|k IH]; intros i q n l H; cbn [gpaths gl]; auto.
      destruct (node_of i q n l H) as (m1 & cf & b & E & N). rewrite E, (nof_of _ _ _ _ H). cbn [fst snd].
      rewrite (nd_trs _ _ _ _ _ _ _ _ _ _ _ _ _ N). fold wd. rewrite W, flat_map_app. f_equal.
      - rewrite kids_ktr, flat_map_concat_map, map_map. f_equal. apply map_ext_in. intros [pc j] X.
        destruct (kid_entry _ _ _ _ _ _ _ _ _ N X) as (K1 & _). cbn [ktr ns snd]. rewrite (reg_nonfinal _ _ _ _ K1), (IH _ _ _ _ K1). reflexivity.
      - destruct (ro_super o) as [z|] eqn:Es.
        + destruct (super_final z Es) as [Z _]. unfold stops. clear - Z. induction cf; cbn; auto. rewrite Z, IHcf. reflexivity.
        + destruct cf; auto. exfalso. apply (nd_sup _ _ _ _ _ _ _ _ _ _ _ _ _ N); auto. lia.
    Qed.

    Definition expand (l : list (list nat * nat)) : list (list nat) := flat_map (fun d => repeat (fst d) (snd d)) l.
    Lemma expand_length l : length (expand l) = amount l.
    Proof. unfold expand, amount. induction l as [|d l IH]; cbn; auto. rewrite app_length, repeat_length, IH. reflexivity. Qed.

    Theorem gpaths_expand k : forall i q n l, nth_error tbl i = Some (RS (Some q) n l) ->
      Forall2 (fun ps p => exists p', follow q ps = Some p' /\ glabs p = glabs p') (expand (leaves k i)) (gpaths (fun c => c) k i).
    Proof.
      induction k as [|k IH]; intros i q n l H; cbn [gpaths leaves]; [constructor|].
      destruct (node_of i q n l H) as (m1 & cf & b & E & N). rewrite E, (nof_of _ _ _ _ H). cbn [fst snd].
      unfold expand. rewrite flat_map_app. apply Forall2_app.
      - assert (X : forall xs : list (nat * nat * nat), flat_map (fun d : list nat * nat => repeat (fst d) (snd d)) (concat (map (fun pj => below_kid (fst (fst pj)) (leaves k (snd pj))) xs)) =
          concat (map (fun pj => map (cons (fst (fst pj))) (expand (leaves k (snd pj)))) xs)).
        { induction xs as [|x xs IHx]; cbn [flat_map map concat]; auto. rewrite flat_map_app, IHx. f_equal. clear.
          unfold expand, below_kid. induction (leaves k (snd x)) as [|d ds IHd]; auto. cbn [map concat flat_map fst snd]. rewrite map_app, IHd. f_equal.
          clear. induction (snd d); cbn; congruence. }
        rewrite X. apply forall2_concat. intros [pc j] Y. destruct (kid_entry _ _ _ _ _ _ _ _ _ N Y) as (K1 & K2 & K3 & K4). cbn [fst snd].
        apply forall2_map. eapply forall2_impl; [|eapply IH; eauto]. cbn beta. intros ps p (p' & F1 & F2).
        cbn [follow]. rewrite K4, F1. exists (att f q (fst pc) :: p'). split; auto. cbn [glabs map ktr fst snd]. unfold glabs in F2. rewrite F2. reflexivity.
      - unfold stop. destruct (Nat.eqb_spec cf 0); [subst; constructor|]. cbn [flat_map fst snd]. rewrite app_nil_r. clear.
        induction cf; constructor; auto. exists []. auto.
    Qed.
  End Unweighted.
End T.
