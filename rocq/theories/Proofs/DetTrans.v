(** Determinization of transducers: what the machine with output strings in its weights denotes. *)
From Coq Require Import List Arith NArith Bool Lia Permutation.
From Verif Require Import Base.Util Base.Semiring Base.Machine Base.PropSpec Model.Props Model.AlgoProps Model.VectorFst Model.History Model.TrOps
  Model.BiMap Model.Lazy Model.Rational Model.ShortestPath Model.Weights Model.Determinize Model.TrMap Model.FactorWeight Model.Compose Model.Reweight Model.Gallic Model.DetTransducer.
From Verif Require Import Proofs.VectorFacts Proofs.OpFacts Proofs.RationalFacts Proofs.TrOpsFacts Proofs.BiMapFacts Proofs.LazyFacts Proofs.TableFacts Proofs.ComposeFacts
  Proofs.FactorTable Proofs.DetTable Proofs.DetFacts Proofs.BagFacts Proofs.FactorFacts Proofs.GallicFacts Proofs.GallicPath Proofs.RandTree Props.C31 Props.C39 Props.C38.
Import ListNotations.
Local Open Scope K_scope.

(** [y] without the prefix [s]. *)
Fixpoint chop (s y : list nat) : option (list nat) :=
  match s with
  | [] => Some y
  | a :: s' => match y with [] => None | b :: y' => if Nat.eqb a b then chop s' y' else None end
  end.
Lemma chop_app s1 : forall s2 y, chop (s1 ++ s2) y = match chop s1 y with Some y' => chop s2 y' | None => None end.
Proof. induction s1 as [|a s1 IH]; intros s2 [|b y]; cbn; auto. destruct (Nat.eqb a b); auto. Qed.
Lemma chop_nil s y : chop s y = Some [] <-> y = s.
Proof.
  split.
  - revert y. induction s as [|a s IH]; intros [|b y]; cbn; try congruence. destruct (Nat.eqb_spec a b) as [->|]; [|discriminate]. intros H. f_equal; auto.
  - intros ->. induction s as [|a s IH]; cbn; auto. rewrite Nat.eqb_refl. auto.
Qed.
Lemma list_eqb_eq a : forall b, list_eqb a b = true -> a = b.
Proof.
  induction a as [|x a IH]; intros [|y b]; cbn; auto; try discriminate. rewrite andb_true_iff, Nat.eqb_eq. intros [-> H]. f_equal. auto.
Qed.

Definition prefix (a b : list nat) : Prop := exists c, b = (a ++ c)%list.
Lemma divisor_prefix x y z : label_divisor x y = Ok z -> exists s, z = Some s /\ (length s <= 1)%nat /\
  (forall a, x = Some a -> prefix s a) /\ (forall b, y = Some b -> prefix s b).
Proof.
  destruct x as [[|a x]|], y as [[|b y]|]; cbn; try discriminate; intros [= <-];
    try (exists []; repeat split; auto; intros ? ?; eexists; cbn; reflexivity).
  - destruct (Nat.eqb_spec a b) as [->|].
    + exists [b]. repeat split; auto; intros ? [= <-]; eexists; cbn; reflexivity.
    + exists []. repeat split; auto; intros ? _; eexists; cbn; reflexivity.
  - exists [a]. repeat split; auto; [intros ? [= <-]; eexists; cbn; reflexivity|discriminate].
  - exists [b]. repeat split; auto; [discriminate|intros ? [= <-]; eexists; cbn; reflexivity].
Qed.
Lemma prefix_trans a b c : prefix a b -> prefix b c -> prefix a c.
Proof. intros [u ->] [v ->]. exists (u ++ v)%list. rewrite app_assoc. auto. Qed.

Lemma get_trs_ok {K : SR} (f : vfst K) s l : get_trs f s = Ok l -> trs_of f s = l.
Proof. unfold get_trs, get_state, trs_of. destruct (nth_error (vstates f) s); cbn; congruence. Qed.
Lemma final_ok {K : SR} (f : vfst K) s o : final_weight f s = Ok o -> fin_of f s = o.
Proof. unfold final_weight, get_state, fin_of. destruct (nth_error (vstates f) s); cbn; congruence. Qed.

Section R.
  Context {K : SR} (L : sr_laws K) (divide : K -> K -> Reweight.divide_type -> res K) (quant : K -> K) (left : bool).
  Context (DX : exact_division (fun a b => divide a b Reweight.DivideLeft) quant).
  Notation G := (gallicSR K).
  Notation D := (restrict_weight divide quant left).
  Context (ord : dtuple G -> nat -> list (nat * G) -> list (nat * G)) (HO : any_order ord).
  Let LG : lsr_laws G := gallicSR_laws K L.

  (** ** Weights as transformations of what is still to be written *)
  Definition act (k : G) (F : list nat -> K) (y : list nat) : K :=
    match fst k with
    | Some s => match chop s y with Some y' => snd k * F y' | None => 0 end
    | None => 0
    end.
  Definition done (y : list nat) : K := if isnil y then 1 else 0.

  (** The same weights with a sum that refuses the pairs without string but with a weight, which
      never occur. *)
  Definition odd (x : G) : bool := match fst x with None => negb (keqb (snd x) 0) | Some _ => false end.
  Definition D2 : det_weight G :=
    DW (K := G) (fun x y => if odd x || odd y then Err else d_plus D x y) (d_cd D) (d_div D) (d_quant D) (d_left D).

  Lemma act_ext k F H : (forall y, F y = H y) -> forall y, act k F y = act k H y.
  Proof. intros E y. unfold act. destruct (fst k) as [s|]; auto. destruct (chop s y); auto. rewrite E. auto. Qed.
  Lemma act_0 F y : act 0 F y = 0.
  Proof. reflexivity. Qed.
  Lemma act_zero k y : act k (fun _ => 0) y = 0.
  Proof. unfold act. destruct (fst k) as [s|]; auto. destruct (chop s y); auto. apply (ktimes_0_r _ L). Qed.
  Lemma act_sum k F H y : act k (fun y => F y + H y) y = act k F y + act k H y.
  Proof.
    unfold act. destruct (fst k) as [s|]; [|symmetry; apply (kplus_0_l _ L)]. destruct (chop s y); [|symmetry; apply (kplus_0_l _ L)]. apply (kdistr_l _ L).
  Qed.
  Lemma act_1 F y : act 1 F y = F y.
  Proof. unfold act. cbn. apply (ktimes_1_l _ L). Qed.
  Lemma act_mul a b F y : act (a * b) F y = act a (act b F) y.
  Proof.
    unfold act. cbn [fst snd ktimes gallicSR gallic_of sv_times]. destruct a as [[s|] v], b as [[r|] w]; cbn [fst snd sv_times]; auto.
    - rewrite chop_app. destruct (chop s y) as [y'|]; auto. destruct (chop r y'); [|symmetry; apply (ktimes_0_r _ L)]. symmetry. apply (ktimes_assoc _ L).
    - destruct (chop s y); auto. symmetry. apply (ktimes_0_r _ L).
  Qed.
  Lemma act_plus a b c F y : d_plus D2 a b = Ok c -> act c F y = act a F y + act b F y.
  Proof.
    cbn [D2 d_plus restrict_weight]. destruct a as [[s|] v], b as [[r|] w]; unfold odd; cbn [fst snd orb restrict_plus rbind]; try discriminate.
    - destruct (list_eqb s r) eqn:E; [|discriminate]. apply list_eqb_eq in E. subst r. intros [= <-]. unfold act. cbn [fst snd].
      destruct (chop s y); [|symmetry; apply (kplus_0_l _ L)]. apply (kdistr_r _ L).
    - destruct (keqbP L w 0) as [->|]; [|discriminate]. intros [= <-]. unfold act. cbn [fst snd]. rewrite !(kplus_0_r L). auto.
    - destruct (keqbP L v 0) as [->|]; [|discriminate]. intros [= <-]. unfold act. cbn [fst snd]. rewrite !(kplus_0_l _ L). auto.
    - destruct (keqb v 0), (keqb w 0); try discriminate. intros [= <-]. unfold act. cbn [fst]. symmetry. apply (kplus_0_l _ L).
  Qed.

  (** The divisor of a list of weights: its string is a prefix of all, its weight their sum. *)
  Lemma divisor_fold (l : list (nat * G)) : forall a d, rfold (fun d e => d_cd D d (snd e)) l a = Ok d ->
    snd d = snd a + ksum (map (fun e => snd (snd e)) l) /\
    (l <> [] -> exists s, fst d = Some s /\ (length s <= 1)%nat /\ (forall b, fst a = Some b -> prefix s b) /\
       forall e b, In e l -> fst (snd e) = Some b -> prefix s b).
  Proof.
    induction l as [|e l IH]; intros a d.
    - intros [= <-]. cbn [map ksum]. split; [symmetry; apply (kplus_0_r L)|congruence].
    - rewrite rfold_cons. cbn [d_cd restrict_weight]. destruct (label_divisor (fst a) (fst (snd e))) as [s0| |] eqn:E; cbn [rbind]; try discriminate. intros H.
      destruct (divisor_prefix _ _ _ E) as (s1 & -> & S1 & S2 & S3).
      destruct (IH _ _ H) as [I1 I2]. cbn [fst snd] in I1, I2. cbn [map ksum]. split; [rewrite I1; symmetry; apply (kplus_assoc _ L)|]. intros _.
      destruct l as [|e' l].
      + injection H as <-. exists s1. cbn [fst]. split; auto. split; auto. split; auto. intros e0 b [<-|[]]; auto.
      + destruct I2 as (s & J1 & J2 & J3 & J4); [discriminate|]. exists s. split; auto. split; auto. specialize (J3 s1 eq_refl). split.
        * intros b Hb. eapply prefix_trans; eauto.
        * intros e0 b [<-|Hin] Hb; [eapply prefix_trans; eauto|]. eapply J4; eauto.
  Qed.
  Lemma np_add_in (D' : det_weight G) m x m' q w : np_add D' m x = Ok m' -> In (q, w) m' ->
    In (q, w) m \/ (q, w) = x \/ exists w0, In (q, w0) m /\ d_plus D' w0 (snd x) = Ok w.
  Proof.
    revert m'. induction m as [|[p v] m IH]; intros m'; cbn [np_add].
    - intros [= <-] [E|[]]; auto.
    - destruct (Nat.eqb p (fst x)).
      + destruct (d_plus D' v (snd x)) as [v'| |] eqn:E; cbn [rbind]; try discriminate. intros [= <-] [H|H]; [|left; right; auto].
        injection H as <- <-. right. right. exists v. split; [left; auto|auto].
      + destruct (np_add D' m x) as [r| |]; cbn [rbind]; try discriminate. intros [= <-] [H|H]; [left; left; auto|].
        destruct (IH r eq_refl H) as [I|[I|(w0 & I & P)]]; [left; right; auto|auto|right; right; exists w0; split; [right; auto|auto]].
  Qed.
  Lemma plus2_string a b c s : d_plus D2 a b = Ok c -> fst c = Some s -> fst a = Some s \/ fst b = Some s.
  Proof.
    cbn [D2 d_plus]. destruct (odd a || odd b); [discriminate|]. cbn [restrict_weight d_plus]. destruct (fst a) as [x|], (fst b) as [y|]; cbn [restrict_plus rbind]; intros E.
    - destruct (list_eqb x y); [|discriminate]. injection E as <-. auto.
    - injection E as <-. auto.
    - injection E as <-. auto.
    - injection E as <-. cbn. discriminate.
  Qed.
  Lemma merge_string l : forall m m' q w s, rfold (np_add D2) l m = Ok m' -> In (q, w) m' -> fst w = Some s ->
    (exists w0, In (q, w0) m /\ fst w0 = Some s) \/ exists e, In e l /\ fst (snd e) = Some s.
  Proof.
    induction l as [|x l IH]; intros m m' q w s.
    - intros [= <-] H E. left. eauto.
    - rewrite rfold_cons. destruct (np_add D2 m x) as [r| |] eqn:Er; cbn [rbind]; try discriminate. intros H I E.
      destruct (IH _ _ _ _ _ H I E) as [(w0 & I0 & E0)|(e & I0 & E0)]; [|right; exists e; split; [right; auto|auto]].
      destruct (np_add_in D2 _ _ _ _ _ Er I0) as [J|[J|(w1 & J & P)]].
      + left. eauto.
      + right. exists x. split; [left; auto|]. rewrite <- J. auto.
      + destruct (plus2_string _ _ _ _ P E0) as [Q|Q]; [left; eauto|right; exists x; split; [left; auto|auto]].
  Qed.
  Lemma np_add_weight m x m' : np_add D2 m x = Ok m' -> ksum (map (fun e => snd (snd e)) m') = ksum (map (fun e => snd (snd e)) m) + snd (snd x).
  Proof.
    revert m'. induction m as [|[p v] m IH]; intros m'; cbn [np_add].
    - intros [= <-]. cbn [map ksum]. apply (kplus_comm _ L).
    - destruct (Nat.eqb p (fst x)).
      + destruct (d_plus D2 v (snd x)) as [v'| |] eqn:E; cbn [rbind]; try discriminate. intros [= <-]. cbn [map ksum snd].
        assert (snd v' = snd v + snd (snd x)) as ->.
        { revert E. cbn [D2 d_plus]. destruct (odd v || odd (snd x)); [discriminate|]. cbn [restrict_weight d_plus]. destruct (restrict_plus _ _); cbn [rbind]; try discriminate. intros [= <-]. auto. }
        rewrite <- !(kplus_assoc _ L). f_equal. apply (kplus_comm _ L).
      + destruct (np_add D2 m x) as [r| |]; cbn [rbind]; try discriminate. intros [= <-]. cbn [map ksum snd]. rewrite (IH r eq_refl). apply (kplus_assoc _ L).
  Qed.
  Lemma merge_weight l : forall m m', rfold (np_add D2) l m = Ok m' ->
    ksum (map (fun e => snd (snd e)) m') = ksum (map (fun e => snd (snd e)) m) + ksum (map (fun e => snd (snd e)) l).
  Proof.
    induction l as [|x l IH]; intros m m'.
    - intros [= <-]. cbn [map ksum]. symmetry. apply (kplus_0_r L).
    - rewrite rfold_cons. destruct (np_add D2 m x) as [r| |] eqn:E; cbn [rbind]; try discriminate. intros H.
      rewrite (IH _ _ H), (np_add_weight _ _ _ E). cbn [map ksum]. symmetry. apply (kplus_assoc _ L).
  Qed.

  Lemma act_div l d m q w z F y : rfold (fun d e => d_cd D2 d (snd e)) l 0 = Ok d -> rfold (np_add D2) l [] = Ok m ->
    In (q, w) m -> d_div D2 w d = Ok z -> act d (act (d_quant D2 z) F) y = act w F y.
  Proof.
    intros Ed Em I Ez. cbn [D2 d_cd d_div d_quant] in *. destruct (divisor_fold l 0 d Ed) as [Wd Sd].
    destruct l as [|e0 l0]; [injection Em as <-; destruct I|]. destruct Sd as (s & S1 & _ & _ & S4); [discriminate|].
    assert (exists r, snd d = snd w + r) as [r Er].
    { apply merge_weight in Em. cbn [map ksum] in Em. rewrite (kplus_0_l _ L) in Em. cbn [fst snd kzero gallicSR gallic_of] in Wd. rewrite (kplus_0_l _ L) in Wd.
      cbn [map ksum] in Wd. rewrite Wd, <- Em. apply in_split in I as (m1 & m2 & ->). rewrite map_app. cbn [map snd]. exists (ksum (map (fun e : nat * G => snd (snd e)) (m1 ++ m2))).
      rewrite map_app, !(ksum_app L). cbn [ksum]. rewrite !(kplus_assoc _ L). f_equal. apply (kplus_comm _ L). }
    cbn [restrict_weight d_div] in Ez. rewrite S1 in Ez. destruct w as [[b|] v]; cbn [fst snd divide_left rbind] in *.
    - destruct (divide v (snd d) Reweight.DivideLeft) as [c| |] eqn:Ec; cbn [rbind] in Ez; try discriminate. injection Ez as <-.
      destruct (merge_string _ _ _ _ _ _ Em I eq_refl) as [(w0 & [] & _)|(e & Ie & Ee)]. destruct (S4 e b Ie Ee) as [b' ->].
      unfold act. cbn [restrict_weight d_quant fst snd]. rewrite S1, skipn_app, skipn_all, Nat.sub_diag. cbn [skipn app]. rewrite chop_app.
      destruct (chop s y) as [y'|]; auto. destruct (chop b' y') as [y2|]; [|apply (ktimes_0_r _ L)].
      rewrite (ktimes_assoc _ L). f_equal. rewrite Er in *. apply DX. exact Ec.
    - destruct (divide v (snd d) Reweight.DivideLeft) as [c| |] eqn:Ec; cbn [rbind] in Ez; try discriminate. injection Ez as <-.
      unfold act. cbn [restrict_weight d_quant fst snd]. rewrite S1. destruct (chop s y); auto. apply (ktimes_0_r _ L).
  Qed.

  (** ** The subsets met *)
  Definition good (w : G) : Prop := exists s c, w = (Some s, c) /\ ~ In O s.
  Context (f : vfst G) (Gt : forall s t, In t (trs_of f s) -> good (wgt t)) (Gf : forall s w, fin_of f s = Some w -> good w).
  Definition goods (l : list (nat * G)) : Prop := forall e, In e l -> good (snd e).

  Lemma good_times a b : good a -> good b -> good (a * b).
  Proof. intros (s & c & -> & N) (r & e & -> & M). exists (s ++ r)%list, (c * e). split; auto. rewrite in_app_iff. tauto. Qed.
  Lemma good_plus a b : good a -> good b -> d_plus D2 a b = d_plus D a b.
  Proof. intros (s & c & -> & _) (r & e & -> & _). reflexivity. Qed.
  Lemma plus_good a b c : good a -> good b -> d_plus D a b = Ok c -> good c.
  Proof.
    intros (s & v & -> & N) (r & e & -> & _). cbn. destruct (list_eqb s r); cbn; [|discriminate]. intros [= <-]. exists s, (v + e). auto.
  Qed.
  Lemma add_same m x : goods m -> good (snd x) -> np_add D2 m x = np_add D m x.
  Proof.
    induction m as [|[q w] m IH]; intros H Hx; auto. cbn [np_add]. rewrite IH by (auto; intros e He; apply H; right; auto).
    rewrite good_plus; auto. apply (H (q, w)). left. auto.
  Qed.
  Lemma add_good m x m' : goods m -> good (snd x) -> np_add D m x = Ok m' -> goods m'.
  Proof.
    intros H Hx E [q w] I. destruct (np_add_in D _ _ _ _ _ E I) as [J|[J|(w0 & J & P)]].
    - apply (H _ J). - rewrite <- J in Hx. auto. - cbn [snd]. eapply plus_good; [exact (H _ J)|exact Hx|exact P].
  Qed.
  Lemma merge_same l : forall m, goods m -> goods l -> rfold (np_add D2) l m = rfold (np_add D) l m /\ forall m', rfold (np_add D) l m = Ok m' -> goods m'.
  Proof.
    induction l as [|x l IH]; intros m Hm Hl.
    - split; auto. intros m' [= <-]. auto.
    - rewrite !rfold_cons. assert (Hx : good (snd x)) by (apply Hl; left; auto). rewrite add_same by auto.
      destruct (np_add D m x) as [r| |] eqn:E; cbn [rbind]; [|split; auto; discriminate..]. apply IH.
      + exact (add_good m x r Hm Hx E).
      + intros e He. apply Hl. right. auto.
  Qed.
  Lemma isort_in {A} le (l : list A) x : In x (isort le l) <-> In x l.
  Proof. split; apply Permutation_in; [|apply Permutation_sym]; apply isort_perm. Qed.
  Lemma norm_same t a l : goods l -> norm_tr D2 ord t a l = norm_tr D ord t a l /\
    forall d r, norm_tr D ord t a l = Ok (d, r) -> goods r /\ (l <> [] -> exists s, fst d = Some s /\ (length s <= 1)%nat /\ ~ In O s).
  Proof.
    intros H. unfold norm_tr. set (k := isort _ l). assert (Hk : goods k) by (intros e He; apply H; apply isort_in in He; auto).
    destruct (merge_same k [] ltac:(intros e []) Hk) as [-> Hm]. split; auto. intros d r.
    destruct (rfold (fun d e => d_cd D d (snd e)) k 0) as [d0| |] eqn:Ed; cbn [rbind]; try discriminate.
    destruct (rfold (np_add D) k []) as [m| |] eqn:Em; cbn [rbind]; try discriminate. specialize (Hm m eq_refl).
    destruct (rtrav _ (ord t a m)) as [r0| |] eqn:Er; cbn [rbind]; try discriminate. intros [= <- <-].
    destruct (divisor_fold k 0 d0 Ed) as [_ Sd]. split.
    - intros e He. apply rtrav_ok in Er. destruct (Forall2_in_r _ _ _ _ Er He) as (e0 & I0 & E0).
      assert (Ge : good (snd e0)) by (apply Hm; eapply Permutation_in; [apply HO|exact I0]). destruct Ge as (b & v & Eb & Nb). rewrite Eb in E0.
      cbn [restrict_weight d_div d_quant fst snd] in E0. destruct (fst d0) as [s|]; cbn [divide_left rbind] in E0; [|discriminate].
      destruct (divide v (snd d0) Reweight.DivideLeft) as [c| |]; cbn [rbind] in E0; try discriminate. injection E0 as <-. cbn [snd fst].
      exists (skipn (length s) b), (quant c). split; auto. intros I. apply Nb. rewrite <- (firstn_skipn (length s) b). apply in_or_app. auto.
    - intros Nl. destruct Sd as (s & S1 & S2 & _ & S4).
      { intros E. apply Nl. destruct l as [|x l]; auto. assert (X : In x k) by (apply isort_in; left; auto). rewrite E in X. destruct X. }
      exists s. split; auto. split; auto. destruct l as [|x l]; [congruence|]. destruct (H x) as (b & c & Eb & Nb); [left; auto|].
      destruct (S4 x b) as [b' ->]; [apply isort_in; left; auto|rewrite Eb; auto|]. intros I. apply Nb. apply in_or_app. auto.
  Qed.
  Definition gtuple (t : dtuple G) : Prop := goods (fst t).
  Lemma out_good l : goods l -> forall o, det_out f l = Ok o -> forall x, In x o -> good (snd (snd x)).
  Proof.
    induction l as [|e l IH]; intros H o; cbn [det_out].
    - intros [= <-] x [].
    - destruct (get_trs f (fst e)) as [ts| |] eqn:Et; cbn [rbind]; try discriminate. destruct (det_out f l) as [r| |]; cbn [rbind]; try discriminate.
      intros [= <-] x Hx. apply in_app_or in Hx as [Hx|Hx]; [|apply (IH ltac:(intros e' He; apply H; right; auto) r eq_refl x Hx)].
      apply in_map_iff in Hx as (t & <- & Ht). cbn [snd]. apply good_times; [apply H; left; auto|]. apply (Gt (fst e)).
      rewrite (get_trs_ok _ _ _ Et). auto.
  Qed.
  Lemma map_good o : (forall x, In x o -> good (snd (snd x))) -> forall p, In p (fold_left (lm_push (K := G)) o []) -> goods (snd p) /\ snd p <> [].
  Proof.
    intros H p Hp. split; [|eapply (lm_nonempty (K := G)); [|exact Hp]; intros ? []].
    intros e He. destruct (lm_fold (K := G) o [] (Sorted.SSorted_nil _)) as [_ P]. cbn [app unmap flat_map] in P.
    apply (H (fst p, e)). eapply Permutation_in; [exact P|]. unfold unmap. apply in_flat_map. exists p. split; auto. apply in_map_iff. eauto.
  Qed.
  Lemma rtrav_ext {A B} (g1 g2 : A -> res B) l : (forall x, In x l -> g1 x = g2 x) -> rtrav g1 l = rtrav g2 l.
  Proof. induction l as [|a l IH]; intros H; auto. cbn [rtrav]. rewrite (H a) by (left; auto). rewrite IH by (intros; apply H; right; auto). auto. Qed.
  Lemma trs_same t : gtuple t -> det_trs D2 ord f t = det_trs D ord f t /\
    forall l u, det_trs D ord f t = Ok l -> In u l -> gtuple (tn u) /\ exists s, fst (tw u) = Some s /\ (length s <= 1)%nat /\ ~ In O s.
  Proof.
    intros H. unfold det_trs. destruct (det_out f (fst t)) as [o| |] eqn:Eo; cbn [rbind]; [|split; auto; discriminate..].
    pose proof (map_good o (out_good _ H o Eo)) as M. split.
    - apply rtrav_ext. intros p Hp. destruct (norm_same t (fst p) (snd p) (proj1 (M p Hp))) as [-> _]. auto.
    - intros l u E Hu. apply rtrav_ok in E. destruct (Forall2_in_r _ _ _ _ E Hu) as (p & Hp & Ep). destruct (M p Hp) as [M1 M2].
      destruct (norm_tr D ord t (fst p) (snd p)) as [[d r]| |] eqn:En; cbn [rbind] in Ep; try discriminate. injection Ep as <-. cbn [tn tw fst snd].
      destruct (norm_same t (fst p) (snd p) M1) as [_ N]. destruct (N d r En) as [N1 N2]. split; auto.
  Qed.
  Definition okacc (a : G) : Prop := a = 0 \/ good a.
  Lemma ok_odd a : okacc a -> odd a = false.
  Proof.
    intros [->|(s & c & -> & _)]; unfold odd; cbn; auto. destruct (keqbP L (0 : K) 0) as [|N]; auto. destruct (N eq_refl).
  Qed.
  Lemma ok_plus a b c : okacc a -> okacc b -> d_plus D a b = Ok c -> okacc c.
  Proof.
    intros [->|Ha] [->|Hb].
    - cbn. intros [= <-]. left. cbn. f_equal. apply (kplus_0_l _ L).
    - destruct Hb as (s & v & -> & N). cbn. intros [= <-]. right. exists s, (0 + v). auto.
    - destruct Ha as (s & v & -> & N). cbn. intros [= <-]. right. exists s, (v + 0). auto.
    - intros H. right. exact (plus_good a b c Ha Hb H).
  Qed.
  Lemma fin_same t : gtuple t -> det_fin D2 f t = det_fin D f t /\ forall w, det_fin D f t = Ok (Some w) -> good w.
  Proof.
    intros H. unfold det_fin.
    set (step := fun (Dw : det_weight G) (acc : G) (e : nat * G) => o <-- final_weight f (fst e) ;; d_plus Dw acc (snd e * match o with Some z => z | None => 0 end)).
    assert (X : forall l a, goods l -> okacc a -> rfold (step D2) l a = rfold (step D) l a /\ forall w, rfold (step D) l a = Ok w -> okacc w).
    { induction l as [|e l IH]; intros a Hl Ha; [split; auto; intros w [= <-]; auto|]. rewrite !rfold_cons. unfold step at 1 3 5.
      destruct (final_weight f (fst e)) as [o| |] eqn:Eo; cbn [rbind]; [|split; auto; discriminate..].
      assert (Hp : okacc (snd e * match o with Some z => z | None => 0 end)).
      { destruct (Hl e) as (s & c & Ee & N); [left; auto|]. rewrite Ee. destruct o as [z|].
        - right. apply good_times; [exists s, c; auto|]. exact (Gf (fst e) z (final_ok _ _ _ Eo)).
        - left. cbn. f_equal. apply (ktimes_0_r _ L). }
      assert (E2 : d_plus D2 a (snd e * match o with Some z => z | None => 0 end) = d_plus D a (snd e * match o with Some z => z | None => 0 end)).
      { cbn [D2 d_plus]. rewrite !ok_odd by auto. auto. }
      rewrite E2. destruct (d_plus D a _) as [a'| |] eqn:Ea; cbn [rbind]; [|split; auto; discriminate..].
      apply IH; [intros e' He; apply Hl; right; auto|]. exact (ok_plus a _ a' Ha Hp Ea). }
    destruct (X (fst t) 0 H (or_introl eq_refl)) as [X1 X2]. unfold step in X1, X2. rewrite X1. split; auto.
    intros w E. clear X1. destruct (rfold _ (fst t) 0) as [v| |] eqn:Ev; cbn [rbind] in E; try discriminate.
    destruct (X2 v eq_refl) as [->|Gv].
    - exfalso. destruct (keqb (0 : G) 0) eqn:Z; [discriminate|]. apply (keqb_false LG) in Z. auto.
    - destruct (keqb v 0); [discriminate|]. injection E as <-. auto.
  Qed.
  Lemma gstart t : det_start f = Ok (Some t) -> gtuple t.
  Proof. unfold det_start. destruct (vstart f); [|discriminate]. intros [= <-] e [<-|[]]. exists [], 1. auto. Qed.

  Section Built.
    Context {C : Type} (z : bimap (dtuple G) * C) (g : vfst G)
      (ZU : forall t, In t (id_to_tuple (fst z)) -> gtuple t)
      (B : built (tS (det_start f)) (tT (det_trs D ord f)) (tF (det_fin D f)) g z).
    Lemma gallic_trs (P : list (tr G) -> Prop) : P [] -> (forall l, ~ ~ P l -> P l) ->
      (forall t l, gtuple t -> det_trs D ord f t = Ok l -> forall m, Forall2 (fun (x : tr G) u => il x = ti u /\ ol x = to u /\ wgt x = tw u) m l -> P m) ->
      forall s, P (trs_of g s).
    Proof.
      intros P0 ST PS s. pose proof B as (_ & _ & B'). destruct (vstart g) as [s0|].
      - destruct B' as (_ & _ & BA & BN). apply ST. intros NP. apply NP. destruct (BN s) as [E _]; [|rewrite E; exact P0].
        intros A. apply NP. destruct (BA s A) as ((e & l & N & El & F2) & _). apply (PS e l (ZU e (nth_error_In _ _ N)) El).
        clear -F2. induction F2 as [|x u l1 l2 (H1 & H2 & H3 & _) F2 IH]; constructor; auto.
      - destruct B' as [Z _]. unfold trs_of. rewrite Z. destruct s; exact P0.
    Qed.
    Lemma gallic_shape : is_acceptor (mach g) /\ deterministic (mach g).
    Proof.
      split.
      - intros s t. revert t. change (forall t, In t (trs_of g s) -> ol t = il t). apply (gallic_trs (fun l => forall t, In t l -> ol t = il t)).
        + intros t [].
        + intros l H t Ht. destruct (Nat.eq_dec (ol t) (il t)); auto. exfalso. auto.
        + intros t l _ El m F2. destruct (det_trs_shape _ _ _ _ _ El) as (_ & _ & TO). intros x Hx.
          destruct (Forall2_in_l _ _ _ _ F2 Hx) as (u & Hu & H1 & H2 & _). rewrite H1, H2. auto.
      - intros s. change (NoDup (map il (trs_of g s))). apply (gallic_trs (fun l => NoDup (map il l))).
        + constructor.
        + intros l H. destruct (nodup_nat_dec (map il l)); auto. exfalso. auto.
        + intros t l _ El m F2. destruct (det_trs_shape _ _ _ _ _ El) as (ND & _).
          assert (map il m = map ti l) as ->; auto. clear -F2. induction F2 as [|x u l1 l2 (H & _) F2 IH]; cbn [map]; congruence.
    Qed.
    Definition short (w : G) : Prop := exists u c, w = ((Some u, c) : G) /\ (length u <= 1)%nat /\ ~ In O u.
    Lemma short_dec w : {short w} + {~ short w}.
    Proof.
      destruct w as [[u|] c]; [|right; intros (u & c' & E & _); discriminate].
      destruct (le_dec (length u) 1); [|right; intros (u' & c' & E & H & _); injection E as <- <-; auto].
      destruct (in_dec Nat.eq_dec O u); [right; intros (u' & c' & E & _ & H); injection E as <- <-; auto|]. left. exists u, c. auto.
    Qed.
    Lemma good_dec w : {good w} + {~ good w}.
    Proof.
      destruct w as [[u|] c]; [|right; intros (u & c' & E & _); discriminate].
      destruct (in_dec Nat.eq_dec O u); [right; intros (u' & c' & E & H); injection E as <- <-; auto|]. left. exists u, c. auto.
    Qed.
    Lemma gallic_weights : (forall s t, In t (trs_of g s) -> short (wgt t)) /\ (forall s w, fin_of g s = Some w -> good w).
    Proof.
      split.
      - intros s. apply (gallic_trs (fun l => forall t, In t l -> short (wgt t))).
        + intros t [].
        + intros l H t Ht. destruct (short_dec (wgt t)); auto. exfalso. auto.
        + intros t l Ut El m F2 x Hx. destruct (Forall2_in_l _ _ _ _ F2 Hx) as (u & Hu & _ & _ & H3). rewrite H3.
          destruct (proj2 (proj2 (trs_same t Ut) l u El Hu)) as (r & R1 & R2 & R3). exists r, (snd (tw u)). destruct (tw u). cbn in *. subst. auto.
      - intros s w Hw. destruct (good_dec w) as [|NG]; auto. exfalso. pose proof B as (_ & _ & B'). destruct (vstart g) as [s0|].
        + destruct B' as (_ & _ & BA & BN). assert (NA : ~ accessible (mach g) s).
          { intros A. destruct (BA s A) as (_ & (e & N & E)). apply NG. apply (proj2 (fin_same e (ZU e (nth_error_In _ _ N)))). rewrite E. congruence. }
          rewrite (proj2 (BN s NA)) in Hw. discriminate.
        + destruct B' as [Z _]. unfold fin_of in Hw. rewrite Z in Hw. destruct s; discriminate.
    Qed.
  End Built.

  Lemma out_labels (l : list (nat * G)) : forall o, det_out f l = Ok o -> forall x, In x o -> exists s t, In t (trs_of f s) /\ il t = fst x.
  Proof.
    induction l as [|e l IH]; intros o; cbn [det_out].
    - intros [= <-] x [].
    - destruct (get_trs f (fst e)) as [ts| |] eqn:Et; cbn [rbind]; try discriminate. destruct (det_out f l) as [r| |]; cbn [rbind]; try discriminate.
      intros [= <-] x Hx. apply in_app_or in Hx as [Hx|Hx]; [|apply (IH r eq_refl x Hx)].
      apply in_map_iff in Hx as (t & <- & Ht). exists (fst e), t. split; auto. rewrite (get_trs_ok _ _ _ Et). auto.
  Qed.
  Lemma trs_labels t l u : det_trs D ord f t = Ok l -> In u l -> exists s t0, In t0 (trs_of f s) /\ il t0 = ti u.
  Proof.
    unfold det_trs. destruct (det_out f (fst t)) as [o| |] eqn:Eo; cbn [rbind]; try discriminate. intros E Hu. apply rtrav_ok in E.
    destruct (Forall2_in_r _ _ _ _ E Hu) as (p & Hp & Ep). destruct (norm_tr D ord t (fst p) (snd p)) as [[d r]| |]; cbn [rbind] in Ep; try discriminate. injection Ep as <-.
    cbn [ti]. assert (NE : snd p <> []) by (eapply (lm_nonempty (K := G)); [|exact Hp]; intros ? []). destruct (snd p) as [|e es] eqn:Es; [congruence|].
    destruct (lm_fold (K := G) o [] (Sorted.SSorted_nil _)) as [_ P]. cbn [app unmap flat_map] in P.
    apply (out_labels _ _ Eo (fst p, e)). eapply Permutation_in; [exact P|]. unfold unmap. apply in_flat_map. exists p. split; auto. rewrite Es. left. auto.
  Qed.

  (** ** What [determinize_fsa] returns *)
  Theorem det_gallic fuel g : determinize_fsa D ord f fuel = Some (Ok g) ->
    closed g /\ cnt g /\ is_acceptor (mach g) /\ deterministic (mach g) /\
    (forall s t, In t (trs_of g s) -> short (wgt t)) /\ (forall s w, fin_of g s = Some w -> good w) /\
    match vstart g, vstart f with
    | Some q, Some s => forall u y, aval act done g q u y = aval act done f s u y
    | None, None => True
    | _, _ => False
    end /\ ((forall s t, In t (trs_of f s) -> il t <> O) -> forall s t, In t (trs_of g s) -> il t <> O).
  Proof.
    unfold determinize_fsa. destruct (det_run D ord f None fuel) as [[[h tb]| |]|] eqn:E; cbn; try discriminate. intros [= <-].
    destruct (det_built LG D ord f None gtuple gstart (fun t l u H El Hu => proj1 (proj2 (trs_same t H) l u El Hu)) fuel h tb E)
      as (_ & _ & _ & (_ & TI) & (c & B) & SY).
    assert (B2 : built (tS (det_start f)) (tT (det_trs D2 ord f)) (tF (det_fin D2 f)) h (dabs tb, c)).
    { destruct B as (B1 & B2 & B3). split; auto. split; auto. destruct (vstart h) as [s0|]; auto. destruct B3 as (X1 & X2 & X3 & X4).
      split; auto. split; auto. split; auto. intros q A. destruct (X3 q A) as ((t1 & l & N1 & E1 & F1) & (t2 & N2 & E2)). cbn [fst] in *. split.
      - exists t1, l. split; auto. split; auto. rewrite (proj1 (trs_same t1 (TI _ (nth_error_In _ _ N1)))). auto.
      - exists t2. split; auto. rewrite (proj1 (fin_same t2 (TI _ (nth_error_In _ _ N2)))). auto. }
    destruct (gallic_shape (dabs tb, c) h TI B) as [SA SD].
    split; [exact (proj1 (proj2 B))|]. split; [exact (proj1 B)|]. split; [exact SA|]. split; [exact SD|].
    destruct (gallic_weights (dabs tb, c) h (fun t Ht => TI t Ht) B) as [W1 W2].
    split; [exact W1|]. split; [exact W2|]. split.
    2:{ intros NE s. apply (gallic_trs (dabs tb, c) h TI B (fun l => forall t, In t l -> il t <> O)).
        - intros t [].
        - intros l H t Ht E0. apply H. intros H'. apply (H' t Ht E0).
        - intros t l _ El m F2 x Hx. destruct (Forall2_in_l _ _ _ _ F2 Hx) as (u & Hu & H1 & _). destruct (trs_labels t l u El Hu) as (p & t0 & I0 & E0).
          intros Z. apply (NE p t0 I0). etransitivity; [exact E0|]. etransitivity; [symmetry; exact H1|exact Z]. }
    exact (built_start D2 ord f HO L act done act_ext act_0 act_zero act_sum act_1 act_mul act_plus act_div (dabs tb, c) h (fun a b => keqb_spec _ LG a b) B2).
  Qed.
End R.

(** ** Strings of input labels *)
Section Words.
  Context {K : SR} (L : lsr_laws K).

  Lemma pad_step {W : Type} (ts : list (tr W)) (F : list nat -> K) (P : tr W -> list nat -> K) n x :
    (forall a u, F (a :: u) = ksum (map (fun t => if Nat.eqb (il t) a then P t u else 0) ts)) ->
    ksum (map F (paddings (S n) x)) =
    ksum (map (fun t => match strip (il t) x with Some x' => ksum (map (P t) (paddings n x')) | None => 0 end) ts).
  Proof.
    intros H.
    assert (S1 : forall a l, ksum (map F (map (cons a) l)) = ksum (map (fun t => if Nat.eqb (il t) a then ksum (map (P t) l) else 0) ts)).
    { intros a l. rewrite map_map. rewrite (ksum_map_ext _ (fun u => ksum (map (fun t => if Nat.eqb (il t) a then P t u else 0) ts))) by (intros; apply H).
      rewrite (ksum_swap L). apply ksum_map_ext. intros t _. destruct (Nat.eqb (il t) a); auto. apply (ksum_map_0 L). }
    cbn [paddings]. rewrite map_app, (ksum_app L), S1.
    assert (E : ksum (map F match x with [] => [] | a :: x' => if Nat.eqb a O then [] else map (cons a) (paddings n x') end) =
      ksum (map (fun t => if Nat.eqb (il t) O then 0 else match x with [] => 0 | a :: x' => if Nat.eqb a (il t) then ksum (map (P t) (paddings n x')) else 0 end) ts)).
    { destruct x as [|a x']; [symmetry; apply (ksum_map_zero L); intros t _; destruct (Nat.eqb (il t) O); auto|]. destruct (Nat.eqb_spec a O) as [->|].
      - symmetry. apply (ksum_map_zero L). intros t _. destruct (Nat.eqb_spec (il t) O); auto. destruct (Nat.eqb_spec O (il t)); auto. congruence.
      - rewrite S1. apply ksum_map_ext. intros t _. rewrite (Nat.eqb_sym a). destruct (Nat.eqb_spec (il t) a) as [->|].
        + destruct (Nat.eqb_spec a O); [congruence|auto].
        + destruct (Nat.eqb (il t) O); auto. }
    rewrite E, <- (ksum_map_plus L). apply ksum_map_ext. intros t _. unfold strip. destruct (Nat.eqb (il t) O); [apply (kplus_0_r L)|].
    rewrite (kplus_0_l _ L). destruct x as [|a x']; auto. destruct (Nat.eqb a (il t)); auto.
  Qed.

  Lemma paddings_eps n : forall x u, In u (paddings n x) -> ~ In O u -> n = length x /\ u = x.
  Proof.
    induction n as [|n IH]; intros x u; cbn [paddings].
    - destruct x; cbn [isnil]; [|intros []]. intros [<-|[]]. auto.
    - rewrite in_app_iff. intros [H|H] N.
      + apply in_map_iff in H as (v & <- & _). cbn in N. tauto.
      + destruct x as [|a x]; [destruct H|]. destruct (Nat.eqb a O); [destruct H|]. apply in_map_iff in H as (v & <- & H).
        destruct (IH x v H) as [-> ->]; [cbn in N; tauto|]. auto.
  Qed.
  Lemma paddings_self x : ~ In O x -> exists l1 l2, paddings (length x) x = (l1 ++ x :: l2)%list /\ forall u, In u (l1 ++ l2) -> In O u.
  Proof.
    induction x as [|a x IH]; intros N; [exists [], []; split; auto; intros u []|].
    destruct IH as (l1 & l2 & E & H); [cbn in N; tauto|]. cbn [length paddings]. destruct (Nat.eqb_spec a O) as [->|]; [cbn in N; tauto|].
    rewrite E, map_app. cbn [map]. exists (map (cons O) (paddings (length x) (a :: x)) ++ map (cons a) l1)%list, (map (cons a) l2).
    split; [rewrite <- app_assoc; auto|]. intros u Hu. rewrite <- app_assoc in Hu. apply in_app_or in Hu as [Hu|Hu].
    - apply in_map_iff in Hu as (v & <- & _). left. auto.
    - rewrite <- map_app in Hu. apply in_map_iff in Hu as (v & <- & Hv). right. auto.
  Qed.
End Words.

Section V.
  Context {K : SR} (L : sr_laws K).
  Notation G := (gallicSR K).
  Let LG : lsr_laws G := gallicSR_laws K L.

  Lemma act_ksum (k : G) {A} (F : A -> list nat -> K) (l : list A) y : act k (fun y => ksum (map (fun a => F a y) l)) y = ksum (map (fun a => act k (F a) y) l).
  Proof.
    induction l as [|a l IH]; cbn [map ksum]; [apply (act_zero L)|]. rewrite <- IH. rewrite <- (act_sum L). auto.
  Qed.
  Lemma act_short (w : G) F y : short w -> act w F y = match strip (lbl sl_plus w) y with Some y' => snd w * F y' | None => 0 end.
  Proof.
    intros (u & c & -> & H & N). unfold act, lbl, word, strip. cbn [fst snd]. destruct u as [|a [|b u]]; [reflexivity| |cbn in H; lia].
    cbn [hd chop]. destruct (Nat.eqb_spec a O) as [->|]; [cbn in N; tauto|]. destruct y as [|b y]; auto. rewrite Nat.eqb_sym. destruct (Nat.eqb b a); auto.
  Qed.

  Section M.
    Context (g : vfst G) (CG : closed g) (AG : is_acceptor (mach g)) (DG : deterministic (mach g))
      (ST : forall s t, In t (trs_of g s) -> short (wgt t)) (SF : forall s w, fin_of g s = Some w -> good w).
    Notation av := (aval (V := K) act done g).

    Lemma g_spelled : GallicPath.spelled sl_plus g.
    Proof.
      split.
      - intros s t Ht. split; [symmetry; exact (AG s t Ht)|]. destruct (ST s t Ht) as (u & c & E & _ & N). exists u, c. auto.
      - intros s w Hw. destruct (SF s w Hw) as (u & c & E & N). exists u, c. auto.
    Qed.

    (** The number of labels left to write once [u] is read from [q]. *)
    Fixpoint ext (q : nat) (u : list nat) : nat :=
      match u with
      | [] => match fin_of g q with Some w => length (word sl_plus w) | None => O end
      | a :: u' => match find (fun t => Nat.eqb (il t) a) (trs_of g q) with Some t => ext (ns t) u' | None => O end
      end.
    Lemma only t q : In t (trs_of g q) -> find (fun t' => Nat.eqb (il t') (il t)) (trs_of g q) = Some t /\
      filter (fun t' => Nat.eqb (il t') (il t)) (trs_of g q) = [t].
    Proof.
      pose proof (DG q : NoDup (map il (trs_of g q))) as N. revert N. induction (trs_of g q) as [|v l IH]; intros N I; [destruct I|].
      cbn [map] in N. apply NoDup_cons_iff in N as [N1 N2]. destruct I as [->|I].
      - cbn [find filter]. rewrite Nat.eqb_refl. split; auto. f_equal. clear IH N2. induction l as [|v l IH]; auto. cbn [filter map In] in *.
        destruct (Nat.eqb_spec (il v) (il t)); [tauto|]. apply IH. tauto.
      - cbn [find filter]. destruct (Nat.eqb_spec (il v) (il t)) as [E|]; [|auto]. exfalso. apply N1. rewrite E. exact (in_map (@il G) l t I).
    Qed.
    Lemma none a q : find (fun t => Nat.eqb (il t) a) (trs_of g q) = None -> filter (fun t => Nat.eqb (il t) a) (trs_of g q) = [].
    Proof. induction (trs_of g q) as [|v l IH]; cbn [find filter]; auto. destruct (Nat.eqb (il v) a); [discriminate|auto]. Qed.
    Lemma av_cons q a u y : av q (a :: u) y = match find (fun t => Nat.eqb (il t) a) (trs_of g q) with Some t => act (wgt t) (av (ns t) u) y | None => 0 end.
    Proof.
      cbn [aval]. destruct (find _ (trs_of g q)) as [t|] eqn:E; [|rewrite (none _ _ E); auto].
      destruct (find_some _ _ E) as [I Ea]. apply Nat.eqb_eq in Ea. subst a. rewrite (proj2 (only t q I)). cbn [map ksum]. apply (kplus_0_r L).
    Qed.
    Lemma av_nil q y : av q [] y = match fin_of g q with Some w => if leqb (word sl_plus w) y then snd w else 0 | None => 0 end.
    Proof.
      cbn [aval]. destruct (fin_of g q) as [w|] eqn:E; [|reflexivity]. destruct (SF q w E) as (u & c & -> & _). unfold act, word, done. cbn [fw fst snd].
      destruct (leqb u y) eqn:H.
      - apply leqb_true in H. subst y. rewrite (proj2 (chop_nil u u) eq_refl). cbn [isnil]. apply (ktimes_1_r _ L).
      - destruct (chop u y) as [[|b y']|] eqn:Ec; auto.
        + apply chop_nil in Ec. subst y. rewrite (proj2 (leqb_true u u) eq_refl) in H. discriminate.
        + cbn [isnil]. apply (ktimes_0_r _ L).
    Qed.
    Lemma chop_length s : forall y y', chop s y = Some y' -> (length y' <= length y)%nat.
    Proof.
      induction s as [|a s IH]; intros [|b y] y'; cbn [chop length]; try discriminate; try (intros [= <-]; cbn; lia).
      destruct (Nat.eqb a b); [|discriminate]. intros H. apply IH in H. lia.
    Qed.
    Lemma ext_bound u : forall q y, (length y < ext q u)%nat -> av q u y = 0.
    Proof.
      induction u as [|a u IH]; intros q y.
      - rewrite av_nil. cbn [ext]. destruct (fin_of g q) as [w|]; auto. intros H. destruct (leqb (word sl_plus w) y) eqn:E; auto. apply leqb_true in E. subst y. lia.
      - rewrite av_cons. cbn [ext]. destruct (find _ (trs_of g q)) as [t|]; auto. intros H. unfold act. destruct (fst (wgt t)) as [s|]; auto.
        destruct (chop s y) as [y'|] eqn:E; auto. rewrite IH; [apply (ktimes_0_r _ L)|]. apply chop_length in E. lia.
    Qed.
    (** At most one string is written. *)
    Lemma av_functional u : forall q, exists z, forall y, y <> z -> av q u y = 0.
    Proof.
      induction u as [|a u IH]; intros q.
      - destruct (fin_of g q) as [w|] eqn:E.
        + exists (word sl_plus w). intros y N. rewrite av_nil, E. destruct (leqb (word sl_plus w) y) eqn:H; auto. apply leqb_true in H. congruence.
        + exists []. intros y _. rewrite av_nil, E. auto.
      - destruct (find (fun t => Nat.eqb (il t) a) (trs_of g q)) as [t|] eqn:E.
        + destruct (IH (ns t)) as [z Hz]. exists (word sl_plus (wgt t) ++ z)%list. intros y N. rewrite av_cons, E. unfold act, word in *.
          destruct (fst (wgt t)) as [s|]; auto. destruct (chop s y) as [y'|] eqn:Ec; auto. rewrite Hz; [apply (ktimes_0_r _ L)|]. intros ->. apply N.
          clear -Ec. revert y Ec. induction s as [|b s IH]; intros [|c y]; cbn; try congruence. destruct (Nat.eqb_spec b c) as [->|]; [|discriminate]. intros H. f_equal. auto.
        + exists []. intros y _. rewrite av_cons, E. auto.
    Qed.

    Definition pick (i k q : nat) (y u : list nat) : K := if Nat.eqb (i + ext q u) k then av q u y else 0.
    Lemma val_words : forall k q x y, val sl_plus g k q [] x y = ksum (map (fun i => ksum (map (pick i k q y) (paddings i x))) (seq 0 (S k))).
    Proof.
      assert (Z : forall k q x y, match fin_of g q with Some w => ends k (word sl_plus w) (snd w) x y | None => 0 end = ksum (map (pick 0 k q y) (paddings 0 x))).
      { intros k q x y. cbn [paddings]. unfold ends, pick. destruct x; cbn [isnil map ksum]; [|destruct (fin_of g q); auto; rewrite andb_false_r; auto].
        rewrite (kplus_0_r L), av_nil. cbn [ext Nat.add]. destruct (fin_of g q) as [w|]; [|destruct (Nat.eqb 0 k); auto].
        rewrite andb_true_r, (Nat.eqb_sym k). destruct (Nat.eqb (length (word sl_plus w)) k); auto. }
      induction k as [|k IH]; intros q x y.
      - cbn [val seq map ksum app]. rewrite Z, !(kplus_0_r L). auto.
      - cbn [val app]. change (seq 0 (S (S k))) with (O :: seq 1 (S k)). rewrite <- seq_shift, map_cons. cbn [ksum]. rewrite <- Z. f_equal.
        rewrite map_map.
        rewrite (ksum_map_ext (fun i => ksum (map (pick (S i) (S k) q y) (paddings (S i) x)))
          (fun i => ksum (map (fun t => match strip (il t) x with Some x' => ksum (map (fun u => act (wgt t) (fun y => pick i k (ns t) y u) y) (paddings i x')) | None => 0 end) (trs_of g q)))).
        + rewrite (ksum_swap L). apply ksum_map_ext. intros t Ht. unfold off. change (gallic_of sl_plus K) with G in *. destruct (strip (il t) x) as [x'|]; [|symmetry; apply (ksum_map_0 L)].
          rewrite (ksum_map_ext _ (fun i => act (wgt t) (fun y => ksum (map (pick i k (ns t) y) (paddings i x'))) y)).
          2:{ intros i _. rewrite act_ksum. auto. }
          rewrite <- act_ksum. rewrite act_short by (eapply ST; eauto). destruct (ST q t Ht) as (s & c & E & Hs & _). unfold lbl. rewrite E. unfold word. cbn [fst snd].
          assert (tl s = []) as -> by (destruct s as [|b [|d s]]; auto; cbn in Hs; lia). destruct (strip (hd O s) y) as [y'|]; auto. rewrite IH. auto.
        + intros i _. apply (pad_step L). intros a u. unfold pick. rewrite av_cons. cbn [ext].
          destruct (find _ (trs_of g q)) as [t|] eqn:E.
          * destruct (find_some _ _ E) as [I Ea]. apply Nat.eqb_eq in Ea. subst a. rewrite <- (ksum_filter L), (proj2 (only t q I)). cbn [map ksum]. rewrite (kplus_0_r L).
            cbn [Nat.add Nat.eqb]. destruct (Nat.eqb (i + ext (ns t) u) k); auto. symmetry. apply (act_zero L).
          * rewrite <- (ksum_filter L), (none _ _ E). cbn [map ksum]. destruct (Nat.eqb _ _); auto.
    Qed.

    (** ** Back to output labels *)
    Notation FI := (gallicFI K).
    Notation fo := (final_opts (K := K)).
    Notation ao := (FWO (K := G) true true (fun w => w) 0 0 false false).
    Definition eok (e : element G) : Prop := elt_ok sl_plus g e /\ (fst e <> None -> snd e = 1).
    Lemma fwtr_same s t : In t (trs_of g s) -> fw_tr FI fo 1 t = [TT (il t) (ol t) (1 * wgt t) (Some (ns t), 1)] /\ fw_tr FI ao 1 t = fw_tr FI fo 1 t.
    Proof.
      intros Ht. split; [reflexivity|]. destruct (ST s t Ht) as (u & c & E & Hu & _). unfold fw_tr. rewrite E. cbn [fw_arc negb orb final_opts].
      destruct u as [|a [|b u]]; [reflexivity|reflexivity|cbn in Hu; lia].
    Qed.
    Lemma fwtrs_same e : eok e -> fw_trs FI fo g e = fw_trs FI ao g e.
    Proof.
      intros (_ & H1). unfold fw_trs. destruct e as [[s|] w]; cbn [fst snd] in *; [|reflexivity].
      rewrite H1 by discriminate. unfold get_trs, get_state. destruct (nth_error (vstates g) s) as [v|] eqn:E; [|reflexivity]. cbn [rmap rbind].
      assert (X : flat_map (fw_tr FI fo 1) (vtrs v) = flat_map (fw_tr FI ao 1) (vtrs v)).
      { assert (I : forall t, In t (vtrs v) -> In t (trs_of g s)) by (unfold trs_of; rewrite E; auto). clear E.
        induction (vtrs v) as [|t l IH]; auto. cbn [flat_map]. rewrite IH by (intros; apply I; right; auto). rewrite (proj2 (fwtr_same s t (I t (or_introl eq_refl)))). auto. }
      rewrite X. reflexivity.
    Qed.
    Lemma eok_start t : fw_start g = Ok (Some t) -> eok t.
    Proof.
      intros H. split; [exact (start_ok sl_plus g CG t H)|]. unfold fw_start in H. destruct (vstart g); [|discriminate]. injection H as <-. auto.
    Qed.
    Lemma eok_step t l u : eok t -> fw_trs FI fo g t = Ok l -> In u l -> eok (tn u).
    Proof.
      intros H El Hu. split.
      - rewrite (fwtrs_same t H) in El. exact (proj2 (proj2 (step_ok L sl_plus g g_spelled CG t l u (proj1 H) El Hu))).
      - assert (N : forall i o (m : list (G * G)) v, In v (fw_finals fo i o m) -> fst (tn v) = None).
        { intros i o m. revert i o. induction m as [|p m IH]; intros i o v []; [subst v; auto|]. eapply IH; eauto. }
        clear H. destruct t as [[s|] w]; unfold fw_trs in El; cbn [fst snd fw_final final_opts rbind] in El.
        + unfold get_trs, Compose.is_final, final_weight in El. destruct (get_state g s) as [st| |]; cbn [rmap rbind] in El; try discriminate.
          assert (T : forall v, In v (flat_map (fw_tr FI fo w) (vtrs st)) -> snd (tn v) = 1).
          { intros v Hv. apply in_flat_map in Hv as (t0 & _ & Hv). unfold fw_tr in Hv. cbn [fw_arc final_opts negb orb] in Hv. destruct Hv as [<-|[]]. auto. }
          intros HN. match type of El with (if ?b then _ else _) = _ => destruct b end; injection El as <-; [|auto].
          apply in_app_or in Hu as [Hu|Hu]; auto. exfalso. apply HN. eapply N; eauto.
        + injection El as <-. intros HN. exfalso. apply HN. eapply N; eauto.
    Qed.

    Lemma back fuel h r : factor_weight FI fo g fuel = Some (Ok h) -> weight_convert (from_gallic sl_plus 0) h tt = Ok (r, tt) ->
      closed r /\ cnt r /\ (vstart g = None -> r = vnew) /\
      (vstart g <> None -> vstart r <> None /\ visymt r = visymt g /\ vosymt r = vosymt g) /\
      (forall k x y, rel (mach r) k x y = match vstart g with Some s => val sl_plus g k s [] x y | None => 0 end) /\
      ((forall s t, In t (trs_of g s) -> il t <> O) -> deterministic (mach r)).
    Proof.
      intros E Ec. destruct (fw_built_in LG FI fo g eok eok_start eok_step fuel h E) as (z & B & ZU).
      destruct (fw_built LG FI fo g (fun _ => True) (fun _ _ => Logic.I) (fun _ _ _ _ _ _ => Logic.I) fuel h E) as (_ & _ & SY).
      pose proof B as (BC & CH & B'). destruct (vstart h) as [s0|] eqn:V0.
      - assert (B2 : built (tS (fw_start g)) (tT (fw_trs FI ao g)) (tF (fw_fin FI ao g)) h z).
        { split; auto. split; auto. rewrite V0. destruct B' as (X1 & X2 & X3 & X4). split; auto. split; auto. split; auto. intros q A.
          destruct (X3 q A) as ((t1 & l & N1 & E1 & F1) & (t2 & N2 & E2)). split.
          - exists t1, l. split; auto. split; auto. rewrite <- (fwtrs_same t1 (ZU _ (nth_error_In _ _ N1))). auto.
          - exists t2. split; auto. }
        assert (NS : vstart h <> None) by congruence.
        destruct (convert_back L sl_plus LG g g_spelled CG h z B2 (fun e He => proj1 (ZU e He)) NS) as (r' & Er & R1 & R2 & R3 & R4 & R5 & R6 & R7 & R8).
        assert (r' = r) by congruence. subst r'. change (gallic_of sl_plus K) with G in R3, R4, R5, R6, R7, R8.
        destruct B' as (_ & (e & N & Es) & BA & BN). unfold fw_start in Es. destruct (vstart g) as [s|] eqn:Vg; [|discriminate]. injection Es as <-.
        split; auto. split; auto. split; [discriminate|]. split; [intros _; destruct (SY ltac:(discriminate)) as (S1 & S2 & _); split; [rewrite R3, V0; discriminate|split; [rewrite R4; exact S1|rewrite R5; exact S2]]|].
        split.
        + intros k x y. unfold rel. cbn [mach mstart]. rewrite R3, V0. rewrite (R6 k s0 _ x y) with (2 := N) by (exists s0; split; [exact V0|constructor]). reflexivity.
        + intros NE q. change (NoDup (map il (trs_of r q))). destruct (Nat.lt_ge_cases q (num_states h)) as [Hq|Hq]; [|rewrite R8 by auto; constructor].
          destruct (nodup_nat_dec (map il (trs_of r q))) as [|ND]; auto. exfalso.
          assert (NA : ~ accessible (mach h) q).
          { intros A. apply ND. destruct (BA q A) as ((t1 & l & N1 & E1 & F2) & (t2 & N2 & E2)). assert (t2 = t1) by congruence. subst t2.
            pose proof (ZU _ (nth_error_In _ _ N1)) as Ok1. rewrite (R7 q Hq), map_app, map_map. cbn [ftr il].
            assert (ML : map il (trs_of h q) = map ti l).
            { clear -F2. induction F2 as [|x u l1 l2 (H & _) F2 IH]; cbn [map]; congruence. }
            change (map (fun x => il x) (trs_of h q)) with (map il (trs_of h q)). rewrite ML.
            destruct t1 as [o w]. destruct Ok1 as (((a & Ea & Na) & Va) & O1). cbn [fst snd] in *. rewrite Ea in *.
            assert (LE : forall v : G, (length (map ti (fin_list sl_plus v) ++ map il match fin_opt sl_plus v with Some w => if Nat.eqb (lbl sl_plus w) 0 then [] else [Tr O (lbl sl_plus w) (snd w) (num_states h)] | None => [] end) <= 1)%nat).
            { intros [[[|i [|j m]]|] c]; cbn; auto. destruct (Nat.eqb i 0); cbn; auto. }
            assert (ONE : forall l : list nat, (length l <= 1)%nat -> NoDup l).
            { intros [|i [|j m]] H; [constructor|repeat constructor; auto|cbn in H; lia]. }
            assert (F : fin_of h q = fin_at (fw_fin FI ao g) (o, ((Some a, 1) : G))) by (unfold fin_at; change (fw_fin FI ao g) with (fw_fin FI fo g); rewrite E2; auto).
            assert (T : l = trs_at (fw_trs FI ao g) (o, ((Some a, 1) : G))).
            { unfold trs_at. rewrite <- fwtrs_same; [rewrite E1; auto|]. split; [split; [exists a; auto|exact Va]|cbn [fst snd]; auto]. }
            rewrite F, T. clear F T. destruct o as [p|].
            - assert (a = []) as -> by (specialize (O1 ltac:(discriminate)); injection O1 as ->; auto). unfold valid_elt in Va. cbn [fst] in Va.
              pose proof (trs_at_some L sl_plus g g_spelled p [] Va) as Q1. pose proof (fin_at_some L sl_plus LG g g_spelled p [] Va) as Q2.
              change (gallic_of sl_plus K) with G in Q1, Q2. change (gallicFI_of sl_plus K) with (gallicFI K) in Q1, Q2.
              rewrite Q1, Q2. cbn [app]. clear Q1 Q2.
              rewrite map_app, map_map. cbn [ti]. rewrite <- app_assoc. apply nodup_app.
              + exact (DG p).
              + destruct (fin_of g p) as [v|]; [apply ONE, LE|constructor].
              + intros i H1 H2. apply in_map_iff in H1 as (t & <- & Ht). apply (NE p t Ht).
                destruct (fin_of g p) as [v|]; [|destruct H2]. apply in_app_or in H2 as [H2|H2].
                * apply in_map_iff in H2 as (u & <- & Hu). clear -Hu. unfold fin_list in Hu. destruct (fst _) as [[|b [|c m]]|]; try destruct Hu as [<-|[]]; try destruct Hu. auto.
                * destruct (fin_opt _ _); [|destruct H2]. destruct (Nat.eqb _ 0); [destruct H2|]. destruct H2 as [<-|[]]. auto.
            - pose proof (trs_at_none sl_plus g a) as Q1. pose proof (fin_at_none sl_plus g ((Some a, 1) : G) ltac:(discriminate)) as Q2.
              change (gallic_of sl_plus K) with G in Q1, Q2. change (gallicFI_of sl_plus K) with (gallicFI K) in Q1, Q2.
              rewrite Q1. match goal with |- context [fin_at ?x ?y] => replace (fin_at x y) with (fin_opt sl_plus ((Some a, 1) : G)) by (symmetry; exact Q2) end. apply ONE, LE. }
          apply ND. rewrite (R7 q Hq). destruct (BN q NA) as [-> ->]. constructor.
      - destruct B' as (_ & B'). cbn in B'. unfold fw_start in B'. destruct (vstart g) as [s|] eqn:Vg; [discriminate|].
        pose proof (C31_weight_convert (from_gallic sl_plus (K := K) O) h tt CH) as T. cbv zeta in T. change (gallic_of sl_plus K) with G in T. rewrite V0 in T. 
        assert (Er : Ok (r, tt) = Ok (vnew (K := K), tt)) by (rewrite <- Ec; exact T). injection Er as ->.
        split; [split; [intros [|s] t []|discriminate]|]. split; [constructor|]. split; auto. split; [tauto|]. split; auto. intros _ [|s]; constructor.
    Qed.
  End M.
End V.
