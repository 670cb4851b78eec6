(** Reweighting towards the start, path by path. *)
From Coq Require Import List Arith NArith Bool Lia.
From Verif Require Import Base.Util Base.Semiring Base.Machine Base.PropSpec
  Model.Props Model.VectorFst Model.AlgoProps Model.History Model.Rational Model.ShortestDistance Model.Reweight
  Proofs.PropsFacts Proofs.VectorFacts Proofs.VectorProps Proofs.TrOpsFacts Proofs.HistoryFacts Proofs.OpFacts Proofs.ConnectFacts Proofs.RationalFacts
  Proofs.ReweightFacts.
Import ListNotations.
Local Open Scope K_scope.

(** The paths of [m'] from [s'] are those of [m] from [s] with other weights, possibly after [d] more
    transitions; [c] times the new weight is the old one. *)
Definition carries {K : SR} (m m' : machine K) (s s' : nat) (c : K) (d : nat) (psi : list (tr K) -> list (tr K)) : Prop :=
  (forall k, paths m' (k + d) s' = map psi (paths m k s)) /\
  (forall k p, (k < d)%nat -> In p (paths m' k s') -> mfin m' (dst s' p) = None) /\
  (forall p, is_path m s p -> ilabs (psi p) = ilabs p /\ c * apw m' s' (psi p) = apw m s p).

Section P.
  Context {K : SR} (L : lsr_laws K).
  Implicit Types (f g h : vfst K).

  Lemma apw_t (m : machine K) s t p : apw m s (t :: p) = wgt t * apw m (ns t) p.
  Proof. unfold apw. cbn [pw dst]. symmetry. apply (ktimes_assoc _ L). Qed.
  Lemma apw_0 (m : machine K) s : apw m s [] = fw (mfin m s).
  Proof. unfold apw. cbn [pw dst]. apply (ktimes_1_l _ L). Qed.

  Lemma carries_trans (m1 m2 m3 : machine K) s1 s2 s3 c1 c2 d2 p1 p2 :
    carries m1 m2 s1 s2 c1 O p1 -> carries m2 m3 s2 s3 c2 d2 p2 ->
    carries m1 m3 s1 s3 (c1 * c2) d2 (fun p => p2 (p1 p)).
  Proof.
    intros (A1 & _ & A3) (B1 & B2 & B3). split; [|split; auto].
    - intros k. rewrite B1. specialize (A1 k). rewrite Nat.add_0_r in A1. rewrite A1, map_map. auto.
    - intros p Hp. destruct (A3 p Hp) as [I1 W1].
      assert (H2 : is_path m2 s2 (p1 p)).
      { assert (X : In (p1 p) (paths m2 (length p) s2)).
        { specialize (A1 (length p)). rewrite Nat.add_0_r in A1. rewrite A1. apply in_map, paths_is_path. auto. }
        apply paths_is_path in X. tauto. }
      destruct (B3 _ H2) as [I2 W2]. split; [congruence|]. rewrite <- W1, <- W2. symmetry. apply (ktimes_assoc _ L).
  Qed.
  (** The same with the second correspondence reading "the new weight is [c] times the old one". *)
  Lemma carries_up (m1 m2 m3 : machine K) s1 s2 s3 c d p1 p2 :
    carries m1 m2 s1 s2 c O p1 ->
    (forall k, paths m3 (k + d) s3 = map p2 (paths m2 k s2)) ->
    (forall k p, (k < d)%nat -> In p (paths m3 k s3) -> mfin m3 (dst s3 p) = None) ->
    (forall p, is_path m2 s2 p -> ilabs (p2 p) = ilabs p /\ apw m3 s3 (p2 p) = c * apw m2 s2 p) ->
    carries m1 m3 s1 s3 1 d (fun p => p2 (p1 p)).
  Proof.
    intros (A1 & _ & A3) B1 B2 B3. split; [|split; auto].
    - intros k. rewrite B1. specialize (A1 k). rewrite Nat.add_0_r in A1. rewrite A1, map_map. auto.
    - intros p Hp. destruct (A3 p Hp) as [I1 W1].
      assert (H2 : is_path m2 s2 (p1 p)).
      { assert (X : In (p1 p) (paths m2 (length p) s2)).
        { specialize (A1 (length p)). rewrite Nat.add_0_r in A1. rewrite A1. apply in_map, paths_is_path. auto. }
        apply paths_is_path in X. tauto. }
      destruct (B3 _ H2) as [I2 W2]. split; [congruence|]. rewrite W2, W1. apply (ktimes_1_l _ L).
  Qed.
  Lemma carries_d_trans (m1 m2 m3 : machine K) s1 s2 c1 c2 d p1 p2 :
    carries m1 m2 s1 s2 c1 d p1 -> carries m2 m3 s2 s2 c2 O p2 ->
    (forall k p, (k < d)%nat -> In p (paths m3 k s2) -> mfin m3 (dst s2 p) = None) ->
    carries m1 m3 s1 s2 (c1 * c2) d (fun p => p2 (p1 p)).
  Proof.
    intros (A1 & A2 & A3) (B1 & _ & B3) N. split; [|split; auto].
    - intros k. specialize (B1 (k + d)%nat). rewrite Nat.add_0_r in B1. rewrite B1, A1, map_map. auto.
    - intros p Hp. destruct (A3 p Hp) as [I1 W1].
      assert (H2 : is_path m2 s2 (p1 p)).
      { assert (X : In (p1 p) (paths m2 (length p + d) s2)) by (rewrite A1; apply in_map, paths_is_path; auto).
        apply paths_is_path in X. tauto. }
      destruct (B3 _ H2) as [I2 W2]. split; [congruence|]. rewrite <- W1, <- W2. symmetry. apply (ktimes_assoc _ L).
  Qed.
  Lemma carries_same (m m' : machine K) s : (forall q, mtrs m' q = mtrs m q) -> (forall q, mfin m' q = mfin m q) -> carries m m' s s 1 O (fun p => p).
  Proof.
    intros T F. split; [|split; [lia|]].
    - intros k. rewrite Nat.add_0_r, map_id. revert s. induction k as [|k IH]; intros s; cbn [paths]; auto. rewrite T. apply flat_map_ext. intros t. rewrite IH. auto.
    - intros p _. split; auto. unfold apw. rewrite F. apply (ktimes_1_l _ L).
  Qed.

  (** ** Changing what leaves one state that no path comes back to *)
  Section Start.
    Context (m m' : machine K) (a : nat) (phi : tr K -> tr K) (NC : ~ on_cycle m a)
      (Ta : mtrs m' a = map phi (mtrs m a)) (Ph : forall t, ns (phi t) = ns t /\ il (phi t) = il t)
      (Tq : forall q, q <> a -> mtrs m' q = mtrs m q) (Fq : forall q, q <> a -> mfin m' q = mfin m q).

    Definition first (p : list (tr K)) : list (tr K) := match p with [] => [] | t :: p => phi t :: p end.

    Lemma away_paths k : forall t s, In t (mtrs m a) -> reach m (ns t) s -> paths m' k s = paths m k s.
    Proof.
      induction k as [|k IH]; intros t s Ht R; auto. cbn [paths].
      assert (N : s <> a) by (intros ->; apply NC; exists t; auto). rewrite Tq by auto.
      assert (X : forall u, In u (mtrs m s) -> map (cons u) (paths m' k (ns u)) = map (cons u) (paths m k (ns u))).
      { intros u Hu. f_equal. apply (IH t); auto. eapply reach_trans; eauto. econstructor; [exact Hu|constructor]. }
      revert X. generalize (mtrs m s). intros l. induction l as [|u l IHl]; intros X; auto. cbn [flat_map]. rewrite X by (simpl; auto).
      f_equal. apply IHl. intros; apply X; simpl; auto.
    Qed.
    Lemma first_paths k : paths m' (k + 0) a = map first (paths m k a).
    Proof.
      rewrite Nat.add_0_r. destruct k as [|k]; auto. cbn [paths]. rewrite Ta.
      assert (X : forall t, In t (mtrs m a) -> paths m' k (ns t) = paths m k (ns t)) by (intros t Ht; apply (away_paths k t); auto; constructor).
      revert X. generalize (mtrs m a). intros l. induction l as [|u l IHl]; intros X; auto. cbn [map flat_map]. rewrite (proj1 (Ph u)), X by (simpl; auto).
      rewrite map_app, IHl by (intros; apply X; simpl; auto). f_equal. rewrite !map_map. apply map_ext. auto.
    Qed.
    Lemma away_apw p : forall t s, In t (mtrs m a) -> reach m (ns t) s -> is_path m s p -> apw m' s p = apw m s p.
    Proof.
      intros t s Ht R Hp. unfold apw. rewrite Fq; auto. intros E. apply NC. exists t. split; auto. rewrite <- E.
      clear E. revert s R Hp. induction p as [|u p IH]; intros s R Hp; cbn [dst]; auto. destruct Hp as [Hu Hp]. apply IH; auto.
      eapply reach_trans; eauto. econstructor; [exact Hu|constructor].
    Qed.
    Lemma first_apw (c : K) : (forall t, In t (mtrs m a) -> wgt (phi t) = c * wgt t) -> mfin m' a = option_map (ktimes c) (mfin m a) ->
      forall p, is_path m a p -> ilabs (first p) = ilabs p /\ apw m' a (first p) = c * apw m a p.
    Proof.
      intros W F [|t p] Hp; cbn [first].
      - split; auto. rewrite !apw_0, F. destruct (mfin m a); cbn [option_map fw]; auto. symmetry. apply (ktimes_0_r _ L).
      - destruct Hp as [Ht Hp]. split; [cbn [ilabs flat_map]; rewrite (proj2 (Ph t)); auto|].
        rewrite !apw_t, (proj1 (Ph t)), W by auto. rewrite (away_apw p t (ns t)); auto; [|constructor]. symmetry. apply (ktimes_assoc _ L).
    Qed.
    Lemma first_apw_down (c : K) : (forall t, In t (mtrs m a) -> c * wgt (phi t) = wgt t) -> mfin m a = option_map (ktimes c) (mfin m' a) ->
      forall p, is_path m a p -> ilabs (first p) = ilabs p /\ c * apw m' a (first p) = apw m a p.
    Proof.
      intros W F [|t p] Hp; cbn [first].
      - split; auto. rewrite !apw_0, F. destruct (mfin m' a); cbn [option_map fw]; auto. apply (ktimes_0_r _ L).
      - destruct Hp as [Ht Hp]. split; [cbn [ilabs flat_map]; rewrite (proj2 (Ph t)); auto|].
        rewrite !apw_t, (proj1 (Ph t)). rewrite <- (W t Ht), (away_apw p t (ns t)); auto; [|constructor]. apply (ktimes_assoc _ L).
    Qed.
  End Start.

  (** ** A fresh start *)
  Section Fresh.
    Context (m m' : machine K) (a b : nat) (c : K) (Nb : forall q t, In t (mtrs m q) -> ns t <> b) (Na : a <> b)
      (Tb : mtrs m' b = [Tr O O c a]) (Fb : mfin m' b = None)
      (Tq : forall q, q <> b -> mtrs m' q = mtrs m q) (Fq : forall q, q <> b -> mfin m' q = mfin m q).
    Lemma fresh_same k : forall s, s <> b -> paths m' k s = paths m k s.
    Proof.
      induction k as [|k IH]; intros s N; auto. cbn [paths]. rewrite Tq by auto.
      assert (X : forall u, In u (mtrs m s) -> map (cons u) (paths m' k (ns u)) = map (cons u) (paths m k (ns u))) by (intros u Hu; f_equal; apply IH; eapply Nb; eauto).
      revert X. generalize (mtrs m s). intros l. induction l as [|u l IHl]; intros X; auto. cbn [flat_map]. rewrite X by (simpl; auto).
      f_equal. apply IHl. intros; apply X; simpl; auto.
    Qed.
    Lemma fresh_paths k : paths m' (k + 1) b = map (cons (Tr O O c a)) (paths m k a).
    Proof. rewrite Nat.add_1_r. cbn [paths]. rewrite Tb. cbn [flat_map ns]. rewrite app_nil_r, fresh_same by auto. auto. Qed.
    Lemma fresh_apw p : is_path m a p -> ilabs (Tr (W := K) O O c a :: p) = ilabs p /\ apw m' b (Tr O O c a :: p) = c * apw m a p.
    Proof.
      intros Hp. split; auto. rewrite apw_t. cbn [wgt ns]. f_equal. unfold apw. rewrite Fq; auto. revert Hp. generalize Na. generalize a.
      induction p as [|t p IH]; intros s N Hp; cbn [dst]; auto. destruct Hp as [Ht Hp]. apply IH; auto. eapply Nb; eauto.
    Qed.
  End Fresh.

  Context (divide : K -> K -> divide_type -> res K) (D : list K) (f : vfst K).

  (** ** The loops *)
  Definition rho (s : nat) (t : tr K) : tr K := if is_zero (pot D s) then t else rewt (new_weight divide D ToInitial s) t.
  Fixpoint along (s : nat) (p : list (tr K)) : list (tr K) :=
    match p with [] => [] | t :: p => rho s t :: along (ns t) p end.

  Lemma rho_ns s t : ns (rho s t) = ns t /\ il (rho s t) = il t /\ ol (rho s t) = ol t.
  Proof. unfold rho. destruct (is_zero (pot D s)); auto. unfold rewt. destruct (new_weight _ _ _ _ t) as [[| |]|]; auto. Qed.
  Lemma trs_rho s : trs_after divide D ToInitial f s = map (rho s) (trs_of f s).
  Proof. unfold trs_after, rho. destruct (is_zero (pot D s)); auto. symmetry. apply map_id. Qed.

  Context (DL : divides_left divide D f) (DO : dead_out D f) (h : vfst K)
    (T : forall q, trs_of h q = trs_after divide D ToInitial f q) (F : forall q, fin_of h q = fin_after divide D ToInitial f q).

  Lemma along_paths k : forall s, paths (mach h) (k + 0) s = map (along s) (paths (mach f) k s).
  Proof.
    setoid_rewrite Nat.add_0_r. induction k as [|k IH]; intros s; auto. cbn [paths mach mtrs]. rewrite T, trs_rho. generalize (trs_of f s). intros l.
    induction l as [|t l IHl]; auto. cbn [map flat_map]. rewrite (proj1 (rho_ns s t)), map_app. rewrite IHl. f_equal.
    cbn [mach mtrs] in IH. fold (mach h) (mach f). rewrite IH, !map_map. auto.
  Qed.
  Lemma along_apw p : forall s, is_path (mach f) s p ->
    (pot D s = 0 -> apw (mach h) s (along s p) = 0 /\ apw (mach f) s p = 0) /\
    (pot D s <> 0 -> pot D s * apw (mach h) s (along s p) = apw (mach f) s p).
  Proof.
    induction p as [|t p IH]; intros s Hp; cbn [along].
    - rewrite !apw_0. cbn [mach mfin]. rewrite F. unfold fin_after. split; intros H.
      + rewrite (proj2 (is_zero_spec L _) H), (proj1 (DO s H)). auto.
      + destruct (is_zero (pot D s)) eqn:Z; [apply (is_zero_spec L) in Z; congruence|].
        destruct (fin_of f s) as [w|] eqn:E; [|apply (ktimes_0_r _ L)]. destruct (proj2 DL s w E H) as (c & -> & Ec). auto.
    - destruct Hp as [Ht Hp]. cbn [mach mtrs] in Ht. rewrite !apw_t, (proj1 (rho_ns s t)). destruct (IH (ns t) Hp) as [I0 I1]. split; intros H.
      + assert (E : rho s t = t) by (unfold rho; rewrite (proj2 (is_zero_spec L _) H); auto). rewrite E.
        destruct (proj2 (DO s H) t Ht) as [-> |Z]; [rewrite !(ktimes_0_l _ L); auto|]. destruct (I0 Z) as [-> ->]. rewrite !(ktimes_0_r _ L). auto.
      + destruct (keqb (pot D (ns t)) 0) eqn:Zt.
        * apply (keqb_true L) in Zt. destruct (I0 Zt) as [-> ->]. rewrite !(ktimes_0_r _ L). auto.
        * apply (keqb_false L) in Zt. destruct (proj1 DL s t Ht H Zt) as (c & E & Ec).
          unfold rho. destruct (is_zero (pot D s)) eqn:Z; [apply (is_zero_spec L) in Z; congruence|].
          unfold rewt, new_weight. destruct (is_zero (pot D (ns t))) eqn:Z'; [apply (is_zero_spec L) in Z'; congruence|]. rewrite E. cbn [set_wgt wgt].
          rewrite (ktimes_assoc _ L), Ec, <- (ktimes_assoc _ L). f_equal. auto.
  Qed.
  Lemma along_ilabs p : forall s, ilabs (along s p) = ilabs p.
  Proof. induction p as [|t p IH]; intros s; auto. cbn [along ilabs flat_map]. fold (ilabs (along (ns t) p)). rewrite (proj1 (proj2 (rho_ns s t))), IH. auto. Qed.

  Lemma loops_carry a : carries (mach f) (mach h) a a (if is_zero (pot D a) then 1 else pot D a) O (along a).
  Proof.
    split; [intros; apply along_paths|]. split; [lia|]. intros p Hp. split; [apply along_ilabs|]. destruct (along_apw p a Hp) as [A0 A1].
    destruct (is_zero (pot D a)) eqn:Z.
    - apply (is_zero_spec L) in Z. destruct (A0 Z) as [-> ->]. apply (ktimes_1_l _ L).
    - apply A1. intros E. apply (is_zero_spec L) in E. congruence.
  Qed.
End P.

Section All.
  Context {K : SR} (L : lsr_laws K) (divide : K -> K -> divide_type -> res K).
  Implicit Types (f g h : vfst K).

  (** The whole function; what is known of the result state by state is kept as well. *)
  Theorem reweight_paths (D : list K) f a : closed f -> fsound f -> vstart f = Some a -> divides_left divide D f -> dead_out D f ->
    exists h g b d psi, reweight divide f D ToInitial = Ok g /\ closed g /\ fsound g /\ (cnt f -> cnt g) /\
      visymt g = visymt f /\ vosymt g = vosymt f /\ vstart g = Some b /\
      carries (mach f) (mach g) a b 1 d psi /\ (d <= 1)%nat /\
      vstart h = Some a /\ num_states h = num_states f /\
      (forall q, trs_of h q = trs_after divide D ToInitial f q) /\ (forall q, fin_of h q = fin_after divide D ToInitial f q) /\
      ((pot D a = 1 \/ pot D a = 0) /\ same_mach h g \/ pot D a <> 1 /\ pot D a <> 0 /\ started (pot D a) a h g).
  Proof.
    intros C Sd Ea DL DO.
    destruct (reweight_all L divide D ToInitial f C Sd) as (h & g & Eg & Ef & Ch & T & F & Cg & Sg & Cn & I1 & I2 & Cs).
    { intros s t Ht N Nt. unfold new_weight. destruct (is_zero (pot D (ns t))) eqn:Z; [apply (is_zero_spec L) in Z; congruence|].
      destruct (proj1 DL s t Ht N Nt) as (c & -> & _). eauto. }
    { intros _ s w Hw N. destruct (proj2 DL s w Hw N) as (c & -> & _). eauto. }
    { intros b _ _ _. cbn. eauto. }
    exists h, g.
    assert (Sh : vstart h = Some a) by (rewrite (proj1 (proj2 Ef)); auto).
    pose proof (loops_carry L divide D f DL DO h T F a) as W.
    destruct Cs as [[Ha Sm]|(a' & c & Ea' & N0 & N1 & Ec & St)].
    - exists a, O. eexists. split; [exact Eg|]. do 5 (split; [assumption|]). pose proof Sm as (S1 & S2 & S3 & S4). split; [congruence|].
      split; [|split; [lia|split; [auto|split; [apply Ef|split; [auto|split; [auto|left; split; auto]]]]]].
      assert (Z : (if is_zero (pot D a) then 1 else pot D a) = 1).
      { destruct (is_zero (pot D a)) eqn:Z; auto. destruct (Ha a Ea) as [E|E]; auto. apply (is_zero_spec L) in E. congruence. }
      rewrite Z in W. pose proof (carries_trans L (mach f) (mach h) (mach g) a a a 1 1 O _ _ W (carries_same L (mach h) (mach g) a S3 S4)) as X.
      rewrite (ktimes_1_l _ L) in X. exact X.
    - assert (a' = a) as -> by congruence. cbn in Ec. injection Ec as <-.
      assert (Z : is_zero (pot D a) = false).
      { destruct (is_zero (pot D a)) eqn:Z; auto. apply (is_zero_spec L) in Z. congruence. }
      rewrite Z in W. pose proof St as St'.
      destruct St as [(S1 & N & NC & Tg & Fg & Tq & Fq)|(S1 & N & _ & Tg & Fg & Tq & Fq)].
      + exists a, O. eexists. split; [exact Eg|]. do 5 (split; [assumption|]). split; [auto|].
        split; [|split; [lia|split; [auto|split; [apply Ef|split; [auto|split; [auto|right; split; auto]]]]]].
        eapply (carries_up L _ _ _ _ _ _ (pot D a) O _ _ W).
        * intros k. apply (first_paths (mach h) (mach g) a (scale (pot D a)) NC Tg); auto.
        * lia.
        * intros p Hp. apply (first_apw L (mach h) (mach g) a (scale (pot D a)) NC); auto.
      + exists (num_states h), 1%nat. eexists. split; [exact Eg|]. do 5 (split; [assumption|]). split; [auto|].
        split; [|split; [lia|split; [auto|split; [apply Ef|split; [auto|split; [auto|right; split; auto]]]]]].
        assert (Nb : forall q t, In t (mtrs (mach h) q) -> ns t <> num_states h) by (intros q t Ht; pose proof (proj1 Ch q t Ht); lia).
        assert (Na : a <> num_states h) by (pose proof (proj2 Ch a Sh); lia).
        eapply (carries_up L _ _ _ _ _ _ (pot D a) 1%nat _ _ W).
        * intros k. apply (fresh_paths (mach h) (mach g) a (num_states h) (pot D a)); auto.
        * intros k p Hk Hp. assert (k = O) as -> by lia. destruct Hp as [<-|[]]. cbn. auto.
        * intros p Hp. apply (fresh_apw L (mach h) (mach g) a (num_states h) (pot D a)); auto.
  Qed.

  (** ** Removing a factor in front *)
  Theorem remove_paths f b w : closed f -> vstart f = Some b -> w <> 1 -> w <> 0 -> ~ on_cycle (mach f) b ->
    (forall t, In t (trs_of f b) -> exists c, divide (wgt t) w DivideLeft = Ok c /\ w * c = wgt t) ->
    (forall v, fin_of f b = Some v -> exists c, divide v w DivideLeft = Ok c /\ w * c = v) ->
    exists g psi, remove_weight divide f w false = Ok g /\ eff f g /\ closed g /\ (fsound f -> fsound g) /\
      carries (mach f) (mach g) b b w O psi /\
      (forall q, q <> b -> trs_of g q = trs_of f q) /\ (forall q, q <> b -> fin_of g q = fin_of f q) /\
      (forall t, In t (trs_of g b) -> exists t0, In t0 (trs_of f b) /\ il t = il t0 /\ ol t = ol t0 /\ ns t = ns t0 /\ divide (wgt t0) w DivideLeft = Ok (wgt t) /\ w * wgt t = wgt t0) /\
      (forall v, fin_of g b = Some v -> fin_of f b = Some (w * v)) /\ (fin_of f b = None -> fin_of g b = None).
  Proof.
    intros C Eb N1 N0 NC Ht Hf. unfold remove_weight.
    assert (is_one w || is_zero w = false) as ->.
    { apply orb_false_iff. split; apply (keqb_false L); auto. }
    rewrite Eb. assert (Hb : (b < num_states f)%nat) by (apply C; auto).
    destruct (set_weights_eff L (fun t => Some (divide (wgt t) w DivideLeft)) f b Hb) as (g & -> & G1 & G2 & G3 & G4).
    { intros t X. right. destruct (Ht t X) as (c & -> & _). eauto. }
    cbn [rbind]. rewrite G3.
    assert (Fin : exists g', match fin_of f b with Some v => u <-- divide v w DivideLeft ;; set_final g b u | None => Ok g end = Ok g' /\ eff g g' /\
       (forall q, trs_of g' q = trs_of g q) /\ (forall q, q <> b -> fin_of g' q = fin_of g q) /\ fin_of f b = option_map (ktimes w) (fin_of g' b) /\ (fsound g -> fsound g')).
    { destruct (fin_of f b) as [v|] eqn:E.
      - destruct (Hf v eq_refl) as (c & -> & Ec). cbn [rbind]. destruct G1 as (N & _).
        destruct (set_final_eff g b c) as (g' & Eg & A & T & F); [lia|]. exists g'. split; auto. split; auto. split; auto.
        split; [intros q Hq; rewrite F, (proj2 (Nat.eqb_neq _ _) Hq); auto|].
        split; [rewrite F, Nat.eqb_refl; cbn; congruence|]. intros. eapply (fsound_set_final L); [..|exact Eg]; auto.
      - exists g. split; auto. split; [apply eff_refl|]. split; auto. split; auto. split; auto. rewrite G3, E. auto. }
    destruct Fin as (g' & Eg & E' & T & F & Fb & S). rewrite Eg. exists g'.
    set (phi := rewt (fun t => Some (divide (wgt t) w DivideLeft))). exists (first phi).
    split; auto. split; [eapply eff_trans; eauto|].
    assert (Tg : forall q, trs_of g' q = if q =? b then map phi (trs_of f b) else trs_of f q) by (intros q; rewrite T; apply G2).
    assert (Ng : num_states g' = num_states f) by (rewrite (proj1 E'); apply G1).
    assert (Sg : vstart g' = vstart f) by (rewrite (proj1 (proj2 E')); apply G1).
    assert (PH : forall t, ns (phi t) = ns t /\ il (phi t) = il t) by (intros t; unfold phi, rewt; destruct (divide _ _ _); auto).
    assert (PW : forall t, In t (trs_of f b) -> divide (wgt t) w DivideLeft = Ok (wgt (phi t)) /\ w * wgt (phi t) = wgt t).
    { intros t X. destruct (Ht t X) as (c & Ec & Ew). unfold phi, rewt. rewrite Ec. auto. }
    assert (TQ : forall q, q <> b -> trs_of g' q = trs_of f q) by (intros q Hq; rewrite Tg, (proj2 (Nat.eqb_neq _ _) Hq); auto).
    assert (FQ : forall q, q <> b -> fin_of g' q = fin_of f q) by (intros q Hq; rewrite F, G3 by auto; auto).
    assert (TB : trs_of g' b = map phi (trs_of f b)) by (rewrite Tg, Nat.eqb_refl; auto).
    split; [|split; [auto|split; [|split; [auto|split; [auto|split; [|split]]]]]].
    - split; [|rewrite Sg, Ng; apply C]. intros s t. rewrite Tg, Ng. destruct (Nat.eqb_spec s b) as [->|]; [|apply C].
      intros X. apply in_map_iff in X as (u & <- & Hu). rewrite (proj1 (PH u)). apply (proj1 C _ _ Hu).
    - split; [|split; [lia|]].
      + intros k. apply (first_paths (mach f) (mach g') b phi NC TB); auto.
      + intros p Hp. apply (first_apw_down L (mach f) (mach g') b phi NC); auto. intros t X. apply PW. auto.
    - rewrite TB. intros t X. apply in_map_iff in X as (t0 & <- & H0). exists t0. split; auto. split; [apply PH|]. split; [|split; [apply PH|apply PW; auto]].
      unfold phi, rewt. destruct (divide _ _ _); auto.
    - intros v Hv. rewrite Fb, Hv. auto.
    - intros Z. rewrite Z in Fb. destruct (fin_of g' b); [discriminate|auto].
  Qed.
End All.
