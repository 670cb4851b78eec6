(** What weight factoring does to the paths of a machine. *)
From Coq Require Import List Arith NArith Bool Lia.
From Verif Require Import Base.Util Base.Semiring Base.Machine Model.Props Model.AlgoProps Model.VectorFst
  Model.BiMap Model.Lazy Model.Compose Model.FactorWeight.
From Verif Require Import Proofs.VectorFacts Proofs.OpFacts Proofs.TableFacts Proofs.ComposeFacts Proofs.BagFacts.
Import ListNotations.
Local Open Scope K_scope.

Section Factor.
  Context {K : SR} (L : lsr_laws K) (FI : factor_iter K) (opts : fw_opts K) (f : vfst K) (D : closed f).
  Notation bag := (bag (fw_trs FI opts f) (fw_fin FI opts f)).
  Notation ff := (fw_final opts).

  (** Law in the form used by the proofs. *)
  Definition law : Prop := forall w, fi_done FI w = true -> fi_items FI w = [].
  Definition law2 : Prop := forall w, fi_done FI w = false ->
    forall X, ksum (map (fun p => fst p * (quant opts (snd p) * X)) (fi_items FI w)) = w * X.

  Definition fin_items (v : K) : list (ttr K (element K)) :=
    if ff then fw_finals opts (final_il opts) (final_ol opts) (fi_items FI v) else [].

  Lemma trs_none w : trs_at (fw_trs FI opts f) (None, w) = fin_items w.
  Proof. unfold trs_at, fw_trs, fin_items. cbn [fst snd rbind]. destruct ff; auto. Qed.
  Lemma trs_some s w : (s < num_states f)%nat -> trs_at (fw_trs FI opts f) (Some s, w) =
    (flat_map (fw_tr FI opts w) (trs_of f s) ++ match fin_of f s with Some z => fin_items (w * z) | None => [] end)%list.
  Proof.
    intros H. unfold trs_at, fw_trs, fin_items. cbn [fst snd]. rewrite get_trs_in, is_final_in by auto. cbn [rmap rbind].
    destruct ff; cbn [rbind].
    - rewrite final_in by auto. destruct (fin_of f s); cbn [some_b rbind rmap]; auto. rewrite app_nil_r. auto.
    - destruct (fin_of f s); rewrite app_nil_r; auto.
  Qed.
  Lemma fin_none w : fw (fin_at (fw_fin FI opts f) (None, w)) = if negb ff || fi_done FI w then w else 0.
  Proof.
    unfold fin_at, fw_fin. cbn. destruct (keqbP L w 0) as [->|N]; cbn; [destruct (negb ff || _); auto|].
    destruct (negb ff || _); auto.
  Qed.
  Lemma fin_some s w : (s < num_states f)%nat -> fin_at (fw_fin FI opts f) (Some s, w) =
    match fin_of f s with Some z => fin_at (fw_fin FI opts f) (None, w * z) | None => None end.
  Proof.
    intros H. unfold fin_at, fw_fin. cbn [fst snd]. rewrite final_in by auto. cbn [rmap rbind].
    destruct (fin_of f s) as [z|]; auto. rewrite (ktimes_0_r _ L), (keqb_refl L). auto.
  Qed.

  (** The pieces a path from weight [w] is cut in: what was emitted and what is left. *)
  Fixpoint del (w : K) (p : list (tr K)) : list (K * K) :=
    match p with
    | [] => [(1, w)]
    | t :: p' => flat_map (fun u => map (fun c => (tw u * fst c, snd c)) (del (snd (tn u)) p')) (fw_tr FI opts w t)
    end.
  Definition parts (s : nat) (w : K) (p : list (tr K)) (j : nat) : list (reading K) :=
    match fin_of f (dst s p) with
    | None => []
    | Some z => flat_map (fun c => map (scale (fst c)) (bag j (None, snd c * z))) (del w p)
    end.

  Lemma scale_scale a b (l : list (reading K)) : map (scale a) (map (scale b) l) = map (scale (a * b)) l.
  Proof. rewrite map_map. apply map_ext. intros r. unfold scale. cbn. rewrite (ktimes_assoc _ L). auto. Qed.
  Lemma scale_1 (l : list (reading K)) : map (scale 1) l = l.
  Proof. rewrite <- map_id. apply map_ext. intros [r v]. unfold scale. cbn. rewrite (ktimes_1_l _ L). auto. Qed.

  Lemma parts_cons s w t p j : parts s w (t :: p) j =
    flat_map (fun u => map (scale (tw u)) (parts (ns t) (snd (tn u)) p j)) (fw_tr FI opts w t).
  Proof.
    unfold parts. cbn [dst del]. destruct (fin_of f (dst (ns t) p)) as [z|].
    - induction (fw_tr FI opts w t) as [|u l IH]; cbn [flat_map]; auto.
      rewrite flat_map_app, IH. f_equal. clear IH.
      match goal with |- context [del ?a p] => generalize (del a p) end. intros d.
      induction d as [|c d IH]; cbn [map flat_map]; auto.
      rewrite map_app, <- IH. f_equal. cbn [fst snd]. rewrite scale_scale. auto.
    - induction (fw_tr FI opts w t); auto.
  Qed.

  Lemma fw_tr_target w t u : In u (fw_tr FI opts w t) -> ti u = il t /\ to u = ol t /\ fst (tn u) = Some (ns t).
  Proof.
    unfold fw_tr. destruct (negb _ || _).
    - intros [<-|[]]. auto.
    - intros H. apply in_map_iff in H as (p & <- & _). auto.
  Qed.

  Lemma ksum_seq_S (F : nat -> K) k : ksum (map F (seq 0 (S k))) = F O + ksum (map (fun i => F (S i)) (seq 0 k)).
  Proof. cbn [seq map ksum]. f_equal. rewrite <- seq_shift, map_map. auto. Qed.

  Lemma after_pre t a (l : list (reading K)) p : map (after (t :: p)) (map (scale a) l) = map (pre (il t) (ol t) a) (map (after p) l).
  Proof. rewrite !map_map. apply map_ext. intros r. unfold after, scale, pre. cbn [fst snd]. rewrite ilabs_cons, olabs_cons, <- !app_assoc. auto. Qed.

  Lemma pick_map_flat_map {A} x y (g : reading K -> reading K) (F : A -> list (reading K)) l :
    pick x y (map g (flat_map F l)) = ksum (map (fun a => pick x y (map g (F a))) l).
  Proof. induction l as [|a l IH]; simpl; auto. rewrite map_app, (pick_app L), IH. auto. Qed.

  Theorem bag_paths k : forall s w x y, (s < num_states f)%nat ->
    pick x y (bag k (Some s, w)) =
    ksum (map (fun i => ksum (map (fun p => pick x y (map (after p) (parts s w p (k - i)))) (paths (mach f) i s))) (seq 0 (S k))).
  Proof.
    assert (Z : forall k s w x y, pick x y (map (after []) (parts s w [] k)) =
      match fin_of f s with Some z => pick x y (bag k (None, w * z)) | None => 0 end).
    { intros k0 s w x y. unfold parts. cbn [dst del flat_map]. destruct (fin_of f s); auto. cbn [fst snd].
      rewrite app_nil_r, scale_1. f_equal. rewrite <- map_id. apply map_ext. intros [[a b] v]. auto. }
    induction k as [|k IH]; intros s w x y Hs.
    - cbn [seq map ksum paths]. rewrite Nat.sub_0_r, Z, !(kplus_0_r L). cbn [BagFacts.bag].
      rewrite fin_some by auto. destruct (fin_of f s); auto. unfold pick. cbn. destruct (_ && _); apply (kplus_0_r L).
    - rewrite ksum_seq_S. cbn [paths map ksum]. rewrite Nat.sub_0_r, Z, (kplus_0_r L), (kplus_comm _ L).
      cbn [BagFacts.bag]. rewrite trs_some by auto. rewrite flat_map_app, (pick_app L). f_equal.
      2: { destruct (fin_of f s) as [z|]; auto. rewrite trs_none. auto. }
      transitivity (ksum (map (fun t => ksum (map (fun i => ksum (map (fun p => pick x y (map (after (t :: p)) (parts s w (t :: p) (k - i))))
        (paths (mach f) i (ns t)))) (seq 0 (S k)))) (trs_of f s))).
      2: { rewrite (ksum_swap L). apply ksum_map_ext. intros i _. cbn [Nat.sub]. cbn [mach mtrs].
           generalize (trs_of f s). intros l. induction l as [|t l IHl]; cbn [map flat_map ksum]; auto.
           rewrite map_app, (ksum_app L), IHl, map_map. auto. }
      assert (HT : forall t, In t (trs_of f s) -> (ns t < num_states f)%nat) by (intros t Ht; exact (proj1 D s t Ht)).
      revert HT. generalize (trs_of f s). intros l HT.
      induction l as [|t l IHl]; cbn [flat_map map ksum]; auto.
      rewrite flat_map_app, (pick_app L), IHl by (intros; apply HT; simpl; auto). f_equal. clear IHl.
      rewrite (pick_flat_map L).
      transitivity (ksum (map (fun u => ksum (map (fun i => ksum (map (fun p =>
        off (il t) (ol t) (tw u) (fun x y => pick x y (map (after p) (parts (ns t) (snd (tn u)) p (k - i)))) x y)
         (paths (mach f) i (ns t)))) (seq 0 (S k)))) (fw_tr FI opts w t))).
      + apply ksum_map_ext. intros u Hu. destruct (fw_tr_target _ _ _ Hu) as (-> & -> & Eu).
        rewrite (pick_pre L).
        transitivity (off (il t) (ol t) (tw u) (fun x y => ksum (map (fun i => ksum (map (fun p =>
          pick x y (map (after p) (parts (ns t) (snd (tn u)) p (k - i)))) (paths (mach f) i (ns t)))) (seq 0 (S k)))) x y).
        * apply off_ext. intros x' y'. rewrite <- IH by (apply HT; simpl; auto).
          replace (tn u) with (Some (ns t), snd (tn u)); auto. destruct (tn u); simpl in *; congruence.
        * rewrite (off_sum L). apply ksum_map_ext. intros i _. rewrite (off_sum L). auto.
      + rewrite (ksum_swap L). apply ksum_map_ext. intros i _. rewrite (ksum_swap L). apply ksum_map_ext. intros p _.
        rewrite parts_cons, pick_map_flat_map. apply ksum_map_ext. intros u _. rewrite after_pre, (pick_pre L). auto.
  Qed.

  (** ** Totals *)
  Lemma fw_finals_in l : forall i o u, In u (fw_finals opts i o l) ->
    exists p m n, In p l /\ u = TT (i + m) (o + n) (fst p) (None, quant opts (snd p)) /\
      (incr_il opts = false -> m = O) /\ (incr_ol opts = false -> n = O).
  Proof.
    induction l as [|p l IH]; intros i o u; cbn [fw_finals]; [intros []|]. intros [<-|H].
    - exists p, O, O. rewrite !Nat.add_0_r. simpl. auto.
    - destruct (IH _ _ _ H) as (q & m & n & A & B & C & E). exists q.
      exists (if incr_il opts then S m else m), (if incr_ol opts then S n else n). split; [simpl; auto|].
      destruct (incr_il opts), (incr_ol opts); rewrite B, ?Nat.add_succ_r; split; auto; split; intros; try discriminate; auto.
  Qed.
  Lemma fw_finals_sum l (g : K * option nat -> K) : forall i o,
    ksum (map (fun u => tw u * g (snd (tn u), fst (tn u))) (fw_finals opts i o l)) =
    ksum (map (fun p => fst p * g (quant opts (snd p), None)) l).
  Proof. induction l as [|p l IH]; intros i o; cbn; auto. rewrite IH. auto. Qed.

  Lemma total_bag_S j w : total (bag (S j) (None, w)) =
    if ff then ksum (map (fun p => fst p * total (bag j (None, quant opts (snd p)))) (fi_items FI w)) else 0.
  Proof.
    cbn [BagFacts.bag]. rewrite trs_none. unfold fin_items. destruct ff; auto.
    rewrite (total_flat_map L), <- (fw_finals_sum _ (fun a => total (bag j (snd a, fst a))) (final_il opts) (final_ol opts)).
    apply ksum_map_ext. intros u Hu. rewrite (total_pre L). cbn [fst snd]. do 3 f_equal. apply surjective_pairing.
  Qed.

  Section Totals.
  Context (FL : law) (FL2 : law2).

  Lemma fw_tr_sum w t (g : K -> K) X : (forall v, g v = v * X) ->
    ksum (map (fun u => tw u * g (snd (tn u))) (fw_tr FI opts w t)) = (w * wgt t) * X.
  Proof.
    intros Hg. unfold fw_tr. destruct (negb (fw_arc opts) || fi_done FI (w * wgt t)) eqn:E.
    - cbn. rewrite Hg, (kplus_0_r L), (ktimes_1_l _ L). auto.
    - apply orb_false_iff in E as [_ E]. rewrite <- (FL2 _ E), map_map. cbn. apply ksum_map_ext. intros p _. rewrite Hg. auto.
  Qed.

  Lemma del_sum p : forall w X, ksum (map (fun c => fst c * (snd c * X)) (del w p)) = (w * pw p) * X.
  Proof.
    induction p as [|t p IH]; intros w X; cbn [del pw].
    - cbn. rewrite (kplus_0_r L), (ktimes_1_l _ L), (ktimes_1_r _ L). auto.
    - rewrite flat_map_concat_map, concat_map, map_map.
      transitivity (ksum (map (fun u => tw u * (snd (tn u) * (pw p * X))) (fw_tr FI opts w t))).
      + generalize (fw_tr FI opts w t). intros l. induction l as [|u l IHl]; cbn [map concat ksum]; auto.
        rewrite (ksum_app L), IHl. f_equal. rewrite (ktimes_assoc _ L), (ktimes_assoc _ L), <- (ktimes_assoc _ L (tw u)).
        rewrite <- (ktimes_assoc _ L), <- IH, (ksum_times_l L), !map_map. apply ksum_map_ext. intros c _. cbn [fst snd].
        symmetry. apply (ktimes_assoc _ L).
      + rewrite (fw_tr_sum w t (fun v => v * (pw p * X)) (pw p * X)) by auto. rewrite !(ktimes_assoc _ L). auto.
  Qed.

  Context (mu : K -> nat) (Hmu : fw_final opts = true -> forall w p, In p (fi_items FI w) -> (mu (quant opts (snd p)) < mu w)%nat).

  Lemma total_bags J : forall w, (mu w <= J)%nat -> ksum (map (fun j => total (bag j (None, w))) (seq 0 (S J))) = w.
  Proof.
    assert (B0 : forall w, total (bag 0 (None, w)) = if negb ff || fi_done FI w then w else 0).
    { intros w. unfold total. cbn [BagFacts.bag map snd ksum]. rewrite fin_none. apply (kplus_0_r L). }
    induction J as [|J IH]; intros w Hw; rewrite ksum_seq_S, B0.
    - cbn [seq map ksum]. rewrite (kplus_0_r L). destruct ff eqn:Ef; auto. cbn [negb orb].
      destruct (fi_done FI w) eqn:Ed; auto. pose proof (FL2 w Ed 1) as H. rewrite (ktimes_1_r _ L) in H. rewrite <- H.
      destruct (fi_items FI w) as [|p l] eqn:Ei; auto. specialize (Hmu eq_refl w p). rewrite Ei in Hmu.
      specialize (Hmu (or_introl eq_refl)). lia.
    - rewrite (ksum_map_ext _ (fun j => if ff then ksum (map (fun p => fst p * total (bag j (None, quant opts (snd p)))) (fi_items FI w)) else 0))
        by (intros j _; apply total_bag_S).
      destruct ff eqn:Ef; cbn [negb orb].
      + destruct (fi_done FI w) eqn:Ed.
        * rewrite (FL w Ed). cbn [map ksum]. rewrite (ksum_map_0 L). apply (kplus_0_r L).
        * rewrite (kplus_0_l _ L), (ksum_swap L). pose proof (FL2 w Ed 1) as H. rewrite (ktimes_1_r _ L) in H.
          etransitivity; [|exact H]. apply ksum_map_ext. intros p Hp.
          rewrite <- (map_map (fun j => total (bag j (None, quant opts (snd p)))) (fun v => fst p * v)), <- (ksum_times_l L).
          rewrite IH; [rewrite (ktimes_1_r _ L); auto|]. specialize (Hmu eq_refl w p Hp). lia.
      + rewrite (ksum_map_0 L). apply (kplus_0_r L).
  Qed.

  Theorem parts_total s w p : exists J0, forall J, (J0 <= J)%nat ->
    ksum (map (fun j => total (parts s w p j)) (seq 0 (S J))) = w * apw (mach f) s p.
  Proof.
    unfold parts, apw. cbn [mach mfin]. destruct (fin_of f (dst s p)) as [z|] eqn:E.
    - exists (list_max (map (fun c => mu (snd c * z)) (del w p))). intros J HJ. cbn [fw].
      rewrite (ktimes_assoc _ L), <- del_sum.
      rewrite (ksum_map_ext _ (fun j => ksum (map (fun c => fst c * total (bag j (None, snd c * z))) (del w p)))).
      2: { intros j _. rewrite (total_flat_map L). apply ksum_map_ext. intros c _. apply (total_scale L). }
      rewrite (ksum_swap L). apply ksum_map_ext. intros c Hc.
      rewrite <- (map_map (fun j => total (bag j (None, snd c * z))) (fun v => fst c * v)), <- (ksum_times_l L).
      rewrite total_bags; auto. apply Nat.le_trans with (2 := HJ).
      apply (in_map (fun c => mu (snd c * z))) in Hc. revert Hc. generalize (map (fun c0 => mu (snd c0 * z)) (del w p)).
      clear. intros l H. pose proof (proj1 (list_max_le l (list_max l)) (Nat.le_refl _)) as F.
      rewrite Forall_forall in F. auto.
    - exists O. intros J _. cbn [fw]. rewrite !(ktimes_0_r _ L). apply (ksum_map_zero L). auto.
  Qed.

  End Totals.

  (** ** Labels of the chains of final weights *)
  Definition chain (base : nat) (incr : bool) (j : nat) (a : list nat) : Prop :=
    exists ms, length ms = j /\ a = flat_map (fun m => lab (base + m)) ms /\ (incr = false -> Forall (eq O) ms).

  Lemma bag_chain j : forall w r, In r (bag j (None, w)) ->
    chain (final_il opts) (incr_il opts) j (fst (fst r)) /\ chain (final_ol opts) (incr_ol opts) j (snd (fst r)).
  Proof.
    induction j as [|j IH]; intros w r; cbn [BagFacts.bag].
    - intros [<-|[]]. cbn. split; exists []; auto.
    - rewrite trs_none. unfold fin_items. destruct ff; [|intros []]. rewrite in_flat_map. intros (u & Hu & Hr).
      destruct (fw_finals_in _ _ _ _ Hu) as (p & m & n & _ & -> & Hm & Hn). cbn [ti to tw tn] in Hr.
      apply in_map_iff in Hr as (r' & <- & Hr). destruct (IH _ _ Hr) as ((ms & A1 & A2 & A3) & (ms' & B1 & B2 & B3)).
      unfold pre. cbn [fst snd]. rewrite A2, B2. split.
      + exists (m :: ms). split; [simpl; auto|]. split; [reflexivity|]. intros H. constructor; auto. symmetry. auto.
      + exists (n :: ms'). split; [simpl; auto|]. split; [reflexivity|]. intros H. constructor; auto. symmetry. auto.
  Qed.
  Lemma parts_chain s w p j r : In r (parts s w p j) ->
    chain (final_il opts) (incr_il opts) j (fst (fst r)) /\ chain (final_ol opts) (incr_ol opts) j (snd (fst r)).
  Proof.
    unfold parts. destruct (fin_of f (dst s p)) as [z|]; [|intros []]. rewrite in_flat_map. intros (c & _ & H).
    apply in_map_iff in H as (r' & <- & H). cbn. eapply bag_chain; eauto.
  Qed.
  Lemma parts_no_final s w p j : fw_final opts = false -> j <> O -> parts s w p j = [].
  Proof.
    intros H N. unfold parts. destruct (fin_of f (dst s p)) as [z|]; auto. destruct j as [|j]; [congruence|].
    induction (del w p) as [|c l IH]; cbn [flat_map]; auto. rewrite IH. cbn [BagFacts.bag]. rewrite trs_none. unfold fin_items.
    rewrite H. auto.
  Qed.
End Factor.
