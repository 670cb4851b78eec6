(** Minimizing a machine whose labels are in its weights. *)
From Coq Require Import List Arith NArith Bool Lia.
From Verif Require Import Base.Util Base.Semiring Base.Machine Base.PathSum Base.PropSpec
  Model.Props Model.VectorFst Model.TrOps Model.Rational Model.TrMap Model.Encode Model.Weights Model.FactorWeight Model.ShortestDistance Model.Reweight
  Model.Minimize Model.Gallic Model.MinTransducer.
From Verif Require Import Proofs.PropsFacts Proofs.VectorFacts Proofs.VectorProps Proofs.TrOpsFacts Proofs.OpFacts Proofs.ConnectFacts Proofs.RationalFacts
  Proofs.ReverseDist Proofs.ReweightFacts Proofs.LabelFacts Proofs.MinFacts Proofs.SpellFacts Proofs.EncMin
  Proofs.GallicFacts Proofs.LabelPot Proofs.GallicPath Proofs.PushPath Proofs.LabelPush Proofs.PushLabels
  Props.C18 Props.C31 Props.C38 Props.C39 Props.C45.
Import ListNotations.
Local Open Scope K_scope.

(** ** Deterministic machines with the same words have the same paths *)
Section Det.
  Context {K V : SR} (L : lsr_laws K) (LV : lsr_laws V).
  Implicit Types (m : machine K).

  Lemma apw_spell m (D : deterministic m) q : forall s, is_path m s q -> apw m s q = spell m s (map il q).
  Proof.
    induction q as [|t q IH]; intros s; cbn [is_path map].
    - intros _. unfold apw. cbn [pw dst spell]. apply (ktimes_1_l _ L).
    - intros [Ht Hq]. rewrite (spell_step L) by auto. rewrite <- (IH _ Hq). unfold apw. cbn [pw dst]. symmetry. apply (ktimes_assoc _ L).
  Qed.

  Lemma det_sums (F : list nat -> K -> V) (F0 : forall u, F u 0 = 0) m1 m2 : deterministic m1 -> deterministic m2 ->
    forall i s1 s2 c1 c2 u, (forall v, c1 * spell m1 s1 v = c2 * spell m2 s2 v) ->
    ksum (map (fun q => F (u ++ map il q)%list (c1 * apw m1 s1 q)) (paths m1 i s1)) =
    ksum (map (fun q => F (u ++ map il q)%list (c2 * apw m2 s2 q)) (paths m2 i s2)).
  Proof.
    intros D1 D2.
    assert (ST : forall m i s c u, ksum (map (fun q => F (u ++ map il q)%list (c * apw m s q)) (paths m (S i) s)) =
      ksum (map (fun t => ksum (map (fun q => F ((u ++ [il t]) ++ map il q)%list ((c * wgt t) * apw m (ns t) q)) (paths m i (ns t)))) (mtrs m s))).
    { intros m i s c u. cbn [paths]. induction (mtrs m s) as [|t l IH]; auto. cbn [flat_map map ksum]. rewrite map_app, (ksum_app LV), IH. f_equal.
      rewrite map_map. f_equal. apply map_ext. intros q. rewrite <- app_assoc. cbn [app map]. f_equal. unfold apw. cbn [pw dst].
      rewrite <- !(ktimes_assoc _ L). auto. }
    assert (DEAD : forall m (D : deterministic m) i s t c u, In t (mtrs m s) -> (forall v, c * spell m s (il t :: v) = 0) ->
      ksum (map (fun q => F ((u ++ [il t]) ++ map il q)%list ((c * wgt t) * apw m (ns t) q)) (paths m i (ns t))) = 0).
    { intros m D i s t c u Ht H. apply (ksum_map_zero LV). intros q Hq. apply paths_is_path in Hq as [Hq _].
      rewrite (apw_spell m D q _ Hq), <- (ktimes_assoc _ L), <- (spell_step L m s t) by auto. rewrite H. auto. }
    induction i as [|i IH]; intros s1 s2 c1 c2 u H.
    - cbn [paths map ksum]. unfold apw. cbn [pw dst]. rewrite !(ktimes_1_l _ L). specialize (H []). cbn [spell] in H. rewrite H. auto.
    - rewrite !ST. apply (pair_sum LV); auto.
      + intros t Ht. destruct (label_dec m2 s2 (il t)) as [(t2 & H2 & E2)|No].
        * left. exists t2. split; auto. split; auto. rewrite E2. apply IH. intros v.
          rewrite <- !(ktimes_assoc _ L), <- (spell_step L m1 s1 t), <- (spell_step L m2 s2 t2) by auto. rewrite E2. apply H.
        * right. split; auto. apply (DEAD m1 D1 i s1); auto. intros v. rewrite H, (spell_none L) by auto. apply (ktimes_0_r _ L).
      + intros t2 H2. destruct (label_dec m1 s1 (il t2)) as [(t & Ht & E)|No]; [left; rewrite <- E; apply in_map; auto|].
        right. apply (DEAD m2 D2 i s2); auto. intros v. rewrite <- H, (spell_none L) by auto. apply (ktimes_0_r _ L).
  Qed.

  (** The path of a deterministic machine that reads a word. *)
  Fixpoint walk m (s : nat) (u : list nat) : list (tr K) :=
    match u with
    | [] => []
    | a :: u => match find (fun t => Nat.eqb (il t) a) (mtrs m s) with Some t => t :: walk m (ns t) u | None => [] end
    end.
  Lemma walk_path m (D : deterministic m) q : forall s, is_path m s q -> walk m s (map il q) = q.
  Proof.
    induction q as [|t q IH]; intros s; cbn [is_path map walk]; auto. intros [Ht Hq].
    assert (E : find (fun t0 => Nat.eqb (il t0) (il t)) (mtrs m s) = Some t).
    { specialize (D s). induction (mtrs m s) as [|v l IHl]; [destruct Ht|]. cbn [find]. cbn [map] in D. inversion D as [|? ? X D']; subst.
      destruct Ht as [->|Ht]; [rewrite Nat.eqb_refl; auto|]. destruct (Nat.eqb_spec (il v) (il t)) as [Ev|]; auto.
      exfalso. apply X. rewrite Ev. apply in_map. auto. }
    rewrite E. f_equal. apply IH. auto.
  Qed.
  Lemma ilabs_map q : flat_map lab (map il q) = @ilabs K q.
  Proof. unfold ilabs. induction q as [|t q IH]; auto. cbn [map flat_map]. rewrite IH. auto. Qed.
End Det.

(** ** What minimization keeps of a gallic machine *)
Section Keep.
  Context {K : SR} (L : lsr_laws K).
  Notation G := (gallicSR K).
  Let LG : lsr_laws G := gallicSR_laws K L.
  Context (g m : vfst G) (b : nat) (Vg : vstart g = Some b) (Dg : deterministic (mach g)) (Sg : GallicPath.spelled sl_plus g) (Cg : closed g).
  Context (Cm : closed m) (Dm : deterministic (mach m)) (Am : is_acceptor (mach m)) (Tm : forall s, (s < num_states m)%nat -> accessible (mach m) s)
    (Sp : forall u, C38.spelled (mach m) u = C38.spelled (mach g) u) (Fo : follows m g).

  Lemma kept_spelled : GallicPath.spelled sl_plus m.
  Proof.
    destruct Fo as (R & R0 & RS).
    assert (RA : forall s q, reach (mach m) s q -> forall p, R s p -> exists p', R q p').
    { induction 1 as [|s t u Ht _ IH]; eauto. intros p Hp. destruct (proj2 (RS s p Hp) t Ht) as (v & _ & _ & _ & Hv). eauto. }
    assert (AL : forall s, (s < num_states m)%nat -> exists p, R s p).
    { intros s Hs. destruct (Tm s Hs) as (s0 & E0 & Rs). destruct (R0 s0 E0) as (p & _ & Hp). apply (RA s0 s Rs p Hp). }
    split.
    - intros s t Ht. assert (Hs : (s < num_states m)%nat) by (destruct (Nat.lt_ge_cases s (num_states m)); auto; rewrite trs_of_oob in Ht by auto; destruct Ht).
      destruct (AL s Hs) as (p & Hp). destruct (proj2 (RS s p Hp) t Ht) as (u & Hu & _ & Ew & _). split; [symmetry; apply (Am s t Ht)|].
      destruct (proj1 Sg p u Hu) as (_ & z & c & X & Nz). exists z, c. split; [exact (eq_trans (eq_sym Ew) X)|exact Nz].
    - intros s w Hw. assert (Hs : (s < num_states m)%nat) by (destruct (Nat.lt_ge_cases s (num_states m)); auto; rewrite fin_of_beyond in Hw by auto; discriminate).
      destruct (AL s Hs) as (p & Hp). apply (proj2 Sg p). apply (proj1 (RS s p Hp)). exact Hw.
  Qed.

  (** The same strings end up pending. *)
  Lemma kept_total (Bd : nat -> nat) : (forall s t, accessible (mach g) s -> In t (trs_of g s) -> (Bd s + length (word sl_plus (wgt t)) <= S (Bd (ns t)))%nat) ->
    exists fuel0, forall fuel, (fuel0 <= fuel)%nat -> exists r, ungallic sl_plus fuel m = Some (Ok r).
  Proof.
    intros HB. destruct (max_bound Bd (num_states g)) as (M & HM). destruct Fo as (R & R0 & RS).
    apply (ungallic_total_inv L sl_plus LG m (fun s n => exists p, R s p /\ accessible (mach g) p /\ (p < num_states g)%nat /\ (n <= Bd p)%nat) M); auto.
    - exact kept_spelled.
    - intros s Es. destruct (R0 s Es) as (p & Ep & Hp). exists p. split; auto. split; [exists p; split; [auto|constructor]|]. split; [apply Cg; auto|lia].
    - intros s n (p & _ & _ & Hp & Hn). specialize (HM p Hp). lia.
    - intros s n t (p & Hp & Ap & Lp & Hn) Ht. destruct (proj2 (RS s p Hp) t Ht) as (u & Hu & _ & Ew & Hu').
      exists (ns u). split; auto. pose proof (HB p u Ap Hu) as H. replace (wgt u) with (wgt t) in H by (symmetry; exact Ew). change (gallic_of sl_plus K) with G. split; [|split; [apply (proj1 Cg p u Hu)|]].
      + destruct Ap as (s0 & Es & Rs). exists s0. split; auto. eapply reach_trans; [exact Rs|]. eapply reach_step; [exact Hu|constructor].
      + assert (AR : forall n B l B' : nat, (n <= B -> B + l <= S B' -> n + l - 1 <= B')%nat) by (intros; lia). exact (AR _ _ _ _ Hn H).
  Qed.

  Theorem kept_rel fuel r : ungallic sl_plus fuel m = Some (Ok r) ->
    closed r /\ cnt r /\ (vstart m <> None -> vstart r <> None /\ visymt r = visymt m /\ vosymt r = vosymt m) /\ (vstart m = None -> r = vnew) /\
    exists tau, forall k x y, rel (mach r) k x y = ksum (map (fun i => ksum (map (shifted g b tau k x y) (paths (mach g) i b))) (seq 0 (S k))).
  Proof.
    intros E. destruct (ungallic_rel L sl_plus LG m fuel r kept_spelled Cm E) as (R1 & R2 & R3 & R4 & R5). do 4 (split; auto).
    change (gallic_of sl_plus K) with G in *. destruct (vstart m) as [s1|] eqn:V.
    - set (tw := fun u => tail sl_plus m s1 [] (walk (mach m) s1 u)). exists (fun q => tw (map il q)). intros k x y. rewrite R5. f_equal. apply map_ext. intros i.
      set (F := fun (u : list nat) (w : G) => match w with (Some z, c) => if leqb (flat_map lab u) x && leqb z y && Nat.eqb (length u + tw u) k then c else 0 | (None, _) => 0 end).
      transitivity (ksum (map (fun q => F (map il q) (1 * apw (mach m) s1 q)) (paths (mach m) i s1))).
      { f_equal. apply map_ext_in. intros q Hq. apply paths_is_path in Hq as [Hq _]. rewrite (ktimes_1_l _ LG). unfold part, F, tw.
        change (gallic_of sl_plus K) with G. rewrite (walk_path (mach m) Dm q s1 Hq), ilabs_map, map_length. auto. }
      pose proof (det_sums LG L F ltac:(reflexivity) (mach m) (mach g) Dm Dg i s1 b 1 1 []) as X. cbn [app] in X. rewrite X.
      + f_equal. apply map_ext. intros q. rewrite (ktimes_1_l _ LG). unfold shifted, F. rewrite ilabs_map, map_length. auto.
      + intros v. specialize (Sp v). unfold C38.spelled in Sp. cbn [mach mstart] in Sp. rewrite V, Vg in Sp. fold (mach m) (mach g) in Sp. rewrite Sp. auto.
    - exists (fun _ => O). intros k x y. rewrite R5. symmetry. apply (ksum_map_zero L). intros i _. apply (ksum_map_zero L). intros q Hq. apply paths_is_path in Hq as [Hq _].
      unfold shifted. rewrite (apw_spell LG (mach g) Dg q b Hq). specialize (Sp (map il q)). unfold C38.spelled in Sp. cbn [mach mstart] in Sp. rewrite V, Vg in Sp.
      fold (mach g) in Sp. rewrite <- Sp. auto.
  Qed.
End Keep.
