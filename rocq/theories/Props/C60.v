(** C60: determinization of transducers (the functional variant, which is the default). *)
From Coq Require Import List Arith NArith ZArith Bool Lia.
From Verif Require Import Base.Util Base.Semiring Base.Machine Base.PropSpec Base.Instances Base.TropZ Model.Props Model.AlgoProps Model.VectorFst Model.History
  Model.TrOps Model.Rational Model.TrMap Model.Weights Model.Determinize Model.FactorWeight Model.Reweight Model.Gallic Model.DetTransducer.
From Verif Require Import Proofs.VectorFacts Proofs.HistoryFacts Proofs.OpFacts Proofs.TrOpsFacts Proofs.ConnectFacts Proofs.ClosedB Proofs.DetFacts Proofs.GallicFacts Proofs.GallicPath Proofs.DetTrans
  Props.C31 Props.C38.
Import ListNotations.
Local Open Scope K_scope.

(** The weight of reading the labels [u] from [q] (epsilon is a label like the others) and writing [y]. *)
Fixpoint written {K : SR} (m : machine K) (u : list nat) (q : nat) (y : list nat) : K :=
  match u with
  | [] => if isnil y then fw (mfin m q) else 0
  | a :: u' => ksum (map (fun t => match strip (ol t) y with Some y' => wgt t * written m u' (ns t) y' | None => 0 end)
                         (filter (fun t => Nat.eqb (il t) a) (mtrs m q)))
  end.
Definition writes {K : SR} (m : machine K) (u y : list nat) : K :=
  match mstart m with Some q => written m u q y | None => 0 end.

(** It is the weight of the relation, one string of labels at a time. *)
Lemma wt_written {K : SR} (L : lsr_laws K) (m : machine K) : forall n q x y, wt m n q x y = ksum (map (fun u => written m u q y) (paddings n x)).
Proof.
  induction n as [|n IH]; intros q x y.
  - cbn [wt paddings]. destruct x; cbn [isnil andb map ksum written]; auto. symmetry. apply (kplus_0_r L).
  - rewrite (pad_step L (mtrs m q) _ (fun t u => match strip (ol t) y with Some y' => wgt t * written m u (ns t) y' | None => 0 end)).
    + cbn [wt]. apply ksum_map_ext. intros t _. destruct (strip (il t) x) as [x'|]; auto. destruct (strip (ol t) y) as [y'|].
      * rewrite IH, (ksum_times_l L), map_map. auto.
      * symmetry. apply (ksum_map_0 L).
    + intros a u. cbn [written]. apply (ksum_filter L).
Qed.
Theorem C60_writes_rel {K : SR} (L : lsr_laws K) (m : machine K) n x y : rel m n x y = ksum (map (fun u => writes m u y) (paddings n x)).
Proof.
  unfold rel, writes. destruct (mstart m) as [q|]; [apply (wt_written L)|]. symmetry. apply (ksum_map_0 L).
Qed.

Definition no_input_eps {K : SR} (m : machine K) : Prop := forall s t, In t (mtrs m s) -> il t <> O.
Definition no_zero_final {K : SR} (m : machine K) : Prop := forall s w, mfin m s = Some w -> w <> 0.

Section T.
  Context {K : SR} (L : sr_laws K) (divide : K -> K -> divide_type -> res K) (quant : K -> K) (left : bool).
  Context (DX : exact_division (fun a b => divide a b DivideLeft) quant).
  Context (ord : dtuple K -> nat -> list (nat * K) -> list (nat * K)) (HO : any_order ord).
  Context (ordg : dtuple (gallicSR K) -> nat -> list (nat * gallicSR K) -> list (nat * gallicSR K)) (HG : any_order ordg).
  Implicit Types f g r : vfst K.
  Notation G := (gallicSR K).

  Lemma gallic_written f (gf : vfst G) : mapped gtr gfin f gf -> forall u q y, aval (V := K) act done gf q u y = written (mach f) u q y.
  Proof.
    intros (_ & _ & _ & _ & _ & M). induction u as [|a u IH]; intros q y; cbn [aval written mach mfin mtrs]; destruct (M q) as [T F].
    - rewrite F. destruct (fin_of f q) as [w|]; cbn [option_map fw].
      + unfold act, gfin, done. cbn [fst snd chop]. destruct (isnil y); [apply (ktimes_1_r _ L)|apply (ktimes_0_r _ L)].
      + cbn. destruct (isnil y); auto.
    - rewrite T. clear T F. induction (trs_of f q) as [|t l IHl]; auto. cbn [map filter gtr il].
      destruct (Nat.eqb (il t) a); auto. cbn [map ksum]. rewrite IHl. f_equal. unfold act, gtr, str, lab, strip. cbn [wgt fst snd ns].
      destruct (Nat.eqb_spec (ol t) O) as [E|E]; cbn [chop]; [rewrite IH; auto|].
      destruct y as [|b y]; auto. rewrite (Nat.eqb_sym (ol t)). destruct (Nat.eqb b (ol t)); auto. rewrite IH. auto.
  Qed.
  Lemma lab_no_eps o : ~ In O (lab o).
  Proof. unfold lab. destruct (Nat.eqb_spec o 0); cbn; intuition. Qed.

  (** The relation is kept, string of input labels by string of input labels: after reading [u] the result writes what is left in
      [rest u] more steps, which read nothing.  A result means that no two strings are written for the same
      input labels.  Without input epsilons in [f] the result is deterministic. *)
  Theorem C60_transducer fuel f r : closed f -> no_zero_final (mach f) ->
    determinize_fst divide quant left ordg fuel f = Some (Ok r) ->
    closed r /\ cnt r /\
    (exists rest : list nat -> nat,
       (forall u y, (length y < rest u)%nat -> writes (mach f) u y = 0) /\
       forall k x y, rel (mach r) k x y =
         ksum (map (fun i => ksum (map (fun u => if Nat.eqb (i + rest u) k then writes (mach f) u y else 0) (paddings i x))) (seq 0 (S k)))) /\
    (forall u, exists z, forall y, y <> z -> writes (mach f) u y = 0) /\
    (no_input_eps (mach f) -> deterministic (mach r)).
  Proof.
    intros CF ZF. unfold determinize_fst, determinize_gallic.
    assert (X : exists gf : vfst G, weight_convert (to_gallic sl_plus) f tt = Ok (gf, tt) /\ closed gf /\ vstart gf = vstart f /\
      (forall s t, In t (trs_of gf s) -> DetTrans.good (wgt t) /\ exists t0, In t0 (trs_of f s) /\ il t = il t0) /\ (forall s w, fin_of gf s = Some w -> DetTrans.good w) /\
      (vstart f <> None -> mapped gtr gfin f gf)).
    { destruct (vstart f) as [s0|] eqn:V.
      - destruct (C31_pure_converter (to_gallic sl_plus) gtr gfin f CF ltac:(congruence) (to_gallic_pure L f ZF)) as (gf & E & M & _).
        change (gallic_of sl_plus K) with G in *. exists gf. split; auto. pose proof M as (_ & N & V' & _ & _ & M'). rewrite V in V'. split.
        { split; [|rewrite N, V'; rewrite <- V; apply CF]. intros s t. rewrite (proj1 (M' s)), N. intros Ht. apply in_map_iff in Ht as (u & <- & Hu). apply (proj1 CF _ _ Hu). }
        split; auto. split; [|split; auto].
        + intros s t. rewrite (proj1 (M' s)). intros Ht. apply in_map_iff in Ht as (u & <- & Hu). split; [|exists u; auto].
          exists (lab (ol u)), (wgt u). split; auto. apply lab_no_eps.
        + intros s w. rewrite (proj2 (M' s)). destruct (fin_of f s) as [v|]; [|discriminate]. intros [= <-]. exists [], v. auto.
      - exists vnew. pose proof (C31_weight_convert (to_gallic sl_plus) f tt CF) as T. cbv zeta in T. change (gallic_of sl_plus K) with G in *. rewrite V in T. split; [exact T|].
        split; [split; [intros [|s] t []|discriminate]|]. split; auto. split; [intros [|s] t []|]. split; [intros [|s] w; discriminate|tauto]. }
    destruct X as (gf & E & Cgf & Vgf & Gt & Gf & M). rewrite E. cbn [obind fst].
    destruct (determinize_fsa (restrict_weight divide quant left) ordg gf fuel) as [[g| |]|] eqn:Ed; cbn [obind]; try discriminate.
    destruct (factor_weight (gallicFI K) final_opts g fuel) as [[h| |]|] eqn:Eh; cbn [obind]; try discriminate.
    destruct (weight_convert (from_gallic sl_plus 0) h tt) as [[r' []]| |] eqn:Er; cbn [obind fst]; try discriminate. intros [= <-].
    destruct (det_gallic L divide quant left DX ordg HG gf (fun s t H => proj1 (Gt s t H)) Gf fuel g Ed) as (Cg & _ & Ag & Dg & ST & SF & AV & NL).
    destruct (back L g Cg Ag Dg ST SF fuel h r' Eh Er) as (R1 & R2 & R3 & R4 & R5 & R6).
    split; auto. split; auto. unfold writes. cbn [mach mstart].
    rewrite Vgf in AV. destruct (vstart g) as [q|] eqn:Vg; destruct (vstart f) as [s|] eqn:Vf; try destruct AV.
    - specialize (M ltac:(discriminate)).
      assert (AV' : forall u y, aval (V := K) act done g q u y = written (mach f) u s y) by (intros u y; rewrite AV; apply gallic_written; auto).
      split.
      { exists (ext g q). split.
        - intros u y H. rewrite <- AV'. apply (ext_bound L g Dg SF). auto.
        - intros k x y. rewrite R5, (val_words L g Dg ST SF). apply ksum_map_ext. intros i _. apply ksum_map_ext. intros u _. unfold pick.
          destruct (Nat.eqb _ k); auto. }
      split.
      { intros u. destruct (av_functional L g Dg SF u q) as [z Hz]. exists z. intros y N. rewrite <- AV'. auto. }
      intros NE. apply R6, NL. intros p t Ht. destruct (Gt p t Ht) as (_ & t0 & H0 & E0). rewrite E0. exact (NE p t0 H0).
    - split.
      { exists (fun _ => O). split; auto. intros k x y. rewrite R5. symmetry. apply (ksum_map_zero L). intros i _. apply (ksum_map_zero L).
        intros u _. destruct (Nat.eqb _ k); auto. }
      split; [intros u; exists []; auto|].
      intros NE. apply R6, NL. intros p t Ht. destruct (Gt p t Ht) as (_ & t0 & H0 & E0). rewrite E0. exact (NE p t0 H0).
  Qed.

  Lemma writes_eps f u y : no_input_eps (mach f) -> In O u -> writes (mach f) u y = 0.
  Proof.
    intros NE I. unfold writes. destruct (mstart (mach f)) as [q|]; auto. revert q y. induction u as [|a u IH]; intros q y; [destruct I|]. cbn [written].
    apply (ksum_map_zero L). intros t Ht. apply filter_In in Ht as [Ht Ea]. apply Nat.eqb_eq in Ea. destruct I as [->|I].
    - destruct (NE q t Ht Ea).
    - destruct (strip (ol t) y); auto. rewrite IH by auto. apply (ktimes_0_r _ L).
  Qed.
  Lemma ksum_one {A} (F : A -> K) l1 a l2 : (forall b, In b (l1 ++ l2) -> F b = 0) -> ksum (map F (l1 ++ a :: l2)) = F a.
  Proof.
    intros H. rewrite map_app, (ksum_app L). cbn [map ksum]. rewrite !(ksum_map_zero L) by (intros; apply H; apply in_or_app; auto).
    rewrite (kplus_0_r L). apply (kplus_0_l _ L).
  Qed.
  (** Without input epsilons only the input itself is read. *)
  Lemma pad_writes f (c : list nat -> bool) i x y : no_input_eps (mach f) ->
    ksum (map (fun u => if c u then writes (mach f) u y else 0) (paddings i x)) = if Nat.eqb i (length x) && c x && negb (existsb (Nat.eqb O) x) then writes (mach f) x y else 0.
  Proof.
    intros NE. assert (Z : forall u, In O u -> (if c u then writes (mach f) u y else 0) = 0).
    { intros u Hu. rewrite writes_eps by auto. destruct (c u); auto. }
    assert (P : forall l, (forall u, In u l -> In O u) -> ksum (map (fun u => if c u then writes (mach f) u y else 0) l) = 0).
    { intros l H. apply (ksum_map_zero L). auto. }
    destruct (existsb (Nat.eqb O) x) eqn:EX.
    - cbn [negb]. rewrite andb_false_r. apply P. intros u Hu. destruct (in_dec Nat.eq_dec O u) as [|N]; auto.
      destruct (paddings_eps _ _ _ Hu N) as [_ ->]. apply existsb_exists in EX as (a & Ha & E). apply Nat.eqb_eq in E. subst a. auto.
    - assert (NX : ~ In O x). { intros I. apply Bool.not_true_iff_false in EX. apply EX. apply existsb_exists. exists O. auto. }
      cbn [negb]. rewrite andb_true_r. destruct (Nat.eqb_spec i (length x)) as [->|N].
      + destruct (paddings_self x NX) as (l1 & l2 & -> & H). cbn [andb]. apply ksum_one. auto.
      + cbn [andb]. apply P. intros u Hu. destruct (in_dec Nat.eq_dec O u) as [|N']; auto. destruct (paddings_eps _ _ _ Hu N') as [E _]. congruence.
  Qed.
  Lemma ksum_at (R : K) (c : nat) (n : nat) : ksum (map (fun k => if Nat.eqb k c then R else 0) (seq 0 n)) = if Nat.ltb c n then R else 0.
  Proof.
    induction n as [|n IH]; auto. rewrite seq_S, map_app, (ksum_app L), IH. cbn [map ksum Nat.add].
    destruct (Nat.eqb_spec n c) as [->|].
    - rewrite (proj2 (Nat.ltb_ge c c)) by lia. rewrite (proj2 (Nat.ltb_lt c (S c))) by lia. rewrite (kplus_0_r L). apply (kplus_0_l _ L).
    - rewrite !(kplus_0_r L). destruct (Nat.ltb_spec c n), (Nat.ltb_spec c (S n)); auto; lia.
  Qed.

  Definition total (m : machine K) (n : nat) (x y : list nat) : K := ksum (map (fun k => rel m k x y) (seq 0 (S n))).

  (** [determinize] keeps the total weight of every pair of strings, and its result is deterministic. *)
  Theorem C60_determinize fuel f r : closed f -> (has (vprops f) ACCEPTOR = true -> is_acceptor (mach f)) -> no_zero_final (mach f) -> no_input_eps (mach f) ->
    determinize divide quant left ord ordg fuel f = Some (Ok r) ->
    closed r /\ cnt r /\ deterministic (mach r) /\
    (forall n x y, (length x + length y <= n)%nat -> total (mach r) n x y = total (mach f) n x y) /\
    visymt r = visymt f /\ vosymt r = vosymt f.
  Proof.
    intros CF AF ZF NE. unfold determinize. destruct (has (vprops f) ACCEPTOR) eqn:HA.
    - intros E. destruct (C38_determinize L (fun a b => divide a b DivideLeft) quant left ord f DX HO true fuel r CF (fun _ => AF eq_refl) E) as (R1 & R2 & R3 & _ & _ & R6 & R7).
      repeat (split; [assumption|]). split; auto. intros n x y _. unfold total. apply ksum_map_ext. auto.
    - destruct (determinize_fst divide quant left ordg fuel f) as [[g| |]|] eqn:E; cbn [obind]; try discriminate. intros [= <-].
      destruct (C60_transducer fuel f g CF ZF E) as (R1 & R2 & (rest & RB & RR) & _ & R5). split; [exact R1|]. split; [exact R2|]. split; [exact (R5 NE)|].
      split; [|auto]. intros n x y Hn. change (total (mach g) n x y = total (mach f) n x y). unfold total.
      set (R := if negb (existsb (Nat.eqb O) x) then writes (mach f) x y else 0).
      rewrite (ksum_map_ext (fun k => rel (mach f) k x y) (fun k => if Nat.eqb k (length x) then R else 0)).
      2:{ intros k _. rewrite (C60_writes_rel L). rewrite (pad_writes f (fun _ => true) k x y NE). rewrite andb_true_r. unfold R. destruct (Nat.eqb k (length x)); auto. }
      rewrite (ksum_map_ext (fun k => rel (mach g) k x y) (fun k => if Nat.eqb k (length x + rest x) then R else 0)).
      2:{ intros k _. rewrite RR. rewrite (ksum_map_ext _ (fun i => if Nat.eqb i (length x) then if Nat.eqb (length x + rest x) k then R else 0 else 0)).
          - rewrite ksum_at, (Nat.eqb_sym k). destruct (Nat.eqb_spec (length x + rest x) k); [|destruct (Nat.ltb _ _); auto].
            rewrite (proj2 (Nat.ltb_lt _ _)) by lia. auto.
          - intros i _. rewrite (pad_writes f (fun u => Nat.eqb (i + rest u) k) i x y NE). unfold R.
            destruct (Nat.eqb_spec i (length x)) as [->|]; auto. cbn [andb]. destruct (Nat.eqb _ k); auto. }
      rewrite !ksum_at. rewrite (proj2 (Nat.ltb_lt (length x) (S n))) by lia.
      destruct (Nat.ltb_spec (length x + rest x) (S n)); auto. unfold R. rewrite RB by lia. destruct (negb _); auto.
  Qed.
End T.

(** ** A transducer whose outputs are known late *)
Notation tz := (vfst tropZ).
Definition tz_div (x y : tropZ) (d : divide_type) : res tropZ := trop_div x y.
Lemma tz_exact : exact_division (fun a b => tz_div a b DivideLeft) (fun w : tropZ => w).
Proof. exact trop_exact. Qed.
Notation tz_det := (determinize (K := tropZ) tz_div (fun w => w) true idord idord).
Notation tz_det_fst := (determinize_fst (K := tropZ) tz_div (fun w => w) true idord).
Definition c60_w (z : Z) : tropZ := Some z.
Definition c60_of (c : list (op tropZ)) : tz := match run vnew c with Ok f => f | _ => vnew end.
(** 1 2 gives 5 6, 1 3 gives 7 8, 1 gives 5. *)
Definition c60_f : tz := c60_of
  [OAddStates 4; OSetStart 0; OSetFinal 3 (c60_w 1); OSetFinal 1 (c60_w 4);
   OAddTr 0 (Tr 1 5 (c60_w 3) 1); OAddTr 0 (Tr 1 7 (c60_w 5) 2);
   OAddTr 1 (Tr 2 6 (c60_w 2) 3); OAddTr 2 (Tr 3 8 (c60_w 2) 3)].
Definition c60_g : tz := c38_out vnew (tz_det 20 c60_f).

Example C60_witness : closed c60_f /\ has (vprops c60_f) ACCEPTOR = false /\ no_zero_final (mach c60_f) /\ no_input_eps (mach c60_f) /\ ~ deterministic (mach c60_f) /\
  tz_det 20 c60_f = Some (Ok c60_g) /\ num_states c60_g = 5 /\
  total (mach c60_f) 4 [1; 2] [5; 6] = c60_w 6 /\ total (mach c60_g) 4 [1; 2] [5; 6] = c60_w 6 /\
  total (mach c60_f) 4 [1; 3] [7; 8] = c60_w 8 /\ total (mach c60_g) 4 [1; 3] [7; 8] = c60_w 8 /\
  total (mach c60_f) 2 [1] [5] = c60_w 7 /\ total (mach c60_g) 2 [1] [5] = c60_w 7.
Proof.
  split; [apply closedb_ok; vm_compute; reflexivity|]. split; [vm_compute; reflexivity|]. split.
  { intros [|[|[|[|s]]]] w H; vm_compute in H; try discriminate; try (injection H as <-; discriminate). destruct s; discriminate. }
  split.
  { intros [|[|[|[|s]]]] t H; vm_compute in H; intuition (subst; try discriminate); destruct s; destruct H. }
  split; [intros H; specialize (H 0); vm_compute in H; inversion H; apply H2; left; auto|].
  repeat match goal with |- _ /\ _ => split end; vm_compute; reflexivity.
Qed.

(** ** What does not hold *)

(** With input epsilons the result need not be deterministic: epsilon was a label, and the rest of the outputs is
    written by transitions that read epsilon too. *)
Definition c60_eps : tz := c60_of
  [OAddStates 4; OSetStart 0; OSetFinal 1 (c60_w 0); OSetFinal 3 (c60_w 0);
   OAddTr 0 (Tr 1 5 (c60_w 0) 1); OAddTr 0 (Tr 1 6 (c60_w 0) 2); OAddTr 2 (Tr 0 7 (c60_w 0) 3)].
Theorem C60_epsilons_refuted : exists f g : tz, closed f /\ no_zero_final (mach f) /\ tz_det 20 f = Some (Ok g) /\ ~ deterministic (mach g).
Proof.
  exists c60_eps, (c38_out vnew (tz_det 20 c60_eps)). split; [apply closedb_ok; vm_compute; reflexivity|]. split.
  { intros [|[|[|[|s]]]] w H; vm_compute in H; try discriminate; try (injection H as <-; discriminate). destruct s; discriminate. }
  split; [vm_compute; reflexivity|]. intros H. specialize (H 1). vm_compute in H. inversion H. apply H2. left. auto.
Qed.

(** A machine that writes one string per input is refused if two strings reach a state from which nothing is
    accepted. *)
Definition c60_dead : tz := c60_of
  [OAddStates 3; OSetStart 0; OSetFinal 2 (c60_w 0);
   OAddTr 0 (Tr 1 5 (c60_w 0) 1); OAddTr 0 (Tr 1 6 (c60_w 0) 1); OAddTr 0 (Tr 2 3 (c60_w 0) 2)].
Theorem C60_dead_states_refuted : exists f : tz, closed f /\ no_zero_final (mach f) /\ no_input_eps (mach f) /\
  (forall u, exists z, forall y, y <> z -> writes (mach f) u y = 0) /\ forall fuel, (3 <= fuel)%nat -> tz_det fuel f = Some Err.
Proof.
  exists c60_dead. split; [apply closedb_ok; vm_compute; reflexivity|]. split.
  { intros [|[|[|s]]] w H; vm_compute in H; try discriminate; try (injection H as <-; discriminate). destruct s; discriminate. }
  split.
  { intros [|[|[|[|s]]]] t H; vm_compute in H; intuition (subst; try discriminate); destruct s; destruct H. }
  split.
  - intros u. exists [3]. intros y N. unfold writes. change (mstart (mach c60_dead)) with (Some 0%nat).
    assert (D1 : forall v z, written (mach c60_dead) v 1%nat z = 0). { intros [|b v] z; cbn; destruct (isnil z); auto. }
    assert (D2 : forall v z, v <> [] \/ z <> [] -> written (mach c60_dead) v 2%nat z = 0).
    { intros [|b v] z [H|H]; cbn; auto; try congruence. destruct z; [congruence|auto]. }
    destruct u as [|a u]; [cbn; destruct (isnil y); auto|]. cbn [written]. change (mtrs (mach c60_dead) 0%nat) with [Tr 1 5 (c60_w 0) 1; Tr 1 6 (c60_w 0) 1; Tr 2 3 (c60_w 0) 2].
    destruct a as [|[|[|a]]]; cbn [filter il Nat.eqb map ksum]; auto.
    + cbn [ol ns wgt]. destruct (strip 5 y), (strip 6 y); rewrite ?D1; auto.
    + cbn [ol ns wgt]. unfold strip. cbn [Nat.eqb]. destruct y as [|b y]; auto. destruct (Nat.eqb_spec b 3) as [->|]; auto.
      rewrite D2; auto. right. intros ->. apply N. auto.
  - intros [|[|[|fuel]]] H; try lia. vm_compute. reflexivity.
Qed.

(** A final weight that is zero, which adds nothing to the relation, makes the call fail. *)
Theorem C60_zero_final_refuted : exists f : tz, closed f /\ no_input_eps (mach f) /\ deterministic (mach f) /\ fin_of f 0 = Some (kzero : tropZ) /\
  forall fuel, tz_det fuel f = Some Err.
Proof.
  exists (c60_of [OAddStates 2; OSetStart 0; OSetFinal 0 (kzero : tropZ); OSetFinal 1 (c60_w 0); OAddTr 0 (Tr 1 5 (c60_w 0) 1)]).
  split; [apply closedb_ok; vm_compute; reflexivity|]. split.
  { intros [|[|s]] t H; vm_compute in H; intuition (subst; try discriminate); destruct s; destruct H. }
  split.
  { intros [|[|s]]; vm_compute; repeat constructor; auto. destruct s; constructor. }
  split; [vm_compute; reflexivity|]. intros fuel. vm_compute. reflexivity.
Qed.

Print Assumptions C60_writes_rel.
Print Assumptions C60_transducer.
Print Assumptions C60_determinize.
Print Assumptions C60_epsilons_refuted.
Print Assumptions C60_dead_states_refuted.
Print Assumptions C60_zero_final_refuted.
