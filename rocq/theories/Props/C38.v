(** C38: determinization keeps the weight of every string and leaves one transition per label. *)
From Coq Require Import List Arith NArith ZArith Bool Lia Permutation.
From Verif Require Import Base.Util Base.Semiring Base.Machine Base.PropSpec Base.Instances Base.TropZ Model.Props Model.AlgoProps Model.VectorFst
  Model.History Model.TrOps Model.BiMap Model.Lazy Model.Rational Model.ShortestPath Model.Weights Model.Determinize.
From Verif Require Import Proofs.VectorFacts Proofs.OpFacts Proofs.TrOpsFacts Proofs.BiMapFacts Proofs.LazyFacts Proofs.TableFacts Proofs.ComposeFacts
  Proofs.ClosedB Proofs.SdFacts Proofs.ReverseDist Proofs.RationalFacts Proofs.FactorTable Proofs.DetTable Proofs.DetFacts.
Import ListNotations.
Local Open Scope K_scope.

(** ** Specification *)

(** The weight of a string of labels from a state: the sum over the paths that spell it on the input
    side, epsilon being a label like the others. *)
Fixpoint spell {K : SR} (m : machine K) (q : nat) (u : list nat) : K :=
  match u with
  | [] => fw (mfin m q)
  | a :: u' => ksum (map (fun t => wgt t * spell m (ns t) u') (filter (fun t => Nat.eqb (il t) a) (mtrs m q)))
  end.
Definition spelled {K : SR} (m : machine K) (u : list nat) : K :=
  match mstart m with Some s => spell m s u | None => 0 end.
Definition is_acceptor {K : SR} (m : machine K) : Prop := forall s t, In t (mtrs m s) -> ol t = il t.
(** One transition per state and label. *)
Definition deterministic {K : SR} (m : machine K) : Prop := forall s, NoDup (map il (mtrs m s)).
(** Division of a weight by a sum it is part of is exact (with the rounding of [quantize] included:
    exact arithmetic). *)
Definition exact_division {K : SR} (div : K -> K -> res K) (quant : K -> K) : Prop :=
  forall w r z, div w (w + r) = Ok z -> (w + r) * quant z = w.
(** A hash map may hand out its entries in any order. *)
Definition any_order {K : SR} (ord : dtuple K -> nat -> list (nat * K) -> list (nat * K)) : Prop :=
  forall t a l, Permutation (ord t a l) l.

(** ** From strings of labels to strings without epsilons *)
Section Strings.
  Context {K : SR} (L : lsr_laws K).

  (** The strings of [n] labels that read [x]. *)
  Fixpoint paddings (n : nat) (x : list nat) : list (list nat) :=
    match n with
    | O => if isnil x then [[]] else []
    | S n' => map (cons O) (paddings n' x) ++
              match x with [] => [] | a :: x' => if Nat.eqb a O then [] else map (cons a) (paddings n' x') end
    end.

  Lemma spell_sum (m : machine K) q a l :
    ksum (map (spell m q) (map (cons a) l)) =
    ksum (map (fun t => if Nat.eqb (il t) a then wgt t * ksum (map (spell m (ns t)) l) else 0) (mtrs m q)).
  Proof.
    rewrite map_map. cbn [spell].
    rewrite (ksum_map_ext _ (fun u => ksum (map (fun t => if Nat.eqb (il t) a then wgt t * spell m (ns t) u else 0) (mtrs m q))))
      by (intros u _; apply (ksum_filter L)).
    rewrite (ksum_swap L). apply ksum_map_ext. intros t _. destruct (Nat.eqb (il t) a); [|apply (ksum_map_0 L)].
    rewrite (ksum_times_l L), map_map. auto.
  Qed.

  Lemma acceptor_wt (m : machine K) : is_acceptor m -> forall n q x y,
    wt m n q x y = if leqb x y then ksum (map (spell m q) (paddings n x)) else 0.
  Proof.
    intros A.
    assert (RF : forall x, leqb x x = true) by (intros; apply leqb_true; auto).
    induction n as [|n IH]; intros q x y; cbn [wt paddings].
    - destruct (leqb x y) eqn:XY.
      + apply leqb_true in XY. subst y. destruct x; cbn [isnil andb map ksum spell]; auto. symmetry. apply (kplus_0_r L).
      + destruct x, y; auto. rewrite RF in XY. discriminate.
    - rewrite map_app, (ksum_app L), spell_sum.
      assert (E : ksum (map (spell m q) match x with [] => [] | a :: x' => if Nat.eqb a O then [] else map (cons a) (paddings n x') end) =
        ksum (map (fun t => match x with [] => 0 | a :: x' => if negb (Nat.eqb (il t) O) && Nat.eqb a (il t)
                            then wgt t * ksum (map (spell m (ns t)) (paddings n x')) else 0 end) (mtrs m q))).
      { destruct x as [|a x']; [symmetry; apply (ksum_map_0 L)|]. destruct (Nat.eqb_spec a O) as [->|].
        - symmetry. cbn [map ksum]. apply (ksum_map_zero L). intros t _. destruct (il t); auto.
        - rewrite spell_sum. apply ksum_map_ext. intros t _. rewrite (Nat.eqb_sym a). destruct (Nat.eqb_spec (il t) a) as [->|]; [|rewrite andb_false_r; auto].
          destruct (Nat.eqb_spec a O); [congruence|]. auto. }
      rewrite E, <- (ksum_map_plus L). clear E.
      destruct (leqb x y) eqn:XY.
      + apply leqb_true in XY. subst y. apply ksum_map_ext. intros t Ht. rewrite (A q t Ht). unfold strip.
        destruct (Nat.eqb_spec (il t) O) as [E|E]; cbn [negb andb].
        * rewrite IH, RF. destruct x; rewrite (kplus_0_r L); auto.
        * rewrite (kplus_0_l _ L). destruct x as [|a x]; auto. destruct (Nat.eqb a (il t)); auto.
          rewrite IH, RF. auto.
      + apply (ksum_map_zero L). intros t Ht. rewrite (A q t Ht). unfold strip.
        destruct (Nat.eqb (il t) O).
        * rewrite IH, XY. apply (ktimes_0_r _ L).
        * destruct x as [|a x], y as [|b y]; auto; destruct (Nat.eqb_spec a (il t)); auto.
          destruct (Nat.eqb_spec b (il t)); auto. rewrite IH. destruct (leqb x y) eqn:XY'; [|apply (ktimes_0_r _ L)].
          apply leqb_true in XY'. replace (leqb (a :: x) (b :: y)) with true in XY; [discriminate|]. symmetry. apply leqb_true. congruence.
  Qed.
End Strings.

Lemma nodup_nat_dec (l : list nat) : {NoDup l} + {~ NoDup l}.
Proof.
  induction l as [|a l [IH|IH]].
  - left. constructor.
  - destruct (in_dec Nat.eq_dec a l).
    + right. intros H. inversion H. auto.
    + left. constructor; auto.
  - right. intros H. inversion H. auto.
Qed.

(** ** Acceptors over a semiring *)
Section Main.
  Context {K : SR} (L : sr_laws K) (div : K -> K -> res K) (quant : K -> K) (left : bool)
    (ord : dtuple K -> nat -> list (nat * K) -> list (nat * K)) (f : vfst K).
  Context (DX : exact_division div quant) (HO : any_order ord).
  Notation D := (default_weight div quant left).

  Let act (k : K) (F : unit -> K) (y : unit) : K := k * F y.
  Let one (y : unit) : K := 1.

  Lemma rfold_sum {A} (h : A -> K) l : forall a : K, rfold (fun d e => Ok (d + h e)) l a = Ok (a + ksum (map h l)).
  Proof.
    induction l as [|x l IH]; intros a; [cbn [map ksum]; rewrite (kplus_0_r L); auto|].
    rewrite rfold_cons. cbn [rbind map ksum]. rewrite IH. rewrite (kplus_assoc _ L). auto.
  Qed.
  Lemma np_add_sum m x m' : np_add D m x = Ok m' -> ksum (map snd m') = ksum (map snd m) + snd x.
  Proof.
    revert m'. induction m as [|[q w] m IH]; intros m'; cbn [np_add].
    - intros [= <-]. cbn [map ksum]. apply (kplus_comm _ L).
    - destruct (Nat.eqb q (fst x)).
      + intros [= <-]. cbn [map ksum snd]. rewrite <- !(kplus_assoc _ L). f_equal. apply (kplus_comm _ L).
      + destruct (np_add D m x) as [r| |]; cbn [rbind]; try discriminate. intros [= <-]. cbn [map ksum snd].
        rewrite (IH r eq_refl). apply (kplus_assoc _ L).
  Qed.
  Lemma merge_sum l : forall m m', rfold (np_add D) l m = Ok m' -> ksum (map snd m') = ksum (map snd m) + ksum (map snd l).
  Proof.
    induction l as [|x l IH]; intros m m'.
    - intros [= <-]. cbn [map ksum]. symmetry. apply (kplus_0_r L).
    - rewrite rfold_cons. destruct (np_add D m x) as [r| |] eqn:E; cbn [rbind]; try discriminate. intros H.
      rewrite (IH _ _ H), (np_add_sum _ _ _ E). cbn [map ksum]. symmetry. apply (kplus_assoc _ L).
  Qed.
  (** The divisor of a label is a sum that every merged weight is part of. *)
  Lemma divisor_part l d m q w : rfold (fun d e => d_cd D d (snd e)) l 0 = Ok d -> rfold (np_add D) l [] = Ok m -> In (q, w) m ->
    exists r, d = w + r.
  Proof.
    intros Ed Em I. cbn [d_cd default_weight] in Ed. rewrite (rfold_sum (@snd nat K)) in Ed. injection Ed as <-. rewrite (kplus_0_l _ L).
    apply merge_sum in Em. cbn [map ksum] in Em. rewrite (kplus_0_l _ L) in Em. rewrite <- Em.
    apply in_split in I as (m1 & m2 & ->). rewrite map_app. cbn [map snd]. exists (ksum (map snd (m1 ++ m2))).
    rewrite map_app, !(ksum_app L). cbn [ksum]. rewrite !(kplus_assoc _ L). f_equal. apply (kplus_comm _ L).
  Qed.

  Let act_div l d m q w z (F : unit -> K) y : rfold (fun d e => d_cd D d (snd e)) l 0 = Ok d -> rfold (np_add D) l [] = Ok m ->
    In (q, w) m -> d_div D w d = Ok z -> act d (act (d_quant D z) F) y = act w F y.
  Proof.
    intros Ed Em I Ez. destruct (divisor_part _ _ _ _ _ Ed Em I) as [r ->]. unfold act. rewrite (ktimes_assoc _ L). f_equal.
    apply DX. exact Ez.
  Qed.

  Lemma aval_spell (g : vfst K) u : forall q, aval act one g q u tt = spell (mach g) q u.
  Proof.
    induction u as [|a u IH]; intros q; cbn [aval spell].
    - unfold act, one. apply (ktimes_1_r _ L).
    - cbn [mach mtrs]. apply ksum_map_ext. intros t _. unfold act at 1. rewrite IH. auto.
  Qed.

  Section Built.
    Context {C : Type} (z : bimap (dtuple K) * C) (g : vfst K)
      (B : built (tS (det_start f)) (tT (det_trs D ord f)) (tF (det_fin D f)) g z).

    Let BV := built_val D ord f HO L act one
      (fun k F G H y => f_equal (ktimes k) (H y)) (fun F y => ktimes_0_l _ L _) (fun k y => ktimes_0_r _ L _)
      (fun k F G y => kdistr_l _ L _ _ _) (fun a b F y => eq_sym (ktimes_assoc _ L _ _ _))
      (fun a b c F y E => eq_trans (f_equal (fun c => c * F y) (match E in _ = r return match r with Ok x => x = a + b | _ => True end with eq_refl => eq_refl end))
                            (kdistr_r _ L _ _ _)) act_div z g (keqb_spec _ L) B.
    Lemma built_spell u q t : accessible (mach g) q -> nth_error (id_to_tuple (fst z)) q = Some t ->
      spell (mach g) q u = ksum (map (fun e => snd e * spell (mach f) (fst e) u) (fst t)).
    Proof.
      intros A N. rewrite <- aval_spell. rewrite (BV u q t tt A N). unfold tval, sval. apply ksum_map_ext. intros e _. unfold act at 1. rewrite aval_spell. auto.
    Qed.
    Lemma built_spelled u : spelled (mach g) u = spelled (mach f) u.
    Proof.
      pose proof (built_spell u) as BS. pose proof B as (_ & _ & B'). unfold spelled. cbn [mach mstart]. destruct (vstart g) as [q|] eqn:S.
      - destruct B' as (_ & (t & N & E) & _). unfold det_start in E. destruct (vstart f) as [s|]; [|discriminate].
        injection E as <-. rewrite (BS q ([(s, 1)], s)); auto.
        + cbn [fst map ksum snd]. rewrite (kplus_0_r L), (ktimes_1_l _ L). auto.
        + exists q. split; auto. apply reach_refl.
      - destruct B' as (_ & E). cbn in E. unfold det_start in E. destruct (vstart f); [discriminate|]. auto.
    Qed.
    Lemma built_shape : is_acceptor (mach g) /\ deterministic (mach g).
    Proof.
      pose proof B as (_ & _ & B'). destruct (vstart g) as [s0|] eqn:S0.
      - destruct B' as (_ & _ & BA & BN).
        assert (G : forall s, (forall t, In t (trs_of g s) -> ol t = il t) /\ NoDup (map il (trs_of g s))).
        { intros s. destruct (trs_of g s) as [|t0 l0] eqn:T; [split; [intros t []|constructor]|].
          assert (NN : ~ ~ accessible (mach g) s) by (intros N; rewrite (proj1 (BN s N)) in T; discriminate).
          assert (G : accessible (mach g) s -> (forall t, In t (t0 :: l0) -> ol t = il t) /\ NoDup (map il (t0 :: l0))).
          { intros A. destruct (BA s A) as ((e & l & N & El & F2) & _). rewrite T in F2.
            destruct (det_trs_shape _ _ _ _ _ El) as (ND & _ & TO).
            assert (map il (t0 :: l0) = map ti l /\ forall t, In t (t0 :: l0) -> ol t = il t) as [-> ?]; auto.
            clear -F2 TO. induction F2 as [|x u l1 l2 (H1 & H2 & _) F2 IH]; [split; [auto|intros t []]|].
            destruct IH as [IH1 IH2]; [intros; apply TO; right; auto|]. split; [cbn [map]; congruence|].
            intros t [<-|Ht]; auto. rewrite H1, H2. apply TO. left. auto. }
          split.
          - intros t Ht. destruct (Nat.eq_dec (ol t) (il t)); auto. exfalso. apply NN. intros A. apply n. apply G; auto.
          - destruct (nodup_nat_dec (map il (t0 :: l0))) as [H|H]; auto. exfalso. apply NN. intros A. apply H. apply G; auto. }
        split; [intros s t; apply G|intros s; apply G].
      - destruct B' as [Z _]. split.
        + intros s t. cbn. unfold trs_of. rewrite Z. destruct s; intros [].
        + intros s. cbn. unfold trs_of. rewrite Z. destruct s; constructor.
    Qed.
  End Built.

  Theorem C38_determinize distinct fuel g : closed f -> (has (vprops f) ACCEPTOR = true -> is_acceptor (mach f)) ->
    determinize_acceptor D ord f distinct fuel = Some (Ok g) ->
    closed g /\ cnt g /\ deterministic (mach g) /\ is_acceptor (mach g) /\
    (forall u, spelled (mach g) u = spelled (mach f) u) /\
    (forall n x y, rel (mach g) n x y = rel (mach f) n x y) /\
    visymt g = visymt f /\ vosymt g = vosymt f.
  Proof.
    intros CL AC. unfold determinize_acceptor, determinize_fsa.
    destruct (det_run D ord f None fuel) as [[[h tb]| |]|] eqn:E; cbn; try discriminate. intros [= <-].
    destruct (det_built L D ord f None (fun _ => True) (fun _ _ => Logic.I) (fun _ _ _ _ _ _ => Logic.I) fuel h tb E)
      as (_ & HA & _ & _ & (c & B) & _).
    destruct (built_shape _ h B) as [SA SD]. pose proof (built_spelled _ h B) as SP.
    split; [exact (proj1 (proj2 B))|]. split; [exact (proj1 B)|]. split; [exact SD|]. split; [exact SA|]. split; [exact SP|].
    split; [|auto]. intros n x y. change (rel (mach h) n x y = rel (mach f) n x y). unfold rel. specialize (SP).
    unfold spelled in SP. destruct (mstart (mach h)) as [q|], (mstart (mach f)) as [s|].
    - rewrite (acceptor_wt L _ SA), (acceptor_wt L _ (AC HA)). destruct (leqb x y); auto. apply ksum_map_ext. intros u _. apply SP.
    - rewrite (acceptor_wt L _ SA). destruct (leqb x y); auto. apply (ksum_map_zero L). intros u _. apply SP.
    - rewrite (acceptor_wt L _ (AC HA)). destruct (leqb x y); auto. symmetry. apply (ksum_map_zero L). intros u _. symmetry. apply SP.
    - auto.
  Qed.

  (** The distance of a new state, from the states of its subset. *)
  Lemma distance_out dist fuel g out : determinize_with_distance D ord f dist fuel = Some (Ok (g, out)) ->
    exists tb, det_run D ord f (Some dist) fuel = Some (Ok (g, tb)) /\ length out = length (id_to_tuple (dabs tb)) /\
      forall s t, nth_error (id_to_tuple (dabs tb)) s = Some t ->
        (s < length out)%nat /\ nth s out 0 = ksum (map (fun e => snd e * nth (fst e) dist 0) (fst t)).
  Proof.
    unfold determinize_with_distance. destruct (det_run D ord f (Some dist) fuel) as [[[h tb]| |]|] eqn:E; cbn [rbind fst snd]; try discriminate.
    destruct (rtrav _ (dt_out tb)) as [o| |] eqn:O; cbn [rbind]; try discriminate. intros [= <- <-]. exists tb. split; auto.
    destruct (det_built L D ord f (Some dist) (fun _ => True) (fun _ _ => Logic.I) (fun _ _ _ _ _ _ => Logic.I) fuel h tb E)
      as (_ & HA & J & _).
    destruct J as [_ J]. specialize (J dist eq_refl).
    apply rtrav_ok in O. split; [rewrite <- (Forall2_len _ _ _ O); apply (Forall2_len _ _ _ J)|]. intros s t N. cbn [dabs id_to_tuple] in N.
    assert (exists w, nth_error o s = Some w /\ compute_distance D dist (fst t) = Ok w) as (w & No & W).
    { revert O J N. generalize (rev (map snd (dt_map tb))), (dt_out tb). intros l m O F N. clear E. revert s t N o O.
      induction F as [|x e m l (w & -> & W) F IH]; intros s t N o O; [destruct s; discriminate|].
      inversion O as [|? w' ? o' E1 E2]; subst. injection E1 as <-. destruct s as [|s].
      - injection N as <-. exists w. auto.
      - cbn in N. cbn. apply IH; auto. }
    split; [apply nth_error_Some; congruence|]. rewrite (List.nth_error_nth _ _ 0 No).
    unfold compute_distance in W. cbn [d_plus default_weight] in W.
    rewrite (rfold_sum (fun e : nat * K => snd e * nth (fst e) dist 0)) in W. injection W as <-. rewrite (kplus_0_l _ L). auto.
  Qed.

  (** With distances: if [dist] adds up the weights of the strings [X] from every state, so does what
      is returned for the new states. *)
  Theorem C38_distance dist fuel g out : determinize_with_distance D ord f dist fuel = Some (Ok (g, out)) ->
    forall X, (forall q, nth q dist 0 = ksum (map (spell (mach f) q) X)) ->
    forall s, accessible (mach g) s -> (s < length out)%nat /\ nth s out 0 = ksum (map (spell (mach g) s) X).
  Proof.
    intros Eo X HX s A. destruct (distance_out _ _ _ _ Eo) as (tb & E & _ & HO'). clear Eo.
    destruct (det_built L D ord f (Some dist) (fun _ => True) (fun _ _ => Logic.I) (fun _ _ _ _ _ _ => Logic.I) fuel g tb E)
      as (_ & HA & J & _ & (c & B) & _).
    assert (exists t, nth_error (id_to_tuple (dabs tb)) s = Some t) as [t N].
    { destruct B as (_ & _ & B'). destruct (vstart g) as [s0|] eqn:S0.
      - destruct B' as (_ & _ & BA & _). destruct (BA s A) as (_ & (t & N & _)). eauto.
      - destruct A as (s1 & E1 & _). cbn in E1. congruence. }
    destruct (HO' s t N) as [H1 H2]. split; auto. rewrite H2.
    rewrite (ksum_map_ext _ (fun e => ksum (map (fun u => snd e * spell (mach f) (fst e) u) X))).
    2: { intros e _. rewrite HX, (ksum_times_l L), map_map. auto. }
    rewrite (ksum_swap L). apply ksum_map_ext. intros u _. symmetry. apply (built_spell (dabs tb, c) g B u s t A). exact N.
  Qed.
End Main.
Print Assumptions C38_determinize.
Print Assumptions C38_distance.

(** ** Any order of the hash maps, one weight *)
Theorem C38_any_order {K : SR} (L : sr_laws K) div quant left ord1 ord2 (f g1 g2 : vfst K) d1 d2 n1 n2 :
  exact_division div quant -> any_order ord1 -> any_order ord2 -> closed f -> (has (vprops f) ACCEPTOR = true -> is_acceptor (mach f)) ->
  determinize_acceptor (default_weight div quant left) ord1 f d1 n1 = Some (Ok g1) ->
  determinize_acceptor (default_weight div quant left) ord2 f d2 n2 = Some (Ok g2) ->
  forall u, spelled (mach g1) u = spelled (mach g2) u.
Proof.
  intros DX O1 O2 CL AC E1 E2 u.
  destruct (C38_determinize L div quant left ord1 f DX O1 d1 n1 g1 CL AC E1) as (_ & _ & _ & _ & S1 & _).
  destruct (C38_determinize L div quant left ord2 f DX O2 d2 n2 g2 CL AC E2) as (_ & _ & _ & _ & S2 & _).
  rewrite S1, S2. auto.
Qed.
Print Assumptions C38_any_order.

(** ** Termination on machines without cycles *)
Lemma Forall2_in_r {A B} (P : A -> B -> Prop) l m b : Forall2 P l m -> In b m -> exists a, In a l /\ P a b.
Proof. induction 1; intros []; [subst; eauto with datatypes|]. destruct IHForall2 as (a & A1 & A2); eauto with datatypes. Qed.

Definition zero_free (K : SR) : Prop :=
  (1 : K) <> 0 /\ (forall a b : K, a + b = 0 -> a = 0) /\ (forall a b : K, a * b = 0 -> a = 0 \/ b = 0).
Definition divides_always {K : SR} (div : K -> K -> res K) : Prop := forall w r : K, w <> 0 -> exists z, div w (w + r) = Ok z.

Section Terminates.
  Context {K : SR} (L : sr_laws K) (div : K -> K -> res K) (quant : K -> K)
    (ord : dtuple K -> nat -> list (nat * K) -> list (nat * K)) (f : vfst K).
  Context (DX : exact_division div quant) (DA : divides_always div) (HO : any_order ord) (ZF : zero_free K).
  Context (CL : closed f) (NZ : forall s t, In t (trs_of f s) -> wgt t <> 0).
  Notation D := (default_weight div quant true).

  Definition good (Q : nat -> Prop) (e : nat * K) : Prop := Q (fst e) /\ snd e <> 0.

  Lemma np_add_good Q m x : Forall (good Q) m -> good Q x -> exists m', np_add D m x = Ok m' /\ Forall (good Q) m' /\ m' <> [].
  Proof.
    destruct ZF as (_ & ZS & _). induction m as [|[q w] m IH]; intros H X; cbn [np_add].
    - exists [x]. split; [reflexivity|]. split; [constructor; auto|discriminate].
    - inversion H as [|? ? H1 H2]; subst. destruct (Nat.eqb_spec q (fst x)) as [->|].
      + cbn. eexists. split; [reflexivity|]. split; [|discriminate]. constructor; auto. split; cbn [fst snd]; [apply X|].
        intros E. apply ZS in E. apply H1. auto.
      + destruct (IH H2 X) as (r & -> & R1 & _). cbn. eexists. split; [reflexivity|]. split; [constructor; auto|discriminate].
  Qed.
  Lemma merge_good Q l : forall m, Forall (good Q) m -> Forall (good Q) l ->
    exists m', rfold (np_add D) l m = Ok m' /\ Forall (good Q) m' /\ (m <> [] \/ l <> [] -> m' <> []).
  Proof.
    induction l as [|x l IH]; intros m Hm Hl.
    - exists m. split; [reflexivity|]. split; [auto|]. intros [H|H]; [auto|congruence].
    - inversion Hl as [|? ? H1 H2]; subst. destruct (np_add_good Q m x Hm H1) as (r & E & R1 & R2).
      rewrite rfold_cons, E. cbn [rbind]. destruct (IH r R1 H2) as (m' & E' & M1 & M2). exists m'. auto.
  Qed.
  Lemma norm_good Q t a l : Forall (good Q) l -> l <> [] -> exists d r, norm_tr D ord t a l = Ok (d, r) /\ Forall (good Q) r /\ r <> [].
  Proof.
    intros H N. unfold norm_tr. set (s := isort _ l). assert (PS : Permutation s l) by (apply isort_perm).
    destruct (rfold (fun d e => d_cd D d (snd e)) s 0) as [d| |] eqn:Ed.
    2,3: cbn [d_cd default_weight] in Ed; rewrite (rfold_sum L (@snd nat K)) in Ed; discriminate.
    cbn [rbind].
    destruct (merge_good Q s [] (Forall_nil _)) as (m & Em & M1 & M2).
    { apply Forall_forall. intros e He. rewrite Forall_forall in H. apply H. eapply Permutation_in; eauto. }
    rewrite Em. cbn [rbind].
    assert (P : forall e, In e (ord t a m) -> exists z, d_div D (snd e) d = Ok z /\ good Q (fst e, quant z)).
    { intros [q w] He. apply (Permutation_in _ (HO t a m)) in He. destruct (divisor_part L div quant true _ _ _ _ _ Ed Em He) as [r ->].
      rewrite Forall_forall in M1. destruct (M1 _ He) as [G1 G2]. cbn [fst snd] in *. destruct (DA w r G2) as [z Ez]. exists z. split; auto.
      split; auto. cbn [snd]. intros E0. apply G2. rewrite <- (DX _ _ _ Ez), E0. apply (ktimes_0_r _ L). }
    destruct (rtrav_total (fun e => z <-- d_div D (snd e) d ;; Ok (fst e, d_quant D z)) (ord t a m)) as [r Er].
    { intros e He. destruct (P e He) as (z & -> & _). cbn. eauto. }
    rewrite Er. cbn [rbind]. exists d, r. split; auto. pose proof (rtrav_ok _ _ _ Er) as F. split.
    - apply Forall_forall. intros b Hb. destruct (Forall2_in_r _ _ _ _ F Hb) as (e & He & Ee). destruct (P e He) as (z & Ez & G).
      rewrite Ez in Ee. cbn in Ee. injection Ee as <-. auto.
    - intros ->. inversion F as [E0|]. assert (N2 : m <> []).
      { apply M2. right. intros E. rewrite E in PS. apply Permutation_nil in PS. congruence. }
      apply N2. apply Permutation_nil. rewrite <- (HO t a m), <- E0. auto.
  Qed.

  Lemma det_out_good (Q Q' : nat -> Prop) l : (forall q t, Q q -> In t (trs_of f q) -> Q' (ns t)) -> (forall q, Q q -> (q < num_states f)%nat) ->
    Forall (good Q) l -> exists o, det_out f l = Ok o /\ forall x, In x o -> good Q' (snd x).
  Proof.
    intros HQ HV. destruct ZF as (_ & _ & ZD). induction l as [|[q v] l IH]; intros H; cbn [det_out]; [exists []; split; auto; intros x []|].
    inversion H as [|? ? [H1 H1'] H2]; subst. cbn [fst snd] in *. rewrite (get_trs_in f q) by auto. cbn [rbind].
    destruct (IH H2) as (r & -> & R). cbn [rbind]. eexists. split; [reflexivity|]. intros x Hx. apply in_app_or in Hx as [Hx|Hx]; auto.
    apply in_map_iff in Hx as (t & <- & Ht). split; cbn [fst snd]; [eauto|]. intros E. apply ZD in E as [E|E]; [auto|]. exact (NZ q t Ht E).
  Qed.

  Lemma det_trs_good (Q Q' : nat -> Prop) t : (forall q t, Q q -> In t (trs_of f q) -> Q' (ns t)) -> (forall q, Q q -> (q < num_states f)%nat) ->
    Forall (good Q) (fst t) ->
    (exists w, det_fin D f t = Ok w) /\
    exists l, det_trs D ord f t = Ok l /\ forall u, In u l -> Forall (good Q') (fst (tn u)) /\ fst (tn u) <> [].
  Proof.
    intros HQ HV H. split.
    - unfold det_fin. assert (G : forall l a, Forall (good Q) l -> exists w, rfold (fun acc e => o <-- final_weight f (fst e) ;;
          d_plus D acc (snd e * match o with Some z => z | None => 0 end)) l a = Ok w).
      { induction l as [|e l IH]; intros a Hl; [exists a; reflexivity|]. inversion Hl as [|? ? [H1 _] H2]; subst. rewrite rfold_cons.
        rewrite (final_in f (fst e)) by auto. cbn [rbind d_plus default_weight]. apply IH. auto. }
      destruct (G (fst t) 0 H) as [w ->]. cbn. eauto.
    - unfold det_trs. destruct (det_out_good Q Q' (fst t) HQ HV H) as (o & -> & Go). cbn [rbind].
      destruct (lm_fold o (K := K) [] (Sorted.SSorted_nil _)) as [_ P]. cbn [app unmap flat_map] in P.
      assert (NE : forall p, In p (fold_left lm_push o []) -> snd p <> []) by (intros p; apply lm_nonempty; intros q []).
      revert P NE. generalize (fold_left (@lm_push K) o []). intros m P NE.
      assert (GM : forall p, In p m -> Forall (good Q') (snd p)).
      { intros p Hp. apply Forall_forall. intros e He. apply (Go (fst p, e)). eapply Permutation_in; [exact P|].
        apply in_flat_map. exists p. split; auto. apply in_map. auto. }
      destruct (rtrav_total (fun p => r <-- norm_tr D ord t (fst p) (snd p) ;; Ok (TT (fst p) (fst p) (fst r) (snd r, O))) m) as [l El].
      { intros p Hp. destruct (norm_good Q' t (fst p) (snd p) (GM p Hp) (NE p Hp)) as (d & r & -> & _). cbn. eauto. }
      exists l. split; auto. apply rtrav_ok in El. intros u Hu. destruct (Forall2_in_r _ _ _ _ El Hu) as (p & Hp & Ep).
      destruct (norm_good Q' t (fst p) (snd p) (GM p Hp) (NE p Hp)) as (d & r & En & G1 & G2). rewrite En in Ep. cbn in Ep. injection Ep as <-.
      cbn [tn fst]. auto.
  Qed.

  Context (NC : forall s, ~ on_cycle (mach f) s) (s0 : nat) (HS : vstart f = Some s0).

  Definition at_depth (k q : nat) : Prop := exists p, is_path (mach f) s0 p /\ length p = k /\ dst s0 p = q.
  Fixpoint level (k : nat) : list (dtuple K) :=
    match k with O => [([(s0, 1)], s0)] | S k' => flat_map (fun t => map tn (trs_at (det_trs D ord f) t)) (level k') end.
  Definition in_level (t : dtuple K) : Prop := exists k, In t (level k) /\ Forall (good (at_depth k)) (fst t) /\ fst t <> [].

  Lemma depth_lt k q : at_depth k q -> (q < num_states f)%nat /\ (k < num_states f)%nat.
  Proof.
    intros (p & Hp & <- & <-). split.
    - clear -CL HS Hp. pose proof (proj2 CL s0 HS) as H. revert H Hp. generalize s0. induction p as [|t p IH]; intros s H; cbn; auto.
      intros [Ht Hp]. apply IH; auto. exact (proj1 CL s t Ht).
    - apply (acyclic_short (mach f) (num_states f)) with (s := s0); auto.
      + intros q t Ht. exact (proj1 CL q t Ht).
      + apply no_cycle_acyclic. auto.
      + exact (proj2 CL s0 HS).
  Qed.
  Lemma depth_step k q t : at_depth k q -> In t (trs_of f q) -> at_depth (S k) (ns t).
  Proof.
    intros (p & Hp & <- & <-) Ht. exists (p ++ [t]). split; [|split].
    - clear -Hp Ht. revert Hp Ht. generalize s0. induction p as [|u p IH]; intros s; cbn; auto. intros [Hu Hp] Ht. split; auto.
    - rewrite app_length. cbn. lia.
    - clear. generalize s0. induction p as [|u p IH]; intros s; cbn; auto.
  Qed.

  Lemma terminates_run in_dist : has (vprops f) ACCEPTOR = true -> exists N, forall fuel, (N <= fuel)%nat ->
    exists x, det_run D ord f in_dist fuel = Some (Ok x).
  Proof.
    intros HA. set (univ := flat_map level (seq 0 (num_states f))). exists (length univ). intros fuel HF.
    assert (LV : forall t, in_level t -> (exists w, det_fin D f t = Ok w) /\ exists l, det_trs D ord f t = Ok l /\ forall u, In u l -> in_level (tn u)).
    { intros t (k & I & G & NE). destruct (det_trs_good (at_depth k) (at_depth (S k)) t) as (A & l & El & P); auto.
      - intros q t'. apply depth_step.
      - intros q Hq. apply (depth_lt k). auto.
      - split; auto. exists l. split; auto. intros u Hu. exists (S k). split; [|apply P; auto]. cbn [level]. apply in_flat_map. exists t. split; auto.
        unfold trs_at. rewrite El. apply in_map. auto. }
    apply (det_total L D ord f in_dist in_level) with (univ := univ); auto.
    - intros t. unfold det_start. rewrite HS. intros [= <-]. exists O. split; [left; auto|]. cbn [fst]. split; [|discriminate].
      constructor; [|constructor]. split; cbn [fst snd]; [|apply ZF]. exists []. cbn. auto.
    - intros t l u Ht El Hu. destruct (LV t Ht) as (_ & l' & El' & P). apply P. congruence.
    - right. cbn. eauto.
    - intros t Ht. destruct (LV t Ht) as (_ & l' & El' & P). eauto.
    - intros t Ht. apply (LV t Ht).
    - intros t (k & I & G & NE). apply in_flat_map. exists k. split; auto. apply in_seq.
      destruct (fst t) as [|e l]; [congruence|]. inversion G as [|? ? [G1 _] _]; subst. apply depth_lt in G1. lia.
  Qed.
  Lemma terminates_some distinct : has (vprops f) ACCEPTOR = true -> exists N, forall fuel, (N <= fuel)%nat ->
    exists g, determinize_acceptor D ord f distinct fuel = Some (Ok g).
  Proof.
    intros HA. destruct (terminates_run None HA) as (N & H). exists N. intros fuel HF. destruct (H fuel HF) as ([h tb] & E).
    unfold determinize_acceptor, determinize_fsa. rewrite E. cbn. eauto.
  Qed.
End Terminates.

Theorem C38_terminates {K : SR} (L : sr_laws K) div quant ord (f : vfst K) distinct :
  exact_division div quant -> divides_always div -> any_order ord -> zero_free K -> closed f ->
  (forall s t, In t (trs_of f s) -> wgt t <> 0) -> (forall s, ~ on_cycle (mach f) s) -> has (vprops f) ACCEPTOR = true ->
  exists N, forall fuel, (N <= fuel)%nat -> exists g, determinize_acceptor (default_weight div quant true) ord f distinct fuel = Some (Ok g).
Proof.
  intros DX DA HO ZF CL NZ NC HA. destruct (vstart f) as [s|] eqn:S.
  - apply (terminates_some L div quant ord f DX DA HO ZF CL NZ NC s S distinct HA).
  - exists O. intros fuel _. unfold determinize_acceptor, determinize_fsa, det_run, compute, l_start. rewrite HA. cbn. rewrite S. cbn. eauto.
Qed.
Print Assumptions C38_terminates.

(** ** A tropical machine *)
Local Close Scope K_scope.
Definition trop_div (x y : tropZ) : res tropZ :=
  match x, y with Some a, Some b => Ok (Some (a - b)%Z) | None, Some _ => Ok None | _, None => Panic end.
Lemma trop_exact : exact_division trop_div (fun w => w).
Proof.
  intros [a|] [b|] z; cbn; try discriminate; intros [= <-]; cbn; auto; f_equal; lia.
Qed.
Lemma trop_always : divides_always trop_div.
Proof. intros [a|] [b|] H; cbn; eauto; destruct H; reflexivity. Qed.
Lemma trop_zero_free : zero_free tropZ.
Proof.
  split; [discriminate|]. split.
  - intros [a|] [b|]; cbn; auto; discriminate.
  - intros [a|] [b|]; cbn; auto; discriminate.
Qed.
Notation tz := (vfst tropZ).
Definition idord {K : SR} (t : dtuple K) (a : nat) (l : list (nat * K)) := l.
(** A hash map that turns the entries round for label 4. *)
Definition badord {K : SR} (t : dtuple K) (a : nat) (l : list (nat * K)) := if Nat.eqb a 4 then rev l else l.
Lemma idord_ok {K : SR} : any_order (@idord K).
Proof. intros t a l. auto. Qed.
Lemma badord_ok {K : SR} : any_order (@badord K).
Proof. intros t a l. unfold badord. destruct (Nat.eqb a 4); auto. symmetry. apply Permutation_rev. Qed.
Definition c38_ops : list (op tropZ) :=
  [OAddStates 4; OSetStart 0; OSetFinal 3 (Some 1%Z : tropZ);
   OAddTr 0 (Tr 1 1 (Some 3%Z : tropZ) 1); OAddTr 0 (Tr 1 1 (Some 5%Z : tropZ) 2);
   OAddTr 0 (Tr 4 4 (Some 3%Z : tropZ) 1); OAddTr 0 (Tr 4 4 (Some 5%Z : tropZ) 2);
   OAddTr 1 (Tr 2 2 (Some 7%Z : tropZ) 3); OAddTr 2 (Tr 2 2 (Some 4%Z : tropZ) 3); OAddTr 2 (Tr 3 3 (Some 2%Z : tropZ) 3)].
Definition c38_f : tz := match run vnew c38_ops with Ok f => f | _ => vnew end.
Definition c38_out {A} (d : A) (x : option (res A)) : A := match x with Some (Ok f) => f | _ => d end.
Notation tD := (default_weight trop_div (fun w : tropZ => w) true).
Definition c38_dist : list tropZ := [Some 8; Some 8; Some 3; Some 1]%Z.

Example C38_witness : exists g h out,
  closed c38_f /\ is_acceptor (mach c38_f) /\ has (vprops c38_f) ACCEPTOR = true /\ ~ deterministic (mach c38_f) /\
  (forall s t, In t (trs_of c38_f s) -> wgt t <> kzero) /\
  determinize_acceptor tD idord c38_f true 20 = Some (Ok g) /\ num_states g = 3 /\
  spelled (mach c38_f) [1; 2] = (Some 10%Z : tropZ) /\ spelled (mach g) [1; 2] = (Some 10%Z : tropZ) /\
  determinize_with_distance tD idord c38_f c38_dist 20 = Some (Ok (h, out)) /\ out = [Some 8; Some 5; Some 1]%Z.
Proof.
  exists (c38_out vnew (determinize_acceptor tD idord c38_f true 20)), (fst (c38_out (vnew, []) (determinize_with_distance tD idord c38_f c38_dist 20))),
    (snd (c38_out (vnew, []) (determinize_with_distance tD idord c38_f c38_dist 20))).
  split; [apply closedb_ok; vm_compute; reflexivity|]. split.
  { intros [|[|[|[|s]]]] t; intros H; vm_compute in H; intuition (subst; auto); destruct s; destruct H. }
  split; [vm_compute; reflexivity|]. split; [intros H; specialize (H 0); vm_compute in H; inversion H; apply H2; left; auto|]. split.
  { intros [|[|[|[|s]]]] t; intros H; vm_compute in H; intuition (subst; try discriminate); destruct s; destruct H. }
  repeat match goal with |- _ /\ _ => split end; vm_compute; reflexivity.
Qed.

(** ** What is not true *)

(** The order of the hash map does not change any weight but it does change the number of states:
    the pairs of a subset are not sorted again before subsets are compared. *)
Theorem C38_size_refuted : exists (f g h : tz) o1 o2, any_order o1 /\ any_order o2 /\ closed f /\
  determinize_acceptor tD o1 f true 20 = Some (Ok g) /\ determinize_acceptor tD o2 f true 20 = Some (Ok h) /\
  num_states g = 3 /\ num_states h = 4.
Proof.
  exists c38_f, (c38_out vnew (determinize_acceptor tD idord c38_f true 20)), (c38_out vnew (determinize_acceptor tD badord c38_f true 20)), idord, badord.
  split; [apply idord_ok|]. split; [apply badord_ok|]. split; [apply closedb_ok; vm_compute; reflexivity|].
  repeat match goal with |- _ /\ _ => split end; vm_compute; reflexivity.
Qed.
Print Assumptions C38_size_refuted.

(** A deterministic machine with one accessible state grows when its start is not state 0: the
    filter state of the first subset is the start state, that of all others is 0. *)
Theorem C38_start_refuted : exists (f g : tz), closed f /\ deterministic (mach f) /\ is_acceptor (mach f) /\
  (forall s, accessible (mach f) s -> s = 1) /\
  determinize_acceptor tD idord f true 20 = Some (Ok g) /\ num_states g = 2.
Proof.
  set (f := match run (@vnew tropZ) [OAddStates 2; OSetStart 1; OSetFinal 1 (Some 0%Z : tropZ); OAddTr 1 (Tr 1 1 (Some 3%Z : tropZ) 1)] with Ok f => f | _ => vnew end).
  exists f, (c38_out vnew (determinize_acceptor tD idord f true 20)).
  split; [apply closedb_ok; vm_compute; reflexivity|]. split.
  { intros [|[|s]]; [constructor|vm_compute; repeat constructor; intros []|vm_compute; destruct s; constructor]. }
  split. { intros [|[|s]] t; intros H; vm_compute in H; intuition (subst; auto); destruct s; destruct H. }
  split.
  { assert (G : forall a b, reach (mach f) a b -> a = 1 -> b = 1).
    { induction 1 as [|s t q Ht _ IH]; auto. intros ->. apply IH. vm_compute in Ht. destruct Ht as [<-|[]]. auto. }
    intros s (s0 & E & R). apply (G s0 s R). vm_compute in E. congruence. }
  repeat match goal with |- _ /\ _ => split end; vm_compute; reflexivity.
Qed.
Print Assumptions C38_start_refuted.

(** The only algebraic check of the code is left distributivity; it is not enough. *)
From Verif Require Import Proofs.BagFacts Model.FactorWeight Model.Gallic Props.C39.
Definition gb := gallicSR boolSR.
Definition gb_div (x y : gb) : res gb := s <-- divide_left (fst x) (fst y) ;; Ok ((s, snd x) : gb).
Lemma lcp_skip : forall a b, lcp a b ++ skipn (length (lcp a b)) a = a.
Proof. induction a as [|x a IH]; intros [|y b]; cbn; auto. destruct (Nat.eqb x y); cbn; auto. rewrite IH. auto. Qed.
Lemma gb_exact : exact_division gb_div (fun w => w).
Proof.
  intros [[a|] x] [[b|] y] z; cbn; try discriminate; unfold gb_div; cbn; intros [= <-]; cbn.
  - f_equal; [f_equal; apply lcp_skip|]. destruct x, y; auto.
  - rewrite skipn_all, app_nil_r. f_equal. destruct x, y; auto.
  - f_equal. destruct x, y; auto.
Qed.
Notation gD := (default_weight gb_div (fun w : gb => w) true).
Theorem C38_left_semiring_refuted : exists (f g : vfst gb) u, lsr_laws gb /\ exact_division gb_div (fun w => w) /\ closed f /\ is_acceptor (mach f) /\
  determinize_acceptor gD idord f true 20 = Some (Ok g) /\ spelled (mach f) u <> spelled (mach g) u.
Proof.
  set (w := fun l => (Some l, true) : gb).
  set (f := match run (@vnew gb) [OAddStates 2; OSetStart 0; OSetFinal 1 (w [9]); OAddTr 0 (Tr 1 1 (w [7]) 1); OAddTr 0 (Tr 1 1 (w [8]) 1)] with Ok f => f | _ => vnew end).
  exists f, (c38_out vnew (determinize_acceptor gD idord f true 20)), [1].
  split. { apply gallicSR_laws. apply boolSR_laws. }
  split; [apply gb_exact|]. split; [apply closedb_ok; vm_compute; reflexivity|].
  split. { intros [|[|s]] t; intros H; vm_compute in H; intuition (subst; auto); destruct s; destruct H. }
  split; [vm_compute; reflexivity|]. vm_compute. discriminate.
Qed.
Print Assumptions C38_left_semiring_refuted.
