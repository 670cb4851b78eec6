(** C63: delayed union, concatenation and closure. *)
From Coq Require Import List Arith NArith Bool Lia.
From Verif Require Import Base.Util Base.Semiring Base.Machine Base.PropSpec Base.Convolution Base.Instances Model.Props Model.AlgoProps Model.VectorFst
  Model.History Model.Rational Model.Replace Model.ShortestPath Model.RationalFst.
From Verif Require Import Proofs.VectorFacts Proofs.OpFacts Proofs.TrOpsFacts Proofs.ClosedB Proofs.ComposeFacts Proofs.FactorTable Proofs.BagFacts Props.C40.
Import ListNotations.
Local Open Scope K_scope.

(** ** Specification *)
Section Spec.
  Context {K : SR}.

  (** [splits] are all ways to cut a string in two; the weight of an accepting path of [A] with [i] transitions
      followed by one of [B] with [k - i] transitions, reading [x] and writing [y] in all. *)
  Definition then_ (A B : nat -> list nat -> list nat -> K) (k : nat) (x y : list nat) : K :=
    ksum (map (fun i => ksum (map (fun cx => ksum (map (fun cy =>
      A i (fst cx) (fst cy) * B (k - i)%nat (snd cx) (snd cy)) (splits y))) (splits x))) (seq 0 (S k))).
  (** Nothing read, nothing written, no transition. *)
  Definition nothing (k : nat) (x y : list nat) : K := match k, x, y with O, [], [] => 1 | _, _, _ => 0 end.
  (** Sequences of [j] accepting paths with [k] transitions in all. *)
  Fixpoint seqs (A : nat -> list nat -> list nat -> K) (j : nat) : nat -> list nat -> list nat -> K :=
    match j with O => nothing | S j' => then_ A (seqs A j') end.
  (** [d] more (epsilon) transitions. *)
  Definition later (d : nat) (A : nat -> list nat -> list nat -> K) (k : nat) (x y : list nat) : K :=
    if Nat.ltb k d then 0 else A (k - d)%nat x y.
End Spec.

(** ** Sums *)
Section Sums.
  Context {K : SR} (L : sr_laws K).
  Let LL := sr_lsr _ L.
  Notation gr := (nat -> list nat -> list nat -> K).

  Lemma then_conv (A B : gr) k x y : then_ A B k x y = Convolution.conv A B k x y.
  Proof. reflexivity. Qed.
  Lemma then_ext (A A' B B' : gr) k x y : (forall i a b, (i <= k)%nat -> A i a b = A' i a b) -> (forall i a b, (i <= k)%nat -> B i a b = B' i a b) ->
    then_ A B k x y = then_ A' B' k x y.
  Proof. intros. rewrite !then_conv. apply conv_ext; auto. Qed.
  Lemma then_later d (A B : gr) k x y : then_ A (later d B) k x y = later d (then_ A B) k x y.
  Proof.
    unfold later at 2. destruct (Nat.ltb_spec k d) as [H|H].
    - rewrite then_conv. apply (conv_zero_r L). intros i a b Hi. unfold later. destruct (Nat.ltb_spec i d); auto. lia.
    - unfold then_. replace (S k) with (S (k - d) + d)%nat by lia. rewrite seq_app, map_app, (ksum_app LL).
      rewrite (ksum_map_zero LL) with (l := seq (0 + S (k - d)) d).
      + rewrite (kplus_0_r LL). apply ksum_map_ext. intros i Hi. apply in_seq in Hi. apply ksum_map_ext. intros cx _. apply ksum_map_ext. intros cy _.
        unfold later. destruct (Nat.ltb_spec (k - i) d); [lia|]. do 2 f_equal. lia.
      + intros i Hi. apply in_seq in Hi. apply (ksum_map_zero LL). intros. apply (ksum_map_zero LL). intros.
        unfold later. destruct (Nat.ltb_spec (k - i) d); [|lia]. apply (ktimes_0_r _ LL).
  Qed.
  Lemma then_sum {T} (l : list T) (A : gr) (B : T -> gr) k x y :
    then_ A (fun i a b => ksum (map (fun t => B t i a b) l)) k x y = ksum (map (fun t => then_ A (B t) k x y) l).
  Proof. apply (conv_ksum_r L). Qed.
  Lemma later_ext d (A B : gr) k x y : (forall a b, A (k - d)%nat a b = B (k - d)%nat a b) -> later d A k x y = later d B k x y.
  Proof. intros H. unfold later. destruct (Nat.ltb k d); auto. Qed.
  Lemma later_sum {T} (l : list T) d (B : T -> gr) k x y :
    later d (fun i a b => ksum (map (fun t => B t i a b) l)) k x y = ksum (map (fun t => later d (B t) k x y) l).
  Proof. unfold later. destruct (Nat.ltb k d); auto. symmetry. apply (ksum_map_zero LL). auto. Qed.
  Lemma later_later d e (A : gr) k x y : later d (later e A) k x y = later (d + e) A k x y.
  Proof.
    unfold later. destruct (Nat.ltb_spec k d); destruct (Nat.ltb_spec k (d + e)); auto; [lia| |]; destruct (Nat.ltb_spec (k - d) e); auto; try lia.
    f_equal. lia.
  Qed.

  (** A machine that loops: nothing, or one more path and [d] steps. *)
  Lemma loop_sum d (A G : gr) : (0 < d)%nat -> (forall k x y, G k x y = nothing k x y + later d (then_ A G) k x y) ->
    forall N k x y, (k <= N)%nat -> G k x y = ksum (map (fun j => later (d * j) (seqs A j) k x y) (seq 0 (S N))).
  Proof.
    intros D H N. intros k. revert N. induction k as [k IH] using lt_wf_ind. intros N x y HN. rewrite H.
    rewrite (ksum_first (fun j => later (d * j) (seqs A j) k x y) N). f_equal.
    { rewrite Nat.mul_0_r. unfold later. cbn [Nat.ltb Nat.leb seqs]. rewrite Nat.sub_0_r. auto. }
    destruct N as [|N].
    { assert (k = 0)%nat as -> by lia. unfold later. destruct (Nat.ltb_spec 0 d); [auto|lia]. }
    destruct (Nat.ltb_spec k d) as [Hk|Hk].
    - unfold later at 1. destruct (Nat.ltb_spec k d); [|lia]. symmetry. apply (ksum_map_zero LL). intros j _. unfold later.
      destruct (Nat.ltb_spec k (d * S j)); auto. nia.
    - transitivity (later d (then_ A (fun i a b => ksum (map (fun j => later (d * j) (seqs A j) i a b) (seq 0 (S N))))) k x y).
      { apply later_ext. intros a b. apply then_ext; auto. intros i u v Hi. apply IH; lia. }
      transitivity (later d (fun i a b => ksum (map (fun j => then_ A (later (d * j) (seqs A j)) i a b) (seq 0 (S N)))) k x y).
      { apply later_ext. intros a b. apply then_sum. }
      rewrite later_sum. apply ksum_map_ext. intros j _.
      transitivity (later d (later (d * j) (then_ A (seqs A j))) k x y); [apply later_ext; intros; apply then_later|].
      rewrite later_later. replace (d * S j)%nat with (d + d * j)%nat by nia. reflexivity.
  Qed.

  (** Reading one path after another. *)
  Lemma splits_pair (v : K) : forall x a c,
    ksum (map (fun p => if leqb a (fst p) && leqb c (snd p) then v else 0) (splits x)) = if leqb (a ++ c) x then v else 0.
  Proof.
    assert (LN : forall b (a : nat) l, leqb (b :: l) (a :: l) = Nat.eqb b a) by (intros; unfold leqb; destruct (list_eq_dec _ _ _), (Nat.eqb_spec b a); congruence).
    assert (LC : forall a x b y, leqb (a :: x) (b :: y) = Nat.eqb a b && leqb x y).
    { intros. unfold leqb. destruct (list_eq_dec Nat.eq_dec (a :: x) (b :: y)), (Nat.eqb_spec a b), (list_eq_dec Nat.eq_dec x y); cbn; congruence. }
    induction x as [|e x IH]; intros a c; cbn [splits map ksum].
    - rewrite (kplus_0_r LL). cbn [fst snd]. destruct a; cbn [app]; auto.
    - rewrite map_map. cbn [fst snd]. destruct a as [|b a]; cbn [app].
      + rewrite (ksum_map_zero LL) by auto. apply (kplus_0_r LL).
      + change (leqb (b :: a) []) with false. cbn [andb]. rewrite (kplus_0_l _ LL), LC. destruct (Nat.eqb b e) eqn:E; cbn [andb].
        * rewrite <- IH. apply ksum_map_ext. intros p _. rewrite LC, E. auto.
        * apply (ksum_map_zero LL). intros p _. rewrite LC, E. auto.
  Qed.
  Lemma pick_then opts (A B : list (reading K)) x y : ret_il opts = O -> ret_ol opts = O ->
    pick x y (flat_map (fun a => map (returning opts a) B) A) = sum2 (fun a b c d => pick a b A * pick c d B) x y.
  Proof.
    intros R1 R2. rewrite (pick_flat_map LL).
    transitivity (ksum (map (fun a => ksum (map (fun b => sum2 (fun x1 y1 x2 y2 =>
      if (leqb (fst (fst a)) x1 && leqb (fst (fst b)) x2) && (leqb (snd (fst a)) y1 && leqb (snd (fst b)) y2) then snd a * snd b else 0) x y) B)) A)).
    - apply ksum_map_ext. intros a _. unfold pick. rewrite map_map. apply ksum_map_ext. intros b _. unfold returning. rewrite R1, R2. cbn [fst snd lab Nat.eqb app].
      unfold sum2. transitivity (ksum (map (fun p => if leqb (fst (fst a)) (fst p) && leqb (fst (fst b)) (snd p) then
         (if leqb (snd (fst a) ++ snd (fst b)) y then snd a * snd b else 0) else 0) (splits x))).
      + rewrite splits_pair. change (lab 0) with (@nil nat). cbn [app]. destruct (leqb (fst (fst a) ++ _) x); cbn [andb]; auto.
      + apply ksum_map_ext. intros p _. destruct (leqb (fst (fst a)) (fst p) && leqb (fst (fst b)) (snd p)); cbn [andb].
        * symmetry. apply splits_pair.
        * symmetry. apply (ksum_map_zero LL). auto.
    - transitivity (ksum (map (fun a => sum2 (fun x1 y1 x2 y2 => ksum (map (fun b =>
        if (leqb (fst (fst a)) x1 && leqb (fst (fst b)) x2) && (leqb (snd (fst a)) y1 && leqb (snd (fst b)) y2) then snd a * snd b else 0) B)) x y) A)).
      { apply ksum_map_ext. intros a _. symmetry. apply (sum2_ksum L). }
      rewrite <- (sum2_ksum L). apply sum2_ext. intros x1 y1 x2 y2. unfold pick. rewrite (ksum_times_r L), map_map. apply ksum_map_ext. intros a _.
      destruct (leqb (fst (fst a)) x1); cbn [andb]; [|rewrite (ktimes_0_l _ LL); apply (ksum_map_zero LL); auto].
      destruct (leqb (snd (fst a)) y1); cbn [andb].
      + rewrite (ksum_times_l LL), map_map. apply ksum_map_ext. intros b _.
        destruct (leqb (fst (fst b)) x2); cbn [andb]; [|symmetry; apply (ktimes_0_r _ LL)].
        destruct (leqb (snd (fst b)) y2); cbn [andb]; auto. symmetry; apply (ktimes_0_r _ LL).
      + rewrite (ktimes_0_l _ LL). apply (ksum_map_zero LL). intros b _. rewrite andb_false_r. auto.
  Qed.
End Sums.

(** ** Expansions of the root machine *)
Section Expansion.
  Context {K : SR} (L : sr_laws K) (g : list (nat * vfst K)).
  Let LL := sr_lsr _ L.
  Notation O_ := rational_opts.
  Definition wx (i s n : nat) (x y : list nat) : K := pick x y (ex g O_ n i s).

  Lemma off_0 F (x y : list nat) : off O O (1 : K) F x y = F x y.
  Proof. unfold off. cbn. apply (ktimes_1_l _ LL). Qed.

  (** A machine that calls nothing. *)
  Lemma wx_plain i p : nth_error g i = Some p -> (forall s t, In t (trs_of (snd p) s) -> nonterminal g (ol t) = None) ->
    forall n s x y, wx i s n x y = wt (mach (snd p)) n s x y.
  Proof.
    intros Np NT. unfold wx. induction n as [|n IH]; intros s x y.
    - unfold ex. cbn [expand wt mach mfin]. unfold the_fin. rewrite Np. destruct (fin_of (snd p) s) as [w|]; unfold pick; cbn.
      + rewrite !leqb_nil. apply (kplus_0_r LL).
      + destruct (_ && _); auto.
    - rewrite ex_S. cbn [wt mach mtrs]. rewrite (pick_flat_map LL). unfold the_trs. rewrite Np. apply ksum_map_ext. intros t It.
      rewrite (NT s t It), (pick_pre LL). unfold off. destruct (strip (il t) x); auto. destruct (strip (ol t) y); auto. rewrite IH. auto.
  Qed.
  Lemma rel_plain i p : nth_error g i = Some p -> (forall s t, In t (trs_of (snd p) s) -> nonterminal g (ol t) = None) ->
    forall n x y, rel (mach (snd p)) n x y = match the_start g i with Some q => wx i q n x y | None => 0 end.
  Proof. intros Np NT n x y. unfold rel, the_start. rewrite Np. cbn [mach mstart]. destruct (vstart (snd p)); auto. symmetry. apply wx_plain; auto. Qed.

  (** One step of the root machine. *)
  Definition step_ (i : nat) (t : tr K) (k : nat) (x y : list nat) : K :=
    match nonterminal g (ol t) with
    | None => wx i (ns t) k x y
    | Some j => later 1 (then_ (fun n a b => match the_start g j with Some q => wx j q n a b | None => 0 end) (wx i (ns t))) k x y
    end.
  Lemma wx_step i s : (forall t, In t (the_trs g i s) -> il t = O /\ (nonterminal g (ol t) = None -> ol t = O) /\ wgt t = 1) ->
    forall n x y, wx i s n x y = match n with
      | O => if isnil x && isnil y then fw (the_fin g i s) else 0
      | S m => ksum (map (fun t => step_ i t m x y) (the_trs g i s))
      end.
  Proof.
    intros H n x y. unfold wx at 1. destruct n as [|m].
    - unfold ex. cbn [expand]. destruct (the_fin g i s) as [w|]; unfold pick; cbn.
      + rewrite !leqb_nil. apply (kplus_0_r LL).
      + destruct (_ && _); auto.
    - rewrite ex_S, (pick_flat_map LL). apply ksum_map_ext. intros t It. destruct (H t It) as (H1 & H2 & H3). unfold step_.
      destruct (nonterminal g (ol t)) as [j|].
      + destruct (the_start g j) as [q|].
        * transitivity (pick x y (map (pre (call_il O_ t) (call_ol O_ t) (wgt t))
            (flat_map (fun k => flat_map (fun a => map (returning O_ a) (ex g O_ (m - 1 - k) i (ns t))) (ex g O_ k j q)) (seq 0 m)))).
          { f_equal. generalize (seq 0 m). induction l as [|k l IHl]; cbn [flat_map map]; auto. rewrite map_app, IHl. f_equal.
            generalize (ex g O_ k j q). induction l0 as [|a l0 IH0]; cbn [flat_map map]; auto. rewrite map_app, map_map, IH0. auto. }
          rewrite (pick_pre LL). replace (call_il O_ t) with O by (symmetry; exact H1). change (call_ol O_ t) with O. rewrite H3.
          rewrite off_0.
          rewrite (pick_flat_map LL). unfold later. destruct (Nat.ltb_spec m 1); [assert (m = 0)%nat as -> by lia; auto|].
          unfold then_. replace (S (m - 1)) with m by lia. apply ksum_map_ext. intros k _. apply (pick_then L); reflexivity.
        * unfold later. destruct (Nat.ltb m 1); auto. symmetry. unfold then_. apply (ksum_map_zero LL). intros. apply (ksum_map_zero LL). intros.
          apply (ksum_map_zero LL). intros. apply (ktimes_0_l _ LL).
      + rewrite (pick_pre LL), H1, (H2 eq_refl), H3. apply off_0.
  Qed.
End Expansion.

(** ** Results *)
Section C63.
  Context {K : SR} (L : sr_laws K) (no_label : nat).
  Let LL := sr_lsr _ L.
  Implicit Types f r : vfst K.

  (** No output label reaches [b]. *)
  Definition outputs_below (b : nat) f : Prop := forall s t, In t (trs_of f s) -> (ol t < b)%nat.

  Lemma nothing_if k x y : (match k with O => if isnil x && isnil y then (1 : K) else 0 | S _ => 0 end) = nothing k x y.
  Proof. destruct k, x, y; auto. Qed.
  Lemma later_S d (A : nat -> list nat -> list nat -> K) k x y : later (S d) A (S k) x y = later d A k x y.
  Proof. reflexivity. Qed.
  Lemma later_0 d (A : nat -> list nat -> list nat -> K) x y : (0 < d)%nat -> later d A 0 x y = 0.
  Proof. destruct d; [lia|reflexivity]. Qed.

  Definition two_calls f1 f2 r : list (nat * vfst K) := [(O, r); (no_label, f1); ((no_label - 1)%nat, f2)].
  Lemma two_nonterminal f1 f2 r o : (1 < no_label)%nat -> nonterminal (two_calls f1 f2 r) o =
    if Nat.eqb o no_label then Some 1%nat else if Nat.eqb o (no_label - 1) then Some 2%nat else None.
  Proof.
    intros N. unfold nonterminal. cbn [last_idx two_calls fst]. 
    destruct (Nat.eqb_spec o 0), (Nat.eqb_spec (no_label - 1) o), (Nat.eqb_spec no_label o), (Nat.eqb_spec 0 o), (Nat.eqb_spec o no_label), (Nat.eqb_spec o (no_label - 1)); try lia; auto.
  Qed.
  Lemma two_plain f1 f2 r f : (1 < no_label)%nat -> outputs_below (no_label - 1) f ->
    forall s t, In t (trs_of f s) -> nonterminal (two_calls f1 f2 r) (ol t) = None.
  Proof.
    intros N B s t I. specialize (B s t I). rewrite two_nonterminal by auto.
    destruct (Nat.eqb_spec (ol t) no_label), (Nat.eqb_spec (ol t) (no_label - 1)); try lia; auto.
  Qed.
  Lemma one_nonterminal f r o : (0 < no_label)%nat -> nonterminal [(O, r); (no_label, f)] o = if Nat.eqb o no_label then Some 1%nat else None.
  Proof.
    intros N. unfold nonterminal. cbn [last_idx fst].
    destruct (Nat.eqb_spec o 0), (Nat.eqb_spec no_label o), (Nat.eqb_spec 0 o), (Nat.eqb_spec o no_label); try lia; auto.
  Qed.
  Lemma one_plain f r : (0 < no_label)%nat -> outputs_below no_label f ->
    forall s t, In t (trs_of f s) -> nonterminal [(O, r); (no_label, f)] (ol t) = None.
  Proof.
    intros N B s t I. specialize (B s t I). rewrite one_nonterminal by auto. destruct (Nat.eqb_spec (ol t) no_label); try lia; auto.
  Qed.


  (** What a delayed operation computes. *)
  Definition computes (fuelled : nat -> option (res (vfst K))) f (W : nat -> list nat -> list nat -> K) : Prop :=
    (exists fuel, forall fuel', (fuel <= fuel')%nat -> exists h, fuelled fuel' = Some (Ok h)) /\
    forall fuel h, fuelled fuel = Some (Ok h) ->
      closed h /\ cnt h /\ visymt h = visymt f /\ vosymt h = vosymt f /\ forall n x y, rel (mach h) n x y = W n x y.

  Lemma small_closed r n : num_states r = n -> (forall s, vstart r = Some s -> (s < n)%nat) ->
    (forall s t, (s < n)%nat -> In t (trs_of r s) -> (ns t < n)%nat) -> closed r.
  Proof.
    intros N S T. split; [|intros; rewrite N; auto]. intros s t I. rewrite N. destruct (Nat.lt_ge_cases s n); [eauto|].
    rewrite trs_of_oob in I by lia. destruct I.
  Qed.
  Definition is_root r f n (T : nat -> list (tr K)) (F : nat -> option K) : Prop :=
    vstart r = Some O /\ num_states r = n /\ visymt r = visymt f /\ vosymt r = vosymt f /\
    (forall s, (s < n)%nat -> trs_of r s = T s /\ fin_of r s = F s) /\ (0 < n)%nat /\
    forall s t, (s < n)%nat -> In t (T s) -> (ns t < n)%nat /\ il t = O /\ wgt t = 1.

  Lemma from_root f r n T F rest W : is_root r f n T F -> (forall p, In p rest -> closed (snd p)) ->
    (forall p, In p rest -> (0 < fst p)%nat) ->
    (forall i p s t, nth_error rest i = Some p -> In t (trs_of (snd p) s) -> nonterminal ((O, r) :: rest) (ol t) = None) ->
    (forall s t, (s < n)%nat -> In t (T s) -> nonterminal ((O, r) :: rest) (ol t) <> Some O) ->
    (forall k x y, wx ((O, r) :: rest) 0 0 k x y = W k x y) ->
    computes (fun fuel => replace ((O, r) :: rest) 0 false fuel) f W.
  Proof.
    intros (R1 & R2 & R3 & R4 & R5 & R0 & R6) CL PL NT RT HW. set (g := (O, r) :: rest) in *.
    assert (CR : closed r).
    { apply (small_closed r n); auto; [intros s E; replace s with O by congruence; auto|]. intros s t Hs I. rewrite (proj1 (R5 s Hs)) in I. apply (R6 s t); auto. }
    assert (CG : forall p, In p g -> closed (snd p)) by (intros p [<-|I]; auto).
    assert (LI : last_idx g 0 0 = Some O).
    { cbn [g last_idx fst Nat.eqb]. assert (forall l i, (forall p, In p l -> (0 < fst p)%nat) -> @last_idx K l i 0 = None) as ->; auto.
      induction l as [|p l IH]; intros i H; cbn [last_idx]; auto. rewrite IH by (intros; apply H; right; auto).
      destruct (Nat.eqb_spec (fst p) 0); auto. specialize (H p (or_introl eq_refl)). lia. }
    split.
    - apply (C40_terminates g rational_opts (fun i => match i with O => 1%nat | _ => O end)).
      + intros i j (s & t & I & N). destruct i as [|i].
        * destruct j; [|lia]. exfalso. unfold the_trs in I. cbn [g nth_error snd] in I. destruct (Nat.lt_ge_cases s n) as [Hs|Hs].
          -- rewrite (proj1 (R5 s Hs)) in I. exact (RT s t Hs I N).
          -- rewrite trs_of_oob in I by lia. destruct I.
        * exfalso. unfold the_trs in I. cbn [g nth_error] in I. destruct (nth_error rest i) as [p|] eqn:E; [|destruct I].
          rewrite (NT i p s t E I) in N. discriminate.
      + exact CG.
      + left. reflexivity.
    - intros fuel h H. destruct (C40_replace LL g rational_opts fuel h CG H) as (H1 & H2 & H3 & H4 & H5).
      split; auto. split; auto.
      assert (vstart h <> None) as NS.
      { intros N. destruct (H5 N) as (_ & q & Q1 & Q2). change (ro_root rational_opts) with O in Q1. rewrite LI in Q1. injection Q1 as <-.
        unfold the_start in Q2. cbn in Q2. congruence. }
      destruct (H4 NS) as (p & E & S1 & S2). cbn in E. injection E as <-. cbn [snd] in *. split; [congruence|]. split; [congruence|].
      intros k x y. rewrite H3, <- HW. unfold expansions, wx. change (ro_root rational_opts) with O. rewrite LI. unfold the_start. cbn [g nth_error snd]. rewrite R1.
      reflexivity.
  Qed.
  Lemma root_step f r n T F rest s : is_root r f n T F -> (s < n)%nat ->
    (forall t, In t (T s) -> nonterminal ((O, r) :: rest) (ol t) = None -> ol t = O) ->
    forall k x y, wx ((O, r) :: rest) 0 s k x y = match k with
      | O => if isnil x && isnil y then fw (F s) else 0
      | S m => ksum (map (fun t => step_ ((O, r) :: rest) 0 t m x y) (T s))
      end.
  Proof.
    intros (R1 & R2 & R3 & R4 & R5 & R0 & R6) Hs H k x y. destruct (R5 s Hs) as [E1 E2].
    rewrite (wx_step L).
    - unfold the_trs, the_fin. cbn [nth_error snd]. rewrite E1, E2. auto.
    - intros t I. unfold the_trs in I. cbn [nth_error snd] in I. rewrite E1 in I. destruct (R6 s t Hs I) as (_ & A & B). auto.
  Qed.
  Lemma wx_end f r n T F rest s : is_root r f n T F -> (s < n)%nat -> T s = [] -> F s = Some 1 ->
    forall k x y, wx ((O, r) :: rest) 0 s k x y = nothing k x y.
  Proof.
    intros R Hs E1 E2 k x y. rewrite (root_step f r n T F rest s R Hs) by (rewrite E1; intros t []). rewrite E1, E2. apply nothing_if.
  Qed.
  Lemma then_nothing (A : nat -> list nat -> list nat -> K) k x y : then_ A nothing k x y = A k x y.
  Proof.
    unfold then_. rewrite (ksum_last LL). rewrite (ksum_map_zero LL).
    - rewrite (kplus_0_l _ LL). replace (k - k)%nat with O by lia.
      transitivity (ksum (map (fun cx => if leqb x (fst cx) && leqb [] (snd cx) then A k x y else 0) (splits x))).
      + apply ksum_map_ext. intros [a c] I. apply splits_spec in I. cbn [fst snd]. rewrite leqb_nil. destruct c as [|c0 c]; cbn [isnil].
        * rewrite app_nil_r in I. subst a. rewrite (proj2 (leqb_true x x) eq_refl). cbn [andb].
          transitivity (ksum (map (fun cy => if leqb y (fst cy) && leqb [] (snd cy) then A k x y else 0) (splits y))).
          -- apply ksum_map_ext. intros [b d] J. apply splits_spec in J. cbn [fst snd]. rewrite leqb_nil. destruct d as [|d0 d]; cbn [isnil].
             ++ rewrite app_nil_r in J. subst b. rewrite (proj2 (leqb_true y y) eq_refl). cbn. apply (ktimes_1_r _ LL).
             ++ rewrite andb_false_r. cbn. apply (ktimes_0_r _ LL).
          -- rewrite (splits_pair L), app_nil_r, (proj2 (leqb_true y y) eq_refl). auto.
        * rewrite andb_false_r. apply (ksum_map_zero LL). intros. cbn. apply (ktimes_0_r _ LL).
      + rewrite (splits_pair L), app_nil_r, (proj2 (leqb_true x x) eq_refl). auto.
    - intros i Hi. apply in_seq in Hi. apply (ksum_map_zero LL). intros. apply (ksum_map_zero LL). intros.
      destruct (k - i)%nat eqn:E; [lia|]. cbn. apply (ktimes_0_r _ LL).
  Qed.
  Lemma then_end (A B : nat -> list nat -> list nat -> K) k x y : (forall i a b, B i a b = nothing i a b) -> then_ A B k x y = A k x y.
  Proof. intros H. rewrite <- (then_nothing A). apply then_ext; auto. Qed.

  (** Union: a path of either argument, with one epsilon transition before it and one after it. *)
  Theorem C63_union f1 f2 : closed f1 -> closed f2 -> (1 < no_label)%nat ->
    outputs_below (no_label - 1) f1 -> outputs_below (no_label - 1) f2 ->
    computes (union_fst no_label f1 f2) f1
      (later 2 (fun k x y => rel (mach f1) k x y + rel (mach f2) k x y)).
  Proof.
    intros C1 C2 NL B1 B2.
    assert (exists r, union_root no_label f1 = Ok r /\ is_root r f1 2
       (fun s => match s with O => [Tr O no_label 1 1%nat; Tr O (no_label - 1)%nat 1 1%nat] | _ => [] end) (fun s => match s with O => None | _ => Some 1 end)) as (r & E & R).
    { eexists. split; [reflexivity|]. repeat (split; [reflexivity|]). split; [|split; [lia|]].
      - intros [|[|s]] Hs; [split; reflexivity|split; reflexivity|lia].
      - intros [|[|s]] t Hs I; [|destruct I|lia]. destruct I as [<-|[<-|[]]]; cbn; auto. }
    unfold union_fst, union_tuples. rewrite E. cbn [rbind computed].
    pose proof (two_nonterminal f1 f2 r) as NT. pose proof (two_plain f1 f2 r f1 NL B1) as P1. pose proof (two_plain f1 f2 r f2 NL B2) as P2.
    eapply from_root; [exact R| | | | |].
    - intros p [<-|[<-|[]]]; auto.
    - intros p [<-|[<-|[]]]; cbn; lia.
    - intros [|[|[|i]]] p s t; cbn [nth_error]; intros [= <-] I; cbn [snd] in I; eauto.
    - intros s t Hs I. change ((O, r) :: _) with (two_calls f1 f2 r). rewrite NT by auto. destruct (Nat.eqb _ _); [discriminate|]. destruct (Nat.eqb _ _); discriminate.
    - intros k x y. change ((O, r) :: _) with (two_calls f1 f2 r) at 1. unfold two_calls at 1. rewrite (root_step f1 r 2 _ _ _ 0 R); [|lia|].
      + destruct k as [|m]; [cbn; destruct (_ && _); auto|]. fold (two_calls f1 f2 r). cbn [map ksum]. rewrite (kplus_0_r LL). unfold step_. cbn [ol ns].
        rewrite !NT by auto. rewrite Nat.eqb_refl. destruct (Nat.eqb_spec (no_label - 1) no_label); [lia|]. rewrite Nat.eqb_refl.
        rewrite later_S. unfold later. destruct (Nat.ltb m 1); [apply (kplus_0_r LL)|].
        rewrite (rel_plain L (two_calls f1 f2 r) 1 (no_label, f1) eq_refl P1), (rel_plain L (two_calls f1 f2 r) 2 ((no_label - 1)%nat, f2) eq_refl P2).
        f_equal; (apply then_end; intros; unfold two_calls; apply (wx_end f1 r 2 _ _ _ 1 R); auto).
      + intros t I. change ((O, r) :: _) with (two_calls f1 f2 r). rewrite NT by auto. destruct I as [<-|[<-|[]]]; cbn [ol]; rewrite Nat.eqb_refl; [discriminate|].
        destruct (Nat.eqb _ _); discriminate.
  Qed.

  (** Concatenation: a path of the first argument, then one of the second, with two epsilon transitions
      around each. *)
  Theorem C63_concat f1 f2 : closed f1 -> closed f2 -> (1 < no_label)%nat ->
    outputs_below (no_label - 1) f1 -> outputs_below (no_label - 1) f2 ->
    computes (concat_fst no_label f1 f2) f1 (later 4 (then_ (rel (mach f1)) (rel (mach f2)))).
  Proof.
    intros C1 C2 NL B1 B2.
    assert (exists r, concat_root no_label f1 = Ok r /\ is_root r f1 3
       (fun s => match s with O => [Tr O no_label 1 1%nat] | S O => [Tr O (no_label - 1)%nat 1 2%nat] | _ => [] end) (fun s => match s with S (S _) => Some 1 | _ => None end)) as (r & E & R).
    { eexists. split; [reflexivity|]. repeat (split; [reflexivity|]). split; [|split; [lia|]].
      - intros [|[|[|s]]] Hs; try (split; reflexivity); lia.
      - intros [|[|s]] t Hs I; [| |destruct I]; destruct I as [<-|[]]; cbn; auto with arith. }
    unfold concat_fst, concat_tuples. rewrite E. cbn [rbind computed].
    pose proof (two_nonterminal f1 f2 r) as NT. pose proof (two_plain f1 f2 r f1 NL B1) as P1. pose proof (two_plain f1 f2 r f2 NL B2) as P2.
    eapply from_root; [exact R| | | | |].
    - intros p [<-|[<-|[]]]; auto.
    - intros p [<-|[<-|[]]]; cbn; lia.
    - intros [|[|[|i]]] p s t; cbn [nth_error]; intros [= <-] I; cbn [snd] in I; eauto.
    - intros s t Hs I. change ((O, r) :: _) with (two_calls f1 f2 r). rewrite NT by auto. destruct (Nat.eqb _ _); [discriminate|]. destruct (Nat.eqb _ _); discriminate.
    - change ((O, r) :: _) with (two_calls f1 f2 r).
      assert (W1 : forall k x y, wx (two_calls f1 f2 r) 0 1 k x y = later 2 (rel (mach f2)) k x y).
      { intros k x y. unfold two_calls at 1. rewrite (root_step f1 r 3 _ _ _ 1 R); [|lia|].
        - destruct k as [|m]; [cbn; destruct (_ && _); auto|]. fold (two_calls f1 f2 r). cbn [map ksum]. rewrite (kplus_0_r LL). unfold step_. cbn [ol ns].
          rewrite !NT by auto. destruct (Nat.eqb_spec (no_label - 1) no_label); [lia|]. rewrite Nat.eqb_refl. rewrite later_S. apply later_ext. intros a b.
          rewrite (rel_plain L (two_calls f1 f2 r) 2 ((no_label - 1)%nat, f2) eq_refl P2).
          apply then_end; intros; unfold two_calls; apply (wx_end f1 r 3 _ _ _ 2 R); auto.
        - intros t I. change ((O, r) :: _) with (two_calls f1 f2 r). rewrite NT by auto. destruct I as [<-|[]]; cbn [ol]; rewrite Nat.eqb_refl.
          destruct (Nat.eqb _ _); discriminate. }
      intros k x y. unfold two_calls at 1. rewrite (root_step f1 r 3 _ _ _ 0 R); [|lia|].
      + destruct k as [|m]; [cbn; destruct (_ && _); auto|]. fold (two_calls f1 f2 r). cbn [map ksum]. rewrite (kplus_0_r LL). unfold step_. cbn [ol ns].
        rewrite !NT by auto. rewrite Nat.eqb_refl. rewrite later_S.
        change 3%nat with (1 + 2)%nat. rewrite <- later_later. apply later_ext. intros a b. rewrite <- (then_later L).
        apply then_ext; [|intros; apply W1]. intros i u v _. symmetry. apply (rel_plain L (two_calls f1 f2 r) 1 (no_label, f1) eq_refl P1).
      + intros t I. change ((O, r) :: _) with (two_calls f1 f2 r). rewrite NT by auto. destruct I as [<-|[]]; cbn [ol]; rewrite Nat.eqb_refl; discriminate.
  Qed.

  (** Star: any number of paths, with two epsilon transitions around each. *)
  Theorem C63_closure_star f : closed f -> (0 < no_label)%nat -> outputs_below no_label f ->
    computes (closure_fst no_label f ClosureStar) f
      (fun k x y => ksum (map (fun j => later (2 * j) (seqs (rel (mach f)) j) k x y) (seq 0 (S k)))).
  Proof.
    intros C NL B.
    assert (exists r, closure_root no_label f ClosureStar = Ok r /\ is_root r f 1
       (fun s => [Tr O no_label 1 0%nat]) (fun s => Some 1)) as (r & E & R).
    { eexists. split; [reflexivity|]. repeat (split; [reflexivity|]). split; [|split; [lia|]].
      - intros [|s] Hs; [split; reflexivity|lia].
      - intros [|s] t Hs I; [|lia]. destruct I as [<-|[]]; cbn; auto. }
    unfold closure_fst, closure_tuples. rewrite E. cbn [rbind computed].
    pose proof (one_nonterminal f r) as NT. pose proof (one_plain f r NL B) as P.
    eapply from_root; [exact R| | | | |].
    - intros p [<-|[]]; auto.
    - intros p [<-|[]]; cbn; lia.
    - intros [|[|i]] p s t; cbn [nth_error]; intros [= <-] I; cbn [snd] in I; eauto.
    - intros s t Hs I. rewrite NT by auto. destruct (Nat.eqb _ _); discriminate.
    - set (g := (O, r) :: _) in *. intros k. revert k.
      assert (W : forall k x y, wx g 0 0 k x y = nothing k x y + later 2 (then_ (rel (mach f)) (wx g 0 0)) k x y).
      { intros k x y. unfold g at 1. rewrite (root_step f r 1 _ _ _ 0 R); [|lia|].
        - fold g. rewrite <- nothing_if. destruct k as [|m]; [rewrite later_0 by lia; rewrite (kplus_0_r LL); auto|].
          cbn [map ksum]. rewrite (kplus_0_r LL), (kplus_0_l _ LL). unfold step_. cbn [ol ns]. rewrite NT, Nat.eqb_refl by auto. rewrite later_S.
          apply later_ext. intros a b. apply then_ext; auto. intros. symmetry. apply (rel_plain L g 1 (no_label, f) eq_refl P).
        - intros t I. fold g. rewrite NT by auto. destruct I as [<-|[]]; cbn [ol]; rewrite Nat.eqb_refl; discriminate. }
      intros k x y. apply (loop_sum L 2 (rel (mach f)) (wx g 0 0)); auto; lia.
  Qed.

  (** Plus: at least one path, with two epsilon transitions around each and one between two paths. *)
  Theorem C63_closure_plus f : closed f -> (0 < no_label)%nat -> outputs_below no_label f ->
    computes (closure_fst no_label f ClosurePlus) f
      (fun k x y => ksum (map (fun j => later (2 + 3 * j) (seqs (rel (mach f)) (S j)) k x y) (seq 0 (S k)))).
  Proof.
    intros C NL B.
    assert (exists r, closure_root no_label f ClosurePlus = Ok r /\ is_root r f 2
       (fun s => match s with O => [Tr O no_label 1 1%nat] | _ => [Tr O O 1 O] end) (fun s => match s with O => None | _ => Some 1 end)) as (r & E & R).
    { eexists. split; [reflexivity|]. repeat (split; [reflexivity|]). split; [|split; [lia|]].
      - intros [|[|s]] Hs; [split; reflexivity|split; reflexivity|lia].
      - intros [|s] t Hs I; destruct I as [<-|[]]; cbn; auto. }
    unfold closure_fst, closure_tuples. rewrite E. cbn [rbind computed].
    pose proof (one_nonterminal f r) as NT. pose proof (one_plain f r NL B) as P.
    eapply from_root; [exact R| | | | |].
    - intros p [<-|[]]; auto.
    - intros p [<-|[]]; cbn; lia.
    - intros [|[|i]] p s t; cbn [nth_error]; intros [= <-] I; cbn [snd] in I; eauto.
    - intros s t Hs I. rewrite NT by auto. destruct (Nat.eqb _ _); discriminate.
    - set (g := (O, r) :: _) in *.
      assert (W0 : forall k x y, wx g 0 0 k x y = later 2 (then_ (rel (mach f)) (wx g 0 1)) k x y).
      { intros k x y. unfold g at 1. rewrite (root_step f r 2 _ _ _ 0 R); [|lia|].
        - fold g. destruct k as [|m]; [cbn; destruct (_ && _); auto|].
          cbn [map ksum]. rewrite (kplus_0_r LL). unfold step_. cbn [ol ns]. rewrite NT, Nat.eqb_refl by auto. rewrite later_S.
          apply later_ext. intros a b. apply then_ext; auto. intros. symmetry. apply (rel_plain L g 1 (no_label, f) eq_refl P).
        - intros t I. fold g. rewrite NT by auto. destruct I as [<-|[]]; cbn [ol]; rewrite Nat.eqb_refl; discriminate. }
      assert (W1 : forall k x y, wx g 0 1 k x y = nothing k x y + later 3 (then_ (rel (mach f)) (wx g 0 1)) k x y).
      { intros k x y. unfold g at 1. rewrite (root_step f r 2 _ _ _ 1 R); [|lia|].
        - fold g. rewrite <- nothing_if. destruct k as [|m]; [rewrite later_0 by lia; rewrite (kplus_0_r LL); auto|].
          cbn [map ksum]. rewrite (kplus_0_r LL), (kplus_0_l _ LL). unfold step_. cbn [ol ns]. rewrite NT by auto. destruct (Nat.eqb_spec 0 no_label); [lia|].
          rewrite later_S. apply W0.
        - intros t I. destruct I as [<-|[]]; auto. }
      intros k x y. rewrite W0.
      transitivity (later 2 (then_ (rel (mach f)) (fun i a b => ksum (map (fun j => later (3 * j) (seqs (rel (mach f)) j) i a b) (seq 0 (S k))))) k x y).
      { apply later_ext. intros a b. apply then_ext; auto. intros i u v Hi. apply (loop_sum L 3 (rel (mach f)) (wx g 0 1)); auto; lia. }
      transitivity (later 2 (fun i a b => ksum (map (fun j => then_ (rel (mach f)) (later (3 * j) (seqs (rel (mach f)) j)) i a b) (seq 0 (S k)))) k x y).
      { apply later_ext. intros a b. apply (then_sum L). }
      rewrite (later_sum L). apply ksum_map_ext. intros j _.
      transitivity (later 2 (later (3 * j) (then_ (rel (mach f)) (seqs (rel (mach f)) j))) k x y); [apply later_ext; intros; apply (then_later L)|].
      apply later_later.
  Qed.
End C63.
Print Assumptions C63_union.
Print Assumptions C63_concat.
Print Assumptions C63_closure_star.
Print Assumptions C63_closure_plus.

(** ** Witnesses *)
Local Close Scope K_scope.
Definition c63_of (c : list (op natSR)) : vfst natSR := match run vnew c with Ok f => f | _ => vnew end.
Definition c63_out {K : SR} (x : option (res (vfst K))) : vfst K := match x with Some (Ok f) => f | _ => vnew end.
(** 1:4 with weight 2 and final weight 3; 5:6 with weight 7. *)
Definition c63_a := c63_of [OAddStates 2; OSetStart 0; OSetFinal 1 3; OAddTr 0 (Tr 1 4 2 1)].
Definition c63_b := c63_of [OAddStates 2; OSetStart 0; OSetFinal 1 1; OAddTr 0 (Tr 5 6 7 1)].

Definition outputs_belowb {K : SR} b (f : vfst K) : bool :=
  forallb (fun s => forallb (fun t => Nat.ltb (ol t) b) (trs_of f s)) (seq 0 (num_states f)).
Lemma outputs_belowb_ok {K : SR} b (f : vfst K) : outputs_belowb b f = true -> outputs_below b f.
Proof.
  intros H s t I. destruct (Nat.lt_ge_cases s (num_states f)) as [Hs|Hs].
  - unfold outputs_belowb in H. rewrite forallb_forall in H. specialize (H s ltac:(apply in_seq; lia)). rewrite forallb_forall in H.
    apply Nat.ltb_lt. apply H. auto.
  - rewrite trs_of_oob in I by lia. destruct I.
Qed.

Example C63_witness :
  closed c63_a /\ closed c63_b /\ outputs_below 99 c63_a /\ outputs_below 99 c63_b /\
  let u := c63_out (union_fst 100 c63_a c63_b 20) in
  let c := c63_out (concat_fst 100 c63_a c63_b 20) in
  let s := c63_out (closure_fst 100 c63_a ClosureStar 20) in
  let p := c63_out (closure_fst 100 c63_a ClosurePlus 20) in
  num_states u = 6 /\ rel (mach u) 3 [1] [4] = 6 /\ rel (mach u) 3 [5] [6] = 7 /\
  rel (mach c) 6 [1; 5] [4; 6] = 42 /\ rel (mach s) 0 [] [] = 1 /\ rel (mach s) 6 [1; 1] [4; 4] = 36 /\
  rel (mach p) 0 [] [] = 0 /\ rel (mach p) 3 [1] [4] = 6 /\ rel (mach p) 7 [1; 1] [4; 4] = 36.
Proof.
  split; [apply closedb_ok; vm_compute; reflexivity|]. split; [apply closedb_ok; vm_compute; reflexivity|].
  split; [apply outputs_belowb_ok; vm_compute; reflexivity|]. split; [apply outputs_belowb_ok; vm_compute; reflexivity|].
  cbv zeta. repeat match goal with |- _ /\ _ => split end; vm_compute; reflexivity.
Qed.

(** [NO_LABEL - 1] is a legal label.  If the first argument writes it, the second argument is spliced in. *)
Theorem C63_reserved_label_refuted : exists f1 f2 : vfst natSR, closed f1 /\ closed f2 /\ outputs_below 100 f1 /\ outputs_below 100 f2 /\
  exists h, union_fst 100 f1 f2 20 = Some (Ok h) /\
    rel (mach f1) 1 [1] [99] = 1 /\ rel (mach h) 3 [1] [99] = 0 /\
    rel (mach f1) 3 [1; 5] [6] = 0 /\ rel (mach f2) 3 [1; 5] [6] = 0 /\ rel (mach h) 5 [1; 5] [6] = 7.
Proof.
  set (a := c63_of [OAddStates 2; OSetStart 0; OSetFinal 1 1; OAddTr 0 (Tr 1 99 1 1)]).
  exists a, c63_b. split; [apply closedb_ok; vm_compute; reflexivity|]. split; [apply closedb_ok; vm_compute; reflexivity|].
  split; [apply outputs_belowb_ok; vm_compute; reflexivity|]. split; [apply outputs_belowb_ok; vm_compute; reflexivity|].
  exists (c63_out (union_fst 100 a c63_b 20)). repeat match goal with |- _ /\ _ => split end; vm_compute; reflexivity.
Qed.
Print Assumptions C63_reserved_label_refuted.
