(** C08: closure computes the Kleene plus / star. *)
From Coq Require Import List Arith NArith ZArith Bool Lia Permutation.
From Verif Require Import Base.Util Base.Semiring Base.Machine Base.PropSpec Base.Convolution Base.Instances
  Model.Props Model.VectorFst Model.TrOps Model.AlgoProps Model.History Model.Rational
  Proofs.PropsFacts Proofs.VectorFacts Proofs.DelStates Proofs.VectorProps Proofs.TrOpsFacts Proofs.HistoryFacts
  Proofs.OpFacts Proofs.ConnectFacts Proofs.RationalFacts.
Import ListNotations.
Local Open Scope K_scope.

Section C08.
  Context {K : SR} (L : sr_laws K).
  Implicit Types (f g : vfst K).

  (** Total weight of the sequences of [j + 1] accepting paths with [k] transitions in all,
      counting one epsilon step between consecutive paths, that read [x] and write [y]. *)
  Fixpoint iterate f (j k : nat) (x y : list nat) : K :=
    match j, k with
    | O, _ => rel (mach f) k x y
    | S _, O => 0
    | S j', S k' =>
        ksum (map (fun i => ksum (map (fun cx => ksum (map (fun cy =>
            rel (mach f) i (fst cx) (fst cy) * iterate f j' (k' - i) (snd cx) (snd cy))
            (splits y))) (splits x))) (seq 0 (S k')))
    end.
  Lemma iterate_power f j : forall k x y, iterate f j k x y = power (rel (mach f)) j k x y.
  Proof.
    induction j as [|j IH]; intros k x y; [destruct k; reflexivity|]. destruct k as [|k]; [reflexivity|].
    cbn [power shift iterate]. unfold conv, sum2. apply ksum_map_ext. intros i _. apply ksum_map_ext. intros cx _.
    apply ksum_map_ext. intros cy _. rewrite IH. auto.
  Qed.

  Lemma plus_rel f g s0 : vstart f = Some s0 -> vstart g = Some s0 ->
    (forall q, trs_of g q = trs_of f q ++ match fin_of f q with Some w => [Tr O O w s0] | None => [] end) ->
    (forall q, fin_of g q = fin_of f q) ->
    forall k x y, wt (mach g) k s0 x y = ksum (map (fun j => iterate f j k x y) (seq 0 (S k))).
  Proof.
    intros Es Eg T F k x y.
    rewrite (closure_powers L (fun k => wt (mach g) k s0) (rel (mach f))).
    - apply ksum_map_ext. intros. symmetry. apply iterate_power.
    - intros i a b. rewrite (closure_wt L (mach g) (mach f) s0) by auto. f_equal.
      + unfold rel. simpl. rewrite Es. auto.
      + destruct i; auto. simpl. apply conv_ext; auto. intros. unfold rel. simpl. rewrite Es. auto.
  Qed.

  Theorem C08_closure_plus :
    forall f, closed f -> exists g, closure f ClosurePlus = Ok g /\
      (forall k x y, rel (mach g) k x y = ksum (map (fun j => iterate f j k x y) (seq 0 (S k)))) /\
      closed g /\ num_states g = num_states f /\ vstart g = vstart f /\
      (cnt f -> cnt g) /\ visymt g = visymt f /\ vosymt g = vosymt f.
  Proof.
    intros f CL. pose (LL := sr_lsr _ L). unfold closure. destruct (vstart f) as [s0|] eqn:Es.
    - destruct (closure_plus_eff f s0 Es) as (g & E & (N & G1 & G2 & G3 & G4) & T & F). rewrite E. cbn [rbind].
      eexists. split; [reflexivity|]. set (p := closure_properties (vprops f) false).
      destruct (set_props_eff g p all_properties) as ((N' & H1 & H2 & H3 & H4) & T' & F').
      set (g' := set_properties_with_mask g p all_properties) in *.
      assert (T2 : forall q, trs_of g' q = trs_of f q ++ match fin_of f q with Some w => [Tr O O w s0] | None => [] end) by (intros; rewrite T', T; auto).
      assert (F2 : forall q, fin_of g' q = fin_of f q) by (intros; rewrite F', F; auto).
      assert (S2 : vstart g' = Some s0) by congruence.
      split; [intros; unfold rel at 1; cbn [mach mstart]; rewrite S2; apply plus_rel; auto|].
      split; [|repeat split; auto; congruence].
      destruct CL as [C1 C2]. split.
      + intros s t Ht. rewrite N', N. rewrite T2 in Ht. apply in_app_or in Ht as [Ht|Ht]; [eapply C1; eauto|].
        destruct (fin_of f s); [|destruct Ht]. destruct Ht as [<-|[]]. simpl. apply C2. auto.
      + intros s Hs. rewrite N', N. apply C2. congruence.
    - cbn [rbind]. eexists. split; [reflexivity|].
      assert (Z : forall j k x y, iterate f j k x y = 0).
      { intros j. destruct j; intros k x y.
        - destruct k; simpl; unfold rel; simpl; rewrite Es; auto.
        - destruct k; auto. cbn [iterate]. apply (ksum_map_zero LL). intros. apply (ksum_map_zero LL). intros.
          apply (ksum_map_zero LL). intros. unfold rel. simpl. rewrite Es. apply (ktimes_0_l _ LL). }
      split; [intros; unfold rel at 1; cbn [mach mstart set_properties_with_mask with_props vstart]; rewrite Es; symmetry; apply (ksum_map_zero LL); intros; apply Z|].
      split; [exact CL|]. repeat split; auto.
  Qed.

  (** Star adds the empty path with weight one, and one epsilon step in front of the others. *)
  Theorem C08_closure_star :
    forall f, closed f -> exists g, closure f ClosureStar = Ok g /\
      (forall x y, rel (mach g) O x y = match x, y with [], [] => 1 | _, _ => 0 end) /\
      (forall k x y, rel (mach g) (S k) x y = ksum (map (fun j => iterate f j k x y) (seq 0 (S k)))) /\
      closed g /\ num_states g = S (num_states f) /\ vstart g = Some (num_states f) /\
      (cnt f -> cnt g) /\ visymt g = visymt f /\ vosymt g = vosymt f.
  Proof.
    intros f CL. pose (LL := sr_lsr _ L). unfold closure. set (n := num_states f).
    (* common tail: new start *)
    assert (TAIL : forall g, eff f g -> exists h,
       (let (f0, nstart) := add_state g in
        f0 <-- match vstart f0 with Some s0 => unwrap (add_tr f0 nstart (Tr O O 1 s0)) | None => Ok f0 end ;;
        unwrap (set_final (set_start_unchecked f0 nstart) nstart 1)) = Ok h /\
       num_states h = S n /\ vstart h = Some n /\ (cnt g -> cnt h) /\ visymt h = visymt f /\ vosymt h = vosymt f /\
       (forall q, trs_of h q = if q =? n then match vstart f with Some s0 => [Tr O O 1 s0] | None => [] end else trs_of g q) /\
       (forall q, fin_of h q = if q =? n then Some 1 else fin_of g q)).
    { intros g (N & G1 & G2 & G3 & G4). destruct (add_state_eff g) as (E1 & E2 & E3 & E4 & E5 & E6 & E7 & E8).
      destruct (add_state g) as [g1 ns0] eqn:EA. simpl in *. subst ns0. rewrite N. fold n.
      assert (Z : trs_of g n = []) by (apply trs_of_oob; unfold n; lia).
      assert (X : exists g2, match vstart g1 with Some s0 => unwrap (add_tr g1 n (Tr O O 1 s0)) | None => Ok g1 end = Ok g2 /\ eff g1 g2 /\
         (forall q, trs_of g2 q = if q =? n then match vstart f with Some s0 => [Tr O O 1 s0] | None => [] end else trs_of g q) /\
         (forall q, fin_of g2 q = fin_of g q)).
      { rewrite E3, G1. destruct (vstart f) as [s0|].
        - destruct (add_tr_eff g1 n (Tr O O 1 s0)) as (g2 & A & B & C & D); [unfold n; lia|]. exists g2. rewrite (unwrap_ok _ _ A).
          split; auto. split; auto. split; intros q; rewrite ?C, ?D, ?E7, ?E8; auto. rewrite Z. auto.
        - exists g1. split; auto. split; [apply eff_refl|]. split; auto. intros q. rewrite E7. destruct (Nat.eqb_spec q n); subst; auto. }
      destruct X as (g2 & X1 & (N2 & Y1 & Y2 & Y3 & Y4) & X3 & X4). rewrite X1. cbn [rbind].
      destruct (set_final_eff (set_start_unchecked g2 n) n 1) as (h & A & (N3 & Z1 & Z2 & Z3 & Z4) & C & D).
      { change (num_states (set_start_unchecked g2 n)) with (num_states g2). unfold n. lia. }
      exists h. rewrite (unwrap_ok _ _ A). split; auto.
      change (num_states (set_start_unchecked g2 n)) with (num_states g2) in N3.
      split; [lia|]. split; [rewrite Z1; auto|]. split; [intros HC; apply Z4; apply Y4; auto|].
      split; [rewrite Z2; simpl; congruence|]. split; [rewrite Z3; simpl; congruence|].
      split; intros q; rewrite ?C, ?D; [apply X3|].
      change (fin_of (set_start_unchecked g2 n) q) with (fin_of g2 q). rewrite X4. auto. }
    (* weights from the old states *)
    assert (OLD : forall (g h : vfst K), (forall q, trs_of h q = if q =? n then match vstart f with Some s0 => [Tr O O 1 s0] | None => [] end else trs_of g q) ->
       (forall q, fin_of h q = if q =? n then Some 1 else fin_of g q) -> 
       (forall q t, q < n -> In t (trs_of g q) -> ns t < n)%nat ->
       forall k q x y, (q < n)%nat -> wt (mach h) k q x y = wt (mach g) k q x y).
    { intros g h T F HC. induction k as [|k IH]; intros q x y Hq.
      - simpl. rewrite F. destruct (Nat.eqb_spec q n); [lia|]. auto.
      - simpl. rewrite T. destruct (Nat.eqb_spec q n); [lia|]. apply ksum_map_ext. intros t Ht.
        destruct (strip (il t) x); auto. destruct (strip (ol t) y); auto. rewrite IH; auto. eapply HC; eauto. }
    destruct CL as [C1 C2].
    assert (FIRST : exists g, match vstart f with
      | Some s0 => rfold (fun g p => unwrap (add_tr g (fst p) (Tr O O (snd p) s0)))
                (flat_map (fun s => match fin_of f s with Some w => [(s, w)] | None => [] end) (final_states f)) f
      | None => Ok f end = Ok g /\ eff f g /\
        (forall q, trs_of g q = trs_of f q ++ match vstart f, fin_of f q with Some s0, Some w => [Tr O O w s0] | _, _ => [] end) /\
        (forall q, fin_of g q = fin_of f q)).
    { destruct (vstart f) as [s0|] eqn:Es; [apply (closure_plus_eff f s0 Es)|].
      exists f. split; auto. split; [apply eff_refl|]. split; auto. intros q. rewrite app_nil_r. auto. }
    destruct FIRST as (g & E & EF & T & F). rewrite E. cbn [rbind].
    destruct (TAIL g EF) as (h & HE & HN & HS & HC & HI & HO & HT & HF).
    match goal with |- context [rbind ?e _] => replace e with (Ok h) by (symmetry; exact HE) end. cbn [rbind].
    eexists. split; [reflexivity|]. set (p := closure_properties (vprops f) false).
    destruct (set_props_eff h p all_properties) as ((N' & H1 & H2 & H3 & H4) & T' & F').
    set (h' := set_properties_with_mask h p all_properties) in *.
    assert (CG : forall q t, (q < n)%nat -> In t (trs_of g q) -> (ns t < n)%nat).
    { intros q t Hq Ht. rewrite T in Ht. apply in_app_or in Ht as [Ht|Ht]; [apply (C1 q t Ht)|].
      destruct (vstart f) as [s0|] eqn:Es; [|destruct Ht]. destruct (fin_of f q); [|destruct Ht]. destruct Ht as [<-|[]]. simpl. apply C2. auto. }
    assert (RW : forall k x y, wt (mach h') k n x y = wt (mach h) k n x y) by reflexivity.
    split; [|split; [|split; [|repeat split; auto; try congruence]]].
    - intros x y. unfold rel. cbn [mach mstart]. rewrite H1, HS, RW. simpl. rewrite HF, Nat.eqb_refl.
      destruct x, y; auto.
    - intros k x y. unfold rel. cbn [mach mstart]. rewrite H1, HS, RW. cbn [wt]. cbn [mach mtrs]. rewrite HT, Nat.eqb_refl.
      destruct (vstart f) as [s0|] eqn:Es.
      + cbn [map ksum il ol wgt ns strip Nat.eqb]. rewrite (kplus_0_r LL), (ktimes_1_l _ LL).
        rewrite (OLD g h HT HF CG) by (apply C2; auto).
        apply plus_rel; auto. destruct EF as (_ & EF & _). congruence.
      + cbn [map ksum]. symmetry. apply (ksum_map_zero LL). intros j _.
        destruct j; [destruct k; simpl; unfold rel; simpl; rewrite Es; auto|].
        destruct k; auto. cbn [iterate]. apply (ksum_map_zero LL). intros. apply (ksum_map_zero LL). intros.
        apply (ksum_map_zero LL). intros. unfold rel. simpl. rewrite Es. apply (ktimes_0_l _ LL).
    - split.
      + intros s t Ht. rewrite N', HN. rewrite T', HT in Ht. destruct (Nat.eqb_spec s n).
        * destruct (vstart f) as [s0|] eqn:Es; [|destruct Ht]. destruct Ht as [<-|[]]. simpl. specialize (C2 _ eq_refl). unfold n. lia.
        * destruct (Nat.lt_ge_cases s n) as [Hs|Hs]; [specialize (CG s t Hs Ht); lia|].
          rewrite trs_of_oob in Ht; [destruct Ht|]. destruct EF as (-> & _). auto.
      + intros s Hs. rewrite H1, HS in Hs. inversion Hs; subst. rewrite N', HN. lia.
    - intros HH. apply H4, HC. destruct EF as (_ & _ & _ & _ & EF). auto.
  Qed.
End C08.
Print Assumptions C08_closure_plus.
Print Assumptions C08_closure_star.

Example C08_witness :
  exists f g : vfst natSR,
    run vnew [OAddStates 2; OSetStart 0; OSetFinal 1 2%nat; OAddTr 0 (Tr 1 1 3%nat 1); OAddTr 0 (Tr 2 0 5%nat 1)] = Ok f /\
    closed f /\ closure f ClosureStar = Ok g /\
    rel (mach g) 4 [1;2]%nat [1]%nat = (3 * 2 * 5 * 2)%nat /\ iterate f 1 3 [1;2]%nat [1]%nat = 60%nat.
Proof.
  eexists. eexists. split; [vm_compute; reflexivity|]. split; [|split; [vm_compute; reflexivity|split; vm_compute; reflexivity]].
  split; [|cbn; intros s H; inversion H; vm_compute; lia].
  intros s t. destruct s as [|[|s]]; cbn; [intros [<-|[<-|[]]]; vm_compute; lia|tauto|]. destruct s; simpl; tauto.
Qed.
