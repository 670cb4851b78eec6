(** Facts about the text form. *)
From Coq Require Import List Arith NArith ZArith Bool Lia.
From Verif Require Import Base.Util Base.Semiring Base.Machine Base.PropSpec
  Model.Props Model.VectorFst Model.ComputeProps Model.Codec Model.TextFst
  Proofs.PropsFacts Proofs.VectorFacts Proofs.VectorProps Proofs.DelStates Proofs.TrOpsFacts Proofs.HistoryFacts
  Proofs.OpFacts Proofs.CodecFacts.
Import ListNotations.

Section T.
  Context {K : SR} (C : tcodec K).
  Implicit Types (f g : vfst K).

  (** A printed weight reads back up to the end of its line, holds no tab, and does not look
      like the word the row parser treats specially. *)
  Record tcodec_ok : Prop := {
    to_rt : forall w r, tc_read C (tc_show C w ++ NL :: r) = Ok (w, NL :: r);
    to_tab : forall w, ~ In TAB (tc_show C w);
    to_inf : forall w v, tc_show C w <> INFINITY_TAG ++ v
  }.
  Context (W : tcodec_ok).

  Lemma ptag_not t : forall u c r, ~ In c t -> (forall v, u <> t ++ v) -> ptag t (u ++ c :: r) = Err.
  Proof.
    induction t as [|x t IH]; intros u c r NI NP; [exfalso; apply (NP u); reflexivity|].
    destruct u as [|b u]; simpl.
    - destruct (N.eqb_spec c x); auto. exfalso. apply NI. simpl. auto.
    - destruct (N.eqb_spec b x) as [->|]; auto. apply IH; [simpl in NI; tauto|].
      intros v ->. apply (NP v). reflexivity.
  Qed.

  Definition row_bytes (r : row K) : bytes :=
    match r with
    | RTr s a b w n => dec s ++ TAB :: dec n ++ TAB :: dec a ++ TAB :: dec b ++ TAB :: tc_show C (or_one w)
    | RFin s w => dec s ++ TAB :: tc_show C (or_one w)
    | RInf s => []
    end.
  Definition row_ok (r : row K) : Prop :=
    match r with
    | RTr s a b w n => (s <= u32_max /\ a <= u32_max /\ b <= u32_max /\ n <= u32_max)%N /\ w <> None
    | RFin s w => (s <= u32_max)%N /\ w <> None
    | RInf _ => False
    end.

  Lemma tab_digit : is_digit TAB = false. Proof. reflexivity. Qed.

  Lemma read_weight w r : opt_weight C (TAB :: tc_show C w ++ NL :: r) = Ok (Some w, NL :: r).
  Proof. unfold opt_weight, popt. simpl. rewrite (to_rt W). reflexivity. Qed.

  (** After a state number and a tab, a weight is not the beginning of a transition. *)
  Lemma weight_no_tr w r :
    (n & i <~ num u32_max (tc_show C w ++ NL :: r) ;; u & i <~ tag1 TAB i ;; Ok (n, i)) = Err.
  Proof.
    unfold num.
    assert (H : forall u, ~ In TAB u -> forall ds v, take_while is_digit (u ++ NL :: r) = (ds, v) ->
              exists b v', v = b :: v' /\ b <> TAB).
    { induction u as [|b u IH]; intros NI ds v E.
      - simpl in E. injection E as <- <-. exists NL, r. split; auto. discriminate.
      - simpl in E. destruct (is_digit b).
        + destruct (take_while is_digit (u ++ NL :: r)) as [ds' v'] eqn:E'. injection E as <- <-.
          eapply IH; eauto. simpl in NI. tauto.
        + injection E as <- <-. exists b. eexists. split; eauto. intros ->. apply NI. simpl. auto. }
    destruct (take_while is_digit (tc_show C w ++ NL :: r)) as [ds v] eqn:E.
    destruct (H _ (to_tab W w) _ _ E) as (b & v' & -> & NB).
    destruct ds as [|d ds]; [reflexivity|]. destruct (_ <=? _)%N; [|reflexivity]. cbn [pbind].
    unfold tag1. destruct (N.eqb_spec b TAB); [tauto|reflexivity].
  Qed.

  Lemma read_row r rest : row_ok r -> p_row C (row_bytes r ++ NL :: rest) = Ok (r, NL :: rest).
  Proof.
    destruct r as [s a b [w|] n|s [w|]|s]; cbn [row_ok]; try tauto; try (intros [_ X]; congruence).
    - intros [(A1 & A2 & A3 & A4) _]. unfold p_row, palt, p_transition. cbn [row_bytes or_one].
      rewrite <- app_assoc. cbn [app]. rewrite num_dec by auto. cbn [pbind tag1]. change (TAB =? TAB)%N with true. cbn [pbind].
      rewrite <- app_assoc. cbn [app]. rewrite num_dec by auto. cbn [pbind tag1]. change (TAB =? TAB)%N with true. cbn [pbind].
      rewrite <- app_assoc. cbn [app]. rewrite num_dec by auto. cbn [pbind tag1]. change (TAB =? TAB)%N with true. cbn [pbind].
      rewrite <- app_assoc. cbn [app]. rewrite num_dec by auto. cbn [pbind].
      rewrite read_weight. reflexivity.
    - intros [A _]. unfold p_row, palt, p_transition, p_inf, p_final. cbn [row_bytes or_one].
      rewrite <- app_assoc. cbn [app]. rewrite num_dec by auto. cbn [pbind tag1]. change (TAB =? TAB)%N with true. cbn [pbind].
      pose proof (weight_no_tr w rest) as X.
      destruct (num u32_max (tc_show C w ++ NL :: rest)) as [[n i]| |]; cbn [pbind] in X |- *;
        [destruct (tag1 TAB i) as [[u i']| |]; cbn [pbind] in X |- *; try discriminate| |discriminate].
      all: rewrite (ptag_not INFINITY_TAG) by (try (vm_compute; intuition discriminate); intros v; apply (to_inf W)).
      all: cbn [pbind]; now rewrite read_weight.
  Qed.
  Lemma read_no_row : p_row C [] = Err.
  Proof. reflexivity. Qed.

  Lemma read_more l : forall fuel, Forall row_ok l -> length l < fuel ->
    p_rows_more C fuel (NL :: flat_map (fun r => row_bytes r ++ [NL]) l) = Ok (l, [NL]).
  Proof.
    induction l as [|r l IH]; intros fuel F LE; (destruct fuel as [|fuel]; [simpl in LE; lia|]).
    - reflexivity.
    - cbn [p_rows_more flat_map]. unfold tag1. change (NL =? NL)%N with true. cbv iota.
      rewrite <- app_assoc. change ([NL] ++ flat_map (fun r => row_bytes r ++ [NL]) l) with (NL :: flat_map (fun r => row_bytes r ++ [NL]) l).
      rewrite read_row by exact (Forall_inv F). rewrite IH; [reflexivity|exact (Forall_inv_tail F)|simpl in LE; lia].
  Qed.
  Lemma rows_length l : length l <= length (flat_map (fun r => row_bytes r ++ [NL]) l).
  Proof. induction l; simpl; auto. rewrite !app_length. simpl. lia. Qed.
  Lemma read_rows l : Forall row_ok l ->
    exists rest, p_rows C (flat_map (fun r => row_bytes r ++ [NL]) l) = Ok (l, rest).
  Proof.
    intros F. unfold p_rows. destruct l as [|r l]; [exists []; reflexivity|]. cbn [flat_map].
    rewrite <- app_assoc. change ([NL] ++ flat_map (fun r => row_bytes r ++ [NL]) l) with (NL :: flat_map (fun r => row_bytes r ++ [NL]) l).
    rewrite read_row by exact (Forall_inv F). rewrite read_more; [eexists; reflexivity|exact (Forall_inv_tail F)|].
    rewrite app_length. simpl. pose proof (rows_length l). lia.
  Qed.

  (** The rows of a machine. *)
  Definition trows f (s : nat) : list (row K) :=
    map (fun t => RTr (N.of_nat s) (N.of_nat (il t)) (N.of_nat (ol t)) (Some (wgt t)) (N.of_nat (ns t))) (trs_of f s).
  Definition frows f (s : nat) : list (row K) :=
    match fin_of f s with Some w => [RFin (N.of_nat s) (Some w)] | None => [] end.
  Definition order f s0 : list nat := s0 :: filter (fun s => negb (Nat.eqb s s0)) (seq 0 (num_states f)).
  Definition rows f s0 : list (row K) := flat_map (trows f) (order f s0) ++ flat_map (frows f) (seq 0 (num_states f)).

  Lemma flat_map_flat_map {A B D} (g : A -> list B) (h : B -> list D) l :
    flat_map h (flat_map g l) = flat_map (fun x => flat_map h (g x)) l.
  Proof. induction l; simpl; auto. rewrite flat_map_app. congruence. Qed.
  Lemma flat_map_map {A B D} (g : A -> B) (h : B -> list D) l : flat_map h (map g l) = flat_map (fun x => h (g x)) l.
  Proof. induction l; simpl; congruence. Qed.

  Lemma text_rows f s0 : vstart f = Some s0 -> text C f = flat_map (fun r => row_bytes r ++ [NL]) (rows f s0).
  Proof.
    intros E. unfold text, rows, order. rewrite E, flat_map_app, !flat_map_flat_map. cbn [flat_map].
    assert (X : forall s, flat_map (fun r => row_bytes r ++ [NL]) (trows f s) = show_state C f s).
    { intros s. unfold trows, show_state. rewrite flat_map_map. apply flat_map_ext. intros t.
      unfold show_tr, ndec. cbn [row_bytes or_one]. repeat (rewrite <- app_assoc; cbn [app]). reflexivity. }
    rewrite X, <- app_assoc. f_equal. f_equal.
    - apply flat_map_ext. intros s. now rewrite X.
    - apply flat_map_ext. intros s. unfold frows, show_final, ndec. destruct (fin_of f s); auto.
      cbn [flat_map row_bytes or_one]. rewrite app_nil_r. rewrite <- app_assoc. reflexivity.
  Qed.

  (** What the rows say about one state. *)
  Definition tr_at (q : nat) (l : list (row K)) : list (tr K) :=
    flat_map (fun r => match r with
      | RTr s a b w n => if N.to_nat s =? q then [Tr (N.to_nat a) (N.to_nat b) (or_one w) (N.to_nat n)] else []
      | _ => [] end) l.
  Definition fin_at (q : nat) (l : list (row K)) (o : option K) : option K :=
    fold_left (fun o r => match r with RFin s w => if N.to_nat s =? q then Some (or_one w) else o | _ => o end) l o.
  Definition in_states (n : nat) (r : row K) : Prop :=
    match r with RTr s _ _ _ _ | RFin s _ => N.to_nat s < n | RInf _ => True end.

  Lemma add_rows_eff (Lw : lsr_laws K) l : forall f, Forall (in_states (num_states f)) l ->
    exists g, add_rows l f = Ok g /\ eff f g /\ (forall q, trs_of g q = trs_of f q ++ tr_at q l) /\
      (forall q, fin_of g q = fin_of f q) /\ (fsound f -> fsound g).
  Proof.
    induction l as [|r l IH]; intros f F; cbn [add_rows].
    - exists f. split; auto. split; [apply eff_refl|]. split; auto. intros q. simpl. now rewrite app_nil_r.
    - pose proof (Forall_inv_tail F) as FT. apply Forall_inv in F.
      destruct r as [s a b w n|s w|s].
      + simpl in F. destruct (add_tr_eff f (N.to_nat s) (Tr (N.to_nat a) (N.to_nat b) (or_one w) (N.to_nat n)) F) as (g & E & EF & T & FI).
        rewrite E. cbn [rbind]. destruct (IH g) as (h & EH & EFH & TH & FH & SH).
        { rewrite (proj1 EF). auto. }
        exists h. split; auto. split; [eapply eff_trans; eauto|]. split; [|split].
        * intros q. rewrite TH, T. cbn [tr_at flat_map]. rewrite (Nat.eqb_sym q). destruct (Nat.eqb_spec (N.to_nat s) q).
          { subst. now rewrite <- app_assoc. } { reflexivity. }
        * intros q. now rewrite FH.
        * intros S. apply SH. eapply fsound_add_tr; eauto.
      + destruct (IH f FT) as (h & ? & ? & TH & ?). exists h. tauto.
      + destruct (IH f FT) as (h & ? & ? & TH & ?). exists h. tauto.
  Qed.
  Lemma add_finals_eff (Lw : lsr_laws K) l : forall f, Forall (in_states (num_states f)) l ->
    exists g, add_finals l f = Ok g /\ eff f g /\ (forall q, trs_of g q = trs_of f q) /\
      (forall q, fin_of g q = fin_at q l (fin_of f q)) /\ (fsound f -> fsound g).
  Proof.
    induction l as [|r l IH]; intros f F; cbn [add_finals].
    - exists f. split; auto. split; [apply eff_refl|]. split; auto.
    - pose proof (Forall_inv_tail F) as FT. apply Forall_inv in F.
      destruct r as [s a b w n|s w|s].
      + destruct (IH f FT) as (h & ? & ? & TH & ?). exists h. tauto.
      + simpl in F. destruct (set_final_eff f (N.to_nat s) (or_one w) F) as (g & E & EF & T & FI).
        rewrite E. cbn [rbind]. destruct (IH g) as (h & EH & EFH & TH & FH & SH).
        { rewrite (proj1 EF). auto. }
        exists h. split; auto. split; [eapply eff_trans; eauto|]. split; [|split].
        * intros q. now rewrite TH.
        * intros q. rewrite FH, FI. cbn [fin_at fold_left]. rewrite (Nat.eqb_sym q). reflexivity.
        * intros S. apply SH. eapply fsound_set_final; eauto.
      + destruct (IH f FT) as (h & ? & ? & TH & ?). exists h. tauto.
  Qed.

  Lemma tr_at_app q l l' : tr_at q (l ++ l') = tr_at q l ++ tr_at q l'.
  Proof. apply flat_map_app. Qed.
  Lemma tr_at_trows f q s : tr_at q (trows f s) = if s =? q then trs_of f s else [].
  Proof.
    unfold tr_at, trows. rewrite flat_map_map. cbn [or_one]. rewrite Nnat.Nat2N.id. destruct (s =? q).
    - induction (trs_of f s) as [|t l IH]; simpl; auto. rewrite !Nnat.Nat2N.id, IH. now destruct t.
    - induction (trs_of f s); simpl; auto.
  Qed.
  Lemma flat_map_one {A} (q : nat) (X : nat -> list A) l : NoDup l ->
    flat_map (fun s => if s =? q then X s else []) l = if existsb (Nat.eqb q) l then X q else [].
  Proof.
    induction l as [|s l IH]; intros ND; simpl; auto. rewrite IH by (inversion ND; auto).
    rewrite (Nat.eqb_sym q s). destruct (Nat.eqb_spec s q) as [->|]; auto. simpl.
    destruct (existsb (Nat.eqb q) l) eqn:E; [|now rewrite app_nil_r].
    apply existsb_exists in E as (x & I & E). apply Nat.eqb_eq in E as <-. inversion ND; tauto.
  Qed.
  Lemma order_nodup f s0 : NoDup (order f s0).
  Proof.
    constructor; [|apply NoDup_filter, seq_NoDup]. rewrite filter_In. rewrite Nat.eqb_refl. simpl. intuition discriminate.
  Qed.
  Lemma order_in f s0 s : s0 < num_states f -> In s (order f s0) <-> s < num_states f.
  Proof.
    intros H. unfold order. simpl. rewrite filter_In, in_seq, negb_true_iff, Nat.eqb_neq.
    destruct (Nat.eq_dec s s0); subst; intuition lia.
  Qed.
  Lemma tr_at_rows f s0 q : s0 < num_states f -> tr_at q (rows f s0) = trs_of f q.
  Proof.
    intros H. unfold rows. rewrite tr_at_app.
    assert (X : tr_at q (flat_map (frows f) (seq 0 (num_states f))) = []).
    { unfold tr_at. rewrite flat_map_flat_map. induction (seq 0 (num_states f)) as [|s l IH]; simpl; auto.
      rewrite IH. unfold frows. now destruct (fin_of f s). }
    rewrite X, app_nil_r. unfold tr_at. rewrite flat_map_flat_map.
    rewrite (flat_map_ext _ (fun s => if s =? q then trs_of f s else [])) by (intros s; apply (tr_at_trows f q s)).
    rewrite flat_map_one by apply order_nodup. destruct (existsb (Nat.eqb q) (order f s0)) eqn:E; auto.
    symmetry. apply trs_of_oob. destruct (le_lt_dec (num_states f) q); auto.
    assert (existsb (Nat.eqb q) (order f s0) = true); [|congruence].
    apply existsb_exists. exists q. rewrite order_in by auto. now rewrite Nat.eqb_refl.
  Qed.
  Lemma fin_at_rows f s0 q : fin_at q (rows f s0) None = fin_of f q.
  Proof.
    assert (T : forall L o, fin_at q (flat_map (trows f) L) o = o).
    { assert (Y : forall s ts o, fin_at q (map (fun t => RTr (N.of_nat s) (N.of_nat (il t)) (N.of_nat (ol t)) (Some (wgt t)) (N.of_nat (ns t))) ts) o = o).
      { intros s. induction ts; simpl; auto. }
      induction L as [|s L IH]; intros o; [auto|]. cbn [flat_map]. unfold fin_at in *. rewrite fold_left_app.
      unfold trows at 2. rewrite Y. apply IH. }
    unfold rows, fin_at. rewrite fold_left_app. change (fin_at q (flat_map (frows f) (seq 0 (num_states f))) (fin_at q (flat_map (trows f) (order f s0)) None) = fin_of f q).
    rewrite T.
    assert (G : forall L o, NoDup L -> fin_at q (flat_map (frows f) L) o =
       if existsb (Nat.eqb q) L then match fin_of f q with Some w => Some w | None => o end else o).
    { induction L as [|s L IH]; intros o ND; [auto|]. cbn [flat_map existsb]. unfold fin_at. rewrite fold_left_app.
      change (fin_at q (flat_map (frows f) L) (fin_at q (frows f s) o) =
       if (q =? s) || existsb (Nat.eqb q) L then match fin_of f q with Some w => Some w | None => o end else o).
      rewrite IH by (inversion ND; auto).
      assert (NX : q = s -> existsb (Nat.eqb q) L = false).
      { intros <-. destruct (existsb (Nat.eqb q) L) eqn:E; auto. apply existsb_exists in E as (x & I & E).
        apply Nat.eqb_eq in E as <-. inversion ND; tauto. }
      unfold frows. destruct (fin_of f s) as [w|] eqn:Ef; simpl.
      - rewrite Nnat.Nat2N.id, (Nat.eqb_sym s). destruct (Nat.eqb_spec q s) as [->|]; simpl; auto.
        rewrite NX, Ef by auto. reflexivity.
      - destruct (Nat.eqb_spec q s) as [->|]; simpl; auto. rewrite NX, Ef by auto. auto. }
    rewrite G by apply seq_NoDup.
    destruct (existsb (Nat.eqb q) (seq 0 (num_states f))) eqn:E; [now destruct (fin_of f q)|].
    symmetry. apply fin_of_oob. destruct (le_lt_dec (num_states f) q); auto.
    assert (existsb (Nat.eqb q) (seq 0 (num_states f)) = true); [|congruence].
    apply existsb_exists. exists q. rewrite in_seq, Nat.eqb_refl. split; auto. lia.
  Qed.

  (** The number of states read. *)
  Definition mentions (l : list (row K)) (s : nat) : Prop :=
    (exists a b w n, In (RTr (N.of_nat s) a b w n) l) \/ (exists q a b w, In (RTr q a b w (N.of_nat s)) l) \/
    (exists w, In (RFin (N.of_nat s) w) l).
  Lemma parsed_num_bound l : Forall (fun r => match r with RInf _ => False | _ => True end) l ->
    (forall s, mentions l s -> s < parsed_num_states l) /\
    (forall n, parsed_num_states l = S n -> mentions l n).
  Proof.
    intros NI.
    assert (A : forall l0 (r0 : option (row K)), Forall (fun r => match r with RInf _ => False | _ => True end) l0 ->
       (forall r, r0 = Some r -> match r with RInf _ => False | _ => True end) ->
       let base := match r0 with Some r => S (N.to_nat (row_state r)) | None => O end in
       let v := fold_right (fun r m => Nat.max (match r with
                                    | RTr s _ _ _ n => S (Nat.max (N.to_nat s) (N.to_nat n))
                                    | RFin s _ => S (N.to_nat s)
                                    | RInf s => O
                                    end) m) base l0 in
       (forall s, mentions l0 s -> s < v) /\ (forall n, v = S n -> mentions l0 n \/ exists r, r0 = Some r /\ N.to_nat (row_state r) = n)).
    { induction l0 as [|r l0 IH]; intros r0 F B; cbv zeta.
      - split.
        + intros s [(? & ? & ? & ? & [])|[(? & ? & ? & ? & [])|(? & [])]].
        + intros n E. right. destruct r0 as [r|]; [|discriminate]. simpl in E. exists r. split; auto; lia.
      - destruct (IH r0 (Forall_inv_tail F) B) as [I1 I2]. cbn [fold_right].
        set (v := fold_right _ _ l0) in *. split.
        + intros s M. apply Nat.max_lt_iff.
          destruct M as [(a & b & w & n & [->|I])|[(q & a & b & w & [->|I])|(w & [->|I])]];
            try (left; rewrite ?Nnat.Nat2N.id; lia); right; apply I1; unfold mentions; eauto 9.
        + intros n E. apply Forall_inv in F.
          assert (MT : mentions l0 n -> mentions (r :: l0) n).
          { intros [(a & b & w & m & I)|[(q & a & b & w & I)|(w & I)]]; unfold mentions; simpl; eauto 9. }
          destruct r as [s a b w m|s w|s]; [| |tauto].
          * destruct (Nat.max_spec (S (Nat.max (N.to_nat s) (N.to_nat m))) v) as [[_ X]|[_ X]]; rewrite X in E.
            { destruct (I2 n E); auto. }
            left. injection E as E. destruct (Nat.max_spec (N.to_nat s) (N.to_nat m)) as [[_ Y]|[_ Y]]; rewrite Y in E.
            { right. left. exists s, a, b, w. left. f_equal; lia. }
            { left. exists a, b, w, m. left. f_equal; lia. }
          * destruct (Nat.max_spec (S (N.to_nat s)) v) as [[_ X]|[_ X]]; rewrite X in E.
            { destruct (I2 n E); auto. }
            left. right. right. exists w. left. f_equal. lia. }
    destruct (A l (hd_error l) NI) as [A1 A2].
    { intros r E. destruct l; [discriminate|]. injection E as <-. exact (Forall_inv NI). }
    assert (BB : match hd_error l with Some r => S (N.to_nat (row_state r)) | None => O end =
                 match l with r :: _ => S (N.to_nat (row_state r)) | [] => O end) by (destruct l; auto).
    rewrite BB in A1, A2. split; [exact A1|]. intros n E. destruct (A2 n E) as [H|(r & H & X)]; auto.
    destruct l as [|r' l]; [discriminate|]. injection H as ->. apply Forall_inv in NI.
    destruct r as [s a b w m|s w|s]; simpl in X; [| |tauto].
    - left. exists a, b, w, m. left. f_equal; lia.
    - right. right. exists w. left. f_equal; lia.
  Qed.

  Lemma rows_mention f s0 s : s0 < num_states f -> mentions (rows f s0) s <->
    trs_of f s <> [] \/ (exists q t, In t (trs_of f q) /\ ns t = s) \/ fin_of f s <> None.
  Proof.
    intros H. unfold mentions.
    assert (T : forall q a b w n, In (RTr q a b w n) (rows f s0) <-> exists t, In t (trs_of f (N.to_nat q)) /\
       a = N.of_nat (il t) /\ b = N.of_nat (ol t) /\ w = Some (wgt t) /\ n = N.of_nat (ns t)).
    { intros q a b w n. unfold rows. rewrite in_app_iff, !in_flat_map. split.
      - intros [(x & I & J)|(x & I & J)].
        + unfold trows in J. apply in_map_iff in J as (t & [= <- <- <- <- <-] & J). exists t. rewrite Nnat.Nat2N.id. auto.
        + unfold frows in J. destruct (fin_of f x); simpl in J; intuition discriminate.
      - intros (t & I & -> & -> & -> & ->). left. exists (N.to_nat q). rewrite order_in by auto. split.
        + eapply trs_of_in; eauto.
        + unfold trows. apply in_map_iff. exists t. rewrite Nnat.N2Nat.id. auto. }
    assert (F : forall q w, In (RFin q w) (rows f s0) <-> exists x, w = Some x /\ fin_of f (N.to_nat q) = Some x).
    { intros q w. unfold rows. rewrite in_app_iff, !in_flat_map. split.
      - intros [(x & I & J)|(x & I & J)].
        + unfold trows in J. apply in_map_iff in J as (t & J & _). discriminate.
        + unfold frows in J. destruct (fin_of f x) as [k|] eqn:E; simpl in J; [|tauto].
          destruct J as [[= <- <-]|[]]. exists k. rewrite Nnat.Nat2N.id. auto.
      - intros (x & -> & E). right. exists (N.to_nat q). split.
        + apply in_seq. apply fin_of_some in E. lia.
        + unfold frows. rewrite E, Nnat.N2Nat.id. simpl. auto. }
    split.
    - intros [(a & b & w & n & I)|[(q & a & b & w & I)|(w & I)]].
      + apply T in I as (t & I & _). rewrite Nnat.Nat2N.id in I. left. intros E. rewrite E in I. destruct I.
      + apply T in I as (t & I & _ & _ & _ & E). right. left. exists (N.to_nat q), t. split; auto. lia.
      + apply F in I as (x & _ & E). rewrite Nnat.Nat2N.id in E. right. right. congruence.
    - intros [I|[(q & t & I & <-)|I]].
      + destruct (trs_of f s) as [|t l] eqn:E; [congruence|]. left. do 4 eexists. apply T. exists t.
        rewrite Nnat.Nat2N.id, E. split; [left; reflexivity|]. repeat split.
      + right. left. do 4 eexists. apply T. exists t. rewrite (Nnat.Nat2N.id q : N.to_nat (N.of_nat q) = q). repeat split; eauto.
      + destruct (fin_of f s) as [x|] eqn:E; [|congruence]. right. right. eexists. apply F. exists x. rewrite Nnat.Nat2N.id. auto.
  Qed.

  (** The state of the first row. *)
  Definition first_state (l : list (row K)) : option nat := match l with r :: _ => Some (N.to_nat (row_state r)) | [] => None end.
  Lemma first_state_app l l' : first_state (l ++ l') = match first_state l with Some s => Some s | None => first_state l' end.
  Proof. destruct l; auto. Qed.
  Lemma first_trows f s : first_state (trows f s) = match trs_of f s with [] => None | _ => Some s end.
  Proof. unfold trows. destruct (trs_of f s); simpl; auto. now rewrite Nnat.Nat2N.id. Qed.
  Lemma first_frows f s : first_state (frows f s) = match fin_of f s with None => None | _ => Some s end.
  Proof. unfold frows. destruct (fin_of f s); simpl; auto. now rewrite Nnat.Nat2N.id. Qed.
End T.
